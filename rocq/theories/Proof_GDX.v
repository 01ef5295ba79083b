(** Lemmas for C144: runs without division by zero. *)
From Verif Require Import NPReal Py IPS Model_SetUp Model_Stats Spec_GD Model_GD Proof_GD Spec_GDX Model_GDX.
From Coq Require Import List Lia FunctionalExtensionality.
Import ListNotations.
Local Open Scope R_scope.

Section Finite.
Context {I : Type}.
Definition fin_state (s : gd I) : gdx I :=
  mk_gdx (d_class s) (fin (d_x_old s)) (fin (d_x_new s)) (fin (d_dir s)) (fin (d_speed s)) (d_eta s) (d_eps s) (d_epoch_size s) (d_eta_update s)
    (d_beta_pow s) (d_gamma_pow s) (fun c => fin (d_memory s c)) (d_calls s).
Lemma fin_init c (x : I -> R) eta eps e eu : gdx_init c (fin x) eta eps e eu = (do s <- gd_init c x eta eps e eu; Ok (fin_state s)).
Proof. unfold gdx_init, gd_init. destruct c; try destruct (in_range_closed _); try destruct (_ && _)%bool; reflexivity. Qed.
Variables (gradX : nat -> (I -> fval) -> I -> fval) (proxX : (I -> fval) -> (I -> fval) -> I -> fval).
Variables (grad : nat -> (I -> R) -> I -> R) (prox : (I -> R) -> (I -> R) -> I -> R).
Hypothesis Ext : extends gradX proxX grad prox.
Definition safe (s : gd I) : Prop := forall i, 0 <= new_speed grad s i /\ sqrt (new_speed grad s i) + d_eps s <> 0.
Lemma fin_step idx s : safe s -> gdx_step gradX proxX idx (fin_state s) = fin_state (gd_step grad prox idx s).
Proof.
  intros Sf. unfold gdx_step, gd_step. cbn [fin_state x_calls x_x_old]. fold (fin_state s). destruct Ext as [Eg Ep]. rewrite Eg.
  unfold safe, new_speed in Sf. set (g := grad (d_calls s) (d_x_old s)) in *.
  assert (D : x_update_dir (fin_state s) idx (fin g) = (fin (fst (fst (update_dir s idx g))), snd (fst (update_dir s idx g)), fun c => fin (snd (update_dir s idx g) c))).
  { unfold x_update_dir, update_dir. cbn [fin_state x_class x_dir x_memory x_beta_pow x_epoch_size]. destruct (d_class s); try reflexivity.
    cbn [fst snd]. f_equal. extensionality c. destruct (Nat.eqb _ _); reflexivity. }
  assert (Sp : x_update_speed (fin_state s) (fin g) = (fin (fst (update_speed s g)), snd (update_speed s g))).
  { unfold x_update_speed, update_speed. cbn [fin_state x_class x_speed x_gamma_pow]. destruct (d_class s); reflexivity. }
  rewrite D, Sp. destruct (update_dir s idx g) as [[dir bp] mem]. destruct (update_speed s g) as [sp gp]. cbn [fst snd] in *.
  cbn [fin_state x_class x_x_old x_eta x_eps x_epoch_size x_eta_update].
  set (st := fun i => d_eta s / (sqrt (sp i) + d_eps s)).
  assert (St : forall i, xdiv (d_eta s) (xadd (xsqrt (fin sp i)) (Fin (d_eps s))) = fin st i).
  { intros i. destruct (Sf i) as [P N]. unfold fin, xsqrt. destruct (Rlt_dec (sp i) 0); [lra|]. cbn. destruct (Req_EM_T _ 0); [contradiction|reflexivity]. }
  cbv zeta. replace (fun i => xsub (fin (d_x_old s) i) (xmul (xdiv (d_eta s) (xadd (xsqrt (fin sp i)) (Fin (d_eps s)))) (fin dir i)))
    with (fin (fun i => d_x_old s i - st i * dir i)) by (extensionality i; rewrite St; reflexivity).
  replace (fun i => xdiv (d_eta s) (xadd (xsqrt (fin sp i)) (Fin (d_eps s)))) with (fin st) by (extensionality i; rewrite St; reflexivity).
  rewrite Ep. unfold fin_state. cbn. destruct (Nat.eqb _ 0); [|reflexivity]. destruct (d_class s); reflexivity.
Qed.
Lemma fin_run n s : (forall k, (k < n)%nat -> safe (gd_after grad prox k s)) -> gdx_after gradX proxX n (fin_state s) = fin_state (gd_after grad prox n s).
Proof.
  intros Q. induction n as [|n IH]; [reflexivity|]. cbn [gdx_after gd_after]. rewrite IH by (intros k Hk; apply Q; lia). apply fin_step, Q. lia.
Qed.

(** What keeps the denominators away from zero. *)
Definition sound (s : gd I) : Prop :=
  0 <= d_gamma_pow s <= 1 /\
  match d_class s with
  | Vanilla | Momentum _ => d_eps s = 0 /\ forall i, d_speed s i = 1
  | RMSprop gamma => 0 < d_eps s /\ 0 <= gamma <= 1 /\ forall i, 0 <= d_speed s i
  | Adam gamma _ => 0 < d_eps s /\ 0 <= gamma < 1 /\ forall i, 0 <= d_speed s i
  | _ => 0 < d_eps s /\ forall i, 0 <= d_speed s i
  end.
Lemma sound_step idx s : sound s -> safe s /\ sound (gd_step grad prox idx s).
Proof.
  intros [Hp Hs].
  assert (Pos : forall i, 0 <= new_speed grad s i /\ (match d_class s with Vanilla | Momentum _ => new_speed grad s i = 1 | _ => True end)).
  { intros i. unfold new_speed, update_speed. set (g := grad _ _). pose proof (pow2_ge_0 (Rabs (g i))) as Sq. set (q := Rabs (g i) ^ 2) in *.
    destruct (d_class s) as [| | |gamma|beta|gamma beta|]; cbn [fst]; repeat match goal with H : _ /\ _ |- _ => destruct H end;
    repeat match goal with H : forall _ : I, _ |- _ => specialize (H i) end; try (split; [|exact Logic.I]); try lra.
    - fold q. lra.
    - fold q. assert (0 <= gamma * d_speed s i) by (apply Rmult_le_pos; lra). assert (0 <= (1 - gamma) * q) by (apply Rmult_le_pos; lra). lra.
    - fold q. assert (G : d_gamma_pow s * gamma <= gamma) by (rewrite <- (Rmult_1_l gamma) at 2; apply Rmult_le_compat_r; lra).
      assert (0 <= gamma * d_speed s i) by (apply Rmult_le_pos; lra). assert (0 <= (1 - gamma) * q) by (apply Rmult_le_pos; lra).
      apply Rmult_le_pos; [|lra]. unfold Rdiv. rewrite Rmult_1_l. left. apply Rinv_0_lt_compat. lra. }
  split.
  - intros i. destruct (Pos i) as [P Q]. split; [exact P|]. pose proof (sqrt_pos (new_speed grad s i)) as R.
    destruct (d_class s); repeat match goal with H : _ /\ _ |- _ => destruct H end; try lra; rewrite Q, sqrt_1; lra.
  - assert (Ns : forall i, d_speed (gd_step grad prox idx s) i = new_speed grad s i).
    { intros i. unfold gd_step, new_speed. destruct (update_dir _ _ _) as [[dir bp] mem]. destruct (update_speed _ _) as [sp gp]. reflexivity. }
    destruct (step_consts grad prox idx s) as (C1 & C2 & _). split.
    + unfold gd_step, update_dir, update_speed. destruct (d_class s) as [| | |gamma|beta|gamma beta|]; cbn [d_gamma_pow]; try exact Hp.
      destruct Hs as (_ & Hg & _). split; [apply Rmult_le_pos; lra|]. rewrite <- (Rmult_1_l 1). apply Rmult_le_compat; lra.
    + rewrite C1, C2. destruct (d_class s); repeat match goal with H : _ /\ _ |- _ => destruct H end; repeat split; try assumption;
      intros i; rewrite Ns; apply (Pos i).
Qed.
Lemma sound_run n s : sound s -> sound (gd_after grad prox n s).
Proof. intros Q. induction n as [|n IH]; [exact Q|]. apply sound_step, IH. Qed.
End Finite.
