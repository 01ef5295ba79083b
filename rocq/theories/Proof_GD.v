(** Lemmas about the gradient descent classes. *)
From Verif Require Import NPReal Py IPS Model_SetUp Spec_Opt Proof_Smooth Spec_GD Model_GD.
From Coq Require Import List Lia FunctionalExtensionality.
Import ListNotations.
Local Open Scope R_scope.

Section GD.
Context {I : Type}.
Variable grad : nat -> arr I -> arr I.
Variable prox : arr I -> arr I -> arr I.
Notation step := (gd_step grad prox).
Notation after := (gd_after grad prox).

Lemma step_consts idx (s : gd I) : d_class (step idx s) = d_class s /\ d_eps (step idx s) = d_eps s /\
  d_epoch_size (step idx s) = d_epoch_size s /\ d_eta_update (step idx s) = d_eta_update s /\
  d_calls (step idx s) = S (d_calls s) /\ d_x_new (step idx s) = d_x_old (step idx s).
Proof.
  unfold gd_step. destruct (update_dir s idx _) as [[dir bp] mem]. destruct (update_speed s _) as [sp gp].
  cbn. repeat split.
Qed.

Lemma after_consts n (s : gd I) : d_class (after n s) = d_class s /\ d_eps (after n s) = d_eps s /\
  d_epoch_size (after n s) = d_epoch_size s /\ d_eta_update (after n s) = d_eta_update s /\
  d_calls (after n s) = (n + d_calls s)%nat.
Proof.
  induction n as [|n IH]; [repeat split|]. cbn [gd_after].
  destruct (step_consts n (after n s)) as (A1 & A2 & A3 & A4 & A5 & _).
  destruct IH as (B1 & B2 & B3 & B4 & B5). rewrite A1, A2, A3, A4, A5, B1, B2, B3, B4, B5. repeat split.
Qed.

Lemma after_new n (s : gd I) : d_x_new s = d_x_old s -> d_x_new (after n s) = d_x_old (after n s).
Proof. destruct n as [|n]; [trivial|]. intros _. apply step_consts. Qed.

Lemma eta_const n (s : gd I) : d_eta_update s = None -> d_eta (after n s) = d_eta s.
Proof.
  intros E. induction n as [|n IH]; [reflexivity|]. cbn [gd_after]. unfold gd_step at 1.
  destruct (update_dir _ _ _) as [[dir bp] mem]. destruct (update_speed _ _) as [sp gp]. cbn [d_eta].
  destruct (after_consts n s) as (_ & _ & _ & -> & _). rewrite E. exact IH.
Qed.

(** Loop. *)
Lemma metrics_data mx i (metric : nat -> gd I -> list bool) hm period (s s' : alg_state (gd I)) tr tr' :
  metrics_step conv (alg_metrics metric) hm period mx i s tr = Ok (s', tr') -> data s' = data s.
Proof.
  unfold metrics_step. destruct hm; [|intros Q; injection Q as <- _; reflexivity].
  destruct period as [m|]; [|intros Q; injection Q as <- _; reflexivity].
  destruct (m =? 0)%Z; [discriminate|]. cbn. intros Q; injection Q as <- _; reflexivity.
Qed.

Lemma run_from cost metric hm period mx n i (s s' : alg_state (gd I)) s0 tr tr' :
  data s = after i s0 ->
  iterations_from (gd_update grad prox cost) conv (alg_metrics metric) hm period mx n i s tr = Ok (s', tr') ->
  exists N, (N <= n)%nat /\ ((0 < n)%nat -> (0 < N)%nat) /\ data s' = after (i + N) s0.
Proof.
  revert i s tr. induction n as [|n IH]; intros i s tr Es.
  - cbn. intros E. injection E as E _. subst. exists 0%nat. split; [lia|]. split; [lia|]. rewrite Nat.add_0_r. congruence.
  - cbn [iterations_from]. unfold gd_update at 1. destruct (Nat.eqb _ 0); [discriminate|]. unfold alg_update at 1. cbn [bind].
    set (s1 := end_of_update _ _ _ _).
    assert (E1 : data s1 = after (S i) s0) by (unfold s1, end_of_update; destruct cost; cbn [data gd_after]; rewrite Es; reflexivity).
    clearbody s1. destruct (metrics_step conv (alg_metrics metric) hm period mx i s1 (tr ++ [EUpdate i])) as [[s2 tr2]|] eqn:E; cbn [bind]; [|discriminate].
    apply metrics_data in E. destruct (conv s2).
    + intros Q. injection Q as <- <-. exists 1%nat. split; [lia|]. split; [lia|]. rewrite Nat.add_1_r. congruence.
    + intros Q. destruct (IH (S i) s2 tr2 ltac:(congruence) Q) as (N & L & _ & EN). exists (S N). split; [lia|]. split; [lia|].
      rewrite EN. f_equal. lia.
Qed.

Lemma iterate_ok cost metric hm period n (s : gd I) x :
  gd_iterate grad prox cost metric hm period n s = Ok x ->
  exists N, (N <= n)%nat /\ ((0 < n)%nat -> (0 < N)%nat) /\ x = d_x_new (after N s).
Proof.
  unfold gd_iterate. destruct (run_alg _ _ _ _ _ _ _) as [[s' tr']|] eqn:E; cbn [bind]; [|discriminate].
  intros Q. injection Q as <-. apply (run_from cost metric hm period _ _ _ _ _ s) in E; [|reflexivity].
  destruct E as (N & L & P & E). exists N. split; [exact L|]. split; [exact P|]. cbn [fst]. rewrite E. reflexivity.
Qed.

Lemma iterate_plain metric period n (s : gd I) : d_epoch_size s <> 0%nat ->
  gd_iterate grad prox None metric false period n s = Ok (d_x_new (after n s)).
Proof.
  intros He. unfold gd_iterate, run_alg.
  enough (G : forall n mx i tr (a : alg_state (gd I)), data a = after i s -> conv a = false ->
    exists s' tr', iterations_from (gd_update grad prox None) conv (alg_metrics metric) false period mx n i a tr = Ok (s', tr') /\
      data s' = after (i + n) s).
  { destruct (G n n 0%nat [] (mk_alg s [] false) eq_refl eq_refl) as (s' & tr' & E & D). rewrite E. cbn [bind fst]. rewrite D. reflexivity. }
  clear n. induction n as [|n IH]; intros mx i tr a Ea Ec.
  - cbn. exists a, tr. split; [reflexivity|]. rewrite Nat.add_0_r. exact Ea.
  - cbn [iterations_from]. unfold gd_update at 1. rewrite Ea.
    assert (Ee : d_epoch_size (after i s) = d_epoch_size s) by apply after_consts. rewrite Ee.
    destruct (Nat.eqb_spec (d_epoch_size s) 0); [contradiction|]. unfold alg_update at 1. cbn [bind end_of_update].
    unfold metrics_step at 1. cbn [bind conv]. rewrite Ec.
    destruct (IH mx (S i) (tr ++ [EUpdate i]) (mk_alg (step i (data a)) (flags a) false)) as (s' & tr' & E & D).
    + cbn [data gd_after]. rewrite Ea. reflexivity.
    + reflexivity.
    + exists s', tr'. split; [exact E|]. rewrite D. f_equal. lia.
Qed.

(** Gradient seen by update k of a run from s. *)
Definition seen (s : gd I) (k : nat) : arr I := grad (d_calls (after k s)) (d_x_old (after k s)).
End GD.

Section Classes.
Context {I : Type}.
Variable grad : nat -> arr I -> arr I.
Variable prox : arr I -> arr I -> arr I.
Notation step := (gd_step grad prox).
Notation after := (gd_after grad prox).
Notation run_idx := (gd_run_idx grad prox).
Notation seen := (seen grad prox).
Implicit Types s : gd I.

Lemma epoch_after n s : d_epoch_size (after n s) = d_epoch_size s. Proof. apply after_consts. Qed.
Lemma class_after n s : d_class (after n s) = d_class s. Proof. apply after_consts. Qed.
Lemma eps_after n s : d_eps (after n s) = d_eps s. Proof. apply after_consts. Qed.

(** The step of any class, in terms of the direction and speed it has just computed. *)
Definition new_dir idx s : arr I := fst (fst (update_dir s idx (grad (d_calls s) (d_x_old s)))).
Definition new_speed s : arr I := fst (update_speed s (grad (d_calls s) (d_x_old s))).
Definition step_size s : arr I := fun i => d_eta s / (sqrt (new_speed s i) + d_eps s).
Definition descent idx s : arr I := fun i => d_x_old s i - step_size s i * new_dir idx s i.

Lemma x_step idx s : d_x_old (step idx s) =
  if Nat.eqb (Nat.modulo idx (d_epoch_size s)) 0 then prox (descent idx s) (step_size s) else descent idx s.
Proof.
  unfold gd_step, descent, step_size, new_dir, new_speed.
  destruct (update_dir s idx _) as [[dir bp] mem]. destruct (update_speed s _) as [sp gp]. cbn.
  destruct (Nat.eqb _ 0); reflexivity.
Qed.
Lemma speed_step idx s : d_speed (step idx s) = new_speed s.
Proof.
  unfold gd_step, new_speed. destruct (update_dir s idx _) as [[dir bp] mem]. destruct (update_speed s _) as [sp gp]. reflexivity.
Qed.
Lemma dir_step idx s : d_dir (step idx s) =
  if Nat.eqb (Nat.modulo idx (d_epoch_size s)) 0 then match d_class s with Momentum _ => full 0 | _ => new_dir idx s end else new_dir idx s.
Proof.
  unfold gd_step, new_dir. destruct (update_dir s idx _) as [[dir bp] mem]. destruct (update_speed s _) as [sp gp]. reflexivity.
Qed.

(** Unit step: Vanilla and Momentum. *)
Lemma unit_speed n s : (d_class s = Vanilla \/ exists b, d_class s = Momentum b) -> d_speed s = full 1 -> d_eps s = 0 ->
  new_speed (after n s) = full 1 /\ step_size (after n s) = full (d_eta (after n s)).
Proof.
  intros C E1 E2.
  assert (N : forall n, new_speed (after n s) = full 1).
  { clear n. induction n as [|n IH].
    - cbn [gd_after]. unfold new_speed, update_speed. destruct C as [->|[b ->]]; cbn; exact E1.
    - cbn [gd_after]. rewrite <- (speed_step n) in IH. unfold new_speed at 1, update_speed.
      destruct (step_consts grad prox n (after n s)) as (-> & _). rewrite class_after.
      destruct C as [->|[b ->]]; cbn; exact IH. }
  split; [apply N|]. unfold step_size. rewrite N, eps_after, E2. extensionality i. unfold full.
  rewrite sqrt_1. field.
Qed.

(** Momentum *)
Lemma momentum_dir n s beta : d_class s = Momentum beta ->
  new_dir n (after n s) = fun i => beta * d_dir (after n s) i + seen s n i.
Proof. intros C. unfold new_dir, update_dir. rewrite class_after, C. reflexivity. Qed.

Lemma momentum_reset n s beta : d_class s = Momentum beta -> Nat.modulo n (d_epoch_size s) = 0%nat ->
  d_dir (after (S n) s) = full 0.
Proof. intros C E. cbn [gd_after]. rewrite dir_step, epoch_after, E, class_after, C. reflexivity. Qed.

Lemma momentum_between s beta k j : d_class s = Momentum beta -> Nat.modulo k (d_epoch_size s) = 0%nat ->
  (j < d_epoch_size s)%nat ->
  new_dir (k + 1 + j) (after (k + 1 + j) s) = heavy_ball beta (fun a => seen s (k + 1 + a)%nat) j.
Proof.
  intros C E. induction j as [|j IH]; intros L; rewrite (momentum_dir _ _ _ C).
  - rewrite !Nat.add_0_r. replace (k + 1)%nat with (S k) by lia. rewrite (momentum_reset k s beta C E).
    cbn [heavy_ball]. rewrite Nat.add_0_r. extensionality i. unfold full. ring.
  - cbn [heavy_ball]. rewrite <- IH by lia. extensionality i. f_equal. f_equal.
    replace (k + 1 + S j)%nat with (S (k + 1 + j)) by lia. cbn [gd_after]. rewrite dir_step, epoch_after.
    replace (Nat.modulo (k + 1 + j) (d_epoch_size s)) with (S j); [reflexivity|].
    apply Nat.mod_divides in E; [|lia]. destruct E as [q ->].
    replace (d_epoch_size s * q + 1 + j)%nat with (S j + q * d_epoch_size s)%nat by lia.
    rewrite Nat.mod_add by lia. rewrite Nat.mod_small by lia. reflexivity.
Qed.

(** SAGA *)
Lemma sum_below_ext n f g : (forall c, (c < n)%nat -> f c = g c) -> sum_below n f = sum_below n g.
Proof. induction n as [|n IH]; intros E; [reflexivity|]. cbn. rewrite IH, E by (intros; try apply E; lia). reflexivity. Qed.
Lemma sum_below_replace n f c v : (c < n)%nat ->
  sum_below n (fun k => if Nat.eqb k c then v else f k) = sum_below n f - f c + v.
Proof.
  induction n as [|n IH]; intros L; [lia|]. cbn. destruct (Nat.eqb_spec n c) as [->|Ne].
  - rewrite (sum_below_ext c _ f); [lra|]. intros k Hk. destruct (Nat.eqb_spec k c); [lia|reflexivity].
  - rewrite IH by lia. lra.
Qed.

Definition saga_inv s := d_class s = Saga /\ (0 < d_epoch_size s)%nat /\
  forall i, d_dir s i = sum_below (d_epoch_size s) (fun c => d_memory s c i).

Lemma saga_memory idx s : d_class s = Saga -> d_memory (step idx s) =
  fun c => if Nat.eqb c (Nat.modulo idx (d_epoch_size s)) then grad (d_calls s) (d_x_old s) else d_memory s c.
Proof.
  intros C. unfold gd_step, update_dir. rewrite C. cbv beta iota zeta. destruct (update_speed s _) as [sp gp]. reflexivity.
Qed.
Lemma saga_dir idx s : d_class s = Saga -> d_dir (step idx s) =
  fun i => d_dir s i - d_memory s (Nat.modulo idx (d_epoch_size s)) i + grad (d_calls s) (d_x_old s) i.
Proof.
  intros C. rewrite dir_step. unfold new_dir, update_dir. rewrite C. cbn. destruct (Nat.eqb _ 0); reflexivity.
Qed.

Lemma saga_step_inv idx s : saga_inv s -> saga_inv (step idx s).
Proof.
  intros (C & L & E). destruct (step_consts grad prox idx s) as (E1 & _ & E3 & _).
  split; [congruence|]. split; [rewrite E3; exact L|]. intros i. rewrite E3, saga_dir, saga_memory by exact C.
  rewrite E, <- (sum_below_replace _ (fun c => d_memory s c i)) by (apply Nat.mod_upper_bound; lia).
  apply sum_below_ext. intros c _. destruct (Nat.eqb _ _); reflexivity.
Qed.
Lemma saga_run_inv l s : saga_inv s -> saga_inv (run_idx l s).
Proof. intros Hs. induction l as [|idx l IH]; [exact Hs|]. cbn. apply saga_step_inv. exact IH. Qed.

Lemma saga_latest n s c : d_class s = Saga -> d_memory s c = full 0 ->
  is_latest (d_epoch_size s) c n (seen s) (d_memory (after n s) c).
Proof.
  intros C E. induction n as [|n IH].
  - right. split; [intros j Hj; lia|exact E].
  - cbn [gd_after]. rewrite saga_memory by (rewrite class_after; exact C). rewrite epoch_after.
    destruct (Nat.eqb_spec c (Nat.modulo n (d_epoch_size s))) as [Ec|Ne].
    + left. exists n. split; [lia|]. split; [auto|]. split; [reflexivity|]. intros j' Hj. lia.
    + destruct IH as [(j & Hj & Mj & Vj & Lj)|[Hn V]].
      * left. exists j. split; [lia|]. split; [exact Mj|]. split; [exact Vj|]. intros j' Hj'.
        destruct (Nat.eq_dec j' n) as [->|]; [auto|]. apply Lj. lia.
      * right. split; [|exact V]. intros j Hj. destruct (Nat.eq_dec j n) as [->|]; [auto|]. apply Hn. lia.
Qed.

(** AdaGrad, RMSprop *)
Lemma abs_sq a : Rabs a ^ 2 = a ^ 2. Proof. rewrite <- !Rsqr_pow2. symmetry. apply Rsqr_abs. Qed.

Lemma ada_speed n s i : d_class s = Ada -> d_speed (after n s) i = d_speed s i + sum_below n (fun k => seen s k i ^ 2).
Proof.
  intros C. induction n as [|n IH]; [cbn; lra|]. cbn [gd_after sum_below]. rewrite speed_step.
  unfold new_speed, update_speed. rewrite class_after, C. cbn [fst]. rewrite IH, abs_sq. fold (seen s n). lra.
Qed.

Lemma rms_speed_step n s i gamma : d_class s = RMSprop gamma ->
  d_speed (after (S n) s) i = gamma * d_speed (after n s) i + (1 - gamma) * seen s n i ^ 2.
Proof.
  intros C. cbn [gd_after]. rewrite speed_step. unfold new_speed, update_speed. rewrite class_after, C. cbn [fst].
  rewrite abs_sq. reflexivity.
Qed.
Lemma sum_below_scal n a f : a * sum_below n f = sum_below n (fun k => a * f k).
Proof. induction n as [|n IH]; cbn; [ring|]. rewrite <- IH. ring. Qed.
Lemma rms_speed n s i gamma : d_class s = RMSprop gamma -> d_speed s i = 0 ->
  d_speed (after n s) i = sum_below n (fun k => (1 - gamma) * gamma ^ (n - 1 - k) * seen s k i ^ 2).
Proof.
  intros C Z. induction n as [|n IH]; [exact Z|]. rewrite (rms_speed_step n s i gamma C), IH, sum_below_scal.
  cbn [sum_below]. replace (S n - 1 - n)%nat with 0%nat by lia. rewrite pow_O, Rmult_1_r. f_equal.
  apply sum_below_ext. intros k Hk. replace (S n - 1 - k)%nat with (S (n - 1 - k)) by lia. cbn [pow]. ring.
Qed.

(** ADAM on a constant gradient *)
Lemma adam_pow n s gamma beta : d_class s = Adam gamma beta -> d_beta_pow s = 1 -> d_gamma_pow s = 1 ->
  d_beta_pow (after n s) = beta ^ n /\ d_gamma_pow (after n s) = gamma ^ n.
Proof.
  intros C E1 E2. induction n as [|n [IH1 IH2]]; [split; assumption|].
  cbn [gd_after]. unfold gd_step, update_dir, update_speed. rewrite class_after, C. cbn. rewrite IH1, IH2. split; ring.
Qed.
Lemma adam_dir n s gamma beta i : d_class s = Adam gamma beta -> d_beta_pow s = 1 -> d_gamma_pow s = 1 ->
  d_dir (after (S n) s) i = 1 / (1 - beta ^ S n) * (beta * d_dir (after n s) i + (1 - beta) * seen s n i).
Proof.
  intros C E1 E2. destruct (adam_pow n s gamma beta C E1 E2) as [P _]. cbn [gd_after]. rewrite dir_step, class_after, C.
  unfold new_dir, update_dir. rewrite class_after, C. cbn [fst]. rewrite P.
  replace (beta ^ n * beta) with (beta ^ S n) by (cbn; ring). destruct (Nat.eqb _ 0); reflexivity.
Qed.
Lemma adam_speed n s gamma beta i : d_class s = Adam gamma beta -> d_beta_pow s = 1 -> d_gamma_pow s = 1 ->
  d_speed (after (S n) s) i = 1 / (1 - gamma ^ S n) * (gamma * d_speed (after n s) i + (1 - gamma) * seen s n i ^ 2).
Proof.
  intros C E1 E2. destruct (adam_pow n s gamma beta C E1 E2) as [_ P]. cbn [gd_after]. rewrite speed_step.
  unfold new_speed, update_speed. rewrite class_after, C. cbn [fst]. rewrite P, abs_sq.
  replace (gamma ^ n * gamma) with (gamma ^ S n) by (cbn; ring). reflexivity.
Qed.

(** The common recursion a_(n+1) = (b a_n + (1-b) c) / (1 - b^(n+1)): a_n = r_n c with r_1 = 1, r_n > 1 later. *)
Lemma bias_recursion b (a : nat -> R) c : 0 < b < 1 -> a 0%nat = 0 ->
  (forall n, a (S n) = 1 / (1 - b ^ S n) * (b * a n + (1 - b) * c)) ->
  a 1%nat = c /\ forall n, exists r, 1 < r /\ a (S (S n)) = r * c.
Proof.
  intros Hb Z St.
  assert (P : forall n, 0 < 1 - b ^ S n < 1).
  { intros n. assert (0 < b ^ S n) by (apply pow_lt; lra). assert (b ^ S n < 1) by (apply pow_lt_1_compat; [lra|lia]). lra. }
  assert (A1 : a 1%nat = c) by (rewrite St, Z; cbn; field; lra). split; [exact A1|].
  assert (G : forall n r, 1 <= r -> a (S n) = r * c -> exists r', 1 < r' /\ a (S (S n)) = r' * c).
  { intros n r Hr E. exists ((b * r + (1 - b)) / (1 - b ^ S (S n))). specialize (P (S n)). split.
    - apply Rmult_lt_reg_r with (1 - b ^ S (S n)); [lra|]. unfold Rdiv. rewrite Rmult_assoc, Rinv_l by lra. nra.
    - rewrite St, E. field. lra. }
  induction n as [|n (r & Hr & E)].
  - apply (G 0%nat 1); [lra|]. rewrite A1. lra.
  - apply (G (S n) r); [lra|exact E].
Qed.
End Classes.
