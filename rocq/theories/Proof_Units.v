(** Lemmas for C140: images of a run under a change of units, of origin or of the order of the entries,
    and the size of ADAM's steps. *)
From Verif Require Import NPReal Py IPS Model_SetUp Spec_Opt Proof_Smooth Spec_GD Model_GD Proof_GD.
From Coq Require Import List Lia FunctionalExtensionality.
Import ListNotations.
Local Open Scope R_scope.

(** * Images of a state *)
Section Image.
Context {I J : Type}.
Variables (fx fd fs : arr I -> arr J) (eta_map eps_map : R -> R) (eu_map : option (R -> nat -> R) -> option (R -> nat -> R)).
Definition image (s : gd I) : gd J :=
  mk_gd (d_class s) (fx (d_x_old s)) (fx (d_x_new s)) (fd (d_dir s)) (fs (d_speed s)) (eta_map (d_eta s)) (eps_map (d_eps s))
    (d_epoch_size s) (eu_map (d_eta_update s)) (d_beta_pow s) (d_gamma_pow s) (fun c => fd (d_memory s c)) (d_calls s).
Lemma image_run grad prox grad' prox' :
  (forall s idx, image (gd_step grad prox idx s) = gd_step grad' prox' idx (image s)) ->
  forall n s, gd_after grad' prox' n (image s) = image (gd_after grad prox n s).
Proof. intros St n s. induction n as [|n IH]; [reflexivity|]. cbn [gd_after]. rewrite IH. symmetry. apply St. Qed.
Lemma image_run_inv grad prox grad' prox' (P : gd I -> Prop) :
  (forall s idx, P s -> P (gd_step grad prox idx s)) ->
  (forall s idx, P s -> image (gd_step grad prox idx s) = gd_step grad' prox' idx (image s)) ->
  forall n s, P s -> gd_after grad' prox' n (image s) = image (gd_after grad prox n s).
Proof.
  intros Pp St n s Hs. assert (Q : P (gd_after grad prox n s)) by (induction n as [|n IH]; [exact Hs|apply Pp, IH]).
  revert Q. induction n as [|n IH]; intros Q; [reflexivity|]. cbn [gd_after].
  assert (Qn : P (gd_after grad prox n s)) by (clear - Pp Hs; induction n as [|n IH]; [exact Hs|apply Pp, IH]).
  rewrite (IH Qn). symmetry. apply St, Qn.
Qed.
End Image.

Lemma mk_gd_eq I c (a a' b b' d d' sp sp' : arr I) e e' p p' n u u' x y m m' k :
  a = a' -> b = b' -> d = d' -> sp = sp' -> e = e' -> p = p' -> u = u' -> m = m' ->
  mk_gd c a b d sp e p n u x y m k = mk_gd c a' b' d' sp' e' p' n u' x y m' k.
Proof. intros; subst; reflexivity. Qed.

Lemma sqrt_scaled c v : 0 < c -> sqrt (c ^ 2 * v) = c * sqrt v.
Proof. intros Hc. rewrite sqrt_mult_alt by (apply pow2_ge_0). f_equal. replace (c ^ 2) with (c * c) by ring. apply sqrt_square. lra. Qed.

(** One update commutes with the image if the pieces of the update do. *)
Lemma image_step I J (fx fd fs : arr I -> arr J) eta_map eps_map eu_map grad prox grad' prox' (r : gd I) idx :
  let T := image fx fd fs eta_map eps_map eu_map in
  (forall k x, grad' k (fx x) = fd (grad k x)) ->
  (forall g, update_dir (T r) idx (fd g) = (fd (fst (fst (update_dir r idx g))), snd (fst (update_dir r idx g)), fun c => fd (snd (update_dir r idx g) c))) ->
  (forall g, update_speed (T r) (fd g) = (fs (fst (update_speed r g)), snd (update_speed r g))) ->
  (forall dir sp : arr I, let st i := d_eta r / (sqrt (sp i) + d_eps r) in
     let st' i := eta_map (d_eta r) / (sqrt (fs sp i) + eps_map (d_eps r)) in
     let y := fun i => d_x_old r i - st i * dir i in let y' := fun i => fx (d_x_old r) i - st' i * fd dir i in
     y' = fx y /\ prox' y' st' = fx (prox y st)) ->
  fd (full 0) = full 0 ->
  match eu_map (d_eta_update r) with Some u => u (eta_map (d_eta r)) idx | None => eta_map (d_eta r) end
    = eta_map (match d_eta_update r with Some u => u (d_eta r) idx | None => d_eta r end) ->
  T (gd_step grad prox idx r) = gd_step grad' prox' idx (T r).
Proof.
  intros T Hg Hd Hs Hx Hz Hu. unfold gd_step. cbn [d_x_old d_calls T image]. fold T. rewrite Hg, Hd, Hs.
  destruct (update_dir r idx _) as [[dir bp] mem]. destruct (update_speed r _) as [sp gp]. cbn [fst snd].
  destruct (Hx dir sp) as [X1 X2]. cbv zeta in X1, X2. unfold T, image. cbn [d_class d_x_old d_x_new d_dir d_speed d_eta d_eps d_epoch_size d_eta_update d_beta_pow d_gamma_pow d_memory d_calls].
  rewrite Hu. destruct (Nat.eqb _ 0); apply mk_gd_eq; try reflexivity; try (symmetry; assumption).
  destruct (d_class r); try reflexivity. exact Hz.
Qed.

(** * ADAM: the direction is bounded by the root of the speed. *)
Section Ratio.
Variables (beta gamma : R) (d s g : nat -> R).
Hypothesis Hb : 0 <= beta.
Hypothesis Hbg : beta <= gamma.
Hypothesis Hg : gamma < 1.
Hypothesis d0 : d 0%nat = 0.
Hypothesis s0 : s 0%nat = 0.
Hypothesis dS : forall n, d (S n) = 1 / (1 - beta ^ S n) * (beta * d n + (1 - beta) * g n).
Hypothesis sS : forall n, s (S n) = 1 / (1 - gamma ^ S n) * (gamma * s n + (1 - gamma) * g n ^ 2).
Lemma pow_range b n : 0 <= b < 1 -> 0 <= b ^ S n <= b.
Proof.
  intros Hr. assert (0 <= b ^ n <= 1) by (clear - Hr; induction n as [|n IH]; cbn; nra). cbn. nra.
Qed.
Lemma ratio_step M n : (1 - beta) / (1 - gamma) <= M -> 0 <= s n -> d n ^ 2 <= M * s n ->
  0 <= s (S n) /\ d (S n) ^ 2 <= M * / (1 - beta ^ S n) * s (S n).
Proof.
  intros HM Ps Hd. rewrite dS, sS.
  pose proof (pow_range beta n ltac:(lra)) as Pb. pose proof (pow_range gamma n ltac:(lra)) as Pg.
  assert (Le : beta ^ S n <= gamma ^ S n) by (apply pow_incr; lra).
  set (b := beta ^ S n) in *. set (c := gamma ^ S n) in *. set (dn := d n) in *. set (sn := s n) in *. set (gn := g n) in *.
  assert (Ib : 0 < / (1 - b)) by (apply Rinv_0_lt_compat; lra). assert (Ic : 0 < / (1 - c)) by (apply Rinv_0_lt_compat; lra).
  assert (M1 : 1 - beta <= M * (1 - gamma)).
  { apply (Rmult_le_compat_r (1 - gamma)) in HM; [|lra]. unfold Rdiv in HM. rewrite Rmult_assoc, Rinv_l, Rmult_1_r in HM by lra. exact HM. }
  assert (M0 : 0 < M) by nra.
  assert (Q2 : 0 <= gn ^ 2) by apply pow2_ge_0.
  assert (T : 0 <= gamma * sn + (1 - gamma) * gn ^ 2) by nra.
  split; [unfold Rdiv; rewrite Rmult_1_l; apply Rmult_le_pos; lra|].
  assert (J : (beta * dn + (1 - beta) * gn) ^ 2 <= beta * dn ^ 2 + (1 - beta) * gn ^ 2).
  { replace (beta * dn ^ 2 + (1 - beta) * gn ^ 2) with ((beta * dn + (1 - beta) * gn) ^ 2 + beta * (1 - beta) * (dn - gn) ^ 2) by ring.
    assert (0 <= beta * (1 - beta) * (dn - gn) ^ 2) by (apply Rmult_le_pos; [nra|apply pow2_ge_0]). lra. }
  assert (K : beta * dn ^ 2 + (1 - beta) * gn ^ 2 <= M * (gamma * sn + (1 - gamma) * gn ^ 2)).
  { assert (beta * dn ^ 2 <= gamma * (M * sn)) by (apply Rmult_le_compat; [lra|apply pow2_ge_0|lra|exact Hd]).
    assert ((1 - beta) * gn ^ 2 <= M * (1 - gamma) * gn ^ 2) by (apply Rmult_le_compat_r; assumption). lra. }
  set (W := M * (gamma * sn + (1 - gamma) * gn ^ 2)) in *.
  assert (W0 : 0 <= W) by (apply Rmult_le_pos; lra).
  replace ((1 / (1 - b) * (beta * dn + (1 - beta) * gn)) ^ 2) with (/ (1 - b) * (/ (1 - b) * (beta * dn + (1 - beta) * gn) ^ 2)) by (field; lra).
  replace (M * / (1 - b) * (1 / (1 - c) * (gamma * sn + (1 - gamma) * gn ^ 2))) with (/ (1 - b) * (/ (1 - c) * W)) by (unfold W; field; lra).
  apply Rmult_le_compat_l; [lra|]. apply Rmult_le_compat; [lra|apply pow2_ge_0|apply Rinv_le_contravar; lra|lra].
Qed.
(** beta + ... + beta^n *)
Definition powers n := sum_below n (fun k => beta ^ S k).
Lemma powers_le n : powers n <= beta / (1 - beta).
Proof.
  assert (E : powers n * (1 - beta) = beta - beta ^ S n).
  { unfold powers. induction n as [|n IH]; [cbn; ring|]. cbn [sum_below]. rewrite Rmult_plus_distr_r, IH. cbn. ring. }
  apply Rmult_le_reg_r with (1 - beta); [lra|]. rewrite E. unfold Rdiv. rewrite Rmult_assoc, Rinv_l by lra.
  pose proof (pow_range beta n ltac:(lra)). lra.
Qed.
Lemma factor n : / (1 - beta ^ S n) <= exp (beta ^ S n / (1 - beta)).
Proof.
  pose proof (pow_range beta n ltac:(lra)) as P. set (b := beta ^ S n) in *.
  apply Rle_trans with (1 + b / (1 - beta)).
  - replace (/ (1 - b)) with (1 + b * / (1 - b)) by (field; lra). unfold Rdiv. apply Rplus_le_compat_l, Rmult_le_compat_l; [lra|].
    apply Rinv_le_contravar; lra.
  - destruct (Req_dec (b / (1 - beta)) 0) as [->|N]; [rewrite exp_0; lra|]. left. apply exp_ineq1, N.
Qed.
Lemma ratio n : 0 <= s n /\ d n ^ 2 <= (1 - beta) / (1 - gamma) * exp (powers n / (1 - beta)) * s n.
Proof.
  assert (K0 : 1 <= (1 - beta) / (1 - gamma)).
  { apply Rmult_le_reg_r with (1 - gamma); [lra|]. unfold Rdiv. rewrite Rmult_assoc, Rinv_l by lra. lra. }
  assert (E1 : forall x, 0 <= x -> 1 <= exp x).
  { intros x Hx. destruct (Req_dec x 0) as [->|N]; [rewrite exp_0; lra|]. pose proof (exp_ineq1 x N). lra. }
  assert (P0 : forall n, 0 <= powers n).
  { clear n. intros n. unfold powers. induction n as [|n IH]; [cbn; lra|]. cbn [sum_below]. pose proof (pow_range beta n ltac:(lra)). lra. }
  assert (Ib : 0 < / (1 - beta)) by (apply Rinv_0_lt_compat; lra).
  induction n as [|n [Ps Hd]].
  - rewrite d0, s0. split; [lra|]. rewrite Rmult_0_r. cbn. lra.
  - set (M := (1 - beta) / (1 - gamma) * exp (powers n / (1 - beta))) in *.
    assert (HM : (1 - beta) / (1 - gamma) <= M).
    { unfold M. rewrite <- (Rmult_1_r ((1 - beta) / (1 - gamma))) at 1. apply Rmult_le_compat_l; [lra|]. apply E1. apply Rmult_le_pos; [apply P0|lra]. }
    destruct (ratio_step M n HM Ps Hd) as [Ps' Hd']. split; [exact Ps'|]. apply Rle_trans with (1 := Hd'). apply Rmult_le_compat_r; [exact Ps'|].
    unfold powers. cbn [sum_below]. fold (powers n). replace ((powers n + beta ^ S n) / (1 - beta)) with (powers n / (1 - beta) + beta ^ S n / (1 - beta)) by (field; lra).
    rewrite exp_plus, <- Rmult_assoc. fold M. apply Rmult_le_compat_l; [lra|apply factor].
Qed.
Lemma ratio_bound n : Rabs (d n) <= sqrt ((1 - beta) / (1 - gamma) * exp (beta / (1 - beta) ^ 2)) * sqrt (s n).
Proof.
  destruct (ratio n) as [Ps Hd].
  assert (K0 : 0 <= (1 - beta) / (1 - gamma)) by (apply Rmult_le_pos; [lra|left; apply Rinv_0_lt_compat; lra]).
  rewrite <- sqrt_mult_alt by (apply Rmult_le_pos; [exact K0|left; apply exp_pos]).
  rewrite <- sqrt_Rsqr_abs. apply sqrt_le_1_alt. rewrite Rsqr_pow2. apply Rle_trans with (1 := Hd). apply Rmult_le_compat_r; [exact Ps|].
  apply Rmult_le_compat_l; [exact K0|]. 
  assert (L : powers n / (1 - beta) <= beta / (1 - beta) ^ 2).
  { replace (beta / (1 - beta) ^ 2) with (beta / (1 - beta) / (1 - beta)) by (field; lra). apply Rmult_le_compat_r; [left; apply Rinv_0_lt_compat; lra|apply powers_le]. }
  destruct L as [L|E]; [left; apply exp_increasing, L|rewrite E; lra].
Qed.
End Ratio.
