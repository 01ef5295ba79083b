(** Theorems about the gradient descent classes: C57-C60, C63-C66 and their part of C47.
    Notation: x k is the point update k starts from, so x n is what iterate(n) returns. *)
From Verif Require Import NPReal Py IPS Model_SetUp Spec_Opt Proof_Smooth Spec_GD Model_GD Proof_GD.
From Coq Require Import List Lia FunctionalExtensionality.
Import ListNotations.
Local Open Scope R_scope.

(** One-entry array. *)
Definition one (r : R) : arr unit := fun _ => r.

Lemma init_ok {I} c (x : arr I) eta eps e eu s : gd_init c x eta eps e eu = Ok s ->
  s = mk_gd c x x (full 0) (match c with Vanilla | Momentum _ => full 1 | _ => full 0 end) eta
        (match c with Vanilla | Momentum _ => 0 | _ => eps end) e eu 1 1 (fun _ => full 0) 0.
Proof. unfold gd_init. destruct c; try destruct (in_range_closed _); try destruct (_ && _)%bool; congruence. Qed.

(** * C47 *)
(** [C47] The gradient descent classes return the initial point from iterate(max_iter=0). *)
Theorem C47_iterate_zero_gradient_descent :
  forall I grad prox c (x : arr I) eta eps e eu s cost metric hm period,
  gd_init c x eta eps e eu = Ok s -> gd_iterate grad prox cost metric hm period 0 s = Ok x.
Proof. intros I grad prox c x eta eps e eu s cost metric hm period E. apply init_ok in E. subst s. reflexivity. Qed.
Print Assumptions C47_iterate_zero_gradient_descent.

(** * C57 *)
(** [C57, refuted] With the default epoch_size = 1 the momentum is cleared at every iteration: for
    every beta MomentumGradOpt produces exactly the iterates of VanillaGenericGradOpt. *)
Theorem C57_default_epoch_no_momentum :
  forall I grad prox beta (x : arr I) eta eps eu s s',
  gd_init (Momentum beta) x eta eps 1 eu = Ok s -> gd_init Vanilla x eta eps 1 eu = Ok s' ->
  forall n, d_x_new (gd_after grad prox n s) = d_x_new (gd_after grad prox n s') /\
  forall metric period, gd_iterate grad prox None metric false period n s = gd_iterate grad prox None metric false period n s'.
Proof.
  intros I grad prox beta x eta eps eu s s' E E'. apply init_ok in E. apply init_ok in E'.
  assert (C : d_class s = Momentum beta) by (subst; reflexivity). assert (C' : d_class s' = Vanilla) by (subst; reflexivity).
  assert (Ee : d_epoch_size s = 1%nat) by (subst; reflexivity). assert (Ee' : d_epoch_size s' = 1%nat) by (subst; reflexivity).
  assert (G : forall n, d_x_old (gd_after grad prox n s) = d_x_old (gd_after grad prox n s') /\
      d_eta (gd_after grad prox n s) = d_eta (gd_after grad prox n s') /\ d_dir (gd_after grad prox n s) = full 0).
  { induction n as [|n (Hx & He & Hd)]; [subst; repeat split|]. cbn [gd_after].
    assert (Sp : step_size grad (gd_after grad prox n s) = full (d_eta (gd_after grad prox n s))).
    { apply unit_speed; [right; eauto|subst; reflexivity|subst; reflexivity]. }
    assert (Sp' : step_size grad (gd_after grad prox n s') = full (d_eta (gd_after grad prox n s'))).
    { apply unit_speed; [left; auto|subst; reflexivity|subst; reflexivity]. }
    assert (Ec : d_calls (gd_after grad prox n s) = d_calls (gd_after grad prox n s')).
    { destruct (after_consts grad prox n s) as (_ & _ & _ & _ & ->). destruct (after_consts grad prox n s') as (_ & _ & _ & _ & ->).
      subst; reflexivity. }
    split; [|split].
    - rewrite !x_step, !epoch_after, Ee, Ee'. unfold descent. rewrite Sp, Sp', He.
      rewrite (momentum_dir grad prox n s beta C), Hd. unfold new_dir, update_dir. rewrite class_after, C'. cbn [fst].
      unfold seen. rewrite Ec, Hx. f_equal; destruct (Nat.eqb _ 0); try f_equal; extensionality i; unfold full; ring.
    - unfold gd_step. destruct (update_dir _ _ _) as [[d1 b1] m1]. destruct (update_speed _ _) as [p1 q1].
      destruct (update_dir _ _ _) as [[d2 b2] m2]. destruct (update_speed _ _) as [p2 q2]. cbn [d_eta].
      rewrite He. destruct (after_consts grad prox n s) as (_ & _ & _ & -> & _). destruct (after_consts grad prox n s') as (_ & _ & _ & -> & _).
      subst s s'. reflexivity.
    - apply (momentum_reset grad prox n s beta C). rewrite Ee. apply Nat.mod_1_r. }
  assert (X : forall n, d_x_new (gd_after grad prox n s) = d_x_new (gd_after grad prox n s')).
  { intros n. rewrite !after_new by (subst; reflexivity). apply G. }
  intros n. split; [apply X|]. intros metric period. rewrite !iterate_plain by (rewrite ?Ee, ?Ee'; discriminate). rewrite X. reflexivity.
Qed.
Print Assumptions C57_default_epoch_no_momentum.
(** Not the heavy-ball trajectory: after two steps with a constant gradient momentum 1/2 would have moved by 5/2. *)
Theorem C57_default_epoch_refuted :
  exists s, gd_init (Momentum (1 / 2)) (fun _ : unit => 0) 1 0 1 None = Ok s /\
  let x k := d_x_new (gd_after (fun _ _ _ => 1) (fun y _ => y) k s) tt in
  x 1%nat = -1 /\ x 2%nat - x 1%nat <> -1 + 1 / 2 * (x 1%nat - x 0%nat).
Proof. eexists. split; [reflexivity|]. cbn. unfold full. rewrite sqrt_1. lra. Qed.
Print Assumptions C57_default_epoch_refuted.

(** [C57] Between two resets (which follow the updates whose index is a multiple of epoch_size)
    the direction is the documented heavy-ball direction. *)
Theorem C57_heavy_ball_between_resets :
  forall I grad prox beta (x0 : arr I) eta eps e s,
  gd_init (Momentum beta) x0 eta eps e None = Ok s ->
  let x k := d_x_new (gd_after grad prox k s) in
  forall q j, (j < e)%nat ->
  let first := (q * e + 1)%nat in let k := (first + j)%nat in
  let m := heavy_ball beta (fun a => grad (first + a)%nat (x (first + a)%nat)) j in
  let moved := fun i => x k i - eta * m i in
  x (S k) = if Nat.eqb (S j) e then prox moved (full eta) else moved.
Proof.
  intros I grad prox beta x0 eta eps e s E x q j L first k m moved. apply init_ok in E.
  assert (C : d_class s = Momentum beta) by (subst; reflexivity).
  assert (Ee : d_epoch_size s = e) by (subst; reflexivity).
  assert (Xn : forall n, x n = d_x_old (gd_after grad prox n s)) by (intros n; apply after_new; subst; reflexivity).
  assert (Sp : step_size grad (gd_after grad prox k s) = full eta).
  { destruct (unit_speed grad prox k s) as [_ ->]; [right; eauto|subst; reflexivity|subst; reflexivity|].
    rewrite eta_const by (subst; reflexivity). subst s. reflexivity. }
  assert (M : new_dir grad k (gd_after grad prox k s) = m).
  { unfold k, first. rewrite (momentum_between grad prox s beta (q * e) j C); [|rewrite Ee; apply Nat.mod_mul; lia|lia].
    unfold m. f_equal. extensionality a. unfold seen. rewrite <- Xn.
    destruct (after_consts grad prox (q * e + 1 + a) s) as (_ & _ & _ & _ & ->). replace (d_calls s) with 0%nat by (subst; reflexivity).
    rewrite Nat.add_0_r. reflexivity. }
  rewrite Xn. cbn [gd_after]. rewrite x_step, epoch_after, Ee.
  assert (Dm : descent grad k (gd_after grad prox k s) = moved).
  { unfold descent. rewrite Sp, M. unfold moved. rewrite Xn. reflexivity. }
  rewrite Dm, Sp. replace (Nat.modulo k e) with (if Nat.eqb (S j) e then 0%nat else S j).
  - destruct (Nat.eqb (S j) e); reflexivity.
  - unfold k, first. replace (q * e + 1 + j)%nat with (S j + q * e)%nat by lia. rewrite Nat.mod_add by lia.
    destruct (Nat.eqb_spec (S j) e) as [->|Ne]; [symmetry; apply Nat.mod_same; lia|]. rewrite Nat.mod_small by lia. reflexivity.
Qed.
Print Assumptions C57_heavy_ball_between_resets.

(** beta = 1/2, epoch_size = 3, constant gradient 1, eta = 1, no prox: from 0 the points are
    -1, -2, -3.5: the second and third differ by the momentum. *)
Example C57_example :
  exists s, gd_init (Momentum (1 / 2)) (one 0) 1 0 3 None = Ok s /\
  let x k := d_x_new (gd_after (fun _ _ => one 1) (fun y _ => y) k s) tt in
  x 1%nat = -1 /\ x 2%nat = -2 /\ x 3%nat = - (7 / 2).
Proof. eexists. split; [reflexivity|]. cbn. unfold one, full. rewrite sqrt_1. lra. Qed.

(** * C58 *)
(** [C58] In any sequence of updates (any indices, any stochastic gradients, any number of calls to
    iterate) SAGA's direction, the one the next point is computed with, is the sum of the stored
    gradients. *)
Theorem C58_direction_is_sum_of_memory :
  forall I grad prox (x0 : arr I) eta eps e eu s, gd_init Saga x0 eta eps e eu = Ok s -> (0 < e)%nat ->
  forall l idx, let old := gd_run_idx grad prox l s in let new := gd_run_idx grad prox (idx :: l) s in
  (forall i, d_dir new i = sum_below e (fun c => d_memory new c i)) /\
  (Nat.modulo idx e <> 0%nat ->
   forall i, d_x_new new i = d_x_new old i - d_eta old / eps * sum_below e (fun c => d_memory new c i)).
Proof.
  intros I grad prox x0 eta eps e eu s E He l idx old new. apply init_ok in E.
  assert (Z : saga_inv s).
  { subst s. split; [reflexivity|]. split; [exact He|]. intros i. cbn. clear. unfold full.
    induction e as [|e IH]; cbn; [reflexivity|]. rewrite <- IH. lra. }
  assert (K : forall l, d_epoch_size (gd_run_idx grad prox l s) = e /\ d_eps (gd_run_idx grad prox l s) = eps /\
      d_speed (gd_run_idx grad prox l s) = full 0 /\ d_class (gd_run_idx grad prox l s) = Saga /\
      d_x_new (gd_run_idx grad prox l s) = d_x_old (gd_run_idx grad prox l s)).
  { intros l'. induction l' as [|a l' (K1 & K2 & K3 & K4 & K5)]; [subst s; cbn; repeat split|]. cbn [gd_run_idx].
    destruct (step_consts grad prox a (gd_run_idx grad prox l' s)) as (A1 & A2 & A3 & _ & _ & A6).
    rewrite A1, A2, A3. split; [exact K1|]. split; [exact K2|]. split; [|split; [exact K4|exact A6]].
    rewrite speed_step. unfold new_speed, update_speed. rewrite K4. exact K3. }
  assert (D : forall i, d_dir new i = sum_below e (fun c => d_memory new c i)).
  { destruct (saga_run_inv grad prox (idx :: l) s Z) as (_ & _ & D). destruct (K (idx :: l)) as (K1 & _).
    rewrite K1 in D. exact D. }
  split; [exact D|]. intros Hm i. rewrite <- D. destruct (K (idx :: l)) as (_ & _ & _ & _ & Kn).
  destruct (K l) as (K1 & K2 & K3 & K4 & K5). unfold new. rewrite Kn. unfold old. rewrite K5. cbn [gd_run_idx].
  rewrite x_step, dir_step, K1. destruct (Nat.eqb_spec (Nat.modulo idx e) 0); [contradiction|].
  unfold descent, step_size. unfold new_speed, update_speed. rewrite K4. cbn [fst]. rewrite K3, K2. unfold full.
  rewrite sqrt_0, Rplus_0_l. reflexivity.
Qed.
Print Assumptions C58_direction_is_sum_of_memory.

(** [C58] After n iterations of one run slot c holds the latest gradient seen at an iteration
    congruent to c modulo epoch_size. *)
Theorem C58_memory_slots :
  forall I grad prox (x0 : arr I) eta eps e eu s, gd_init Saga x0 eta eps e eu = Ok s -> (0 < e)%nat ->
  let x k := d_x_new (gd_after grad prox k s) in
  forall n c, (c < e)%nat -> is_latest e c n (fun k => grad k (x k)) (d_memory (gd_after grad prox n s) c).
Proof.
  intros I grad prox x0 eta eps e eu s E He x n c Hc. apply init_ok in E.
  replace e with (d_epoch_size s) at 1 by (subst; reflexivity).
  replace (fun k => grad k (x k)) with (seen grad prox s).
  - apply saga_latest; subst; reflexivity.
  - extensionality k. unfold seen, x. rewrite after_new by (subst; reflexivity).
    destruct (after_consts grad prox k s) as (_ & _ & _ & _ & ->). replace (d_calls s) with 0%nat by (subst; reflexivity).
    rewrite Nat.add_0_r. reflexivity.
Qed.
Print Assumptions C58_memory_slots.

(** epoch_size = 2, gradients 1, 2, 3, 4, ...: after three updates the slots hold 3 and 2. *)
Example C58_example :
  exists s, gd_init Saga (one 0) 1 1 2 None = Ok s /\
  let t := gd_after (fun k _ => one (INR k + 1)) (fun y _ => y) 3 s in
  d_memory t 0%nat tt = 3 /\ d_memory t 1%nat tt = 2 /\ d_dir t tt = 5.
Proof. eexists. split; [reflexivity|]. cbn. unfold one, full. lra. Qed.

(** * C59 *)
(** [C59] AdaGrad: the speed is the sum of the squared gradients, and the step size never grows. *)
Theorem C59_adagrad :
  forall I grad prox (x0 : arr I) eta eps e s, gd_init Ada x0 eta eps e None = Ok s -> 0 <= eta -> 0 < eps ->
  let x k := d_x_new (gd_after grad prox k s) in
  let speed k := d_speed (gd_after grad prox k s) in
  let step k i := eta / (sqrt (speed (S k) i) + eps) in
  (forall n i, speed n i = sum_below n (fun k => grad k (x k) i ^ 2)) /\
  (forall n i, speed n i <= speed (S n) i) /\
  (forall n i, 0 <= step (S n) i <= step n i) /\
  (forall n, let moved := fun i => x n i - step n i * grad n (x n) i in
     x (S n) = if Nat.eqb (Nat.modulo n e) 0 then prox moved (step n) else moved).
Proof.
  intros I grad prox x0 eta eps e s E Heta Heps x speed step. apply init_ok in E.
  assert (C : d_class s = Ada) by (subst; reflexivity).
  assert (Xn : forall n, x n = d_x_old (gd_after grad prox n s)) by (intros n; apply after_new; subst; reflexivity).
  assert (Cn : forall n, d_calls (gd_after grad prox n s) = n).
  { intros n. destruct (after_consts grad prox n s) as (_ & _ & _ & _ & ->). subst; cbn; lia. }
  assert (Sn : forall n, seen grad prox s n = grad n (x n)) by (intros n; unfold seen; rewrite Cn, <- Xn; reflexivity).
  assert (F : forall n i, speed n i = sum_below n (fun k => grad k (x k) i ^ 2)).
  { intros n i. unfold speed. rewrite ada_speed by exact C. replace (d_speed s i) with 0 by (subst; reflexivity).
    rewrite Rplus_0_l. apply sum_below_ext. intros k _. rewrite Sn. reflexivity. }
  assert (Mo : forall n i, speed n i <= speed (S n) i).
  { intros n i. rewrite !F. cbn [sum_below]. pose proof (pow2_ge_0 (grad n (x n) i)). lra. }
  split; [exact F|]. split; [exact Mo|]. split.
  - intros n i. unfold step. pose proof (sqrt_pos (speed (S n) i)). pose proof (sqrt_pos (speed (S (S n)) i)).
    pose proof (sqrt_le_1_alt _ _ (Mo (S n) i)). unfold Rdiv. split.
    + apply Rmult_le_pos; [lra|]. left. apply Rinv_0_lt_compat. lra.
    + apply Rmult_le_compat_l; [lra|]. apply Rinv_le_contravar; lra.
  - intros n moved. rewrite Xn. cbn [gd_after]. rewrite x_step, epoch_after.
    assert (Ss : step_size grad (gd_after grad prox n s) = step n).
    { extensionality i. unfold step_size, step, speed. rewrite eta_const, eps_after by (subst; reflexivity).
      cbn [gd_after]. rewrite speed_step. subst s. reflexivity. }
    assert (Dm : descent grad n (gd_after grad prox n s) = moved).
    { unfold descent. rewrite Ss. unfold new_dir, update_dir. rewrite class_after, C. cbn [fst]. rewrite Cn, <- Xn. reflexivity. }
    rewrite Dm, Ss. subst s. reflexivity.
Qed.
Print Assumptions C59_adagrad.

(** [C59] RMSprop: the speed is the exponentially weighted sum of the squared gradients; it stays
    between 0 and any bound on them. *)
Theorem C59_rmsprop :
  forall I grad prox gamma (x0 : arr I) eta eps e eu s, gd_init (RMSprop gamma) x0 eta eps e eu = Ok s ->
  let x k := d_x_new (gd_after grad prox k s) in
  let speed k := d_speed (gd_after grad prox k s) in
  (forall n i, speed n i = sum_below n (fun k => (1 - gamma) * gamma ^ (n - 1 - k) * grad k (x k) i ^ 2)) /\
  (forall n i B, 0 <= B -> (forall k, (k < n)%nat -> grad k (x k) i ^ 2 <= B) -> 0 <= speed n i <= B).
Proof.
  intros I grad prox gamma x0 eta eps e eu s E x speed.
  assert (Hg : 0 <= gamma <= 1).
  { unfold gd_init, in_range_closed in E. destruct (Rlt_dec gamma 0); [discriminate|]. destruct (Rgt_dec gamma 1); [discriminate|]. lra. }
  apply init_ok in E.
  assert (C : d_class s = RMSprop gamma) by (subst; reflexivity).
  assert (Sn : forall n, seen grad prox s n = grad n (x n)).
  { intros n. unfold seen, x. rewrite after_new by (subst; reflexivity).
    destruct (after_consts grad prox n s) as (_ & _ & _ & _ & ->). replace (d_calls s) with 0%nat by (subst; reflexivity).
    rewrite Nat.add_0_r. reflexivity. }
  split.
  - intros n i. unfold speed. rewrite (rms_speed grad prox n s i gamma C) by (subst; reflexivity).
    apply sum_below_ext. intros k _. rewrite Sn. reflexivity.
  - intros n i B HB. unfold speed. induction n as [|n IH]; intros Hk; [subst s; cbn; unfold full; lra|].
    rewrite (rms_speed_step grad prox n s i gamma C), Sn. pose proof (Hk n ltac:(lia)). pose proof (pow2_ge_0 (grad n (x n) i)).
    specialize (IH ltac:(intros k L; apply Hk; lia)). nra.
Qed.
Print Assumptions C59_rmsprop.

Example C59_example :
  exists s, gd_init (RMSprop (1 / 2)) (one 0) 1 1 1 None = Ok s /\
  d_speed (gd_after (fun k _ => one (INR k + 1)) (fun y _ => y) 2 s) tt = 9 / 4.
Proof.
  unfold gd_init, in_range_closed. destruct (Rlt_dec (1 / 2) 0); [lra|]. destruct (Rgt_dec (1 / 2) 1); [lra|].
  eexists. split; [reflexivity|]. cbn. unfold one, full. rewrite !Rabs_pos_eq by lra. lra.
Qed.

(** * C60 *)
(** [C60, refuted] For a constant gradient ADAM's direction and speed are right at the first
    iteration only; from the second on both are too large in magnitude, wherever the gradient is
    not zero, for all beta and gamma in ]0,1[. *)
Theorem C60_bias_overestimated :
  forall I prox gamma beta (x0 g : arr I) eta eps e eu s, 0 < gamma -> 0 < beta ->
  gd_init (Adam gamma beta) x0 eta eps e eu = Ok s ->
  let dir k := d_dir (gd_after (fun _ _ => g) prox k s) in
  let speed k := d_speed (gd_after (fun _ _ => g) prox k s) in
  (dir 1%nat = g /\ forall i, speed 1%nat i = g i ^ 2) /\
  forall n i, g i <> 0 -> Rabs (dir (S (S n)) i) > Rabs (g i) /\ speed (S (S n)) i > g i ^ 2.
Proof.
  intros I prox gamma beta x0 g eta eps e eu s Hg Hb E dir speed.
  assert (R : gamma < 1 /\ beta < 1).
  { unfold gd_init, in_range_open in E. destruct (Rlt_dec gamma 0); [discriminate|]. destruct (Rge_dec gamma 1); [discriminate|].
    destruct (Rlt_dec beta 0); [discriminate|]. destruct (Rge_dec beta 1); [discriminate|]. lra. }
  apply init_ok in E.
  assert (A : forall i, dir 1%nat i = g i /\ forall n, exists r, 1 < r /\ dir (S (S n)) i = r * g i).
  { intros i. apply (bias_recursion beta (fun k => dir k i) (g i)); [lra|subst; reflexivity|].
    intros n. unfold dir. rewrite (adam_dir (fun _ _ => g) prox n s gamma beta) by (subst; reflexivity). reflexivity. }
  assert (B : forall i, speed 1%nat i = g i ^ 2 /\ forall n, exists r, 1 < r /\ speed (S (S n)) i = r * g i ^ 2).
  { intros i. apply (bias_recursion gamma (fun k => speed k i) (g i ^ 2)); [lra|subst; reflexivity|].
    intros n. unfold speed. rewrite (adam_speed (fun _ _ => g) prox n s gamma beta) by (subst; reflexivity). reflexivity. }
  split; [split; [extensionality i; apply A|intros i; apply B]|].
  intros n i Ni. destruct (A i) as [_ A']. destruct (B i) as [_ B']. destruct (A' n) as (r & Hr & ->). destruct (B' n) as (r' & Hr' & ->).
  pose proof (Rabs_pos_lt _ Ni). assert (0 < g i ^ 2) by (rewrite <- Rsqr_pow2; apply Rsqr_pos_lt; exact Ni).
  rewrite Rabs_mult, (Rabs_pos_eq r) by lra. split; nra.
Qed.
Print Assumptions C60_bias_overestimated.
Theorem C60_bias_correction_refuted :
  exists s, gd_init (Adam (1 / 2) (1 / 2)) (fun _ : unit => 0) 1 1 1 None = Ok s /\
  d_dir (gd_after (fun _ _ _ => 3) (fun y _ => y) 2 s) tt <> 3.
Proof.
  unfold gd_init, in_range_open. destruct (Rlt_dec (1 / 2) 0); [lra|]. destruct (Rge_dec (1 / 2) 1); [lra|].
  eexists. split; [reflexivity|]. cbn. unfold full. lra.
Qed.
Print Assumptions C60_bias_correction_refuted.

(** beta = 1/2, constant gradient 3: the second direction is 4. *)
Example C60_example :
  exists s, gd_init (Adam (1 / 2) (1 / 2)) (one 0) 1 1 1 None = Ok s /\
  d_dir (gd_after (fun _ _ => one 3) (fun y _ => y) 2 s) tt = 4.
Proof.
  unfold gd_init, in_range_open. destruct (Rlt_dec (1 / 2) 0); [lra|]. destruct (Rge_dec (1 / 2) 1); [lra|].
  eexists. split; [reflexivity|]. cbn. unfold one, full. field.
Qed.

(** * C63 *)
(** [C63, refuted] A plain GenericGradOpt step is eta/eps times the gradient: it differs from the
    documented eta/sqrt(s + eps), s = 0, unless eps = 1; with the default eps = 1e-6 it is a
    thousand times longer. *)
Theorem C63_step_formula :
  forall I grad prox (x0 : arr I) eta eps e s, gd_init Generic x0 eta eps e None = Ok s -> (1 < e)%nat -> 0 < eps ->
  let x k := d_x_new (gd_after grad prox k s) in
  forall n i, Nat.modulo n e <> 0%nat ->
  let g := grad n (x n) i in
  x (S n) i = x n i - eta / eps * g /\
  (eta <> 0 -> g <> 0 -> (x (S n) i = x n i - eta / sqrt (0 + eps) * g <-> eps = 1)) /\
  (eps = / 10 ^ 6 -> x n i - x (S n) i = 1000 * (eta / sqrt (0 + eps) * g)).
Proof.
  intros I grad prox x0 eta eps e s E He Heps x n i Hm g. apply init_ok in E.
  assert (Sp : forall n, d_speed (gd_after grad prox n s) = full 0).
  { clear -E. intros n. induction n as [|n IH]; [subst; reflexivity|]. cbn [gd_after]. rewrite speed_step.
    unfold new_speed, update_speed. rewrite class_after. subst s. exact IH. }
  assert (Xn : forall n, x n = d_x_old (gd_after grad prox n s)) by (intros k; apply after_new; subst; reflexivity).
  assert (M : x (S n) i = x n i - eta / eps * g).
  { rewrite Xn. cbn [gd_after]. rewrite x_step, epoch_after. replace (d_epoch_size s) with e by (subst; reflexivity).
    destruct (Nat.eqb_spec (Nat.modulo n e) 0); [contradiction|]. unfold descent, step_size. rewrite <- (speed_step grad prox n).
    change (gd_step grad prox n (gd_after grad prox n s)) with (gd_after grad prox (S n) s). rewrite Sp, eta_const, eps_after by (subst; reflexivity).
    unfold new_dir, update_dir. rewrite class_after. unfold g. rewrite Xn.
    destruct (after_consts grad prox n s) as (_ & _ & _ & _ & ->). subst s. cbn. rewrite Nat.add_0_r. unfold full. rewrite sqrt_0, Rplus_0_l. reflexivity. }
  split; [exact M|]. assert (Hs : 0 < sqrt eps) by (apply sqrt_lt_R0; exact Heps). pose proof (sqrt_sqrt eps ltac:(lra)) as Q. rewrite Rplus_0_l.
  split.
  - intros He0 Hg. rewrite M. split.
    + intros Eq. assert (Ei : / eps = / sqrt eps).
      { apply (Rmult_eq_reg_l (eta * g)); [|apply Rmult_integral_contrapositive_currified; assumption]. unfold Rdiv in Eq. lra. }
      apply (f_equal Rinv) in Ei. rewrite !Rinv_inv in Ei. rewrite <- Ei in Q. nra.
    + intros ->. rewrite sqrt_1. reflexivity.
  - intros E6. rewrite M. assert (S3 : sqrt eps = / 1000).
    { rewrite E6. replace (/ 10 ^ 6) with (Rsqr (/ 1000)) by (unfold Rsqr; field). apply sqrt_Rsqr. lra. }
    rewrite S3, E6. field.
Qed.
Print Assumptions C63_step_formula.
Theorem C63_step_formula_refuted :
  exists s, gd_init Generic (fun _ : unit => 0) 1 (/ 10 ^ 6) 1 None = Ok s /\
  d_x_new (gd_after (fun _ _ _ => 1) (fun y _ => y) 1 s) tt <> 0 - 1 / sqrt (0 + / 10 ^ 6) * 1.
Proof.
  eexists. split; [reflexivity|]. cbn -[pow]. unfold full. rewrite sqrt_0, !Rplus_0_l.
  replace (/ 10 ^ 6) with (Rsqr (/ 1000)) by (unfold Rsqr; field). rewrite sqrt_Rsqr by lra. unfold Rsqr, Rdiv. rewrite Rinv_mult, Rinv_inv. lra.
Qed.
Print Assumptions C63_step_formula_refuted.

(** The same for the default epoch_size = 1 without proximity step: from 0 with gradient 1 and the
    default parameters one iteration goes to -1000000, the documented formula to -1000. *)
Example C63_example :
  exists s, gd_init Generic (one 0) 1 (/ 10 ^ 6) 1 None = Ok s /\
  gd_iterate (fun _ _ => one 1) (fun y _ => y) None (fun _ _ => []) false None 1 s = Ok (one (-1000000)) /\
  0 - 1 / sqrt (0 + / 10 ^ 6) * 1 = -1000.
Proof.
  eexists. split; [reflexivity|]. split.
  - rewrite iterate_plain by discriminate. f_equal. extensionality u. cbn. unfold one, full. rewrite sqrt_0. field.
  - rewrite Rplus_0_l. replace (/ 10 ^ 6) with (Rsqr (/ 1000)) by (unfold Rsqr; field). rewrite sqrt_Rsqr by lra. field.
Qed.

(** * C64 *)
(** [C64] VanillaGenericGradOpt with the default epoch_size is the proximal gradient method: with
    eta at most the inverse Lipschitz constant the objective f + g never grows from the first
    iteration on and exceeds its value at any point z by at most |x0 - z|^2 / (2 eta n). *)
Theorem C64_vanilla_proximal_gradient :
  forall I (l : list I) (complete : forall i, In i l) (D : fin_ips I l complete -> Prop) f g df p (x0 : arr I) eta eps s prox,
  let H := fin_ips I l complete in
  0 < eta -> smooth_convex (H := H) (/ eta) f df -> convex_on (H := H) D g -> prox_operator (H := H) D g p ->
  (forall y c, prox y (full c) = p y c) ->
  gd_init Vanilla x0 eta eps 1 None = Ok s ->
  let x k := d_x_new (gd_after (fun _ => df) prox k s) in
  let F z := f z + g z in
  (forall n, F (x (S (S n))) <= F (x (S n))) /\
  (forall n z, D z -> F (x (S n)) - F z <= nsq (H := H) (vsub (H := H) x0 z) / (2 * eta * INR (S n))) /\
  (forall n, minimises (H := H) D F (x n) -> x (S n) = x n) /\
  (forall cost metric hm period n r, gd_iterate (fun _ => df) prox cost metric hm period n s = Ok r -> exists N, (N <= n)%nat /\ r = x N).
Proof.
  intros I l complete D f g df p x0 eta eps s prox H Heta Sf Cg Pg Pp E x F. apply init_ok in E.
  assert (Xn : forall n, x n = d_x_old (gd_after (fun _ => df) prox n s)) by (intros k; apply after_new; subst; reflexivity).
  assert (St : forall n, x (S n) = fb_map (H := H) df p eta (x n)).
  { intros n. rewrite Xn. cbn [gd_after]. rewrite x_step, epoch_after. replace (d_epoch_size s) with 1%nat by (subst; reflexivity).
    rewrite Nat.mod_1_r. cbn [Nat.eqb]. destruct (unit_speed (fun _ => df) prox n s) as [_ Sp]; [left; subst; reflexivity|subst; reflexivity|subst; reflexivity|].
    rewrite Sp, Pp, eta_const by (subst; reflexivity). replace (d_eta s) with eta by (subst; reflexivity). unfold fb_map. f_equal.
    unfold descent. rewrite Sp, eta_const by (subst; reflexivity). replace (d_eta s) with eta by (subst; reflexivity).
    unfold new_dir, update_dir. rewrite class_after. replace (d_class s) with Vanilla by (subst; reflexivity). cbn [fst].
    rewrite <- Xn. extensionality i. unfold full, vsub. cbn. ring. }
  assert (Pg' : forall n, pg_step (H := H) D F eta (x n) (x (S n))).
  { intros n. rewrite St. split; [eapply fb_map_in; eassumption|]. intros z Dz. apply prox_grad_ineq with (D := D); assumption. }
  split; [|split; [|split]].
  - intros n. apply (ista_mono (H := H) D F eta Heta x Pg').
  - intros n z Dz. pose proof (ista_rate (H := H) D F eta Heta x Pg' z Dz n) as Q.
    replace (x 0%nat) with x0 in Q by (subst; reflexivity). pose proof (lt_0_INR (S n) ltac:(lia)) as Pn.
    pose proof (nsq_pos (H := H) (vsub (H := H) (x (S n)) z)) as Pz.
    assert (Pe : 0 < / (2 * eta)) by (apply Rinv_0_lt_compat; lra).
    apply Rmult_le_reg_l with (INR (S n)); [exact Pn|].
    replace (INR (S n) * (nsq (H := H) (vsub (H := H) x0 z) / (2 * eta * INR (S n)))) with (/ (2 * eta) * nsq (H := H) (vsub (H := H) x0 z)) by (field; lra).
    pose proof (Rmult_le_pos _ _ (Rlt_le _ _ Pe) Pz). lra.
  - intros n M. rewrite St. destruct Sf as (Cf & Gf & _). apply (fb_map_fixed_iff D f g df p eta (x n) Heta Cf Gf Cg Pg). exact M.
  - intros cost metric hm period n r Q. apply iterate_ok in Q. destruct Q as (N & L & _ & ->). exists N. split; [exact L|reflexivity].
Qed.
Print Assumptions C64_vanilla_proximal_gradient.

(** f = x^2/2, g = 0, eta = 1 on one entry: the first iteration reaches the minimiser, from 3. *)
Example C64_example :
  exists s, gd_init Vanilla (one 3) 1 0 1 None = Ok s /\ gd_iterate (fun _ x => x) (fun y _ => y) None (fun _ _ => []) false None 1 s = Ok (one 0).
Proof.
  eexists. split; [reflexivity|]. rewrite iterate_plain by discriminate. f_equal. extensionality u. cbn.
  unfold one, full. rewrite sqrt_1. field.
Qed.

(** * C65 *)
(** [C65] If the last update's index is a multiple of epoch_size (in particular for the default
    epoch_size = 1) the returned point comes out of prox.op. *)
Theorem C65_regularised_at_epochs :
  forall I grad prox c (x0 : arr I) eta eps e eu s (C : arr I -> Prop),
  gd_init c x0 eta eps e eu = Ok s -> (forall y t, C (prox y t)) ->
  (forall n, Nat.modulo n e = 0%nat -> C (d_x_new (gd_after grad prox (S n) s))) /\
  (e = 1%nat -> forall cost metric hm period n r, (0 < n)%nat -> gd_iterate grad prox cost metric hm period n s = Ok r -> C r).
Proof.
  intros I grad prox c x0 eta eps e eu s C E HC.
  assert (Ee : d_epoch_size s = e) by (apply init_ok in E; subst; reflexivity).
  assert (G : forall n, Nat.modulo n e = 0%nat -> C (d_x_new (gd_after grad prox (S n) s))).
  { intros n Hn. cbn [gd_after]. destruct (step_consts grad prox n (gd_after grad prox n s)) as (_ & _ & _ & _ & _ & ->).
    rewrite x_step, epoch_after, Ee, Hn. apply HC. }
  split; [exact G|]. intros E1 cost metric hm period n r Hn Q. apply iterate_ok in Q. destruct Q as (N & _ & P & ->).
  specialize (P Hn). destruct N as [|N]; [lia|]. apply G. subst e. rewrite E1. apply Nat.mod_1_r.
Qed.
Print Assumptions C65_regularised_at_epochs.

(** [C65, refuted] With epoch_size = 2 and a positivity constraint iterate(2) returns a negative
    entry. *)
Theorem C65_final_point_regularised_refuted :
  exists (grad : nat -> arr unit -> arr unit) prox s,
  (forall y t i, 0 <= prox y t i) /\ gd_init Vanilla (one 0) 1 (/ 10 ^ 6) 2 None = Ok s /\
  exists r, gd_iterate grad prox None (fun _ _ => []) false None 2 s = Ok r /\ r tt < 0.
Proof.
  exists (fun _ _ => one 1), (fun y _ i => Rmax 0 (y i)). eexists. split; [intros; apply Rmax_l|]. split; [reflexivity|].
  eexists. split; [apply iterate_plain; discriminate|]. cbn. unfold one, full. rewrite sqrt_1, Rmax_left by lra. lra.
Qed.
Print Assumptions C65_final_point_regularised_refuted.

(** * C66 *)
(** [C66] The constructors of RMSprop and ADAM raise ValueError for weights outside [0,1] and
    accept those inside ]0,1[; all other classes accept everything. *)
Theorem C66_weights_validated :
  forall I c (x : arr I) eta eps e eu,
  (forall gamma, c = RMSprop gamma -> gamma < 0 \/ 1 < gamma -> gd_init c x eta eps e eu = Err ValueError) /\
  (forall gamma, c = RMSprop gamma -> 0 < gamma < 1 -> exists s, gd_init c x eta eps e eu = Ok s) /\
  (forall gamma beta, c = Adam gamma beta -> gamma < 0 \/ 1 <= gamma \/ beta < 0 \/ 1 <= beta -> gd_init c x eta eps e eu = Err ValueError) /\
  (forall gamma beta, c = Adam gamma beta -> 0 < gamma < 1 /\ 0 < beta < 1 -> exists s, gd_init c x eta eps e eu = Ok s).
Proof.
  intros I c x eta eps e eu. repeat split; intros; subst c; unfold gd_init, in_range_closed, in_range_open;
    repeat match goal with
           | |- context [Rlt_dec ?a ?b] => destruct (Rlt_dec a b)
           | |- context [Rgt_dec ?a ?b] => destruct (Rgt_dec a b)
           | |- context [Rge_dec ?a ?b] => destruct (Rge_dec a b)
           end; cbn [andb]; try reflexivity; try lra; eexists; reflexivity.
Qed.
Print Assumptions C66_weights_validated.

(** [C66, refuted] The documented range is open, but RMSprop accepts both ends and ADAM the lower
    one. With gamma = 1 RMSprop's speed stays zero: the gradients are never normalised. *)
Theorem C66_end_points_accepted :
  forall I (x : arr I) eta eps e eu,
  (exists s, gd_init (RMSprop 0) x eta eps e eu = Ok s) /\
  (exists s, gd_init (Adam 0 0) x eta eps e eu = Ok s) /\
  (exists s, gd_init (RMSprop 1) x eta eps e eu = Ok s /\
     forall grad prox n, d_speed (gd_after grad prox n s) = full 0).
Proof.
  intros I x eta eps e eu. unfold gd_init, in_range_closed, in_range_open.
  destruct (Rlt_dec 0 0); [lra|]. destruct (Rge_dec 0 1); [lra|]. destruct (Rgt_dec 0 1); [lra|].
  destruct (Rlt_dec 1 0); [lra|]. destruct (Rgt_dec 1 1); [lra|].
  split; [eexists; reflexivity|]. split; [eexists; reflexivity|]. eexists. split; [reflexivity|].
  intros grad prox m. set (s := mk_gd _ _ _ _ _ _ _ _ _ _ _ _ _). extensionality i.
  induction m as [|m IH]; [reflexivity|]. rewrite (rms_speed_step grad prox m s i 1 eq_refl), IH. unfold full. ring.
Qed.
Print Assumptions C66_end_points_accepted.
Theorem C66_open_range_refuted :
  exists gamma s, ~ 0 < gamma < 1 /\ gd_init (RMSprop gamma) (fun _ : unit => 0) 1 1 1 None = Ok s.
Proof. destruct (C66_end_points_accepted unit (fun _ => 0) 1 1 1 None) as [(s & E) _]. exists 0, s. split; [lra|exact E]. Qed.
Print Assumptions C66_open_range_refuted.
