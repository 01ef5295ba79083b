(** Theorems of C138: AdaGrad solves smooth problems whatever eta is, RMSprop and the vanilla
    descent do not. Arrays I -> R over the finite index list l, with the Euclidean inner product;
    prox.op returns its argument (IdentityProx); x k is the estimate after k updates. *)
From Verif Require Import NPReal Py IPS Model_SetUp Spec_Opt Proof_Smooth Spec_Lim Proof_Lim Proof_Iter Spec_GD Model_GD Proof_GD Prop_GD Proof_Ada.
From Coq Require Import List Lia FunctionalExtensionality.
Import ListNotations.
Local Open Scope R_scope.

(** IdentityProx.op *)
Definition same {I} (y _ : arr I) : arr I := y.

Section Run.
Variables (I : Type) (l : list I) (complete : forall i, In i l).
Notation H := (fin_ips I l complete).
Variables (df : H -> H) (x0 : arr I) (eta eps : R) (e : nat) (s : gd I).
Hypothesis Init : gd_init Ada x0 eta eps e None = Ok s.
Let x k : arr I := d_x_new (gd_after (fun _ => df) same k s).
Let sp k : arr I := d_speed (gd_after (fun _ => df) same k s).
Lemma ada_run : (forall i, sp 0%nat i = 0) /\ (forall k i, sp (S k) i = sp k i + df (x k) i * df (x k) i) /\
  (forall k i, x (S k) i = x k i - eta / (sqrt (sp (S k) i) + eps) * df (x k) i).
Proof.
  pose proof (init_ok _ _ _ _ _ _ _ Init) as E.
  assert (Xn : forall n, x n = d_x_old (gd_after (fun _ => df) same n s)) by (intros k; apply after_new; subst; reflexivity).
  assert (Sn : forall n, sp (S n) = new_speed (fun _ => df) (gd_after (fun _ => df) same n s)) by (intros n; apply speed_step).
  split; [intros i; unfold sp; subst s; reflexivity|]. split.
  - intros k i. rewrite Sn. unfold new_speed, update_speed. rewrite class_after. replace (d_class s) with (@Ada) by (subst s; reflexivity).
    cbn [fst]. rewrite abs_sq, <- Xn. unfold sp. ring.
  - intros k i. rewrite Xn. cbn [gd_after]. rewrite x_step. unfold same at 2. rewrite (Tauto.if_same).
    unfold descent, step_size. rewrite <- Sn, eps_after, eta_const, <- Xn by (subst s; reflexivity).
    replace (d_eta s) with eta by (subst s; reflexivity). replace (d_eps s) with eps by (subst s; reflexivity). f_equal. f_equal.
    unfold new_dir, update_dir. rewrite class_after. replace (d_class s) with (@Ada) by (subst s; reflexivity). cbn [fst]. rewrite <- Xn. reflexivity.
Qed.
Lemma ada_returns n metric period : e <> 0%nat -> gd_iterate (fun _ => df) same None metric false period n s = Ok (x n).
Proof. intros He. apply iterate_plain. pose proof (init_ok _ _ _ _ _ _ _ Init) as E. subst s. exact He. Qed.
End Run.

(** [C138] f need not be convex: if its gradient is L-Lipschitz and f is bounded below by m, the
    squared gradients seen at any entry add up to at most the square of an explicit constant,
    whatever eta > 0, epsilon > 0 and epoch_size are. *)
Theorem C138_squared_gradients_summable :
  forall I (l : list I) (complete : forall i, In i l) f df L m (x0 : arr I) eta eps e s,
  let H := fin_ips I l complete in
  0 <= L -> is_gradient (H := H) f df -> lipschitz (H := H) L df -> (forall y, m <= f y) -> 0 < eta -> 0 < eps ->
  gd_init Ada x0 eta eps e None = Ok s ->
  let x k := d_x_new (gd_after (fun _ => df) same k s) in
  let bound := eps + 4 * ((f x0 - m) / eta + INR (length l) * ((L * eta) ^ 3 / (2 * eps ^ 2))) in
  forall n i, sum_below n (fun k => df (x k) i ^ 2) <= bound ^ 2 /\ d_speed (gd_after (fun _ => df) same n s) i <= bound ^ 2.
Proof.
  intros I l complete f df L m x0 eta eps e s H HL Gf Lf Hm Heta Heps Init x bound n i.
  destruct (ada_run I l complete df x0 eta eps e s Init) as (S0 & SS & XS).
  pose proof (speed_bounded I l complete f df L eta eps HL Gf Lf Heta Heps x _ S0 SS XS m Hm n i) as B.
  assert (E : root_bound I l complete f L eta eps x m = bound).
  { unfold root_bound, budget, bound. replace (x 0%nat) with x0 by (pose proof (init_ok _ _ _ _ _ _ _ Init); subst s; reflexivity).
    f_equal. f_equal. f_equal. f_equal. field. lra. }
  rewrite E in B. replace (bound ^ 2) with (bound * bound) by ring. split; [|exact B].
  rewrite (speed_sum I l complete df x _ S0 SS) in B. replace (fun k => df (x k) i ^ 2) with (fun k => df (x k) i * df (x k) i) by (extensionality k; ring). exact B.
Qed.
Print Assumptions C138_squared_gradients_summable.

(** [C138] so the gradients tend to zero, and the smallest of the first n+1 is of order 1/sqrt(n+1);
    iterate(n) returns x n. *)
Theorem C138_gradients_vanish :
  forall I (l : list I) (complete : forall i, In i l) f df L m (x0 : arr I) eta eps e s,
  let H := fin_ips I l complete in
  0 <= L -> is_gradient (H := H) f df -> lipschitz (H := H) L df -> (forall y, m <= f y) -> 0 < eta -> 0 < eps -> e <> 0%nat ->
  gd_init Ada x0 eta eps e None = Ok s ->
  let x k := d_x_new (gd_after (fun _ => df) same k s) in
  let bound := eps + 4 * ((f x0 - m) / eta + INR (length l) * ((L * eta) ^ 3 / (2 * eps ^ 2))) in
  converges (H := H) (fun n => df (x n)) vzero /\
  (forall n, exists k, (k <= n)%nat /\ nsq (H := H) (df (x k)) <= INR (length l) * bound ^ 2 / INR (S n)) /\
  (forall metric period n, gd_iterate (fun _ => df) same None metric false period n s = Ok (x n)).
Proof.
  intros I l complete f df L m x0 eta eps e s H HL Gf Lf Hm Heta Heps He Init x bound.
  destruct (ada_run I l complete df x0 eta eps e s Init) as (S0 & SS & XS). split; [|split].
  - apply vanishing. exact (gradient_vanishes I l complete f df L eta eps HL Gf Lf Heta Heps x _ S0 SS XS m Hm).
  - intros n. pose proof (fun i => proj1 (C138_squared_gradients_summable I l complete f df L m x0 eta eps e s HL Gf Lf Hm Heta Heps Init (S n) i)) as B.
    cbv zeta in B. fold x bound in B.
    assert (Sw : forall n, sum_below n (fun k => nsq (H := H) (df (x k))) = lsum l (fun i => sum_below n (fun k => df (x k) i ^ 2))).
    { clear. induction n as [|n IH]; cbn [sum_below]; [rewrite lsum_const; ring|]. rewrite lsum_plus, IH. f_equal.
      unfold nsq, H. rewrite fin_inner. apply lsum_ext. intros i. ring. }
    assert (T : sum_below (S n) (fun k => nsq (H := H) (df (x k))) <= INR (length l) * bound ^ 2).
    { rewrite Sw, <- lsum_const. apply lsum_le. exact B. }
    apply (smallest n (fun k => nsq (H := H) (df (x k)))). exact T.
  - intros metric period n. exact (ada_returns I l complete df x0 eta eps e s Init n metric period He).
Qed.
Print Assumptions C138_gradients_vanish.

(** [C138] For a convex f with a minimiser z: the values f (x n) tend to the minimum, and the best of
    the first n+1 is within C/(n+1) of it. *)
Theorem C138_values_converge :
  forall I (l : list I) (complete : forall i, In i l) f df L (x0 : arr I) eta eps e s z,
  let H := fin_ips I l complete in
  0 <= L -> smooth_convex (H := H) L f df -> (forall y, f z <= f y) -> 0 < eta -> 0 < eps -> e <> 0%nat ->
  gd_init Ada x0 eta eps e None = Ok s ->
  let x k := d_x_new (gd_after (fun _ => df) same k s) in
  (forall d, 0 < d -> exists N, forall n, (N <= n)%nat -> f (x n) < f z + d) /\
  (exists C, forall n, exists k, (k <= n)%nat /\ f (x k) - f z <= C / INR (S n)) /\
  (forall metric period n, gd_iterate (fun _ => df) same None metric false period n s = Ok (x n)).
Proof.
  intros I l complete f df L x0 eta eps e s z H HL (Cf & Gf & Lf) Hz Heta Heps He Init x.
  destruct (ada_run I l complete df x0 eta eps e s Init) as (S0 & SS & XS). split; [|split].
  - pose proof (values_vanish I l complete f df L eta eps HL Gf Lf Heta Heps x _ S0 SS XS (f z) Hz Cf z Hz) as V.
    intros d Hd. destruct (V d Hd) as (N & Q). exists N. intros n Hn. specialize (Q n Hn). lra.
  - pose proof (values_summable I l complete f df L eta eps HL Gf Lf Heta Heps x _ S0 SS XS (f z) Hz Cf z Hz) as V.
    eexists. intros n. specialize (V (S n)). cbv beta in V.
    apply (Rmult_le_compat_l (/ (2 * eta))) in V; [|left; apply Rinv_0_lt_compat; lra].
    rewrite <- Rmult_assoc, Rinv_l, Rmult_1_l in V by lra. apply (smallest n (fun k => f (x k) - f z)) in V. exact V.
  - intros metric period n. exact (ada_returns I l complete df x0 eta eps e s Init n metric period He).
Qed.
Print Assumptions C138_values_converge.

(** [C138] and the estimates converge to a minimiser. *)
Theorem C138_estimates_converge :
  forall I (eq_dec : forall i j : I, {i = j} + {i <> j}) (l : list I) (complete : forall i, In i l) f df L (x0 : arr I) eta eps e s z0,
  let H := fin_ips I l complete in
  NoDup l -> 0 <= L -> smooth_convex (H := H) L f df -> (forall y, f z0 <= f y) -> 0 < eta -> 0 < eps -> e <> 0%nat ->
  gd_init Ada x0 eta eps e None = Ok s ->
  let x k := d_x_new (gd_after (fun _ => df) same k s) in
  exists z, (forall y, f z <= f y) /\ converges (H := H) x z /\
  (forall metric period n, gd_iterate (fun _ => df) same None metric false period n s = Ok (x n)).
Proof.
  intros I eq_dec l complete f df L x0 eta eps e s z0 H ND HL (Cf & Gf & Lf) Hz Heta Heps He Init x.
  destruct (ada_run I l complete df x0 eta eps e s Init) as (S0 & SS & XS).
  destruct (estimates_converge I l complete f df L eta eps HL Gf Lf Heta Heps x _ S0 SS XS (f z0) Hz Cf (fd_fin I eq_dec l complete ND) z0 Hz) as (z & Mz & Cv).
  exists z. split; [exact Mz|]. split; [exact Cv|]. intros metric period n. exact (ada_returns I l complete df x0 eta eps e s Init n metric period He).
Qed.
Print Assumptions C138_estimates_converge.

(** * The other classes *)
(** [C138] RMSpropGradOpt with its default gamma = 1/2 and constant eta does not: for every eta and
    epsilon there are a smooth convex problem with the only minimiser 0 and a starting point from
    which no estimate ever comes within eta/8 of it. AdaGrad solves the same problem from the same
    point. *)
Theorem C138_rmsprop_stays_away :
  forall eta eps, 0 < eta -> 0 < eps ->
  exists L f df x0, 0 <= L /\ smooth_convex (H := U) L f df /\ (forall y, f (one 0) <= f y) /\ (forall y, f y <= f (one 0) -> y = one 0) /\
  (exists s, gd_init (RMSprop (/ 2)) x0 eta eps 1 None = Ok s /\
     forall n, eta / 8 <= norm (H := U) (d_x_new (gd_after (fun _ => df) same n s))) /\
  (exists s, gd_init Ada x0 eta eps 1 None = Ok s /\ converges (H := U) (fun n => d_x_new (gd_after (fun _ => df) same n s)) (one 0)).
Proof.
  intros eta eps Heta Heps. set (d := eta / 8). set (c := 1000 * eps / d).
  assert (Hd : 0 < d) by (unfold d; lra). assert (Hc : 0 < c) by (unfold c; apply Rmult_lt_0_compat; [lra|apply Rinv_0_lt_compat, Hd]).
  set (f := fun u : U => c / 2 * huber d (u tt)). set (df := fun (u : U) => (fun _ => c * clipped d (u tt)) : U).
  assert (Sm : smooth_convex (H := U) c f df) by (apply smooth_huber; lra).
  assert (Mn : forall y, f (one 0) <= f y).
  { intros y. unfold f, one. rewrite huber_0 by exact Hd. pose proof (proj1 (huber_pos d Hd (y tt))). nra. }
  assert (Un : forall y, f y <= f (one 0) -> y = one 0).
  { intros y Q. unfold f, one in Q. rewrite huber_0 in Q by exact Hd. extensionality u. destruct u. apply (huber_pos d Hd). nra. }
  exists c, f, df, (one (5 / 8 * eta)). split; [lra|]. split; [exact Sm|]. split; [exact Mn|]. split; [exact Un|]. split.
  - assert (Init : exists s, gd_init (RMSprop (/ 2)) (one (5 / 8 * eta)) eta eps 1 None = Ok s).
    { unfold gd_init, in_range_closed. destruct (Rlt_dec (/ 2) 0); [lra|]. destruct (Rgt_dec (/ 2) 1); [lra|]. eexists. reflexivity. }
    destruct Init as (s & Init). exists s. split; [exact Init|]. pose proof (init_ok _ _ _ _ _ _ _ Init) as E.
    set (x := fun k => d_x_new (gd_after (fun _ => df) same k s)). set (sp := fun k => d_speed (gd_after (fun _ => df) same k s)).
    assert (Xn : forall n, x n = d_x_old (gd_after (fun _ => df) same n s)) by (intros k; apply after_new; subst s; reflexivity).
    assert (Sn : forall n, sp (S n) = new_speed (fun _ => df) (gd_after (fun _ => df) same n s)) by (intros n; apply speed_step).
    intros n. rewrite U_norm. apply (stays_away eta eps Heta Heps (fun k => x k tt) (fun k => sp k tt)).
    + unfold x. subst s. reflexivity.
    + unfold sp. subst s. reflexivity.
    + intros k. rewrite Sn. unfold new_speed, update_speed. rewrite class_after. replace (d_class s) with (RMSprop (/ 2)) by (subst s; reflexivity).
      cbn [fst]. rewrite abs_sq, <- Xn. unfold sp, df, c, d. field. lra.
    + intros k. cbv beta. rewrite (Xn (S k)). cbn [gd_after]. rewrite x_step. unfold same at 2. rewrite Tauto.if_same.
      unfold descent, step_size. rewrite <- Sn, eps_after, eta_const, <- Xn by (subst s; reflexivity).
      replace (d_eta s) with eta by (subst s; reflexivity). replace (d_eps s) with eps by (subst s; reflexivity). f_equal. f_equal.
      unfold new_dir, update_dir. rewrite class_after. replace (d_class s) with (RMSprop (/ 2)) by (subst s; reflexivity). cbn [fst]. rewrite <- Xn. reflexivity.
  - eexists. split; [reflexivity|]. match goal with |- converges (fun n => d_x_new (gd_after _ _ n ?s)) _ => set (st := s) end.
    assert (ND : NoDup [tt]) by (constructor; [intros []|constructor]).
    destruct (C138_estimates_converge unit (fun i j => left (match i, j with tt, tt => eq_refl end)) [tt] unit_complete f df c (one (5 / 8 * eta)) eta eps 1 st (one 0)
      ND ltac:(lra) Sm Mn Heta Heps ltac:(discriminate) eq_refl) as (z & Mz & Cv & _).
    rewrite (Un z (Mz _)) in Cv. exact Cv.
Qed.
Print Assumptions C138_rmsprop_stays_away.

(** [C138, refuted for RMSprop] With the default parameters eta = 1, epsilon = 1e-6, gamma = 1/2 the
    estimates need not converge to a minimiser. *)
Theorem C138_rmsprop_refuted :
  exists L f df x0 s, 0 <= L /\ smooth_convex (H := U) L f df /\ (exists z, forall y, f z <= f y) /\
  gd_init (RMSprop (/ 2)) x0 1 (/ 1000000) 1 None = Ok s /\
  ~ exists z, (forall y, f z <= f y) /\ converges (H := U) (fun n => d_x_new (gd_after (fun _ => df) same n s)) z.
Proof.
  destruct (C138_rmsprop_stays_away 1 (/ 1000000) ltac:(lra) ltac:(lra)) as (L & f & df & x0 & HL & Sm & Mn & Un & (s & Init & Far) & _).
  exists L, f, df, x0, s. split; [exact HL|]. split; [exact Sm|]. split; [exists (one 0); exact Mn|]. split; [exact Init|].
  intros (z & Mz & Cv). rewrite (Un z (Mz _)) in Cv. destruct (Cv (1 / 8) ltac:(lra)) as (N & Q). specialize (Q N (le_n N)). specialize (Far N).
  match type of Q with norm (vsub ?a _) < _ => set (w := a) in * end.
  assert (E : norm (H := U) (vsub (H := U) w (one 0)) = norm (H := U) w).
  { f_equal. extensionality u. unfold vsub, one. cbn. ring. }
  rewrite E in Q. lra.
Qed.
Print Assumptions C138_rmsprop_refuted.

(** [C138, refuted for the vanilla descent] For every eta there is a convex quadratic on which the
    estimates double in size at each update. *)
Theorem C138_vanilla_diverges :
  forall eta eps, 0 < eta ->
  exists L f df s, smooth_convex (H := U) L f df /\ (forall y, f (one 0) <= f y) /\
  gd_init Vanilla (one 1) eta eps 1 None = Ok s /\ forall n, d_x_new (gd_after (fun _ => df) same n s) = one ((-2) ^ n).
Proof.
  intros eta eps Heta. set (c := 3 / eta). assert (Hc : 0 < c) by (unfold c; apply Rmult_lt_0_compat; [lra|apply Rinv_0_lt_compat, Heta]).
  exists c, (fun u => c / 2 * (u tt * u tt)), (fun u => fun _ => c * u tt). eexists.
  split; [|split; [|split; [reflexivity|]]].
  - apply (smooth_unit (fun t => c / 2 * (t * t)) (fun t => c * t) c (c / 2) ltac:(lra)).
    + intros x y. pose proof (Rle_0_sqr (y - x)) as Q. unfold Rsqr in Q. apply (Rmult_le_compat_l (c / 2)) in Q; [|lra]. split; lra.
    + intros x y. replace (c * x - c * y) with (c * (x - y)) by ring. rewrite Rabs_mult, (Rabs_right c) by lra. lra.
  - intros y. unfold one. pose proof (Rle_0_sqr (y tt)) as Q. unfold Rsqr in Q. nra.
  - match goal with |- forall n, d_x_new (gd_after ?g _ n ?s) = _ => set (gr := g); set (st := s) end.
    assert (Xn : forall n, d_x_new (gd_after gr same n st) = d_x_old (gd_after gr same n st)) by (intros k; apply after_new; reflexivity).
    induction n as [|n IH]; [reflexivity|]. rewrite Xn. cbn [gd_after]. rewrite x_step. unfold same at 1. rewrite Tauto.if_same.
    destruct (unit_speed gr same n st (or_introl eq_refl) eq_refl eq_refl) as [_ Sp].
    unfold descent. rewrite Sp, eta_const, <- Xn, IH by reflexivity. unfold new_dir, update_dir. rewrite class_after. cbn [d_class st fst]. rewrite <- Xn, IH.
    extensionality u. unfold full, one, gr. change (d_eta st) with eta. cbn [pow]. unfold c. field. lra.
Qed.
Print Assumptions C138_vanilla_diverges.

(** f = 50 x^2 from 1 with the default parameters eta = 1 (a hundred times 1/L) and epsilon = 1e-6:
    the first update lands next to the minimiser, and the estimates converge to it. *)
Example C138_example :
  exists s, gd_init Ada (one 1) 1 (/ 1000000) 1 None = Ok s /\
  d_x_new (gd_after (fun _ u => fun _ => 100 * u tt) same 1 s) = one (1 - 100 / (100 + / 1000000)) /\
  converges (H := U) (fun n => d_x_new (gd_after (fun _ u => fun _ => 100 * u tt) same n s)) (one 0).
Proof.
  eexists. split; [reflexivity|]. match goal with |- d_x_new (gd_after _ _ _ ?s) = _ /\ _ => set (st := s) end. split.
  - cbn. extensionality u. unfold same, one, full. rewrite (Rabs_right (100 * 1)) by lra. replace (0 + 100 * 1 * (100 * 1 * 1)) with (100 * 100) by ring. rewrite sqrt_square by lra. field.
  - assert (Sm : smooth_convex (H := U) 100 (fun u => 50 * (u tt * u tt)) (fun u => fun _ => 100 * u tt)).
    { apply (smooth_unit (fun t => 50 * (t * t)) (fun t => 100 * t) 100 50 ltac:(lra)).
      - intros x y. pose proof (Rle_0_sqr (y - x)) as Q. unfold Rsqr in Q. split; lra.
      - intros x y. replace (100 * x - 100 * y) with (100 * (x - y)) by ring. rewrite Rabs_mult, (Rabs_right 100) by lra. lra. }
    assert (Mn : forall y : U, 50 * (one 0 tt * one 0 tt) <= 50 * (y tt * y tt)).
    { intros y. unfold one. pose proof (Rle_0_sqr (y tt)) as Q. unfold Rsqr in Q. lra. }
    assert (ND : NoDup [tt]) by (constructor; [intros []|constructor]).
    destruct (C138_estimates_converge unit (fun i j => left (match i, j with tt, tt => eq_refl end)) [tt] unit_complete _ _ 100 (one 1) 1 (/ 1000000) 1 st (one 0)
      ND ltac:(lra) Sm Mn ltac:(lra) ltac:(lra) ltac:(discriminate) eq_refl) as (z & Mz & Cv & _).
    replace (one 0) with z; [exact Cv|]. extensionality u. destruct u. specialize (Mz (one 0)). unfold one in *. apply Rsqr_0_uniq. unfold Rsqr. nra.
Qed.
