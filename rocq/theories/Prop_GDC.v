(** Theorems of C143: the gradient descent classes on complex arrays. Entries lie in an inner-product
    space E (C_ips for complex data); x k is the estimate after k updates, what iterate(max_iter=k)
    returns without cost function nor metrics. *)
From Verif Require Import NPReal Py IPS Model_SetUp Spec_Opt Proof_Smooth Spec_Lim Proof_Lim Proof_Iter Spec_GD Model_GD Proof_GD Prop_GD Proof_Ada Model_Linear Spec_Linear Proof_Linear Proof_Inexact Spec_GDC Model_GDC Proof_GDC.
From Coq Require Import List Lia FunctionalExtensionality.
Import ListNotations.
Local Open Scope R_scope.

(** [C143] On real arrays this is Model_GD: every class, any operators, any starting point. *)
Theorem C143_real_data :
  forall I (grad : nat -> arr I -> arr I) prox c (x0 : arr I) eta eps e eu,
  match gd_init c x0 eta eps e eu, gdc_init (E := R_ips) c x0 eta eps e eu with
  | Ok s, Ok s' => forall n, c_x_new (gdc_after (E := R_ips) grad prox n s') = d_x_new (gd_after grad prox n s) /\
      c_speed (gdc_after (E := R_ips) grad prox n s') = d_speed (gd_after grad prox n s)
  | Err a, Err b => a = b
  | _, _ => False
  end.
Proof.
  intros I grad prox c x0 eta eps e eu. rewrite real_init. destruct (gd_init c x0 eta eps e eu) as [s|b]; cbn [bind]; [|reflexivity].
  intros n. rewrite real_run. split; reflexivity.
Qed.
Print Assumptions C143_real_data.

(** [C143] iterate(max_iter=n) makes n updates. *)
Theorem C143_returned :
  forall (E : ips) I grad prox cl (x0 : I -> E) eta eps e eu s n metric period, e <> 0%nat -> gdc_init cl x0 eta eps e eu = Ok s ->
  gdc_iterate grad prox None metric false period n s = Ok (c_x_new (gdc_after grad prox n s)).
Proof. intros E I grad prox cl x0 eta eps e eu s n metric period He Q. apply c_init_ok in Q. apply c_iterate_plain. subst s. exact He. Qed.
Print Assumptions C143_returned.

(** [C143] With a cost function or metrics it makes between 1 and n updates; with epoch_size = 0 it
    raises ZeroDivisionError. *)
Theorem C143_returned_early :
  forall (E : ips) I grad prox cl (x0 : I -> E) eta eps e eu s, gdc_init cl x0 eta eps e eu = Ok s ->
  (forall cost metric hm period n x, gdc_iterate grad prox cost metric hm period n s = Ok x ->
     exists N, (N <= n)%nat /\ ((0 < n)%nat -> (0 < N)%nat) /\ x = c_x_new (gdc_after grad prox N s)) /\
  (e = 0%nat -> forall cost metric hm period n, gdc_iterate grad prox cost metric hm period (S n) s = Err ZeroDivisionError).
Proof.
  intros E I grad prox cl x0 eta eps e eu s Q. apply c_init_ok in Q. split.
  - intros cost metric hm period n x. apply c_iterate_ok.
  - intros -> cost metric hm period n. unfold gdc_iterate, run_alg. cbn [iterations_from]. unfold gdc_update at 1. cbn [data]. subst s. reflexivity.
Qed.
Print Assumptions C143_returned_early.

(** [C143] Multiplying entries by numbers of modulus 1 (one per entry), or conjugating them, in the
    starting point, the gradient and the proximity operator does the same to every estimate and
    leaves the speed as it is, for every class. *)
Theorem C143_phases :
  forall (E : ips) I (u v : I -> E -> E) grad prox cl (x0 : I -> E) eta eps e eu s s',
  (forall i, linear_isometry (u i)) -> (forall i, inverse_maps (u i) (v i)) ->
  let turn (x : I -> E) i := u i (x i) in
  let back (x : I -> E) i := v i (x i) in
  gdc_init cl x0 eta eps e eu = Ok s -> gdc_init cl (turn x0) eta eps e eu = Ok s' ->
  let grad' k y := turn (grad k (back y)) in
  let prox' y t := turn (prox (back y) t) in
  forall n, c_x_new (gdc_after grad' prox' n s') = turn (c_x_new (gdc_after grad prox n s)) /\
    c_speed (gdc_after grad' prox' n s') = c_speed (gdc_after grad prox n s).
Proof.
  intros E I u v grad prox cl x0 eta eps e eu s s' Hu Hv turn back Q Q' grad' prox' n. apply c_init_ok in Q. apply c_init_ok in Q'.
  assert (A1 : forall j x y, u j (x + y)%v = (u j x + u j y)%v) by (intros j; apply (Hu j)).
  assert (A2 : forall j t x, u j (t * x)%v = (t * u j x)%v) by (intros j; apply (Hu j)).
  assert (B : forall x, back (turn x) = x) by (intros x; extensionality i; apply (Hv i)).
  assert (T : s' = cimage (fun j => j) u s).
  { subst s s'. unfold cimage. cbn. f_equal.
    - symmetry. apply (moved_zeros (fun j => j) u A2).
    - extensionality k. symmetry. apply (moved_zeros (fun j => j) u A2). }
  rewrite T, (cimage_run (fun j => j) u A1 A2 grad prox grad' prox').
  - split; reflexivity.
  - intros k x. change (moved (fun j => j) u x) with (turn x). unfold grad'. rewrite B. reflexivity.
  - intros y t. change (moved (fun j => j) u y) with (turn y). unfold prox'. rewrite B. reflexivity.
  - unfold keeps. destruct (c_class s); try exact Logic.I; intros j; apply (Hu j).
Qed.
Print Assumptions C143_phases.

(** The products with a number of modulus 1 and the conjugation are such maps of complex numbers. *)
Theorem C143_phases_of_complex_numbers :
  (forall a : C_ips, norm a = 1 -> linear_isometry (E := C_ips) (c_mul a) /\ inverse_maps (c_mul a) (c_mul (c_conj a))) /\
  (linear_isometry (E := C_ips) c_conj /\ inverse_maps c_conj c_conj) /\
  (forall z : C_ips, norm z = sqrt (fst z ^ 2 + snd z ^ 2)).
Proof.
  assert (N : forall z : C_ips, norm z = sqrt (fst z ^ 2 + snd z ^ 2)).
  { intros [x y]. unfold norm, nsq. f_equal. cbn. unfold car in *. cbn in *. lra. }
  split; [|split; [|exact N]].
  - intros [p q] Ha. rewrite N in Ha. cbn in p, q. cbn [fst snd] in Ha.
    assert (U : p * p + q * q = 1).
    { assert (W : 0 <= p ^ 2 + q ^ 2) by nra. pose proof (sqrt_sqrt _ W) as Z. rewrite Ha in Z. lra. }
    clear Ha. split; [split; [|split]|split].
    + intros [x y] [x' y']. cbn in *. unfold c_mul. cbn [fst snd]. f_equal; ring.
    + intros t [x y]. cbn in *. unfold c_mul. cbn [fst snd]. f_equal; ring.
    + intros [x y]. rewrite !N. cbn in x, y. unfold c_mul. cbn [fst snd]. f_equal.
      replace ((p * x - q * y) ^ 2 + (p * y + q * x) ^ 2) with ((p * p + q * q) * (x ^ 2 + y ^ 2)) by ring. rewrite U. ring.
    + intros [x y]. unfold c_mul, c_conj. cbn [fst snd].
      f_equal; [transitivity ((p * p + q * q) * x); [ring|rewrite U; ring]|transitivity ((p * p + q * q) * y); [ring|rewrite U; ring]].
    + intros [x y]. unfold c_mul, c_conj. cbn [fst snd].
      f_equal; [transitivity ((p * p + q * q) * x); [ring|rewrite U; ring]|transitivity ((p * p + q * q) * y); [ring|rewrite U; ring]].
  - split; [split; [|split]|split].
    + intros [x y] [x' y']. cbn in *. unfold c_conj. cbn [fst snd]. f_equal; ring.
    + intros t [x y]. cbn in *. unfold c_conj. cbn [fst snd]. f_equal; ring.
    + intros [x y]. rewrite !N. cbn in x, y. unfold c_conj. cbn [fst snd]. f_equal. ring.
    + intros [x y]. unfold c_conj. cbn. f_equal. ring.
    + intros [x y]. unfold c_conj. cbn. f_equal. ring.
Qed.
Print Assumptions C143_phases_of_complex_numbers.

(** [C143] The classes with a constant speed treat the real and the imaginary parts as separate real
    entries. The proximity operator of the real problem is given the step of each part. *)
Theorem C143_parts_are_separate_entries :
  forall I (grad : nat -> (I -> C_ips) -> I -> C_ips) prox cl (x0 : I -> C_ips) eta eps e eu s s',
  match cl with Ada | RMSprop _ | Adam _ _ => False | _ => True end ->
  gdc_init cl x0 eta eps e eu = Ok s -> gd_init cl (parts x0) eta eps e eu = Ok s' ->
  let grad' k y := parts (grad k (unparts y)) in
  let prox' y t := parts (prox (unparts y) (fun i => t (i, true))) in
  forall n, d_x_new (gd_after grad' prox' n s') = parts (c_x_new (gdc_after grad prox n s)).
Proof.
  intros I grad prox cl x0 eta eps e eu s s' Hc Q Q' grad' prox' n. apply c_init_ok in Q. apply init_ok in Q'.
  set (a := fun (p : I * bool) (z : C_ips) => (if snd p then fst z else snd z) : R_ips).
  assert (A1 : forall j x y, a j (x + y)%v = (a j x + a j y)%v) by (intros [i []] x y; reflexivity).
  assert (A2 : forall j t x, a j (t * x)%v = (t * a j x)%v) by (intros [i []] t x; reflexivity).
  assert (B : forall x : I -> C_ips, unparts (parts x) = x) by (intros x; extensionality i; unfold unparts, parts; cbn; destruct (x i); reflexivity).
  assert (T : real_entries s' = cimage fst a s).
  { subst s s'. unfold cimage, real_entries. cbn. unfold full. f_equal.
    - symmetry. exact (moved_zeros (fst (B := bool)) a A2).
    - destruct cl; reflexivity.
    - extensionality k. symmetry. exact (moved_zeros (fst (B := bool)) a A2). }
  change (d_x_new (gd_after grad' prox' n s')) with (c_x_new (real_entries (gd_after grad' prox' n s'))).
  rewrite <- real_run, T, (cimage_run fst a A1 A2 grad prox grad' prox').
  - reflexivity.
  - intros k x. change (moved fst a x) with (parts x). unfold grad'. rewrite B. reflexivity.
  - intros y t. change (moved fst a y) with (parts y). unfold prox'. rewrite B. reflexivity.
  - replace (c_class s) with cl by (subst s; reflexivity). destruct cl; try exact Logic.I; contradiction.
Qed.
Print Assumptions C143_parts_are_separate_entries.

(** [C143, refuted] All classes treat the parts as separate entries: AdaGrad divides both parts by
    the same number. *)
Theorem C143_adagrad_parts_refuted :
  exists (grad : nat -> (unit -> C_ips) -> unit -> C_ips) s s',
  gdc_init Ada (fun _ => (0, 0) : C_ips) 1 1 1 None = Ok s /\ gd_init Ada (parts (fun _ : unit => (0, 0))) 1 1 1 None = Ok s' /\
  d_x_new (gd_after (fun k y => parts (grad k (unparts y))) (fun y _ => y) 1 s') (tt, true) = - (3 / 4) /\
  fst (c_x_new (gdc_after grad (fun y _ => y) 1 s) tt) = - (1 / 2).
Proof.
  exists (fun _ _ _ => (3, 4)). eexists. eexists. split; [reflexivity|]. split; [reflexivity|]. split.
  - cbn. unfold full. rewrite Rabs_right by lra. replace (0 + 3 * (3 * 1)) with (3 * 3) by ring. rewrite sqrt_square by lra. lra.
  - assert (N : norm ((3, 4) : C_ips) = 5).
    { unfold norm, nsq. cbn. replace (3 * 3 + 4 * 4) with (5 * 5) by ring. apply sqrt_square. lra. }
    cbn. unfold full. rewrite N. replace (0 + 5 * (5 * 1)) with (5 * 5) by ring. rewrite sqrt_square by lra. cbn. lra.
Qed.
Print Assumptions C143_adagrad_parts_refuted.

(** * AdaGrad *)
(** IdentityProx.op *)
Definition c_same {E : ips} {I} (y : I -> E) (_ : I -> R) : I -> E := y.
Section Ada.
Context {E : ips} {I : Type}.
Variables (grad : nat -> (I -> E) -> I -> E) (prox : (I -> E) -> (I -> R) -> I -> E) (x0 : I -> E) (eta eps : R) (e : nat) (s : gdc E I).
Hypothesis Init : gdc_init Ada x0 eta eps e None = Ok s.
Let x k : I -> E := c_x_new (gdc_after grad prox k s).
Let sp k : I -> R := c_speed (gdc_after grad prox k s).
Lemma c_ada_run : (forall i, sp 0%nat i = 0) /\ (forall k i, sp (S k) i = sp k i + nsq (grad k (x k) i)) /\
  (forall k, let y := fun i => vsub (x k i) ((eta / (sqrt (sp (S k) i) + eps))%R * grad k (x k) i)%v in
     x (S k) = if Nat.eqb (Nat.modulo k e) 0 then prox y (fun i => eta / (sqrt (sp (S k) i) + eps)) else y).
Proof.
  pose proof (c_init_ok _ _ _ _ _ _ _ Init) as Es.
  assert (Xo : forall k, c_x_old (gdc_after grad prox k s) = x k) by (intros k; symmetry; apply c_after_new; subst s; reflexivity).
  assert (K : forall k, c_class (gdc_after grad prox k s) = @Ada /\ c_eps (gdc_after grad prox k s) = eps /\
    c_epoch_size (gdc_after grad prox k s) = e /\ c_eta_update (gdc_after grad prox k s) = None /\ c_calls (gdc_after grad prox k s) = k).
  { intros k. destruct (c_after_consts grad prox k s) as (A1 & A2 & A3 & A4 & A5). rewrite A1, A2, A3, A4, A5. subst s. cbn. rewrite Nat.add_0_r. repeat split. }
  assert (Et : forall k, c_eta (gdc_after grad prox k s) = eta) by (intros k; rewrite c_eta_const; subst s; reflexivity).
  split; [intros i; unfold sp; subst s; reflexivity|]. split.
  - intros k i. unfold sp at 1. cbn [gdc_after]. unfold gdc_step. rewrite Xo. destruct (K k) as (K1 & K2 & K3 & K4 & K5). rewrite K5.
    unfold c_update_dir, c_update_speed. rewrite K1. cbn [c_speed]. fold (sp k). replace (norm (grad k (x k) i) ^ 2) with (norm (grad k (x k) i) * norm (grad k (x k) i)) by ring. rewrite norm_sq'. reflexivity.
  - intros k y. subst y. unfold x at 1, sp. cbn [gdc_after]. unfold gdc_step. rewrite Xo. destruct (K k) as (K1 & K2 & K3 & K4 & K5). rewrite K5, K3, K2, Et.
    unfold c_update_dir, c_update_speed. rewrite K1. cbn [c_speed c_x_new]. reflexivity.
Qed.
End Ada.

(** [C143] AdaGrad: the speed is the sum of the squared moduli of the gradients seen, and no update
    moves an entry by more than eta in modulus (between regularisation steps, or without
    regularisation). *)
Theorem C143_adagrad_moves_at_most_eta :
  forall (E : ips) I grad prox (x0 : I -> E) eta eps e s, gdc_init Ada x0 eta eps e None = Ok s -> 0 <= eta -> 0 < eps ->
  let x k := c_x_new (gdc_after grad prox k s) in
  (forall n i, c_speed (gdc_after grad prox n s) i = sum_below n (fun k => norm (grad k (x k) i) ^ 2)) /\
  (forall n i, Nat.modulo n e <> 0%nat \/ (forall y t, prox y t = y) -> norm (vsub (x (S n) i) (x n i)) <= eta).
Proof.
  intros E I grad prox x0 eta eps e s Init Heta Heps x. destruct (c_ada_run grad prox x0 eta eps e s Init) as (S0 & SS & XS). cbv zeta in SS, XS.
  assert (Sum : forall n i, c_speed (gdc_after grad prox n s) i = sum_below n (fun k => norm (grad k (x k) i) ^ 2)).
  { intros n i. induction n as [|n IH]; [apply S0|]. rewrite SS, IH. cbn [sum_below]. fold (x n). rewrite <- norm_sq'. ring. }
  split; [exact Sum|]. intros n i Q. specialize (XS n). cbv zeta in XS.
  assert (X : x (S n) i = vsub (x n i) ((eta / (sqrt (c_speed (gdc_after grad prox (S n) s) i) + eps))%R * grad n (x n) i)%v).
  { unfold x at 1. rewrite XS. destruct (Nat.eqb_spec (Nat.modulo n e) 0) as [Z|_]; [|reflexivity]. destruct Q as [Q|Q]; [contradiction|]. rewrite Q. reflexivity. }
  rewrite X. set (r := sqrt _). set (g := grad n (x n) i).
  replace (vsub (vsub (x n i) ((eta / (r + eps))%R * g)%v) (x n i)) with ((- (eta / (r + eps)))%R * g)%v by vring.
  assert (P : 0 <= r) by apply sqrt_pos. assert (G : norm g <= r).
  { unfold r. rewrite SS. fold (x n) g. change (norm g) with (sqrt (nsq g)). apply sqrt_le_1_alt.
    assert (0 <= c_speed (gdc_after grad prox n s) i); [|lra]. rewrite Sum. clear.
    induction n as [|n IH]; cbn [sum_below]; [lra|]. pose proof (pow2_ge_0 (norm (grad n (x n) i))). lra. }
  rewrite norm_scal, Rabs_Ropp, Rabs_right.
  - apply Rle_trans with (eta / (r + eps) * (r + eps)); [|right; field; lra]. apply Rmult_le_compat_l; [|lra].
    apply Rmult_le_pos; [exact Heta|left; apply Rinv_0_lt_compat; lra].
  - apply Rle_ge, Rmult_le_pos; [exact Heta|left; apply Rinv_0_lt_compat; lra].
Qed.
Print Assumptions C143_adagrad_moves_at_most_eta.

Section Run.
Variables (E : ips) (I : Type) (l : list I) (complete : forall i, In i l).
Notation H := (entries_ips E I l complete).
Variables (df : H -> H) (x0 : I -> E) (eta eps : R) (e : nat) (s : gdc E I).
Hypothesis Init : gdc_init Ada x0 eta eps e None = Ok s.
Let x k : I -> E := c_x_new (gdc_after (fun _ => df) c_same k s).
Let sp k : I -> R := c_speed (gdc_after (fun _ => df) c_same k s).
Lemma c_ada_steps : (forall i, sp 0%nat i = 0) /\ (forall k i, sp (S k) i = sp k i + nsq (df (x k) i)) /\
  (forall k i, x (S k) i = vsub (x k i) ((eta / (sqrt (sp (S k) i) + eps))%R * df (x k) i)%v).
Proof.
  destruct (c_ada_run (fun _ => df) c_same x0 eta eps e s Init) as (S0 & SS & XS). split; [exact S0|]. split; [exact SS|].
  intros k i. specialize (XS k). cbv zeta in XS. unfold x at 1. rewrite XS. destruct (Nat.eqb _ _); reflexivity.
Qed.
End Run.

(** [C143] AdaGrad without regularisation, f with an L-Lipschitz gradient and bounded below by m, not
    necessarily convex: whatever eta > 0 and epsilon > 0, the squared moduli of the gradients at any
    entry add up to at most an explicit constant, and the gradients tend to zero. *)
Theorem C143_adagrad_gradients_vanish :
  forall (E : ips) I (l : list I) (complete : forall i, In i l) f df L m (x0 : I -> E) eta eps e s,
  let H := entries_ips E I l complete in
  0 <= L -> is_gradient (H := H) f df -> lipschitz (H := H) L df -> (forall y, m <= f y) -> 0 < eta -> 0 < eps ->
  gdc_init Ada x0 eta eps e None = Ok s ->
  let x k := c_x_new (gdc_after (fun _ => df) c_same k s) in
  let bound := eps + 4 * ((f x0 - m) / eta + INR (length l) * ((L * eta) ^ 3 / (2 * eps ^ 2))) in
  (forall n i, sum_below n (fun k => norm (df (x k) i) ^ 2) <= bound ^ 2) /\
  converges (H := H) (fun n => df (x n)) vzero.
Proof.
  intros E I l complete f df L m x0 eta eps e s H HL Gf Lf Hm Heta Heps Init x bound.
  destruct (c_ada_steps E I l complete df x0 eta eps e s Init) as (S0 & SS & XS). split.
  - intros n i. pose proof (speed_bounded E I l complete f df L eta eps HL Gf Lf Heta Heps x _ S0 SS XS m Hm n i) as B.
    assert (Eb : root_bound E I l complete f L eta eps x m = bound).
    { unfold root_bound, budget, bound. replace (x 0%nat) with x0 by (pose proof (c_init_ok _ _ _ _ _ _ _ Init); subst s; reflexivity).
      f_equal. f_equal. f_equal. f_equal. field. lra. }
    rewrite Eb in B. replace (bound ^ 2) with (bound * bound) by ring.
    rewrite (speed_sum E I l complete df x _ S0 SS) in B.
    replace (fun k => norm (df (x k) i) ^ 2) with (fun k => nsq (df (x k) i)) by (extensionality k; rewrite <- norm_sq'; ring). exact B.
  - apply vanishing. exact (gradient_vanishes E I l complete f df L eta eps HL Gf Lf Heta Heps x _ S0 SS XS m Hm).
Qed.
Print Assumptions C143_adagrad_gradients_vanish.

(** [C143] If f is also convex and has a minimiser, the values tend to the minimum (the best of the
    first n+1 is within C/(n+1) of it) and the complex estimates converge to a minimiser. *)
Theorem C143_adagrad_converges :
  forall I (eq_dec : forall i j : I, {i = j} + {i <> j}) (l : list I) (complete : forall i, In i l) f df L (x0 : I -> C_ips) eta eps e s z,
  let H := entries_ips C_ips I l complete in
  NoDup l -> 0 <= L -> smooth_convex (H := H) L f df -> (forall y, f z <= f y) -> 0 < eta -> 0 < eps ->
  gdc_init Ada x0 eta eps e None = Ok s ->
  let x k := c_x_new (gdc_after (fun _ => df) c_same k s) in
  (forall d, 0 < d -> exists N, forall n, (N <= n)%nat -> f (x n) < f z + d) /\
  (exists C, forall n, exists k, (k <= n)%nat /\ f (x k) - f z <= C / INR (S n)) /\
  (exists z', (forall y, f z' <= f y) /\ converges (H := H) x z').
Proof.
  intros I eq_dec l complete f df L x0 eta eps e s z H ND HL (Cf & Gf & Lf) Hz Heta Heps Init x.
  destruct (c_ada_steps C_ips I l complete df x0 eta eps e s Init) as (S0 & SS & XS). split; [|split].
  - pose proof (values_vanish C_ips I l complete f df L eta eps HL Gf Lf Heta Heps x _ S0 SS XS (f z) Hz Cf z Hz) as V.
    intros d Hd. destruct (V d Hd) as (N & Q). exists N. intros n Hn. specialize (Q n Hn). lra.
  - pose proof (values_summable C_ips I l complete f df L eta eps HL Gf Lf Heta Heps x _ S0 SS XS (f z) Hz Cf z Hz) as V.
    eexists. intros n. specialize (V (S n)). cbv beta in V.
    apply (Rmult_le_compat_l (/ (2 * eta))) in V; [|left; apply Rinv_0_lt_compat; lra].
    rewrite <- Rmult_assoc, Rinv_l, Rmult_1_l in V by lra. apply (smallest n (fun k => f (x k) - f z)) in V. exact V.
  - exact (estimates_converge C_ips I l complete f df L eta eps HL Gf Lf Heta Heps x _ S0 SS XS (f z) Hz Cf
      (fd_entries C_ips I eq_dec l complete ND fd_C) z Hz).
Qed.
Print Assumptions C143_adagrad_converges.

(** [C143] For instance complex least squares, 1/2 || op x - obs ||^2 (opt/gradient.py:GradBasic) with
    op linear, trans_op its conjugate transpose, and any bound L on the squared norm of op:
    AdaGrad's estimates converge to a solution, if there is one. *)
Theorem C143_adagrad_complex_least_squares :
  forall I (eq_dec : forall i j : I, {i = j} + {i <> j}) (l : list I) (complete : forall i, In i l) (K : ips)
    (op : entries_ips C_ips I l complete -> K) trans_op obs L (x0 : I -> C_ips) eta eps e s z,
  let H := entries_ips C_ips I l complete in
  NoDup l -> adjoint op trans_op -> 0 <= L -> (forall x, nsq (op x) <= L * nsq x) ->
  (forall y, grad_basic_cost op obs z <= grad_basic_cost op obs y) -> 0 < eta -> 0 < eps ->
  gdc_init Ada x0 eta eps e None = Ok s ->
  let x k := c_x_new (gdc_after (fun _ => grad_basic op trans_op obs) c_same k s) in
  exists z', (forall y, grad_basic_cost op obs z' <= grad_basic_cost op obs y) /\ converges (H := H) x z'.
Proof.
  intros I eq_dec l complete K op trans_op obs L x0 eta eps e s z H ND A HL Bd Hz Heta Heps Init x.
  assert (Sm : smooth_convex (H := H) L (grad_basic_cost op obs) (grad_basic op trans_op obs)) by (apply ls_smooth; assumption).
  apply (C143_adagrad_converges I eq_dec l complete _ _ L x0 eta eps e s z ND HL Sm Hz Heta Heps Init).
Qed.
Print Assumptions C143_adagrad_complex_least_squares.

(** One complex entry, op the identity, obs = 3 + 4i, from 0 with eta = epsilon = 1: the first update
    has modulus 5/6 and the direction of obs, and the estimates converge to obs. With obs turned by a
    quarter (times i) the first update is turned by a quarter. *)
Example C143_example :
  let grad (obs : C_ips) (_ : nat) (y : unit -> C_ips) : unit -> C_ips := fun i => vsub (y i) obs in
  exists s, gdc_init Ada (fun _ : unit => (0, 0) : C_ips) 1 1 1 None = Ok s /\
  c_x_new (gdc_after (grad (3, 4)) c_same 1 s) tt = (3 / 6, 4 / 6) /\
  c_x_new (gdc_after (grad (c_mul (0, 1) (3, 4))) c_same 1 s) tt = (- (4 / 6), 3 / 6) /\
  converges (H := entries_ips C_ips unit [tt] unit_complete) (fun n => c_x_new (gdc_after (grad (3, 4)) c_same n s)) (fun _ => (3, 4)).
Proof.
  intros grad. eexists. split; [reflexivity|]. match goal with |- c_x_new (gdc_after _ _ _ ?s) _ = _ /\ _ => set (st := s) end.
  assert (N : forall p q, p * p + q * q = 5 * 5 -> norm ((p, q) : C_ips) = 5).
  { intros p q Q. unfold norm, nsq. cbn. rewrite Q. apply sqrt_square. lra. }
  assert (S5 : sqrt (0 + 5 ^ 2) = 5) by (replace (0 + 5 ^ 2) with (5 * 5) by ring; apply sqrt_square; lra).
  assert (One : forall obs, c_x_new (gdc_after (grad obs) c_same 1 st) tt =
    vsub ((0, 0) : C_ips) ((1 / (sqrt (0 + norm (vsub ((0, 0) : C_ips) obs) ^ 2) + 1))%R * vsub ((0, 0) : C_ips) obs)%v) by reflexivity.
  split; [|split].
  - rewrite One.
    replace (vsub ((0, 0) : C_ips) (3, 4)) with ((-3, -4) : C_ips) by (unfold vsub; cbn; f_equal; lra).
    rewrite N by lra. rewrite S5. unfold vsub. cbn. f_equal; lra.
  - rewrite One.
    replace (vsub ((0, 0) : C_ips) (c_mul (0, 1) (3, 4))) with ((4, -3) : C_ips) by (unfold vsub, c_mul; cbn; f_equal; lra).
    rewrite N by lra. rewrite S5. unfold vsub. cbn. f_equal; lra.
  - set (H := entries_ips C_ips unit [tt] unit_complete). set (obs := (fun _ => (3, 4)) : H).
    assert (ND : NoDup [tt]) by (constructor; [intros []|constructor]).
    assert (N0 : norm (vzero : H) = 0) by (unfold norm, nsq; rewrite inner_0_l; apply sqrt_0).
    assert (Q : forall y : H, grad_basic_cost (fun y : H => y) obs obs <= grad_basic_cost (fun y : H => y) obs y).
    { intros y. unfold grad_basic_cost. replace (vsub obs obs) with (vzero : H) by vring. rewrite N0.
      match goal with |- _ <= / 2 * ?w ^ 2 => pose proof (pow2_ge_0 w) end. nra. }
    destruct (C143_adagrad_complex_least_squares unit (fun i j => left (match i, j with tt, tt => eq_refl end)) [tt] unit_complete H (fun y => y) (fun y => y) obs 1
      (fun _ => (0, 0)) 1 1 1 st obs ND ltac:(intros y y'; reflexivity) ltac:(lra) ltac:(intros y; rewrite Rmult_1_l; apply Rle_refl) Q ltac:(lra) ltac:(lra) eq_refl) as (z & Mz & Cv).
    assert (Z : z = obs).
    { specialize (Mz obs). unfold grad_basic_cost in Mz. replace (vsub obs obs) with (vzero : H) in Mz by vring. rewrite N0 in Mz.
      replace (norm (vsub obs z) ^ 2) with (nsq (vsub obs z)) in Mz by (rewrite <- norm_sq'; ring).
      symmetry. apply nsq_sub_0. pose proof (nsq_pos (vsub obs z)) as P. assert (W : nsq (vsub obs z) = 0) by lra. exact W. }
    rewrite Z in Cv. exact Cv.
Qed.
