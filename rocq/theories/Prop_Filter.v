(** Property theorems C90-C92: signal/filter.py. *)
From Verif Require Import NPReal Py Model_Types Model_Filter Spec_Filter Proof_Filter.
Local Open Scope R_scope.

Lemma not_zero r : r <> 0 -> is_zero r = false.
Proof. intros N. unfold is_zero. destruct (Req_EM_T r 0); [contradiction|reflexivity]. Qed.
Lemma yes_pos r : 0 < r -> is_pos r = true.
Proof. intros N. unfold is_pos. destruct (Rlt_dec 0 r); [reflexivity|contradiction]. Qed.

Lemma gf_scalar x s b : s <> 0 -> gaussian_filter (PyFloat x) (PyFloat s) b = Ok (PyFloat (gauss_point b x s)).
Proof. intros N. unfold gaussian_filter. cbn. rewrite not_zero by exact N. reflexivity. Qed.
Lemma mex_scalar x s : 0 < s -> mex_hat (PyFloat x) (PyFloat s) = Ok (PyFloat (mex_point x s)).
Proof. intros N. unfold mex_hat. cbn. rewrite not_zero by lra. cbn. rewrite yes_pos by exact N. reflexivity. Qed.

Lemma sqrt2_pos : 0 < sqrt 2.
Proof. apply sqrt_lt_R0. lra. Qed.

Lemma gauss_num_eg x s : s <> 0 -> gauss_num x s = eg (x / (sqrt 2 * s)).
Proof.
  intros N. unfold gauss_num, eg. pose proof sqrt2_pos. f_equal. replace (x / (sqrt 2 * s) * (x / (sqrt 2 * s))) with ((x / s) ^ 2 / (sqrt 2 * sqrt 2)) by (field; lra).
  rewrite sqrt_sqrt by lra. field. exact N.
Qed.

(** * C90 *)

(** For every positive sigma the normalised filter integrates to one over the real line. *)
Theorem C90_integrates_to_one :
  forall s, 0 < s -> exists g,
    (forall x, gaussian_filter (PyFloat x) (PyFloat s) true = Ok (PyFloat (g x))) /\ integral_over_R g 1.
Proof.
  intros s Hs. exists (fun x => gauss_point true x s). split; [intros x; apply gf_scalar; lra|].
  pose proof sqrt2_pos as P2. pose proof PI_RGT_0 as Pp. pose proof (sqrt_lt_R0 PI Pp) as Ps.
  pose proof (integral_scale eg (sqrt PI) (/ (sqrt (2 * PI) * s)) (sqrt 2 * s) ltac:(apply Rmult_lt_0_compat; lra) gauss_integral) as I.
  rewrite sqrt_mult in I by lra.
  replace (/ (sqrt 2 * sqrt PI * s) * (sqrt 2 * s) * sqrt PI) with 1 in I by (field; lra).
  revert I. apply integral_ext. intros x. unfold gauss_point. rewrite gauss_num_eg by lra. rewrite sqrt_mult by lra. unfold Rdiv. ring.
Qed.
Print Assumptions C90_integrates_to_one.

(** Without normalisation the values lie in ]0, 1], with the 1 exactly at the origin; the filter is
    even, decreases with the distance, and one standard deviation away it is exp(-1/2). *)
Theorem C90_shape :
  forall s, s <> 0 -> exists g,
    (forall x, gaussian_filter (PyFloat x) (PyFloat s) false = Ok (PyFloat (g x))) /\
    (forall x, 0 < g x <= 1) /\ (forall x, g x = 1 <-> x = 0) /\ (forall x, g (- x) = g x) /\
    (forall x y, Rabs x < Rabs y <-> g y < g x) /\ g s = exp (- / 2).
Proof.
  intros s Hs. exists (fun x => gauss_num x s).
  assert (Q : forall x y, Rabs x < Rabs y <-> gauss_num y s < gauss_num x s).
  { intros x y. unfold gauss_num.
    assert (E : forall z, (z / s) ^ 2 = Rabs z * Rabs z * (/ s * / s)) by (intros z; rewrite abs_sq; field; exact Hs).
    assert (P : 0 < / s * / s) by (apply Rsqr_pos_lt, Rinv_neq_0_compat; exact Hs). rewrite !E. set (c := / s * / s) in *. clearbody c.
    pose proof (Rabs_pos x) as Px. pose proof (Rabs_pos y) as Py. set (a := Rabs x) in *. set (b := Rabs y) in *. clearbody a b. split; intros L.
    - apply exp_increasing. assert (a * a < b * b) by (apply Rmult_le_0_lt_compat; assumption).
      assert (a * a * c < b * b * c) by (apply Rmult_lt_compat_r; assumption). lra.
    - apply exp_lt_inv in L. apply Rnot_le_lt. intros M. assert (b * b <= a * a) by (apply Rmult_le_compat; lra).
      assert (b * b * c <= a * a * c) by (apply Rmult_le_compat_r; lra). lra. }
  assert (Z : gauss_num 0 s = 1) by (unfold gauss_num; rewrite <- exp_0; f_equal; field; exact Hs).
  split; [intros x; apply gf_scalar; exact Hs|].
  assert (U : forall x, x <> 0 -> gauss_num x s < 1).
  { intros x N. rewrite <- Z. apply Q. rewrite Rabs_R0. apply Rabs_pos_lt. exact N. }
  repeat split.
  - apply exp_pos.
  - destruct (Req_dec x 0) as [->|N]; [lra|left; apply U; exact N].
  - intros E. destruct (Req_dec x 0) as [|N]; [assumption|]. specialize (U x N). lra.
  - intros ->. exact Z.
  - intros x. unfold gauss_num. f_equal. field. exact Hs.
  - apply Q.
  - apply Q.
  - unfold gauss_num. f_equal. field. exact Hs.
Qed.
Print Assumptions C90_shape.

(** Integers, floats, and arrays of either: an array is filtered element by element. *)
Theorem C90_arrays_elementwise :
  forall l s b, s <> 0 ->
  exists l', gaussian_filter (ArrFloat l) (PyFloat s) b = Ok (ArrFloat l') /\ length l' = length l /\
    forall i, (i < length l)%nat -> gaussian_filter (PyFloat (nth i l 0)) (PyFloat s) b = Ok (PyFloat (nth i l' 0)).
Proof.
  intros l s b Hs. exists (map (fun x => gauss_point b x s) l). split; [unfold gaussian_filter; cbn; rewrite not_zero by exact Hs; cbn; reflexivity|].
  split; [apply map_length|]. intros i Hi. rewrite gf_scalar by exact Hs. do 2 f_equal.
  rewrite (nth_indep (map (fun x => gauss_point b x s) l) 0 (gauss_point b 0 s)) by (rewrite map_length; exact Hi). rewrite (map_nth (fun x => gauss_point b x s)). reflexivity.
Qed.
Print Assumptions C90_arrays_elementwise.

Theorem C90_integers_are_converted :
  forall z w b, gaussian_filter (PyInt z) (PyInt w) b = gaussian_filter (PyFloat (IZR z)) (PyFloat (IZR w)) b.
Proof. reflexivity. Qed.
Print Assumptions C90_integers_are_converted.

(** sigma = 0 raises; a negative sigma is not rejected, and flips the sign of the normalised filter. *)
Theorem C90_invalid_sigma :
  forall x s b, gaussian_filter (PyFloat x) (PyFloat 0) b = Err ZeroDivisionError /\
  (0 < s -> exists v, gaussian_filter (PyFloat x) (PyFloat (- s)) true = Ok (PyFloat (- v)) /\ gaussian_filter (PyFloat x) (PyFloat s) true = Ok (PyFloat v) /\ 0 < v).
Proof.
  intros x s b. split; [unfold gaussian_filter; cbn; unfold is_zero; destruct (Req_EM_T 0 0); [reflexivity|lra]|].
  intros Hs. exists (gauss_point true x s). rewrite !gf_scalar by lra.
  assert (Pr : 0 < sqrt (2 * PI)) by (apply sqrt_lt_R0; pose proof PI_RGT_0; lra). repeat split.
  - do 2 f_equal. unfold gauss_point, gauss_num. replace ((x / - s) ^ 2) with ((x / s) ^ 2) by (field; lra). field; lra.
  - unfold gauss_point, gauss_num. apply Rdiv_lt_0_compat; [apply exp_pos|apply Rmult_lt_0_compat; assumption].
Qed.
Print Assumptions C90_invalid_sigma.

Theorem C90_nonnegative_refuted :
  exists x s v, gaussian_filter (PyFloat x) (PyFloat s) true = Ok (PyFloat v) /\ v < 0.
Proof.
  destruct (C90_invalid_sigma 0 1 true) as [_ H]. destruct (H ltac:(lra)) as (v & E & _ & P).
  exists 0, (- (1)), (- v). split; [exact E|lra].
Qed.
Print Assumptions C90_nonnegative_refuted.

Example C90_example : gaussian_filter (PyInt 1) (PyInt 1) false = Ok (PyFloat (exp (- / 2))).
Proof. rewrite C90_integers_are_converted, gf_scalar by lra. do 2 f_equal. unfold gauss_point, gauss_num. f_equal. field. Qed.

(** * C91 *)

Definition mex_factor (s : R) : R := 2 * / sqrt (3 * s) * / sqrt (sqrt PI).
Lemma mex_factor_pos s : 0 < s -> 0 < mex_factor s.
Proof.
  intros Hs. unfold mex_factor. repeat apply Rmult_lt_0_compat; [lra| |]; apply Rinv_0_lt_compat; apply sqrt_lt_R0; [lra|apply sqrt_lt_R0, PI_RGT_0].
Qed.
Lemma mex_factor_sq s : 0 < s -> mex_factor s * mex_factor s * s * sqrt PI = 4 / 3.
Proof.
  intros Hs. unfold mex_factor. pose proof (sqrt_lt_R0 PI PI_RGT_0) as Ps. pose proof (sqrt_lt_R0 _ Ps) as Pq. assert (P3 : 0 < sqrt (3 * s)) by (apply sqrt_lt_R0; lra).
  replace (2 * / sqrt (3 * s) * / sqrt (sqrt PI) * (2 * / sqrt (3 * s) * / sqrt (sqrt PI)) * s * sqrt PI)
    with (4 * s * sqrt PI / (sqrt (3 * s) * sqrt (3 * s)) / (sqrt (sqrt PI) * sqrt (sqrt PI))) by (field; lra).
  rewrite !sqrt_sqrt by lra. field. lra.
Qed.
Lemma mex_point_eg x s : 0 < s -> mex_point x s = mex_factor s * ((1 - 2 * (x / (sqrt 2 * s) * (x / (sqrt 2 * s)))) * eg (x / (sqrt 2 * s))).
Proof.
  intros Hs. unfold mex_point. rewrite <- gauss_num_eg by lra. fold (mex_factor s). unfold gauss_num. pose proof sqrt2_pos.
  replace (x / (sqrt 2 * s) * (x / (sqrt 2 * s))) with ((x / s) ^ 2 / (sqrt 2 * sqrt 2)) by (field; lra). rewrite sqrt_sqrt by lra. field. lra.
Qed.

(** The wavelet has zero mean ... *)
Theorem C91_zero_mean :
  forall s, 0 < s -> exists m,
    (forall x, mex_hat (PyFloat x) (PyFloat s) = Ok (PyFloat (m x))) /\ integral_over_R m 0.
Proof.
  intros s Hs. exists (fun x => mex_point x s). split; [intros x; apply mex_scalar; exact Hs|].
  assert (I0 : integral_over_R (fun _ => 0) 0).
  { exists (fun _ => 0). split; [intros; apply derivable_pt_lim_const|]. intros eps He. exists 0. intros. rewrite Rminus_0_r, Rminus_0_r, Rabs_R0. exact He. }
  pose proof (integral_plus_vanishing _ _ _ _ I0 (d_poly_eg 1 0) (vanish_x_eg 1 0)) as I.
  pose proof sqrt2_pos as P2.
  pose proof (integral_scale _ _ (mex_factor s) (sqrt 2 * s) ltac:(apply Rmult_lt_0_compat; lra) I) as J. replace (mex_factor s * (sqrt 2 * s) * 0) with 0 in J by ring.
  revert J. apply integral_ext. intros x. rewrite (mex_point_eg x s Hs). ring.
Qed.
Print Assumptions C91_zero_mean.

(** ... and unit energy, for every scale. *)
Theorem C91_unit_energy :
  forall s, 0 < s -> exists m,
    (forall x, mex_hat (PyFloat x) (PyFloat s) = Ok (PyFloat (m x))) /\ integral_over_R (fun x => m x * m x) 1.
Proof.
  intros s Hs. exists (fun x => mex_point x s). split; [intros x; apply mex_scalar; exact Hs|].
  pose proof (integral_scale eg (sqrt PI) (3 / 4) 1 ltac:(lra) gauss_integral) as I0.
  pose proof (integral_plus_vanishing _ _ _ _ I0 (d_poly_eg (/ 4) (- / 2)) (vanish_x_eg (/ 4) (- / 2))) as I.
  pose proof (integral_scale _ _ (mex_factor s * mex_factor s) s Hs I) as J.
  replace (mex_factor s * mex_factor s * s * (3 / 4 * 1 * sqrt PI)) with (3 / 4 * (mex_factor s * mex_factor s * s * sqrt PI)) in J by ring.
  rewrite (mex_factor_sq s Hs) in J. replace (3 / 4 * (4 / 3)) with 1 in J by field.
  revert J. apply integral_ext. intros x. unfold mex_point. fold (mex_factor s). replace (x / s / 1) with (x / s) by (field; lra).
  replace (mex_factor s * (1 - (x / s) ^ 2) * exp (- / 2 * (x / s) ^ 2) * (mex_factor s * (1 - (x / s) ^ 2) * exp (- / 2 * (x / s) ^ 2)))
    with (mex_factor s * mex_factor s * (1 - (x / s) ^ 2) ^ 2 * (exp (- / 2 * (x / s) ^ 2) * exp (- / 2 * (x / s) ^ 2))) by ring.
  rewrite <- exp_plus. replace (- / 2 * (x / s) ^ 2 + - / 2 * (x / s) ^ 2) with (- (x / s * (x / s))) by (field; lra). fold (eg (x / s)). field. lra.
Qed.
Print Assumptions C91_unit_energy.

(** It is the negative of the second derivative of the Gaussian filter, up to a positive factor. *)
Theorem C91_second_derivative_of_gaussian :
  forall s, 0 < s -> exists g m c, 0 < c /\
    (forall x, gaussian_filter (PyFloat x) (PyFloat s) true = Ok (PyFloat (g x))) /\
    (forall x, mex_hat (PyFloat x) (PyFloat s) = Ok (PyFloat (m x))) /\
    second_derivative g (fun x => - (c * m x)).
Proof.
  intros s Hs. assert (Pr : 0 < sqrt (2 * PI)) by (apply sqrt_lt_R0; pose proof PI_RGT_0; lra). pose proof (mex_factor_pos s Hs) as Pm.
  set (N := / (sqrt (2 * PI) * s)). assert (PN : 0 < N) by (apply Rinv_0_lt_compat, Rmult_lt_0_compat; assumption).
  exists (fun x => gauss_point true x s), (fun x => mex_point x s), (N / (s * s) / mex_factor s).
  assert (Ps2 : 0 < s * s) by (apply Rmult_lt_0_compat; assumption).
  split; [apply Rdiv_lt_0_compat; [apply Rdiv_lt_0_compat|]; assumption|]. split; [intros x; apply gf_scalar; lra|]. split; [intros x; apply mex_scalar; exact Hs|].
  set (c := / (2 * (s * s))). set (p := fun x => exp (- (c * (x * x)))).
  assert (Eg : forall x, gauss_num x s = p x) by (intros x; unfold gauss_num, p, c; f_equal; field; lra).
  assert (Dp : forall x, derivable_pt_lim p x (- (2 * c * x) * p x)) by (intros x; apply d_exp_sq).
  exists (fun x => N * (- (2 * c * x) * p x)). split.
  - intros x. apply (deriv_ext (fun x => N * p x)); [intros y; unfold gauss_point; rewrite Eg; unfold N, Rdiv; ring|].
    apply derivable_pt_lim_scal, Dp.
  - intros x. pose proof (derivable_pt_lim_scal _ N x _ (derivable_pt_lim_mult _ p x _ _ (d_lin (- (2 * c)) x) (Dp x))) as D.
    apply (deriv_ext _ (fun x => N * (- (2 * c * x) * p x))) in D; [|intros y; unfold mult_real_fct, mult_fct; ring].
    match type of D with derivable_pt_lim _ _ ?l => replace (- (N / (s * s) / mex_factor s * mex_point x s)) with l; [exact D|] end.
    unfold mex_point. fold (mex_factor s). fold (gauss_num x s). rewrite Eg. unfold c. field. lra.
Qed.
Print Assumptions C91_second_derivative_of_gaussian.

(** It is positive exactly inside one standard deviation. *)
Theorem C91_sign :
  forall s x, 0 < s -> exists v, mex_hat (PyFloat x) (PyFloat s) = Ok (PyFloat v) /\
    (0 < v <-> Rabs x < s) /\ (v = 0 <-> Rabs x = s) /\ mex_hat (PyFloat (- x)) (PyFloat s) = Ok (PyFloat v).
Proof.
  intros s x Hs. exists (mex_point x s). rewrite !mex_scalar by exact Hs. split; [reflexivity|].
  assert (E : mex_point x s = mex_factor s * exp (- / 2 * (x / s) ^ 2) * / (s * s) * (s + Rabs x) * (s - Rabs x)).
  { unfold mex_point. fold (mex_factor s). replace ((s + Rabs x)) with (Rabs x + s) by ring.
    replace (mex_factor s * exp (- / 2 * (x / s) ^ 2) * / (s * s) * (Rabs x + s) * (s - Rabs x)) with (mex_factor s * exp (- / 2 * (x / s) ^ 2) * / (s * s) * (s * s - Rabs x * Rabs x)) by ring.
    rewrite abs_sq. field. lra. }
  assert (P : 0 < mex_factor s * exp (- / 2 * (x / s) ^ 2) * / (s * s) * (s + Rabs x)).
  { pose proof (Rabs_pos x). apply Rmult_lt_0_compat; [apply Rmult_lt_0_compat; [apply Rmult_lt_0_compat|]|]; [apply mex_factor_pos; exact Hs|apply exp_pos|apply Rinv_0_lt_compat, Rmult_lt_0_compat; exact Hs|lra]. }
  rewrite E. set (q := mex_factor s * exp (- / 2 * (x / s) ^ 2) * / (s * s) * (s + Rabs x)) in *. split; [|split].
  - split; intros L.
    + apply Rnot_le_lt. intros M. assert (0 <= q * (Rabs x - s)) by (apply Rmult_le_pos; lra). lra.
    + apply Rmult_lt_0_compat; lra.
  - split; intros L; [|rewrite L; ring]. apply Rmult_integral in L. destruct L; lra.
  - do 2 f_equal. rewrite <- E. unfold mex_point. replace ((- x / s) ^ 2) with ((x / s) ^ 2) by (field; lra). reflexivity.
Qed.
Print Assumptions C91_sign.

Example C91_example : mex_hat (PyInt 3) (PyInt 3) = Ok (PyFloat 0) /\ mex_hat (PyInt 3) (PyInt 0) = Err ZeroDivisionError.
Proof.
  split.
  - change (mex_hat (PyInt 3) (PyInt 3)) with (mex_hat (PyFloat 3) (PyFloat 3)). rewrite mex_scalar by lra. do 2 f_equal. unfold mex_point.
    replace ((3 / 3) ^ 2) with 1 by field. ring.
  - unfold mex_hat. cbn. unfold is_zero. destruct (Req_EM_T 0 0); [reflexivity|lra].
Qed.

(** * C92 *)

(** What is computed: the Mexican hat times -(1/2)(g/sigma)^2, the exponent of a Gaussian. *)
Theorem C92_value :
  forall s g x, 0 < s -> exists m, mex_hat (PyFloat x) (PyFloat s) = Ok (PyFloat m) /\
    mex_hat_dir (PyFloat g) (PyFloat x) (PyFloat s) = Ok (PyFloat (- / 2 * (g / s) ^ 2 * m)).
Proof.
  intros s g x Hs. exists (mex_point x s). split; [apply mex_scalar; exact Hs|].
  unfold mex_hat_dir. cbn [check_float bind div_ok]. rewrite not_zero by lra. cbn [bind bc2]. rewrite mex_scalar by exact Hs. reflexivity.
Qed.
Print Assumptions C92_value.

(** The Gaussian profile in the first coordinate is lost: at its centre the filter vanishes instead of
    being the Mexican hat, and it grows without bound away from the centre. *)
Theorem C92_gaussian_profile_refuted :
  exists x s m, mex_hat (PyFloat x) (PyFloat s) = Ok (PyFloat m) /\ 0 < m /\
    mex_hat_dir (PyFloat 0) (PyFloat x) (PyFloat s) = Ok (PyFloat 0) /\
    (forall g, g <> 0 -> exists v, mex_hat_dir (PyFloat g) (PyFloat x) (PyFloat s) = Ok (PyFloat v) /\ v < 0) /\
    (forall B, exists g v, mex_hat_dir (PyFloat g) (PyFloat x) (PyFloat s) = Ok (PyFloat v) /\ B < Rabs v).
Proof.
  destruct (C91_sign 1 0 ltac:(lra)) as (m & Em & Pm & _). rewrite Rabs_R0 in Pm. assert (P : 0 < m) by (apply Pm; lra).
  exists 0, 1, m.
  assert (V : forall g, mex_hat_dir (PyFloat g) (PyFloat 0) (PyFloat 1) = Ok (PyFloat (- / 2 * (g * g) * m))).
  { intros g. destruct (C92_value 1 g 0 ltac:(lra)) as (m' & E1 & E2). rewrite Em in E1. injection E1 as <-. rewrite E2. do 2 f_equal. field. }
  split; [exact Em|]. split; [exact P|]. split; [rewrite V; do 2 f_equal; ring|]. split.
  - intros g N. eexists. split; [apply V|]. assert (0 < g * g) by (apply Rsqr_pos_lt; exact N). assert (0 < g * g * m) by (apply Rmult_lt_0_compat; assumption). lra.
  - intros B. set (q := 2 * (Rabs B + 1) / m). assert (Pq : 0 < q) by (apply Rdiv_lt_0_compat; [pose proof (Rabs_pos B); lra|exact P]).
    exists (sqrt q). eexists. split; [apply V|]. rewrite sqrt_sqrt by lra.
    replace (- / 2 * q * m) with (- (Rabs B + 1)) by (unfold q; field; lra). rewrite Rabs_Ropp, Rabs_right by (pose proof (Rabs_pos B); lra). pose proof (Rle_abs B). lra.
Qed.
Print Assumptions C92_gaussian_profile_refuted.

Example C92_example : mex_hat_dir (PyFloat 1) (PyFloat 5) (PyFloat 5) = Ok (PyFloat 0) /\ mex_hat_dir (PyInt 1) (PyInt 2) (PyInt 0) = Err ZeroDivisionError.
Proof.
  split.
  - destruct (C92_value 5 1 5 ltac:(lra)) as (m & E1 & ->). destruct (C91_sign 5 5 ltac:(lra)) as (v & E2 & _ & Z & _). rewrite E1 in E2. injection E2 as ->.
    destruct Z as [_ Z]. rewrite Z by (apply Rabs_right; lra). do 2 f_equal. ring.
  - unfold mex_hat_dir. cbn. unfold is_zero. destruct (Req_EM_T 0 0); [reflexivity|lra].
Qed.
