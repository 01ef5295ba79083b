(** Antiderivatives of continuous functions on R and the Gaussian integral. *)
From Verif Require Import NPReal Py Spec_Filter.
Local Open Scope R_scope.

Lemma deriv_ext f g x l : (forall y, f y = g y) -> derivable_pt_lim f x l -> derivable_pt_lim g x l.
Proof. intros E D eps He. destruct (D eps He) as [d Hd]. exists d. intros h H1 H2. rewrite <- !E. apply Hd; assumption. Qed.

Lemma deriv_loc f g x l d : 0 < d -> (forall y, Rabs (y - x) < d -> f y = g y) -> derivable_pt_lim f x l -> derivable_pt_lim g x l.
Proof.
  intros Hd E D eps He. destruct (D eps He) as [[d1 H1] H2]. cbn in H2.
  assert (P : 0 < Rmin d d1) by (apply Rmin_pos; assumption). exists (mkposreal _ P). cbn. intros h Hh Ha.
  assert (A1 := Rmin_l d d1). assert (A2 := Rmin_r d d1).
  rewrite <- (E (x + h)), <- (E x).
  - apply H2; [exact Hh|lra].
  - rewrite Rminus_diag_eq, Rabs_R0; [exact Hd|reflexivity].
  - replace (x + h - x) with h by ring. lra.
Qed.

(** The mean value theorem in the form used here. *)
Lemma mvt F f a b : (forall x, derivable_pt_lim F x (f x)) -> exists c, Rmin a b <= c <= Rmax a b /\ F b - F a = f c * (b - a).
Proof.
  intros D. destruct (Rtotal_order a b) as [L|[->|L]].
  - destruct (MVT_cor2 F f a b L) as (c & E & Hc); [intros; apply D|]. exists c. rewrite Rmin_left, Rmax_right by lra. split; [lra|exact E].
  - exists b. rewrite Rmin_left, Rmax_right by lra. split; [lra|ring].
  - destruct (MVT_cor2 F f b a L) as (c & E & Hc); [intros; apply D|]. exists c. rewrite Rmin_right, Rmax_left by lra. split; [lra|lra].
Qed.

Lemma anti_const F G f : (forall x, derivable_pt_lim F x (f x)) -> (forall x, derivable_pt_lim G x (f x)) ->
  forall a b, F b - F a = G b - G a.
Proof.
  intros DF DG a b. destruct (mvt (fun x => F x - G x) (fun _ => 0) a b) as (c & _ & E).
  - intros x. pose proof (derivable_pt_lim_minus _ _ _ _ _ (DF x) (DG x)) as D. rewrite Rminus_diag_eq in D by reflexivity. exact D.
  - lra.
Qed.

Section Anti.
Variable f : R -> R.
Hypothesis Cf : continuity f.

Lemma seg_le n : - INR n <= INR n.
Proof. pose proof (pos_INR n). lra. Qed.

Definition seg (n : nat) : R -> R := primitive (seg_le n) (FTC_P1 (seg_le n) (fun x _ => Cf x)).

Lemma seg_deriv n x : - INR n <= x <= INR n -> derivable_pt_lim (seg n) x (f x).
Proof. intros H. apply RiemannInt_P28. exact H. Qed.

Lemma seg_agree n m x : (n <= m)%nat -> - INR n <= x <= INR n -> seg n x - seg n 0 = seg m x - seg m 0.
Proof.
  intros L H. assert (L' := le_INR _ _ L). pose proof (pos_INR n) as Pn.
  assert (Dd : forall y, - INR n <= y <= INR n -> derivable_pt_lim (fun t => seg n t - seg m t) y 0).
  { intros y Hy. pose proof (derivable_pt_lim_minus _ _ _ _ _ (seg_deriv n y Hy) (seg_deriv m y ltac:(lra))) as D.
    rewrite Rminus_diag_eq in D by reflexivity. exact D. }
  destruct (Rtotal_order 0 x) as [L0|[<-|L0]].
  - destruct (MVT_cor2 (fun t => seg n t - seg m t) (fun _ => 0) 0 x L0) as (c & E & _); [intros; apply Dd; lra|]. lra.
  - lra.
  - destruct (MVT_cor2 (fun t => seg n t - seg m t) (fun _ => 0) x 0 L0) as (c & E & _); [intros; apply Dd; lra|]. lra.
Qed.

(** The antiderivative of f that vanishes at 0. *)
Definition anti (x : R) : R := let n := Z.to_nat (up (Rabs x)) in seg n x - seg n 0.

Lemma up_abs x : Rabs x < INR (Z.to_nat (up (Rabs x))).
Proof.
  pose proof (Rabs_pos x). destruct (archimed (Rabs x)) as [A B].
  assert (0 <= up (Rabs x))%Z by (apply le_IZR; lra).
  rewrite INR_IZR_INZ, Z2Nat.id by assumption. exact A.
Qed.

Lemma anti_seg n x : Rabs x <= INR n -> anti x = seg n x - seg n 0.
Proof.
  intros H. unfold anti. pose proof (up_abs x) as U. cbv zeta. set (m := Z.to_nat (up (Rabs x))) in *. clearbody m.
  assert (B : forall k, Rabs x <= INR k -> - INR k <= x <= INR k).
  { intros k Hk. pose proof (Rle_abs x). pose proof (Rle_abs (- x)) as Q. rewrite Rabs_Ropp in Q. lra. }
  destruct (le_ge_dec m n) as [L|L]; [|symmetry]; apply seg_agree; try assumption; apply B; lra.
Qed.

Lemma anti_deriv x : derivable_pt_lim anti x (f x).
Proof.
  pose proof (up_abs x) as U. set (n := S (Z.to_nat (up (Rabs x)))).
  assert (Hn : Rabs x + 1 < INR n) by (unfold n; rewrite S_INR; lra). clearbody n.
  apply (deriv_loc (fun y => seg n y - seg n 0) _ x _ 1); [lra| |].
  - intros y Hy. symmetry. apply anti_seg. pose proof (Rabs_triang (y - x) x) as T. replace (y - x + x) with y in T by ring. lra.
  - assert (D : derivable_pt_lim (seg n) x (f x)).
    { apply seg_deriv. pose proof (Rle_abs x). pose proof (Rle_abs (- x)) as Q. rewrite Rabs_Ropp in Q. lra. }
    pose proof (derivable_pt_lim_minus _ _ _ _ _ D (derivable_pt_lim_const (seg n 0) x)) as D2. rewrite Rminus_0_r in D2. exact D2.
Qed.

Lemma anti_0 : anti 0 = 0.
Proof. unfold anti. cbv zeta. ring. Qed.
End Anti.

Lemma anti_bound f Cf M : (forall x, 0 <= x <= 1 -> Rabs (f x) <= M) -> Rabs (anti f Cf 1) <= M.
Proof.
  intros B. destruct (mvt (anti f Cf) f 0 1 (anti_deriv f Cf)) as (c & Hc & E). rewrite anti_0, Rmin_left, Rmax_right in * by lra.
  replace (anti f Cf 1) with (f c) by lra. apply B. exact Hc.
Qed.

Lemma deriv_cont f f' : (forall x, derivable_pt_lim f x (f' x)) -> continuity f.
Proof. intros D x. apply derivable_continuous_pt. exists (f' x). apply D. Qed.

(** Derivatives of the functions at hand. *)
Lemma d_lin a x : derivable_pt_lim (fun y => a * y) x a.
Proof. pose proof (derivable_pt_lim_scal id a x 1 (derivable_pt_lim_id x)) as D. rewrite Rmult_1_r in D. exact D. Qed.
Lemma d_sq x : derivable_pt_lim (fun t => t * t) x (2 * x).
Proof. replace (2 * x) with (1 * x + x * 1) by ring. apply (derivable_pt_lim_mult id id x 1 1); apply derivable_pt_lim_id. Qed.

Lemma d_exp_sq c x : derivable_pt_lim (fun t => exp (- (c * (t * t)))) x (- (2 * c * x) * exp (- (c * (x * x)))).
Proof.
  pose proof (derivable_pt_lim_opp _ _ _ (derivable_pt_lim_scal _ c _ _ (d_sq x))) as D.
  pose proof (derivable_pt_lim_comp _ exp _ _ _ D (derivable_pt_lim_exp _)) as D2.
  unfold comp, opp_fct, mult_real_fct in D2. replace (- (2 * c * x) * exp (- (c * (x * x)))) with (exp (- (c * (x * x))) * - (c * (2 * x))) by ring.
  exact D2.
Qed.

Definition eg (x : R) : R := exp (- (x * x)).
Lemma d_eg x : derivable_pt_lim eg x (- (2 * x) * eg x).
Proof.
  pose proof (d_exp_sq 1 x) as D. apply (deriv_ext (fun t => exp (- (1 * (t * t)))) eg) in D; [|intros y; unfold eg; f_equal; ring].
  replace (- (2 * x) * eg x) with (- (2 * 1 * x) * exp (- (1 * (x * x)))); [exact D|]. unfold eg. rewrite Rmult_1_l. ring.
Qed.
Lemma eg_cont : continuity eg.
Proof. apply (deriv_cont _ _ d_eg). Qed.

Definition G : R -> R := anti eg eg_cont.
Lemma G_deriv x : derivable_pt_lim G x (eg x).
Proof. apply anti_deriv. Qed.
Lemma G_0 : G 0 = 0.
Proof. apply anti_0. Qed.

(** k t x = exp(-t^2 (1+x^2)) / (1+x^2) and its integral over [0, 1]. *)
Definition k (t x : R) : R := exp (- (t * t * (1 + x * x))) / (1 + x * x).
Lemma one_sq x : 0 < 1 + x * x.
Proof. pose proof (Rle_0_sqr x). unfold Rsqr in *. lra. Qed.
Lemma k_cont t : continuity (k t).
Proof.
  intros x. unfold k. apply continuity_pt_div.
  - apply (continuity_pt_comp (fun x => - (t * t * (1 + x * x))) exp); [|apply derivable_continuous_pt, derivable_pt_exp].
    reg.
  - reg.
  - pose proof (one_sq x). lra.
Qed.
Definition Hk (t : R) : R := anti (k t) (k_cont t) 1.

(** Taylor bound for t |-> exp(-c t^2)/c. *)
Lemma taylor c t h : 1 <= c <= 2 -> Rabs h <= 1 ->
  Rabs (exp (- ((t + h) * (t + h) * c)) / c - exp (- (t * t * c)) / c + 2 * h * t * exp (- (t * t * c)))
   <= (2 + 8 * (Rabs t + 1) ^ 2) * h ^ 2.
Proof.
  intros Hc Hh.
  set (p := fun s => exp (- (c * (s * s)))).
  assert (Dp : forall s, derivable_pt_lim p s (- (2 * c * s) * p s)) by (intros s; apply d_exp_sq).
  set (q := fun s => p s / c). set (q1 := fun s => - (2 * s) * p s). set (q2 := fun s => (4 * c * (s * s) - 2) * p s).
  assert (Dq : forall s, derivable_pt_lim q s (q1 s)).
  { intros s. apply (deriv_ext (fun s => / c * p s)); [intros; unfold q; field; lra|].
    replace (q1 s) with (/ c * (- (2 * c * s) * p s)) by (unfold q1; field; lra). apply derivable_pt_lim_scal, Dp. }
  assert (Dq1 : forall s, derivable_pt_lim q1 s (q2 s)).
  { intros s. replace (q2 s) with (- 2 * p s + (- (2) * s) * (- (2 * c * s) * p s)) by (unfold q2; ring).
    apply (deriv_ext (fun s => (-2 * s) * p s)); [intros; unfold q1; ring|].
    apply (derivable_pt_lim_mult (fun s => -2 * s) p s (-2) _); [|apply Dp].
    apply d_lin. }
  replace (exp (- ((t + h) * (t + h) * c)) / c) with (q (t + h)) by (unfold q, p; f_equal; f_equal; ring).
  replace (exp (- (t * t * c)) / c) with (q t) by (unfold q, p; f_equal; f_equal; ring).
  replace (2 * h * t * exp (- (t * t * c))) with (- h * q1 t) by (unfold q1, p; replace (c * (t * t)) with (t * t * c) by ring; ring).
  destruct (mvt q q1 t (t + h) Dq) as (a & Ha & E1). destruct (mvt q1 q2 t a Dq1) as (b & Hb & E2).
  replace (q (t + h) - q t + - h * q1 t) with (h * (a - t) * q2 b).
  2:{ replace (q2 b) with (q2 b) by reflexivity. replace (q (t + h) - q t) with (q1 a * h) by (rewrite E1; ring).
      replace (q1 a * h + - h * q1 t) with (h * (q1 a - q1 t)) by ring. rewrite E2. ring. }
  assert (Ba : Rabs (a - t) <= Rabs h).
  { unfold Rmin, Rmax in Ha. unfold Rabs. destruct (Rle_dec t (t + h)), (Rcase_abs (a - t)), (Rcase_abs h); lra. }
  assert (Bb : Rabs b <= Rabs t + 1).
  { unfold Rmin, Rmax in Hb. assert (Rabs (b - t) <= Rabs (a - t)).
    { unfold Rabs. destruct (Rle_dec t a), (Rcase_abs (b - t)), (Rcase_abs (a - t)); lra. }
    pose proof (Rabs_triang (b - t) t) as T. replace (b - t + t) with b in T by ring. lra. }
  assert (Bq : Rabs (q2 b) <= 2 + 8 * (Rabs t + 1) ^ 2).
  { unfold q2. rewrite Rabs_mult. assert (Pp : 0 < p b <= 1).
    { unfold p. split; [apply exp_pos|]. rewrite <- exp_0. destruct (Req_dec (c * (b * b)) 0) as [->|N]; [rewrite Ropp_0; lra|].
      left. apply exp_increasing. pose proof (Rle_0_sqr b) as Q. unfold Rsqr in Q. assert (0 <= c * (b * b)) by (apply Rmult_le_pos; lra). lra. }
    rewrite (Rabs_right (p b)) by lra.
    assert (Rabs (4 * c * (b * b) - 2) <= 2 + 8 * (Rabs t + 1) ^ 2).
    { assert (Q : b * b <= (Rabs t + 1) ^ 2).
      { replace (b * b) with (Rabs b * Rabs b) by (rewrite <- Rabs_mult; apply Rabs_right; pose proof (Rle_0_sqr b); unfold Rsqr in *; lra).
        replace ((Rabs t + 1) ^ 2) with ((Rabs t + 1) * (Rabs t + 1)) by ring. pose proof (Rabs_pos b). apply Rmult_le_compat; lra. }
      pose proof (Rle_0_sqr b) as Q0. unfold Rsqr in Q0.
      assert (0 <= c * (b * b) <= 2 * (Rabs t + 1) ^ 2).
      { split; [apply Rmult_le_pos; lra|]. apply Rmult_le_compat; lra. }
      apply Rabs_le. lra. }
    pose proof (Rabs_pos (4 * c * (b * b) - 2)) as P0. rewrite <- (Rmult_1_r (2 + 8 * (Rabs t + 1) ^ 2)). apply Rmult_le_compat; lra. }
  rewrite !Rabs_mult. replace (h ^ 2) with (Rabs h * Rabs h) by (rewrite <- Rabs_mult, Rabs_right; [ring|pose proof (Rle_0_sqr h); unfold Rsqr in *; lra]).
  rewrite (Rmult_comm (2 + _)). pose proof (Rabs_pos h). pose proof (Rabs_pos (a - t)). pose proof (Rabs_pos (q2 b)).
  apply Rmult_le_compat; [apply Rmult_le_pos; assumption|assumption| |exact Bq]. apply Rmult_le_compat; lra.
Qed.

(** The integral over [0,1] of t exp(-t^2 x^2) is G t. *)
Lemma G_scaled t x : derivable_pt_lim (fun y => G (t * y)) x (t * eg (t * x)).
Proof.
  pose proof (derivable_pt_lim_comp (fun y => t * y) G x t (eg (t * x))) as D.
  rewrite (Rmult_comm t). apply D; [|apply G_deriv]. apply d_lin.
Qed.

Lemma Hk_deriv t : derivable_pt_lim Hk t (- (2) * eg t * G t).
Proof.
  set (B := 2 + 8 * (Rabs t + 1) ^ 2). assert (HB : 0 < B) by (unfold B; pose proof (pow2_ge_0 (Rabs t + 1)); lra).
  assert (K : forall h, Rabs h <= 1 -> Rabs (Hk (t + h) - Hk t + 2 * h * eg t * G t) <= B * h ^ 2).
  { intros h Hh. unfold Hk.
    set (F := fun y => anti (k (t + h)) (k_cont (t + h)) y - anti (k t) (k_cont t) y + 2 * h * eg t * G (t * y)).
    set (f := fun y => k (t + h) y - k t y + 2 * h * eg t * (t * eg (t * y))).
    assert (DF : forall y, derivable_pt_lim F y (f y)).
    { intros y. apply derivable_pt_lim_plus; [apply derivable_pt_lim_minus; apply anti_deriv|]. apply derivable_pt_lim_scal, G_scaled. }
    destruct (mvt F f 0 1 DF) as (c & Hc & E). rewrite Rmin_left, Rmax_right in Hc by lra.
    assert (F0 : F 0 = 0) by (unfold F; rewrite !anti_0, Rmult_0_r, G_0; ring).
    assert (F1 : F 1 = anti (k (t + h)) (k_cont (t + h)) 1 - anti (k t) (k_cont t) 1 + 2 * h * eg t * G t) by (unfold F; rewrite Rmult_1_r; reflexivity).
    rewrite <- F1. replace (F 1) with (f c) by lra. unfold f, k.
    replace (2 * h * eg t * (t * eg (t * c))) with (2 * h * t * exp (- (t * t * (1 + c * c)))).
    2:{ unfold eg. replace (- (t * t * (1 + c * c))) with (- (t * t) + - (t * c * (t * c))) by ring. rewrite exp_plus. ring. }
    apply taylor; [|exact Hh]. assert (0 <= c * c <= 1 * 1) by (split; [apply Rmult_le_pos; lra|apply Rmult_le_compat; lra]). lra. }
  intros eps He. assert (P : 0 < Rmin 1 (eps / B)) by (apply Rmin_pos; [lra|apply Rdiv_lt_0_compat; assumption]).
  exists (mkposreal _ P). cbn. intros h Hh Ha. pose proof (Rmin_l 1 (eps / B)). pose proof (Rmin_r 1 (eps / B)).
  assert (Pa : 0 < Rabs h) by (apply Rabs_pos_lt; exact Hh).
  replace ((Hk (t + h) - Hk t) / h - - (2) * eg t * G t) with ((Hk (t + h) - Hk t + 2 * h * eg t * G t) / h) by (field; exact Hh).
  unfold Rdiv. rewrite Rabs_mult, Rabs_inv. apply (Rmult_lt_reg_r (Rabs h)); [exact Pa|].
  rewrite Rmult_assoc, Rinv_l, Rmult_1_r by lra. eapply Rle_lt_trans; [apply K; lra|].
  replace (h ^ 2) with (Rabs h * Rabs h) by (rewrite <- Rabs_mult, Rabs_right; [ring|pose proof (Rle_0_sqr h); unfold Rsqr in *; lra]).
  rewrite <- Rmult_assoc. apply Rmult_lt_compat_r; [exact Pa|]. apply (Rmult_lt_reg_l (/ B)); [apply Rinv_0_lt_compat; exact HB|].
  rewrite <- Rmult_assoc, Rinv_l, Rmult_1_l by lra. lra.
Qed.

Lemma atan_1_4 : atan 1 = PI / 4.
Proof. apply atan_1. Qed.

Lemma Hk_0 : Hk 0 = PI / 4.
Proof.
  unfold Hk. pose proof (anti_const (anti (k 0) (k_cont 0)) atan (k 0) (anti_deriv _ _)) as A.
  rewrite <- atan_1. specialize (A ltac:(intros x; pose proof (derivable_pt_lim_atan x) as D; replace (k 0 x) with (/ (1 + x ^ 2)); [exact D|unfold k; rewrite !Rmult_0_l, Ropp_0, exp_0; unfold Rdiv; rewrite Rmult_1_l; f_equal; ring]) 0 1).
  rewrite anti_0, atan_0 in A. lra.
Qed.

Lemma G_Hk t : G t * G t + Hk t = PI / 4.
Proof.
  rewrite <- Hk_0. pose proof G_0 as G0.
  destruct (mvt (fun t => G t * G t + Hk t) (fun _ => 0) 0 t) as (c & _ & E).
  - intros x. pose proof (derivable_pt_lim_plus _ _ _ _ _ (derivable_pt_lim_mult G G x _ _ (G_deriv x) (G_deriv x)) (Hk_deriv x)) as D.
    match type of D with derivable_pt_lim _ _ ?l => replace l with 0 in D by ring end. exact D.
  - rewrite G0 in E. lra.
Qed.

Lemma Hk_bound t : Rabs (Hk t) <= eg t.
Proof.
  apply anti_bound. intros x Hx. unfold k, eg. pose proof (one_sq x). unfold Rdiv. rewrite Rabs_mult, Rabs_inv, (Rabs_right (1 + x * x)), (Rabs_right (exp _)) by (try (left; apply exp_pos); lra).
  rewrite <- (Rmult_1_r (exp (- (t * t)))). apply Rmult_le_compat.
  - left; apply exp_pos.
  - left; apply Rinv_0_lt_compat; lra.
  - destruct (Req_dec (t * t * (x * x)) 0) as [E|N].
    + replace (t * t * (1 + x * x)) with (t * t) by lra. lra.
    + left. apply exp_increasing. assert (0 <= t * t * (x * x)) by (apply Rmult_le_pos; [pose proof (Rle_0_sqr t)|pose proof (Rle_0_sqr x)]; unfold Rsqr in *; lra). lra.
  - rewrite <- Rinv_1. apply Rinv_le_contravar; [lra|]. pose proof (Rle_0_sqr x). unfold Rsqr in *. lra.
Qed.

Lemma G_odd t : G (- t) = - G t.
Proof.
  pose proof (anti_const (fun y => G (-1 * y)) (fun y => - G y) (fun y => -1 * eg y)) as A.
  assert (A1 : forall x, derivable_pt_lim (fun y => G (-1 * y)) x (-1 * eg x)).
  { intros x. replace (eg x) with (eg (-1 * x)) by (unfold eg; f_equal; ring). apply G_scaled. }
  assert (A2 : forall x, derivable_pt_lim (fun y => - G y) x (-1 * eg x)).
  { intros x. replace (-1 * eg x) with (- eg x) by ring. apply (derivable_pt_lim_opp G), G_deriv. }
  specialize (A A1 A2 0 t). cbv beta in A. rewrite Rmult_0_r, G_0 in A. replace (-1 * t) with (- t) in A by ring. lra.
Qed.

Lemma G_pos t : 0 <= t -> 0 <= G t.
Proof.
  intros Ht. destruct (mvt G eg 0 t G_deriv) as (c & _ & E). rewrite G_0 in E. pose proof (exp_pos (- (c * c))) as P. unfold eg in E.
  assert (0 <= exp (- (c * c)) * (t - 0)) by (apply Rmult_le_pos; lra). lra.
Qed.

Lemma exp_inv y : 0 <= y -> exp (- y) <= / (1 + y).
Proof.
  intros Hy. rewrite exp_Ropp. apply Rinv_le_contravar; [lra|]. destruct (Req_dec y 0) as [->|N]; [rewrite exp_0; lra|].
  left. apply exp_ineq1. exact N.
Qed.

Lemma eg_small t : 0 < t -> eg t <= / t.
Proof.
  intros Ht. unfold eg. eapply Rle_trans; [apply exp_inv; pose proof (Rle_0_sqr t); unfold Rsqr in *; lra|].
  apply Rinv_le_contravar; [lra|]. pose proof (Rle_0_sqr (t - 1)). unfold Rsqr in *. lra.
Qed.

(** G tends to sqrt(pi)/2. *)
Lemma G_limit t : 1 <= t -> Rabs (G t - sqrt PI / 2) <= 2 / t.
Proof.
  intros Ht. pose proof PI_RGT_0 as Pp. pose proof (sqrt_lt_R0 PI Pp) as Ps. pose proof (G_pos t ltac:(lra)) as Pg.
  pose proof (sqrt_sqrt PI ltac:(lra)) as SS. pose proof (G_Hk t) as E. pose proof (Hk_bound t) as Bk. pose proof (eg_small t ltac:(lra)) as Be.
  assert (S1 : 1 <= sqrt PI). { rewrite <- sqrt_1. apply sqrt_le_1_alt. pose proof PI2_1. lra. }
  assert (Q : Rabs (G t - sqrt PI / 2) * (G t + sqrt PI / 2) = Rabs (Hk t)).
  { rewrite <- (Rabs_right (G t + sqrt PI / 2)) by lra. rewrite <- Rabs_mult.
    replace ((G t - sqrt PI / 2) * (G t + sqrt PI / 2)) with (- Hk t) by lra. apply Rabs_Ropp. }
  pose proof (Rabs_pos (G t - sqrt PI / 2)) as P0.
  assert (L : Rabs (G t - sqrt PI / 2) * (/ 2) <= Rabs (G t - sqrt PI / 2) * (G t + sqrt PI / 2)) by (apply Rmult_le_compat_l; lra).
  unfold Rdiv. lra.
Qed.

Lemma integral_ext f g v : (forall x, f x = g x) -> integral_over_R f v -> integral_over_R g v.
Proof. intros E (F & D & L). exists F. split; [|exact L]. intros x. rewrite <- E. apply D. Qed.

Lemma gauss_integral : integral_over_R eg (sqrt PI).
Proof.
  exists G. split; [apply G_deriv|]. intros eps He. exists (Rmax 1 (4 / eps)). intros a b Ha Hb.
  pose proof (Rmax_l 1 (4 / eps)). pose proof (Rmax_r 1 (4 / eps)).
  pose proof (G_limit b ltac:(lra)) as L1. pose proof (G_limit (- a) ltac:(lra)) as L2. rewrite G_odd in L2.
  assert (T : forall t, 4 / eps < t -> 2 / t < eps / 2).
  { intros t Ht. assert (0 < 4 / eps) by (apply Rdiv_lt_0_compat; lra). apply (Rmult_lt_reg_r t); [lra|]. unfold Rdiv at 1. rewrite Rmult_assoc, Rinv_l, Rmult_1_r by lra.
    apply (Rmult_lt_compat_l (eps / 2)) in Ht; [|lra]. replace (eps / 2 * (4 / eps)) with 2 in Ht by (field; lra). exact Ht. }
  pose proof (T b ltac:(lra)). pose proof (T (- a) ltac:(lra)).
  replace (G b - G a - sqrt PI) with ((G b - sqrt PI / 2) + (- G a - sqrt PI / 2)) by field.
  eapply Rle_lt_trans; [apply Rabs_triang|]. lra.
Qed.

(** Change of scale and adding a function whose antiderivative vanishes at infinity. *)
Lemma integral_scale f v c s : 0 < s -> integral_over_R f v -> integral_over_R (fun x => c * f (x / s)) (c * s * v).
Proof.
  intros Hs (F & D & L). exists (fun x => c * s * F (x / s)). split.
  - intros x. replace (c * f (x / s)) with (c * s * (f (x / s) * / s)) by (field; lra). apply (derivable_pt_lim_scal (fun x => F (x / s))).
    pose proof (derivable_pt_lim_comp (fun y => y / s) F x (/ s) (f (x / s))) as DC. apply DC; [|apply D].
    apply (deriv_ext (fun y => / s * y)); [intros; unfold Rdiv; ring|]. apply d_lin.
  - intros eps He. destruct (L (eps / (Rabs (c * s) + 1))) as [M HM]; [apply Rdiv_lt_0_compat; [exact He|pose proof (Rabs_pos (c * s)); lra]|].
    exists (M * s). intros a b Ha Hb.
    assert (Sa : a / s < - M). { apply (Rmult_lt_reg_r s); [exact Hs|]. unfold Rdiv. rewrite Rmult_assoc, Rinv_l, Rmult_1_r by lra. lra. }
    assert (Sb : M < b / s). { apply (Rmult_lt_reg_r s); [exact Hs|]. unfold Rdiv. rewrite Rmult_assoc, Rinv_l, Rmult_1_r by lra. lra. }
    specialize (HM _ _ Sa Sb). replace (c * s * F (b / s) - c * s * F (a / s) - c * s * v) with (c * s * (F (b / s) - F (a / s) - v)) by ring.
    rewrite Rabs_mult. pose proof (Rabs_pos (c * s)) as P0. pose proof (Rabs_pos (F (b / s) - F (a / s) - v)) as P1.
    apply (Rmult_lt_compat_l (Rabs (c * s) + 1)) in HM; [|lra]. replace ((Rabs (c * s) + 1) * (eps / (Rabs (c * s) + 1))) with eps in HM by (field; lra). lra.
Qed.

Lemma integral_plus_vanishing f v g P : integral_over_R f v -> (forall x, derivable_pt_lim P x (g x)) ->
  (forall eps, 0 < eps -> exists M, forall x, M < Rabs x -> Rabs (P x) < eps) -> integral_over_R (fun x => f x + g x) v.
Proof.
  intros (F & D & L) DP V. exists (fun x => F x + P x). split; [intros x; apply derivable_pt_lim_plus; [apply D|apply DP]|].
  intros eps He. destruct (L (eps / 3) ltac:(lra)) as [M1 H1]. destruct (V (eps / 3) ltac:(lra)) as [M2 H2].
  exists (Rmax 0 (Rmax M1 M2)). intros a b Ha Hb. pose proof (Rmax_l 0 (Rmax M1 M2)). pose proof (Rmax_r 0 (Rmax M1 M2)). pose proof (Rmax_l M1 M2). pose proof (Rmax_r M1 M2).
  specialize (H1 a b ltac:(lra) ltac:(lra)). pose proof (H2 b ltac:(rewrite Rabs_right; lra)) as Q1. pose proof (H2 a ltac:(rewrite Rabs_left; lra)) as Q2.
  replace (F b + P b - (F a + P a) - v) with ((F b - F a - v) + P b + - P a) by ring.
  eapply Rle_lt_trans; [apply Rabs_triang|]. rewrite Rabs_Ropp. pose proof (Rabs_triang (F b - F a - v) (P b)). lra.
Qed.

(** Polynomials times the Gaussian vanish at infinity. *)
Lemma vanish_bound P C : (forall x, 1 < Rabs x -> Rabs (P x) <= C / Rabs x) ->
  forall eps, 0 < eps -> exists M, forall x, M < Rabs x -> Rabs (P x) < eps.
Proof.
  intros B eps He. exists (Rmax 1 (Rabs C / eps)). intros x Hx. pose proof (Rmax_l 1 (Rabs C / eps)). pose proof (Rmax_r 1 (Rabs C / eps)).
  eapply Rle_lt_trans; [apply B; lra|]. apply (Rmult_lt_reg_r (Rabs x)); [lra|]. unfold Rdiv at 1. rewrite Rmult_assoc, Rinv_l, Rmult_1_r by lra.
  eapply Rle_lt_trans; [apply Rle_abs|]. assert (Q : Rabs C / eps < Rabs x) by lra. apply (Rmult_lt_compat_l eps) in Q; [|exact He].
  replace (eps * (Rabs C / eps)) with (Rabs C) in Q by (field; lra). exact Q.
Qed.

Lemma abs_sq x : Rabs x * Rabs x = x * x.
Proof. rewrite <- Rabs_mult. apply Rabs_right. pose proof (Rle_0_sqr x). unfold Rsqr in *. lra. Qed.

Lemma eg_abs x : eg x <= 4 / (Rabs x * Rabs x * (Rabs x * Rabs x)) \/ x = 0.
Proof.
  destruct (Req_dec x 0) as [->|N]; [right; reflexivity|left].
  assert (P : 0 < x * x) by (pose proof (Rsqr_pos_lt x N); unfold Rsqr in *; lra).
  rewrite !abs_sq. unfold eg. replace (- (x * x)) with (- (x * x / 2) + - (x * x / 2)) by field. rewrite exp_plus.
  pose proof (exp_inv (x * x / 2) ltac:(lra)) as E. pose proof (exp_pos (- (x * x / 2))) as E0.
  assert (E2 : exp (- (x * x / 2)) <= 2 / (x * x)).
  { eapply Rle_trans; [exact E|]. replace (2 / (x * x)) with (/ (x * x / 2)) by (field; lra). apply Rinv_le_contravar; lra. }
  replace (4 / (x * x * (x * x))) with (2 / (x * x) * (2 / (x * x))) by (field; lra). apply Rmult_le_compat; lra.
Qed.

Lemma vanish_x_eg a b : forall eps, 0 < eps -> exists M, forall x, M < Rabs x -> Rabs ((a * x + b * (x * x * x)) * eg x) < eps.
Proof.
  apply (vanish_bound _ (4 * Rabs a + 4 * Rabs b)). intros x Hx.
  assert (Pe : 0 < eg x) by apply exp_pos. destruct (eg_abs x) as [E|Z0]; [|rewrite Z0, Rabs_R0 in Hx; lra].
  rewrite Rabs_mult, (Rabs_right (eg x)) by lra.
  assert (T : Rabs (a * x + b * (x * x * x)) <= Rabs a * Rabs x + Rabs b * (Rabs x * Rabs x * Rabs x)).
  { eapply Rle_trans; [apply Rabs_triang|]. rewrite !Rabs_mult. lra. }
  set (r := Rabs x) in *. assert (Hr : 0 < r) by lra. clearbody r. pose proof (Rabs_pos a). pose proof (Rabs_pos b). pose proof (Rabs_pos (a * x + b * (x * x * x))).
  eapply Rle_trans; [apply Rmult_le_compat; [assumption|lra|exact T|exact E]|].
  replace ((4 * Rabs a + 4 * Rabs b) / r) with ((Rabs a * (r * r * r) + Rabs b * (r * r * r)) * (4 / (r * r * (r * r)))) by (field; lra).
  apply Rmult_le_compat_r; [left; apply Rdiv_lt_0_compat; [lra|]; repeat apply Rmult_lt_0_compat; lra|].
  assert (r <= r * r * r). { rewrite <- (Rmult_1_l r) at 1. apply Rmult_le_compat_r; [lra|]. rewrite <- (Rmult_1_l 1). apply Rmult_le_compat; lra. }
  apply Rplus_le_compat_r. apply Rmult_le_compat_l; lra.
Qed.

Lemma d_poly_eg a b x : derivable_pt_lim (fun x => (a * x + b * (x * x * x)) * eg x) x
  ((a + (3 * b - 2 * a) * (x * x) - 2 * b * (x * x * (x * x))) * eg x).
Proof.
  assert (Dp : derivable_pt_lim (fun x => a * x + b * (x * x * x)) x (a * 1 + b * (2 * x * x + x * x * 1))).
  { apply derivable_pt_lim_plus; apply derivable_pt_lim_scal with (f := _); [apply derivable_pt_lim_id|].
    apply (derivable_pt_lim_mult (fun x => x * x) id); [apply d_sq|apply derivable_pt_lim_id]. }
  pose proof (derivable_pt_lim_mult _ eg x _ _ Dp (d_eg x)) as D. cbv beta in D.
  match type of D with derivable_pt_lim _ _ ?l => replace l with ((a + (3 * b - 2 * a) * (x * x) - 2 * b * (x * x * (x * x))) * eg x) in D by ring end.
  exact D.
Qed.
