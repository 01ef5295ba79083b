(** Smooth convex functions, composite problems and the proximal-gradient inequality. *)
From Verif Require Import NPReal Py IPS Spec_Opt.
Local Open Scope R_scope.

Section Smooth.
Context {H : ips}.
Implicit Types x y z h : H.

Lemma line_add x h s t : ((x + t * h) + s * h)%v = (x + (t + s) * h)%v.
Proof. vring. Qed.

Lemma line_derivative (f : H -> R) df x h t : is_gradient f df ->
  derivable_pt_lim (fun s => f (x + s * h)%v) t (inner (df (x + t * h)%v) h).
Proof.
  intros G e He. destruct (G (x + t * h)%v h e He) as (d & D). exists d. intros s Hs Hd.
  specialize (D s Hs Hd). rewrite Rplus_0_l in D. rewrite !line_add in D. rewrite Rplus_0_r in D. exact D.
Qed.

Lemma lipschitz_inner L df : lipschitz (H := H) L df -> forall x y h,
  inner (df x - df y)%v h <= L * norm (x - y)%v * norm h.
Proof.
  intros Lp x y h. apply Rle_trans with (norm (df x - df y)%v * norm h); [apply cauchy_schwarz_norm|].
  apply Rmult_le_compat_r; [apply norm_pos|apply Lp].
Qed.

(** Descent lemma. *)
Lemma descent (f : H -> R) df L : is_gradient f df -> lipschitz L df ->
  forall x y, f y <= f x + inner (df x) (y - x)%v + L / 2 * nsq (y - x)%v.
Proof.
  intros G Lp x y. set (h := (y - x)%v).
  set (psi := fun t => f (x + t * h)%v - (t * inner (df x) h + t * t * (L / 2 * nsq h))).
  set (psi' := fun t => inner (df (x + t * h)%v) h - (1 * inner (df x) h + (1 * t + t * 1) * (L / 2 * nsq h))).
  assert (D : forall c, 0 <= c <= 1 -> derivable_pt_lim psi c (psi' c)).
  { intros c _. apply (derivable_pt_lim_minus (fun t => f (x + t * h)%v)); [apply line_derivative; exact G|].
    apply (derivable_pt_lim_plus (fun t => t * inner (df x) h) (fun t => t * t * (L / 2 * nsq h))).
    - replace (1 * inner (df x) h) with (1 * inner (df x) h + c * 0) by ring.
      apply (derivable_pt_lim_mult id (fct_cte (inner (df x) h))); [apply derivable_pt_lim_id|apply derivable_pt_lim_const].
    - replace ((1 * c + c * 1) * (L / 2 * nsq h)) with ((1 * c + c * 1) * (L / 2 * nsq h) + (c * c) * 0) by ring.
      apply (derivable_pt_lim_mult (fun t => t * t) (fct_cte (L / 2 * nsq h))); [|apply derivable_pt_lim_const].
      apply (derivable_pt_lim_mult id id); apply derivable_pt_lim_id. }
  destruct (MVT_cor2 psi psi' 0 1 ltac:(lra) D) as (c & E & Hc).
  assert (N : psi' c <= 0).
  { unfold psi'. pose proof (lipschitz_inner L df Lp (x + c * h)%v x h) as I. rewrite inner_sub_l in I.
    assert (Q : norm (x + c * h - x)%v = c * norm h).
    { replace (x + c * h - x)%v with (c * h)%v by vring. rewrite norm_scal, Rabs_right by lra. reflexivity. }
    rewrite Q in I. pose proof (norm_sq h) as S. unfold psi'. 
    replace (L * (c * norm h) * norm h) with (L * c * nsq h) in I by (rewrite <- S; ring). lra. }
  assert (E1 : psi 1 = f y - (inner (df x) h + L / 2 * nsq h)).
  { unfold psi. replace (x + 1 * h)%v with y by (unfold h; vring). ring. }
  assert (E0 : psi 0 = f x).
  { unfold psi. replace (x + 0 * h)%v with x by vring. ring. }
  lra.
Qed.

(** First-order condition; [F] convex on a set D. *)
Lemma first_order_on D (f : H -> R) df : convex_on D f -> is_gradient f df ->
  forall x z, D x -> D z -> f x + inner (df x) (z - x)%v <= f z.
Proof.
  intros C G x z Dx Dz. apply Rnot_lt_le. intros Hlt. set (h := (z - x)%v) in *.
  set (e := f x + inner (df x) h - f z) in *. assert (He : 0 < e) by (unfold e; lra).
  destruct (G x h e He) as (d & Dl). pose proof (cond_pos d) as Hd.
  set (s := Rmin 1 (d / 2)). assert (Hs : 0 < s) by (apply Rmin_glb_lt; lra).
  assert (Hs1 : s <= 1) by apply Rmin_l. assert (Hs2 : s < d) by (pose proof (Rmin_r 1 (d / 2)); unfold s; lra).
  specialize (Dl s ltac:(lra)). rewrite Rabs_right in Dl by lra. specialize (Dl Hs2).
  rewrite Rplus_0_l in Dl. replace (x + 0 * h)%v with x in Dl by vring.
  destruct (C x z s Dx Dz ltac:(lra)) as [_ Cs].
  replace ((1 - s) * x + s * z)%v with (x + s * h)%v in Cs by (unfold h; vring).
  apply Rabs_def2 in Dl. destruct Dl as [_ Dl].
  assert (Q : (f (x + s * h)%v - f x) / s <= f z - f x).
  { apply Rmult_le_reg_r with s; [exact Hs|]. unfold Rdiv. rewrite Rmult_assoc, Rinv_l by lra. lra. }
  unfold e in *. lra.
Qed.

Lemma first_order (f : H -> R) df : convex f -> is_gradient f df ->
  forall x z, f x + inner (df x) (z - x)%v <= f z.
Proof. intros C G x z. apply (first_order_on everywhere f df C G); exact I. Qed.

Lemma convex_scal D (g : H -> R) c : 0 < c -> convex_on D g -> convex_on D (fun z => c * g z).
Proof.
  intros Hc C x y t Dx Dy Ht. destruct (C x y t Dx Dy Ht) as [Dt Gt]. split; [exact Dt|].
  apply (Rmult_le_compat_l c) in Gt; lra.
Qed.

Lemma convex_sum D (f g : H -> R) : convex f -> convex_on D g -> convex_on D (fun z => f z + g z).
Proof.
  intros Cf Cg x y t Dx Dy Ht. destruct (Cg x y t Dx Dy Ht) as [Dt Gt]. split; [exact Dt|].
  destruct (Cf x y t I I Ht) as [_ Ft]. lra.
Qed.

Lemma prox_operator_vi D (g : H -> R) prox : convex_on D g -> prox_operator D g prox ->
  forall y c, 0 < c -> prox_vi D (fun z => c * g z) y (prox y c).
Proof. intros C P y c Hc. apply is_prox_vi; [apply convex_scal; assumption|apply P; exact Hc]. Qed.

(** The forward-backward step and its fundamental inequality. *)
Definition fb_map (df : H -> H) (prox : H -> R -> H) (beta : R) (y : H) : H := prox (y - beta * df y)%v beta.

Lemma prox_grad_ineq D (f g : H -> R) df prox beta :
  0 < beta -> smooth_convex (/ beta) f df -> convex_on D g -> prox_operator D g prox ->
  forall y z, D z ->
    f (fb_map df prox beta y) + g (fb_map df prox beta y)
    <= f z + g z + / (2 * beta) * (nsq (y - z)%v - nsq (fb_map df prox beta y - z)%v).
Proof.
  intros Hb (Cf & Gf & Lf) Cg P y z Dz. set (T := fb_map df prox beta y).
  pose proof (descent f df (/ beta) Gf Lf y T) as D1.
  pose proof (first_order f df Cf Gf y z) as D2.
  destruct (prox_operator_vi D g prox Cg P (y - beta * df y)%v beta Hb) as [_ V]. specialize (V z Dz).
  fold (fb_map df prox beta y) in V. fold T in V.
  assert (D3 : g T + / beta * inner (y - beta * df y - T)%v (z - T)%v <= g z).
  { apply Rmult_le_reg_l with beta; [exact Hb|]. rewrite Rmult_plus_distr_l, <- Rmult_assoc, Rinv_r by lra. lra. }
  assert (E : / beta * inner (y - beta * df y - T)%v (z - T)%v
     = inner (df y) (T - z)%v + / (2 * beta) * (nsq (y - T)%v + nsq (T - z)%v - nsq (y - z)%v)).
  { iexpand. rewrite (inner_sym H z y), (inner_sym H T y), (inner_sym H z T). field. lra. }
  rewrite E in D3. clear E V.
  assert (E2 : inner (df y) (T - y)%v = inner (df y) (T - z)%v + inner (df y) (z - y)%v) by (iexpand; ring).
  rewrite E2, (nsq_sub_sym T y) in D1. 
  replace (/ beta / 2) with (/ (2 * beta)) in D1 by (field; lra). lra.
Qed.

Lemma fb_map_in D (g : H -> R) df prox beta y : 0 < beta -> prox_operator D g prox -> D (fb_map df prox beta y).
Proof. intros Hb P. apply (P (y - beta * df y)%v beta Hb). Qed.

(** Minimisers of f + g are exactly the points where - df x is a subgradient of g. *)
Lemma minimises_vi D (f g : H -> R) df x :
  convex f -> is_gradient f df -> convex_on D g ->
  (minimises D (fun z => f z + g z) x <-> D x /\ forall z, D z -> g x - inner (df x) (z - x)%v <= g z).
Proof.
  intros Cf Gf Cg. split; intros [Dx M]; split; try exact Dx; intros z Dz.
  - apply Rnot_lt_le. intros Hlt. set (h := (z - x)%v) in *.
    set (e := g x - inner (df x) h - g z) in *. assert (He : 0 < e) by (unfold e; lra).
    destruct (Gf x h e He) as (d & Dl). pose proof (cond_pos d) as Hd.
    set (s := Rmin 1 (d / 2)). assert (Hs : 0 < s) by (apply Rmin_glb_lt; lra).
    assert (Hs1 : s <= 1) by apply Rmin_l. assert (Hs2 : s < d) by (pose proof (Rmin_r 1 (d / 2)); unfold s; lra).
    specialize (Dl s ltac:(lra)). rewrite Rabs_right in Dl by lra. specialize (Dl Hs2).
    rewrite Rplus_0_l in Dl. replace (x + 0 * h)%v with x in Dl by vring.
    destruct (Cg x z s Dx Dz ltac:(lra)) as [Ds Cs].
    replace ((1 - s) * x + s * z)%v with (x + s * h)%v in Cs, Ds by (unfold h; vring).
    specialize (M _ Ds). cbv beta in M. apply Rabs_def2 in Dl. destruct Dl as [Dl _].
    assert (Q : f (x + s * h)%v - f x < s * (inner (df x) h + e)).
    { apply Rmult_lt_reg_r with (/ s); [apply Rinv_0_lt_compat; exact Hs|].
      replace (s * (inner (df x) h + e) * / s) with (inner (df x) h + e) by (field; lra). unfold Rdiv in Dl. lra. }
    assert (Z : s * e = s * (g x - inner (df x) h - g z)) by reflexivity. nra.
  - specialize (M z Dz). pose proof (first_order f df Cf Gf x z). lra.
Qed.

Lemma fb_map_fixed_iff D (f g : H -> R) df prox beta x :
  0 < beta -> convex f -> is_gradient f df -> convex_on D g -> prox_operator D g prox ->
  (fb_map df prox beta x = x <-> minimises D (fun z => f z + g z) x).
Proof.
  intros Hb Cf Gf Cg P. rewrite (minimises_vi D f g df x Cf Gf Cg).
  pose proof (prox_operator_vi D g prox Cg P (x - beta * df x)%v beta Hb) as V. fold (fb_map df prox beta x) in V. split.
  - intros E. rewrite E in V. destruct V as [Dx V]. split; [exact Dx|]. intros z Dz. specialize (V z Dz).
    replace (x - beta * df x - x)%v with ((- beta) * df x)%v in V by vring. rewrite inner_scal_l in V.
    apply Rmult_le_reg_l with beta; [exact Hb|]. lra.
  - intros [Dx M]. apply (prox_vi_unique D (fun z => beta * g z) (x - beta * df x)%v); [exact V|].
    split; [exact Dx|]. intros z Dz. specialize (M z Dz).
    replace (x - beta * df x - x)%v with ((- beta) * df x)%v by vring. rewrite inner_scal_l.
    apply (Rmult_le_compat_l beta) in M; lra.
Qed.
End Smooth.

(** The inequality that drives every rate: T is a map whose value satisfies it against all points
    of D. *)
Section Rates.
Context {H : ips}.
Variables (D : H -> Prop) (F : H -> R) (beta : R).
Hypothesis Hb : 0 < beta.
Definition pg_step (y T : H) : Prop :=
  D T /\ forall z, D z -> F T <= F z + / (2 * beta) * (nsq (y - z)%v - nsq (T - z)%v).

Let ib : 0 < / (2 * beta). Proof. apply Rinv_0_lt_compat. lra. Qed.

Lemma pg_closer y T z : pg_step y T -> minimises D F z -> nsq (T - z)%v <= nsq (y - z)%v.
Proof.
  intros [DT V] [Dz M]. specialize (V z Dz). specialize (M T DT). pose proof ib.
  apply Rmult_le_reg_l with (/ (2 * beta)); [exact ib|]. lra.
Qed.

(** Plain proximal gradient. *)
Section Ista.
Variable X : nat -> H.
Hypothesis St : forall n, pg_step (X n) (X (S n)).

Lemma ista_mono n : F (X (S (S n))) <= F (X (S n)).
Proof.
  destruct (St n) as [D1 _]. destruct (St (S n)) as [_ V]. specialize (V _ D1).
  rewrite vsub_self in V. unfold nsq at 1 in V. rewrite inner_0_l in V.
  pose proof (nsq_pos (X (S (S n)) - X (S n))%v). pose proof ib. nra.
Qed.

Lemma ista_rate z : D z -> forall k, INR (S k) * (F (X (S k)) - F z) + / (2 * beta) * nsq (X (S k) - z)%v <= / (2 * beta) * nsq (X 0%nat - z)%v.
Proof.
  intros Dz. induction k as [|k IH].
  - destruct (St 0) as [_ V]. specialize (V z Dz). cbn [INR]. lra.
  - destruct (St (S k)) as [_ V]. specialize (V z Dz). pose proof (ista_mono k) as M.
    rewrite S_INR. pose proof (pos_INR (S k)). nra.
Qed.
End Ista.

(** One accelerated step, in the standard notation. *)
Lemma accel_step xk xk1 y xn t t' z :
  convex_on D F -> D xk -> 1 <= t' -> t' * t' - t' <= t * t ->
  F z <= F xk -> D z ->
  y = (xk + ((t - 1) / t') * (xk - xk1))%v -> pg_step y xn ->
  2 * beta * (t' * t') * (F xn - F z) + nsq (xk + t' * (xn - xk) - z)%v
  <= 2 * beta * (t * t) * (F xk - F z) + nsq (xk1 + t * (xk - xk1) - z)%v.
Proof.
  intros C Dk Ht Hq Hz Dz Ey [Dn V].
  assert (Hi : 0 < / t' <= 1).
  { split; [apply Rinv_0_lt_compat; lra|]. rewrite <- Rinv_1. apply Rinv_le_contravar; lra. }
  destruct (C xk z (/ t') Dk Dz ltac:(lra)) as [Dc Fc].
  set (c := ((1 - / t') * xk + / t' * z)%v) in *. specialize (V c Dc).
  assert (E1 : t' * t' * nsq (y - c)%v = nsq (xk1 + t * (xk - xk1) - z)%v).
  { rewrite <- nsq_scal. f_equal. subst y. unfold c. vfield. lra. }
  assert (E2 : t' * t' * nsq (xn - c)%v = nsq (xk + t' * (xn - xk) - z)%v).
  { rewrite <- nsq_scal. f_equal. unfold c. vfield. lra. }
  rewrite <- E1, <- E2.
  assert (V' : F xn - F z <= (1 - / t') * (F xk - F z) + / (2 * beta) * (nsq (y - c)%v - nsq (xn - c)%v)) by lra.
  assert (Hm : 0 < 2 * beta * (t' * t')) by (apply Rmult_lt_0_compat; [lra|apply Rmult_lt_0_compat; lra]).
  apply (Rmult_le_compat_l (2 * beta * (t' * t'))) in V'; [|lra].
  replace (2 * beta * (t' * t') * ((1 - / t') * (F xk - F z) + / (2 * beta) * (nsq (y - c)%v - nsq (xn - c)%v)))
    with (2 * beta * (t' * t' - t') * (F xk - F z) + t' * t' * (nsq (y - c)%v - nsq (xn - c)%v)) in V' by (field; lra).
  assert (2 * beta * (t' * t' - t') * (F xk - F z) <= 2 * beta * (t * t) * (F xk - F z)).
  { apply Rmult_le_compat_r; [lra|]. apply Rmult_le_compat_l; lra. }
  lra.
Qed.

(** Inertial steps with inertia at most 1 decrease the mechanical energy. *)
Lemma inertial_energy xk xk1 y xn a :
  D xk -> a * a <= 1 -> y = (xk + a * (xk - xk1))%v -> pg_step y xn ->
  F xn + / (2 * beta) * nsq (xn - xk)%v <= F xk + / (2 * beta) * nsq (xk - xk1)%v.
Proof.
  intros Dk Ha Ey [_ V]. specialize (V xk Dk). subst y.
  replace (xk + a * (xk - xk1) - xk)%v with (a * (xk - xk1))%v in V by vring. rewrite nsq_scal in V.
  pose proof (nsq_pos (xk - xk1)%v). pose proof ib.
  assert (a * a * nsq (xk - xk1)%v <= nsq (xk - xk1)%v) by nra. nra.
Qed.
End Rates.
