(** Condat: fixed points, monotone distance to the solutions, feasibility, the dual bound. *)
From Verif Require Import NPReal Py IPS Model_SetUp Spec_Opt Proof_Smooth Model_FB Proof_FB2 Model_PD.
From Coq Require Import List Lia.
Import ListNotations.
Local Open Scope R_scope.

Section Adjoint.
Context {H K : ips}.
Variables (L : H -> K) (L' : K -> H).
Hypothesis A : adjoint L L'.

Lemma adj_add x y : L (x + y)%v = (L x + L y)%v.
Proof. apply inner_ext. intros z. rewrite inner_add_l, !A, inner_add_l. reflexivity. Qed.
Lemma adj_scal a x : L (a * x)%v = (a * L x)%v.
Proof. apply inner_ext. intros z. rewrite inner_scal_l, !A, inner_scal_l. reflexivity. Qed.
Lemma adj_sub x y : L (x - y)%v = (L x - L y)%v.
Proof. unfold vsub. rewrite adj_add, adj_scal. reflexivity. Qed.

Lemma pd_sq_lower B tau sigma dx dy : 0 < tau -> 0 < sigma -> bounded_sq B L ->
  (/ tau - sigma * B) * nsq dx <= pd_sq L tau sigma dx dy.
Proof.
  intros Ht Hs Hb. unfold pd_sq. pose proof (Hb dx) as Q.
  pose proof (nsq_pos (L dx - / sigma * dy)%v) as P.
  assert (E : nsq (L dx - / sigma * dy)%v = nsq (L dx) - 2 / sigma * inner (L dx) dy + / sigma * / sigma * nsq dy).
  { iexpand. rewrite (inner_sym K dy (L dx)). field. lra. }
  rewrite E in P. apply (Rmult_le_compat_l sigma) in P; [|lra].
  replace (sigma * (nsq (L dx) - 2 / sigma * inner (L dx) dy + / sigma * / sigma * nsq dy))
    with (sigma * nsq (L dx) - 2 * inner (L dx) dy + nsq dy / sigma) in P by (field; lra).
  apply (Rmult_le_compat_l sigma) in Q; [|lra]. unfold Rdiv in *. lra.
Qed.
End Adjoint.

(** Baillon-Haddad. *)
Lemma cocoercive_half {H : ips} M (f : H -> R) df x y : 0 < M -> smooth_convex M f df ->
  f x + inner (df x) (y - x)%v + / (2 * M) * nsq (df y - df x)%v <= f y.
Proof.
  intros HM (Cf & Gf & Lf). set (d := (df y - df x)%v). set (y' := (y - / M * d)%v).
  pose proof (first_order f df Cf Gf x y') as F1. pose proof (descent f df M Gf Lf y y') as F2.
  assert (E1 : inner (df x) (y' - x)%v = inner (df x) (y - x)%v - / M * inner (df x) d) by (unfold y'; iexpand; ring).
  assert (E2 : inner (df y) (y' - y)%v = - / M * inner (df y) d) by (unfold y'; iexpand; ring).
  assert (E3 : M / 2 * nsq (y' - y)%v = / (2 * M) * nsq d).
  { replace (y' - y)%v with ((- / M) * d)%v by (unfold y'; vring). rewrite nsq_scal. field. lra. }
  assert (E4 : inner (df y) d - inner (df x) d = nsq d) by (unfold nsq; rewrite <- inner_sub_l; reflexivity).
  assert (E5 : / M * (inner (df y) d - inner (df x) d) = 2 * (/ (2 * M) * nsq d)) by (rewrite E4; field; lra).
  rewrite E1 in F1. rewrite E2, E3 in F2. lra.
Qed.

Lemma cocoercive {H : ips} M (f : H -> R) df x y : 0 <= M -> smooth_convex M f df ->
  nsq (df x - df y)%v <= M * inner (df x - df y)%v (x - y)%v.
Proof.
  intros HM S. destruct (Req_dec M 0) as [->|N].
  - destruct S as (_ & _ & Lf). specialize (Lf x y). pose proof (norm_pos (df x - df y)%v).
    assert (E : norm (df x - df y)%v = 0) by lra. rewrite <- norm_sq, E. lra.
  - assert (HM' : 0 < M) by lra. pose proof (cocoercive_half M f df x y HM' S) as A1.
    pose proof (cocoercive_half M f df y x HM' S) as A2. rewrite (nsq_sub_sym (df y) (df x)) in A1.
    assert (E : inner (df x - df y)%v (x - y)%v = - (inner (df x) (y - x)%v + inner (df y) (x - y)%v)) by (iexpand; ring).
    rewrite E. assert (2 * (/ (2 * M) * nsq (df x - df y)%v) <= - (inner (df x) (y - x)%v + inner (df y) (x - y)%v)) by lra.
    apply (Rmult_le_compat_l M) in H0; [|lra].
    replace (M * (2 * (/ (2 * M) * nsq (df x - df y)%v))) with (nsq (df x - df y)%v) in H0 by (field; lra). exact H0.
Qed.

Lemma gradient_cross {H : ips} M (f : H -> R) df x x' xs : 0 <= M -> smooth_convex M f df ->
  - (M / 4) * nsq (x' - x)%v <= inner (df x - df xs)%v (x' - xs)%v.
Proof.
  intros HM S. pose proof (cocoercive M f df x xs HM S) as C. set (d := (df x - df xs)%v) in *.
  replace (inner d (x' - xs)%v) with (inner d (x - xs)%v + inner d (x' - x)%v) by (iexpand; ring).
  destruct (Req_dec M 0) as [E|N].
  - assert (Q : nsq d = 0) by (pose proof (nsq_pos d); rewrite E in C; lra).
    apply nsq_0 in Q. rewrite Q, !inner_0_l. rewrite E. lra.
  - pose proof (nsq_pos (d + (M / 2) * (x' - x))%v) as P.
    assert (E : nsq (d + (M / 2) * (x' - x))%v = nsq d + M * inner d (x' - x)%v + M * (M / 4) * nsq (x' - x)%v).
    { unfold nsq at 1. rewrite !inner_add_l, !inner_add_r, !inner_scal_l, !inner_scal_r, (inner_sym H (x' - x)%v d).
      unfold nsq. field. }
    apply Rmult_le_reg_l with M; [lra|]. lra.
Qed.

Section PD.
Context {H K : ips} {W : Type}.
Variable grad : H -> H.
Variable prox : H -> R -> H.
Variable prox_dual : W -> K -> R -> K.
Variables (lop : H -> K) (ladj : K -> H).
Notation cprox := (condat_prox grad prox prox_dual lop ladj).
Notation cupdate := (condat_update grad prox prox_dual lop ladj).
Notation cafter := (condat_after grad prox prox_dual lop ladj).
Implicit Type s : @condat H K W.

Lemma update_x s : c_x (cupdate s) = (c_rho s * fst (cprox s) + (1 - c_rho s) * c_x s)%v.
Proof. unfold condat_update. destruct (cprox s). reflexivity. Qed.
Lemma update_y s : c_y (cupdate s) = (c_rho s * snd (cprox s) + (1 - c_rho s) * c_y s)%v.
Proof. unfold condat_update. destruct (cprox s). reflexivity. Qed.
Lemma update_new s : c_new (cupdate s) = Some (c_x (cupdate s), c_y (cupdate s)).
Proof. unfold condat_update. destruct (cprox s). reflexivity. Qed.
Lemma update_w s : c_w (cupdate s) = c_w s.
Proof. unfold condat_update. destruct (cprox s). reflexivity. Qed.
Lemma update_calls s : c_calls (cupdate s) = S (c_calls s).
Proof. unfold condat_update. destruct (cprox s). reflexivity. Qed.

Lemma relax_fixed {V : ips} rho (p x : V) : rho <> 0 -> ((rho * p + (1 - rho) * x)%v = x <-> p = x).
Proof.
  intros N. split; intros E; [|subst p; vring].
  replace p with (/ rho * ((rho * p + (1 - rho) * x) - (1 - rho) * x))%v by (vfield; exact N).
  rewrite E. vfield. exact N.
Qed.

Section Solutions.
Variables (D : H -> Prop) (E : K -> Prop) (f g : H -> R) (h : K -> R).
Hypothesis A : adjoint lop ladj.
Hypothesis Cg : convex_on D g.
Hypothesis Ch : convex_on E h.
Hypothesis Pg : prox_operator D g prox.
Variable w : W.
Hypothesis Ph : prox_operator E h (prox_dual w).

(** What the two proximal steps give, as subgradients. *)
Lemma step_x s : 0 < c_tau s ->
  subgradient D (fun z => g z / c_tau s) (fst (cprox s))
    (/ c_tau s * (c_x s - fst (cprox s)) - grad (c_x s) - ladj (c_y s))%v.
Proof.
  intros Ht. cbn [condat_prox fst]. set (q := (_ - _ - _)%v).
  destruct (prox_operator_vi D g prox Cg Pg q default_extra_factor) as [Dp V]; [unfold default_extra_factor; lra|].
  split; [exact Dp|]. intros z Dz. specialize (V z Dz). unfold default_extra_factor in *. rewrite !Rmult_1_l in V.
  set (p := prox q 1) in *.
  replace (/ c_tau s * (c_x s - p) - grad (c_x s) - ladj (c_y s))%v with (/ c_tau s * (q - p))%v
    by (unfold q; vfield; lra).
  rewrite inner_scal_l. apply Rmult_le_reg_l with (c_tau s); [exact Ht|].
  replace (c_tau s * (g p / c_tau s + / c_tau s * inner (q - p)%v (z - p)%v)) with (g p + inner (q - p)%v (z - p)%v) by (field; lra).
  replace (c_tau s * (g z / c_tau s)) with (g z) by (field; lra). exact V.
Qed.

Lemma step_y s : 0 < c_sigma s -> c_w s = w ->
  subgradient E h (/ c_sigma s * (c_y s - snd (cprox s)) + lop (2 * fst (cprox s) - c_x s))%v (snd (cprox s)).
Proof.
  intros Hs Ew. cbn [condat_prox fst snd]. set (xp := prox _ _). rewrite Ew. set (u := (c_y s + _ * _)%v).
  destruct (prox_operator_vi E h (prox_dual w) Ch Ph (/ c_sigma s * u)%v (1 / c_sigma s)) as [Dp V].
  { unfold Rdiv. rewrite Rmult_1_l. apply Rinv_0_lt_compat. exact Hs. }
  set (p := prox_dual w (/ c_sigma s * u)%v (1 / c_sigma s)) in *.
  assert (Q : (/ c_sigma s * (c_y s - (u - c_sigma s * p)) + lop (2 * xp - c_x s))%v = p).
  { unfold u. vfield. lra. }
  rewrite Q. split; [exact Dp|]. intros z Dz. specialize (V z Dz).
  replace (/ c_sigma s * u - p)%v with (/ c_sigma s * (u - c_sigma s * p))%v in V by (vfield; lra).
  rewrite inner_scal_l in V. apply (Rmult_le_compat_l (c_sigma s)) in V; [|lra].
  replace (c_sigma s * (1 / c_sigma s * h p + / c_sigma s * inner (u - c_sigma s * p)%v (z - p)%v))
    with (h p + inner (u - c_sigma s * p)%v (z - p)%v) in V by (field; lra).
  replace (c_sigma s * (1 / c_sigma s * h z)) with (h z) in V by (field; lra). exact V.
Qed.

Lemma subgradient_mono {V : ips} (C : V -> Prop) k x y p q :
  subgradient C k x p -> subgradient C k y q -> 0 <= inner (p - q)%v (x - y)%v.
Proof.
  intros [Dx Sx] [Dy Sy]. specialize (Sx y Dy). specialize (Sy x Dx).
  replace (inner (p - q)%v (x - y)%v) with (- (inner p (y - x)%v + inner q (x - y)%v)) by (iexpand; ring). lra.
Qed.

(** Uniqueness of the proximal steps: if both subgradient conditions hold at (x, y) the step stays. *)
Lemma fixed_iff s : 0 < c_tau s -> 0 < c_sigma s -> c_w s = w ->
  (cprox s = (c_x s, c_y s) <->
   primal_dual_solution D E grad (fun z => g z / c_tau s) h lop ladj (c_x s) (c_y s)).
Proof.
  intros Ht Hs Ew. pose proof (step_x s Ht) as SX. pose proof (step_y s Hs Ew) as SY. split.
  - intros Q. rewrite Q in SX, SY. cbn [fst snd] in *. split.
    + replace ((-1) * (grad (c_x s) + ladj (c_y s)))%v
        with (/ c_tau s * (c_x s - c_x s) - grad (c_x s) - ladj (c_y s))%v by (vfield; lra). exact SX.
    + replace (/ c_sigma s * (c_y s - c_y s) + lop (2 * c_x s - c_x s))%v with (lop (c_x s)) in SY; [exact SY|].
      replace (2 * c_x s - c_x s)%v with (c_x s) by vring. vfield. lra.
  - intros [KX KY]. set (p := fst (cprox s)) in *. set (q := snd (cprox s)) in *.
    assert (EX : p = c_x s).
    { apply nsq_sub_0. pose proof (subgradient_mono _ _ _ _ _ _ SX KX) as M.
      replace (/ c_tau s * (c_x s - p) - grad (c_x s) - ladj (c_y s) - (-1) * (grad (c_x s) + ladj (c_y s)))%v
        with ((- / c_tau s) * (p - c_x s))%v in M by vring.
      rewrite inner_scal_l in M. fold (nsq (p - c_x s)%v) in M. pose proof (nsq_pos (p - c_x s)%v).
      assert (0 < / c_tau s) by (apply Rinv_0_lt_compat; exact Ht). nra. }
    assert (EY : q = c_y s).
    { apply nsq_sub_0. rewrite EX in SY. replace (2 * c_x s - c_x s)%v with (c_x s) in SY by vring.
      pose proof (subgradient_mono _ _ _ _ _ _ SY KY) as M.
      replace (/ c_sigma s * (c_y s - q) + lop (c_x s) - lop (c_x s))%v with ((- / c_sigma s) * (q - c_y s))%v in M by vring.
      rewrite inner_scal_r in M. fold (nsq (q - c_y s)%v) in M. pose proof (nsq_pos (q - c_y s)%v).
      assert (0 < / c_sigma s) by (apply Rinv_0_lt_compat; exact Hs). nra. }
    rewrite (surjective_pairing (cprox s)). fold p q. congruence.
Qed.

(** Solutions of the optimality conditions minimise. *)
Lemma solution_minimises g' x y : convex f -> is_gradient f grad ->
  primal_dual_solution D E grad g' h lop ladj x y -> minimises (composite_domain D E lop) (composite f g' h lop) x.
Proof.
  intros Cf Gf [[Dx SX] [Ex SY]]. split; [split; assumption|]. intros z [Dz Ez]. unfold composite.
  specialize (SX z Dz). specialize (SY (lop z) Ez). pose proof (first_order f grad Cf Gf x z) as F.
  rewrite <- (adj_sub lop ladj A), (inner_sym K), A, (inner_sym H) in SY.
  rewrite inner_scal_l, inner_add_l in SX. lra.
Qed.

(** One step: how much closer to every solution the pair is afterwards. *)
Lemma step_progress s M xs ys : 0 < c_tau s -> 0 < c_sigma s -> 0 <= c_rho s -> c_w s = w ->
  0 <= M -> smooth_convex M f grad ->
  primal_dual_solution D E grad (fun z => g z / c_tau s) h lop ladj xs ys ->
  pd_sq lop (c_tau s) (c_sigma s) (c_x (cupdate s) - xs)%v (c_y (cupdate s) - ys)%v
  + c_rho s * ((2 - c_rho s) * pd_sq lop (c_tau s) (c_sigma s) (c_x s - fst (cprox s))%v (c_y s - snd (cprox s))%v
               - M / 2 * nsq (c_x s - fst (cprox s))%v)
  <= pd_sq lop (c_tau s) (c_sigma s) (c_x s - xs)%v (c_y s - ys)%v.
Proof.
  intros Ht Hs Hr Ew HM Sf [KX KY].
  pose proof (step_x s Ht) as SX. pose proof (step_y s Hs Ew) as SY.
  rewrite update_x, update_y. set (p := fst (cprox s)) in *. set (q := snd (cprox s)) in *.
  clearbody p q. set (x := c_x s) in *. set (y := c_y s) in *. set (tau := c_tau s) in *. set (sg := c_sigma s) in *.
  set (rho := c_rho s) in *. clearbody x y tau sg rho. clear Ew.
  pose proof (subgradient_mono _ _ _ _ _ _ SX KX) as M1. pose proof (subgradient_mono _ _ _ _ _ _ SY KY) as M2. rewrite (inner_sym K) in M2.
  pose proof (gradient_cross M f grad x p xs HM Sf) as M3. clear SX SY KX KY Sf.
  set (dx := (x - xs)%v). set (dy := (y - ys)%v). set (ex := (x - p)%v) in *. set (ey := (y - q)%v) in *.
  set (d := (grad x - grad xs)%v) in *.
  assert (P1 : (p - xs)%v = (dx - ex)%v) by (unfold dx, ex; vring).
  assert (P2 : (q - ys)%v = (dy - ey)%v) by (unfold dy, ey; vring).
  assert (P3 : (p - x)%v = ((-1) * ex)%v) by (unfold ex; vring).
  (* M1 : 0 <= <ex/tau - d - L'(dy), dx - ex> *)
  replace (/ tau * ex - grad x - ladj y - -1 * (grad xs + ladj ys))%v
    with (/ tau * ex - d - (ladj y - ladj ys))%v in M1 by (unfold d; vring).
  rewrite P1, !inner_sub_l, inner_scal_l in M1.
  assert (Q1 : inner (ladj y) (dx - ex)%v - inner (ladj ys) (dx - ex)%v = inner (lop (dx - ex)%v) dy).
  { unfold dy. generalize (dx - ex)%v. intros v. rewrite inner_sub_r, !A, (inner_sym H (ladj y)), (inner_sym H (ladj ys)). reflexivity. }
  (* M2 : 0 <= <ey/sg + L(dx - 2ex), dy - ey> *)
  replace (/ sg * ey + lop (2 * p - x) - lop xs)%v with (/ sg * ey + lop (dx - 2 * ex))%v in M2.
  2:{ replace (dx - 2 * ex)%v with ((2 * p - x) - xs)%v by (unfold dx, ex; vring). rewrite (adj_sub lop ladj A). unfold vsub at 1.
      rewrite vadd_assoc. reflexivity. }
  rewrite P2, inner_add_l, inner_scal_l in M2.
  rewrite P1, P3, nsq_scal in M3.
  assert (R1 : (rho * p + (1 - rho) * x - xs)%v = (dx - rho * ex)%v) by (unfold dx, ex; vring).
  assert (R2 : (rho * q + (1 - rho) * y - ys)%v = (dy - rho * ey)%v) by (unfold dy, ey; vring).
  rewrite R1, R2. clear P1 P2 P3 R1 R2.
  assert (M6 : 0 <= / tau * inner ex (dx - ex)%v + M / 4 * nsq ex - inner (lop (dx - ex)%v) dy
     + / sg * inner ey (dy - ey)%v + inner (lop (dx - 2 * ex)%v) (dy - ey)%v).
  { replace (inner (ladj y) (dx - ex)%v) with (inner (lop (dx - ex)%v) dy + inner (ladj ys) (dx - ex)%v) in M1 by lra. lra. }
  clear M1 M2 M3 Q1. clearbody dx dy ex ey d.
  unfold pd_sq in *. rewrite !(adj_sub lop ladj A), !(adj_scal lop ladj A) in *.
  set (Lx := lop dx) in *. set (Le := lop ex) in *. clearbody Lx Le.
  unfold nsq in *. unfold vsub in *.
  repeat rewrite ?inner_add_l, ?inner_add_r, ?inner_scal_l, ?inner_scal_r in *.
  rewrite (inner_sym H dx ex) in *. rewrite (inner_sym K dy ey) in *.
  set (a1 := inner ex ex) in *. set (a2 := inner ex dx) in *. set (b1 := inner ey ey) in *. set (b2 := inner ey dy) in *.
  set (l1 := inner Lx dy) in *. set (l2 := inner Lx ey) in *. set (l3 := inner Le dy) in *. set (l4 := inner Le ey) in *.
  unfold Rdiv in *. set (it := / tau) in *. set (is := / sg) in *.
  clearbody a1 a2 b1 b2 l1 l2 l3 l4 it is.
  assert (G : a1 * it + b1 * is - 2 * l4 - M / 4 * a1 <= a2 * it + b2 * is - l2 - l3) by lra.
  apply (Rmult_le_compat_l (2 * rho)) in G; lra.
Qed.

(** One step brings the pair closer to every solution. *)
Lemma step_closer s M B xs ys : 0 < c_tau s -> 0 < c_sigma s -> 0 <= c_rho s <= 1 -> c_w s = w ->
  0 <= M -> smooth_convex M f grad -> bounded_sq B lop -> M / 2 + c_sigma s * B <= / c_tau s ->
  primal_dual_solution D E grad (fun z => g z / c_tau s) h lop ladj xs ys ->
  pd_sq lop (c_tau s) (c_sigma s) (c_x (cupdate s) - xs)%v (c_y (cupdate s) - ys)%v
  <= pd_sq lop (c_tau s) (c_sigma s) (c_x s - xs)%v (c_y s - ys)%v.
Proof.
  intros Ht Hs Hr Ew HM Sf Hb Hstep Sol.
  pose proof (step_progress s M xs ys Ht Hs (proj1 Hr) Ew HM Sf Sol) as Q.
  set (ex := (c_x s - fst (cprox s))%v) in *. set (ey := (c_y s - snd (cprox s))%v) in *.
  pose proof (pd_sq_lower lop B (c_tau s) (c_sigma s) ex ey Ht Hs Hb) as M4. pose proof (nsq_pos ex) as Pe.
  assert (M5 : M / 2 * nsq ex <= pd_sq lop (c_tau s) (c_sigma s) ex ey).
  { apply Rle_trans with ((/ c_tau s - c_sigma s * B) * nsq ex); [|exact M4]. apply Rmult_le_compat_r; [exact Pe|lra]. }
  set (N := pd_sq lop (c_tau s) (c_sigma s) ex ey) in *. set (a := nsq ex) in *.
  assert (0 <= c_rho s * ((2 - c_rho s) * N - M / 2 * a)); [|lra].
  apply Rmult_le_pos; [lra|]. assert (0 <= M / 2 * a) by (apply Rmult_le_pos; lra). nra.
Qed.
End Solutions.
End PD.

Section Runs.
Context {H K : ips} {W : Type}.
Variable grad : H -> H.
Variable prox : H -> R -> H.
Variable prox_dual : W -> K -> R -> K.
Variables (lop : H -> K) (ladj : K -> H).
Notation cprox := (condat_prox grad prox prox_dual lop ladj).
Notation cupdate := (condat_update grad prox prox_dual lop ladj).
Notation cafter := (condat_after grad prox prox_dual lop ladj).
Implicit Type s : @condat H K W.

Lemma after_S n s : cafter (S n) s = cupdate (cafter n s).
Proof. reflexivity. Qed.

(** Without parameter updates the parameters do not change. *)
Lemma constant_params n s : c_rho_update s = None -> c_sigma_update s = None -> c_tau_update s = None ->
  let s' := cafter n s in
  c_rho s' = c_rho s /\ c_sigma s' = c_sigma s /\ c_tau s' = c_tau s /\ c_w s' = c_w s /\
  c_rho_update s' = None /\ c_sigma_update s' = None /\ c_tau_update s' = None.
Proof.
  intros E1 E2 E3. induction n as [|n (I1 & I2 & I3 & I4 & I5 & I6 & I7)]; cbn zeta; [cbn; auto 10|].
  rewrite after_S. unfold condat_update. destruct (cprox (cafter n s)) as [p q]. cbn.
  rewrite I5, I6, I7. cbn. auto 10.
Qed.

(** An invariant of the updates and of the reweightings holds at the end. *)
Section Invariant.
Variable reweight : K -> W -> W.
Variable cost : option (nat -> @condat H K W -> bool).
Variable metric : nat -> @condat H K W -> list bool.
Variables (hm : bool) (period : option Z).
Variable P : @condat H K W -> Prop.
Hypothesis Pu : forall s, P s -> P (cupdate s).
Hypothesis Pw : forall s w, P s -> P (set_w s w).

Let ok s := match c_new s with Some (x, y) => x = c_x s /\ y = c_y s | None => True end.

Lemma ok_update s : ok (cupdate s).
Proof. unfold ok. rewrite update_new. auto. Qed.

Lemma run_inv n a a' : P (data a) -> ok (data a) -> condat_run grad prox prox_dual lop ladj cost metric hm period n a = Ok a' ->
  P (data a') /\ ok (data a') /\ ((0 < n)%nat -> c_new (data a') <> None) /\ (c_new (data a) <> None -> c_new (data a') <> None).
Proof.
  unfold condat_run. intros Pa Oa. destruct (run_alg _ _ _ _ _ _ _) as [[a1 tr]|] eqn:E; cbn [bind]; [|discriminate].
  intros Q. injection Q as <-. cbn [fst]. destruct (run_data _ _ _ _ _ _ _ _ _ _ E) as (N & L & Pos & ED). rewrite ED. clear E ED.
  assert (I : P (Nat.iter N cupdate (data a)) /\ ok (Nat.iter N cupdate (data a)) /\
    ((0 < N)%nat \/ c_new (data a) <> None -> c_new (Nat.iter N cupdate (data a)) <> None)).
  { clear L Pos. induction N as [|N (I1 & I2 & I3)].
    - cbn. split; [exact Pa|]. split; [exact Oa|]. intros [?|?]; [lia|assumption].
    - change (Nat.iter (S N) cupdate (data a)) with (cupdate (Nat.iter N cupdate (data a))). split; [apply Pu; exact I1|]. split; [apply ok_update|]. intros _. rewrite update_new. discriminate. }
  destruct I as (I1 & I2 & I3). split; [exact I1|]. split; [exact I2|]. split; intros ?; apply I3; [left; apply Pos; assumption|right; assumption].
Qed.

Lemma reweightings_inv k n a a' : P (data a) -> ok (data a) ->
  condat_reweightings grad prox prox_dual lop ladj reweight cost metric hm period k n a = Ok a' ->
  P (data a') /\ ok (data a').
Proof.
  revert a. induction k as [|k IH]; cbn [condat_reweightings]; intros a Pa Oa.
  - intros Q. injection Q as <-. auto.
  - destruct (c_new (data a)) as [[x y]|] eqn:En; [|discriminate].
    destruct (condat_run _ _ _ _ _ _ _ _ _ _ _) as [a1|] eqn:E; cbn [bind]; [|discriminate].
    apply run_inv in E; cbn [data]; [|apply Pw; exact Pa|].
    + intros Q. destruct E as (E1 & E2 & _). apply (IH a1); assumption.
    + unfold ok in *. cbn. rewrite En in *. exact Oa.
Qed.

Lemma iterate_inv nr n s x y : c_new s = None -> P s ->
  condat_iterate grad prox prox_dual lop ladj reweight cost metric hm period nr n s = Ok (x, y) ->
  exists s', P s' /\ x = c_x s' /\ y = c_y s'.
Proof.
  intros En Ps. unfold condat_iterate. destruct (condat_run _ _ _ _ _ _ _ _ _ _ _) as [a|] eqn:E; cbn [bind]; [|discriminate].
  apply run_inv in E; cbn [data]; [|exact Ps|unfold ok; rewrite En; exact I]. destruct E as (E1 & E2 & _).
  assert (F : forall a1, match nr with None => Ok a | Some k => condat_reweightings grad prox prox_dual lop ladj reweight cost metric hm period k n a end = Ok a1 ->
    P (data a1) /\ ok (data a1)).
  { intros a1. destruct nr as [k|]; [apply reweightings_inv; assumption|]. intros Q. injection Q as <-. auto. }
  destruct (match nr with None => _ | Some _ => _ end) as [a1|]; cbn [bind]; [|discriminate].
  destruct (F a1 eq_refl) as [F1 F2]. unfold ok in F2. destruct (c_new (data a1)) as [[x' y']|]; [|discriminate].
  intros Q. injection Q as <- <-. exists (data a1). tauto.
Qed.
End Invariant.

Lemma iterate_0 reweight cost metric hm period nr s : c_new s = None ->
  condat_iterate grad prox prox_dual lop ladj reweight cost metric hm period nr 0 s = Err AttributeError.
Proof.
  intros E. unfold condat_iterate, condat_run, run_alg. cbn [iterations_from bind fst].
  destruct nr as [[|k]|]; cbn; rewrite E; reflexivity.
Qed.

(** Without cost object and metrics, n > 0 updates are done and returned. *)
Lemma iterate_plain reweight metric period n s : (0 < n)%nat ->
  condat_iterate grad prox prox_dual lop ladj reweight None metric false period None n s
  = Ok (c_x (cafter n s), c_y (cafter n s)).
Proof.
  intros Hn. unfold condat_iterate, condat_run.
  destruct (run_plain Condat cupdate None metric false period n (mk_alg s [] false) eq_refl eq_refl eq_refl) as (a & tr & E & ED).
  rewrite E. cbn [bind fst]. rewrite ED. cbn [data]. destruct n as [|n]; [lia|].
  change (Nat.iter (S n) cupdate s) with (cupdate (cafter n s)). rewrite update_new. reflexivity.
Qed.

(** Convex combinations stay in convex sets. *)
Lemma feasible_update (C : H -> Prop) s : (forall x y t, C x -> C y -> 0 <= t <= 1 -> C ((1 - t) * x + t * y)%v) ->
  (forall x c, C (prox x c)) -> 0 <= c_rho s <= 1 -> C (c_x s) -> C (c_x (cupdate s)).
Proof.
  intros Cv Cp Hr Cx. rewrite update_x.
  replace (c_rho s * fst (cprox s) + (1 - c_rho s) * c_x s)%v with ((1 - c_rho s) * c_x s + c_rho s * fst (cprox s))%v by vring.
  apply Cv; [exact Cx|apply Cp|exact Hr].
Qed.
End Runs.

(** * Coordinates *)
Definition coord {n} (x : Rn n) (i : nat) : R := nth i (proj1_sig x) 0.

Lemma nth_map2 {A B} (f : A -> B -> R) l m n i da db : length l = n -> length m = n -> f da db = 0 ->
  nth i (map2 f l m) 0 = f (nth i l da) (nth i m db).
Proof.
  revert m n i. induction l as [|a l IH]; intros [|b m] n i E1 E2 E; cbn in *; subst n; try discriminate.
  - destruct i; symmetry; exact E.
  - destruct i; [reflexivity|]. eapply IH; [reflexivity|congruence|exact E].
Qed.

Lemma coord_add {n} (x y : Rn n) i : coord (x + y)%v i = coord x i + coord y i.
Proof. unfold coord. cbn. rewrite (nth_map2 _ _ _ n i 0 0 (proj2_sig x) (proj2_sig y)); lra. Qed.
Lemma coord_scal {n} a (x : Rn n) i : coord (a * x)%v i = a * coord x i.
Proof.
  unfold coord. cbn. rewrite <- (Rmult_0_r a) at 1. apply (map_nth (Rmult a)).
Qed.
Lemma coord_sub {n} (x y : Rn n) i : coord (x - y)%v i = coord x i - coord y i.
Proof. unfold vsub. rewrite coord_add, coord_scal. lra. Qed.
