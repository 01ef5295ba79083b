(** Lemmas for C122 and C123: inexact proximal gradient steps, least squares plus a weighted l1 norm. *)
From Coq Require Import String.
From Verif Require Import NPReal Py IPS Model_SetUp Spec_Opt Proof_Smooth Proof_PD Spec_Lim Proof_Lim Proof_Iter
  Model_Linear Proof_Linear Model_Signal Model_Prox Spec_Prox Proof_Prox.
From Coq Require Import List Lia.
Import ListNotations.
Local Open Scope R_scope.

Lemma norm_of_nsq {H K : ips} (x : H) (y : K) : nsq x <= nsq y -> norm x <= norm y.
Proof. intros Q. unfold norm. apply sqrt_le_1_alt. exact Q. Qed.
Lemma norm_scaled {H K : ips} q (x : H) (y : K) : 0 <= q -> nsq x <= q * nsq y -> norm x <= sqrt q * norm y.
Proof. intros Hq Q. unfold norm. fold (nsq x) (nsq y). rewrite <- sqrt_mult by (try exact Hq; apply nsq_pos). apply sqrt_le_1_alt. exact Q. Qed.

Section Inexact.
Context {H : ips}.
Variable D : H -> Prop.
Variables (f g : H -> R) (grad : H -> H) (prox : H -> R -> H) (M beta : R).
Hypothesis Hb : 0 < beta.
Hypothesis HM : 0 <= M.
Hypothesis Sf : smooth_convex M f grad.
Hypothesis Cg : convex_on D g.
Hypothesis Pg : prox_operator D g prox.
Hypothesis HbM : beta * M <= 2.
Notation T := (fb_map grad prox beta).

Lemma prox_nonexp x y : norm (prox x beta - prox y beta)%v <= norm (x - y)%v.
Proof.
  pose proof (prox_vi_nonexpansive _ _ _ _ _ _ (prox_operator_vi D g prox Cg Pg x beta Hb) (prox_operator_vi D g prox Cg Pg y beta Hb)) as Q.
  apply norm_of_nsq. set (p := (prox x beta - prox y beta)%v) in *. set (w := (x - y)%v) in *.
  pose proof (nsq_pos (p - w)%v) as P. assert (E : nsq (p - w)%v = nsq p - 2 * inner w p + nsq w) by (iexpand; rewrite (inner_sym H p w); ring). lra.
Qed.

Lemma T_nonexp y z : norm (T y - T z)%v <= norm (y - z)%v.
Proof.
  unfold fb_map. apply Rle_trans with (1 := prox_nonexp _ _). apply norm_of_nsq.
  pose proof (cocoercive M f grad y z HM Sf) as C.
  assert (E : nsq (y - beta * grad y - (z - beta * grad z))%v = nsq (y - z)%v - 2 * beta * inner (grad y - grad z)%v (y - z)%v + beta * beta * nsq (grad y - grad z)%v).
  { replace (y - beta * grad y - (z - beta * grad z))%v with ((y - z) - beta * (grad y - grad z))%v by vring.
    set (a := (y - z)%v). set (d := (grad y - grad z)%v). iexpand. rewrite (inner_sym H a d). ring. }
  rewrite E. pose proof (nsq_pos (grad y - grad z)%v) as P. set (n2 := nsq (grad y - grad z)%v) in *. set (d := inner (grad y - grad z)%v (y - z)%v) in *.
  assert (Bd : beta * beta * n2 <= beta * beta * (M * d)) by (apply Rmult_le_compat_l; [nra|exact C]).
  assert (Pd : 0 <= d).
  { destruct (Rle_lt_dec 0 d) as [Q|Q]; [exact Q|]. destruct (Req_dec M 0) as [E0|N0].
    - pose proof (proj2 (proj2 Sf) y z) as Lp. rewrite E0, Rmult_0_l in Lp. assert (Z : norm (grad y - grad z)%v = 0) by (pose proof (norm_pos (grad y - grad z)%v); lra).
      apply norm_eq0 in Z. unfold d in Q. rewrite Z, inner_0_l in Q. lra.
    - assert (0 < M) by lra. assert (M * d < 0) by nra. lra. }
  assert (B2 : beta * beta * (M * d) <= 2 * beta * d).
  { replace (beta * beta * (M * d)) with (beta * M * (beta * d)) by ring. replace (2 * beta * d) with (2 * (beta * d)) by ring.
    apply Rmult_le_compat_r; [apply Rmult_le_pos; lra|exact HbM]. }
  lra.
Qed.

(** The operators that are actually run. *)
Variables (grad' : H -> H) (prox' : H -> R -> H) (gam del : R).
Hypothesis Eg : forall z, norm (grad' z - grad z)%v <= gam.
Hypothesis Ep : forall y, norm (prox' y beta - prox y beta)%v <= del.
Notation T' := (fb_map grad' prox' beta).

Lemma T'_close z : norm (T' z - T z)%v <= del + beta * gam.
Proof.
  unfold fb_map. set (y' := (z - beta * grad' z)%v). set (y := (z - beta * grad z)%v).
  replace (prox' y' beta - prox y beta)%v with ((prox' y' beta - prox y' beta) + (prox y' beta - prox y beta))%v by vring.
  apply Rle_trans with (1 := norm_triangle _ _). apply Rplus_le_compat; [apply Ep|].
  apply Rle_trans with (1 := prox_nonexp _ _). replace (y' - y)%v with ((- beta) * (grad' z - grad z))%v by (unfold y, y'; vring).
  rewrite norm_scal, Rabs_Ropp, (Rabs_pos_eq beta) by lra. apply Rmult_le_compat_l; [lra|apply Eg].
Qed.

Lemma inexact_close X X' : (forall k, X (S k) = T (X k)) -> (forall k, X' (S k) = T' (X' k)) -> X' 0%nat = X 0%nat ->
  forall k, norm (X' k - X k)%v <= INR k * (del + beta * gam).
Proof.
  intros SX SX' E0 k. induction k as [|k IH]; [rewrite E0, vsub_self, norm_0; cbn; lra|].
  rewrite SX, SX', S_INR. replace (T' (X' k) - T (X k))%v with ((T' (X' k) - T (X' k)) + (T (X' k) - T (X k)))%v by vring.
  apply Rle_trans with (1 := norm_triangle _ _). pose proof (T'_close (X' k)). pose proof (T_nonexp (X' k) (X k)). lra.
Qed.

Lemma inexact_fejer X' p : T p = p -> (forall k, X' (S k) = T' (X' k)) ->
  forall k, norm (X' k - p)%v <= norm (X' 0%nat - p)%v + INR k * (del + beta * gam).
Proof.
  intros Fp SX' k. induction k as [|k IH]; [cbn; lra|]. rewrite SX', S_INR.
  replace (T' (X' k) - p)%v with ((T' (X' k) - T (X' k)) + (T (X' k) - T p))%v by (rewrite Fp; vring).
  apply Rle_trans with (1 := norm_triangle _ _). pose proof (T'_close (X' k)). pose proof (T_nonexp (X' k) p). lra.
Qed.

Lemma inexact_contraction X' p r : T p = p -> 0 <= r < 1 -> (forall y, norm (T y - p)%v <= r * norm (y - p)%v) -> (forall k, X' (S k) = T' (X' k)) ->
  forall k, norm (X' k - p)%v <= r ^ k * norm (X' 0%nat - p)%v + (del + beta * gam) / (1 - r).
Proof.
  intros Fp Hr Ct SX' k. set (e := del + beta * gam).
  assert (He : 0 <= e) by (apply Rle_trans with (2 := T'_close p); apply norm_pos).
  assert (Q : e / (1 - r) = e + r * (e / (1 - r))) by (field; lra).
  assert (P : 0 <= e / (1 - r)) by (apply Rmult_le_pos; [exact He|left; apply Rinv_0_lt_compat; lra]).
  set (q := e / (1 - r)) in *. clearbody q.
  induction k as [|k IH]; [cbn; lra|]. rewrite SX'. cbn [pow].
  replace (T' (X' k) - p)%v with ((T' (X' k) - T (X' k)) + (T (X' k) - p))%v by vring.
  apply Rle_trans with (1 := norm_triangle _ _). pose proof (T'_close (X' k)) as A. fold e in A. pose proof (Ct (X' k)) as B.
  apply (Rmult_le_compat_l r) in IH; [|lra]. lra.
Qed.
End Inexact.

(** * Least squares *)
Section LeastSquares.
Context {H K : ips}.
Variables (op : H -> K) (adj : K -> H) (obs : K) (L : R).
Hypothesis A : adjoint op adj.
Hypothesis HL : 0 <= L.
Hypothesis Bd : bounded_sq L op.

Lemma ls_add u v : op (u + v)%v = (op u + op v)%v.
Proof. apply (adj_add op adj A). Qed.
Lemma ls_scal a u : op (a * u)%v = (a * op u)%v.
Proof. apply (adj_scal op adj A). Qed.

Lemma ls_expand x h : grad_basic_cost op obs (x + h)%v = grad_basic_cost op obs x + inner (grad_basic op adj obs x) h + / 2 * nsq (op h).
Proof.
  rewrite (grad_basic_gradient op adj obs ls_add A x h). replace (norm (op h) ^ 2) with (nsq (op h)); [reflexivity|].
  rewrite <- norm_sq. ring.
Qed.

Lemma ls_convex_gap c (Hc : forall h, c * nsq h <= nsq (op h)) : strongly_convex c (grad_basic_cost op obs).
Proof.
  intros x y t _ _ Ht. split; [exact I|]. set (fc := grad_basic_cost op obs). set (m := ((1 - t) * x + t * y)%v).
  pose proof (ls_expand m (x - m)%v) as E1. pose proof (ls_expand m (y - m)%v) as E2. fold fc in E1, E2.
  replace (m + (x - m))%v with x in E1 by vring. replace (m + (y - m))%v with y in E2 by vring. rewrite E1, E2.
  set (gm := grad_basic op adj obs m).
  assert (Ex : (x - m)%v = (t * (x - y))%v) by (unfold m; vring). assert (Ey : (y - m)%v = ((- (1 - t)) * (x - y))%v) by (unfold m; vring).
  rewrite Ex, Ey, !ls_scal, !inner_scal_r. set (d := (x - y)%v) in *.
  assert (N1 : forall a, nsq (a * op d)%v = a * a * nsq (op d)) by (intros a; unfold nsq; rewrite inner_scal_l, inner_scal_r; ring). rewrite !N1.
  assert (N2 : (1 - t) * nsq x + t * nsq y - nsq m = t * (1 - t) * nsq d).
  { unfold d, m. iexpand. rewrite (inner_sym H y x). ring. }
  specialize (Hc d). assert (P : 0 <= t * (1 - t)) by (apply Rmult_le_pos; lra).
  assert (Q : t * (1 - t) * (c * nsq d) <= t * (1 - t) * nsq (op d)) by (apply Rmult_le_compat_l; assumption).
  set (nx := nsq x) in *. set (ny := nsq y) in *. set (nm := nsq m) in *. set (nd := nsq d) in *. set (no := nsq (op d)) in *. set (fm := fc m). set (i := inner gm d).
  clearbody nx ny nm nd no fm i. assert (R1 : (c / 2) * ((1 - t) * nx + t * ny - nm) = (c / 2) * (t * (1 - t) * nd)) by (rewrite N2; reflexivity). lra.
Qed.

Lemma ls_smooth : smooth_convex L (grad_basic_cost op obs) (grad_basic op adj obs).
Proof.
  split; [|split].
  - intros x y t Hx Hy Ht. destruct (ls_convex_gap 0) with (x := x) (y := y) (t := t) as [_ Q]; auto.
    { intros h. rewrite Rmult_0_l. apply nsq_pos. }
    split; [exact I|]. cbv beta in Q. lra.
  - intros x h e He. assert (P : 0 < nsq (op h) + 1) by (pose proof (nsq_pos (op h)); lra).
    assert (Pe : 0 < e / (nsq (op h) + 1)) by (apply Rdiv_lt_0_compat; lra). exists (mkposreal _ Pe). intros t Ht Hd. cbn in Hd.
    rewrite Rplus_0_l. rewrite !ls_expand, !ls_scal, !inner_scal_r.
    assert (N1 : forall a, nsq (a * op h)%v = a * a * nsq (op h)) by (intros a; unfold nsq; rewrite inner_scal_l, inner_scal_r; ring). rewrite !N1.
    match goal with |- Rabs ?z < e => replace z with (/ 2 * nsq (op h) * t) by (field; exact Ht) end.
    rewrite Rabs_mult, (Rabs_pos_eq (/ 2 * nsq (op h))) by (pose proof (nsq_pos (op h)); lra).
    apply Rmult_lt_compat_r with (r := nsq (op h) + 1) in Hd; [|exact P].
    replace (e / (nsq (op h) + 1) * (nsq (op h) + 1)) with e in Hd by (field; lra). pose proof (Rabs_pos t). pose proof (nsq_pos (op h)). nra.
  - intros x y. unfold grad_basic. pose proof (adjoint_bounded L op adj A Bd HL) as Ba.
    assert (E : (adj (op x - obs) - adj (op y - obs))%v = adj (op (x - y)%v)).
    { apply nsq_sub_0. assert (G : forall w, inner w (adj (op x - obs) - adj (op y - obs) - adj (op (x - y)))%v = 0).
      { intros w. rewrite !inner_sub_r, <- !A. assert (Eo : op (x - y)%v = (op x - op y)%v) by (unfold vsub; rewrite ls_add, ls_scal; reflexivity).
        rewrite Eo, !inner_sub_r. ring. }
      apply G. }
    rewrite E. apply Rle_trans with (sqrt (L * L) * norm (x - y)%v); [|rewrite sqrt_square by exact HL; lra].
    apply norm_scaled; [nra|]. apply Rle_trans with (1 := Ba _). rewrite Rmult_assoc. apply Rmult_le_compat_l; [exact HL|apply Bd].
Qed.
End LeastSquares.

(** * The weighted l1 norm on arrays of n numbers *)
Section L1.
Variable n : nat.
Variable ws : list R.
Hypothesis Lw : length ws = n.
Hypothesis Nw : nonneg ws.

Definition l1 (z : Rn n) : R := weighted_l1 ws (proj1_sig z).
Lemma shrink_len c (y : Rn n) : length (map2 shrink (map (fun w => w * c) ws) (proj1_sig y)) = n.
Proof. apply map2_length; [rewrite map_length; exact Lw|exact (proj2_sig y)]. Qed.
Definition shrink_op (y : Rn n) (c : R) : Rn n := exist _ (map2 shrink (map (fun w => w * c) ws) (proj1_sig y)) (shrink_len c y).

Lemma l1_prox : prox_operator everywhere l1 shrink_op.
Proof.
  intros y c Hc. split; [exact I|]. intros z _. unfold l1.
  destruct (separable_minimiser (fun t v => t * Rabs v) shrink (map (fun w => w * c) ws) (proj1_sig y)) as [_ Q].
  - rewrite map_length, Lw. symmetry. exact (proj2_sig y).
  - intros i t v Ht _ u. apply shrink_prox. apply nth_error_In in Ht. apply in_map_iff in Ht. destruct Ht as (w & <- & Iw).
    unfold nonneg in Nw. rewrite Forall_forall in Nw. specialize (Nw w Iw). nra.
  - specialize (Q (proj1_sig z)). rewrite (proj2_sig y) in Q. specialize (Q (proj2_sig z)).
    assert (E : forall u, sum2 (fun t v => t * Rabs v) (map (fun w => w * c) ws) u = c * weighted_l1 ws u).
    { intros u. unfold weighted_l1. rewrite sum2_map_l, <- sum2_scal. apply sum2_ext. intros; ring. }
    rewrite !E in Q. change (map2 shrink (map (fun w => w * c) ws) (proj1_sig y)) with (proj1_sig (shrink_op y c)) in Q.
    rewrite !sqdist_nsq in Q. pose proof (nsq_pos (shrink_op y c - z : Rn n)%v). lra.
Qed.

Lemma l1_convex : convex_on everywhere l1.
Proof.
  intros x y t _ _ Ht. split; [exact I|]. unfold l1. destruct x as [x Lx], y as [y Ly]. cbn. unfold weighted_l1.
  clear - Lw Nw Lx Ly Ht. revert x y ws Nw n Lw Lx Ly. induction x as [|a x IH]; intros [|b y] [|w ws'] N m Lw Lx Ly; cbn in *; subst; try discriminate; try lra.
  inversion N as [|? ? N1 N2]; subst. specialize (IH y ws' N2 (length x) ltac:(lia) eq_refl ltac:(lia)).
  assert (Q : Rabs ((1 - t) * a + t * b) <= (1 - t) * Rabs a + t * Rabs b).
  { apply Rle_trans with (1 := Rabs_triang _ _). rewrite !Rabs_mult, (Rabs_pos_eq (1 - t)), (Rabs_pos_eq t) by lra. lra. }
  apply (Rmult_le_compat_l w) in Q; [|exact N1]. lra.
Qed.

(** w_i sign(x_i) *)
Definition sgn (v : R) : R := if Rle_dec 0 v then 1 else -1.
Lemma sgn_len (x : Rn n) : length (map2 (fun w v => w * sgn v) ws (proj1_sig x)) = n.
Proof. apply map2_length; [exact Lw|exact (proj2_sig x)]. Qed.
Definition l1_sub (x : Rn n) : Rn n := exist _ (map2 (fun w v => w * sgn v) ws (proj1_sig x)) (sgn_len x).
Lemma sgn_spec a b : Rabs a + sgn a * (b - a) <= Rabs b.
Proof. unfold sgn. destruct (Rle_dec 0 a); [rewrite (Rabs_pos_eq a) by lra|rewrite (Rabs_left a) by lra]; unfold Rabs; destruct (Rcase_abs b); lra. Qed.
Lemma l1_subgradient x : subgradient everywhere l1 x (l1_sub x).
Proof.
  split; [exact I|]. intros z _. unfold l1, l1_sub. destruct x as [x Lx], z as [z Lz]. cbn. unfold Rvec_dot, dot. cbn. unfold weighted_l1.
  clear - Lw Nw Lx Lz. revert x z ws Nw n Lw Lx Lz. induction x as [|a x IH]; intros [|b z] [|w ws'] N m Lw Lx Lz; cbn in *; subst; try discriminate; try lra.
  inversion N as [|? ? N1 N2]; subst. specialize (IH z ws' N2 (length x) ltac:(lia) eq_refl ltac:(lia)).
  pose proof (sgn_spec a b) as Q. apply (Rmult_le_compat_l w) in Q; [|exact N1]. lra.
Qed.

Lemma l1_bound w0 (x : Rn n) : 0 <= w0 -> Forall (fun w => w0 <= w) ws -> w0 * norm x <= l1 x.
Proof.
  intros H0 Fw. unfold l1. destruct x as [x Lx]. unfold norm. cbn [inner Rn proj1_sig]. unfold Rvec_dot, dot. cbn [proj1_sig].
  assert (G : forall us (l : list R), length us = length l -> Forall (fun w => w0 <= w) us ->
     0 <= weighted_l1 us l /\ w0 * sqrt (rsum (map2 Rmult l l)) <= weighted_l1 us l /\ 0 <= rsum (map2 Rmult l l)).
  { clear - H0. induction us as [|w us IH]; intros [|a l] Le F; cbn in Le; try discriminate.
    - cbn. rewrite sqrt_0. lra.
    - inversion F as [|? ? F1 F2]; subst. destruct (IH l ltac:(lia) F2) as (I1 & I2 & I3).
      unfold weighted_l1 in *. cbn [sum2 map2 rsum fold_right]. change (fold_right Rplus 0 (map2 Rmult l l)) with (rsum (map2 Rmult l l)).
      set (s := sum2 _ us l) in *. set (r := rsum (map2 Rmult l l)) in *. clearbody s r. pose proof (Rabs_pos a) as Pa.
      assert (Wa : w0 * Rabs a <= w * Rabs a) by (apply Rmult_le_compat_r; lra).
      assert (P0 : 0 <= w0 * Rabs a) by (apply Rmult_le_pos; lra).
      split; [lra|]. split; [|nra]. apply Rle_trans with (w0 * (Rabs a + sqrt r)); [|lra]. apply Rmult_le_compat_l; [exact H0|].
      pose proof (sqrt_pos r) as Pr. apply Rsqr_incr_0_var; [|lra]. unfold Rsqr. rewrite sqrt_sqrt by nra.
      pose proof (sqrt_sqrt r I3) as Sr. assert (Sa : Rabs a * Rabs a = a * a) by (rewrite <- Rabs_mult; apply Rabs_pos_eq; nra). nra. }
  apply G; [congruence|exact Fw].
Qed.
End L1.

(** * Existence of minimisers *)
Lemma Un r : exists n, r < INR n.
Proof. destruct (archimed r) as [A _]. exists (Z.to_nat (up r)). destruct (Z_le_gt_dec 0 (up r)) as [L|L].
  - rewrite INR_IZR_INZ, Z2Nat.id by exact L. lra.
  - apply Rlt_le_trans with 0; [|apply pos_INR]. apply Z.gt_lt, IZR_lt in L. cbn in L. lra.
Qed.
(** f + g with a smooth convex f and a g that has subgradients everywhere, whose sublevel sets are
    bounded: the proximal gradient iterates accumulate at a minimiser. *)
Lemma coercive_minimum {H : ips} (f g : H -> R) grad (X : nat -> H) c :
  finite_dimensional H -> convex f -> is_gradient f grad -> (forall x, exists s, subgradient everywhere g x s) ->
  (forall b, exists B, forall x, f x + g x <= b -> norm x <= B) ->
  (forall z k, (1 <= k)%nat -> f (X k) + g (X k) - (f z + g z) <= c z / INR k) ->
  exists xs, minimises everywhere (fun u => f u + g u) xs.
Proof.
  intros FD Cf Gf Sg Co Rate. set (F := fun u => f u + g u) in *.
  assert (Bd : exists B, forall k, norm (X (S k)) <= B).
  { destruct (Co (F (X 0%nat) + Rmax 0 (c (X 0%nat)))) as (B & Q). exists B. intros k. apply Q.
    pose proof (Rate (X 0%nat) (S k) ltac:(lia)) as R0. assert (P : 0 < INR (S k)) by apply lt_0_INR, Nat.lt_0_succ.
    assert (P1 : 1 <= INR (S k)) by (rewrite S_INR; pose proof (pos_INR k); lra).
    assert (c (X 0%nat) / INR (S k) <= Rmax 0 (c (X 0%nat))).
    { apply Rmult_le_reg_r with (INR (S k)); [exact P|]. unfold Rdiv. rewrite Rmult_assoc, Rinv_l, Rmult_1_r by lra.
      pose proof (Rmax_l 0 (c (X 0%nat))). pose proof (Rmax_r 0 (c (X 0%nat))). nra. }
    unfold F. lra. }
  destruct Bd as (B & Bd). destruct (bounded_subsequence FD (fun k => X (S k)) B Bd) as (phi & l & Iphi & C).
  exists l. split; [exact I|]. intros z _. apply Rnot_lt_le. intros Lt. fold (F l) (F z) in Lt |- *.
  destruct (Sg l) as (s & _ & Ss). set (G := norm (grad l + s)%v). set (e := F l - F z).
  assert (He : 0 < e) by (unfold e; lra). assert (PG : 0 <= G) by apply norm_pos.
  destruct (C (e / (2 * (G + 1)))) as (N1 & Q1); [apply Rdiv_lt_0_compat; lra|].
  destruct (Un (Rabs (c z) * 2 / e)) as (N2 & HN2).
  set (k := Nat.max N1 N2). specialize (Q1 k (Nat.le_max_l _ _)). set (u := X (S (phi k))) in *.
  assert (Lo : F l - G * norm (u - l)%v <= F u).
  { unfold F. pose proof (first_order f grad Cf Gf l u) as A1. pose proof (Ss u I) as A2.
    assert (A3 : - (G * norm (u - l)%v) <= inner (grad l + s)%v (u - l)%v).
    { pose proof (cauchy_schwarz_norm (grad l + s)%v (l - u)%v) as CS. fold G in CS. rewrite (norm_sub_sym l u) in CS.
      replace (l - u)%v with ((-1) * (u - l))%v in CS by vring. rewrite inner_scal_r in CS. lra. }
    rewrite inner_add_l in A3. lra. }
  assert (Hi : F u - F z < e / 2).
  { apply Rle_lt_trans with (1 := Rate z (S (phi k)) ltac:(lia)). assert (P : 0 < INR (S (phi k))) by apply lt_0_INR, Nat.lt_0_succ.
    assert (Le : INR N2 <= INR (S (phi k))) by (apply le_INR; pose proof (idx_ge phi Iphi k); unfold k in *; lia).
    apply Rmult_lt_reg_r with (INR (S (phi k))); [exact P|]. unfold Rdiv at 1. rewrite Rmult_assoc, Rinv_l, Rmult_1_r by lra.
    apply Rle_lt_trans with (1 := Rle_abs (c z)). assert (Q : Rabs (c z) * 2 < e * INR (S (phi k))).
    { apply Rlt_le_trans with (e * INR N2); [|apply Rmult_le_compat_l; lra]. apply Rmult_lt_compat_l with (r := e) in HN2; [|exact He].
      replace (e * (Rabs (c z) * 2 / e)) with (Rabs (c z) * 2) in HN2 by (field; lra). exact HN2. }
    lra. }
  assert (Sm : G * norm (u - l)%v <= e / 2).
  { apply Rle_trans with (G * (e / (2 * (G + 1)))); [apply Rmult_le_compat_l; lra|].
    replace (G * (e / (2 * (G + 1)))) with (e / 2 * (G / (G + 1))) by (field; lra). rewrite <- (Rmult_1_r (e / 2)) at 2.
    apply Rmult_le_compat_l; [lra|]. apply Rmult_le_reg_r with (G + 1); [lra|]. unfold Rdiv. rewrite Rmult_assoc, Rinv_l by lra. lra. }
  unfold e in *. lra.
Qed.
