(** Lemmas for C138: AdaGrad on smooth problems. *)
From Verif Require Import NPReal Py IPS Spec_Opt Proof_Smooth Spec_Lim Proof_Lim Proof_Iter Spec_GD.
From Coq Require Import List Lia FunctionalExtensionality.
Import ListNotations.
Local Open Scope R_scope.

(** * Finite sums *)
Section Sums.
Context {I : Type}.
Definition lsum (l : list I) (h : I -> R) : R := rsum (map h l).
Lemma lsum_cons a l h : lsum (a :: l) h = h a + lsum l h. Proof. reflexivity. Qed.
Lemma lsum_le l h h' : (forall i, h i <= h' i) -> lsum l h <= lsum l h'.
Proof. intros Q. induction l as [|a l IH]; [cbn; lra|]. rewrite !lsum_cons. specialize (Q a). lra. Qed.
Lemma lsum_ext l h h' : (forall i, h i = h' i) -> lsum l h = lsum l h'.
Proof. intros Q. unfold lsum. f_equal. apply map_ext. exact Q. Qed.
Lemma lsum_plus l h h' : lsum l (fun i => h i + h' i) = lsum l h + lsum l h'.
Proof. induction l as [|a l IH]; [cbn; lra|]. rewrite !lsum_cons, IH. ring. Qed.
Lemma lsum_scal l c h : lsum l (fun i => c * h i) = c * lsum l h.
Proof. induction l as [|a l IH]; [cbn; lra|]. rewrite !lsum_cons, IH. ring. Qed.
Lemma lsum_minus l h h' : lsum l (fun i => h i - h' i) = lsum l h - lsum l h'.
Proof. induction l as [|a l IH]; [cbn; lra|]. rewrite !lsum_cons, IH. ring. Qed.
Lemma lsum_pos l h : (forall i, 0 <= h i) -> 0 <= lsum l h.
Proof. intros Q. induction l as [|a l IH]; [cbn; lra|]. rewrite lsum_cons. specialize (Q a). lra. Qed.
Lemma lsum_const l c : lsum l (fun _ => c) = INR (length l) * c.
Proof. induction l as [|a l IH]; [cbn; lra|]. rewrite lsum_cons, IH. cbn [length]. rewrite S_INR. ring. Qed.
Lemma lsum_one l h i : In i l -> (forall j, 0 <= h j) -> h i <= lsum l h.
Proof.
  intros Hi Q. induction l as [|a l IH]; [contradiction|]. rewrite lsum_cons. destruct Hi as [->|Hi].
  - pose proof (lsum_pos l h Q). lra.
  - specialize (IH Hi). specialize (Q a). lra.
Qed.
End Sums.

Lemma some_smallest n (r : nat -> R) : exists k, (k <= n)%nat /\ forall j, (j <= n)%nat -> r k <= r j.
Proof.
  induction n as [|n (k & Hk & Q)]; [exists 0%nat; split; [lia|]; intros j Hj; replace j with 0%nat by lia; lra|].
  destruct (Rle_dec (r k) (r (S n))) as [L|L].
  - exists k. split; [lia|]. intros j Hj. destruct (Nat.eq_dec j (S n)) as [->|N]; [exact L|]. apply Q. lia.
  - exists (S n). split; [lia|]. intros j Hj. destruct (Nat.eq_dec j (S n)) as [->|N]; [lra|]. specialize (Q j ltac:(lia)). lra.
Qed.
(** The smallest of n+1 numbers is at most their average. *)
Lemma smallest n (r : nat -> R) B : sum_below (S n) r <= B -> exists k, (k <= n)%nat /\ r k <= B / INR (S n).
Proof.
  intros Q. assert (P : 0 < INR (S n)) by (apply lt_0_INR; lia).
  destruct (some_smallest n r) as (k & Hk & Mk). exists k. split; [exact Hk|].
  apply Rmult_le_reg_r with (INR (S n)); [exact P|]. unfold Rdiv. rewrite Rmult_assoc, Rinv_l, Rmult_1_r by lra.
  apply Rle_trans with (2 := Q). clear - Mk. 
  assert (G : forall m, (m <= S n)%nat -> r k * INR m <= sum_below m r).
  { induction m as [|m IH]; intros L; [cbn; lra|]. cbn [sum_below]. rewrite S_INR. specialize (IH ltac:(lia)). specialize (Mk m ltac:(lia)). lra. }
  apply G. lia.
Qed.

(** * One entry *)
Lemma sq_of_sqrt a : 0 <= a -> sqrt a * sqrt a = a. Proof. apply sqrt_sqrt. Qed.

Lemma entry_gain (c eps g s : R) : 0 <= c -> 0 < eps -> 0 <= s ->
  let b := sqrt (s + g * g) + eps in
  / 2 * (g * g / b) - c / (2 * (eps * eps)) * (Rmin (s + g * g) (c * c) - Rmin s (c * c)) <= g * g / b - c / 2 * (g * g / (b * b)).
Proof.
  intros Hc He Hs b. pose proof (sqrt_pos (s + g * g)) as Pr. assert (Pg : 0 <= g * g) by apply Rle_0_sqr.
  assert (Eb : eps <= b) by (unfold b; lra). assert (Pb : 0 < b) by lra.
  assert (P2 : 0 <= g * g / b) by (apply Rmult_le_pos; [exact Pg|left; apply Rinv_0_lt_compat, Pb]).
  assert (Q0 : 0 <= Rmin (s + g * g) (c * c) - Rmin s (c * c)).
  { unfold Rmin. destruct (Rle_dec (s + g * g) (c * c)), (Rle_dec s (c * c)); lra. }
  assert (C2 : 0 <= c / (2 * (eps * eps))) by (apply Rmult_le_pos; [exact Hc|left; apply Rinv_0_lt_compat; nra]).
  destruct (Rle_lt_dec c b) as [L|L].
  - pose proof (Rmult_le_pos _ _ C2 Q0) as Q1.
    assert (Q2 : c / 2 * (g * g / (b * b)) <= / 2 * (g * g / b)).
    { replace (c / 2 * (g * g / (b * b))) with (/ 2 * (g * g / b) * (c / b)) by (field; lra).
      assert (c / b <= 1) by (apply Rmult_le_reg_r with b; [exact Pb|]; unfold Rdiv; rewrite Rmult_assoc, Rinv_l by lra; lra).
      rewrite <- (Rmult_1_r (/ 2 * (g * g / b))) at 2. apply Rmult_le_compat_l; lra. }
    lra.
  - assert (Sk : s + g * g <= c * c).
    { rewrite <- (sq_of_sqrt (s + g * g)) by lra. unfold b in L. apply Rmult_le_compat; lra. }
    rewrite !Rmin_left by lra. replace (s + g * g - s) with (g * g) by ring.
    assert (Q3 : c / 2 * (g * g / (b * b)) <= c / (2 * (eps * eps)) * (g * g)).
    { replace (c / (2 * (eps * eps)) * (g * g)) with (c / 2 * (g * g * / (eps * eps))) by (field; lra). unfold Rdiv at 2.
      apply Rmult_le_compat_l; [lra|]. apply Rmult_le_compat_l; [exact Pg|]. apply Rinv_le_contravar; nra. }
    lra.
Qed.

Lemma entry_growth (eps g s : R) : 0 < eps -> 0 <= s ->
  / 2 * (Rmax (sqrt (s + g * g)) eps - Rmax (sqrt s) eps) <= g * g / (sqrt (s + g * g) + eps).
Proof.
  intros He Hs. assert (Pg : 0 <= g * g) by apply Rle_0_sqr.
  set (r := sqrt (s + g * g)). set (r0 := sqrt s). assert (Pr0 : 0 <= r0) by apply sqrt_pos.
  assert (Rr : r0 <= r) by (apply sqrt_le_1_alt; lra).
  assert (E : g * g = (r - r0) * (r + r0)).
  { unfold r, r0. replace ((sqrt (s + g * g) - sqrt s) * (sqrt (s + g * g) + sqrt s)) with (sqrt (s + g * g) * sqrt (s + g * g) - sqrt s * sqrt s) by ring. rewrite !sqrt_sqrt; lra. }
  assert (Pb : 0 < r + eps) by lra. assert (Q : 0 <= g * g / (r + eps)) by (apply Rmult_le_pos; [exact Pg|left; apply Rinv_0_lt_compat, Pb]).
  unfold Rmax. destruct (Rle_dec r eps) as [L|L]; destruct (Rle_dec r0 eps) as [L0|L0]; try lra.
  - apply Rmult_le_reg_r with (r + eps); [exact Pb|]. unfold Rdiv. rewrite (Rmult_assoc (g * g)), Rinv_l, Rmult_1_r by lra. rewrite E.
    assert (r - eps <= r - r0) by lra. assert (r + eps <= 2 * (r + r0)) by lra. nra.
  - apply Rmult_le_reg_r with (r + eps); [exact Pb|]. unfold Rdiv. rewrite (Rmult_assoc (g * g)), Rinv_l, Rmult_1_r by lra. rewrite E.
    assert (0 <= r - r0) by lra. assert (r + eps <= 2 * (r + r0)) by lra. nra.
Qed.

Section Ada.
Variables (I : Type) (l : list I) (complete : forall i, In i l).
Notation H := (fin_ips I l complete).
Variables (f : H -> R) (df : H -> H) (L eta eps : R).
Hypothesis HL : 0 <= L.
Hypothesis Gf : is_gradient f df.
Hypothesis Lf : lipschitz L df.
Hypothesis Heta : 0 < eta.
Hypothesis Heps : 0 < eps.
Variables (x s : nat -> I -> R).
Hypothesis S0 : forall i, s 0%nat i = 0.
Hypothesis SS : forall k i, s (S k) i = s k i + df (x k) i * df (x k) i.
Hypothesis XS : forall k i, x (S k) i = x k i - eta / (sqrt (s (S k) i) + eps) * df (x k) i.
Let g (k : nat) (i : I) : R := df (x k) i.
Let b (k : nat) (i : I) : R := sqrt (s k i) + eps.

Lemma fin_inner (u v : H) : inner u v = lsum l (fun i => u i * v i). Proof. reflexivity. Qed.
Lemma s_pos k i : 0 <= s k i.
Proof. induction k as [|k IH]; [rewrite S0; lra|]. rewrite SS. pose proof (Rle_0_sqr (df (x k) i)) as Q. unfold Rsqr in Q. lra. Qed.
Lemma s_mono k i : s k i <= s (S k) i.
Proof. rewrite SS. pose proof (Rle_0_sqr (df (x k) i)) as Q. unfold Rsqr in Q. lra. Qed.
Lemma b_pos k i : eps <= b k i. Proof. unfold b. pose proof (sqrt_pos (s k i)). lra. Qed.
Lemma b_mono k i : b k i <= b (S k) i.
Proof. unfold b. apply Rplus_le_compat_r, sqrt_le_1_alt, s_mono. Qed.

(** The squared gradients divided by the square roots of the speed. *)
Definition gain (k : nat) : R := lsum l (fun i => g k i * g k i / b (S k) i).
Lemma gain_pos k : 0 <= gain k.
Proof. apply lsum_pos. intros i. apply Rmult_le_pos; [apply Rle_0_sqr|]. left. apply Rinv_0_lt_compat. pose proof (b_pos (S k) i). lra. Qed.

Lemma gains_pos k : 0 <= sum_below k gain.
Proof. induction k as [|k IH]; cbn; [lra|]. pose proof (gain_pos k). lra. Qed.

Lemma one_update k : f (x (S k)) <= f (x k) - eta * lsum l (fun i => g k i * g k i / b (S k) i - L * eta / 2 * (g k i * g k i / (b (S k) i * b (S k) i))).
Proof.
  set (d := fun i => - (eta * (g k i / b (S k) i)) : R).
  pose proof (descent f df L Gf Lf (x k) (x (S k))) as Q.
  replace (vsub (x (S k) : H) (x k : H)) with (d : H) in Q by (extensionality i; cbn; rewrite XS; unfold d, g, b, Rdiv; ring).
  unfold nsq in Q. rewrite !fin_inner in Q.
  apply Rle_trans with (1 := Q). right.
  rewrite lsum_minus, lsum_scal.
  replace (lsum l (fun i => df (x k) i * d i)) with (- eta * lsum l (fun i => g k i * g k i / b (S k) i)).
  - replace (lsum l (fun i => d i * d i)) with (eta * eta * lsum l (fun i => g k i * g k i / (b (S k) i * b (S k) i))); [field|].
    rewrite <- lsum_scal. apply lsum_ext. intros i. unfold d. pose proof (b_pos (S k) i). field. lra.
  - rewrite <- lsum_scal. apply lsum_ext. intros i. unfold d, g. pose proof (b_pos (S k) i). field. lra.
Qed.

Let c := L * eta.
Let q := c / (2 * (eps * eps)).
Definition phi (k : nat) : R := f (x k) / eta - q * lsum l (fun i => Rmin (s k i) (c * c)).

Lemma phi_step k : phi (S k) + / 2 * gain k <= phi k.
Proof.
  pose proof (one_update k) as Q.
  assert (E : lsum l (fun i => / 2 * (g k i * g k i / b (S k) i) - q * (Rmin (s (S k) i) (c * c) - Rmin (s k i) (c * c)))
    <= lsum l (fun i => g k i * g k i / b (S k) i - L * eta / 2 * (g k i * g k i / (b (S k) i * b (S k) i)))).
  { apply lsum_le. intros i. pose proof (entry_gain c eps (g k i) (s k i) ltac:(unfold c; nra) Heps (s_pos k i)) as G. cbv zeta in G.
    unfold b. rewrite SS. fold (g k i). fold c. exact G. }
  rewrite lsum_minus, !lsum_scal, lsum_minus in E. fold (gain k) in E.
  set (P := lsum l (fun i => g k i * g k i / b (S k) i - L * eta / 2 * (g k i * g k i / (b (S k) i * b (S k) i)))) in *.
  unfold phi. assert (E2 : f (x (S k)) / eta <= f (x k) / eta - P).
  { apply Rmult_le_reg_l with eta; [exact Heta|]. replace (eta * (f (x (S k)) / eta)) with (f (x (S k))) by (field; lra).
    replace (eta * (f (x k) / eta - P)) with (f (x k) - eta * P) by (field; lra). exact Q. }
  rewrite Rmult_minus_distr_l in E. lra.
Qed.

Variable m : R.
Hypothesis Hm : forall y, m <= f y.
(** A bound on everything that happens. *)
Definition budget : R := (f (x 0%nat) - m) / eta + INR (length l) * (c * c * c / (2 * (eps * eps))).
Lemma q_pos : 0 <= q.
Proof. unfold q, c. apply Rmult_le_pos; [nra|left; apply Rinv_0_lt_compat; nra]. Qed.

Lemma gains_bounded n : / 2 * sum_below n gain <= budget.
Proof.
  assert (G : phi n + / 2 * sum_below n gain <= phi 0%nat).
  { induction n as [|n IH]; [cbn; lra|]. cbn [sum_below]. pose proof (phi_step n). lra. }
  assert (P0 : phi 0%nat = f (x 0%nat) / eta).
  { unfold phi. rewrite (lsum_ext l _ (fun _ => 0)); [rewrite lsum_const; ring|]. intros i. rewrite S0. apply Rmin_left. unfold c. nra. }
  assert (Pn : m / eta - INR (length l) * (c * c * c / (2 * (eps * eps))) <= phi n).
  { unfold phi. assert (m / eta <= f (x n) / eta) by (apply Rmult_le_compat_r; [left; apply Rinv_0_lt_compat, Heta|apply Hm]).
    assert (Q : lsum l (fun i => Rmin (s n i) (c * c)) <= INR (length l) * (c * c)).
    { rewrite <- lsum_const. apply lsum_le. intros i. apply Rmin_r. }
    apply (Rmult_le_compat_l q) in Q; [|exact q_pos].
    replace (q * (INR (length l) * (c * c))) with (INR (length l) * (c * c * c / (2 * (eps * eps)))) in Q by (unfold q; field; lra). lra. }
  unfold budget. unfold Rdiv in *. lra.
Qed.

Definition root_bound : R := eps + 4 * budget.
Lemma roots_bounded n i : sqrt (s n i) <= root_bound.
Proof.
  pose proof (gains_bounded n) as G.
  assert (Q : / 2 * lsum l (fun i => Rmax (sqrt (s n i)) eps - eps) <= sum_below n gain).
  { induction n as [|n IH].
    - rewrite (lsum_ext l _ (fun _ => 0)); [rewrite lsum_const; cbn; lra|]. intros j. rewrite S0, sqrt_0. unfold Rmax. destruct (Rle_dec 0 eps); lra.
    - cbn [sum_below]. assert (G' : / 2 * sum_below n gain <= budget) by (apply gains_bounded). specialize (IH G').
      assert (E : lsum l (fun i => / 2 * (Rmax (sqrt (s (S n) i)) eps - Rmax (sqrt (s n i)) eps)) <= gain n).
      { apply lsum_le. intros j. pose proof (entry_growth eps (g n j) (s n j) Heps (s_pos n j)) as W. unfold b. rewrite SS. fold (g n j). exact W. }
      rewrite lsum_scal, lsum_minus in E. rewrite lsum_minus in *. lra. }
  pose proof (lsum_one l (fun i => Rmax (sqrt (s n i)) eps - eps) i (complete i)) as O. cbv beta in O.
  assert (P : forall j, 0 <= Rmax (sqrt (s n j)) eps - eps) by (intros j; pose proof (Rmax_r (sqrt (s n j)) eps); lra).
  specialize (O P). pose proof (Rmax_l (sqrt (s n i)) eps). unfold root_bound. lra.
Qed.
Lemma budget_pos : 0 <= budget.
Proof. pose proof (gains_bounded 0). cbn in H. lra. Qed.
Lemma speed_bounded n i : s n i <= root_bound * root_bound.
Proof.
  rewrite <- (sqrt_sqrt (s n i)) by apply s_pos. pose proof (roots_bounded n i). pose proof (sqrt_pos (s n i)). apply Rmult_le_compat; lra.
Qed.

Lemma speed_sum n i : s n i = sum_below n (fun k => g k i * g k i).
Proof. induction n as [|n IH]; [apply S0|]. cbn [sum_below]. rewrite SS, IH. reflexivity. Qed.

(** The gradients vanish. *)
Lemma gradient_vanishes e : 0 < e -> exists N, forall n, (N <= n)%nat -> nsq (H := H) (df (x n)) < e.
Proof.
  apply (residual_vanishes (fun k => INR (length l) * (root_bound * root_bound) - lsum l (s k)) (fun k => nsq (H := H) (df (x k))) 1 ltac:(lra)).
  - intros n. rewrite <- lsum_const, <- lsum_minus. apply lsum_pos. intros i. pose proof (speed_bounded n i). lra.
  - intros n. apply inner_pos.
  - intros n. rewrite (lsum_ext l (s (S n)) (fun i => s n i + g n i * g n i)) by (intros i; apply SS). rewrite lsum_plus.
    unfold nsq. rewrite fin_inner. unfold g. lra.
Qed.

(** * Convex objectives that have a minimiser *)
Hypothesis Cf : convex f.
Section Target.
Variable z : I -> R.
Hypothesis Hz : forall y, f z <= f y.
Definition gap (k : nat) : R := lsum l (fun i => b k i * ((x k i - z i) * (x k i - z i))).
Definition width (k : nat) : R := lsum l (b k) / eps.

Lemma gap_pos k : 0 <= gap k.
Proof. apply lsum_pos. intros i. pose proof (b_pos k i). apply Rmult_le_pos; [lra|apply Rle_0_sqr]. Qed.
Lemma width_mono k : width k <= width (S k).
Proof. unfold width. apply Rmult_le_compat_r; [left; apply Rinv_0_lt_compat, Heps|]. apply lsum_le. intros i. apply b_mono. Qed.

Lemma gap_step k : gap (S k) + 2 * eta * (f (x k) - f z) <= (1 + (width (S k) - width k)) * gap k + eta * eta * gain k.
Proof.
  pose proof (first_order f df Cf Gf (x k) z) as F. rewrite fin_inner in F.
  assert (E : gap (S k) = lsum l (fun i => b (S k) i * ((x k i - z i) * (x k i - z i))) + 2 * eta * lsum l (fun i => g k i * (z i - x k i)) + eta * eta * gain k).
  { unfold gap, gain. rewrite <- !lsum_scal, <- !lsum_plus. apply lsum_ext. intros i. rewrite XS. fold (g k i). fold (b (S k) i).
    pose proof (b_pos (S k) i). field. lra. }
  assert (F' : lsum l (fun i => g k i * (z i - x k i)) <= f z - f (x k)).
  { rewrite (lsum_ext l _ (fun i => df (x k) i * (vsub (z : H) (x k)) i)); [lra|]. intros i. unfold g. cbn. ring. }
  assert (D : lsum l (fun i => b (S k) i * ((x k i - z i) * (x k i - z i))) <= gap k + (width (S k) - width k) * gap k).
  { replace ((width (S k) - width k) * gap k) with (lsum l (fun i => gap k / eps * (b (S k) i - b k i))) by (rewrite lsum_scal, lsum_minus; unfold width; field; lra).
    unfold gap at 1. rewrite <- lsum_plus. apply lsum_le. intros i. pose proof (b_mono k i) as M.
    assert (O : eps * ((x k i - z i) * (x k i - z i)) <= gap k).
    { apply Rle_trans with (b k i * ((x k i - z i) * (x k i - z i))).
      - apply Rmult_le_compat_r; [apply Rle_0_sqr|apply b_pos].
      - apply (lsum_one l (fun i => b k i * ((x k i - z i) * (x k i - z i))) i (complete i)). intros j. pose proof (b_pos k j). apply Rmult_le_pos; [lra|apply Rle_0_sqr]. }
    assert (O' : (x k i - z i) * (x k i - z i) <= gap k / eps).
    { apply Rmult_le_reg_l with eps; [exact Heps|]. replace (eps * (gap k / eps)) with (gap k) by (field; lra). exact O. }
    set (w := (x k i - z i) * (x k i - z i)) in *. set (G := gap k / eps) in *. nra. }
  apply (Rmult_le_compat_l (2 * eta)) in F'; [|lra]. lra.
Qed.

Definition gap_bound : R := (gap 0 + eta * eta * (2 * budget)) * exp (INR (length l) * (root_bound + eps) / eps).
Lemma width_bounded k : width k <= INR (length l) * (root_bound + eps) / eps.
Proof.
  unfold width. apply Rmult_le_compat_r; [left; apply Rinv_0_lt_compat, Heps|]. rewrite <- lsum_const. apply lsum_le.
  intros i. unfold b. pose proof (roots_bounded k i). lra.
Qed.
Lemma width_pos k : 0 <= width k.
Proof. unfold width. apply Rmult_le_pos; [|left; apply Rinv_0_lt_compat, Heps]. apply lsum_pos. intros i. pose proof (b_pos k i). lra. Qed.

Lemma gap_bounded k : gap k <= gap_bound.
Proof.
  assert (Q : gap k <= (gap 0 + eta * eta * sum_below k gain) * exp (width k)).
  { induction k as [|k IH].
    - cbn [sum_below]. pose proof (gap_pos 0). pose proof (width_pos 0). pose proof (exp_ineq1_le (width 0)). nra.
    - pose proof (gap_step k) as St. pose proof (Hz (x k)) as O. cbn [sum_below].
      pose proof (width_mono k) as M. pose proof (exp_ineq1_le (width (S k) - width k)) as X.
      replace (exp (width (S k))) with (exp (width k) * exp (width (S k) - width k)) by (rewrite <- exp_plus; f_equal; ring).
      set (d := width (S k) - width k) in *. set (A := gap 0 + eta * eta * sum_below k gain) in *.
      assert (W1 : 1 <= exp (width k)) by (pose proof (exp_ineq1_le (width k)); pose proof (width_pos k); lra).
      assert (d0 : 0 <= d) by (unfold d; lra).
      replace (gap 0 + eta * eta * (sum_below k gain + gain k)) with (A + eta * eta * gain k) by (unfold A; ring).
      set (G := eta * eta * gain k) in *. assert (G0 : 0 <= G) by (unfold G; pose proof (gain_pos k); nra).
      assert (gap (S k) <= (1 + d) * gap k + G) by nra. pose proof (gap_pos k) as P.
      assert (Q1 : (1 + d) * gap k <= exp d * (A * exp (width k))) by (apply Rmult_le_compat; lra).
      assert (Q2 : G * 1 <= G * (exp (width k) * exp d)) by (apply Rmult_le_compat_l; [exact G0|]; nra).
      nra. }
  apply Rle_trans with (1 := Q). unfold gap_bound.
  assert (G2 : sum_below k gain <= 2 * budget) by (pose proof (gains_bounded k); lra).
  pose proof (gains_pos k) as G0.
  pose proof (gap_pos 0). assert (0 <= eta * eta) by nra.
  apply Rmult_le_compat; [nra|left; apply exp_pos|nra|].
  destruct (Rle_lt_or_eq_dec _ _ (width_bounded k)) as [W|W]; [left; apply exp_increasing, W|right; rewrite W; reflexivity].
Qed.

Definition energy (k : nat) : R := gap_bound * width k + eta * eta * sum_below k gain.
Definition energy_bound : R := gap_bound * (INR (length l) * (root_bound + eps) / eps) + eta * eta * (2 * budget).
Lemma gap_bound_pos : 0 <= gap_bound.
Proof. pose proof (gap_bounded 0). pose proof (gap_pos 0). lra. Qed.
Lemma energy_growing k : energy k <= energy (S k).
Proof.
  unfold energy. cbn [sum_below]. pose proof (Rmult_le_compat_l _ _ _ gap_bound_pos (width_mono k)). pose proof (gain_pos k). nra.
Qed.
Lemma energy_bounded k : 0 <= energy k <= energy_bound.
Proof.
  pose proof gap_bound_pos as P. pose proof (width_pos k). pose proof (width_bounded k) as W. pose proof (gains_bounded k).
  pose proof (gains_pos k) as G0.
  assert (0 <= eta * eta) by nra. unfold energy, energy_bound. split; [nra|]. apply Rplus_le_compat; apply Rmult_le_compat_l; lra.
Qed.
Lemma energy_step k : gap (S k) + 2 * eta * (f (x k) - f z) <= gap k + (energy (S k) - energy k).
Proof.
  pose proof (gap_step k) as G. pose proof (gap_bounded k) as B. pose proof (width_mono k) as M. unfold energy. cbn [sum_below].
  assert ((width (S k) - width k) * gap k <= (width (S k) - width k) * gap_bound) by (apply Rmult_le_compat_l; lra). lra.
Qed.
Lemma values_summable n : 2 * eta * sum_below n (fun k => f (x k) - f z) <= gap 0 + energy_bound.
Proof.
  assert (Q : gap n + 2 * eta * sum_below n (fun k => f (x k) - f z) <= gap 0 + (energy n - energy 0)).
  { induction n as [|n IH]; [cbn; lra|]. cbn [sum_below]. pose proof (energy_step n). lra. }
  pose proof (gap_pos n). pose proof (energy_bounded n). pose proof (energy_bounded 0). lra.
Qed.
Lemma values_vanish d : 0 < d -> exists N, forall n, (N <= n)%nat -> f (x n) - f z < d.
Proof.
  apply (residual_vanishes (fun k => gap k + (energy_bound - energy k)) (fun k => f (x k) - f z) (2 * eta) ltac:(lra)).
  - intros n. pose proof (gap_pos n). pose proof (energy_bounded n). lra.
  - intros n. specialize (Hz (x n)). lra.
  - intros n. pose proof (energy_step n). lra.
Qed.
Lemma later_gap n k : gap (n + k) <= gap n + (energy (n + k) - energy n).
Proof.
  induction k as [|k IH]; [rewrite Nat.add_0_r; lra|]. rewrite Nat.add_succ_r. pose proof (energy_step (n + k)) as Q. pose proof (Hz (x (n + k)%nat)).
  assert (0 <= 2 * eta * (f (x (n + k)%nat) - f z)) by (apply Rmult_le_pos; lra). lra.
Qed.
Lemma energy_settles e : 0 < e -> exists N, forall n k, (N <= n)%nat -> energy (n + k) - energy n < e.
Proof.
  intros He. assert (B : has_ub energy) by (exists energy_bound; intros y (n & ->); apply energy_bounded).
  destruct (growing_cv energy energy_growing B) as (e0 & Cv). destruct (Cv e He) as (N & Q). exists N. intros n k Hn.
  pose proof (growing_ineq energy e0 energy_growing Cv (n + k)). specialize (Q n Hn). unfold R_dist in Q.
  apply Rabs_def2 in Q. lra.
Qed.
Lemma gap_nsq k : eps * nsq (H := H) (vsub (x k : H) (z : H)) <= gap k <= (root_bound + eps) * nsq (H := H) (vsub (x k : H) (z : H)).
Proof.
  unfold nsq. rewrite fin_inner, <- !lsum_scal. unfold gap.
  split; apply lsum_le; intros i; replace ((vsub (x k : H) (z : H)) i) with (x k i - z i) by (cbn; ring);
  (apply Rmult_le_compat_r; [apply Rle_0_sqr|]); [apply b_pos|unfold b; pose proof (roots_bounded k i); lra].
Qed.
(** A minimiser that a subsequence tends to is the limit of the whole sequence. *)
Lemma cluster_is_limit psi : increasing_idx psi -> converges (H := H) (fun n => x (psi n)) z -> converges (H := H) x z.
Proof.
  intros Ps Cv. apply converges_sq. intros e He. destruct (energy_settles (eps * e / 2) ltac:(nra)) as (N & QN).
  assert (Rb : 0 < root_bound + eps) by (unfold root_bound; pose proof budget_pos; lra).
  destruct (proj1 (converges_sq _ _) Cv (eps * e / (2 * (root_bound + eps)))) as (M & QM).
  { apply Rmult_lt_0_compat; [nra|apply Rinv_0_lt_compat; lra]. }
  set (n := psi (Nat.max N M)). pose proof (idx_ge psi Ps (Nat.max N M)) as In. exists n. intros k Hk.
  specialize (QM (Nat.max N M) ltac:(lia)). fold n in QM. specialize (QN n (k - n)%nat ltac:(unfold n; lia)).
  pose proof (later_gap n (k - n)) as La. replace (n + (k - n))%nat with k in * by lia.
  destruct (gap_nsq n) as [_ U]. destruct (gap_nsq k) as [V _].
  apply (Rmult_lt_compat_l (root_bound + eps)) in QM; [|exact Rb].
  replace ((root_bound + eps) * (eps * e / (2 * (root_bound + eps)))) with (eps * e / 2) in QM by (field; lra).
  apply Rmult_lt_reg_l with eps; [exact Heps|]. lra.
Qed.
End Target.

(** * In finite dimension *)
Hypothesis FD : finite_dimensional H.
Lemma estimates_converge z0 : (forall y, f z0 <= f y) -> exists z, (forall y, f z <= f y) /\ converges (H := H) x z.
Proof.
  intros Hz0. destruct (bounded_subsequence (H := H) FD x (norm (H := H) z0 + sqrt (gap_bound z0 / eps))) as (psi & z & Ps & Cv).
  { intros n. replace (x n) with (vadd (i := H) z0 (vsub (x n : H) z0)) by (extensionality i; cbn; ring).
    apply Rle_trans with (1 := norm_triangle _ _). apply Rplus_le_compat_l. unfold norm. apply sqrt_le_1_alt.
    apply Rmult_le_reg_l with eps; [exact Heps|]. replace (eps * (gap_bound z0 / eps)) with (gap_bound z0) by (field; lra).
    apply Rle_trans with (gap z0 n); [apply gap_nsq|apply gap_bounded, Hz0]. }
  assert (D0 : df z = vzero).
  { apply (converges_unique (H := H) (fun n => df (x (psi n)))).
    - apply (lipschitz_continuous L df Lf (fun n => x (psi n)) z Cv).
    - apply (converges_sub (H := H) (fun n => df (x n)) vzero psi Ps). apply vanishing. exact gradient_vanishes. }
  assert (Hz : forall y, f z <= f y).
  { intros y. pose proof (first_order f df Cf Gf z y) as F. rewrite D0, inner_0_l in F. lra. }
  exists z. split; [exact Hz|]. exact (cluster_is_limit z Hz psi Ps Cv).
Qed.
End Ada.

(** The arrays over a finite index set are a finite-dimensional space. *)
Section Dim.
Variables (I : Type) (eq_dec : forall i j : I, {i = j} + {i <> j}) (l : list I) (complete : forall i, In i l).
Notation H := (fin_ips I l complete).
Definition unit_at (i : I) : I -> R := fun j => if eq_dec i j then 1 else 0.
Lemma sum_at (m : list I) (v : I -> R) j : NoDup m -> lsum m (fun i => v i * unit_at i j) = if in_dec eq_dec j m then v j else 0.
Proof.
  induction m as [|a m IH]; intros ND; [reflexivity|]. inversion ND as [|? ? Na Nm]. subst. rewrite lsum_cons, IH by exact Nm.
  unfold unit_at at 1. destruct (eq_dec a j) as [->|Ne].
  - destruct (in_dec eq_dec j m) as [Hj|Hj]; [contradiction|]. destruct (in_dec eq_dec j (j :: m)) as [|Q]; [ring|]. destruct Q. left. reflexivity.
  - destruct (in_dec eq_dec j m) as [Hj|Hj]; destruct (in_dec eq_dec j (a :: m)) as [Q|Q]; try ring.
    + destruct Q. right. exact Hj.
    + destruct Q as [Q|Q]; contradiction.
Qed.
Lemma fd_fin : NoDup l -> finite_dimensional H.
Proof.
  intros ND. exists (map unit_at l). intros v. extensionality j.
  assert (G : forall m, weighted_sum (H := H) (map (fun e => inner (i := H) v e) (map unit_at m)) (map unit_at m) j = lsum m (fun i => v i * unit_at i j)).
  { induction m as [|a m IH]; [reflexivity|]. cbn [map weighted_sum]. rewrite lsum_cons, <- IH.
    assert (E : inner (i := H) v (unit_at a) = v a).
    { rewrite fin_inner, (lsum_ext l _ (fun i => v i * unit_at i a)); [rewrite sum_at by exact ND; destruct (in_dec eq_dec a l) as [|Q]; [reflexivity|destruct (Q (complete a))]|].
      intros i. unfold unit_at. destruct (eq_dec a i) as [Q|Q], (eq_dec i a) as [Q'|Q']; congruence. }
    rewrite E. reflexivity. }
  rewrite G, sum_at by exact ND. destruct (in_dec eq_dec j l) as [|Q]; [reflexivity|destruct (Q (complete j))].
Qed.
End Dim.

(** * The Huber function, on one entry *)
Section Huber.
Variable d : R.
Hypothesis Hd : 0 < d.
Definition clipped (t : R) : R := if Rlt_dec d t then d else if Rlt_dec t (- d) then - d else t.
(** t^2 for |t| <= d, linear beyond. *)
Definition huber (t : R) : R := 2 * t * clipped t - clipped t * clipped t.
Lemma clipped_in t : - d <= clipped t <= d.
Proof. unfold clipped. destruct (Rlt_dec d t); [lra|]. destruct (Rlt_dec t (- d)); lra. Qed.
Lemma huber_max t c : - d <= c <= d -> 2 * t * c - c * c <= huber t.
Proof.
  intros Hc. unfold huber, clipped. destruct (Rlt_dec d t); [|destruct (Rlt_dec t (- d))].
  - assert (0 <= (d - c) * (2 * t - c - d)) by (apply Rmult_le_pos; lra). lra.
  - assert (0 <= (c + d) * (- (2 * t) + c - d)) by (apply Rmult_le_pos; lra). lra.
  - pose proof (Rle_0_sqr (t - c)) as Q. unfold Rsqr in Q. lra.
Qed.
Lemma huber_below x y : huber x + 2 * clipped x * (y - x) <= huber y.
Proof. pose proof (huber_max y (clipped x) (clipped_in x)). unfold huber at 1. nra. Qed.
Lemma clipped_lip x y : Rabs (clipped x - clipped y) <= Rabs (x - y).
Proof.
  unfold clipped. destruct (Rlt_dec d x); destruct (Rlt_dec d y); try destruct (Rlt_dec x (- d)); try destruct (Rlt_dec y (- d));
  unfold Rabs; repeat destruct (Rcase_abs _); lra.
Qed.
Lemma huber_above x y : huber y <= huber x + 2 * clipped x * (y - x) + 2 * ((y - x) * (y - x)).
Proof.
  pose proof (huber_below y x) as Q. pose proof (clipped_lip y x) as C.
  assert (E : (clipped y - clipped x) * (y - x) <= (y - x) * (y - x)).
  { apply Rle_trans with (1 := Rle_abs _). rewrite Rabs_mult, <- (Rabs_right ((y - x) * (y - x))) by (apply Rle_ge, Rle_0_sqr).
    rewrite Rabs_mult. apply Rmult_le_compat_r; [apply Rabs_pos|exact C]. }
  nra.
Qed.
Lemma huber_0 : huber 0 = 0.
Proof. unfold huber, clipped. destruct (Rlt_dec d 0); [lra|]. destruct (Rlt_dec 0 (- d)); lra. Qed.
Lemma huber_pos t : 0 <= huber t /\ (huber t <= 0 -> t = 0).
Proof.
  pose proof (huber_max t 0 ltac:(lra)). split; [lra|]. unfold huber, clipped. destruct (Rlt_dec d t); [nra|]. destruct (Rlt_dec t (- d)); nra.
Qed.
End Huber.

Lemma quadratic_deriv (F : R -> R) a v C : 0 <= C -> (forall t, Rabs (F (a + t) - F a - v * t) <= C * (t * t)) -> derivable_pt_lim F a v.
Proof.
  intros HC Q e He. assert (P : 0 < e / (C + 1)) by (apply Rmult_lt_0_compat; [exact He|apply Rinv_0_lt_compat; lra]).
  exists (mkposreal _ P). intros t Ht Hl. cbn in Hl.
  replace ((F (a + t) - F a) / t - v) with ((F (a + t) - F a - v * t) / t) by (field; exact Ht).
  unfold Rdiv. rewrite Rabs_mult, Rabs_inv. pose proof (Rabs_pos_lt t Ht) as Pt.
  apply Rmult_lt_reg_r with (Rabs t); [exact Pt|]. rewrite Rmult_assoc, Rinv_l, Rmult_1_r by lra.
  apply Rle_lt_trans with (1 := Q t). replace (t * t) with (Rabs t * Rabs t) by (rewrite <- Rabs_mult; apply Rabs_right, Rle_ge, Rle_0_sqr).
  assert ((C + 1) * Rabs t < e).
  { apply (Rmult_lt_compat_l (C + 1)) in Hl; [|lra]. replace ((C + 1) * (e / (C + 1))) with e in Hl by (field; lra). exact Hl. }
  nra.
Qed.

(** Arrays with one entry. *)
Definition unit_complete : forall i : unit, In i [tt] := fun i => match i with tt => or_introl eq_refl end.
Definition U : ips := fin_ips unit [tt] unit_complete.
Lemma U_inner (u v : U) : inner u v = u tt * v tt. Proof. cbn. unfold rsum. cbn. ring. Qed.
Lemma U_norm (u : U) : norm u = Rabs (u tt).
Proof. unfold norm. rewrite U_inner. apply sqrt_Rsqr_abs. Qed.

(** A function of one number with a quadratic upper and a linear lower bound at every point. *)
Lemma smooth_unit (h h' : R -> R) L C : 0 <= C -> (forall x y, h x + h' x * (y - x) <= h y <= h x + h' x * (y - x) + C * ((y - x) * (y - x))) ->
  (forall x y, Rabs (h' x - h' y) <= L * Rabs (x - y)) -> smooth_convex (H := U) L (fun u => h (u tt)) (fun u => fun _ => h' (u tt)).
Proof.
  intros HC B Lp. split; [|split].
  - intros x y t _ _ Ht. split; [exact I|].
    assert (G : forall a b, h ((1 - t) * a + t * b) <= (1 - t) * h a + t * h b).
    { intros a b. set (z := (1 - t) * a + t * b). destruct (B z a) as [Qa _]. destruct (B z b) as [Qb _].
      apply (Rmult_le_compat_l (1 - t)) in Qa; [|lra]. apply (Rmult_le_compat_l t) in Qb; [|lra].
      apply Rle_trans with ((1 - t) * (h z + h' z * (a - z)) + t * (h z + h' z * (b - z))); [|lra]. right. unfold z at 4 6. ring_simplify. unfold z. ring. }
    apply G.
  - intros x v. rewrite U_inner. apply quadratic_deriv with (C * (v tt * v tt)); [apply Rmult_le_pos; [exact HC|apply Rle_0_sqr]|].
    assert (G : forall a w t, Rabs (h (a + (0 + t) * w) - h (a + 0 * w) - h' a * w * t) <= C * (w * w) * (t * t)).
    { intros a w t. replace (a + 0 * w) with a by ring. destruct (B a (a + (0 + t) * w)) as [Q1 Q2].
      replace (a + (0 + t) * w - a) with (t * w) in * by ring. apply Rabs_le. nra. }
    intros t. apply G.
  - intros x y. rewrite !U_norm. assert (E : forall u v : U, (vsub u v) tt = u tt - v tt) by (intros; cbn; ring). rewrite !E. apply Lp.
Qed.

Lemma smooth_huber d c : 0 < d -> 0 <= c -> smooth_convex (H := U) c (fun u => c / 2 * huber d (u tt)) (fun u => fun _ => c * clipped d (u tt)).
Proof.
  intros Hd Hc. apply (smooth_unit (fun t => c / 2 * huber d t) (fun t => c * clipped d t) c c Hc).
  - intros x y. pose proof (huber_below d Hd x y) as Q1. pose proof (huber_above d Hd x y) as Q2.
    apply (Rmult_le_compat_l (c / 2)) in Q1; [|lra]. apply (Rmult_le_compat_l (c / 2)) in Q2; [|lra]. split; lra.
  - intros x y. replace (c * clipped d x - c * clipped d y) with (c * (clipped d x - clipped d y)) by ring.
    rewrite Rabs_mult, (Rabs_right c) by lra. apply Rmult_le_compat_l; [exact Hc|apply clipped_lip, Hd].
Qed.

(** * RMSprop on the Huber function *)
Section Rms.
Variables (eta eps : R).
Hypothesis Heta : 0 < eta.
Hypothesis Heps : 0 < eps.
Let d := eta / 8.
Let M := 1000 * eps.
Let c := M / d.
Variables (x s : nat -> R).
Hypothesis X0 : x 0%nat = 5 / 8 * eta.
Hypothesis S0 : s 0%nat = 0.
Hypothesis SS : forall k, s (S k) = / 2 * s k + / 2 * (c * clipped d (x k)) ^ 2.
Hypothesis XS : forall k, x (S k) = x k - eta / (sqrt (s (S k)) + eps) * (c * clipped d (x k)).
Definition pull (k : nat) : R := eta / (sqrt (1 - (/ 2) ^ (S k)) + / 1000).

Lemma half_pow k : 0 < (/ 2) ^ S k <= / 2.
Proof. induction k as [|k IH]; [cbn; lra|]. change ((/ 2) ^ S (S k)) with (/ 2 * (/ 2) ^ S k). lra. Qed.
Lemma pull_decr k : pull (S k) <= pull k.
Proof.
  unfold pull. apply Rmult_le_compat_l; [lra|]. pose proof (sqrt_pos (1 - (/ 2) ^ S k)). apply Rinv_le_contravar; [lra|].
  apply Rplus_le_compat_r, sqrt_le_1_alt. change ((/ 2) ^ S (S k)) with (/ 2 * (/ 2) ^ S k). pose proof (half_pow k). lra.
Qed.
Lemma pull_in k : 0.998 * eta <= pull k <= 1.43 * eta.
Proof.
  unfold pull. pose proof (half_pow k) as P.
  assert (S1 : sqrt (1 - (/ 2) ^ S k) <= 1) by (rewrite <- sqrt_1 at 2; apply sqrt_le_1_alt; lra).
  assert (S2 : 0.7 <= sqrt (1 - (/ 2) ^ S k)).
  { replace 0.7 with (sqrt (0.7 * 0.7)) by (apply sqrt_square; lra). apply sqrt_le_1_alt. lra. }
  set (r := sqrt (1 - (/ 2) ^ S k)) in *. unfold Rdiv.
  split; (apply Rmult_le_reg_r with (r + / 1000); [lra|]); rewrite (Rmult_assoc eta), Rinv_l by lra; nra.
Qed.

Lemma step_from k v : s k = (1 - (/ 2) ^ k) * (M * M) -> (v = 1 \/ v = -1) -> c * clipped d (x k) = v * M ->
  s (S k) = (1 - (/ 2) ^ S k) * (M * M) /\ x (S k) = x k - v * pull k.
Proof.
  intros E V G. assert (V2 : v * v = 1) by (destruct V as [-> | ->]; ring).
  assert (E' : s (S k) = (1 - (/ 2) ^ S k) * (M * M)).
  { rewrite SS, G, E. replace ((v * M) ^ 2) with (v * v * (M * M)) by ring. rewrite V2. change ((/ 2) ^ S k) with (/ 2 * (/ 2) ^ k). field. }
  split; [exact E'|]. rewrite XS, G, E'. pose proof (half_pow k). rewrite sqrt_mult by (unfold M; nra). rewrite sqrt_square by (unfold M; lra).
  unfold pull. pose proof (sqrt_pos (1 - (/ 2) ^ S k)). unfold M. field. split; [lra|]. nra.
Qed.
Lemma gradient_right k : eta / 8 <= x k -> c * clipped d (x k) = 1 * M.
Proof.
  intros Q. assert (E : clipped d (x k) = d) by (unfold clipped, d; destruct (Rlt_dec (eta / 8) (x k)); [lra|]; destruct (Rlt_dec (x k) (- (eta / 8))); lra).
  rewrite E. unfold c, d. field. lra.
Qed.
Lemma gradient_left k : x k <= - (eta / 8) -> c * clipped d (x k) = -1 * M.
Proof.
  intros Q. assert (E : clipped d (x k) = - d) by (unfold clipped, d; destruct (Rlt_dec (eta / 8) (x k)); [lra|]; destruct (Rlt_dec (x k) (- (eta / 8))); lra).
  rewrite E. unfold c, d. field. lra.
Qed.
Lemma bounces j : s (2 * j) = (1 - (/ 2) ^ (2 * j)) * (M * M) /\ 5 / 8 * eta - (pull 0 - pull (2 * j)) <= x (2 * j)%nat <= 5 / 8 * eta /\
  eta / 8 <= x (2 * j)%nat /\ x (S (2 * j)) <= - (eta / 8).
Proof.
  assert (Odd : forall j, s (2 * j) = (1 - (/ 2) ^ (2 * j)) * (M * M) -> 5 / 8 * eta - (pull 0 - pull (2 * j)) <= x (2 * j)%nat <= 5 / 8 * eta ->
    eta / 8 <= x (2 * j)%nat /\ x (S (2 * j)) = x (2 * j)%nat - pull (2 * j) /\ x (S (2 * j)) <= - (eta / 8) /\ s (S (2 * j)) = (1 - (/ 2) ^ S (2 * j)) * (M * M)).
  { intros k Es B. pose proof (pull_in (2 * k)) as P. pose proof (pull_in 0) as P0.
    assert (L : eta / 8 <= x (2 * k)%nat) by lra. destruct (step_from (2 * k) 1 Es (or_introl eq_refl) (gradient_right _ L)) as [E1 E2].
    split; [exact L|]. split; [lra|]. split; [lra|exact E1]. }
  induction j as [|j (Es & B & _)].
  - assert (Es : s (2 * 0) = (1 - (/ 2) ^ (2 * 0)) * (M * M)) by (cbn; rewrite S0; ring).
    assert (B : 5 / 8 * eta - (pull 0 - pull (2 * 0)) <= x (2 * 0)%nat <= 5 / 8 * eta) by (change (2 * 0)%nat with 0%nat; rewrite X0; lra).
    destruct (Odd 0%nat Es B) as (Q1 & _ & Q2 & _). repeat split; try assumption; lra.
  - destruct (Odd j Es B) as (L & E2 & Lo & E1). destruct (step_from (S (2 * j)) (-1) E1 (or_intror eq_refl) (gradient_left _ Lo)) as [E3 E4].
    pose proof (pull_decr (2 * j)). pose proof (pull_decr (S (2 * j))).
    assert (N : (2 * S j = S (S (2 * j)))%nat) by lia.
    assert (Es' : s (2 * S j) = (1 - (/ 2) ^ (2 * S j)) * (M * M)) by (rewrite N; exact E3).
    assert (B' : 5 / 8 * eta - (pull 0 - pull (2 * S j)) <= x (2 * S j)%nat <= 5 / 8 * eta) by (rewrite N; lra).
    destruct (Odd (S j) Es' B') as (Q1 & _ & Q2 & _). repeat split; try assumption; lra.
Qed.
Lemma stays_away k : eta / 8 <= Rabs (x k).
Proof.
  destruct (Nat.Even_or_Odd k) as [(j & ->)|(j & ->)]; destruct (bounces j) as (_ & _ & A & B).
  - pose proof (Rle_abs (x (2 * j)%nat)). lra.
  - replace (2 * j + 1)%nat with (S (2 * j)) by lia. rewrite Rabs_left1 by lra. lra.
Qed.
End Rms.
