(** Lemmas for C143: the gradient descent classes on complex arrays. *)
From Verif Require Import NPReal Py IPS Model_SetUp Spec_Opt Proof_Smooth Spec_Lim Proof_Lim Proof_Iter Spec_GD Model_GD Proof_Ada Spec_GDC Model_GDC.
From Coq Require Import List Lia FunctionalExtensionality.
Import ListNotations.
Local Open Scope R_scope.

Lemma norm_sq' {E : ips} (x : E) : norm x * norm x = nsq x.
Proof. unfold norm. apply sqrt_sqrt. apply inner_pos. Qed.
Lemma add_sub {E : ips} (x z : E) : x = (z + vsub x z)%v. Proof. vring. Qed.
Lemma gap_entry {E : ips} (b eta : R) (x z g : E) : 0 < b ->
  b * nsq (vsub (vsub x ((eta / b)%R * g)%v) z) = b * nsq (vsub x z) + 2 * eta * inner g (vsub z x) + eta * eta * (nsq g / b).
Proof.
  intros Hb. replace (vsub (vsub x ((eta / b)%R * g)%v) z) with (vsub x z + (- (eta / b))%R * g)%v by (vring).
  replace (vsub z x) with ((- (1))%R * vsub x z)%v by vring. generalize (vsub x z) as w. intros w.
  unfold nsq. rewrite inner_add_l, !inner_add_r, !inner_scal_l, !inner_scal_r, (inner_sym E w g), ?inner_scal_l. field. lra.
Qed.

(** * AdaGrad on smooth problems, as in Proof_Ada *)
Section Ada.
Variables (F0 : ips) (I : Type) (l : list I) (complete : forall i, In i l).
Notation H := (entries_ips F0 I l complete).
Variables (f : H -> R) (df : H -> H) (L eta eps : R).
Hypothesis HL : 0 <= L.
Hypothesis Gf : is_gradient f df.
Hypothesis Lf : lipschitz L df.
Hypothesis Heta : 0 < eta.
Hypothesis Heps : 0 < eps.
Variables (x : nat -> I -> F0) (s : nat -> I -> R).
Hypothesis S0 : forall i, s 0%nat i = 0.
Hypothesis SS : forall k i, s (S k) i = s k i + nsq (df (x k) i).
Hypothesis XS : forall k i, x (S k) i = vsub (x k i) ((eta / (sqrt (s (S k) i) + eps))%R * df (x k) i)%v.
Let g (k : nat) (i : I) : F0 := df (x k) i.
Let b (k : nat) (i : I) : R := sqrt (s k i) + eps.

Lemma fin_inner (u v : H) : inner u v = lsum l (fun i => inner (u i) (v i)). Proof. reflexivity. Qed.
Lemma s_pos k i : 0 <= s k i.
Proof. induction k as [|k IH]; [rewrite S0; lra|]. rewrite SS. pose proof (inner_pos F0 (df (x k) i)) as Q. fold (nsq (df (x k) i)) in Q. lra. Qed.
Lemma s_mono k i : s k i <= s (S k) i.
Proof. rewrite SS. pose proof (inner_pos F0 (df (x k) i)) as Q. fold (nsq (df (x k) i)) in Q. lra. Qed.
Lemma b_pos k i : eps <= b k i. Proof. unfold b. pose proof (sqrt_pos (s k i)). lra. Qed.
Lemma b_mono k i : b k i <= b (S k) i.
Proof. unfold b. apply Rplus_le_compat_r, sqrt_le_1_alt, s_mono. Qed.

(** The squared gradients divided by the square roots of the speed. *)
Definition gain (k : nat) : R := lsum l (fun i => nsq (g k i) / b (S k) i).
Lemma gain_pos k : 0 <= gain k.
Proof. apply lsum_pos. intros i. apply Rmult_le_pos; [apply inner_pos|]. left. apply Rinv_0_lt_compat. pose proof (b_pos (S k) i). lra. Qed.

Lemma gains_pos k : 0 <= sum_below k gain.
Proof. induction k as [|k IH]; cbn; [lra|]. pose proof (gain_pos k). lra. Qed.

Lemma one_update k : f (x (S k)) <= f (x k) - eta * lsum l (fun i => nsq (g k i) / b (S k) i - L * eta / 2 * (nsq (g k i) / (b (S k) i * b (S k) i))).
Proof.
  set (d := fun i => ((- (eta / b (S k) i))%R * g k i)%v).
  pose proof (descent f df L Gf Lf (x k) (x (S k))) as Q.
  replace (vsub (x (S k) : H) (x k : H)) with (d : H) in Q by (extensionality i; change (d i = vsub (x (S k) i) (x k i)); rewrite XS; unfold d, g, b; generalize (df (x k) i) (x k i) (eta / (sqrt (s (S k) i) + eps)); intros; vring).
  unfold nsq at 1 in Q. rewrite !fin_inner in Q.
  apply Rle_trans with (1 := Q). right.
  rewrite lsum_minus, lsum_scal.
  replace (lsum l (fun i => inner (df (x k) i) (d i))) with (- eta * lsum l (fun i => nsq (g k i) / b (S k) i)).
  - replace (lsum l (fun i => inner (d i) (d i))) with (eta * eta * lsum l (fun i => nsq (g k i) / (b (S k) i * b (S k) i))); [field|].
    rewrite <- lsum_scal. apply lsum_ext. intros i. unfold d. pose proof (b_pos (S k) i). rewrite inner_scal_l, inner_scal_r. unfold nsq. field. lra.
  - rewrite <- lsum_scal. apply lsum_ext. intros i. unfold d, g. pose proof (b_pos (S k) i). rewrite inner_scal_r. unfold nsq. field. lra.
Qed.

Let c := L * eta.
Let q := c / (2 * (eps * eps)).
Definition phi (k : nat) : R := f (x k) / eta - q * lsum l (fun i => Rmin (s k i) (c * c)).

Lemma phi_step k : phi (S k) + / 2 * gain k <= phi k.
Proof.
  pose proof (one_update k) as Q.
  assert (E : lsum l (fun i => / 2 * (nsq (g k i) / b (S k) i) - q * (Rmin (s (S k) i) (c * c) - Rmin (s k i) (c * c)))
    <= lsum l (fun i => nsq (g k i) / b (S k) i - L * eta / 2 * (nsq (g k i) / (b (S k) i * b (S k) i)))).
  { apply lsum_le. intros i. pose proof (entry_gain c eps (norm (g k i)) (s k i) ltac:(unfold c; nra) Heps (s_pos k i)) as G. cbv zeta in G. rewrite !norm_sq' in G.
    unfold b. rewrite SS. fold (g k i). fold c. exact G. }
  rewrite lsum_minus, !lsum_scal, lsum_minus in E. fold (gain k) in E.
  set (P := lsum l (fun i => nsq (g k i) / b (S k) i - L * eta / 2 * (nsq (g k i) / (b (S k) i * b (S k) i)))) in *.
  unfold phi. assert (E2 : f (x (S k)) / eta <= f (x k) / eta - P).
  { apply Rmult_le_reg_l with eta; [exact Heta|]. replace (eta * (f (x (S k)) / eta)) with (f (x (S k))) by (field; lra).
    replace (eta * (f (x k) / eta - P)) with (f (x k) - eta * P) by (field; lra). exact Q. }
  rewrite Rmult_minus_distr_l in E. lra.
Qed.

Variable m : R.
Hypothesis Hm : forall y, m <= f y.
(** A bound on everything that happens. *)
Definition budget : R := (f (x 0%nat) - m) / eta + INR (length l) * (c * c * c / (2 * (eps * eps))).
Lemma q_pos : 0 <= q.
Proof. unfold q, c. apply Rmult_le_pos; [nra|left; apply Rinv_0_lt_compat; nra]. Qed.

Lemma gains_bounded n : / 2 * sum_below n gain <= budget.
Proof.
  assert (G : phi n + / 2 * sum_below n gain <= phi 0%nat).
  { induction n as [|n IH]; [cbn; lra|]. cbn [sum_below]. pose proof (phi_step n). lra. }
  assert (P0 : phi 0%nat = f (x 0%nat) / eta).
  { unfold phi. rewrite (lsum_ext l _ (fun _ => 0)); [rewrite lsum_const; ring|]. intros i. rewrite S0. apply Rmin_left. unfold c. nra. }
  assert (Pn : m / eta - INR (length l) * (c * c * c / (2 * (eps * eps))) <= phi n).
  { unfold phi. assert (m / eta <= f (x n) / eta) by (apply Rmult_le_compat_r; [left; apply Rinv_0_lt_compat, Heta|apply Hm]).
    assert (Q : lsum l (fun i => Rmin (s n i) (c * c)) <= INR (length l) * (c * c)).
    { rewrite <- lsum_const. apply lsum_le. intros i. apply Rmin_r. }
    apply (Rmult_le_compat_l q) in Q; [|exact q_pos].
    replace (q * (INR (length l) * (c * c))) with (INR (length l) * (c * c * c / (2 * (eps * eps)))) in Q by (unfold q; field; lra). lra. }
  unfold budget. unfold Rdiv in *. lra.
Qed.

Definition root_bound : R := eps + 4 * budget.
Lemma roots_bounded n i : sqrt (s n i) <= root_bound.
Proof.
  pose proof (gains_bounded n) as G.
  assert (Q : / 2 * lsum l (fun i => Rmax (sqrt (s n i)) eps - eps) <= sum_below n gain).
  { induction n as [|n IH].
    - rewrite (lsum_ext l _ (fun _ => 0)); [rewrite lsum_const; cbn; lra|]. intros j. rewrite S0, sqrt_0. unfold Rmax. destruct (Rle_dec 0 eps); lra.
    - cbn [sum_below]. assert (G' : / 2 * sum_below n gain <= budget) by (apply gains_bounded). specialize (IH G').
      assert (E : lsum l (fun i => / 2 * (Rmax (sqrt (s (S n) i)) eps - Rmax (sqrt (s n i)) eps)) <= gain n).
      { apply lsum_le. intros j. pose proof (entry_growth eps (norm (g n j)) (s n j) Heps (s_pos n j)) as W. rewrite !norm_sq' in W. unfold b. rewrite SS. fold (g n j). exact W. }
      rewrite lsum_scal, lsum_minus in E. rewrite lsum_minus in *. lra. }
  pose proof (lsum_one l (fun i => Rmax (sqrt (s n i)) eps - eps) i (complete i)) as O. cbv beta in O.
  assert (P : forall j, 0 <= Rmax (sqrt (s n j)) eps - eps) by (intros j; pose proof (Rmax_r (sqrt (s n j)) eps); lra).
  specialize (O P). pose proof (Rmax_l (sqrt (s n i)) eps). unfold root_bound. lra.
Qed.
Lemma budget_pos : 0 <= budget.
Proof. pose proof (gains_bounded 0). cbn in H. lra. Qed.
Lemma speed_bounded n i : s n i <= root_bound * root_bound.
Proof.
  rewrite <- (sqrt_sqrt (s n i)) by apply s_pos. pose proof (roots_bounded n i). pose proof (sqrt_pos (s n i)). apply Rmult_le_compat; lra.
Qed.

Lemma speed_sum n i : s n i = sum_below n (fun k => nsq (g k i)).
Proof. induction n as [|n IH]; [apply S0|]. cbn [sum_below]. rewrite SS, IH. reflexivity. Qed.

(** The gradients vanish. *)
Lemma gradient_vanishes e : 0 < e -> exists N, forall n, (N <= n)%nat -> nsq (H := H) (df (x n)) < e.
Proof.
  apply (residual_vanishes (fun k => INR (length l) * (root_bound * root_bound) - lsum l (s k)) (fun k => nsq (H := H) (df (x k))) 1 ltac:(lra)).
  - intros n. rewrite <- lsum_const, <- lsum_minus. apply lsum_pos. intros i. pose proof (speed_bounded n i). lra.
  - intros n. apply inner_pos.
  - intros n. rewrite (lsum_ext l (s (S n)) (fun i => s n i + nsq (g n i))) by (intros i; apply SS). rewrite lsum_plus.
    unfold nsq at 2. rewrite fin_inner. unfold g, nsq. lra.
Qed.

(** * Convex objectives that have a minimiser *)
Hypothesis Cf : convex f.
Section Target.
Variable z : I -> F0.
Hypothesis Hz : forall y, f z <= f y.
Definition gap (k : nat) : R := lsum l (fun i => b k i * nsq (vsub (x k i) (z i))).
Definition width (k : nat) : R := lsum l (b k) / eps.

Lemma gap_pos k : 0 <= gap k.
Proof. apply lsum_pos. intros i. pose proof (b_pos k i). apply Rmult_le_pos; [lra|apply inner_pos]. Qed.
Lemma width_mono k : width k <= width (S k).
Proof. unfold width. apply Rmult_le_compat_r; [left; apply Rinv_0_lt_compat, Heps|]. apply lsum_le. intros i. apply b_mono. Qed.

Lemma gap_step k : gap (S k) + 2 * eta * (f (x k) - f z) <= (1 + (width (S k) - width k)) * gap k + eta * eta * gain k.
Proof.
  pose proof (first_order f df Cf Gf (x k) z) as F. rewrite fin_inner in F.
  assert (E : gap (S k) = lsum l (fun i => b (S k) i * nsq (vsub (x k i) (z i))) + 2 * eta * lsum l (fun i => inner (g k i) (vsub (z i) (x k i))) + eta * eta * gain k).
  { unfold gap, gain. rewrite <- !lsum_scal, <- !lsum_plus. apply lsum_ext. intros i. rewrite XS. fold (g k i). fold (b (S k) i).
    pose proof (b_pos (S k) i) as Pb. apply gap_entry. lra. }
  assert (F' : lsum l (fun i => inner (g k i) (vsub (z i) (x k i))) <= f z - f (x k)).
  { rewrite (lsum_ext l _ (fun i => inner (df (x k) i) ((vsub (z : H) (x k)) i))); [lra|]. intros i. reflexivity. }
  assert (D : lsum l (fun i => b (S k) i * nsq (vsub (x k i) (z i))) <= gap k + (width (S k) - width k) * gap k).
  { replace ((width (S k) - width k) * gap k) with (lsum l (fun i => gap k / eps * (b (S k) i - b k i))) by (rewrite lsum_scal, lsum_minus; unfold width; field; lra).
    unfold gap at 1. rewrite <- lsum_plus. apply lsum_le. intros i. pose proof (b_mono k i) as M.
    assert (O : eps * nsq (vsub (x k i) (z i)) <= gap k).
    { apply Rle_trans with (b k i * nsq (vsub (x k i) (z i))).
      - apply Rmult_le_compat_r; [apply inner_pos|apply b_pos].
      - apply (lsum_one l (fun i => b k i * nsq (vsub (x k i) (z i))) i (complete i)). intros j. pose proof (b_pos k j). apply Rmult_le_pos; [lra|apply inner_pos]. }
    assert (O' : nsq (vsub (x k i) (z i)) <= gap k / eps).
    { apply Rmult_le_reg_l with eps; [exact Heps|]. replace (eps * (gap k / eps)) with (gap k) by (field; lra). exact O. }
    set (w := nsq (vsub (x k i) (z i))) in *. set (G := gap k / eps) in *. nra. }
  apply (Rmult_le_compat_l (2 * eta)) in F'; [|lra]. lra.
Qed.

Definition gap_bound : R := (gap 0 + eta * eta * (2 * budget)) * exp (INR (length l) * (root_bound + eps) / eps).
Lemma width_bounded k : width k <= INR (length l) * (root_bound + eps) / eps.
Proof.
  unfold width. apply Rmult_le_compat_r; [left; apply Rinv_0_lt_compat, Heps|]. rewrite <- lsum_const. apply lsum_le.
  intros i. unfold b. pose proof (roots_bounded k i). lra.
Qed.
Lemma width_pos k : 0 <= width k.
Proof. unfold width. apply Rmult_le_pos; [|left; apply Rinv_0_lt_compat, Heps]. apply lsum_pos. intros i. pose proof (b_pos k i). lra. Qed.

Lemma gap_bounded k : gap k <= gap_bound.
Proof.
  assert (Q : gap k <= (gap 0 + eta * eta * sum_below k gain) * exp (width k)).
  { induction k as [|k IH].
    - cbn [sum_below]. pose proof (gap_pos 0). pose proof (width_pos 0). pose proof (exp_ineq1_le (width 0)). nra.
    - pose proof (gap_step k) as St. pose proof (Hz (x k)) as O. cbn [sum_below].
      pose proof (width_mono k) as M. pose proof (exp_ineq1_le (width (S k) - width k)) as X.
      replace (exp (width (S k))) with (exp (width k) * exp (width (S k) - width k)) by (rewrite <- exp_plus; f_equal; ring).
      set (d := width (S k) - width k) in *. set (A := gap 0 + eta * eta * sum_below k gain) in *.
      assert (W1 : 1 <= exp (width k)) by (pose proof (exp_ineq1_le (width k)); pose proof (width_pos k); lra).
      assert (d0 : 0 <= d) by (unfold d; lra).
      replace (gap 0 + eta * eta * (sum_below k gain + gain k)) with (A + eta * eta * gain k) by (unfold A; ring).
      set (G := eta * eta * gain k) in *. assert (G0 : 0 <= G) by (unfold G; pose proof (gain_pos k); nra).
      assert (gap (S k) <= (1 + d) * gap k + G) by nra. pose proof (gap_pos k) as P.
      assert (Q1 : (1 + d) * gap k <= exp d * (A * exp (width k))) by (apply Rmult_le_compat; lra).
      assert (Q2 : G * 1 <= G * (exp (width k) * exp d)) by (apply Rmult_le_compat_l; [exact G0|]; nra).
      nra. }
  apply Rle_trans with (1 := Q). unfold gap_bound.
  assert (G2 : sum_below k gain <= 2 * budget) by (pose proof (gains_bounded k); lra).
  pose proof (gains_pos k) as G0.
  pose proof (gap_pos 0). assert (0 <= eta * eta) by nra.
  apply Rmult_le_compat; [nra|left; apply exp_pos|nra|].
  destruct (Rle_lt_or_eq_dec _ _ (width_bounded k)) as [W|W]; [left; apply exp_increasing, W|right; rewrite W; reflexivity].
Qed.

Definition energy (k : nat) : R := gap_bound * width k + eta * eta * sum_below k gain.
Definition energy_bound : R := gap_bound * (INR (length l) * (root_bound + eps) / eps) + eta * eta * (2 * budget).
Lemma gap_bound_pos : 0 <= gap_bound.
Proof. pose proof (gap_bounded 0). pose proof (gap_pos 0). lra. Qed.
Lemma energy_growing k : energy k <= energy (S k).
Proof.
  unfold energy. cbn [sum_below]. pose proof (Rmult_le_compat_l _ _ _ gap_bound_pos (width_mono k)). pose proof (gain_pos k). nra.
Qed.
Lemma energy_bounded k : 0 <= energy k <= energy_bound.
Proof.
  pose proof gap_bound_pos as P. pose proof (width_pos k). pose proof (width_bounded k) as W. pose proof (gains_bounded k).
  pose proof (gains_pos k) as G0.
  assert (0 <= eta * eta) by nra. unfold energy, energy_bound. split; [nra|]. apply Rplus_le_compat; apply Rmult_le_compat_l; lra.
Qed.
Lemma energy_step k : gap (S k) + 2 * eta * (f (x k) - f z) <= gap k + (energy (S k) - energy k).
Proof.
  pose proof (gap_step k) as G. pose proof (gap_bounded k) as B. pose proof (width_mono k) as M. unfold energy. cbn [sum_below].
  assert ((width (S k) - width k) * gap k <= (width (S k) - width k) * gap_bound) by (apply Rmult_le_compat_l; lra). lra.
Qed.
Lemma values_summable n : 2 * eta * sum_below n (fun k => f (x k) - f z) <= gap 0 + energy_bound.
Proof.
  assert (Q : gap n + 2 * eta * sum_below n (fun k => f (x k) - f z) <= gap 0 + (energy n - energy 0)).
  { induction n as [|n IH]; [cbn; lra|]. cbn [sum_below]. pose proof (energy_step n). lra. }
  pose proof (gap_pos n). pose proof (energy_bounded n). pose proof (energy_bounded 0). lra.
Qed.
Lemma values_vanish d : 0 < d -> exists N, forall n, (N <= n)%nat -> f (x n) - f z < d.
Proof.
  apply (residual_vanishes (fun k => gap k + (energy_bound - energy k)) (fun k => f (x k) - f z) (2 * eta) ltac:(lra)).
  - intros n. pose proof (gap_pos n). pose proof (energy_bounded n). lra.
  - intros n. specialize (Hz (x n)). lra.
  - intros n. pose proof (energy_step n). lra.
Qed.
Lemma later_gap n k : gap (n + k) <= gap n + (energy (n + k) - energy n).
Proof.
  induction k as [|k IH]; [rewrite Nat.add_0_r; lra|]. rewrite Nat.add_succ_r. pose proof (energy_step (n + k)) as Q. pose proof (Hz (x (n + k)%nat)).
  assert (0 <= 2 * eta * (f (x (n + k)%nat) - f z)) by (apply Rmult_le_pos; lra). lra.
Qed.
Lemma energy_settles e : 0 < e -> exists N, forall n k, (N <= n)%nat -> energy (n + k) - energy n < e.
Proof.
  intros He. assert (B : has_ub energy) by (exists energy_bound; intros y (n & ->); apply energy_bounded).
  destruct (growing_cv energy energy_growing B) as (e0 & Cv). destruct (Cv e He) as (N & Q). exists N. intros n k Hn.
  pose proof (growing_ineq energy e0 energy_growing Cv (n + k)). specialize (Q n Hn). unfold R_dist in Q.
  apply Rabs_def2 in Q. lra.
Qed.
Lemma gap_nsq k : eps * nsq (H := H) (vsub (x k : H) (z : H)) <= gap k <= (root_bound + eps) * nsq (H := H) (vsub (x k : H) (z : H)).
Proof.
  unfold nsq. rewrite fin_inner, <- !lsum_scal. unfold gap, nsq.
  split; apply lsum_le; intros i; change ((vsub (x k : H) (z : H)) i) with (vsub (x k i) (z i));
  (apply Rmult_le_compat_r; [apply inner_pos|]); [apply b_pos|unfold b; pose proof (roots_bounded k i); lra].
Qed.
(** A minimiser that a subsequence tends to is the limit of the whole sequence. *)
Lemma cluster_is_limit psi : increasing_idx psi -> converges (H := H) (fun n => x (psi n)) z -> converges (H := H) x z.
Proof.
  intros Ps Cv. apply converges_sq. intros e He. destruct (energy_settles (eps * e / 2) ltac:(nra)) as (N & QN).
  assert (Rb : 0 < root_bound + eps) by (unfold root_bound; pose proof budget_pos; lra).
  destruct (proj1 (converges_sq _ _) Cv (eps * e / (2 * (root_bound + eps)))) as (M & QM).
  { apply Rmult_lt_0_compat; [nra|apply Rinv_0_lt_compat; lra]. }
  set (n := psi (Nat.max N M)). pose proof (idx_ge psi Ps (Nat.max N M)) as In. exists n. intros k Hk.
  specialize (QM (Nat.max N M) ltac:(lia)). fold n in QM. specialize (QN n (k - n)%nat ltac:(unfold n; lia)).
  pose proof (later_gap n (k - n)) as La. replace (n + (k - n))%nat with k in * by lia.
  destruct (gap_nsq n) as [_ U]. destruct (gap_nsq k) as [V _].
  apply (Rmult_lt_compat_l (root_bound + eps)) in QM; [|exact Rb].
  replace ((root_bound + eps) * (eps * e / (2 * (root_bound + eps)))) with (eps * e / 2) in QM by (field; lra).
  apply Rmult_lt_reg_l with eps; [exact Heps|]. lra.
Qed.
End Target.

(** * In finite dimension *)
Hypothesis FD : finite_dimensional H.
Lemma estimates_converge z0 : (forall y, f z0 <= f y) -> exists z, (forall y, f z <= f y) /\ converges (H := H) x z.
Proof.
  intros Hz0. destruct (bounded_subsequence (H := H) FD x (norm (H := H) z0 + sqrt (gap_bound z0 / eps))) as (psi & z & Ps & Cv).
  { intros n. replace (x n) with (vadd (i := H) z0 (vsub (x n : H) z0)) by (symmetry; apply (add_sub (E := H) (x n) z0)).
    apply Rle_trans with (1 := norm_triangle _ _). apply Rplus_le_compat_l. unfold norm. apply sqrt_le_1_alt.
    apply Rmult_le_reg_l with eps; [exact Heps|]. replace (eps * (gap_bound z0 / eps)) with (gap_bound z0) by (field; lra).
    apply Rle_trans with (gap z0 n); [apply gap_nsq|apply gap_bounded, Hz0]. }
  assert (D0 : df z = vzero).
  { apply (converges_unique (H := H) (fun n => df (x (psi n)))).
    - apply (lipschitz_continuous L df Lf (fun n => x (psi n)) z Cv).
    - apply (converges_sub (H := H) (fun n => df (x n)) vzero psi Ps). apply vanishing. exact gradient_vanishes. }
  assert (Hz : forall y, f z <= f y).
  { intros y. pose proof (first_order f df Cf Gf z y) as F. rewrite D0, inner_0_l in F. lra. }
  exists z. split; [exact Hz|]. exact (cluster_is_limit z Hz psi Ps Cv).
Qed.
End Ada.

(** * The loop, as in Proof_GD *)
Section Loop.
Context {F0 : ips} {I : Type}.
Variable grad : nat -> (I -> F0) -> I -> F0.
Variable prox : (I -> F0) -> (I -> R) -> I -> F0.
Notation step := (gdc_step grad prox).
Notation after := (gdc_after grad prox).

Lemma c_step_consts idx (s : gdc F0 I) : c_class (step idx s) = c_class s /\ c_eps (step idx s) = c_eps s /\
  c_epoch_size (step idx s) = c_epoch_size s /\ c_eta_update (step idx s) = c_eta_update s /\
  c_calls (step idx s) = S (c_calls s) /\ c_x_new (step idx s) = c_x_old (step idx s).
Proof.
  unfold gdc_step. destruct (c_update_dir s idx _) as [[dir bp] mem]. destruct (c_update_speed s _) as [sp gp].
  cbn. repeat split.
Qed.

Lemma c_after_consts n (s : gdc F0 I) : c_class (after n s) = c_class s /\ c_eps (after n s) = c_eps s /\
  c_epoch_size (after n s) = c_epoch_size s /\ c_eta_update (after n s) = c_eta_update s /\
  c_calls (after n s) = (n + c_calls s)%nat.
Proof.
  induction n as [|n IH]; [repeat split|]. cbn [gdc_after].
  destruct (c_step_consts n (after n s)) as (A1 & A2 & A3 & A4 & A5 & _).
  destruct IH as (B1 & B2 & B3 & B4 & B5). rewrite A1, A2, A3, A4, A5, B1, B2, B3, B4, B5. repeat split.
Qed.

Lemma c_after_new n (s : gdc F0 I) : c_x_new s = c_x_old s -> c_x_new (after n s) = c_x_old (after n s).
Proof. destruct n as [|n]; [trivial|]. intros _. apply c_step_consts. Qed.

Lemma c_eta_const n (s : gdc F0 I) : c_eta_update s = None -> c_eta (after n s) = c_eta s.
Proof.
  intros E. induction n as [|n IH]; [reflexivity|]. cbn [gdc_after]. unfold gdc_step at 1.
  destruct (c_update_dir _ _ _) as [[dir bp] mem]. destruct (c_update_speed _ _) as [sp gp]. cbn [c_eta].
  destruct (c_after_consts n s) as (_ & _ & _ & -> & _). rewrite E. exact IH.
Qed.

(** Loop. *)
Lemma c_metrics_data mx i (metric : nat -> gdc F0 I -> list bool) hm period (s s' : alg_state (gdc F0 I)) tr tr' :
  metrics_step conv (alg_metrics metric) hm period mx i s tr = Ok (s', tr') -> data s' = data s.
Proof.
  unfold metrics_step. destruct hm; [|intros Q; injection Q as <- _; reflexivity].
  destruct period as [m|]; [|intros Q; injection Q as <- _; reflexivity].
  destruct (m =? 0)%Z; [discriminate|]. cbn. intros Q; injection Q as <- _; reflexivity.
Qed.

Lemma c_run_from cost metric hm period mx n i (s s' : alg_state (gdc F0 I)) s0 tr tr' :
  data s = after i s0 ->
  iterations_from (gdc_update grad prox cost) conv (alg_metrics metric) hm period mx n i s tr = Ok (s', tr') ->
  exists N, (N <= n)%nat /\ ((0 < n)%nat -> (0 < N)%nat) /\ data s' = after (i + N) s0.
Proof.
  revert i s tr. induction n as [|n IH]; intros i s tr Es.
  - cbn. intros E. injection E as E _. subst. exists 0%nat. split; [lia|]. split; [lia|]. rewrite Nat.add_0_r. congruence.
  - cbn [iterations_from]. unfold gdc_update at 1. destruct (Nat.eqb _ 0); [discriminate|]. unfold alg_update at 1. cbn [bind].
    set (s1 := end_of_update _ _ _ _).
    assert (E1 : data s1 = after (S i) s0) by (unfold s1, end_of_update; destruct cost; cbn [data gdc_after]; rewrite Es; reflexivity).
    clearbody s1. destruct (metrics_step conv (alg_metrics metric) hm period mx i s1 (tr ++ [EUpdate i])) as [[s2 tr2]|] eqn:E; cbn [bind]; [|discriminate].
    apply c_metrics_data in E. destruct (conv s2).
    + intros Q. injection Q as <- <-. exists 1%nat. split; [lia|]. split; [lia|]. rewrite Nat.add_1_r. congruence.
    + intros Q. destruct (IH (S i) s2 tr2 ltac:(congruence) Q) as (N & L & _ & EN). exists (S N). split; [lia|]. split; [lia|].
      rewrite EN. f_equal. lia.
Qed.

Lemma c_iterate_ok cost metric hm period n (s : gdc F0 I) x :
  gdc_iterate grad prox cost metric hm period n s = Ok x ->
  exists N, (N <= n)%nat /\ ((0 < n)%nat -> (0 < N)%nat) /\ x = c_x_new (after N s).
Proof.
  unfold gdc_iterate. destruct (run_alg _ _ _ _ _ _ _) as [[s' tr']|] eqn:E; cbn [bind]; [|discriminate].
  intros Q. injection Q as <-. apply (c_run_from cost metric hm period _ _ _ _ _ s) in E; [|reflexivity].
  destruct E as (N & L & P & E). exists N. split; [exact L|]. split; [exact P|]. cbn [fst]. rewrite E. reflexivity.
Qed.

Lemma c_iterate_plain metric period n (s : gdc F0 I) : c_epoch_size s <> 0%nat ->
  gdc_iterate grad prox None metric false period n s = Ok (c_x_new (after n s)).
Proof.
  intros He. unfold gdc_iterate, run_alg.
  enough (G : forall n mx i tr (a : alg_state (gdc F0 I)), data a = after i s -> conv a = false ->
    exists s' tr', iterations_from (gdc_update grad prox None) conv (alg_metrics metric) false period mx n i a tr = Ok (s', tr') /\
      data s' = after (i + n) s).
  { destruct (G n n 0%nat [] (mk_alg s [] false) eq_refl eq_refl) as (s' & tr' & E & D). rewrite E. cbn [bind fst]. rewrite D. reflexivity. }
  clear n. induction n as [|n IH]; intros mx i tr a Ea Ec.
  - cbn. exists a, tr. split; [reflexivity|]. rewrite Nat.add_0_r. exact Ea.
  - cbn [iterations_from]. unfold gdc_update at 1. rewrite Ea.
    assert (Ee : c_epoch_size (after i s) = c_epoch_size s) by apply c_after_consts. rewrite Ee.
    destruct (Nat.eqb_spec (c_epoch_size s) 0); [contradiction|]. unfold alg_update at 1. cbn [bind end_of_update].
    unfold metrics_step at 1. cbn [bind conv]. rewrite Ec.
    destruct (IH mx (S i) (tr ++ [EUpdate i]) (mk_alg (step i (data a)) (flags a) false)) as (s' & tr' & E & D).
    + cbn [data gdc_after]. rewrite Ea. reflexivity.
    + reflexivity.
    + exists s', tr'. split; [exact E|]. rewrite D. f_equal. lia.
Qed.

(** Gradient c_seen by update k of a run from s. *)
Definition c_seen (s : gdc F0 I) (k : nat) : I -> F0 := grad (c_calls (after k s)) (c_x_old (after k s)).
End Loop.

(** * Changing the entries *)
Section Image.
Context {E F : ips} {I J : Type}.
Variables (sigma : J -> I) (a : J -> E -> F).
Hypothesis a_add : forall j x y, a j (x + y)%v = (a j x + a j y)%v.
Hypothesis a_scal : forall j t x, a j (t * x)%v = (t * a j x)%v.
Definition moved (x : I -> E) : J -> F := fun j => a j (x (sigma j)).
Definition pulled (t : I -> R) : J -> R := fun j => t (sigma j).
Definition cimage (s : gdc E I) : gdc F J :=
  mk_gdc (c_class s) (moved (c_x_old s)) (moved (c_x_new s)) (moved (c_dir s)) (pulled (c_speed s)) (c_eta s) (c_eps s) (c_epoch_size s)
    (c_eta_update s) (c_beta_pow s) (c_gamma_pow s) (fun c => moved (c_memory s c)) (c_calls s).
Lemma a_zero j : a j vzero = vzero.
Proof. replace (vzero : E) with (0 * vzero : E)%v by vring. rewrite a_scal. vring. Qed.
Lemma a_sub j x y : a j (vsub x y) = vsub (a j x) (a j y).
Proof. unfold vsub. rewrite a_add, a_scal. reflexivity. Qed.
Lemma moved_zeros : moved czeros = czeros.
Proof. extensionality j. apply a_zero. Qed.
Variables (grad : nat -> (I -> E) -> I -> E) (prox : (I -> E) -> (I -> R) -> I -> E).
Variables (grad' : nat -> (J -> F) -> J -> F) (prox' : (J -> F) -> (J -> R) -> J -> F).
Hypothesis Hgrad : forall k x, grad' k (moved x) = moved (grad k x).
Hypothesis Hprox : forall y t, prox' (moved y) (pulled t) = moved (prox y t).
Lemma cimage_dir s idx g : c_update_dir (cimage s) idx (moved g) =
  (moved (fst (fst (c_update_dir s idx g))), snd (fst (c_update_dir s idx g)), fun c => moved (snd (c_update_dir s idx g) c)).
Proof.
  unfold c_update_dir. destruct (c_class s) eqn:C; cbn [cimage c_class c_dir c_memory c_beta_pow c_epoch_size]; rewrite C; cbn [fst snd]; try reflexivity.
  - f_equal. f_equal. extensionality j. unfold moved. rewrite a_add, a_scal. reflexivity.
  - f_equal. f_equal. extensionality j. unfold moved. rewrite a_scal, a_add, !a_scal. reflexivity.
  - f_equal; [f_equal|].
    + extensionality j. unfold moved. rewrite a_add, a_sub. reflexivity.
    + extensionality c. destruct (Nat.eqb _ _); reflexivity.
Qed.
Definition keeps (c : gd_class) : Prop := match c with Ada | RMSprop _ | Adam _ _ => forall j z, norm (a j z) = norm z | _ => True end.
Lemma cimage_speed s g : keeps (c_class s) -> c_update_speed (cimage s) (moved g) = (pulled (fst (c_update_speed s g)), snd (c_update_speed s g)).
Proof.
  intros K. unfold c_update_speed. cbn [cimage c_class c_speed c_gamma_pow].
  destruct (c_class s) eqn:C; cbn [fst snd]; try reflexivity; f_equal; extensionality j; unfold pulled, moved; rewrite K; reflexivity.
Qed.
Lemma cimage_step s idx : keeps (c_class s) -> cimage (gdc_step grad prox idx s) = gdc_step grad' prox' idx (cimage s).
Proof.
  intros K. unfold gdc_step. cbn [cimage c_x_old c_calls]. fold (cimage s). rewrite Hgrad, cimage_dir, cimage_speed by exact K.
  set (g := grad _ _). destruct (c_update_dir s idx g) as [[dir bp] mem]. destruct (c_update_speed s g) as [sp gp]. cbn [fst snd].
  cbn [cimage c_class c_eta c_eps c_epoch_size c_eta_update].
  set (st := fun i => c_eta s / (sqrt (sp i) + c_eps s)).
  replace (fun j => vsub (moved (c_x_old s) j) ((c_eta s / (sqrt (pulled sp j) + c_eps s))%R * moved dir j)%v)
    with (moved (fun i => vsub (c_x_old s i) (st i * dir i)%v)) by (extensionality j; unfold moved; rewrite a_sub, a_scal; reflexivity).
  change (fun i : J => c_eta s / (sqrt (pulled sp i) + c_eps s)) with (pulled st). rewrite Hprox.
  unfold cimage. cbn. destruct (Nat.eqb _ 0); [|reflexivity]. destruct (c_class s); try reflexivity. rewrite moved_zeros. reflexivity.
Qed.
Lemma cimage_run n s : keeps (c_class s) -> gdc_after grad' prox' n (cimage s) = cimage (gdc_after grad prox n s).
Proof.
  intros K. induction n as [|n IH]; [reflexivity|]. cbn [gdc_after]. rewrite IH. symmetry. apply cimage_step.
  destruct (c_after_consts grad prox n s) as (-> & _). exact K.
Qed.
End Image.

Lemma c_init_ok {E : ips} {I} c (x : I -> E) eta eps e eu s : gdc_init c x eta eps e eu = Ok s ->
  s = mk_gdc c x x czeros (match c with Vanilla | Momentum _ => full 1 | _ => full 0 end) eta
        (match c with Vanilla | Momentum _ => 0 | _ => eps end) e eu 1 1 (fun _ => czeros) 0.
Proof. unfold gdc_init. destruct c; try destruct (in_range_closed _); try destruct (_ && _)%bool; congruence. Qed.

(** * Real entries *)
Section Real.
Context {I : Type}.
Definition real_entries (s : gd I) : gdc R_ips I :=
  mk_gdc (E := R_ips) (d_class s) (d_x_old s) (d_x_new s) (d_dir s) (d_speed s) (d_eta s) (d_eps s) (d_epoch_size s) (d_eta_update s)
    (d_beta_pow s) (d_gamma_pow s) (d_memory s) (d_calls s).
Lemma norm_R (x : R_ips) : norm x = Rabs x.
Proof. unfold norm, nsq. change (inner x x) with (Rsqr x). apply sqrt_Rsqr_abs. Qed.
Lemma real_step (grad : nat -> arr I -> arr I) prox idx s : gdc_step (E := R_ips) grad prox idx (real_entries s) = real_entries (gd_step grad prox idx s).
Proof.
  unfold gdc_step, gd_step. cbn [real_entries c_x_old c_calls]. fold (real_entries s). set (g := grad _ _).
  assert (D : c_update_dir (real_entries s) idx g = update_dir s idx g).
  { unfold c_update_dir, update_dir. cbn [real_entries c_class c_dir c_memory c_beta_pow c_epoch_size]. destruct (d_class s); try reflexivity.
    f_equal. f_equal. extensionality i. unfold vsub. cbn. ring. }
  assert (Sp : c_update_speed (real_entries s) g = update_speed s g).
  { unfold c_update_speed, update_speed. cbn [real_entries c_class c_speed c_gamma_pow].
    destruct (d_class s); try reflexivity; f_equal; extensionality i; rewrite norm_R; reflexivity. }
  rewrite D, Sp. destruct (update_dir s idx g) as [[dir bp] mem]. destruct (update_speed s g) as [sp gp].
  cbn [real_entries c_class c_x_old c_eta c_eps c_epoch_size c_eta_update].
  match goal with |- context [prox ?y _] => replace y with (fun i => d_x_old s i - d_eta s / (sqrt (sp i) + d_eps s) * dir i) by (extensionality i; unfold vsub; cbn; ring) end.
  reflexivity.
Qed.
Lemma real_run (grad : nat -> arr I -> arr I) prox n s : gdc_after (E := R_ips) grad prox n (real_entries s) = real_entries (gd_after grad prox n s).
Proof. induction n as [|n IH]; [reflexivity|]. cbn [gdc_after gd_after]. rewrite IH. apply real_step. Qed.
Lemma real_init c (x : arr I) eta eps e eu : gdc_init (E := R_ips) c x eta eps e eu = (do s <- gd_init c x eta eps e eu; Ok (real_entries s)).
Proof. unfold gdc_init, gd_init. destruct c; try destruct (in_range_closed _); try destruct (_ && _)%bool; reflexivity. Qed.
End Real.

(** * Finite dimension *)
Section Dim.
Variables (E : ips) (I : Type) (eq_dec : forall i j : I, {i = j} + {i <> j}) (l : list I) (complete : forall i, In i l).
Notation H := (entries_ips E I l complete).
Definition at_entry (i : I) (z : E) : H := fun j => if eq_dec i j then z else vzero.
Lemma at_add i x y : at_entry i (x + y)%v = (at_entry i x + at_entry i y)%v.
Proof. extensionality j. change (at_entry i (x + y)%v j = (at_entry i x j + at_entry i y j)%v). unfold at_entry. destruct (eq_dec i j); [reflexivity|vring]. Qed.
Lemma at_scal i t x : at_entry i (t * x)%v = (t * at_entry i x)%v.
Proof. extensionality j. change (at_entry i (t * x)%v j = (t * at_entry i x j)%v). unfold at_entry. destruct (eq_dec i j); [reflexivity|vring]. Qed.
Lemma inner_at (v : H) i z : NoDup l -> inner v (at_entry i z) = inner (v i) z.
Proof.
  intros ND. rewrite (fin_inner E I l complete).
  assert (G : forall m, NoDup m -> lsum m (fun j => inner (v j) (at_entry i z j)) = if in_dec eq_dec i m then inner (v i) z else 0).
  { induction m as [|b m IH]; intros Nm; [reflexivity|]. inversion Nm as [|? ? Nb Nm']. subst. rewrite lsum_cons, IH by exact Nm'.
    unfold at_entry. destruct (eq_dec i b) as [->|Ne].
    - destruct (in_dec eq_dec b m) as [Q|_]; [contradiction|]. destruct (in_dec eq_dec b (b :: m)) as [_|Q]; [ring|destruct Q; left; reflexivity].
    - rewrite inner_0_r. destruct (in_dec eq_dec i m) as [Q|Q]; destruct (in_dec eq_dec i (b :: m)) as [Q'|Q']; try ring.
      + destruct Q'. right. exact Q.
      + destruct Q' as [Q'|Q']; [destruct (Ne (eq_sym Q'))|contradiction]. }
  rewrite G by exact ND. destruct (in_dec eq_dec i l) as [_|Q]; [reflexivity|destruct (Q (complete i))].
Qed.
Lemma fd_entries : NoDup l -> finite_dimensional E -> finite_dimensional H.
Proof.
  intros ND (bs & Hbs). exists (flat_map (fun i => map (at_entry i) bs) l). intros v.
  set (comb := fun es : list H => weighted_sum (map (fun e => inner v e) es) es).
  assert (App : forall a b, comb (a ++ b) = (comb a + comb b)%v).
  { intros a b. unfold comb. rewrite map_app. apply weighted_sum_app. apply map_length. }
  assert (One : forall i, comb (map (at_entry i) bs) = at_entry i (v i)).
  { intros i. unfold comb.
    assert (G : forall bs', weighted_sum (map (fun e => inner v e) (map (at_entry i) bs')) (map (at_entry i) bs') = at_entry i (weighted_sum (map (fun e => inner (v i) e) bs') bs')).
    { induction bs' as [|b bs' IH]; cbn [map weighted_sum]; [extensionality j; unfold at_entry; destruct (eq_dec i j); reflexivity|].
      rewrite IH, at_add, at_scal, inner_at by exact ND. reflexivity. }
    rewrite G, <- (Hbs (v i)). reflexivity. }
  assert (All : forall m j, NoDup m -> comb (flat_map (fun i => map (at_entry i) bs) m) j = if in_dec eq_dec j m then v j else vzero).
  { induction m as [|b m IH]; intros j Nm; [reflexivity|]. inversion Nm as [|? ? Nb Nm']. subst. cbn [flat_map]. rewrite App, One.
    change ((at_entry b (v b) j + comb (flat_map (fun i => map (at_entry i) bs) m) j)%v = if in_dec eq_dec j (b :: m) then v j else vzero).
    rewrite IH by exact Nm'. unfold at_entry. destruct (eq_dec b j) as [->|Ne].
    - destruct (in_dec eq_dec j m) as [Q|_]; [contradiction|]. destruct (in_dec eq_dec j (j :: m)) as [_|Q]; [vring|destruct Q; left; reflexivity].
    - destruct (in_dec eq_dec j m) as [Q|Q]; destruct (in_dec eq_dec j (b :: m)) as [Q'|Q']; try vring.
      + destruct Q'. right. exact Q.
      + destruct Q' as [Q'|Q']; contradiction. }
  extensionality j. fold (comb (flat_map (fun i => map (at_entry i) bs) l)). rewrite All by exact ND.
  destruct (in_dec eq_dec j l) as [_|Q]; [reflexivity|destruct (Q (complete j))].
Qed.
Lemma fd_C : finite_dimensional C_ips.
Proof. exists [((1, 0) : C_ips); (0, 1)]. intros [x y]. cbn. f_equal; unfold car in *; cbn in *; lra. Qed.
End Dim.
