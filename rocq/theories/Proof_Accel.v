(** Accelerated proximal gradient sequences whose parameters grow slowly enough: the iterates
    converge, and the objective decays faster than 1/k^2 (Chambolle and Dossal; Attouch and
    Peypouquet). *)
From Verif Require Import NPReal Py IPS Spec_Opt Proof_Smooth Spec_Lim Proof_Lim Proof_Iter.
From Coq Require Import List Lia SeqProp.
Import ListNotations.
Local Open Scope R_scope.

(** * Series with nonnegative terms *)
Fixpoint psum (r : nat -> R) (n : nat) : R := match n with O => 0 | S n' => psum r n' + r n' end.
Definition summable (r : nat -> R) : Prop := exists B, forall n, psum r n <= B.

Lemma psum_mono r : (forall n, 0 <= r n) -> forall n m, (n <= m)%nat -> psum r n <= psum r m.
Proof. intros Hr n m L. induction L as [|m L IH]; [lra|]. cbn. specialize (Hr m). lra. Qed.
Lemma psum_pos r : (forall n, 0 <= r n) -> forall n, 0 <= psum r n.
Proof. intros Hr n. apply (psum_mono r Hr 0 n). lia. Qed.
Lemma psum_le r s c : (forall n, r n <= c * s n) -> forall n, psum r n <= c * psum s n.
Proof. intros H n. induction n as [|n IH]; cbn; [lra|]. specialize (H n). lra. Qed.
Lemma summable_le r s c : 0 <= c -> (forall n, r n <= c * s n) -> summable s -> summable r.
Proof.
  intros Hc H (B & Q). exists (c * B). intros n. apply Rle_trans with (1 := psum_le r s c H n). apply Rmult_le_compat_l; auto.
Qed.
Lemma summable_plus r s : summable r -> summable s -> summable (fun n => r n + s n).
Proof.
  intros (A & HA) (B & HB). exists (A + B). intros n.
  assert (E : psum (fun n => r n + s n) n = psum r n + psum s n) by (induction n as [|n IH]; cbn; lra).
  rewrite E. specialize (HA n). specialize (HB n). lra.
Qed.
Lemma perturbed_sum (a r s : nat -> R) : (forall n, 0 <= a n) -> (forall n, a (S n) + r n <= a n + s n) ->
  forall n, psum r n <= a 0%nat + psum s n.
Proof.
  intros Ha Hs n. assert (G : a n + psum r n <= a 0%nat + psum s n); [|specialize (Ha n); lra].
  induction n as [|n IH]; cbn; [lra|]. specialize (Hs n). lra.
Qed.
Lemma perturbed_summable (a r s : nat -> R) : (forall n, 0 <= a n) -> (forall n, a (S n) + r n <= a n + s n) ->
  summable s -> summable r.
Proof.
  intros Ha Hs (B & Q). exists (a 0%nat + B). intros n. pose proof (perturbed_sum a r s Ha Hs n). specialize (Q n). lra.
Qed.
Lemma summable_cv r : (forall n, 0 <= r n) -> summable r -> exists l, Un_cv (psum r) l.
Proof.
  intros Hr (B & Q). destruct (growing_cv (psum r)) as (l & C); [|exists B|exists l; exact C].
  - intros n. cbn. specialize (Hr n). lra.
  - intros x (n & ->). apply Q.
Qed.
Lemma quasi_decreasing_cv (a s : nat -> R) : (forall n, 0 <= a n) -> (forall n, 0 <= s n) ->
  (forall n, a (S n) <= a n + s n) -> summable s -> exists l, 0 <= l /\ Un_cv a l.
Proof.
  intros Ha Hs Hq Sm. destruct (summable_cv s Hs Sm) as (l2 & C2). destruct Sm as (B & Q).
  destruct (decreasing_cv (fun n => a n - psum s n)) as (l1 & C1).
  - intros n. cbn. specialize (Hq n). lra.
  - exists B. intros x (n & ->). unfold opp_seq. specialize (Ha n). specialize (Q n). lra.
  - exists (l1 + l2). assert (C : Un_cv a (l1 + l2)).
    { pose proof (CV_plus _ _ _ _ C1 C2) as C. intros e He. destruct (C e He) as (N & X). exists N. intros n Hn. specialize (X n Hn).
      replace (a n) with (a n - psum s n + psum s n) by ring. exact X. }
    split; [|exact C]. apply Rnot_lt_le. intros L. destruct (C (- (l1 + l2)) ltac:(lra)) as (N & X). specialize (X N (le_n N)).
    unfold R_dist in X. pose proof (Rle_abs (a N - (l1 + l2))). specialize (Ha N). lra.
Qed.
Lemma summable_vanishes r : (forall n, 0 <= r n) -> summable r -> forall e, 0 < e -> exists N, forall n, (N <= n)%nat -> r n < e.
Proof.
  intros Hr Sm e He. destruct (summable_cv r Hr Sm) as (l & C).
  pose proof (CV_Cauchy _ (exist _ l C)) as Cy. destruct (Cy e He) as (N & Q). exists N. intros n Hn.
  specialize (Q (S n) n ltac:(lia) ltac:(lia)). unfold R_dist in Q. cbn in Q.
  pose proof (Rle_abs (psum r n + r n - psum r n)). lra.
Qed.
Lemma psum_block r d : forall N k, (forall n, (N <= n < N + k)%nat -> d <= r n) -> INR k * d <= psum r (N + k) - psum r N.
Proof.
  intros N k. induction k as [|k IH]; intros H; [rewrite Nat.add_0_r; cbn; lra|].
  rewrite S_INR, Nat.add_succ_r. cbn [psum].
  assert (IH' := IH ltac:(intros n Hn; apply H; lia)). specialize (H (N + k)%nat ltac:(lia)). lra.
Qed.
(** If v/t is summable and t grows at most linearly, a convergent v vanishes. *)
Lemma summable_over_linear (v t : nat -> R) C l : (forall n, 0 <= v n) -> (forall n, 0 < t n <= C + INR n) ->
  summable (fun n => v n / t n) -> Un_cv v l -> l = 0.
Proof.
  intros Hv Ht Sm Cv. set (r := fun n => v n / t n) in *.
  assert (Hr : forall n, 0 <= r n).
  { intros n. unfold r. apply Rmult_le_pos; [apply Hv|]. apply Rlt_le, Rinv_0_lt_compat, Ht. }
  destruct (Rtotal_order l 0) as [L|[E|G]]; [|exact E|].
  - exfalso. destruct (Cv (- l) ltac:(lra)) as (N & Q). specialize (Q N (le_n N)). unfold R_dist in Q.
    pose proof (Rle_abs (v N - l)). specialize (Hv N). lra.
  - exfalso. destruct (Cv (l / 2) ltac:(lra)) as (N1 & Q1).
    assert (V : forall n, (N1 <= n)%nat -> l / 2 <= v n).
    { intros n Hn. specialize (Q1 n Hn). unfold R_dist in Q1. pose proof (Rle_abs (- (v n - l))). rewrite Rabs_Ropp in H. lra. }
    destruct (summable_cv r Hr Sm) as (lr & Cr). pose proof (CV_Cauchy _ (exist _ lr Cr)) as Cy.
    destruct (Cy (l / 8) ltac:(lra)) as (N2 & Q2).
    assert (Un : exists N3, C < INR N3).
    { exists (Z.to_nat (up (Rabs C))). destruct (archimed (Rabs C)) as [U _]. pose proof (Rle_abs C). pose proof (Rabs_pos C).
      rewrite INR_IZR_INZ, Z2Nat.id; [lra|]. apply le_IZR. lra. }
    destruct Un as (N3 & H3).
    set (N := S (N1 + N2 + N3)).
    assert (PN : 0 < INR N) by (apply lt_0_INR; unfold N; lia).
    assert (CN : C <= INR N) by (apply Rlt_le, Rlt_le_trans with (INR N3); [lra|apply le_INR; unfold N; lia]).
    pose proof (psum_block r (l / 2 / (3 * INR N)) N N) as Bk.
    assert (X : INR N * (l / 2 / (3 * INR N)) <= psum r (N + N) - psum r N).
    { apply Bk. intros n Hn. unfold r, Rdiv. apply Rmult_le_compat; [lra| |apply V; unfold N in *; lia|].
      - apply Rlt_le, Rinv_0_lt_compat. lra.
      - apply Rinv_le_contravar; [apply Ht|]. apply Rle_trans with (C + INR n); [apply Ht|].
        assert (INR n <= INR (N + N)) by (apply le_INR; lia). rewrite plus_INR in H. lra. }
    replace (INR N * (l / 2 / (3 * INR N))) with (l / 6) in X by (field; lra).
    specialize (Q2 (N + N)%nat N ltac:(unfold N; lia) ltac:(unfold N; lia)). unfold R_dist in Q2.
    pose proof (Rle_abs (psum r (N + N) - psum r N)). lra.
Qed.

(** * The accelerated step with its slack *)
Section Accel.
Context {H : ips}.
Variables (D : H -> Prop) (F : H -> R) (beta : R).
Hypothesis Hb : 0 < beta.
Hypothesis CF : convex_on D F.

Lemma accel_slack xk xk1 y xn t t' z :
  D xk -> 1 <= t' -> D z -> y = (xk + ((t - 1) / t') * (xk - xk1))%v -> pg_step D F beta y xn ->
  2 * beta * (t' * t') * (F xn - F z) + nsq (xk + t' * (xn - xk) - z)%v
  <= 2 * beta * (t' * t' - t') * (F xk - F z) + nsq (xk1 + t * (xk - xk1) - z)%v.
Proof.
  intros Dk Ht Dz Ey [Dn V].
  assert (Hi : 0 < / t' <= 1).
  { split; [apply Rinv_0_lt_compat; lra|]. rewrite <- Rinv_1. apply Rinv_le_contravar; lra. }
  destruct (CF xk z (/ t') Dk Dz ltac:(lra)) as [Dc Fc].
  set (c := ((1 - / t') * xk + / t' * z)%v) in *. specialize (V c Dc).
  assert (E1 : t' * t' * nsq (y - c)%v = nsq (xk1 + t * (xk - xk1) - z)%v).
  { rewrite <- nsq_scal. f_equal. subst y. unfold c. vfield. lra. }
  assert (E2 : t' * t' * nsq (xn - c)%v = nsq (xk + t' * (xn - xk) - z)%v).
  { rewrite <- nsq_scal. f_equal. unfold c. vfield. lra. }
  rewrite <- E1, <- E2.
  assert (V' : F xn - F z <= (1 - / t') * (F xk - F z) + / (2 * beta) * (nsq (y - c)%v - nsq (xn - c)%v)) by lra.
  assert (Hm : 0 < 2 * beta * (t' * t')) by (apply Rmult_lt_0_compat; [lra|apply Rmult_lt_0_compat; lra]).
  apply (Rmult_le_compat_l (2 * beta * (t' * t'))) in V'; [|lra].
  replace (2 * beta * (t' * t') * ((1 - / t') * (F xk - F z) + / (2 * beta) * (nsq (y - c)%v - nsq (xn - c)%v)))
    with (2 * beta * (t' * t' - t') * (F xk - F z) + t' * t' * (nsq (y - c)%v - nsq (xn - c)%v)) in V' by (field; lra).
  lra.
Qed.

Variables (x y : nat -> H) (t : nat -> R) (c : R).
Hypothesis Hx : forall k, pg_step D F beta (y k) (x (S k)).
Hypothesis Hy : forall k, y (S k) = (x (S k) + ((t k - 1) / t (S k)) * (x (S k) - x k))%v.
Hypothesis D0 : D (x 0%nat).
Hypothesis Hc : 0 < c <= 1.
Hypothesis T1 : forall k, 1 <= t k.
Hypothesis Tm : forall k, t k <= t (S k).
Hypothesis Tc : forall k, t (S k) * t (S k) - t k * t k <= (1 - c) * t (S k).

Lemma in_D k : D (x k). Proof. destruct k; [exact D0|apply Hx]. Qed.
Lemma t_step k : t (S k) <= t k + 1.
Proof.
  pose proof (Tc k). pose proof (T1 k). pose proof (Tm k). apply Rnot_lt_le. intros L.
  assert (0 <= c * t (S k)) by (apply Rmult_le_pos; lra). nra.
Qed.
Lemma t_linear k : 0 < t k <= t 0%nat + INR k.
Proof.
  split; [specialize (T1 k); lra|]. induction k as [|k IH]; [cbn; lra|]. rewrite S_INR. pose proof (t_step k). lra.
Qed.
Let al k := (t k - 1) / t (S k).
Lemma al_range k : 0 <= al k <= 1.
Proof.
  unfold al. pose proof (T1 k). pose proof (T1 (S k)). pose proof (Tm k). split.
  - apply Rmult_le_pos; [lra|]. apply Rlt_le, Rinv_0_lt_compat. lra.
  - apply Rmult_le_reg_r with (t (S k)); [lra|]. unfold Rdiv. rewrite Rmult_assoc, Rinv_l by lra. lra.
Qed.

Let v k := nsq (x (S k) - x k)%v.
Lemma v_pos k : 0 <= v k. Proof. apply nsq_pos. Qed.

Section Min.
Variable z : H.
Hypothesis Mz : minimises D F z.
Let w k := F (x k) - F z.
Lemma w_pos k : 0 <= w k. Proof. unfold w. pose proof (proj2 Mz _ (in_D k)). lra. Qed.

(** Sum of t_k (F(x_k) - F(z)). *)
Lemma values_bound n : psum (fun k => t (S k) * w (S k)) n <= / (2 * beta * c) *
  (2 * beta * (t 0%nat * t 0%nat) * w 1%nat + nsq (x 0%nat + t 0%nat * (x 1%nat - x 0%nat) - z)%v).
Proof.
  set (E := fun k => 2 * beta * (t k * t k) * w (S k) + nsq (x k + t k * (x (S k) - x k) - z)%v).
  change (2 * beta * (t 0%nat * t 0%nat) * w 1%nat + nsq (x 0%nat + t 0%nat * (x 1%nat - x 0%nat) - z)%v) with (E 0%nat).
  assert (Ep : forall k, 0 <= E k).
  { intros k. unfold E. pose proof (w_pos (S k)). pose proof (nsq_pos (x k + t k * (x (S k) - x k) - z)%v). pose proof (T1 k).
    assert (0 <= 2 * beta * (t k * t k)) by (apply Rmult_le_pos; [lra|nra]).
    pose proof (Rmult_le_pos _ _ H3 H0). lra. }
  pose proof (perturbed_sum E (fun k => 2 * beta * c * (t (S k) * w (S k))) (fun _ => 0) Ep) as P.
  assert (St : forall k, E (S k) + 2 * beta * c * (t (S k) * w (S k)) <= E k + 0).
  { intros k. unfold E. pose proof (accel_slack (x (S k)) (x k) (y (S k)) (x (S (S k))) (t k) (t (S k)) z (in_D _) (T1 _) (proj1 Mz) (Hy k) (Hx (S k))) as A.
    fold (w (S k)) (w (S (S k))) in A. pose proof (w_pos (S k)) as W.
    assert (2 * beta * (t (S k) * t (S k) - t (S k)) * w (S k) <= 2 * beta * (t k * t k - c * t (S k)) * w (S k)).
    { apply Rmult_le_compat_r; [exact W|]. apply Rmult_le_compat_l; [lra|]. specialize (Tc k). lra. }
    lra. }
  specialize (P St n).
  assert (Z : psum (fun _ => 0) n = 0) by (clear; induction n as [|n IH]; cbn; lra). rewrite Z, Rplus_0_r in P.
  assert (X : psum (fun k => 2 * beta * c * (t (S k) * w (S k))) n = 2 * beta * c * psum (fun k => t (S k) * w (S k)) n).
  { clear. induction n as [|n IH]; cbn; [lra|]. rewrite IH. ring. }
  rewrite X in P. assert (0 < 2 * beta * c) by (apply Rmult_lt_0_compat; lra).
  apply Rmult_le_reg_l with (2 * beta * c); [assumption|]. rewrite <- Rmult_assoc, Rinv_r by lra. lra.
Qed.
Lemma values_summable : summable (fun k => t (S k) * w (S k)).
Proof. eexists. exact values_bound. Qed.

Let A k := t k * t k * v k + 2 * beta * (t k * t k) * w (S k).
Lemma A_pos k : 0 <= A k.
Proof.
  unfold A. pose proof (w_pos (S k)). pose proof (v_pos k). pose proof (T1 k).
  assert (0 <= t k * t k) by nra. assert (0 <= 2 * beta * (t k * t k)) by (apply Rmult_le_pos; lra).
  pose proof (Rmult_le_pos _ _ H4 H0). pose proof (Rmult_le_pos _ _ H3 H1). lra.
Qed.
Lemma A_step k : A (S k) + t k * v k <= A k + 2 * beta * (t (S k) * w (S k)).
Proof.
  unfold A. destruct (Hx (S k)) as [_ V]. specialize (V (x (S k)) (in_D _)).
  rewrite Hy in V. fold (al k) in V.
  replace (x (S k) + al k * (x (S k) - x k) - x (S k))%v with (al k * (x (S k) - x k))%v in V by vring.
  rewrite nsq_scal in V. fold (v k) (v (S k)) in V.
  pose proof (T1 k) as Hk. pose proof (T1 (S k)) as Hk1.
  assert (P : 0 < 2 * beta * (t (S k) * t (S k))) by (apply Rmult_lt_0_compat; [lra|nra]).
  apply (Rmult_le_compat_l _ _ _ (Rlt_le _ _ P)) in V.
  replace (2 * beta * (t (S k) * t (S k)) * (F (x (S k)) + / (2 * beta) * (al k * al k * v k - v (S k))))
    with (2 * beta * (t (S k) * t (S k)) * F (x (S k)) + (t k - 1) * (t k - 1) * v k - t (S k) * t (S k) * v (S k)) in V
    by (unfold al; field; lra).
  pose proof (w_pos (S k)) as W. unfold w in *.
  assert (Q : 2 * beta * (t (S k) * t (S k) - t k * t k) * (F (x (S k)) - F z) <= 2 * beta * t (S k) * (F (x (S k)) - F z)).
  { apply Rmult_le_compat_r; [exact W|]. apply Rmult_le_compat_l; [lra|]. specialize (Tc k).
    assert (0 <= c * t (S k)) by (apply Rmult_le_pos; lra). lra. }
  pose proof (v_pos k) as Vk. assert (Q2 : 0 <= (t k - 1) * v k) by (apply Rmult_le_pos; lra).
  lra.
Qed.
Lemma scaled_values_summable : summable (fun k => 2 * beta * (t (S k) * w (S k))).
Proof. apply (summable_le _ (fun k => t (S k) * w (S k)) (2 * beta)); [lra|intros n; lra|exact values_summable]. Qed.
Lemma steps_summable : summable (fun k => t k * v k).
Proof. apply (perturbed_summable A _ (fun k => 2 * beta * (t (S k) * w (S k)))); [exact A_pos|exact A_step|exact scaled_values_summable]. Qed.

(** t_k^2 (|x_{k+1} - x_k|^2 + 2 beta (F(x_{k+1}) - F(z))) vanishes. *)
Lemma A_vanishes : Un_cv A 0.
Proof.
  assert (P1 : forall k, 0 <= t k * v k) by (intros k; pose proof (T1 k); apply Rmult_le_pos; [lra|apply v_pos]).
  assert (P2 : forall k, 0 <= 2 * beta * (t (S k) * w (S k))).
  { intros k. pose proof (T1 (S k)). apply Rmult_le_pos; [lra|]. apply Rmult_le_pos; [lra|apply w_pos]. }
  destruct (quasi_decreasing_cv A (fun k => 2 * beta * (t (S k) * w (S k)))) as (l & _ & C); [exact A_pos|exact P2| |exact scaled_values_summable|].
  { intros k. pose proof (A_step k). specialize (P1 k). lra. }
  assert (l = 0); [|subst l; exact C].
  apply (summable_over_linear A t (t 0%nat) l A_pos t_linear); [|exact C].
  apply (summable_le _ (fun k => t k * v k + 2 * beta * (t (S k) * w (S k))) 1); [lra| |apply summable_plus; [exact steps_summable|exact scaled_values_summable]].
  intros k. unfold A. pose proof (T1 k). pose proof (w_pos (S k)) as W.
  replace ((t k * t k * v k + 2 * beta * (t k * t k) * w (S k)) / t k) with (t k * v k + 2 * beta * (t k * w (S k))) by (field; lra).
  assert (t k * w (S k) <= t (S k) * w (S k)) by (apply Rmult_le_compat_r; [exact W|apply Tm]).
  assert (2 * beta * (t k * w (S k)) <= 2 * beta * (t (S k) * w (S k))) by (apply Rmult_le_compat_l; lra). lra.
Qed.

(** The distance to z has a limit. *)
Lemma distance_cv : exists l, 0 <= l /\ Un_cv (fun k => nsq (x k - z)%v) l.
Proof.
  set (phi := fun k => nsq (x k - z)%v). set (th := fun k => Rmax 0 (phi (S k) - phi k)).
  assert (Tp : forall k, 0 <= th k) by (intros k; apply Rmax_l).
  assert (St : forall k, th (S k) <= al k * th k + 2 * v k).
  { intros k. pose proof (al_range k) as Ra. pose proof (v_pos k) as Vk. pose proof (Tp k) as Pk.
    pose proof (pg_closer D F beta Hb _ _ _ (Hx (S k)) Mz) as Cl.
    assert (E : nsq (y (S k) - z)%v = (1 + al k) * phi (S k) - al k * phi k + al k * (1 + al k) * v k).
    { rewrite Hy. fold (al k). unfold phi, v. set (a := al k). set (p := x (S k)). set (q := x k).
      iexpand. rewrite (inner_sym H q p), (inner_sym H z p), (inner_sym H z q). ring. }
    rewrite E in Cl. fold (phi (S (S k))) in Cl.
    assert (G : al k * (phi (S k) - phi k) <= al k * th k) by (apply Rmult_le_compat_l; [lra|apply Rmax_r]).
    assert (G2 : al k * (1 + al k) * v k <= 2 * v k) by (apply Rmult_le_compat_r; [exact Vk|nra]).
    apply Rmax_lub; [|lra]. pose proof (Rmult_le_pos _ _ (proj1 Ra) Pk). lra. }
  assert (Sm : summable th).
  { apply (perturbed_summable (fun k => t k * th k) th (fun k => 4 * (t k * v k))).
    - intros k. pose proof (T1 k). apply Rmult_le_pos; [lra|apply Tp].
    - intros k. specialize (St k). pose proof (T1 (S k)) as H1. pose proof (T1 k) as H0. pose proof (t_step k) as Ts. pose proof (v_pos k) as Vk.
      apply (Rmult_le_compat_l (t (S k))) in St; [|lra].
      replace (t (S k) * (al k * th k + 2 * v k)) with ((t k - 1) * th k + 2 * (t (S k) * v k)) in St by (unfold al; field; lra).
      assert (t (S k) * v k <= 2 * t k * v k) by (apply Rmult_le_compat_r; lra). lra.
    - apply (summable_le _ (fun k => t k * v k) 4); [lra|intros n; lra|exact steps_summable]. }
  destruct (quasi_decreasing_cv phi th) as (l & P & C); [intros k; apply nsq_pos|exact Tp| |exact Sm|].
  - intros k. unfold th. pose proof (Rmax_r 0 (phi (S k) - phi k)). lra.
  - exists l. split; [exact P|exact C].
Qed.

Lemma steps_vanish : converges (fun k => (x (S k) - x k)%v) vzero.
Proof.
  apply vanishing. apply (summable_vanishes v v_pos). apply (summable_le _ (fun k => t k * v k) 1); [lra| |exact steps_summable].
  intros k. pose proof (T1 k). pose proof (v_pos k). assert (0 <= (t k - 1) * v k) by (apply Rmult_le_pos; lra). lra.
Qed.
End Min.

(** * Convergence of the iterates *)
Variable T : H -> H.
Hypothesis Tcont : seq_continuous T.
Hypothesis ET : forall k, x (S k) = T (y k).
Hypothesis Fix : forall p, T p = p <-> minimises D F p.
Hypothesis FD : finite_dimensional H.

Lemma accel_converges z : minimises D F z -> exists l, minimises D F l /\ converges x l /\ converges y l.
Proof.
  intros Mz. pose proof (steps_vanish z Mz) as Sv.
  assert (Yx : converges (fun k => (y (S k) - x k)%v) vzero).
  { apply vanishing. intros e He. destruct (proj1 (converges_sq _ _) Sv (e / 4) ltac:(lra)) as (N & Q). exists N. intros n Hn. specialize (Q n Hn).
    replace (x (S n) - x n - vzero)%v with (x (S n) - x n)%v in Q by vring. rewrite Hy. fold (al n).
    replace (x (S n) + al n * (x (S n) - x n) - x n)%v with ((1 + al n) * (x (S n) - x n))%v by vring.
    rewrite nsq_scal. destruct (al_range n) as [Ra1 Ra2]. pose proof (nsq_pos (x (S n) - x n)%v).
    assert ((1 + al n) * (1 + al n) * nsq (x (S n) - x n)%v <= 4 * nsq (x (S n) - x n)%v) by (apply Rmult_le_compat_r; [assumption|nra]). lra. }
  assert (Bd : exists B, forall n, norm (x n) <= B).
  { destruct (distance_cv z Mz) as (l & _ & C).
    destruct (maj_by_pos _ (exist _ l C)) as (B & PB & HB). exists (norm z + sqrt B). intros n.
    replace (x n) with (z + (x n - z))%v by vring. apply Rle_trans with (1 := norm_triangle z (x n - z)%v).
    replace (z + (x n - z) - z)%v with (x n - z)%v by vring.
    apply Rplus_le_compat_l. unfold norm. apply sqrt_le_1_alt. specialize (HB n). cbv beta in HB. pose proof (Rle_abs (nsq (x n - z)%v)). fold (nsq (x n - z)%v). lra. }
  destruct Bd as (B & Bd). destruct (bounded_subsequence FD x B Bd) as (phi & l & I & Cv).
  assert (Cy : converges (fun n => y (S (phi n))) l).
  { apply converges_near with (fun n => x (phi n)); [|exact Cv]. apply (converges_sub _ _ phi I Yx). }
  assert (C1 : converges (fun n => x (S (phi n))) l).
  { apply converges_near with (fun n => x (phi n)); [|exact Cv]. apply (converges_sub _ _ phi I Sv). }
  assert (C2 : converges (fun n => x (S (S (phi n)))) l).
  { apply converges_near with (fun n => x (S (phi n))); [|exact C1].
    apply (converges_sub (fun n => (x (S n) - x n)%v) _ (fun n => S (phi n))); [|exact Sv]. intros n. specialize (I n). lia. }
  assert (Ml : minimises D F l).
  { apply Fix. apply (converges_unique (fun n => x (S (S (phi n))))); [|exact C2].
    apply converges_ext with (fun n => T (y (S (phi n)))); [intros n; symmetry; apply ET|]. apply Tcont. exact Cy. }
  destruct (distance_cv l Ml) as (d & Pd & Cd).
  assert (Ed : d = 0).
  { apply Rle_antisym; [|exact Pd]. apply Rnot_lt_le. intros L.
    destruct (Cd (d / 2) ltac:(lra)) as (N & Q). destruct (proj1 (converges_sq _ _) Cv (d / 2) ltac:(lra)) as (N' & Q').
    specialize (Q' (N + N')%nat ltac:(lia)). pose proof (idx_ge phi I (N + N')%nat) as G. specialize (Q (phi (N + N')%nat) ltac:(lia)).
    unfold R_dist in Q. pose proof (Rle_abs (- (nsq (x (phi (N + N')%nat) - l)%v - d))) as Ab. rewrite Rabs_Ropp in Ab. lra. }
  subst d. assert (Cx : converges x l).
  { apply converges_sq. intros e He. destruct (Cd e He) as (N & Q). exists N. intros n Hn. specialize (Q n Hn). unfold R_dist in Q.
    rewrite Rminus_0_r in Q. pose proof (Rle_abs (nsq (x n - l)%v)). lra. }
  exists l. split; [exact Ml|]. split; [exact Cx|]. apply converges_shift.
  apply converges_near with x; assumption.
Qed.
End Accel.
