(** Sequences in inner-product spaces: bounded sequences of a finite-dimensional space have
    convergent subsequences, and sequences that approach every point of a set converge. *)
From Verif Require Import NPReal Py IPS Spec_Opt Proof_Smooth Spec_Lim.
From Coq Require Import List Lia ConstructiveEpsilon Rtopology SeqProp.
Import ListNotations.
Local Open Scope R_scope.

Definition increasing_idx (phi : nat -> nat) : Prop := forall n, (phi n < phi (S n))%nat.

Lemma idx_ge phi : increasing_idx phi -> forall n, (n <= phi n)%nat.
Proof. intros I n. induction n as [|n IH]; [lia|]. specialize (I n). lia. Qed.
Lemma idx_mono phi : increasing_idx phi -> forall n m, (n < m)%nat -> (phi n < phi m)%nat.
Proof. intros I n m L. induction L as [|m L IH]; [apply I|]. specialize (I m). lia. Qed.
Lemma idx_comp phi psi : increasing_idx phi -> increasing_idx psi -> increasing_idx (fun n => phi (psi n)).
Proof. intros I J n. apply idx_mono; [exact I|apply J]. Qed.

Section Seq.
Context {H : ips}.
Implicit Types (u v : nat -> H) (l x y : H).

Lemma norm_lt x e : 0 < e -> (norm x < e <-> nsq x < e * e).
Proof.
  intros He. rewrite <- norm_sq. pose proof (norm_pos x). split; intros Q; [nra|].
  apply Rnot_le_lt. intros G. nra.
Qed.

Lemma converges_sq u l : converges u l <-> forall e, 0 < e -> exists N, forall n, (N <= n)%nat -> nsq (u n - l)%v < e.
Proof.
  split; intros C e He.
  - destruct (C (sqrt e) (sqrt_lt_R0 _ He)) as (N & Q). exists N. intros n Hn. specialize (Q n Hn).
    apply norm_lt in Q; [|apply sqrt_lt_R0, He]. rewrite sqrt_sqrt in Q by lra. exact Q.
  - destruct (C (e * e)) as (N & Q); [nra|]. exists N. intros n Hn. apply norm_lt; [exact He|]. apply Q, Hn.
Qed.

Lemma converges_ext u v l : (forall n, u n = v n) -> converges u l -> converges v l.
Proof. intros E C e He. destruct (C e He) as (N & Q). exists N. intros n Hn. rewrite <- E. apply Q, Hn. Qed.

Lemma converges_sub u l phi : increasing_idx phi -> converges u l -> converges (fun n => u (phi n)) l.
Proof.
  intros I C e He. destruct (C e He) as (N & Q). exists N. intros n Hn. apply Q.
  pose proof (idx_ge phi I n). lia.
Qed.

Lemma converges_const l : converges (fun _ => l) l.
Proof. intros e He. exists 0%nat. intros n _. rewrite vsub_self, norm_0. exact He. Qed.

Lemma converges_add u v l m : converges u l -> converges v m -> converges (fun n => (u n + v n)%v) (l + m)%v.
Proof.
  intros A B e He. destruct (A (e / 2) ltac:(lra)) as (N1 & Q1), (B (e / 2) ltac:(lra)) as (N2 & Q2).
  exists (N1 + N2)%nat. intros n Hn. specialize (Q1 n ltac:(lia)). specialize (Q2 n ltac:(lia)).
  replace (u n + v n - (l + m))%v with ((u n - l) + (v n - m))%v by vring.
  pose proof (norm_triangle (u n - l)%v (v n - m)%v). lra.
Qed.

Lemma converges_scal a u l : converges u l -> converges (fun n => (a * u n)%v) (a * l)%v.
Proof.
  intros A e He. assert (P : 0 < Rabs a + 1) by (pose proof (Rabs_pos a); lra).
  destruct (A (e / (Rabs a + 1))) as (N & Q); [apply Rdiv_lt_0_compat; lra|].
  exists N. intros n Hn. specialize (Q n Hn). replace (a * u n - a * l)%v with (a * (u n - l))%v by vring.
  rewrite norm_scal. pose proof (Rabs_pos a). pose proof (norm_pos (u n - l)%v) as P0.
  apply Rle_lt_trans with ((Rabs a + 1) * norm (u n - l)%v); [nra|].
  apply Rmult_lt_compat_l with (r := Rabs a + 1) in Q; [|exact P].
  replace ((Rabs a + 1) * (e / (Rabs a + 1))) with e in Q by (field; lra). exact Q.
Qed.

Lemma converges_sub_v u v l m : converges u l -> converges v m -> converges (fun n => (u n - v n)%v) (l - m)%v.
Proof. intros A B. unfold vsub. apply converges_add; [exact A|]. apply converges_scal, B. Qed.

Lemma converges_unique u l m : converges u l -> converges u m -> l = m.
Proof.
  intros A B. apply sub_eq0, norm_eq0. pose proof (norm_pos (l - m)%v) as P. apply Rle_antisym; [|exact P].
  apply Rnot_lt_le. intros Q. destruct (A (norm (l - m)%v / 2) ltac:(lra)) as (N1 & Q1), (B (norm (l - m)%v / 2) ltac:(lra)) as (N2 & Q2).
  specialize (Q1 (N1 + N2)%nat ltac:(lia)). specialize (Q2 (N1 + N2)%nat ltac:(lia)).
  replace (l - m)%v with ((-1) * (u (N1 + N2)%nat - l) + (u (N1 + N2)%nat - m))%v in * by vring.
  pose proof (norm_triangle ((-1) * (u (N1 + N2)%nat - l))%v (u (N1 + N2)%nat - m)%v) as T.
  rewrite norm_scal in T. replace (Rabs (-1)) with 1 in T by (rewrite Rabs_left; lra). lra.
Qed.

(** If the difference of two sequences vanishes they have the same limits. *)
Lemma converges_near u v l : converges (fun n => (u n - v n)%v) vzero -> converges v l -> converges u l.
Proof.
  intros A B. apply converges_ext with (fun n => ((u n - v n) + v n)%v); [intros n; vring|].
  replace l with (vzero + l)%v by vring. apply converges_add; assumption.
Qed.

Lemma converges_shift u l : converges (fun n => u (S n)) l -> converges u l.
Proof. intros C e He. destruct (C e He) as (N & Q). exists (S N). intros [|n] Hn; [lia|]. apply Q. lia. Qed.

(** A point approached infinitely often is the limit of a subsequence. *)
Lemma cluster_subsequence u l :
  (forall e N, 0 < e -> exists n, (N <= n)%nat /\ norm (u n - l)%v < e) ->
  exists phi, increasing_idx phi /\ converges (fun n => u (phi n)) l.
Proof.
  intros C. assert (pick : forall (k N : nat), { n : nat | (N <= n)%nat /\ norm (u n - l)%v < / INR (S k) }).
  { intros k N. apply constructive_indefinite_ground_description_nat.
    - intros n. destruct (le_dec N n) as [A|A]; [|right; tauto]. destruct (Rlt_dec (norm (u n - l)%v) (/ INR (S k))) as [B|B]; [left; tauto|right; tauto].
    - apply C. apply Rinv_0_lt_compat. apply lt_0_INR. lia. }
  set (phi := fix phi n := match n with O => proj1_sig (pick 0%nat 0%nat) | S n' => proj1_sig (pick n (S (phi n'))) end).
  exists phi. split.
  - intros n. change (phi (S n)) with (proj1_sig (pick (S n) (S (phi n)))). pose proof (proj2_sig (pick (S n) (S (phi n)))) as [Q _]. lia.
  - assert (B : forall n, norm (u (phi n) - l)%v < / INR (S n)).
    { intros [|n].
      - change (phi 0%nat) with (proj1_sig (pick 0%nat 0%nat)). apply (proj2_sig (pick 0%nat 0%nat)).
      - change (phi (S n)) with (proj1_sig (pick (S n) (S (phi n)))). apply (proj2_sig (pick (S n) (S (phi n)))). }
    intros e He. destruct (archimed_cor1 e He) as (N & Q & Pos). exists N. intros n Hn.
    apply Rlt_trans with (/ INR (S n)); [apply B|]. apply Rle_lt_trans with (/ INR N); [|exact Q].
    apply Rinv_le_contravar; [apply lt_0_INR; exact Pos|]. apply le_INR. lia.
Qed.
End Seq.

(** Real numbers. *)
Lemma norm_R (x : R_ips) : norm x = Rabs x.
Proof. unfold norm. cbn. apply sqrt_Rsqr_abs. Qed.

Lemma bounded_R (u : nat -> R) B : (forall n, Rabs (u n) <= B) ->
  exists phi l, increasing_idx phi /\ converges (H := R_ips) (fun n => u (phi n)) l.
Proof.
  intros Bd. assert (HB : forall n, - B <= u n <= B) by (intros n; specialize (Bd n); unfold Rabs in Bd; destruct (Rcase_abs (u n)); lra).
  destruct (Bolzano_Weierstrass u (fun c => - B <= c <= B) (compact_P3 (- B) B) HB) as (l & V).
  destruct (cluster_subsequence (H := R_ips) u l) as (phi & I & C).
  { intros e N He. destruct (V (disc l (mkposreal e He)) N) as (p & Hp & Q); [exists (mkposreal e He); intros x Hx; exact Hx|].
    exists p. split; [exact Hp|]. rewrite norm_R. unfold disc in Q. cbn in *. replace (u p + -1 * l) with (u p - l) by lra. exact Q. }
  exists phi, l. split; assumption.
Qed.

Lemma converges_weighted {H : ips} (es : list H) : forall (us : nat -> list R) (cs : list R),
  (forall n, length (us n) = length es) -> length cs = length es ->
  (forall i, (i < length es)%nat -> converges (H := R_ips) (fun n => nth i (us n) 0) (nth i cs 0)) ->
  converges (fun n => weighted_sum (us n) es) (weighted_sum cs es).
Proof.
  induction es as [|e es IH]; intros us cs Lu Lc C.
  - destruct cs; [|discriminate]. cbn. apply converges_ext with (fun _ => vzero); [intros n; destruct (us n); reflexivity|apply converges_const].
  - destruct cs as [|c cs]; [discriminate|]. cbn [weighted_sum].
    apply converges_ext with (fun n => (nth 0 (us n) 0 * e + weighted_sum (tl (us n)) es)%v).
    { intros n. specialize (Lu n). destruct (us n) as [|a l]; [discriminate|]. reflexivity. }
    apply converges_add.
    + specialize (C 0%nat ltac:(cbn; lia)). cbn [nth] in C. intros t Ht. assert (P : 0 < norm e + 1) by (pose proof (norm_pos e); lra).
      destruct (C (t / (norm e + 1))) as (N & Q); [apply Rdiv_lt_0_compat; lra|]. exists N. intros n Hn. specialize (Q n Hn).
      rewrite norm_R in Q. cbn [vsub] in Q. set (a := nth 0 (us n) 0) in *.
      replace (a * e - c * e)%v with ((a - c) * e)%v by vring. rewrite norm_scal. unfold vsub in Q. cbn in Q.
      replace (a + -1 * c) with (a - c) in Q by lra. pose proof (norm_pos e). pose proof (Rabs_pos (a - c)).
      apply Rle_lt_trans with (Rabs (a - c) * (norm e + 1)); [nra|].
      apply Rmult_lt_compat_r with (r := norm e + 1) in Q; [|exact P].
      replace (t / (norm e + 1) * (norm e + 1)) with t in Q by (field; lra). exact Q.
    + apply IH.
      * intros n. specialize (Lu n). destruct (us n); [discriminate|]. cbn in *. lia.
      * cbn in Lc. lia.
      * intros i Hi. specialize (C (S i) ltac:(cbn; lia)). cbn [nth] in C.
        apply converges_ext with (2 := C). intros n. specialize (Lu n). destruct (us n); [discriminate|]. reflexivity.
Qed.

Section Compact.
Context {H : ips}.
Hypothesis FD : finite_dimensional H.

Lemma bounded_coordinates (u : nat -> H) B : (forall n, norm (u n) <= B) -> forall es : list H,
  exists phi cs, increasing_idx phi /\ length cs = length es /\
    forall i, (i < length es)%nat -> converges (H := R_ips) (fun n => inner (u (phi n)) (nth i es vzero)) (nth i cs 0).
Proof.
  intros Bd. induction es as [|e es (phi & cs & I & L & C)].
  - exists (fun n => n), []. split; [intros n; lia|]. split; [reflexivity|]. intros i Hi. cbn in Hi. lia.
  - destruct (bounded_R (fun n => inner (u (phi n)) e) (B * norm e)) as (psi & c & J & Q).
    { intros n. specialize (Bd (phi n)). pose proof (norm_pos e).
      apply Rle_trans with (norm (u (phi n)) * norm e); [|apply Rmult_le_compat_r; assumption].
      apply Rabs_le. pose proof (cauchy_schwarz_norm (u (phi n)) e) as C1. pose proof (cauchy_schwarz_norm ((-1) * u (phi n))%v e) as C2.
      rewrite norm_scal, inner_scal_l in C2. replace (Rabs (-1)) with 1 in C2 by (rewrite Rabs_left; lra). lra. }
    exists (fun n => phi (psi n)), (c :: cs). split; [apply idx_comp; assumption|]. split; [cbn; lia|].
    intros [|i] Hi; cbn [nth]; [exact Q|]. cbn in Hi.
    apply (converges_sub (H := R_ips) (fun n => inner (u (phi n)) (nth i es vzero)) _ psi J). apply C. lia.
Qed.

Lemma bounded_subsequence (u : nat -> H) B : (forall n, norm (u n) <= B) ->
  exists phi l, increasing_idx phi /\ converges (fun n => u (phi n)) l.
Proof.
  intros Bd. destruct FD as (es & F). destruct (bounded_coordinates u B Bd es) as (phi & cs & I & L & C).
  exists phi, (weighted_sum cs es). split; [exact I|].
  apply converges_ext with (fun n => weighted_sum (map (fun e => inner (u (phi n)) e) es) es); [intros n; symmetry; apply F|].
  apply converges_weighted; [intros n; apply map_length|exact L|].
  intros i Hi. apply converges_ext with (2 := C i Hi). intros n.
  rewrite (nth_indep _ 0 (inner (u (phi n)) vzero)) by (rewrite map_length; exact Hi).
  rewrite (map_nth (fun e => inner (u (phi n)) e)). reflexivity.
Qed.

(** Fejer monotone sequences, in a metric given by a form equivalent to the squared norm. *)
Lemma fejer_converges (u : nat -> H) (St : H -> Prop) (Q : H -> R) c C :
  0 < c -> (forall v, c * nsq v <= Q v <= C * nsq v) ->
  (forall p, St p -> forall n, Q (u (S n) - p)%v <= Q (u n - p)%v) ->
  (exists p, St p) ->
  (forall phi l, increasing_idx phi -> converges (fun n => u (phi n)) l -> St l) ->
  exists l, St l /\ converges u l.
Proof.
  intros Hc Eq Mono (p & Hp) Cl.
  assert (M0 : forall q, St q -> forall n m, (n <= m)%nat -> Q (u m - q)%v <= Q (u n - q)%v).
  { intros q Hq n m L. induction L as [|m L IH]; [lra|]. specialize (Mono q Hq m). lra. }
  assert (Bd : forall n, norm (u n) <= norm p + sqrt (Q (u 0%nat - p)%v / c)).
  { intros n. replace (u n) with (p + (u n - p))%v by vring. apply Rle_trans with (1 := norm_triangle p (u n - p)%v).
    replace (p + (u n - p) - p)%v with (u n - p)%v by vring.
    apply Rplus_le_compat_l. unfold norm. apply sqrt_le_1_alt. apply Rmult_le_reg_l with c; [exact Hc|].
    replace (c * (Q (u 0%nat - p)%v / c)) with (Q (u 0%nat - p)%v) by (field; lra).
    apply Rle_trans with (Q (u n - p)%v); [apply Eq|apply M0; [exact Hp|lia]]. }
  destruct (bounded_subsequence u _ Bd) as (phi & l & I & Cv). pose proof (Cl phi l I Cv) as Hl.
  exists l. split; [exact Hl|]. apply converges_sq. intros e He.
  assert (HC : 0 < Rmax C 1) by (apply Rlt_le_trans with 1; [lra|apply Rmax_r]).
  apply converges_sq with (e := c * e / Rmax C 1) in Cv; [|apply Rdiv_lt_0_compat; nra].
  destruct Cv as (N & Cv). specialize (Cv N (le_n N)). exists (phi N). intros n Hn.
  specialize (M0 l Hl _ _ Hn). destruct (Eq (u n - l)%v) as [E1 _]. destruct (Eq (u (phi N) - l)%v) as [_ E2].
  assert (X : C * nsq (u (phi N) - l)%v < c * e).
  { apply Rle_lt_trans with (Rmax C 1 * nsq (u (phi N) - l)%v); [apply Rmult_le_compat_r; [apply nsq_pos|apply Rmax_l]|].
    apply Rmult_lt_compat_l with (r := Rmax C 1) in Cv; [|exact HC].
    replace (Rmax C 1 * (c * e / Rmax C 1)) with (c * e) in Cv by (field; lra). exact Cv. }
  apply Rmult_lt_reg_l with c; [exact Hc|]. lra.
Qed.
End Compact.

(** What is subtracted infinitely often from a nonnegative quantity vanishes. *)
Lemma residual_vanishes (a r : nat -> R) d : 0 < d -> (forall n, 0 <= a n) -> (forall n, 0 <= r n) ->
  (forall n, a (S n) + d * r n <= a n) -> forall e, 0 < e -> exists N, forall n, (N <= n)%nat -> r n < e.
Proof.
  intros Hd Ha Hr Hs e He.
  assert (D : Un_decreasing a) by (intros n; specialize (Hs n); specialize (Hr n); nra).
  assert (B : has_lb a) by (exists 0; intros x (n & ->); unfold opp_seq; specialize (Ha n); lra).
  destruct (decreasing_cv a D B) as (l & Cv).
  pose proof (CV_Cauchy a (exist _ l Cv)) as Cy. destruct (Cy (d * e) ltac:(nra)) as (N & Q).
  exists N. intros n Hn. specialize (Q n (S n) ltac:(lia) ltac:(lia)). unfold R_dist in Q.
  specialize (Hs n). pose proof (Rle_abs (a n - a (S n))). apply Rmult_lt_reg_l with d; [exact Hd|]. lra.
Qed.

(** and its average over the first updates decays like one over their number. *)
Lemma residual_sum (a r : nat -> R) d : 0 < d -> (forall n, 0 <= a n) ->
  (forall n, a (S n) + d * r n <= a n) -> forall n, d * rsum (map r (seq 0 n)) <= a 0%nat.
Proof.
  intros Hd Ha Hs n. assert (G : d * rsum (map r (seq 0 n)) + a n <= a 0%nat); [|specialize (Ha n); lra].
  induction n as [|n IH]; [cbn; lra|]. rewrite seq_S, map_app. specialize (Hs n).
  assert (E : forall l m, rsum (l ++ m) = rsum l + rsum m) by (clear; intros l m; unfold rsum in *; induction l as [|x l IHl]; cbn; [lra|rewrite IHl; lra]).
  rewrite E. change (rsum (map r [(0 + n)%nat])) with (r n + 0). rewrite Rmult_plus_distr_l. lra.
Qed.

(** * Finite-dimensional spaces *)
Lemma weighted_sum_app {H : ips} (ws vs : list R) (xs ys : list H) : length ws = length xs ->
  weighted_sum (ws ++ vs) (xs ++ ys) = (weighted_sum ws xs + weighted_sum vs ys)%v.
Proof.
  revert xs. induction ws as [|w ws IH]; intros [|x xs] L; cbn in *; try discriminate; [vring|].
  rewrite IH by lia. rewrite vadd_assoc. reflexivity.
Qed.

Lemma fd_R : finite_dimensional R_ips.
Proof. exists [1]. intros x. change (x = x * 1 * 1 + 0). lra. Qed.

Lemma fd_prod (A B : ips) : finite_dimensional A -> finite_dimensional B -> finite_dimensional (prod_ips A B).
Proof.
  intros (ea & Fa) (eb & Fb). exists (map (fun a => (a, vzero) : prod_ips A B) ea ++ map (fun b => (vzero, b) : prod_ips A B) eb).
  intros [x y]. rewrite map_app, !map_map. rewrite weighted_sum_app by (rewrite !map_length; reflexivity).
  assert (E1 : forall ws, weighted_sum ws (map (fun a => (a, vzero) : prod_ips A B) ea) = (weighted_sum ws ea, vzero)).
  { clear. induction ea as [|a ea IH]; intros [|w ws]; cbn [map weighted_sum]; try reflexivity. rewrite IH. cbn. f_equal. vring. }
  assert (E2 : forall ws, weighted_sum ws (map (fun b => (vzero, b) : prod_ips A B) eb) = (vzero, weighted_sum ws eb)).
  { clear. induction eb as [|a ea IH]; intros [|w ws]; cbn [map weighted_sum]; try reflexivity. rewrite IH. cbn. f_equal. vring. }
  rewrite E1, E2. cbn [inner prod_ips fst snd vadd].
  rewrite (map_ext (fun a => inner x a + inner y vzero) (fun a => inner x a)) by (intros a; rewrite inner_0_r; lra).
  rewrite (map_ext (fun b => inner x vzero + inner y b) (fun b => inner y b)) by (intros b; rewrite inner_0_r; lra).
  rewrite <- Fa, <- Fb. f_equal; vring.
Qed.

(** A linear isometry onto B. *)
Lemma fd_iso (A B : ips) (i : A -> B) (j : B -> A) : finite_dimensional A -> (forall y, i (j y) = y) ->
  (forall x y, i (x + y)%v = (i x + i y)%v) -> (forall a x, i (a * x)%v = (a * i x)%v) ->
  (forall x y, inner (i x) (i y) = inner x y) -> finite_dimensional B.
Proof.
  intros (es & F) E Add Scal Iso. exists (map i es). intros y. rewrite map_map.
  rewrite <- (E y) at 1. rewrite (F (j y)) at 1.
  rewrite (map_ext (fun x => inner y (i x)) (fun x => inner (j y) x)) by (intros x; rewrite <- Iso, E; reflexivity).
  generalize (map (fun e => inner (j y) e) es). clear F. induction es as [|e es IH]; intros [|w ws]; cbn [map weighted_sum].
  1,2,3: replace (vzero : A) with (0 * vzero : A)%v by vring; rewrite Scal; vring.
  rewrite Add, Scal, IH. reflexivity.
Qed.

Lemma fd_Rn n : finite_dimensional (Rn n).
Proof.
  induction n as [|n IH].
  - exists []. intros [l L]. apply Rvec_eq. cbn. destruct l; [reflexivity|discriminate].
  - set (i := fun p : prod_ips R_ips (Rn n) => (exist _ (fst p :: proj1_sig (snd p)) (f_equal S (proj2_sig (snd p))) : Rn (S n))).
    assert (J : forall y : Rn (S n), exists p, i p = y).
    { intros [[|a l] L]; [discriminate|]. assert (L' : length l = n) by (cbn in L; lia).
      exists ((a : R_ips), (exist _ l L' : Rn n)). apply Rvec_eq. reflexivity. }
    set (j := fun y : Rn (S n) => match proj1_sig y as l return length l = S n -> prod_ips R_ips (Rn n) with
               | [] => fun _ => vzero | a :: l => fun L => ((a : R_ips), (exist _ l (eq_add_S _ _ L) : Rn n)) end (proj2_sig y)).
    apply (fd_iso (prod_ips R_ips (Rn n)) (Rn (S n)) i j).
    + apply fd_prod; [apply fd_R|exact IH].
    + intros [[|a l] L]; [discriminate|]. apply Rvec_eq. reflexivity.
    + intros [a x] [b y]. apply Rvec_eq. reflexivity.
    + intros a [b y]. apply Rvec_eq. reflexivity.
    + intros [a x] [b y]. reflexivity.
Qed.
