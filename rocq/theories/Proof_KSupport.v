(** The k-support norm and its proximity operator, for exact thresholds. *)
From Verif Require Import NPReal Py Spec_SVD Proof_SVD Proof_SVDMore Spec_KSupport.
From Coq Require Import List Lia Psatz.
Import ListNotations.
Local Open Scope R_scope.

Definition ind (T : list nat) (i : nat) : R := if in_dec Nat.eq_dec i T then 1 else 0.

Lemma sum_ind T d f : NoDup T -> Forall (fun i => (i < d)%nat) T ->
  rsum (map f T) = bsum d (fun i => ind T i * f i).
Proof.
  induction T as [|a T IH]; intros ND F.
  - cbn. rewrite bsum_0; [reflexivity|]. intros i _. unfold ind. cbn. ring.
  - apply NoDup_cons_iff in ND. destruct ND as [NI ND]. pose proof (Forall_inv F) as Fa. apply Forall_inv_tail in F.
    change (rsum (map f (a :: T))) with (f a + rsum (map f T)). rewrite (IH ND F).
    rewrite <- (bsum_delta d a f Fa), <- bsum_plus. apply bsum_ext. intros i _.
    unfold ind. destruct (Nat.eqb_spec i a) as [->|N].
    + destruct (in_dec Nat.eq_dec a T); [contradiction|]. destruct (in_dec Nat.eq_dec a (a :: T)) as [_|C]; [ring|].
      elim C. left. reflexivity.
    + destruct (in_dec Nat.eq_dec i T) as [I|I]; destruct (in_dec Nat.eq_dec i (a :: T)) as [J|J]; try ring.
      * elim J. right. exact I.
      * destruct J as [J|J]; [congruence|contradiction].
Qed.

Lemma count_ind T d : NoDup T -> Forall (fun i => (i < d)%nat) T -> bsum d (ind T) = INR (length T).
Proof.
  intros ND F. transitivity (rsum (map (fun _ => 1) T)).
  - rewrite (sum_ind T d _ ND F). apply bsum_ext. intros. ring.
  - clear ND F. induction T as [|a T IH]; [reflexivity|].
    change (rsum (map (fun _ => 1) (a :: T))) with (1 + rsum (map (fun _ : nat => 1) T)). rewrite IH.
    cbn [length]. rewrite S_INR. ring.
Qed.

Lemma argmax (v : nat -> R) l : l <> [] -> exists j, In j l /\ forall i, In i l -> v i <= v j.
Proof.
  induction l as [|a l IH]; intros N; [contradiction|].
  destruct l as [|b l]; [exists a; split; [left; reflexivity|]; intros i [->|[]]; lra|].
  destruct (IH ltac:(discriminate)) as (j & J & M). destruct (Rle_dec (v a) (v j)) as [L|L].
  - exists j. split; [right; exact J|]. intros i [->|I]; [exact L|apply M, I].
  - exists a. split; [left; reflexivity|]. intros i [->|I]; [lra|]. specialize (M i I). lra.
Qed.

Lemma topk (v : nat -> R) d k : (forall i, 0 <= v i) -> (k <= d)%nat ->
  exists T c, NoDup T /\ Forall (fun i => (i < d)%nat) T /\ length T = k /\ 0 <= c /\
    (forall i, In i T -> c <= v i) /\ (forall i, (i < d)%nat -> ~ In i T -> v i <= c).
Proof.
  intros V. induction k as [|k IH]; intros L.
  - exists [], (bsum d v). split; [constructor|]. split; [constructor|]. split; [reflexivity|].
    split; [apply bsum_nonneg; auto|]. split; [intros i []|]. intros i I _. apply bsum_term; auto.
  - destruct (IH ltac:(lia)) as (T & c & ND & F & E & C & A & B).
    destruct (argmax v (filter (fun i => if in_dec Nat.eq_dec i T then false else true) (seq 0 d))) as (j & J & M).
    + intros Z. assert (I : incl (seq 0 d) T).
      { intros i I. destruct (in_dec Nat.eq_dec i T) as [Y|Y]; [exact Y|].
        assert (K : In i []); [|destruct K]. rewrite <- Z. apply filter_In. split; [exact I|].
        destruct (in_dec Nat.eq_dec i T); [contradiction|reflexivity]. }
      apply NoDup_incl_length in I; [|apply seq_NoDup]. rewrite seq_length in I. lia.
    + apply filter_In in J. destruct J as [J NJ]. apply in_seq in J. destruct (in_dec Nat.eq_dec j T) as [|NI]; [discriminate|].
      exists (j :: T), (v j). split; [constructor; assumption|]. split; [constructor; [lia|exact F]|].
      split; [cbn; lia|]. split; [apply V|]. split.
      * intros i [->|I]; [lra|]. specialize (A i I). specialize (B j ltac:(lia) NI). lra.
      * intros i I N. apply M. apply filter_In. split; [apply in_seq; lia|].
        destruct (in_dec Nat.eq_dec i T) as [Y|Y]; [elim N; right; exact Y|reflexivity].
Qed.

(** A fractional choice of at most k entries is no better than the best choice. *)
Lemma knapsack k d (th u : nat -> R) : (forall i, (i < d)%nat -> 0 <= th i <= 1) -> bsum d th <= INR k ->
  top_le_1 k d u -> bsum d (fun i => th i * (u i * u i)) <= 1.
Proof.
  intros T01 SK U.
  assert (V : forall i, 0 <= u i * u i) by (intros; nra).
  destruct (topk (fun i => u i * u i) d (Nat.min k d) V (Nat.le_min_r _ _)) as (T & c & ND & F & E & C & A & B).
  eapply Rle_trans; [|apply (U T ND F); rewrite E; apply Nat.le_min_l].
  rewrite (sum_ind T d _ ND F).
  assert (S1 : bsum d th <= INR (length T)).
  { rewrite E. destruct (Nat.min_spec k d) as [[_ ->]|[_ ->]]; [exact SK|].
    eapply Rle_trans; [apply (bsum_le d th (fun _ => 1)); intros i I; apply T01, I|]. rewrite bsum_const. lra. }
  rewrite <- (count_ind T d ND F) in S1.
  assert (D : bsum d (fun i => th i * (u i * u i) - ind T i * (u i * u i)) <= bsum d (fun i => c * (th i - ind T i))).
  { apply bsum_le. intros i I. specialize (T01 i I). unfold ind. destruct (in_dec Nat.eq_dec i T) as [Y|Y].
    - specialize (A i Y). cbn beta in A. generalize dependent (u i * u i). intros v A. nra.
    - specialize (B i I Y). cbn beta in B. generalize dependent (u i * u i). intros v B. nra. }
  rewrite bsum_minus, bsum_scal, bsum_minus in D. nra.
Qed.

Lemma top_unit k d u i : (1 <= k)%nat -> top_le_1 k d u -> (i < d)%nat -> -1 <= u i <= 1.
Proof.
  intros K U I. specialize (U [i]). cbn in U.
  assert (H : u i * u i + 0 <= 1) by (apply U; [constructor; [intros []|constructor]|constructor; [exact I|constructor]|exact K]).
  nra.
Qed.

Lemma top_zero k d : top_le_1 k d (fun _ => 0).
Proof.
  intros T _ _ _. replace (rsum (map (fun _ : nat => 0 * 0) T)) with 0; [lra|].
  induction T; cbn; [reflexivity|]. unfold rsum in IHT. rewrite <- IHT. ring.
Qed.

Lemma top_scale k d u c : (0 < c) -> (forall T, NoDup T -> Forall (fun i => (i < d)%nat) T -> (length T <= k)%nat ->
    rsum (map (fun i => u i * u i) T) <= c * c) -> top_le_1 k d (fun i => u i / c).
Proof.
  intros C H T ND F L. specialize (H T ND F L). rewrite (sum_ind T d _ ND F) in H. rewrite (sum_ind T d _ ND F).
  replace (bsum d (fun i => ind T i * (u i / c * (u i / c)))) with (/ (c * c) * bsum d (fun i => ind T i * (u i * u i))).
  - apply (Rmult_le_reg_l (c * c)); [nra|]. rewrite <- Rmult_assoc, Rinv_r by (apply Rmult_integral_contrapositive_currified; lra). lra.
  - rewrite <- bsum_scal. apply bsum_ext. intros. field. lra.
Qed.

(** The k-support norm exists. *)
Lemma ksup_exists k d z : (1 <= k)%nat -> exists c, is_ksup k d z c.
Proof.
  intros K. destruct (completeness (fun r => exists u, top_le_1 k d u /\ r = dotv d z u)) as [c C].
  - exists (bsum d (fun i => Rabs (z i))). intros r (u & U & ->). apply bsum_le. intros i I.
    pose proof (top_unit k d u i K U I). unfold Rabs. destruct (Rcase_abs _); nra.
  - exists 0, (fun _ => 0). split; [apply top_zero|]. unfold dotv. rewrite bsum_0; [reflexivity|]. intros; ring.
  - exists c. exact C.
Qed.

Lemma ksup_nonneg k d z c : is_ksup k d z c -> 0 <= c.
Proof.
  intros [U _]. apply U. exists (fun _ => 0). split; [apply top_zero|]. unfold dotv. rewrite bsum_0; [reflexivity|]. intros; ring.
Qed.

Lemma ksup_unique k d z c c' : is_ksup k d z c -> is_ksup k d z c' -> c = c'.
Proof. intros [A B] [A' B']. apply Rle_antisym; auto. Qed.

(** Upper bound on the squared norm from a decomposition. *)
Lemma ksup_upper k d z c th g : is_ksup k d z c -> (forall i, (i < d)%nat -> 0 <= th i <= 1) -> bsum d th <= INR k ->
  (forall i, (i < d)%nat -> z i = th i * g i) -> c ^ 2 <= dotv d z g.
Proof.
  intros C T S Z. pose proof (ksup_nonneg _ _ _ _ C) as C0.
  assert (E : dotv d z g = bsum d (fun i => th i * (g i * g i))).
  { apply bsum_ext. intros i I. rewrite (Z i I). ring. }
  assert (E0 : 0 <= dotv d z g).
  { rewrite E. apply bsum_nonneg. intros i I. apply Rmult_le_pos; [apply T, I|apply Rle_0_sqr]. }
  assert (H : forall u, top_le_1 k d u -> dotv d z u <= sqrt (dotv d z g)).
  { intros u U. pose proof (knapsack k d th u T S U) as K.
    destruct (Rle_dec (dotv d z u) 0) as [N|N]; [eapply Rle_trans; [exact N|apply sqrt_pos]|].
    apply Rsqr_incr_0_var; [|apply sqrt_pos]. rewrite Rsqr_sqrt by exact E0. unfold Rsqr.
    (* Cauchy-Schwarz via the discriminant *)
    assert (Q : forall t, 0 <= dotv d z g - 2 * t * dotv d z u + t * t).
    { intros t. assert (0 <= bsum d (fun i => th i * ((g i - t * u i) * (g i - t * u i)))).
      { apply bsum_nonneg. intros i I. apply Rmult_le_pos; [apply T, I|apply Rle_0_sqr]. }
      replace (bsum d (fun i => th i * ((g i - t * u i) * (g i - t * u i)))) with
        (dotv d z g - 2 * t * dotv d z u + t * t * bsum d (fun i => th i * (u i * u i))) in H; [clear - H K; nra|].
      rewrite E. unfold dotv. rewrite <- !bsum_scal, <- bsum_minus, <- bsum_plus. apply bsum_ext. intros i I. rewrite (Z i I). ring. }
    specialize (Q (dotv d z u)). nra. }
  assert (L : c <= sqrt (dotv d z g)).
  { apply C. intros r (u & U & ->). apply H, U. }
  replace (dotv d z g) with (sqrt (dotv d z g) ^ 2) by (rewrite <- Rsqr_pow2; apply Rsqr_sqrt, E0).
  apply pow_incr. lra.
Qed.

(** Lower bound from a dual vector. *)
Lemma ksup_lower k d z c g e : is_ksup k d z c -> 0 <= e ->
  (forall T, NoDup T -> Forall (fun i => (i < d)%nat) T -> (length T <= k)%nat -> rsum (map (fun i => g i * g i) T) <= e) ->
  dotv d z g <= / 2 * e + / 2 * c ^ 2.
Proof.
  intros C E G. destruct E as [E|<-].
  - assert (SE : 0 < sqrt e) by (apply sqrt_lt_R0, E). assert (SS : sqrt e * sqrt e = e) by (apply sqrt_sqrt; lra).
    assert (U : top_le_1 k d (fun i => g i / sqrt e)).
    { apply top_scale; [exact SE|]. intros T A B L. rewrite SS. auto. }
    destruct C as [C _]. specialize (C (dotv d z (fun i => g i / sqrt e)) (ex_intro _ _ (conj U eq_refl))).
    replace (dotv d z g) with (sqrt e * dotv d z (fun i => g i / sqrt e)).
    + apply (Rmult_le_compat_l (sqrt e)) in C; [|lra]. pose proof (Rle_0_sqr (sqrt e - c)) as Q. unfold Rsqr in Q. clear - C Q SS. nra.
    + unfold dotv. rewrite <- bsum_scal. apply bsum_ext. intros. field. lra.
  - assert (H : forall n : R, 0 < n -> n * dotv d z g <= c).
    { intros n N. destruct C as [C _]. replace (n * dotv d z g) with (dotv d z (fun i => g i / (/ n))).
      - apply C. eexists. split; [|reflexivity]. apply top_scale; [apply Rinv_0_lt_compat, N|].
        intros T A B L. eapply Rle_trans; [apply G; assumption|]. pose proof (Rinv_0_lt_compat n N). nra.
      - unfold dotv. rewrite <- bsum_scal. apply bsum_ext. intros. field. lra. }
    destruct (Rle_dec (dotv d z g) 0) as [N|N]; [nra|].
    pose proof (ksup_nonneg _ _ _ _ C) as C0. apply Rnot_le_lt in N.
    specialize (H ((c + 1) / dotv d z g)). replace ((c + 1) / dotv d z g * dotv d z g) with (c + 1) in H by (field; lra).
    assert (0 < (c + 1) / dotv d z g) by (apply Rdiv_lt_0_compat; lra). specialize (H H0). lra.
Qed.

(** Optimality: theta in [0,1], p = w theta / (theta + lam), one level c for the ratios. *)
Lemma ks_optimal k d lam (w th p : nat -> R) c : 0 < lam -> 0 <= c ->
  (forall i, (i < d)%nat -> 0 <= th i <= 1) ->
  (forall i, (i < d)%nat -> p i = w i * th i / (th i + lam)) ->
  (forall i, (i < d)%nat -> th i < 1 -> Rabs (w i) <= c * (th i + lam)) ->
  (forall i, (i < d)%nat -> 0 < th i -> c * (th i + lam) <= Rabs (w i)) ->
  bsum d th <= INR k -> c = 0 \/ bsum d th = INR k ->
  ksup_prox k d lam w p.
Proof.
  intros L C T P LO HI SK CK z cp cz Cp Cz.
  set (g := fun i => w i / (th i + lam)).
  assert (PG : forall i, (i < d)%nat -> p i = th i * g i).
  { intros i I. rewrite (P i I). unfold g. specialize (T i I). field. lra. }
  assert (WP : forall i, (i < d)%nat -> w i - p i = lam * g i).
  { intros i I. rewrite (P i I). unfold g. specialize (T i I). field. lra. }
  pose proof (ksup_upper k d p cp th g Cp T SK PG) as Up.
  assert (E : dotv d p g = bsum d (fun i => th i * (g i * g i))).
  { apply bsum_ext. intros i I. rewrite (PG i I). ring. }
  assert (G2 : forall i, (i < d)%nat -> Rabs (g i) = Rabs (w i) / (th i + lam)).
  { intros i I. specialize (T i I). unfold g, Rdiv. rewrite Rabs_mult, (Rabs_right (/ (th i + lam))); [reflexivity|].
    apply Rle_ge, Rlt_le, Rinv_0_lt_compat. lra. }
  assert (DU : forall T0, NoDup T0 -> Forall (fun i => (i < d)%nat) T0 -> (length T0 <= k)%nat ->
            rsum (map (fun i => g i * g i) T0) <= dotv d p g).
  { intros T0 ND F LT. rewrite (sum_ind T0 d _ ND F), E.
    assert (D : bsum d (fun i => c * c * (th i - ind T0 i)) <= bsum d (fun i => th i * (g i * g i) - ind T0 i * (g i * g i))).
    { apply bsum_le. intros i I. specialize (T i I). specialize (LO i I). specialize (HI i I). specialize (G2 i I).
      assert (GG : g i * g i = Rabs (g i) * Rabs (g i)) by (rewrite <- Rabs_mult, Rabs_right; [reflexivity|apply Rle_ge; nra]).
      rewrite GG. pose proof (Rabs_pos (g i)) as G0.
      assert (A : th i < 1 -> Rabs (g i) <= c).
      { intros X. rewrite G2. apply (Rmult_le_reg_r (th i + lam)); [lra|]. unfold Rdiv. rewrite Rmult_assoc, Rinv_l by lra. specialize (LO X). lra. }
      assert (B : 0 < th i -> c <= Rabs (g i)).
      { intros X. rewrite G2. apply (Rmult_le_reg_r (th i + lam)); [lra|]. unfold Rdiv. rewrite Rmult_assoc, Rinv_l by lra. specialize (HI X). lra. }
      unfold ind. destruct (in_dec Nat.eq_dec i T0).
      - destruct (Rlt_dec (th i) 1) as [X|X]; [specialize (A X)|replace (th i) with 1 by lra; lra].
        replace (th i * (Rabs (g i) * Rabs (g i)) - 1 * (Rabs (g i) * Rabs (g i))) with (Rabs (g i) * Rabs (g i) * (th i - 1)) by ring. assert (CC : Rabs (g i) * Rabs (g i) <= c * c) by (apply Rmult_le_compat; lra). clear - CC T. nra.
      - destruct (Rlt_dec 0 (th i)) as [X|X]; [specialize (B X)|replace (th i) with 0 by lra; lra].
        replace (th i * (Rabs (g i) * Rabs (g i)) - 0 * (Rabs (g i) * Rabs (g i))) with (Rabs (g i) * Rabs (g i) * (th i - 0)) by ring. assert (CC : c * c <= Rabs (g i) * Rabs (g i)) by (apply Rmult_le_compat; lra). clear - CC T. nra. }
    rewrite bsum_scal, !bsum_minus, (count_ind T0 d ND F) in D.
    assert (0 <= c * c * (bsum d th - INR (length T0))); [|lra].
    destruct CK as [->|CK]; [lra|]. rewrite CK. apply le_INR in LT. apply Rmult_le_pos; [nra|lra]. }
  assert (E0 : 0 <= dotv d p g).
  { rewrite E. apply bsum_nonneg. intros i I. apply Rmult_le_pos; [apply T, I|apply Rle_0_sqr]. }
  pose proof (ksup_lower k d z cz g (dotv d p g) Cz E0 DU) as Lz.
  assert (X : sqd d w z = sqd d w p + 2 * lam * (dotv d p g - dotv d z g) + sqd d p z).
  { unfold sqd, dotv. rewrite <- bsum_minus, <- bsum_scal, <- !bsum_plus. apply bsum_ext. intros i I.
    replace (w i - z i) with ((w i - p i) + (p i - z i)) by ring. rewrite (WP i I). ring. }
  rewrite X. nra.
Qed.
