(** KSupportNorm.cost, and the k-support norm for k = 1 and k = dimension. *)
From Verif Require Import NPReal Py Model_Signal Model_Stats Model_KSupport Spec_SVD Proof_SVD Proof_SVDMore Proof_SVDLow Proof_SVDModel Spec_KSupport Proof_KSupport Proof_KSearch Proof_KSOp Proof_OWL.
From Coq Require Import List Lia Psatz Sorted Permutation.
Import ListNotations.
Local Open Scope R_scope.

Lemma ksup_l1 d z : is_ksup 1 d z (bsum d (fun i => Rabs (z i))).
Proof.
  split.
  - intros r (u & U & ->). apply bsum_le. intros i I. pose proof (top_unit 1 d u i (le_n _) U I).
    unfold Rabs. destruct (Rcase_abs _); nra.
  - intros b H. apply H. exists (fun i => if Rle_dec 0 (z i) then 1 else -1). split.
    + intros T ND F L. destruct T as [|i [|j T]]; cbn in *; try lia; try lra. destruct (Rle_dec 0 (z i)); lra.
    + apply bsum_ext. intros i I. unfold Rabs. destruct (Rcase_abs _), (Rle_dec _ _); lra.
Qed.

Lemma ksup_l2 k d z : (d <= k)%nat -> is_ksup k d z (sqrt (dotv d z z)).
Proof.
  intros K. assert (Z0 : 0 <= dotv d z z) by (apply bsum_nonneg; intros; nra). split.
  - intros r (u & U & ->). assert (U1 : dotv d u u <= 1).
    { specialize (U (seq 0 d) (seq_NoDup d 0)). rewrite seq_length, rsum_seq in U. apply U; [|exact K].
      apply Forall_forall. intros i I. apply in_seq in I. lia. }
    destruct (Rle_dec (dotv d z u) 0) as [N|N]; [eapply Rle_trans; [exact N|apply sqrt_pos]|].
    apply Rsqr_incr_0_var; [|apply sqrt_pos]. rewrite Rsqr_sqrt by exact Z0. unfold Rsqr.
    assert (Q : forall t, 0 <= dotv d z z - 2 * t * dotv d z u + t * t * dotv d u u).
    { intros t. replace (dotv d z z - 2 * t * dotv d z u + t * t * dotv d u u) with (bsum d (fun i => (z i - t * u i) * (z i - t * u i))).
      - apply bsum_nonneg. intros. apply Rle_0_sqr.
      - unfold dotv. rewrite <- !bsum_scal, <- bsum_minus, <- bsum_plus. apply bsum_ext. intros. ring. }
    specialize (Q (dotv d z u)). assert (0 <= dotv d u u) by (apply bsum_nonneg; intros; nra). nra.
  - intros b H. destruct Z0 as [Z0|Z0].
    + apply H. exists (fun i => z i / sqrt (dotv d z z)). assert (SP : 0 < sqrt (dotv d z z)) by (apply sqrt_lt_R0, Z0).
      assert (SS : sqrt (dotv d z z) * sqrt (dotv d z z) = dotv d z z) by (apply sqrt_sqrt; lra). split.
      * apply top_scale; [exact SP|]. intros T ND F L. rewrite SS, (sum_ind T d _ ND F). apply bsum_le. intros i I.
        unfold ind. destruct (in_dec _ i T); nra.
      * transitivity (/ sqrt (dotv d z z) * dotv d z z); [rewrite <- SS at 3; field; lra|].
        unfold dotv at 2. rewrite <- bsum_scal. apply bsum_ext. intros. field. lra.
    + rewrite <- Z0, sqrt_0. apply H. exists (fun _ => 0). split; [apply top_zero|]. unfold dotv. rewrite bsum_0; [reflexivity|]. intros; ring.
Qed.

(** * Sorting *)
Lemma dinsert_perm a l : Permutation (dinsert a l) (a :: l).
Proof.
  induction l as [|b l IH]; cbn [dinsert]; [reflexivity|]. destruct (Rle_dec b a); [reflexivity|].
  rewrite IH. apply perm_swap.
Qed.
Lemma sort_desc_perm l : Permutation (sort_desc l) l.
Proof. unfold sort_desc. induction l as [|a l IH]; [reflexivity|]. cbn [fold_right]. rewrite dinsert_perm, IH. reflexivity. Qed.
Lemma dinsert_sorted a l : StronglySorted Rge l -> StronglySorted Rge (dinsert a l).
Proof.
  induction l as [|b l IH]; intros H; cbn [dinsert]; [constructor; constructor|].
  inversion H as [|? ? H1 H2]; subst. destruct (Rle_dec b a) as [L|L].
  - constructor; [exact H|]. constructor; [lra|]. eapply Forall_impl; [|exact H2]. cbn. intros. lra.
  - constructor; [apply IH, H1|]. apply Forall_forall. intros x X. apply (Permutation_in _ (dinsert_perm a l)) in X.
    destruct X as [<-|X]; [lra|]. rewrite Forall_forall in H2. apply H2, X.
Qed.
Lemma sort_desc_sorted l : StronglySorted Rge (sort_desc l).
Proof. unfold sort_desc. induction l; [constructor|]. apply dinsert_sorted, IHl. Qed.
Lemma desc_nth l : StronglySorted Rge l -> forall i j, (i <= j < length l)%nat -> nth j l 0 <= nth i l 0.
Proof.
  induction 1 as [|a l H IH F]; intros i j IJ; [cbn in IJ; lia|].
  cbn [length] in IJ. destruct j as [|j]; [replace i with 0%nat by lia; lra|]. destruct i as [|i]; cbn [nth].
  - rewrite Forall_forall in F. apply Rge_le, F, nth_In. lia.
  - apply IH. lia.
Qed.

Section FindQ.
Context (k : nat) (s : list R).
Hypothesis (SD : StronglySorted Rge s) (K : (1 <= k <= length s)%nat) (SN : forall x, In x s -> 0 <= x).
Let d := length s.
Let l1 (q : nat) : R := rsum (skipn q s) / INR (k - q).

Lemma skip_head q : (q < length s)%nat -> rsum (skipn q s) = ent s q + rsum (skipn (S q) s).
Proof.
  clear. revert q. induction s as [|a l IH]; intros q I; [cbn in I; lia|].
  destruct q as [|q]; [reflexivity|]. cbn [skipn]. unfold ent. cbn [nth]. apply IH. cbn in I. lia.
Qed.

Lemma l1_eq q : (q < k)%nat -> rsum (skipn q s) = l1 q * INR (k - q).
Proof. intros Q. unfold l1. field. apply not_0_INR. lia. Qed.
Lemma kq_pos q : (q < k)%nat -> 0 < INR (k - q).
Proof. intros. apply lt_0_INR. lia. Qed.

Lemma q_loop_finds fuel : forall first last q0,
  (first < last < k)%nat -> (last - first <= fuel)%nat -> ent s last <= l1 last -> l1 first <= ent s first ->
  exists q, q_loop fuel k s first last q0 = Ok q /\ (q < k)%nat /\ l1 q <= ent s q.
Proof.
  induction fuel as [|fuel IH]; intros first last q0 FL FU PL PF; [lia|].
  cbn [q_loop]. replace (Nat.leb first last) with true by (symmetry; apply Nat.leb_le; lia).
  pose proof (Nat.div_mod (first + last) 2 ltac:(lia)) as DM. pose proof (Nat.mod_upper_bound (first + last) 2 ltac:(lia)) as MU.
  set (q := Nat.div (first + last) 2) in *. clearbody q. cbv zeta.
  assert (M : (first <= q < last)%nat) by lia.
  rewrite !idx_ok by lia. cbn [bind]. fold (ent s q). fold (ent s (q + 1)). fold (l1 q).
  assert (MO : ent s (q + 1) <= ent s q) by (apply desc_nth; [exact SD|lia]).
  unfold geb. destruct (Rle_dec (ent s (q + 1)) (l1 q)) as [A|A]; destruct (Rle_dec (l1 q) (ent s q)) as [B|B]; cbn [andb].
  - exists q. split; [reflexivity|]. split; [lia|exact B].
  - destruct (Rle_dec (ent s q) (l1 q)) as [C|C]; [|lra].
    assert (q <> first) by (intros ->; lra).
    destruct (Rle_dec (l1 q) (ent s (q + 1))) as [D|D]; [lra|].
    apply IH; [lia|lia|exact C|exact PF].
  - assert (q <> first).
    { intros ->. assert (L : last = (first + 1)%nat) by lia. subst last. apply A.
      pose proof (l1_eq (first + 1) ltac:(lia)) as E1. pose proof (l1_eq first ltac:(lia)) as E0.
      rewrite (skip_head first) in E0 by lia. replace (S first) with (first + 1)%nat in E0 by lia.
      replace (k - first)%nat with (S (k - (first + 1)))%nat in E0 by lia. rewrite S_INR in E0.
      pose proof (kq_pos (first + 1) ltac:(lia)) as KP. set (n := INR (k - (first + 1))) in *. clearbody n.
      apply (Rmult_le_reg_r (n + 1)); [lra|]. rewrite <- E0. nra. }
    destruct (Rle_dec (ent s q) (l1 q)) as [C|C]; [lra|]. destruct (Rle_dec (l1 q) (ent s (q + 1))) as [D|D]; [|lra].
    apply IH; [lia|lia|exact PL|lra].
  - lra.
Qed.

Lemma find_q_ok : exists q, find_q k s = Ok q /\ (q < k)%nat /\ (q = 0%nat \/ l1 q <= ent s q).
Proof.
  unfold find_q. rewrite idx_ok by lia. cbn [bind]. unfold geb. destruct (Rle_dec (nth 0 s 0) (rsum s / INR k)) as [A|A].
  - exists 0%nat. split; [reflexivity|]. split; [lia|left; reflexivity].
  - rewrite idx_ok by lia. cbn [bind].
    assert (E : l1 (k - 1) = rsum (skipn (k - 1) s)).
    { unfold l1. replace (k - (k - 1))%nat with 1%nat by lia. cbn [INR]. field. }
    assert (K2 : (2 <= k)%nat).
    { destruct (Nat.eq_dec k 1) as [->|]; [|lia]. exfalso. apply A. cbn [INR].
      pose proof (skip_head 0 ltac:(lia)) as Q. change (skipn 0 s) with s in Q. rewrite Q. unfold ent.
      assert (0 <= rsum (skipn 1 s)); [|lra]. clear - SN. assert (H : forall x, In x (skipn 1 s) -> 0 <= x).
      { intros x X. apply SN. rewrite <- (firstn_skipn 1 s). apply in_or_app. right. exact X. }
      revert H. generalize (skipn 1 s). intros l. induction l as [|a l IH]; intros H; [cbn; lra|].
      change (rsum (a :: l)) with (a + rsum l). pose proof (H a (or_introl eq_refl)). assert (0 <= rsum l); [|lra]. apply IH. intros. apply H. right. assumption. }
    destruct (Rle_dec (rsum (skipn (k - 1) s)) (nth (k - 1) s 0)) as [B|B].
    + exists (k - 1)%nat. split; [reflexivity|]. split; [lia|]. right. rewrite E. exact B.
    + destruct (q_loop_finds k 0 (k - 1) (Nat.div (0 + (k - 1)) 2)) as (q & Q & QK & QL); try lia.
      * rewrite E. unfold ent. lra.
      * unfold l1. change (skipn 0 s) with s. rewrite Nat.sub_0_r. unfold ent. lra.
      * exists q. split; [exact Q|]. split; [exact QK|right; exact QL].
Qed.
End FindQ.

Lemma bsum_perm d (sg : nat -> nat) F : (forall i, (i < d)%nat -> (sg i < d)%nat) ->
  (forall i j, (i < d)%nat -> (j < d)%nat -> sg i = sg j -> i = j) -> bsum d (fun i => F (sg i)) = bsum d F.
Proof.
  intros B I. rewrite <- !rsum_seq. rewrite <- (map_map sg F). apply rsum_perm, Permutation_map.
  apply NoDup_Permutation_bis.
  - assert (H : forall l, NoDup l -> (forall i, In i l -> (i < d)%nat) -> NoDup (map sg l)).
    { induction l as [|a l IH]; intros ND H; [constructor|]. apply NoDup_cons_iff in ND. destruct ND as [NI ND]. cbn. constructor.
      - intros C. apply in_map_iff in C. destruct C as (b & E & Bl). apply NI.
        rewrite (I a b (H a (or_introl eq_refl)) (H b (or_intror Bl)) (eq_sym E)). exact Bl.
      - apply IH; [exact ND|]. intros. apply H. right. assumption. }
    apply H; [apply seq_NoDup|]. intros i X. apply in_seq in X. lia.
  - rewrite map_length. lia.
  - intros j J. apply in_map_iff in J. destruct J as (i & <- & X). apply in_seq in X. apply in_seq. specialize (B i ltac:(lia)). lia.
Qed.

Lemma firstn_bsum q s f : (q <= length s)%nat -> rsum (map f (firstn q s)) = bsum q (fun i => f (ent s i)).
Proof.
  intros Q. rewrite rsum_bsum, map_length, firstn_length_le by exact Q. apply bsum_ext. intros i I. unfold ent.
  rewrite (nth_indep _ 0 (f 0)) by (rewrite map_length, firstn_length_le; assumption). rewrite map_nth.
  f_equal. rewrite <- (firstn_skipn q s) at 2. rewrite app_nth1 by (rewrite firstn_length_le; assumption). reflexivity.
Qed.
Lemma skipn_bsum q s : (q <= length s)%nat -> rsum (skipn q s) = bsum (length s - q) (fun i => ent s (q + i)).
Proof.
  intros Q. rewrite rsum_bsum, skipn_length. apply bsum_ext. intros i I. unfold ent. rewrite <- (firstn_skipn q s) at 2.
  rewrite app_nth2; rewrite firstn_length_le by exact Q; [|lia]. f_equal. lia.
Qed.

Definition head_sq (q : nat) (s : list R) : R := rsum (map (fun x => x ^ 2) (firstn q s)).

Lemma dual_bound k w q c : let s := sort_desc (map Rabs w) in
  (q < k <= length w)%nat -> (q = 0%nat \/ rsum (skipn q s) / INR (k - q) <= ent s q) -> is_ksup k (length w) (ent w) c ->
  head_sq q s + rsum (skipn q s) ^ 2 / INR (k - q) <= c ^ 2.
Proof.
  intros s QK QL C. set (d := length w) in *.
  assert (PS : Permutation s (map Rabs w)) by apply sort_desc_perm.
  assert (SL : length s = d) by (rewrite (Permutation_length PS); apply map_length).
  pose proof (sort_desc_sorted (map Rabs w)) as SD. fold s in SD.
  apply (Permutation_nth _ _ 0) in PS. cbv zeta in PS. rewrite SL in PS. destruct PS as (_ & sg & BF & BI & BN).
  assert (WN : forall i, (i < d)%nat -> Rabs (ent w i) = ent s (sg i)).
  { intros i I. rewrite <- (ent_map Rabs w i I). apply BN, I. }
  clearbody s.
  set (el := rsum (skipn q s) / INR (k - q)) in *.
  assert (KP : 0 < INR (k - q)) by (apply lt_0_INR; lia).
  assert (RE : rsum (skipn q s) = el * INR (k - q)) by (unfold el; field; lra).
  assert (EN : forall j, (j < d)%nat -> 0 <= ent s j).
  { (* every position of s is hit *)
    intros j J. assert (In (nth j s 0) s) by (apply nth_In; lia).
    destruct (Rle_dec 0 (ent s j)) as [|N]; [assumption|]. exfalso.
    (* count: the sum of negative parts *)
    pose proof (bsum_perm d sg (fun i => Rmax 0 (- ent s i)) BF BI) as P. cbv beta in P.
    rewrite (bsum_0 d (fun i => Rmax 0 (- ent s (sg i)))) in P.
    - assert (Rmax 0 (- ent s j) <= bsum d (fun i => Rmax 0 (- ent s i))).
      { apply (bsum_term d (fun i => Rmax 0 (- ent s i))); [intros; apply Rmax_l|exact J]. }
      pose proof (Rmax_r 0 (- ent s j)). lra.
    - intros i I. rewrite <- (WN i I). pose proof (Rabs_pos (ent w i)). rewrite Rmax_left; lra. }
  assert (EL0 : 0 <= el).
  { apply Rmult_le_pos; [|apply Rlt_le, Rinv_0_lt_compat, KP]. rewrite skipn_bsum by lia. apply bsum_nonneg. intros i I. apply EN. lia. }
  set (us := fun j => if Nat.ltb j q then ent s j else el).
  set (A := head_sq q s). assert (AE : A = bsum q (fun i => ent s i ^ 2)) by (apply firstn_bsum; lia).
  assert (A0 : 0 <= A) by (rewrite AE; apply bsum_nonneg; intros; nra).
  set (phi := A + rsum (skipn q s) ^ 2 / INR (k - q)).
  assert (PE : phi = A + el * el * INR (k - q)) by (unfold phi; rewrite RE; field; lra).
  assert (PHI0 : 0 <= phi) by (rewrite PE; assert (0 <= el * el * INR (k - q)) by (apply Rmult_le_pos; [nra|lra]); lra).
  assert (UG : forall j, (j < q)%nat -> el <= ent s j).
  { intros j J. destruct QL as [->|QL]; [lia|]. eapply Rle_trans; [exact QL|]. apply desc_nth; [exact SD|lia]. }
  assert (DS : bsum d (fun j => ent s j * us j) = phi).
  { replace d with (q + (d - q))%nat by lia. rewrite bsum_split.
    rewrite (bsum_ext q _ (fun i => ent s i ^ 2)), (bsum_ext (d - q) _ (fun i => el * ent s (q + i))).
    - rewrite bsum_scal, <- AE, PE. rewrite <- SL, <- skipn_bsum by lia. rewrite RE. ring.
    - intros i I. unfold us. destruct (Nat.ltb_spec (q + i) q); [lia|]. ring.
    - intros i I. unfold us. destruct (Nat.ltb_spec i q); [|lia]. ring. }
  assert (TS : forall T, NoDup T -> Forall (fun i => (i < d)%nat) T -> (length T <= k)%nat -> rsum (map (fun j => us j * us j) T) <= phi).
  { intros T ND F L. rewrite (sum_ind T d _ ND F).
    assert (Q1 : bsum d (fun i => ind T i * (us i * us i)) <= bsum d (fun i => (us i * us i - el * el) + ind T i * (el * el))).
    { apply bsum_le. intros i I. assert (el * el <= us i * us i).
      { unfold us. destruct (Nat.ltb_spec i q) as [J|J]; [|lra]. specialize (UG i J). apply Rmult_le_compat; lra. }
      unfold ind. destruct (in_dec Nat.eq_dec i T); lra. }
    eapply Rle_trans; [exact Q1|]. rewrite bsum_plus.
    rewrite (bsum_ext d (fun i => ind T i * (el * el)) (fun i => el * el * ind T i)) by (intros; ring).
    rewrite bsum_scal, (count_ind T d ND F).
    assert (Q2 : bsum d (fun i => us i * us i - el * el) = A - INR q * (el * el)).
    { replace d with (q + (d - q))%nat by lia. rewrite bsum_split.
      rewrite (bsum_ext q _ (fun i => ent s i ^ 2 - el * el)), (bsum_0 (d - q)).
      - rewrite bsum_minus, bsum_const, <- AE. ring.
      - intros i I. unfold us. destruct (Nat.ltb_spec (q + i) q); [lia|]. ring.
      - intros i I. unfold us. destruct (Nat.ltb_spec i q); [|lia]. ring. }
    rewrite Q2, PE, minus_INR by lia. apply le_INR in L. assert (0 <= el * el) by nra. nra. }
  set (sgn := fun i => if Rle_dec 0 (ent w i) then 1 else -1).
  set (u := fun i => sgn i * us (sg i)).
  assert (TU : forall T, NoDup T -> Forall (fun i => (i < d)%nat) T -> (length T <= k)%nat -> rsum (map (fun i => u i * u i) T) <= phi).
  { intros T ND F L. replace (rsum (map (fun i => u i * u i) T)) with (rsum (map (fun j => us j * us j) (map sg T))).
    - apply TS.
      + clear L. induction T as [|a T IH]; [constructor|]. apply NoDup_cons_iff in ND. destruct ND as [NI ND]. cbn. constructor.
        * intros X. apply in_map_iff in X. destruct X as (b & E & Bl). apply NI. rewrite Forall_forall in F.
          rewrite <- (BI b a (F b (or_intror Bl)) (F a (or_introl eq_refl)) E). exact Bl.
        * apply IH; [exact ND|]. apply Forall_inv_tail in F. exact F.
      + rewrite Forall_forall in *. intros j J. apply in_map_iff in J. destruct J as (i & <- & I). apply BF, F, I.
      + rewrite map_length. exact L.
    - rewrite map_map. f_equal. apply map_ext. intros i. unfold u, sgn. destruct (Rle_dec _ _); ring. }
  assert (DU : dotv d (ent w) u = phi).
  { rewrite <- DS, <- (bsum_perm d sg (fun j => ent s j * us j) BF BI). apply bsum_ext. intros i I. rewrite <- (WN i I).
    unfold u, sgn, Rabs. destruct (Rcase_abs _), (Rle_dec _ _); lra. }
  pose proof (ksup_lower k d (ent w) c u phi C PHI0 TU) as LO. rewrite DU in LO. fold phi. lra.
Qed.

Lemma ks_cost_ok beta k w : (1 <= k <= Z.of_nat (length w))%Z ->
  let s := sort_desc (map Rabs w) in
  exists q, (q < Z.to_nat k)%nat /\ (q = 0%nat \/ rsum (skipn q s) / INR (Z.to_nat k - q) <= ent s q) /\
    ks_cost beta k w = Ok ((head_sq q s * / 2 + rsum (skipn q s) ^ 2 / INR (Z.to_nat k - q)) * beta).
Proof.
  intros K s. assert (PS : Permutation s (map Rabs w)) by apply sort_desc_perm.
  assert (SL : length s = length w) by (rewrite (Permutation_length PS); apply map_length).
  destruct (find_q_ok (Z.to_nat k) s) as (q & Q & QK & QL).
  - apply sort_desc_sorted.
  - lia.
  - intros x X. apply (Permutation_in _ PS) in X. apply in_map_iff in X. destruct X as (y & <- & _). apply Rabs_pos.
  - exists q. split; [exact QK|]. split; [exact QL|]. unfold ks_cost. fold s. rewrite Q. reflexivity.
Qed.

Definition l1norm (w : list R) : R := rsum (map Rabs w).

Lemma ks_cost_bounds beta k w c : 0 <= beta -> (1 <= k <= Z.of_nat (length w))%Z -> is_ksup (Z.to_nat k) (length w) (ent w) c ->
  exists v, ks_cost beta k w = Ok v /\ beta / 2 * (l1norm w ^ 2 / IZR k) <= v <= beta * c ^ 2.
Proof.
  intros B K C. destruct (ks_cost_ok beta k w K) as (q & QK & QL & E). eexists. split; [exact E|].
  pose proof (dual_bound (Z.to_nat k) w q c ltac:(lia) QL C) as DB. cbv zeta in DB.
  set (s := sort_desc (map Rabs w)) in *. assert (PS : Permutation s (map Rabs w)) by apply sort_desc_perm.
  assert (SL : length s = length w) by (rewrite (Permutation_length PS); apply map_length).
  assert (KP : 0 < INR (Z.to_nat k - q)) by (apply lt_0_INR; lia).
  set (R := rsum (skipn q s)) in *. set (A := head_sq q s) in *.
  assert (A0 : 0 <= A) by (unfold A, head_sq; rewrite firstn_bsum by lia; apply bsum_nonneg; intros; nra).
  assert (R0 : 0 <= R ^ 2 / INR (Z.to_nat k - q)) by (apply Rmult_le_pos; [nra|apply Rlt_le, Rinv_0_lt_compat, KP]).
  split.
  - assert (LE : l1norm w = bsum q (ent s) + R).
    { unfold l1norm. rewrite <- (rsum_perm _ _ PS). rewrite <- (firstn_skipn q s) at 1. rewrite rsum_app. fold R. f_equal.
      rewrite <- (map_id (firstn q s)) at 1. apply (firstn_bsum q s (fun x => x)). lia. }
    pose proof (bsum_cauchy q (ent s)) as CS.
    assert (AE : A = bsum q (fun l => ent s l * ent s l)).
    { unfold A, head_sq. rewrite firstn_bsum by lia. apply bsum_ext. intros. ring. }
    rewrite <- AE in CS. set (a := bsum q (ent s)) in *. rewrite LE.
    assert (KE : IZR k = INR q + INR (Z.to_nat k - q)).
    { rewrite <- plus_INR. replace (q + (Z.to_nat k - q))%nat with (Z.to_nat k) by lia. rewrite INR_IZR_INZ, Z2Nat.id by lia. reflexivity. }
    pose proof (pos_INR q) as Q0. set (n := INR q) in *. set (m := INR (Z.to_nat k - q)) in *.
    assert (KK : 0 < IZR k) by lra.
    assert (MAIN : (a + R) ^ 2 / IZR k <= A + R ^ 2 / m).
    { apply (Rmult_le_reg_r (IZR k)); [exact KK|]. replace ((a + R) ^ 2 / IZR k * IZR k) with ((a + R) ^ 2) by (field; lra).
      rewrite KE. set (t := R ^ 2 / m) in *. assert (TE : t * m = R * R) by (unfold t; field; lra). clearbody t.
      (* (a+R)^2 <= (A + t)(n + m) with a^2 <= n A, R^2 = t m *)
      assert (X : (2 * a * R) <= A * m + t * n).
      { destruct (Rle_dec (a * R) 0) as [N|N]; [assert (0 <= A * m) by (apply Rmult_le_pos; lra); assert (0 <= t * n) by (apply Rmult_le_pos; lra); lra|].
        apply Rsqr_incr_0_var; [|assert (0 <= A * m) by (apply Rmult_le_pos; lra); assert (0 <= t * n) by (apply Rmult_le_pos; lra); lra]. unfold Rsqr.
        assert (Y : (a * R) * (a * R) <= (A * m) * (t * n)).
        { replace ((a * R) * (a * R)) with (a ^ 2 * (R * R)) by ring. rewrite <- TE.
          replace (A * m * (t * n)) with (n * A * (t * m)) by ring. apply Rmult_le_compat_r; [|exact CS].
          rewrite TE. apply Rle_0_sqr. }
        pose proof (Rle_0_sqr (A * m - t * n)) as Z. unfold Rsqr in Z. nra. }
      nra. }
    assert (0 <= A * / 2) by lra. nra.
  - rewrite (Rmult_comm beta). apply Rmult_le_compat_r; [exact B|]. lra.
Qed.

Lemma ks_cost_l1 beta w : w <> [] -> ks_cost beta 1 w = Ok (l1norm w ^ 2 * beta).
Proof.
  intros W. destruct (ks_cost_ok beta 1 w) as (q & QK & _ & E); [destruct w; [contradiction|cbn [length]; lia]|].
  rewrite E. replace q with 0%nat by lia. f_equal. cbn [firstn skipn head_sq map]. unfold head_sq. cbn [map firstn].
  rewrite (rsum_perm _ _ (sort_desc_perm (map Rabs w))). fold (l1norm w). replace (INR (Z.to_nat 1 - 0)) with 1 by (cbn; reflexivity).
  cbn [rsum fold_right]. field.
Qed.

Lemma ks_cost_too_large beta k w : (Z.of_nat (length w) < k)%Z -> (exists x, In x w /\ x <> 0) ->
  ks_cost beta k w = Err IndexError.
Proof.
  intros K (x & X & N). unfold ks_cost. cbv zeta. set (s := sort_desc (map Rabs w)).
  assert (PS : Permutation s (map Rabs w)) by apply sort_desc_perm.
  assert (SL : length s = length w) by (rewrite (Permutation_length PS); apply map_length).
  pose proof (sort_desc_sorted (map Rabs w)) as SD. fold s in SD.
  assert (D : (1 <= length w)%nat) by (destruct w; [destruct X|cbn; lia]).
  assert (XS : In (Rabs x) s) by (apply (Permutation_in _ (Permutation_sym PS)), in_map, X).
  assert (X0 : 0 < Rabs x) by (apply Rabs_pos_lt, N).
  assert (S0 : Rabs x <= nth 0 s 0).
  { apply (In_nth _ _ 0) in XS. destruct XS as (j & J & <-). apply desc_nth; [exact SD|lia]. }
  unfold find_q. rewrite idx_ok by lia. cbn [bind].
  assert (SU : rsum s <= INR (length w) * nth 0 s 0).
  { rewrite rsum_bsum, SL. rewrite <- bsum_const. apply bsum_le. intros i I. apply desc_nth; [exact SD|lia]. }
  assert (KI : INR (length w) + 1 <= INR (Z.to_nat k)) by (rewrite <- S_INR; apply le_INR; lia).
  pose proof (pos_INR (length w)) as L0.
  unfold geb. destruct (Rle_dec (nth 0 s 0) (rsum s / INR (Z.to_nat k))) as [A|A].
  - exfalso. apply div_cmp2 in A; [|lra]. nra.
  - unfold idx. replace (nth_error s (Z.to_nat k - 1)) with (@None R); [reflexivity|]. symmetry. apply nth_error_None. lia.
Qed.
