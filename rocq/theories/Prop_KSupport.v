(** C87-C89: KSupportNorm (opt/proximity.py). *)
From Verif Require Import NPReal Py Model_Signal Model_Stats Model_KSupport Spec_SVD Proof_SVD Proof_SVDMore Proof_SVDModel Spec_KSupport Proof_KSupport Proof_KSearch Proof_KSOp Proof_KSCost.
From Coq Require Import List Lia Psatz.
Import ListNotations.
Local Open Scope R_scope.

(** C87: with extra_factor 1 (the default) op always returns, and every entry of its result is
    within (2 + d (1 + 1/beta)) * 2^-52 of the unique minimiser p of
    1/2 |w - z|^2 + beta/2 * (k-support norm of z)^2; k is capped at the number d of entries. *)
Theorem C87_op_is_prox_of_half_squared_norm : forall beta k w, 0 < beta -> (1 <= k)%Z -> w <> [] ->
  exists r p, ks_op beta k w 1 = Ok (r, Z.min k (Z.of_nat (length w))) /\ length r = length w /\
    ksup_prox (Z.to_nat (Z.min k (Z.of_nat (length w)))) (length w) beta (ent w) p /\
    forall i, (i < length w)%nat -> Rabs (ent r i - p i) <= (2 + INR (length w) * (1 + / beta)) * / 2 ^ 52.
Proof. exact ks_op_prox. Qed.
Print Assumptions C87_op_is_prox_of_half_squared_norm.

(** C87: the norm exists, and the minimiser is unique. *)
Theorem C87_norm_exists : forall k d z, (1 <= k)%nat -> exists c, 0 <= c /\ is_ksup k d z c.
Proof. intros k d z K. destruct (ksup_exists k d z K) as [c C]. exists c. split; [apply (ksup_nonneg _ _ _ _ C)|exact C]. Qed.
Print Assumptions C87_norm_exists.

Theorem C87_minimiser_unique : forall k d lam w p p', (1 <= k)%nat -> ksup_prox k d lam w p -> ksup_prox k d lam w p' ->
  forall i, (i < d)%nat -> p i = p' i.
Proof.
  intros k d lam w p p' K P P' i I. destruct (ksup_exists k d p K) as [c C]. destruct (ksup_exists k d p' K) as [c' C'].
  pose proof (P p' c c' C C') as H. pose proof (P' p c' c C' C) as H'.
  assert (S1 : 0 <= sqd d p p') by (apply bsum_nonneg; intros; apply Rle_0_sqr).
  assert (S2 : 0 <= sqd d p' p) by (apply bsum_nonneg; intros; apply Rle_0_sqr).
  assert (Z : sqd d p p' = 0) by lra.
  assert (Q : (p i - p' i) * (p i - p' i) = 0).
  { apply (bsum_eq0 d (fun i => (p i - p' i) * (p i - p' i))); [intros; apply Rle_0_sqr|exact Z|exact I]. }
  nra.
Qed.
Print Assumptions C87_minimiser_unique.

(** C87: as documented, the norm is the l1 norm for k = 1 and the l2 norm for k = dimension. *)
Theorem C87_norm_is_l1_for_k_1 : forall d z, is_ksup 1 d z (bsum d (fun i => Rabs (z i))).
Proof. exact ksup_l1. Qed.
Print Assumptions C87_norm_is_l1_for_k_1.
Theorem C87_norm_is_l2_for_k_dim : forall d z, is_ksup d d z (sqrt (dotv d z z)).
Proof. intros d z. apply ksup_l2. lia. Qed.
Print Assumptions C87_norm_is_l2_for_k_dim.

Lemma feps_small : feps <= / 1000000.
Proof. unfold feps. apply Rinv_le_contravar; [lra|]. simpl. lra. Qed.

(** Results of op when the exact threshold is known. *)
Lemma op_value beta k w t : 0 < beta -> (1 <= k)%Z -> w <> [] -> 0 <= t ->
  exact_tau beta w (IZR (Z.min k (Z.of_nat (length w)))) t ->
  exists r, ks_op beta k w 1 = Ok (r, Z.min k (Z.of_nat (length w))) /\ length r = length w /\
    forall i, (i < length w)%nat -> Rabs (ent r i - exact_out beta t (ent w i)) <= err_const beta (length w) feps.
Proof.
  intros B K W T X. destruct (ks_op_prox beta k w B K W) as (r & p & E & L & P & C). exists r. split; [exact E|]. split; [exact L|].
  assert (K1 : (1 <= Z.min k (Z.of_nat (length w)))%Z) by (destruct w; [contradiction|cbn [length]; lia]).
  assert (K2 : (1 <= Z.to_nat (Z.min k (Z.of_nat (length w))))%nat) by lia.
  assert (P' : ksup_prox (Z.to_nat (Z.min k (Z.of_nat (length w)))) (length w) beta (ent w) (fun i => exact_out beta t (ent w i))).
  { apply exact_is_prox; [exact B|]. rewrite INR_IZR_INZ, Z2Nat.id by lia. exact X. }
  intros i I. pose proof (C87_minimiser_unique _ _ _ _ p _ K2 P P' i I) as Q. cbv beta in Q. rewrite <- Q. apply C, I.
Qed.

Ltac clipc := unfold clip, Rmax, Rmin; repeat (destruct (Rle_dec _ _)); try lra.
Ltac thc := repeat rewrite theta1_clip; repeat rewrite (Rabs_right _) by lra; clipc.

Lemma doc_sum : theta_sum 3 [0; 5; 10; 15; 20] (3 / 15) = 1.
Proof. unfold theta_sum, rsum. cbn [map fold_right]. rewrite !theta1_clip. rewrite !Rabs_right by lra. clipc. Qed.

(** The documented example: op maps [0, 5, 10, 15, 20] to [0, 0, 0, 0, 5] for beta = 3, k = 1. *)
Example C87_example : exists r, ks_op 3 1 [0; 5; 10; 15; 20] 1 = Ok (r, 1%Z) /\
  Rabs (ent r 4 - 5) <= 9 * feps /\ forall i, (i < 4)%nat -> Rabs (ent r i) <= 9 * feps.
Proof.
  destruct (op_value 3 1 [0; 5; 10; 15; 20] 15) as (r & E & _ & C); try lra; try lia; [discriminate| |].
  - right. split; [lra|]. cbn [length]. change (IZR (Z.min 1 (Z.of_nat 5))) with 1. exact doc_sum.
  - exists r. split; [exact E|]. cbn [length] in C. pose proof feps_pos as FP.
    assert (EC : err_const 3 5 feps <= 9 * feps) by (unfold err_const; cbn [INR]; nra).
    split.
    + specialize (C 4%nat ltac:(lia)). eapply Rle_trans; [|exact EC]. eapply Rle_trans; [|exact C]. right. f_equal.
      unfold exact_out, exact_theta, ent. cbn [nth]. destruct (Req_EM_T 15 0); [lra|]. rewrite theta1_clip, Rabs_right by lra.
      replace (clip (3 / 15 * 20 - 3)) with 1 by clipc. field.
    + intros i I. specialize (C i ltac:(lia)). eapply Rle_trans; [|exact EC]. eapply Rle_trans; [|exact C]. right. f_equal.
      unfold exact_out, exact_theta. destruct (Req_EM_T 15 0); [lra|]. rewrite theta1_clip.
      replace (clip (3 / 15 * Rabs (ent [0; 5; 10; 15; 20] i) - 3)) with 0; [field; lra|].
      destruct i as [|[|[|[|i]]]]; [| | | |lia]; unfold ent; cbn [nth]; rewrite Rabs_right by lra; clipc.
Qed.

(** C87: with another extra_factor (every algorithm passes its step size) the result is not the
    proximity point of beta * extra_factor: theta is recomputed without extra_factor. For
    w = (1, 1), k = 1, beta = 1 and extra_factor = 2 the point (1/5, 1/5) is strictly better than
    the result (1/3, 1/3). *)
Theorem C87_extra_factor_refuted : exists beta k w f r k' z cr cz,
  0 < beta /\ 0 < f /\ ks_op beta k w f = Ok (r, k') /\
  is_ksup (Z.to_nat k) (length w) (ent r) cr /\ is_ksup (Z.to_nat k) (length w) (ent z) cz /\
  / 2 * sqd (length w) (ent w) (ent z) + beta * f / 2 * cz ^ 2 < / 2 * sqd (length w) (ent w) (ent r) + beta * f / 2 * cr ^ 2.
Proof.
  pose proof feps_pos as FP. pose proof feps_small as FS.
  destruct (find_alpha_close 2 [1; 1] 1) as (al & t & EA & GA & T0 & EX & CL); try lra; [discriminate|].
  assert (TE : t = 8 / 10).
  { destruct EX as [[-> N]|[T S]].
    - unfold nnz, rsum in N. cbn [map fold_right] in N. destruct (Req_EM_T 1 0); lra.
    - unfold theta_sum, rsum in S. cbn [map fold_right] in S. rewrite !theta1_clip, Rabs_right in S by lra.
      assert (Q : clip (2 / t * 1 - 2) = / 2) by lra. assert (Q2 : 2 / t = 25 / 10) by (revert Q; clipc).
      apply (f_equal (fun v => v * t)) in Q2. replace (2 / t * t) with 2 in Q2 by (field; lra). lra. }
  subst t. specialize (CL 1 (or_introl eq_refl)). rewrite Rabs_R1 in CL.
  assert (EC : err_const 2 (length [1; 1]) feps <= / 100) by (unfold err_const; cbn [length INR]; lra).
  assert (Z8 : zc 2 (8 / 10) 1 = 2 / 10) by (unfold zc, Rmin, Rmax; repeat destruct (Rle_dec _ _); lra).
  rewrite Z8 in CL. assert (CL2 : Rabs (zc 2 (tau_of 2 al) 1 - 2 / 10) <= / 100) by lra. apply Rabs_le_inv in CL2.
  assert (TT : 79 / 100 <= tau_of 2 al <= 81 / 100).
  { revert CL2. unfold zc, Rmin, Rmax. repeat destruct (Rle_dec _ _); lra. }
  destruct al as [a| | |]; cbn [tau_of good_alpha] in *; try lra; try contradiction.
  assert (A2 : 2 <= a).
  { assert (AE : 2 / a * a = 2) by (field; lra). nra. }
  assert (OP : ks_op 1 1 [1; 1] 2 = Ok ([/ 3; / 3], 1%Z)).
  { rewrite (ks_op_ok 1 1 [1; 1] 2 (Fin a)).
    - cbn [map length theta_f]. rewrite theta1_clip, Rabs_R1. replace (clip (a * 1 - 1 * 1)) with 1 by clipc.
      change (Z.min 1 (Z.of_nat 2)) with 1%Z. repeat f_equal; field.
    - lra.
    - replace (1 * 2) with 2 by ring. exact EA.
    - exact GA. }
  exists 1, 1%Z, [1; 1], 2, [/ 3; / 3], 1%Z, [/ 5; / 5], (2 / 3), (2 / 5).
  split; [lra|]. split; [lra|]. split; [exact OP|]. change (Z.to_nat 1) with 1%nat. cbn [length].
  assert (N1 : bsum 2 (fun i => Rabs (ent [/ 3; / 3] i)) = 2 / 3) by (cbn; rewrite Rabs_right by lra; field).
  assert (N2 : bsum 2 (fun i => Rabs (ent [/ 5; / 5] i)) = 2 / 5) by (cbn; rewrite Rabs_right by lra; field).
  split; [rewrite <- N1; apply ksup_l1|]. split; [rewrite <- N2; apply ksup_l1|]. unfold sqd, dotv, ent. cbn. lra.
Qed.
Print Assumptions C87_extra_factor_refuted.

(** C88: for 1 <= k <= d, cost returns a number between beta/2 * |w|_1^2 / k and beta times the
    squared k-support norm. *)
Theorem C88_cost_bounds : forall beta k w c, 0 <= beta -> (1 <= k <= Z.of_nat (length w))%Z ->
  is_ksup (Z.to_nat k) (length w) (ent w) c ->
  exists v, ks_cost beta k w = Ok v /\ beta / 2 * (rsum (map Rabs w) ^ 2 / IZR k) <= v <= beta * c ^ 2.
Proof. exact ks_cost_bounds. Qed.
Print Assumptions C88_cost_bounds.

(** C88: for k = 1 the cost is beta times the squared l1 norm, i.e. twice the function whose
    proximity operator op is. *)
Theorem C88_cost_for_k_1 : forall beta w c, w <> [] -> is_ksup 1 (length w) (ent w) c ->
  ks_cost beta 1 w = Ok (2 * (beta / 2 * c ^ 2)).
Proof.
  intros beta w c W C. rewrite (ks_cost_l1 beta w W).
  rewrite (ksup_unique _ _ _ _ _ C (ksup_l1 _ _)).
  replace (bsum (length w) (fun i => Rabs (ent w i))) with (l1norm w); [f_equal; field|].
  unfold l1norm. rewrite rsum_bsum, map_length. apply bsum_ext. intros i I. rewrite <- (ent_map Rabs w i I). reflexivity.
Qed.
Print Assumptions C88_cost_for_k_1.

Lemma sort_21 : sort_desc (map Rabs [2; 1]) = [2; 1].
Proof. cbn [map]. rewrite !Rabs_right by lra. unfold sort_desc. cbn. destruct (Rle_dec 1 2); [reflexivity|lra]. Qed.
Lemma sort_11 : sort_desc (map Rabs [1; 1]) = [1; 1].
Proof. cbn [map]. rewrite !Rabs_right by lra. unfold sort_desc. cbn. destruct (Rle_dec 1 1); [reflexivity|lra]. Qed.
Lemma sort_311 : sort_desc (map Rabs [3; 1; 1]) = [3; 1; 1].
Proof.
  cbn [map]. rewrite !Rabs_right by lra. unfold sort_desc. cbn. destruct (Rle_dec 1 1); [|lra]. cbn. destruct (Rle_dec 1 3); [reflexivity|lra].
Qed.

Ltac num := unfold rsum; cbn [fold_right skipn firstn map Nat.sub]; change (Z.to_nat 2) with 2%nat; cbn [Nat.sub INR]; try lra.
Lemma cost_11 : ks_cost 1 2 [1; 1] = Ok 2.
Proof.
  unfold ks_cost. cbv zeta. rewrite sort_11. unfold find_q, idx. cbn [nth_error bind]. unfold geb.
  destruct (Rle_dec 1 _) as [H|H]; [|elim H; num]. cbn [bind]. f_equal. num.
Qed.
Lemma cost_21 : ks_cost 1 2 [2; 1] = Ok 3.
Proof.
  unfold ks_cost. cbv zeta. rewrite sort_21. unfold find_q, idx. cbn [nth_error bind]. unfold geb.
  destruct (Rle_dec 2 _) as [H|H]; [exfalso; revert H; num|]. change (Z.to_nat 2 - 1)%nat with 1%nat. cbn [nth_error bind].
  destruct (Rle_dec _ 1) as [H1|H1]; [|elim H1; num]. cbn [bind]. f_equal. num.
Qed.
Lemma cost_311 : ks_cost 1 2 [3; 1; 1] = Ok (25 / 2).
Proof.
  unfold ks_cost. cbv zeta. rewrite sort_311. unfold find_q, idx. cbn [nth_error bind]. unfold geb.
  destruct (Rle_dec 3 _) as [H|H]; [exfalso; revert H; num|]. change (Z.to_nat 2 - 1)%nat with 1%nat. cbn [nth_error bind].
  destruct (Rle_dec _ 1) as [H1|H1]; [exfalso; revert H1; num|]. change (Z.to_nat 2) with 2%nat.
  cbn [q_loop Nat.leb]. change (Nat.div (0 + 1) 2) with 0%nat. cbv zeta. unfold idx. cbn [nth_error bind Nat.add]. unfold geb.
  destruct (Rle_dec 1 _) as [H2|H2]; [|elim H2; num]. destruct (Rle_dec _ 3) as [H3|H3]; [|elim H3; num]. cbn [andb bind].
  f_equal. num.
Qed.

(** C88: the cost is no multiple of the squared k-support norm c^2: for k = 2 it is c^2 at (1, 1)
    and 3/5 c^2 at (2, 1) (the factor 1/2 covers only the first of the two sums). *)
Theorem C88_cost_refuted : exists beta k w w' c c' v v',
  is_ksup (Z.to_nat k) (length w) (ent w) c /\ is_ksup (Z.to_nat k) (length w') (ent w') c' /\
  ks_cost beta k w = Ok v /\ ks_cost beta k w' = Ok v' /\ v = c ^ 2 /\ v' = 3 / 5 * c' ^ 2 /\ 0 < c'.
Proof.
  exists 1, 2%Z, [1; 1], [2; 1], (sqrt 2), (sqrt 5), 2, 3. change (Z.to_nat 2) with 2%nat. cbn [length].
  assert (S2 : dotv 2 (ent [1; 1]) (ent [1; 1]) = 2) by (cbn; ring).
  assert (S5 : dotv 2 (ent [2; 1]) (ent [2; 1]) = 5) by (cbn; ring).
  split; [rewrite <- S2; apply ksup_l2; lia|]. split; [rewrite <- S5; apply ksup_l2; lia|].
  split; [exact cost_11|]. split; [exact cost_21|].
  rewrite <- !Rsqr_pow2, !Rsqr_sqrt by lra. split; [reflexivity|]. split; [field|apply sqrt_lt_R0; lra].
Qed.
Print Assumptions C88_cost_refuted.

(** The squared norm of (3, 1, 1) for k = 2 is 13 (q = 1: 9 + (1 + 1)^2 / 1). *)
Lemma ksup_311 : is_ksup 2 3 (ent [3; 1; 1]) (sqrt 13).
Proof.
  destruct (ksup_exists 2 3 (ent [3; 1; 1]) ltac:(lia)) as [c C].
  assert (U : c ^ 2 <= 13).
  { pose proof (ksup_upper 2 3 (ent [3; 1; 1]) c (ent [1; / 2; / 2]) (ent [3; 2; 2]) C) as H.
    replace 13 with (dotv 3 (ent [3; 1; 1]) (ent [3; 2; 2])) by (cbn; ring). apply H.
    - intros i I. destruct i as [|[|[|i]]]; [| | |lia]; unfold ent; cbn; lra.
    - cbn. lra.
    - intros i I. destruct i as [|[|[|i]]]; [| | |lia]; unfold ent; cbn; field. }
  assert (L : 13 <= / 2 * 13 + / 2 * c ^ 2).
  { assert (D : dotv 3 (ent [3; 1; 1]) (ent [3; 2; 2]) = 13) by (cbn; ring). rewrite <- D at 1.
    apply (ksup_lower 2 3 _ c _ 13 C); [lra|]. intros T ND F Ln. rewrite (sum_ind T 3 _ ND F).
    pose proof (count_ind T 3 ND F) as CT. apply le_INR in Ln. cbn [INR] in Ln. cbn [bsum] in *. unfold ent. cbn [nth].
    unfold ind in *. destruct (in_dec Nat.eq_dec 0%nat T), (in_dec Nat.eq_dec 1%nat T), (in_dec Nat.eq_dec 2%nat T); lra. }
  pose proof (ksup_nonneg _ _ _ _ C) as C0. replace (sqrt 13) with c; [exact C|].
  replace 13 with (c * c) by nra. symmetry. apply sqrt_square, C0.
Qed.

(** C88: nor does the search find the documented q: at (3, 1, 1) with k = 2 the documented
    condition |w_q| >= sum_(j>q) |w_j| / (k - q) >= |w_(q+1)| holds for q = 1 and not for q = 0,
    the code uses q = 0 and returns 12.5 where the squared norm is 13. *)
Theorem C88_wrong_q_refuted : exists k w c v,
  is_ksup (Z.to_nat k) (length w) (ent w) c /\ ks_cost 1 k w = Ok v /\ v = 25 / 2 /\ c ^ 2 = 13.
Proof.
  exists 2%Z, [3; 1; 1], (sqrt 13), (25 / 2). split; [exact ksup_311|]. split; [exact cost_311|]. split; [reflexivity|].
  rewrite <- Rsqr_pow2. apply Rsqr_sqrt. lra.
Qed.
Print Assumptions C88_wrong_q_refuted.

(** The documented example: cost of [0, 5, 10, 15, 20] for beta = 3, k = 1 is 7500. *)
Example C88_example : ks_cost 3 1 [0; 5; 10; 15; 20] = Ok 7500.
Proof.
  rewrite ks_cost_l1 by discriminate. f_equal. unfold l1norm. cbn [map]. rewrite !Rabs_right by lra. cbn. ring.
Qed.

(** C89: k_value below 1 is a ValueError, any other value is stored. *)
Theorem C89_k_value_validation : forall k,
  ((k < 1)%Z -> ks_set_k k = Err ValueError) /\ ((1 <= k)%Z -> ks_set_k k = Ok k).
Proof. intros k. unfold ks_set_k. destruct (Z.ltb_spec k 1); split; intros; try lia; reflexivity. Qed.
Print Assumptions C89_k_value_validation.

(** C89: a k_value above the number of entries is lowered to it by op, and stays lowered: the object
    gives another result than a fresh one on the next, larger array. *)
Theorem C89_k_value_kept_refuted : exists beta k small large r k1 r1 k2 r2 k3,
  ks_op beta k small 1 = Ok (r, k1) /\ ks_op beta k1 large 1 = Ok (r1, k2) /\ ks_op beta k large 1 = Ok (r2, k3) /\ r1 <> r2.
Proof.
  pose proof feps_pos as FP. pose proof feps_small as FS.
  destruct (ks_op_prox 1 2 [1] ltac:(lra) ltac:(lia) ltac:(discriminate)) as (r & _ & E & _).
  destruct (op_value 1 1 [1; 1] (2 / 3)) as (r1 & E1 & L1 & C1); try lra; try lia; [discriminate| |].
  { right. split; [lra|]. change (IZR (Z.min 1 (Z.of_nat (length [1; 1])))) with 1.
    unfold theta_sum, rsum. cbn [map fold_right]. rewrite !theta1_clip, Rabs_R1. clipc. }
  destruct (op_value 1 2 [1; 1] 0) as (r2 & E2 & L2 & C2); try lra; try lia; [discriminate| |].
  { left. split; [reflexivity|]. change (IZR (Z.min 2 (Z.of_nat (length [1; 1])))) with 2.
    unfold nnz, rsum. cbn [map fold_right]. destruct (Req_EM_T 1 0); lra. }
  exists 1, 2%Z, [1], [1; 1], r, 1%Z, r1, 1%Z, r2, 2%Z. split; [exact E|]. split; [exact E1|]. split; [exact E2|].
  intros ->. specialize (C1 0%nat ltac:(cbn; lia)). specialize (C2 0%nat ltac:(cbn; lia)).
  assert (EC : err_const 1 (length [1; 1]) feps <= / 100) by (unfold err_const; cbn [length INR]; lra).
  unfold exact_out, exact_theta, ent in C1, C2. cbn [nth] in C1, C2.
  destruct (Req_EM_T (2 / 3) 0); [lra|]. destruct (Req_EM_T 0 0); [|lra]. destruct (Req_EM_T 1 0); [lra|].
  rewrite theta1_clip, Rabs_R1 in C1. replace (clip (1 / (2 / 3) * 1 - 1)) with (/ 2) in C1 by clipc.
  apply Rabs_le_inv in C1. apply Rabs_le_inv in C2. lra.
Qed.
Print Assumptions C89_k_value_kept_refuted.

(** C89: what op leaves in k_value. *)
Theorem C89_k_value_after_op : forall beta k w, 0 < beta -> (1 <= k)%Z -> w <> [] ->
  exists r, ks_op beta k w 1 = Ok (r, Z.min k (Z.of_nat (length w))).
Proof. intros beta k w B K W. destruct (ks_op_prox beta k w B K W) as (r & p & E & _). exists r. exact E. Qed.
Print Assumptions C89_k_value_after_op.

(** C89: cost does not lower k_value: as long as k_value exceeds the number of entries it raises
    IndexError on every array that is not all zero. *)
Theorem C89_cost_raises_for_large_k : forall beta k w, (Z.of_nat (length w) < k)%Z -> (exists x, In x w /\ x <> 0) ->
  ks_cost beta k w = Err IndexError.
Proof. exact ks_cost_too_large. Qed.
Print Assumptions C89_cost_raises_for_large_k.

Example C89_example : ks_cost 1 3 [1; 1] = Err IndexError /\ exists r, ks_op 1 3 [1; 1] 1 = Ok (r, 2%Z) /\ ks_cost 1 2 [1; 1] = Ok 2.
Proof.
  split.
  - apply C89_cost_raises_for_large_k; [cbn; lia|]. exists 1. split; [left; reflexivity|lra].
  - destruct (C89_k_value_after_op 1 3 [1; 1] ltac:(lra) ltac:(lia) ltac:(discriminate)) as (r & E). exists r. split; [exact E|exact cost_11].
Qed.
