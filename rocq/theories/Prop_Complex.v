(** Property theorems C114-C116: complex arrays. *)
From Coq Require Import String.
From Verif Require Import NPReal Py IPS Proof_Cost Model_Signal Model_Prox Model_Linear Spec_Prox Proof_Prox
  Model_Complex Spec_Complex Proof_Complex.
From Coq Require Import List Lia.
Import ListNotations Spec_Prox Model_Linear.
Local Open Scope string_scope.
Local Open Scope R_scope.

(** * C114: thresholding *)

(** Hard thresholding keeps an entry of modulus at least the threshold and zeroes the others. *)
Theorem C114_hard_keeps_or_kills :
  forall x t ts, per_element t (length x) ts ->
  exists y, cthresh x t "hard" = Ok y /\ length y = length x /\
  (forall i v s, nth_error x i = Some v -> nth_error ts i = Some s ->
     nth_error y i = Some (if Rle_dec s (modulus v) then v else (0, 0))) /\
  cthresh y t "hard" = Ok y.
Proof.
  intros x t ts H. assert (L := per_element_length _ _ _ H). assert (B := per_element_bcast _ _ _ H).
  exists (map2 chard1 ts x). split; [apply cthresh_hard; exact B|]. split; [apply map2_len; exact L|]. split.
  - intros i v s Hv Hs. rewrite map2_nth by exact L. rewrite Hs, Hv, chard1_spec. reflexivity.
  - rewrite (cthresh_hard _ _ ts); [|rewrite (map2_len chard1 ts x L); exact B]. f_equal.
    clear. revert x. induction ts as [|s ts IH]; intros [|v x]; cbn; auto. rewrite IH. f_equal.
    rewrite !chard1_spec. destruct (Rle_dec s (modulus v)) as [a|a].
    + destruct (Rle_dec s (modulus v)); [reflexivity|contradiction].
    + destruct (Rle_dec s (modulus (0, 0))); reflexivity.
Qed.
Print Assumptions C114_hard_keeps_or_kills.

(** Soft thresholding keeps the phase and reduces the modulus by the threshold, up to the rounding
    of the real and imaginary parts to 15 decimals; an entry of modulus at most the threshold
    becomes exactly 0. *)
Theorem C114_soft_shrinks_the_modulus :
  forall x t ts, per_element t (length x) ts -> nonneg ts ->
  exists y, cthresh x t "soft" = Ok y /\ length y = length x /\
  forall i v s r u, nth_error x i = Some v -> nth_error ts i = Some s -> nth_error y i = Some r -> is_cshrink s v u ->
    Rabs (fst r - fst u) < / 10 ^ 15 /\ Rabs (snd r - snd u) < / 10 ^ 15 /\ (modulus v <= s -> r = (0, 0)).
Proof.
  intros x t ts H N. assert (L := per_element_length _ _ _ H). assert (B := per_element_bcast _ _ _ H).
  exists (map2 csoft1 ts x). split; [apply cthresh_soft; exact B|]. split; [apply map2_len; exact L|].
  intros i v s r u Hv Hs Hr Hu. rewrite map2_nth in Hr by exact L. rewrite Hs, Hv in Hr. inversion Hr; subst.
  apply csoft1_spec; [|exact Hu]. unfold nonneg in N. rewrite Forall_forall in N. apply N. eapply nth_error_In. exact Hs.
Qed.
Print Assumptions C114_soft_shrinks_the_modulus.

(** The shrunk number exists and is unique, so the theorem above pins the result down. *)
Theorem C114_shrinkage_well_defined :
  forall t z, 0 <= t -> exists s, is_cshrink t z s /\ forall s', is_cshrink t z s' -> s' = s.
Proof.
  intros t z Ht. destruct (Req_dec (modulus z) 0) as [E|E].
  - exists (0, 0). assert (S : is_cshrink t z (0, 0)).
    { split; [rewrite modulus_0, E, Rmax_left by lra; reflexivity|]. exists 0. split; [lra|]. f_equal; ring. }
    split; [exact S|]. intros s' S'. exact (cshrink_unique t z s' (0, 0) S' S).
  - pose proof (modulus_pos z). set (a := Rmax 0 (modulus z - t) / modulus z).
    assert (A : 0 <= a) by (apply Rmult_le_pos; [apply Rmax_l|left; apply Rinv_0_lt_compat; lra]).
    assert (S : is_cshrink t z (rscale a z)).
    { split; [|exists a; split; [exact A|reflexivity]].
      rewrite modulus_rscale, Rabs_right by lra. unfold a. field. exact E. }
    exists (rscale a z). split; [exact S|]. intros s' S'. exact (cshrink_unique t z s' _ S' S).
Qed.
Print Assumptions C114_shrinkage_well_defined.

(** Before rounding, rotating the phase of the data rotates the phase of the result. *)
Theorem C114_phase_equivariant :
  forall t u z, modulus u = 1 -> csoft_unrounded t (cmul u z) = cmul u (csoft_unrounded t z).
Proof. exact csoft_phase. Qed.
Print Assumptions C114_phase_equivariant.

(** Complex arrays with zero imaginary parts are treated as the real array is. *)
Lemma modulus_real v : modulus (v, 0) = Rabs v.
Proof.
  unfold modulus. cbn [fst snd]. replace (v ^ 2 + 0 ^ 2) with (Rsqr v) by (unfold Rsqr; ring). apply sqrt_Rsqr_abs.
Qed.
Theorem C114_agrees_on_real_data :
  forall x t ty y, thresh x t ty = Ok y ->
  cthresh (map (fun v => (v, 0)) x) t ty = Ok (map (fun v => (v, 0)) y).
Proof.
  intros x t ty y. unfold thresh, cthresh. rewrite map_length.
  destruct (negb _); [discriminate|]. destruct (bcast t (length x)) as [ts|]; [|discriminate]. cbn [bind].
  assert (G : forall (f : R -> R -> R) (g : R -> R * R -> R * R), (forall s v, g s (v, 0) = (f s v, 0)) ->
    map2 g ts (map (fun v => (v, 0)) x) = map (fun v => (v, 0)) (map2 f ts x)).
  { intros f g E. revert x. induction ts as [|s ts IH]; intros [|v x]; cbn; auto. rewrite E, IH. reflexivity. }
  destruct (String.eqb ty "soft"); intros Hy; inversion Hy; subst; f_equal; apply G; intros s v.
  - unfold csoft1, soft1, caround, csoft_unrounded, soft_unrounded, rscale. rewrite cabs_modulus, modulus_real. cbn [fst snd].
    rewrite Rmult_0_r, around_0. reflexivity.
  - unfold chard1, hard1, rscale. rewrite cabs_modulus, modulus_real. cbn [fst snd]. f_equal; ring.
Qed.
Print Assumptions C114_agrees_on_real_data.

(** 3 - 4i has modulus 5. *)
Lemma modulus_345 : modulus (3, -4) = 5.
Proof. unfold modulus. cbn [fst snd]. replace (3 ^ 2 + (-4) ^ 2) with (5 * 5) by ring. apply sqrt_square. lra. Qed.
Example C114_example : is_cshrink 2 (3, -4) (9 / 5, - (12 / 5)).
Proof.
  split; [|exists (3 / 5); split; [lra|cbn; f_equal; lra]]. rewrite modulus_345, Rmax_right by lra.
  unfold modulus. cbn [fst snd]. replace ((9 / 5) ^ 2 + (- (12 / 5)) ^ 2) with ((5 - 2) * (5 - 2)) by field. apply sqrt_square. lra.
Qed.

(** * C115: proximity operators *)

(** SparseThreshold: the returned array is the 15-decimal rounding of the exact minimiser over all
    complex arrays. *)
Theorem C115_sparse_threshold_solves_prox :
  forall weights ws x f, per_element weights (length x) ws -> nonneg ws -> 0 <= f ->
  Forall (fun v => v = (0, 0) \/ eps64 <= modulus v) x ->
  exists p, csparse_op weights "soft" x f = Ok (map (caround 15) p) /\
    cstrong_minimiser (length x) (fun z => / 2 * csqdist z x + f * cweighted_l1 ws z) p.
Proof.
  intros weights ws x f H N Hf Hx. exists (map2 (fun w v => csoft_unrounded (w * f) v) ws x). split.
  - unfold csparse_op. rewrite (cthresh_soft _ _ (map (fun w => w * f) ws)).
    + f_equal. rewrite map2_map_l. clear. revert x. induction ws as [|a l IH]; intros [|v x]; cbn; auto. rewrite IH. reflexivity.
    + apply per_element_bcast, per_element_scale. exact H.
  - assert (L := per_element_length _ _ _ H).
    destruct (cseparable (fun w v => w * f * modulus v) (fun w v => csoft_unrounded (w * f) v) ws x L) as [S1 S2].
    + intros i t v Ht Hv z. assert (T : 0 <= t * f).
      { apply Rmult_le_pos; [|exact Hf]. unfold nonneg in N. rewrite Forall_forall in N. apply N. eapply nth_error_In. exact Ht. }
      rewrite Forall_forall in Hx.
      pose proof (celastic_entry 0 (t * f) v z (Rle_refl 0) T (Hx v (nth_error_In _ _ Hv))) as Q. cbn zeta in Q.
      replace (/ (0 * 2 + 1)) with 1 in Q by field. rewrite rscale_1 in Q. lra.
    + split; [exact S1|]. intros z Lz. specialize (S2 z Lz).
      assert (E : forall z, sum2 (fun w v => w * f * modulus v) ws z = f * cweighted_l1 ws z).
      { intros z'. unfold cweighted_l1. rewrite <- sum2_scal. apply sum2_ext. intros; ring. }
      rewrite !E in S2. exact S2.
Qed.
Print Assumptions C115_sparse_threshold_solves_prox.

Theorem C115_sparse_cost :
  forall weights ws x, per_element weights (length x) ws -> nonneg ws ->
  csparse_cost (fun v => v) weights x = Ok (cweighted_l1 ws x).
Proof.
  intros weights ws x H N. unfold csparse_cost, cbmul. rewrite (per_element_bcast _ _ _ H). cbn [bind]. f_equal.
  unfold cweighted_l1. apply per_element_length in H. revert ws H N. unfold rsum.
  induction x as [|v x IH]; intros [|w ws] L N; try discriminate; [reflexivity|].
  inversion N; subst. cbn. rewrite IH by (try assumption; cbn in L; lia). f_equal.
  rewrite cabs_modulus, modulus_rscale, Rabs_right by lra. reflexivity.
Qed.
Print Assumptions C115_sparse_cost.

Theorem C115_ridge_is_prox_of_its_cost :
  forall weights ws x f, per_element weights (length x) ws -> nonneg ws -> 0 <= f ->
  (exists p, cridge_op (fun v => v) weights x f = Ok p /\
    cstrong_minimiser (length x) (fun z => / 2 * csqdist z x + f * cweighted_l2sq ws z) p) /\
  cridge_cost (fun v => v) weights x = Ok (cweighted_l2sq ws x).
Proof.
  intros weights ws x f H N Hf. assert (L := per_element_length _ _ _ H). split.
  - exists (map2 (fun w v => rscale (/ (1 + w * f * 2)) v) ws x). split.
    + unfold cridge_op. rewrite (per_element_bcast _ _ (map (fun w => w * 2) (map (fun w => w * f) ws))).
      * cbn zeta beta. cbn [bind]. rewrite !map2_map_l. apply f_equal. clear. revert x. induction ws as [|a l IH]; intros [|v x]; cbn; auto.
        rewrite IH, rscale_div. reflexivity.
      * apply per_element_scale, per_element_scale. exact H.
    + destruct (cseparable (fun w v => w * f * modulus v ^ 2) (fun w v => rscale (/ (1 + w * f * 2)) v) ws x L) as [S1 S2].
      * intros i t v Ht Hv z. assert (T : 0 <= t * f).
        { apply Rmult_le_pos; [|exact Hf]. unfold nonneg in N. rewrite Forall_forall in N. apply N. eapply nth_error_In. exact Ht. }
        rewrite !modulus_sq. unfold distsq, rscale. cbn [fst snd].
        pose proof (ridge_scalar (t * f) (fst v) (fst z) T) as Q1. pose proof (ridge_scalar (t * f) (snd v) (snd z) T) as Q2.
        unfold Rdiv in Q1, Q2. rewrite (Rmult_comm (fst v)) in Q1. rewrite (Rmult_comm (snd v)) in Q2. lra.
      * split; [exact S1|]. intros z Lz. specialize (S2 z Lz).
        assert (E : forall z, sum2 (fun w v => w * f * modulus v ^ 2) ws z = f * cweighted_l2sq ws z).
        { intros z'. unfold cweighted_l2sq. rewrite <- sum2_scal. apply sum2_ext. intros; ring. }
        rewrite !E in S2. exact S2.
  - unfold cridge_cost, cbmul. rewrite map_length, (per_element_bcast _ _ _ H). cbn [bind]. f_equal.
    unfold cweighted_l2sq. clear H. revert ws L N. unfold rsum.
    induction x as [|v x IH]; intros [|w ws] L N; try discriminate; [reflexivity|].
    inversion N; subst. cbn -[pow]. rewrite IH by (try assumption; cbn in L; lia). f_equal.
    rewrite cabs_modulus, modulus_rscale, Rabs_right, modulus_cmul by lra. ring.
Qed.
Print Assumptions C115_ridge_is_prox_of_its_cost.

Theorem C115_elastic_net_is_prox_of_its_cost :
  forall alpha beta al be x f,
  per_element alpha (length x) al -> per_element beta (length x) be -> nonneg al -> nonneg be -> 0 <= f ->
  Forall (fun v => v = (0, 0) \/ eps64 <= modulus v) x ->
  (exists p q, celastic_op alpha beta x f = Ok q /\
    cstrong_minimiser (length x) (fun z => / 2 * csqdist z x + f * (cweighted_l2sq al z + cweighted_l1 be z)) p /\
    Forall2 (fun r v => Rabs (fst r - fst v) <= / 2 * / 10 ^ 15 /\ Rabs (snd r - snd v) <= / 2 * / 10 ^ 15) q p) /\
  celastic_cost (fun v => v) alpha beta x = Ok (cweighted_l2sq al x + cweighted_l1 be x).
Proof.
  intros alpha beta al be x f Ha Hb Na Nb Hf Hx.
  assert (La := per_element_length _ _ _ Ha). assert (Lb := per_element_length _ _ _ Hb). split.
  - assert (EU : forall a b v, celastic_unrounded a b f v = rscale (/ (a * 2 * f + 1)) (csoft_unrounded (b * f) v))
      by (intros a b v; exact (rscale_div (a * 2 * f + 1) (csoft_unrounded (b * f) v))).
    set (P := fun (ab : R * R) v => celastic_unrounded (fst ab) (snd ab) f v).
    exists (map2 P (combine al be) x).
    exists (map2 (fun a v => rscale (/ (a * 2 * f + 1)) v) al (map2 (fun b v => csoft1 (b * f) v) be x)).
    split; [|split].
    + unfold celastic_op. rewrite (cthresh_soft _ _ (map (fun w => w * f) be)).
      2:{ apply per_element_bcast, per_element_scale. exact Hb. }
      cbn [bind]. rewrite (per_element_bcast _ _ (map (fun w => w * f) (map (fun w => w * 2) al))).
      2:{ apply per_element_scale, per_element_scale. exact Ha. }
      cbn [bind]. rewrite !map2_map_l. apply f_equal. generalize (map2 (fun b v => csoft1 (b * f) v) be x) as y. clear.
      intros y. revert y. induction al as [|a l IH]; intros [|v y]; cbn; auto. rewrite IH, rscale_div. reflexivity.
    + assert (Lc : length (combine al be) = length x) by (rewrite combine_length, La, Lb; apply Nat.min_id).
      destruct (cseparable (fun ab v => f * (fst ab * modulus v ^ 2 + snd ab * modulus v)) P (combine al be) x Lc) as [S1 S2].
      * intros i [a b] v Hab Hv z. cbn [fst snd]. apply nth_error_In in Hab.
        assert (A : 0 <= a) by (unfold nonneg in Na; rewrite Forall_forall in Na; apply Na; eapply in_combine_l; exact Hab).
        assert (B : 0 <= b) by (unfold nonneg in Nb; rewrite Forall_forall in Nb; apply Nb; eapply in_combine_r; exact Hab).
        rewrite Forall_forall in Hx. apply nth_error_In, Hx in Hv.
        assert (A' : 0 <= a * f) by nra. assert (B' : 0 <= b * f) by nra.
        pose proof (celastic_entry (a * f) (b * f) v z A' B' Hv) as Q. cbn zeta in Q.
        change (P (a, b) v) with (celastic_unrounded a b f v). rewrite EU.
        replace (a * 2 * f + 1) with (a * f * 2 + 1) by ring. lra.
      * split; [exact S1|]. intros z Lz. specialize (S2 z Lz).
        assert (E : forall z, length z = length x -> sum2 (fun ab v => f * (fst ab * modulus v ^ 2 + snd ab * modulus v)) (combine al be) z
          = f * (cweighted_l2sq al z + cweighted_l1 be z)).
        { intros z' L'. unfold cweighted_l2sq, cweighted_l1. rewrite sum2_scal. f_equal.
          rewrite <- L' in La, Lb. clear -La Lb. revert al be La Lb.
          induction z' as [|v z IH]; intros [|a al] [|b be] La Lb; try discriminate; [cbn; ring|].
          cbn [combine sum2 fst snd]. rewrite (IH al be) by (cbn in La, Lb; lia). ring. }
        rewrite !E in S2; [exact S2|exact Lz|exact S1].
    + clear Ha Hb Hx Nb. unfold P. clear P.
      revert al be Na La Lb. induction x as [|v x IH]; intros [|a al] [|b be] Na La Lb; try discriminate; [constructor|].
      cbn [map2 combine]. inversion Na as [|? ? Pa Na']; subst. constructor; [|apply IH; [exact Na'|cbn in La; lia|cbn in Lb; lia]].
      cbn [fst snd]. rewrite EU.
      set (u := csoft_unrounded (b * f) v). set (d := / (a * 2 * f + 1)).
      assert (D : 0 <= d <= 1).
      { assert (0 <= a * 2 * f) by nra. unfold d. split; [left; apply Rinv_0_lt_compat; lra|].
        rewrite <- Rinv_1. apply Rinv_le_contravar; lra. }
      pose proof (around_err 15 (fst u)) as E1. pose proof (around_err 15 (snd u)) as E2.
      unfold csoft1, caround, rscale. fold u. cbn [fst snd].
      split; rewrite <- Rmult_minus_distr_l, Rabs_mult, (Rabs_right d) by lra.
      * pose proof (Rabs_pos (around 15 (fst u) - fst u)). nra.
      * pose proof (Rabs_pos (around 15 (snd u) - snd u)). nra.
  - unfold celastic_cost, cbmul, C. cbv beta. rewrite map_length, (per_element_bcast _ _ _ Ha), (per_element_bcast _ _ _ Hb). cbn [bind]. f_equal.
    unfold cweighted_l2sq, cweighted_l1. clear Ha Hb Hx. revert al be La Lb Na Nb. unfold rsum.
    induction x as [|v x IH]; intros [|a al] [|b be] La Lb Na Nb; try discriminate; [cbn; ring|].
    inversion Na; inversion Nb; subst. cbn -[pow]. rewrite IH by (try assumption; cbn in La, Lb; lia).
    rewrite !cabs_modulus, !modulus_rscale, !Rabs_right, modulus_cmul by lra. ring.
Qed.
Print Assumptions C115_elastic_net_is_prox_of_its_cost.

Theorem C115_group_lasso_solves_prox :
  forall weights ws f gs, per_element weights (length gs) ws -> Forall (fun w => 0 <= w * f) ws ->
  Forall (fun g => clength2 g = 0 \/ / 2 ^ 23 <= clength2 g) gs ->
  (exists p, cgroup_op weights f gs = Ok p /\ csame_shape p gs /\
   forall zs, csame_shape zs gs ->
    / 2 * cgroups_sqdist p gs + f * cweighted_lengths ws p + / 2 * cgroups_sqdist p zs
    <= / 2 * cgroups_sqdist zs gs + f * cweighted_lengths ws zs) /\
  cgroup_cost weights gs = Ok (cweighted_lengths ws gs).
Proof.
  intros weights ws f gs H N G. split.
  - eexists. split; [unfold cgroup_op, C; rewrite (per_element_bcast _ _ _ H); reflexivity|].
    apply cgroups_minimise; [eapply per_element_length; exact H|exact N|exact G].
  - unfold cgroup_cost, bmul, C. rewrite map_length, (per_element_bcast _ _ _ H). cbn [bind].
    rewrite rsum_map2, sum2_map_r. unfold cweighted_lengths. f_equal. apply sum2_ext. intros w g.
    rewrite cnorm2_flat, norm2_length2, clength2_flat. reflexivity.
Qed.
Print Assumptions C115_group_lasso_solves_prox.

(** Thresholding the real and the imaginary part separately is not what is computed: it would not
    minimise the same objective. *)
Theorem C115_not_by_parts :
  exists x p q, csparse_op (TScalar 2) "soft" x 1 = Ok p /\
  cthresh (map (fun z => (fst z, 0)) x) (TScalar 2) "soft" = Ok q /\
  map fst p <> map fst q.
Proof.
  exists [(3, -4)]. eexists. eexists. split; [reflexivity|]. split; [reflexivity|].
  cbn [map map2 fst snd repeat length]. intros E. inversion E as [E1]. revert E1.
  pose proof eps64_small as S. pose proof eps64_pos as Pe.
  assert (I10 : / 10 ^ 15 < / 10).
  { apply Rinv_lt_contravar; [|]; cbn [pow]; lra. }
  assert (Ha : Rabs (around 15 (9 / 5) - 9 / 5) <= / 2 * / 10 ^ 15) by apply around_err.
  assert (Hb : Rabs (around 15 1 - 1) <= / 2 * / 10 ^ 15) by apply around_err.
  assert (A : csoft_unrounded (2 * 1) (3, -4) = (9 / 5, - (12 / 5))).
  { unfold csoft_unrounded. rewrite cabs_modulus, modulus_345, (Rmax_right eps64) by lra.
    rewrite Rmax_left by lra. unfold rscale. cbn [fst snd]. f_equal; lra. }
  assert (B : fst (csoft_unrounded 2 (3, 0)) = 1).
  { unfold csoft_unrounded. rewrite cabs_modulus, modulus_real, (Rabs_right 3), (Rmax_right eps64) by lra.
    rewrite Rmax_left by lra. cbn [fst rscale]. lra. }
  change (around 15 (fst (csoft_unrounded (2 * 1) (3, -4))) = around 15 (fst (csoft_unrounded 2 (3, 0))) -> False).
  rewrite A, B. cbn [fst]. intros E1. rewrite E1 in Ha.
  apply Rabs_le_inv in Ha. apply Rabs_le_inv in Hb. lra.
Qed.
Print Assumptions C115_not_by_parts.

Example C115_example :
  Forall (fun v => v = (0, 0) \/ eps64 <= modulus v) [(3, -4); (0, 0)] /\ clength2 [(3, 0); (0, 4)] = 5.
Proof.
  pose proof eps64_small as S.
  assert (I10 : / 10 ^ 15 < / 10) by (apply Rinv_lt_contravar; cbn [pow]; lra).
  split.
  - constructor; [right; rewrite modulus_345; lra|]. constructor; [left; reflexivity|constructor].
  - unfold clength2. cbn [sum2]. rewrite !modulus_sq. cbn [fst snd].
    replace (3 ^ 2 + 0 ^ 2 + (0 ^ 2 + 4 ^ 2 + 0)) with (5 * 5) by ring. apply sqrt_square. lra.
Qed.

(** * C116: positivity *)

(** What is kept: exactly the entries with positive real part, and those on the positive imaginary
    axis; the imaginary part is not removed. *)
Theorem C116_kept_entries :
  forall x i z, nth_error x i = Some z ->
  exists r, nth_error (cpositive x) i = Some r /\
  ((0 < fst z \/ (fst z = 0 /\ 0 < snd z)) /\ r = z \/
   ~ (0 < fst z \/ (fst z = 0 /\ 0 < snd z)) /\ r = (0, 0)).
Proof.
  intros x i z E. exists (cpos_thresh z). split; [apply map_nth_error; exact E|].
  unfold cpos_thresh, cgt0, gtb. destruct (Rlt_dec 0 (fst z)) as [P|P]; [left; split; [left; exact P|apply rscale_1]|].
  destruct (Req_EM_T (fst z) 0) as [Q|Q].
  - destruct (Rlt_dec 0 (snd z)) as [S|S]; cbn [b2r].
    + left. split; [right; auto|apply rscale_1].
    + right. split; [tauto|unfold rscale; f_equal; ring].
  - right. split; [tauto|unfold rscale; cbn [b2r]; f_equal; ring].
Qed.
Print Assumptions C116_kept_entries.

(** On arrays with zero imaginary parts it is the projection onto non-negative arrays. *)
Theorem C116_agrees_on_real_data :
  forall x, cpositive (map (fun v => (v, 0)) x) = map (fun v => (Rmax 0 v, 0)) x.
Proof.
  intros x. unfold cpositive. rewrite map_map. apply map_ext. intros v.
  unfold cpos_thresh, cgt0, gtb, rscale. cbn [fst snd]. destruct (Rlt_dec 0 v) as [P|P]; cbn [b2r].
  - rewrite Rmax_right by lra. f_equal; ring.
  - rewrite Rmax_left by lra. destruct (Req_EM_T v 0); [destruct (Rlt_dec 0 0); [lra|]|]; cbn [b2r]; f_equal; ring.
Qed.
Print Assumptions C116_agrees_on_real_data.

(** The result need not be a non-negative real array. *)
Theorem C116_nonnegative_refuted : exists x, ~ Forall (fun z => 0 <= fst z /\ snd z = 0) (cpositive x).
Proof.
  exists [(1, -5)]. intros F. inversion F as [|? ? [_ E] _]; subst. revert E.
  unfold cpos_thresh, cgt0, rscale. cbn [fst snd]. destruct (Rlt_dec 0 1); [cbn [b2r]; lra|lra].
Qed.
Print Assumptions C116_nonnegative_refuted.

(** Moving one entry by any small distance can move the result by 5. *)
Lemma cpos_jump d : 0 < d -> cpos_thresh (0, 5) = (0, 5) /\ cpos_thresh (- d, 5) = (0, 0).
Proof.
  intros Hd. unfold cpos_thresh, cgt0, gtb, rscale. cbn [fst snd]. split.
  - destruct (Rlt_dec 0 0); [lra|]. destruct (Req_EM_T 0 0); [|contradiction]. destruct (Rlt_dec 0 5); [|lra]. cbn [b2r]. f_equal; ring.
  - destruct (Rlt_dec 0 (- d)); [lra|]. destruct (Req_EM_T (- d) 0); [lra|]. cbn [b2r]. f_equal; ring.
Qed.
Theorem C116_jumps :
  forall d, 0 < d -> exists x y, csqdist x y = d ^ 2 /\ csqdist (cpositive x) (cpositive y) = 25.
Proof.
  intros d Hd. exists [(0, 5)], [(- d, 5)]. destruct (cpos_jump d Hd) as [A B].
  unfold cpositive. cbn [map]. rewrite A, B. unfold csqdist, distsq. cbn [sum2 fst snd]. split; ring.
Qed.
Print Assumptions C116_jumps.
Theorem C116_nonexpansive_refuted : exists x y, csqdist x y < csqdist (cpositive x) (cpositive y).
Proof. destruct (C116_jumps 1 Rlt_0_1) as (x & y & E1 & E2). exists x, y. rewrite E1, E2. lra. Qed.
Print Assumptions C116_nonexpansive_refuted.

(** Hence on complex data Positivity is not the proximity operator of any convex function. *)
Theorem C116_not_a_prox :
  ~ exists (D : C_ips -> Prop) (g : C_ips -> R), convex_on D g /\ forall z : C_ips, is_prox D g z (cpos_thresh z).
Proof.
  intros (D & g & Cv & P).
  destruct (cpos_jump 1 Rlt_0_1) as [A B].
  destruct (is_prox_vi D g _ _ Cv (P (0, 5))) as [D1 V1]. destruct (is_prox_vi D g _ _ Cv (P (-(1), 5))) as [D2 V2].
  rewrite A in *. rewrite B in *.
  specialize (V1 (0, 0) D2). specialize (V2 (0, 5) D1). cbn in V1, V2. lra.
Qed.
Print Assumptions C116_not_a_prox.

Example C116_example : nth_error (cpositive [(1, -5); (-1, 7)]) 1 = Some (0, 0).
Proof. cbn. f_equal. unfold cpos_thresh, cgt0, rscale. cbn [fst snd]. destruct (Rlt_dec 0 (-1)); [lra|]. destruct (Req_EM_T (-1) 0); [lra|]. cbn [b2r]. f_equal; ring. Qed.
