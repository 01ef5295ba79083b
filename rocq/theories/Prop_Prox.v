(** Property theorems C22-C32 and C61: positivity, thresholding and proximity operators. *)
From Coq Require Import Sorted Permutation String.
From Verif Require Import NPReal Py IPS Model_Signal Model_Prox Spec_Prox Proof_Prox Proof_OWL.
From Coq Require Import List Lia.
Import ListNotations Model_Signal.
Local Open Scope string_scope.
Local Open Scope R_scope.

(** * C22 *)
Theorem C22_numeric_projection :
  forall x, exists p,
  positive (PosArr (NumArr x)) = Ok (RArr (NumArr p)) /\
  length p = length x /\ nonneg p /\
  (forall i v, nth_error x i = Some v -> 0 <= v -> nth_error p i = Some v) /\
  positive (PosArr (NumArr p)) = Ok (RArr (NumArr p)) /\
  (forall z, length z = length x -> nonneg z -> sqdist p x + sqdist p z <= sqdist z x).
Proof.
  intros x. exists (map pos_thresh x). destruct (pos_projection x) as (N & L & _ & I & M).
  split; [reflexivity|]. split; [exact L|]. split; [exact N|]. split; [|split; [|exact M]].
  - intros i v E Hv. rewrite (map_nth_error _ _ _ E), pos_thresh_max, Rmax_right by exact Hv. reflexivity.
  - cbn. rewrite I. reflexivity.
Qed.
Print Assumptions C22_numeric_projection.

Theorem C22_numbers_and_type_errors :
  (forall r, positive (PosNum r) = Ok (RNum (Rmax 0 r))) /\ positive PosOther = Err TypeError.
Proof. split; [|reflexivity]. intros r. cbn. rewrite pos_thresh_max. reflexivity. Qed.
Print Assumptions C22_numbers_and_type_errors.

(** Nested arrays: every value becomes max(0, value), in place. *)
Theorem C22_nested_values :
  forall t, all_arrays t ->
  exists t', positive (PosArr t) = Ok (RArr t') /\ leaves t' = map (Rmax 0) (leaves t).
Proof.
  intros t H. destruct (pos_recursive_leaves t H) as (t' & E & L). exists t'. cbn. rewrite E. auto.
Qed.
Print Assumptions C22_nested_values.

Theorem C22_ragged_structure_kept :
  forall t, ragged t ->
  exists t', positive (PosArr t) = Ok (RArr t') /\ structure t' = structure t.
Proof.
  intros t H. destruct (pos_recursive_structure t H) as (t' & E & L). exists t'. cbn. rewrite E. auto.
Qed.
Print Assumptions C22_ragged_structure_kept.

(** Sibling arrays of equal length are merged, after which the operator cannot be applied again. *)
Theorem C22_nested_structure_refuted :
  exists t t', all_arrays t /\ positive (PosArr t) = Ok (RArr t') /\
  structure t' <> structure t /\ positive (PosArr t') = Err AttributeError.
Proof.
  exists (ObjArr [NumArr [1; -2]; NumArr [3; 4]]). eexists.
  split; [cbn; auto|]. split; [reflexivity|]. split; [discriminate|reflexivity].
Qed.
Print Assumptions C22_nested_structure_refuted.

(** ragged=True with arrays that all have the same positive length always fails. *)
Theorem C22_ragged_flag_equal_lengths :
  forall n arrays, arrays <> [] -> (0 < n)%nat -> Forall (fun a => length a = n) arrays ->
  positive_ragged arrays = Err AttributeError.
Proof.
  intros n arrays Hne Hn F. unfold positive_ragged, positive, np_object_array.
  assert (S : same_length_nums (map NumArr arrays) = Some arrays).
  { clear Hne Hn. induction F as [|a l Ha F IH]; [reflexivity|]. cbn. fold (same_length_nums (map NumArr l)). rewrite IH.
    destruct l as [|b l]; [reflexivity|]. inversion F; subst. rewrite H1, Nat.eqb_refl. reflexivity. }
  rewrite S. destruct arrays as [|a l]; [contradiction|]. cbn [map].
  inversion F; subst. destruct a as [|v a]; [cbn in Hn; lia|]. reflexivity.
Qed.
Print Assumptions C22_ragged_flag_equal_lengths.
Theorem C22_ragged_flag_refuted : exists arrays, positive_ragged arrays = Err AttributeError /\ arrays <> [] /\ Forall (fun a => a <> []) arrays.
Proof.
  exists [[1]; [-1]]. split; [|split; [discriminate|repeat constructor; discriminate]]. apply (C22_ragged_flag_equal_lengths 1); [discriminate|lia|repeat constructor].
Qed.
Print Assumptions C22_ragged_flag_refuted.

Example C22_example : ragged (ObjArr [NumArr [1; -2]; ObjArr [NumArr [3]; NumArr [-4; 5]]]).
Proof.
  cbn. split; [right|split; [exact I|split; [|exact I]]].
  - intros (n & F). inversion F as [|? ? _ F1]; subst. inversion F1 as [|? ? (a & Ha & _)]; subst. discriminate.
  - split; [right|auto]. intros (n & F). inversion F as [|? ? (a & Ha & La) F1]; subst.
    inversion F1 as [|? ? (b & Hb & Lb)]; subst. inversion Ha; inversion Hb; subst. discriminate.
Qed.

(** * C23 *)
Theorem C23_hard_keeps_or_kills :
  forall x t ts, per_element t (length x) ts ->
  exists y, thresh x t "hard" = Ok y /\ length y = length x /\
  (forall i v s, nth_error x i = Some v -> nth_error ts i = Some s ->
     nth_error y i = Some (if Rle_dec s (Rabs v) then v else 0)) /\
  thresh y t "hard" = Ok y.
Proof.
  intros x t ts H. assert (L := per_element_length _ _ _ H). assert (B := per_element_bcast _ _ _ H).
  exists (map2 hard1 ts x). split; [apply thresh_hard; exact B|]. split; [apply map2_len; exact L|]. split.
  - intros i v s Hv Hs. rewrite map2_nth by exact L. rewrite Hs, Hv. f_equal.
    destruct (hard1_spec s v) as [A1 A2]. destruct (Rle_dec s (Rabs v)); [apply A1; assumption|apply A2; lra].
  - rewrite (thresh_hard _ _ ts); [|rewrite (map2_len hard1 ts x L); exact B]. f_equal.
    clear. revert x. induction ts as [|s ts IH]; intros [|v x]; cbn; auto. rewrite hard1_idem, IH. reflexivity.
Qed.
Print Assumptions C23_hard_keeps_or_kills.

Theorem C23_zero_threshold_is_identity : forall x, thresh x (TScalar 0) "hard" = Ok x.
Proof.
  intros x. rewrite (thresh_hard x (TScalar 0) (repeat 0 (length x)) eq_refl). f_equal.
  induction x as [|v x IH]; cbn; [reflexivity|]. rewrite IH, (proj1 (hard1_spec 0 v)) by apply Rabs_pos. reflexivity.
Qed.
Print Assumptions C23_zero_threshold_is_identity.

Example C23_example : per_element (TArray [1; 5]) 2 [1; 5] /\ per_element (TScalar 3) 2 [3; 3].
Proof. split; [exact (pe_array [1; 5])|exact (pe_scalar 3 2)]. Qed.

(** * C24 *)
Theorem C24_soft_is_shrinkage_up_to_rounding :
  forall x t ts, per_element t (length x) ts -> nonneg ts ->
  exists y, thresh x t "soft" = Ok y /\ length y = length x /\
  forall i v s r, nth_error x i = Some v -> nth_error ts i = Some s -> nth_error y i = Some r ->
    Rabs (r - shrink s v) < / 10 ^ 15 /\ 0 <= r * v /\ (Rabs v <= s -> r = 0).
Proof.
  intros x t ts H N. assert (L := per_element_length _ _ _ H). assert (B := per_element_bcast _ _ _ H).
  exists (map2 soft1 ts x). split; [apply thresh_soft; exact B|]. split; [apply map2_len; exact L|].
  intros i v s r Hv Hs Hr. rewrite map2_nth in Hr by exact L. rewrite Hs, Hv in Hr. inversion Hr; subst.
  apply soft1_spec. unfold nonneg in N. rewrite Forall_forall in N. apply N. eapply nth_error_In. exact Hs.
Qed.
Print Assumptions C24_soft_is_shrinkage_up_to_rounding.

Example C24_example : shrink 2 5 = 3 /\ shrink 2 (-5) = -3 /\ shrink 2 1 = 0.
Proof.
  unfold shrink. repeat split.
  - rewrite Rabs_right by lra. destruct (Rle_dec 5 2), (Rle_dec 0 5); lra.
  - rewrite Rabs_left by lra. destruct (Rle_dec (- -5) 2), (Rle_dec 0 (-5)); lra.
  - rewrite Rabs_right by lra. destruct (Rle_dec 1 2), (Rle_dec 0 1); lra.
Qed.

(** * C25 *)

(** The value SparseThreshold.op returns is the 15-decimal rounding of the exact minimiser. *)
Theorem C25_sparse_threshold_solves_prox :
  forall weights ws x f, per_element weights (length x) ws -> nonneg ws -> 0 <= f ->
  Forall (fun v => v = 0 \/ eps64 <= Rabs v) x ->
  exists p, sparse_op weights "soft" x f = Ok (map (around 15) p) /\
    strong_minimiser (length x) (fun z => / 2 * sqdist z x + f * weighted_l1 ws z) p.
Proof.
  intros weights ws x f H N Hf Hx. exists (map2 soft_unrounded (map (fun w => w * f) ws) x). split.
  - rewrite (sparse_op_soft _ _ _ _ H). f_equal. generalize (map (fun w => w * f) ws). clear. intros l. revert x.
    induction l as [|a l IH]; intros [|v x]; cbn; auto. rewrite IH. reflexivity.
  - destruct (soft_minimises (map (fun w => w * f) ws) x) as [S1 S2]; [|apply nonneg_scaled; assumption|exact Hx|].
    + rewrite map_length. eapply per_element_length. exact H.
    + split; [exact S1|]. intros z Lz. specialize (S2 z Lz).
      assert (E : forall z, weighted_l1 (map (fun w => w * f) ws) z = f * weighted_l1 ws z).
      { intros z'. unfold weighted_l1. rewrite sum2_map_l, <- sum2_scal. apply sum2_ext. intros; ring. }
      rewrite !E in S2. exact S2.
Qed.
Print Assumptions C25_sparse_threshold_solves_prox.

Theorem C25_cost_is_the_penalty :
  forall weights ws x, per_element weights (length x) ws -> nonneg ws ->
  sparse_cost (fun v => v) weights x = Ok (weighted_l1 ws x).
Proof. exact sparse_cost_spec. Qed.
Print Assumptions C25_cost_is_the_penalty.

(** Non-expansive, entry by entry, for the value before rounding. *)
Theorem C25_shrinkage_nonexpansive :
  forall t x y, 0 <= t -> (x = 0 \/ eps64 <= Rabs x) -> (y = 0 \/ eps64 <= Rabs y) ->
  Rabs (soft_unrounded t x - soft_unrounded t y) <= Rabs (x - y).
Proof. intros t x y Ht Hx Hy. rewrite !soft_unrounded_shrink by assumption. apply shrink_nonexpansive. exact Ht. Qed.
Print Assumptions C25_shrinkage_nonexpansive.

Example C25_example : Forall (fun v => v = 0 \/ eps64 <= Rabs v) [3; 0; -1].
Proof.
  assert (eps64 <= 1).
  { unfold eps64. rewrite <- Rinv_1. apply Rinv_le_contravar; [lra|]. apply pow_R1_Rle. lra. }
  constructor; [right; rewrite Rabs_right; lra|]. constructor; [left; reflexivity|].
  constructor; [right; rewrite Rabs_left; lra|constructor].
Qed.

(** * C26 *)
Theorem C26_unknown_type_rejected :
  forall x t ty ts, per_element t (length x) ts ->
  (thresh x t ty = Err ValueError <-> ty <> "soft" /\ ty <> "hard") /\
  (thresh x t ty <> Err ValueError -> exists y, thresh x t ty = Ok y).
Proof.
  intros x t ty ts H. apply per_element_bcast in H. unfold thresh. rewrite H. cbn [bind].
  destruct (String.eqb_spec ty "hard") as [Eh|Nh], (String.eqb_spec ty "soft") as [Es|Ns]; cbn;
    try (subst; discriminate); (split; [split|]); intros; try discriminate; try tauto; try (eexists; reflexivity); congruence.
Qed.
Print Assumptions C26_unknown_type_rejected.

(** Case matters, for example. *)
Example C26_example : thresh [1] (TScalar 1) "Soft" = Err ValueError.
Proof. reflexivity. Qed.

(** * C27 *)
Theorem C27_ridge_is_prox_of_its_cost :
  forall weights ws x f, per_element weights (length x) ws -> Forall (fun w => 0 <= w * f) ws ->
  exists p, ridge_op (fun v => v) weights x f = Ok p /\
    strong_minimiser (length x) (fun z => / 2 * sqdist z x + f * weighted_l2sq ws z) p.
Proof. exact ridge_spec. Qed.
Print Assumptions C27_ridge_is_prox_of_its_cost.

Theorem C27_cost_is_the_penalty :
  forall weights ws x, per_element weights (length x) ws -> nonneg ws ->
  ridge_cost (fun v => v) weights x = Ok (weighted_l2sq ws x).
Proof. exact ridge_cost_spec. Qed.
Print Assumptions C27_cost_is_the_penalty.

Example C27_example : ridge_op (fun v => v) (TScalar 1) [6; -3] (/ 2) = Ok [6 / (1 + 1 * / 2 * 2); -3 / (1 + 1 * / 2 * 2)].
Proof. reflexivity. Qed.

(** * C28 *)
Theorem C28_elastic_net_is_prox_of_its_cost :
  forall alpha beta al be x f,
  per_element alpha (length x) al -> per_element beta (length x) be -> nonneg al -> nonneg be -> 0 <= f ->
  Forall (fun v => v = 0 \/ eps64 <= Rabs v) x ->
  exists p q, elastic_op alpha beta x f = Ok q /\
    strong_minimiser (length x) (fun z => / 2 * sqdist z x + f * (weighted_l2sq al z + weighted_l1 be z)) p /\
    (** the returned array differs from the minimiser only by the rounding inside thresh *)
    Forall2 (fun r v => Rabs (r - v) <= / 2 * / 10 ^ 15) q p.
Proof.
  intros alpha beta al be x f Ha Hb Na Nb Hf Hx.
  assert (La := per_element_length _ _ _ Ha). assert (Lb := per_element_length _ _ _ Hb).
  eexists. eexists. split; [apply (elastic_op_spec _ _ al be); assumption|]. split; [apply elastic_minimises; assumption|].
  clear Ha Hb Hx. revert al be Na Nb La Lb. induction x as [|v x IH]; intros [|a al] [|b be] Na Nb La Lb; cbn in *; try discriminate; constructor.
  - unfold elastic1. cbn [fst snd]. inversion Na as [|? ? Pa _]; subst.
    set (u := soft_unrounded (b * f) v). assert (D : 1 <= a * 2 * f + 1) by (assert (0 <= a * 2 * f) by nra; lra).
    unfold Rdiv. rewrite <- Rmult_minus_distr_r, Rabs_mult, (Rabs_right (/ _)) by (apply Rle_ge; left; apply Rinv_0_lt_compat; lra).
    pose proof (around_err 15 u) as E.
    assert (I1 : / (a * 2 * f + 1) <= 1) by (rewrite <- Rinv_1 at 2; apply Rinv_le_contravar; lra).
    assert (I0 : 0 <= / (a * 2 * f + 1)) by (left; apply Rinv_0_lt_compat; lra).
    pose proof (Rabs_pos (around 15 u - u)). nra.
  - inversion Na; inversion Nb; subst. apply IH; try assumption; congruence.
Qed.
Print Assumptions C28_elastic_net_is_prox_of_its_cost.

Theorem C28_cost_is_the_penalty :
  forall alpha beta al be x,
  per_element alpha (length x) al -> per_element beta (length x) be -> nonneg al -> nonneg be ->
  elastic_cost (fun v => v) alpha beta x = Ok (weighted_l2sq al x + weighted_l1 be x).
Proof. exact elastic_cost_spec. Qed.
Print Assumptions C28_cost_is_the_penalty.

Example C28_example : per_element (TScalar 2) 2 [2; 2] /\ nonneg [2; 2].
Proof. split; [exact (pe_scalar 2 2)|]. repeat constructor; lra. Qed.

(** * C29 *)
Theorem C29_group_lasso_solves_prox :
  forall weights ws f gs, per_element weights (length gs) ws -> Forall (fun w => 0 <= w * f) ws ->
  Forall (fun g => length2 g = 0 \/ / 2 ^ 23 <= length2 g) gs ->
  exists p, group_op weights f gs = Ok p /\ same_shape p gs /\
  forall zs, same_shape zs gs ->
   / 2 * groups_sqdist p gs + f * weighted_lengths ws p + / 2 * groups_sqdist p zs
   <= / 2 * groups_sqdist zs gs + f * weighted_lengths ws zs.
Proof.
  intros weights ws f gs H N G. eexists. split; [apply group_op_spec; exact H|].
  apply groups_minimise; [eapply per_element_length; exact H|exact N|exact G].
Qed.
Print Assumptions C29_group_lasso_solves_prox.

(** Each group is multiplied by one number in [0, 1], which is 0 when the group is short. *)
Theorem C29_block_soft_threshold :
  forall weights ws f gs p, per_element weights (length gs) ws -> Forall (fun w => 0 <= w * f) ws ->
  group_op weights f gs = Ok p ->
  forall i g w r, nth_error gs i = Some g -> nth_error ws i = Some w -> nth_error p i = Some r ->
  exists s, 0 <= s <= 1 /\ r = map (fun v => v * s) g /\
   (/ 2 ^ 23 <= length2 g -> s = Rmax 0 (1 - w * f / length2 g)) /\
   (/ 2 ^ 23 <= length2 g -> length2 g <= w * f -> Forall (fun v => v = 0) r).
Proof.
  intros weights ws f gs p H N Ep i g w r Hg Hw Hr. rewrite (group_op_spec _ _ _ _ H) in Ep. inversion Ep; subst p.
  rewrite map2_nth in Hr by (eapply per_element_length; exact H). rewrite Hg, Hw in Hr. inversion Hr; subst r.
  assert (P : 0 <= w * f) by (rewrite Forall_forall in N; apply N; eapply nth_error_In; exact Hw).
  exists (group_scale w f g). pose proof eps32_pos. pose proof (norm2_pos g). split; [|split; [reflexivity|split]].
  - unfold group_scale. split; [apply Rmax_l|]. apply Rmax_lub; [lra|].
    assert (0 <= w * f / Rmax (norm2 g) eps32); [|lra]. apply Rmult_le_pos; [exact P|].
    left. apply Rinv_0_lt_compat. pose proof (Rmax_r (norm2 g) eps32). lra.
  - rewrite <- norm2_length2. intros E. unfold group_scale. rewrite (Rmax_left (norm2 g)) by exact E. reflexivity.
  - rewrite <- norm2_length2. intros E1 E2. apply group_small; [exact P|right; exact E1|exact E2].
Qed.
Print Assumptions C29_block_soft_threshold.

Theorem C29_cost_is_the_penalty :
  forall weights ws gs, per_element weights (length gs) ws -> group_cost weights gs = Ok (weighted_lengths ws gs).
Proof. exact group_cost_spec. Qed.
Print Assumptions C29_cost_is_the_penalty.

(** Below float32 epsilon the claim fails: a group shorter than its threshold is only halved. *)
Theorem C29_tiny_groups_refuted :
  exists g w r, length2 g < w /\ group_op (TScalar w) 1 [g] = Ok [r] /\ ~ Forall (fun v => v = 0) r.
Proof.
  pose proof eps32_pos as P.
  assert (E : length2 [eps32 / 4] = eps32 / 4).
  { unfold length2. cbn [sum2]. rewrite Rplus_0_r. apply sqrt_square. lra. }
  exists [eps32 / 4], (eps32 / 2). eexists. split; [rewrite E; lra|]. split; [reflexivity|].
  intros F. inversion F as [|? ? F1 _]; subst. revert F1. unfold group_scale. rewrite norm2_length2, E.
  rewrite (Rmax_right (eps32 / 4)) by lra.
  replace (eps32 / 2 * 1 / eps32) with (/ 2) by (field; lra). rewrite Rmax_right by lra. lra.
Qed.
Print Assumptions C29_tiny_groups_refuted.

Example C29_example : length2 [3; 4] = 5.
Proof. unfold length2. cbn. replace (3 * 3 + (4 * 4 + 0)) with (5 * 5) by ring. apply sqrt_square. lra. Qed.

(** * C30 *)
Theorem C30_composition_prox :
  forall (H K : ips) (lop : H -> K) (ladj : K -> H) (g : K -> R) (pop : K -> R -> K) f x,
  (forall x y, inner (lop x) y = inner x (ladj y)) ->
  (forall x, ladj (lop x) = x) -> (forall y, lop (ladj y) = y) ->
  (forall y, is_prox everywhere (fun z => f * g z) y (pop y f)) ->
  is_prox everywhere (fun z => f * g (lop z)) x (lincomp_op lop ladj pop x f) /\
  lincomp_cost lop g x = g (lop x).
Proof. intros. split; [apply (lincomp_prox lop ladj g pop f x); assumption|reflexivity]. Qed.
Print Assumptions C30_composition_prox.

(** Swapping two coordinates is orthonormal. *)
Example C30_example :
  forall x y : prod_ips R_ips R_ips, inner (let '(a, b) := x in (b, a) : prod_ips R_ips R_ips) y
     = inner x (let '(a, b) := y in (b, a) : prod_ips R_ips R_ips).
Proof. intros [a b] [c d]. cbn. ring. Qed.

(** * C31 *)
Theorem C31_op_is_componentwise :
  forall Y (ops : list (Y -> R -> Y)) x f, length ops = length x ->
  exists r, combo_op ops x f = Ok r /\ length r = length x /\
  forall i p v, nth_error ops i = Some p -> nth_error x i = Some v -> nth_error r i = Some (p v f).
Proof.
  intros Y ops x f L. exists (map2 (fun p v => p v f) ops x). split; [apply combo_op_ok; lia|].
  split; [apply map2_len; exact L|]. intros i p v Hp Hv. rewrite map2_nth by exact L. rewrite Hp, Hv. reflexivity.
Qed.
Print Assumptions C31_op_is_componentwise.

Theorem C31_short_input_raises :
  forall Y (ops : list (Y -> R -> Y)) x f, (length x < length ops)%nat -> combo_op ops x f = Err IndexError.
Proof. exact @combo_op_short. Qed.
Print Assumptions C31_short_input_raises.

Theorem C31_cost_is_the_sum :
  forall Y (costs : list (Y -> R)) x, combo_cost costs x = sum2 (fun c v => c v) costs x.
Proof. intros. apply rsum_map2. Qed.
Print Assumptions C31_cost_is_the_sum.

(** [d] is half the squared distance of the components. *)
Theorem C31_combination_is_prox_of_sum :
  forall Y (d : Y -> Y -> R) (ops : list (Y -> R -> Y)) (costs : list (Y -> R)) x f,
  length ops = length x -> length costs = length x ->
  (forall i p c v, nth_error ops i = Some p -> nth_error costs i = Some c -> nth_error x i = Some v ->
     forall z, d (p v f) v + f * c (p v f) <= d z v + f * c z) ->
  exists r, combo_op ops x f = Ok r /\ length r = length x /\
  forall z, length z = length x ->
  sum2 d r x + f * combo_cost costs r <= sum2 d z x + f * combo_cost costs z.
Proof.
  intros Y d ops costs x f L1 L2 H. eexists. split; [apply combo_op_ok; lia|].
  split; [apply map2_len; exact L1|]. apply combo_minimises; assumption.
Qed.
Print Assumptions C31_combination_is_prox_of_sum.

(** Squared penalties on both components, each op dividing by 1 + 2f: hypotheses hold. *)
Example C31_example :
  forall v z : R, / 2 * (v / (1 + 1 * 2) - v) ^ 2 + 1 * (v / (1 + 1 * 2)) ^ 2 <= / 2 * (z - v) ^ 2 + 1 * z ^ 2.
Proof. intros v z. pose proof (ridge_scalar 1 v z ltac:(lra)). pose proof (pow2_ge_0 (v / (1 + 1 * 2) - z)). lra. Qed.

(** * C32 *)
Theorem C32_cost_pairs_largest_weight_with_smallest_magnitude_refuted :
  exists w x v, owl_init w = Ok w /\ length w = length x /\ is_owl_norm w x v /\ owl_cost w x <> v.
Proof.
  assert (E : map Rabs [3; 1] = [3; 1]) by (cbn; rewrite !Rabs_right by lra; reflexivity).
  exists [2; 1], [3; 1], 7. split; [|split; [reflexivity|split]].
  - unfold owl_init. cbn. destruct (Rle_dec 1 2); [|lra]. unfold geb. destruct (Rle_dec 0 2); [|lra]. destruct (Rle_dec 0 1); [|lra]. reflexivity.
  - exists [3; 1]. split; [rewrite E; reflexivity|]. split; [|cbn; ring]. repeat constructor; lra.
  - unfold owl_cost. rewrite E. cbn. destruct (Rle_dec 1 3); [|lra]. unfold rsum. cbn. lra.
Qed.
Print Assumptions C32_cost_pairs_largest_weight_with_smallest_magnitude_refuted.

(** What the code does compute, and how it relates to the norm. *)
Theorem C32_cost_uses_ascending_order :
  forall w x, exists s, Permutation s (map Rabs x) /\ Sorted Rle s /\ owl_cost w x = sum2 Rmult w s.
Proof. exact owl_cost_pairs_ascending. Qed.
Print Assumptions C32_cost_uses_ascending_order.

Theorem C32_cost_never_exceeds_owl_norm :
  forall w x v, owl_init w = Ok w -> length w = length x -> is_owl_norm w x v -> owl_cost w x <= v.
Proof. intros w x v Hw L. apply owl_cost_le; [exact L|]. apply (owl_init_ok w w Hw). Qed.
Print Assumptions C32_cost_never_exceeds_owl_norm.

Example C32_example : is_owl_norm [2; 1] [1; -3] 7.
Proof.
  exists [3; 1]. split; [|split; [repeat constructor; lra|cbn; ring]].
  cbn. rewrite (Rabs_right 1), (Rabs_left (-3)) by lra. replace (- -3) with 3 by ring. apply perm_swap.
Qed.

(** * C61 *)
Theorem C61_owl_op_is_prox_of_owl_norm :
  forall argsort iso w x f c,
  is_argsort (length x) argsort -> is_isotonic (length x) iso -> owl_init w = Ok w -> 0 <= f ->
  owl_op argsort iso w f x = Ok c ->
  length c = length x /\
  forall z vc vz, length z = length x -> is_owl_norm w c vc -> is_owl_norm w z vz ->
    / 2 * sqdist c x + f * vc <= / 2 * sqdist z x + f * vz.
Proof. exact owl_op_prox. Qed.
Print Assumptions C61_owl_op_is_prox_of_owl_norm.

Theorem C61_owl_op_accepts_matching_lengths :
  forall argsort iso w x f, length w = length x -> exists c, owl_op argsort iso w f x = Ok c.
Proof. intros argsort iso w x f L. unfold owl_op. rewrite L, Nat.eqb_refl. eexists. reflexivity. Qed.
Print Assumptions C61_owl_op_accepts_matching_lengths.

(** For two entries both library functions can be written out: the hypotheses can be met. *)
Definition argsort2 (a : list R) : list nat := if Rle_dec (nth 0 a 0) (nth 1 a 0) then [0; 1]%nat else [1; 0]%nat.
Definition iso2 (y : list R) : list R :=
  let a := nth 0 y 0 in let b := nth 1 y 0 in
  if Rle_dec b a then [Rmax 0 a; Rmax 0 b] else [Rmax 0 ((a + b) / 2); Rmax 0 ((a + b) / 2)].

Example C61_example : is_argsort 2 argsort2 /\ is_isotonic 2 iso2.
Proof.
  split.
  - intros [|a [|b [|? ?]]] L; try discriminate. unfold argsort2. cbn [nth].
    destruct (Rle_dec a b) as [H|H]; (split; [|cbn; constructor; [constructor; [constructor|constructor]|constructor; lra]]).
    + reflexivity.
    + apply perm_swap.
  - intros [|a [|b [|? ?]]] L; try discriminate. unfold iso2. cbn [nth]. unfold monotone_cone, sqdist, nonneg.
    destruct (Rle_dec b a) as [H|H]; (split; [reflexivity|]).
    + pose proof (Rmax_l 0 a). pose proof (Rmax_l 0 b). split; [split|].
      * constructor; [repeat constructor|]. constructor. unfold Rmax. destruct (Rle_dec 0 a), (Rle_dec 0 b); lra.
      * constructor; [assumption|constructor; [assumption|constructor]].
      * intros [|u [|v [|? ?]]] Lz [_ N]; try discriminate. inversion N as [|? ? N1 N']; subst. inversion N' as [|? ? N2 _]; subst.
        cbn [sum2]. assert (A : (Rmax 0 a - a) ^ 2 <= (u - a) ^ 2) by (pose proof (pow2_ge_0 (u - a)); unfold Rmax; destruct (Rle_dec 0 a); [lra|nra]).
        assert (B : (Rmax 0 b - b) ^ 2 <= (v - b) ^ 2) by (pose proof (pow2_ge_0 (v - b)); unfold Rmax; destruct (Rle_dec 0 b); [lra|nra]). lra.
    + set (m := (a + b) / 2). pose proof (Rmax_l 0 m). split; [split|].
      * constructor; [constructor; [constructor|constructor]|constructor; lra].
      * constructor; [assumption|constructor; [assumption|constructor]].
      * intros [|u [|v [|? ?]]] Lz [S N]; try discriminate. inversion N as [|? ? N1 N']; subst. inversion N' as [|? ? N2 _]; subst.
        inversion S as [|? ? _ S1]; subst. inversion S1 as [|? ? S2]; subst. cbn [sum2].
        set (d := (b - a) / 2). assert (Hd : 0 < d) by (unfold d; lra).
        assert (Ea : a = m - d) by (unfold m, d; field). assert (Eb : b = m + d) by (unfold m, d; field).
        clearbody m d. subst a b.
        assert (0 <= d * (u - v)) by (apply Rmult_le_pos; lra).
        pose proof (pow2_ge_0 (u - m)). pose proof (pow2_ge_0 (v - m)). pose proof (pow2_ge_0 u). pose proof (pow2_ge_0 v).
        unfold Rmax. destruct (Rle_dec 0 m); [nra|].
        assert (0 <= - m * (u + v)) by (apply Rmult_le_pos; lra). nra.
Qed.
