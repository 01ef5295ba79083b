(** C79-C86: singular value thresholding, the nuclear norm and the low-rank proximity operator. *)
From Coq Require Import String.
From Verif Require Import NPReal Py IPS Model_Array Proof_Array Model_Transform Proof_Transform Model_Signal Model_Linear Model_SVD Spec_Prox Proof_Cost Proof_Prox Proof_Matrix Spec_SVD Proof_SVD Proof_SVDModel Proof_SVDMore Proof_SVDLow.
From Coq Require Import List Lia FunctionalExtensionality.
Import ListNotations.
Local Open Scope string_scope.
Local Open Scope R_scope.

(** * C79: the nuclear norm *)

(** The sum of the singular values is the dual of the spectral norm, whichever decomposition was computed. *)
Theorem C79_nuclear_norm m n sv x : singular_values m n x (sv x) ->
  is_nuclear m n (entry x) (nuclear_norm sv x) /\ forall s, singular_values m n x s -> s = sv x.
Proof.
  intros (u & v & H). split.
  - unfold nuclear_norm. rewrite rsum_bsum. destruct H as (L & Ou & Ov & P & M & E). eapply nuclear_of_svd; eassumption.
  - intros s (u' & v' & H'). exact (singular_values_unique m n (entry x) u' s v' u (sv x) v H' H).
Qed.
Print Assumptions C79_nuclear_norm.

Theorem C79_is_a_norm m n sv a b c q d : singular_values m n a (sv a) -> singular_values m n b (sv b) ->
  singular_values m n c (sv c) -> (forall i j, entry c i j = entry a i j + entry b i j) ->
  singular_values m n d (sv d) -> (forall i j, entry d i j = q * entry a i j) ->
  nuclear_norm sv c <= nuclear_norm sv a + nuclear_norm sv b /\
  nuclear_norm sv d = Rabs q * nuclear_norm sv a /\
  0 <= nuclear_norm sv a /\
  (nuclear_norm sv a = 0 <-> forall i j, (i < m)%nat -> (j < n)%nat -> entry a i j = 0).
Proof.
  intros Ha Hb Hc Ec Hd Ed.
  destruct (C79_nuclear_norm m n sv a Ha) as [Na _]. destruct (C79_nuclear_norm m n sv b Hb) as [Nb _].
  destruct (C79_nuclear_norm m n sv c Hc) as [Nc _]. destruct (C79_nuclear_norm m n sv d Hd) as [Nd _].
  split; [|split; [|split]].
  - apply (nuclear_triangle m n (entry a) (entry b)); try assumption. apply (nuclear_ext m n (entry c)); [intros i j _ _; apply Ec|exact Nc].
  - apply (nuclear_unique m n (fun i j => q * entry a i j)); [apply (nuclear_ext m n (entry d)); [intros i j _ _; apply Ed|exact Nd]|apply nuclear_scale, Na].
  - eapply nuclear_nonneg, Na.
  - split.
    + intros Z i j Hi Hj. destruct Ha as (u & v & L & Ou & Ov & P & M & E). rewrite E by assumption. unfold nuclear_norm in Z. rewrite rsum_bsum in Z.
      apply bsum_0. intros l Hl. rewrite (bsum_eq0 _ _ P Z l Hl). ring.
    + intros Z. apply (nuclear_unique m n (entry a)); [exact Na|]. destruct Na as [U Lb]. split.
      * intros r (W & CW & ->). right. apply bsum_0. intros i Hi. apply bsum_0. intros j Hj. rewrite Z by assumption. ring.
      * intros r Hr. apply Hr. exists (fun _ _ => 0). split.
        -- intros x y _ _. unfold bil. rewrite bsum_0; [lra|]. intros. apply bsum_0. intros. ring.
        -- symmetry. apply bsum_0. intros i Hi. apply bsum_0. intros j Hj. ring.
Qed.
Print Assumptions C79_is_a_norm.

(** It lies between the Frobenius norm and sqrt(min(m, n)) times it. *)
Theorem C79_frobenius m n sv x : singular_values m n x (sv x) ->
  frob m n (entry x) (entry x) <= nuclear_norm sv x ^ 2 <= INR (Nat.min m n) * frob m n (entry x) (entry x).
Proof.
  intros (u & v & H). rewrite (frob_svd m n _ u (sv x) v H). unfold nuclear_norm. rewrite rsum_bsum. destruct H as (L & Ou & Ov & P & M & E).
  split; [apply bsum_sq_ge, P|]. rewrite <- L. apply bsum_cauchy.
Qed.
Print Assumptions C79_frobenius.

(** diag(3, 1) *)
Definition ex_x : nda R := mk_nda [2; 2]%nat (fun idx => match idx with [0; 0]%nat => 3 | [1; 1]%nat => 1 | _ => 0 end).
Definition ex_i : nda R := mk_nda [2; 2]%nat (fun idx => if Nat.eqb (nth 0 idx 0%nat) (nth 1 idx 0%nat) then 1 else 0).
Definition ex_svd (_ : nda R) : svd_out := mk_svd ex_i [3; 1] ex_i.
Lemma ex_orthonormal : orthonormal 2 2 (fun l i => at_ ex_i [i; l]) /\ orthonormal 2 2 (fun l j => at_ ex_i [l; j]).
Proof.
  split; intros l l' Hl Hl'; destruct l as [|[|l]]; [| |lia| | |lia]; (destruct l' as [|[|l']]; [| |lia]); unfold dotv, ex_i; cbn; lra.
Qed.
Lemma ex_svd_of : svd_of 2 2 (entry ex_x) (fun l i => at_ ex_i [i; l]) [3; 1] (fun l j => at_ ex_i [l; j]).
Proof.
  split; [reflexivity|]. split; [apply ex_orthonormal|]. split; [apply ex_orthonormal|]. split; [|split].
  - intros [|[|l]] H; cbn in *; [lra|lra|lia].
  - intros [|[|l]] [|[|l']] H H'; cbn in *; try lra; lia.
  - intros [|[|i]] [|[|j]] Hi Hj; try lia; unfold lc, entry, ex_x, ex_i; cbn; lra.
Qed.
Lemma ex_svd_ok : svd_result 2 2 ex_x (svd_u (ex_svd ex_x)) (svd_s (ex_svd ex_x)) (svd_v (ex_svd ex_x)).
Proof. split; [reflexivity|]. split; [reflexivity|]. split; [reflexivity|]. exact ex_svd_of. Qed.
Example C79_example : is_nuclear 2 2 (entry ex_x) 4 /\ frob 2 2 (entry ex_x) (entry ex_x) = 10.
Proof.
  split.
  - replace 4 with (nuclear_norm (fun _ => [3; 1]) ex_x) by (unfold nuclear_norm; cbn; lra).
    apply (C79_nuclear_norm 2 2 (fun _ => [3; 1]) ex_x). eexists. eexists. exact ex_svd_of.
  - unfold frob, entry, ex_x. cbn. lra.
Qed.

(** * C80: soft thresholding of the singular values is the proximity operator of the nuclear norm *)
Theorem C80_soft_prox svd x m n n_pc t : 0 <= t -> check_n_pc n_pc = true ->
  svd_result m n x (svd_u (svd x)) (svd_s (svd x)) (svd_v (svd x)) ->
  exists r ev P, svd_thresh svd (Ndarray x) (Some (TScalar t)) n_pc "soft" = Ok (r, ev) /\ shape r = [m; n] /\
    nuclear_prox m n t (entry x) P /\ dist2 m n (entry r) P <= INR (Nat.min m n) * (/ 10 ^ 15) ^ 2.
Proof.
  intros Ht Hn Hs. destruct (svd_thresh_given svd x m n n_pc t "soft" (or_intror eq_refl) Hn Hs) as (r & E & Sr & A).
  destruct Hs as (Sx & Su & Sv & H). eexists r, _, _. split; [exact E|]. split; [exact Sr|].
  split; [apply (nuclear_prox_of_svd m n (entry x) _ _ _ t H Ht)|].
  rewrite (dist2_ext m n (entry r) _ _ _ (fun i j _ _ => A i j) (fun _ _ _ _ => eq_refl)).
  destruct H as (L & Ou & Ov & Ps & Ms & EX). rewrite <- L.
  replace ((/ 10 ^ 15) ^ 2) with (/ 10 ^ 15 * / 10 ^ 15) by ring.
  apply soft_close; try assumption.
  - left. apply Rinv_0_lt_compat, pow10_pos.
  - intros l Hl. unfold thr1. change (String.eqb "soft" "hard") with false. cbv iota. left. apply (soft1_spec t _ Ht).
Qed.
Print Assumptions C80_soft_prox.

(** Two correct decompositions give the same result, up to the rounding. *)
Theorem C80_svd_independent svd svd' x m n n_pc n_pc' t r ev r' ev' : 0 <= t ->
  svd_result m n x (svd_u (svd x)) (svd_s (svd x)) (svd_v (svd x)) ->
  svd_result m n x (svd_u (svd' x)) (svd_s (svd' x)) (svd_v (svd' x)) ->
  svd_thresh svd (Ndarray x) (Some (TScalar t)) n_pc "soft" = Ok (r, ev) ->
  svd_thresh svd' (Ndarray x) (Some (TScalar t)) n_pc' "soft" = Ok (r', ev') ->
  dist2 m n (entry r) (entry r') <= INR (Nat.min m n) * (2 * / 10 ^ 15) ^ 2.
Proof.
  intros Ht H H' E E'.
  assert (C : check_n_pc n_pc = true) by (unfold svd_thresh in E; destruct (check_n_pc n_pc); [reflexivity|discriminate]).
  assert (C' : check_n_pc n_pc' = true) by (unfold svd_thresh in E'; destruct (check_n_pc n_pc'); [reflexivity|discriminate]).
  destruct (C80_soft_prox svd x m n n_pc t Ht C H) as (r1 & ev1 & P & E1 & _ & N & D). rewrite E in E1. injection E1 as <- <-.
  destruct (C80_soft_prox svd' x m n n_pc' t Ht C' H') as (r2 & ev2 & P' & E2 & _ & N' & D'). rewrite E' in E2. injection E2 as <- <-.
  pose proof (nuclear_prox_unique m n t (entry x) P P' N N') as EP.
  rewrite (dist2_sym m n (entry r') P'), (dist2_ext m n P' P (entry r') (entry r')) in D' by (try (intros i j _ _; reflexivity); intros i j Hi Hj; symmetry; apply EP; assumption).
  pose proof (dist2_triangle m n (entry r) P (entry r') _ _ D D'). lra.
Qed.
Print Assumptions C80_svd_independent.

(** LowRankMatrix.op in standard mode, without a rank estimate, on a cube of n images of shape sh. *)
Theorem C80_low_rank_op fuel svd svds p x n sh f : shape x = n :: sh ->
  lr_lowr p = "standard" -> lr_type p = "soft" -> lr_rank p = None -> 0 <= lr_thresh p * f ->
  (forall M, cube2matrix x = Ok M -> svd_result (prod sh) n M (svd_u (svd M)) (svd_s (svd M)) (svd_v (svd M))) ->
  exists C P, low_rank_op fuel svd svds p x f None = Some (Ok (C, None)) /\ shape C = shape x /\
    nuclear_prox (prod sh) n (lr_thresh p * f) (pixel_matrix sh x) P /\
    dist2 (prod sh) n (pixel_matrix sh C) P <= INR (Nat.min (prod sh) n) * (/ 10 ^ 15) ^ 2.
Proof.
  intros Sx El Et Er Ht Hs. destruct (pixel_bridge x n sh Sx) as (M & EM & SM & AM). specialize (Hs M EM).
  destruct (C80_soft_prox svd M (prod sh) n NPNone (lr_thresh p * f) Ht eq_refl Hs) as (r & ev & P & E & Sr & N & D).
  destruct (cube_bridge r n sh Sr) as (C & EC & SC & AC).
  exists C, P. unfold low_rank_op. rewrite El, Er. change (String.eqb "standard" "standard") with true. cbv iota. rewrite EM. cbn [bind].
  rewrite Et, E. cbn [bind fst snd]. rewrite Sx. cbn [tl]. rewrite EC. cbn [bind]. split; [reflexivity|]. split; [exact SC|].
  split; [apply (nuclear_prox_ext (prod sh) n _ (entry M) _ P P AM); [intros i j _ _; reflexivity|exact N]|].
  rewrite (dist2_ext _ _ _ (entry r) P P AC) by (intros i j _ _; reflexivity). exact D.
Qed.
Print Assumptions C80_low_rank_op.

(** LowRankMatrix.cost is the threshold times the nuclear norm of the matrix of pixels. *)
Theorem C80_low_rank_cost sv p x n sh : shape x = n :: sh -> (forall M, cube2matrix x = Ok M -> singular_values (prod sh) n M (sv M)) ->
  exists c, is_nuclear (prod sh) n (pixel_matrix sh x) c /\ low_rank_cost sv p x = Ok (lr_thresh p * c).
Proof.
  intros Sx Hs. destruct (pixel_bridge x n sh Sx) as (M & EM & SM & AM). exists (nuclear_norm sv M). split.
  - apply (nuclear_ext (prod sh) n (entry M)); [exact AM|]. apply C79_nuclear_norm, Hs, EM.
  - unfold low_rank_cost. rewrite EM. reflexivity.
Qed.
Print Assumptions C80_low_rank_cost.

Lemma ex_soft t s : 0 <= t < s -> (exists z, IZR z = s - t) -> 1 <= s -> soft1 t s = s - t.
Proof.
  intros [Ht H] (z & Hz) H1. unfold soft1. rewrite soft_unrounded_shrink; [|exact Ht|].
  - unfold shrink. rewrite Rabs_right by lra. destruct (Rle_dec s t); [lra|]. destruct (Rle_dec 0 s); [|lra]. rewrite <- Hz. apply around_IZR.
  - right. rewrite Rabs_right by lra. pose proof eps64_small. assert (/ 10 ^ 15 <= 1); [|lra]. rewrite <- Rinv_1. apply Rinv_le_contravar; [lra|]. apply pow_R1_Rle. lra.
Qed.
Example C80_example : exists r ev, svd_thresh ex_svd (Ndarray ex_x) (Some (TScalar 1)) NPNone "soft" = Ok (r, ev) /\
  entry r 0%nat 0%nat = 2 /\ entry r 1%nat 1%nat = 0 /\ entry r 0%nat 1%nat = 0.
Proof.
  destruct (svd_thresh_given ex_svd ex_x 2 2 NPNone 1 "soft" (or_intror eq_refl) eq_refl ex_svd_ok) as (r & E & Sr & A).
  eexists r, _. split; [exact E|].
  assert (T3 : thr1 "soft" 1 3 = 2) by (unfold thr1; cbn; rewrite ex_soft; [lra|lra|exists 2%Z; lra|lra]).
  assert (T1 : thr1 "soft" 1 1 = 0) by (unfold thr1; cbn; apply soft1_spec; [lra|rewrite Rabs_right; lra]).
  rewrite !A. unfold lc. cbn [ex_svd svd_s svd_u svd_v length bsum nth]. rewrite T3, T1. unfold ex_i. cbn. lra.
Qed.

(** * C81: hard thresholding and truncation are best low-rank approximations *)
Theorem C81_hard_minimiser svd x m n n_pc t : 0 <= t -> check_n_pc n_pc = true ->
  svd_result m n x (svd_u (svd x)) (svd_s (svd x)) (svd_v (svd x)) ->
  exists r ev q, svd_thresh svd (Ndarray x) (Some (TScalar t)) n_pc "hard" = Ok (r, ev) /\ shape r = [m; n] /\ rank_prox m n t (entry x) (entry r) q.
Proof.
  intros Ht Hn Hs. destruct (svd_thresh_given svd x m n n_pc t "hard" (or_introl eq_refl) Hn Hs) as (r & E & Sr & A).
  destruct Hs as (Sx & Su & Sv & H). set (s := svd_s (svd x)) in *. pose proof H as (L & Ou & Ov & Ps & Ms & EX).
  destruct (kept_prefix t s Ms) as (K1 & K2 & K3). eexists r, _, (nkept t s). split; [exact E|]. split; [exact Sr|].
  eapply rank_prox_ext; [intros i j _ _; reflexivity| |eapply (rank_prox_of_svd m n (entry x) _ s _ t (nkept t s) H Ht K1 K2)].
  - intros i j Hi Hj. rewrite A. rewrite (lc_prefix (length s) (nkept t s)); [|exact K1|].
    + apply bsum_ext. intros l Hl. change (thr1 "hard") with hard1. rewrite hard1_sv by (apply Ps; lia). destruct (Rle_dec t (nth l s 0)) as [Q|Q]; [reflexivity|]. exfalso. apply Q, K2, Hl.
    + intros l Hl. change (thr1 "hard") with hard1. rewrite hard1_sv by (apply Ps; lia). specialize (K3 l Hl). destruct (Rle_dec t (nth l s 0)); [lra|reflexivity].
  - intros l Hl. left. apply K3, Hl.
Qed.
Print Assumptions C81_hard_minimiser.

(** The default threshold for n_pc = k components. *)
Lemma svd_thresh_npc svd x m n k ty : (ty = "hard" \/ ty = "soft") -> (0 < k < Nat.min m n)%nat ->
  svd_result m n x (svd_u (svd x)) (svd_s (svd x)) (svd_v (svd x)) ->
  exists r ev, svd_thresh svd (Ndarray x) None (NPInt (Z.of_nat k)) ty = Ok (r, ev) /\ shape r = [m; n] /\
    forall i j, entry r i j = lc (length (svd_s (svd x))) (fun l => thr1 ty (nth (k - 1) (svd_s (svd x)) 0) (nth l (svd_s (svd x)) 0))
                                 (fun l i => at_ (svd_u (svd x)) [i; l]) (fun l j => at_ (svd_v (svd x)) [l; j]) i j.
Proof.
  intros Hty Hk Hs. set (t := nth (k - 1) (svd_s (svd x)) 0).
  assert (Hc : check_n_pc (NPInt (Z.of_nat k)) = true) by (cbn; apply Z.ltb_lt; lia).
  destruct (svd_thresh_given svd x m n _ t ty Hty Hc Hs) as (r & E & Sr & A). exists r, (warn_nc (map (thr1 ty t) (svd_s (svd x))) (svd_s (svd x))). split; [|split; assumption].
  rewrite <- E. unfold svd_thresh. rewrite Hc. cbn [negb]. destruct Hs as (Sx & Su & Sv & L & _). unfold calculate_svd. rewrite Sx. cbn [length Nat.eqb bind].
  assert (P : pick_threshold (svd x) (NPInt (Z.of_nat k)) = Ok (t, [])).
  { unfold pick_threshold. rewrite L. destruct (Z.leb_spec (Z.of_nat (Nat.min m n)) (Z.of_nat k)); [lia|]. unfold py_index. rewrite L.
    replace ((- Z.of_nat (Nat.min m n) <=? Z.of_nat k - 1)%Z && (Z.of_nat k - 1 <? Z.of_nat (Nat.min m n))%Z)%bool with true.
    - destruct (Z.ltb_spec (Z.of_nat k - 1) 0); [lia|]. cbn [bind]. unfold t. repeat f_equal. lia.
    - symmetry. apply Bool.andb_true_iff. rewrite Z.leb_le, Z.ltb_lt. lia. }
  rewrite P. cbn [bind fst snd]. reflexivity.
Qed.

(** n_pc = k: no matrix of rank at most k is closer to the input; and the result has rank at most k when
    the k-th singular value is larger than the next one. *)
Theorem C81_best_rank_k svd x m n k : (0 < k < Nat.min m n)%nat ->
  svd_result m n x (svd_u (svd x)) (svd_s (svd x)) (svd_v (svd x)) ->
  exists r ev, svd_thresh svd (Ndarray x) None (NPInt (Z.of_nat k)) "hard" = Ok (r, ev) /\ shape r = [m; n] /\
    (forall B, rank_le m n k B -> dist2 m n (entry x) (entry r) <= dist2 m n (entry x) B) /\
    (nth k (svd_s (svd x)) 0 < nth (k - 1) (svd_s (svd x)) 0 -> rank_le m n k (entry r)).
Proof.
  intros Hk Hs. destruct (svd_thresh_npc svd x m n k "hard" (or_introl eq_refl) Hk Hs) as (r & ev & E & Sr & A).
  exists r, ev. split; [exact E|]. split; [exact Sr|]. destruct Hs as (Sx & Su & Sv & H). set (s := svd_s (svd x)) in *.
  pose proof H as (L & Ou & Ov & Ps & Ms & EX). set (t := nth (k - 1) s 0) in *.
  change (thr1 "hard") with hard1 in A. split.
  - intros B HB.
    assert (EY := eckart_young m n (entry x) (length s) (fun l => nth l s 0) _ _ k B EX Ou Ov Ps Ms HB ltac:(lia)).
    eapply Rle_trans; [|exact EY].
    rewrite (dist2_ext m n (entry x) _ (entry r) _ EX (fun i j _ _ => A i j)), dist2_ON by assumption.
    replace (length s) with (k + (length s - k))%nat at 1 by lia. rewrite bsum_split, (bsum_0 k), Rplus_0_l.
    + apply bsum_le. intros l Hl. rewrite hard1_sv by (apply Ps; lia). pose proof (Ps (k + l)%nat ltac:(lia)). destruct (Rle_dec t _); nra.
    + intros l Hl. rewrite hard1_sv by (apply Ps; lia). destruct (Rle_dec t (nth l s 0)) as [Q|Q]; [ring|]. exfalso. apply Q. unfold t. apply Ms; lia.
  - intros Gap. destruct (lc_rank m n k (fun l => nth l s 0) (fun l i => at_ (svd_u (svd x)) [i; l]) (fun l j => at_ (svd_v (svd x)) [l; j])) as (e & d & R).
    exists e, d. intros i j Hi Hj. rewrite <- R by assumption. rewrite A. rewrite (lc_prefix (length s) k); [|lia|].
    + apply bsum_ext. intros l Hl. rewrite hard1_sv by (apply Ps; lia). destruct (Rle_dec t (nth l s 0)) as [Q|Q]; [reflexivity|]. exfalso. apply Q. unfold t. apply Ms; lia.
    + intros l Hl. rewrite hard1_sv by (apply Ps; lia). destruct (Rle_dec t (nth l s 0)) as [Q|Q]; [|reflexivity]. exfalso. pose proof (Ms k l ltac:(lia) ltac:(lia)). lra.
Qed.
Print Assumptions C81_best_rank_k.

Lemma forallb_combine_refl l : forallb (fun p => if Req_EM_T (fst p) (snd p) then true else false) (combine l l) = true.
Proof. induction l as [|a l IH]; [reflexivity|]. cbn. destruct (Req_EM_T a a); [exact IH|contradiction]. Qed.

(** "all", or at least as many components as there are singular values: the input comes back, with warnings. *)
Theorem C81_keeps_all svd x m n n_pc : (0 < Nat.min m n)%nat -> (n_pc = NPStr "all" \/ exists z, (Z.of_nat (Nat.min m n) <= z)%Z /\ n_pc = NPInt z) ->
  svd_result m n x (svd_u (svd x)) (svd_s (svd x)) (svd_v (svd x)) ->
  exists r, svd_thresh svd (Ndarray x) None n_pc "hard" = Ok (r, [WarnUsingAll; WarnNoChange]) /\ shape r = [m; n] /\ mat_eq m n (entry r) (entry x).
Proof.
  intros Hk Hn Hs. set (s := svd_s (svd x)). set (t := nth (Nat.min m n - 1) s 0).
  assert (Hc : check_n_pc n_pc = true) by (destruct Hn as [->|(z & Hz & ->)]; [reflexivity|cbn; apply Z.ltb_lt; lia]).
  destruct (svd_thresh_given svd x m n n_pc t "hard" (or_introl eq_refl) Hc Hs) as (r & E & Sr & A). fold s in A, E.
  pose proof Hs as (Sx & Su & Sv & L & Ou & Ov & Ps & Ms & EX). fold s in L, Ps, Ms, EX.
  assert (T : map (hard1 t) s = s).
  { apply (nth_ext _ _ 0 0); [apply map_length|]. intros l Hl. rewrite map_length in Hl. replace 0 with (hard1 t 0) at 1 by apply (thr1_0 "hard").
    rewrite map_nth, hard1_sv by (apply Ps, Hl). destruct (Rle_dec t (nth l s 0)) as [Q|Q]; [reflexivity|]. exfalso. apply Q. unfold t. apply Ms; lia. }
  exists r. split; [|split; [exact Sr|]].
  - assert (P : pick_threshold (svd x) n_pc = Ok (t, [WarnUsingAll])).
    { assert (I : py_index s (Z.of_nat (length s) - 1) = Ok t).
      { unfold py_index. replace ((- Z.of_nat (length s) <=? Z.of_nat (length s) - 1)%Z && (Z.of_nat (length s) - 1 <? Z.of_nat (length s))%Z)%bool with true.
        - destruct (Z.ltb_spec (Z.of_nat (length s) - 1) 0); [lia|]. unfold t. repeat f_equal. lia.
        - symmetry. apply Bool.andb_true_iff. rewrite Z.leb_le, Z.ltb_lt. lia. }
      unfold pick_threshold. fold s. destruct Hn as [->|(z & Hz & ->)]; [rewrite I; reflexivity|].
      rewrite L. destruct (Z.leb_spec (Z.of_nat (Nat.min m n)) z); [|lia]. rewrite <- L, I. reflexivity. }
    revert E. unfold svd_thresh. rewrite Hc. cbn [negb]. unfold calculate_svd. rewrite Sx. cbn [length Nat.eqb bind]. rewrite P. cbn [bind fst snd].
    change (thr1 "hard") with hard1. fold s. rewrite thresh_scalar_hard. cbn [bind]. rewrite T. unfold warn_nc. rewrite forallb_combine_refl.
    destruct (dot2 (diag s) (svd_v (svd x))) as [sv|e]; [|discriminate]. cbn [bind]. destruct (dot2 (svd_u (svd x)) sv) as [r'|e]; [|discriminate]. cbn [bind app].
    intros E. injection E as ->. reflexivity.
  - intros i j Hi Hj. rewrite A, EX by assumption. apply bsum_ext. intros l Hl. change (thr1 "hard") with hard1.
    rewrite hard1_sv by (apply Ps, Hl). destruct (Rle_dec t (nth l s 0)) as [Q|Q]; [reflexivity|]. exfalso. apply Q. unfold t. apply Ms; lia.
Qed.
Print Assumptions C81_keeps_all.

(** "n_pc components are kept" is false when singular values coincide: for the identity, n_pc = 1 keeps both. *)
Definition id_svd (_ : nda R) : svd_out := mk_svd ex_i [1; 1] ex_i.
Lemma id_svd_of : svd_of 2 2 (entry ex_i) (fun l i => at_ ex_i [i; l]) [1; 1] (fun l j => at_ ex_i [l; j]).
Proof.
  split; [reflexivity|]. split; [apply ex_orthonormal|]. split; [apply ex_orthonormal|]. split; [|split].
  - intros [|[|l]] H; cbn in *; [lra|lra|lia].
  - intros [|[|l]] [|[|l']] H H'; cbn in *; try lra; lia.
  - intros [|[|i]] [|[|j]] Hi Hj; try lia; unfold lc, entry, ex_i; cbn; lra.
Qed.
Lemma id_svd_ok : svd_result 2 2 ex_i (svd_u (id_svd ex_i)) (svd_s (id_svd ex_i)) (svd_v (id_svd ex_i)).
Proof. split; [reflexivity|]. split; [reflexivity|]. split; [reflexivity|]. exact id_svd_of. Qed.
Theorem C81_n_pc_rank_refuted : exists svd x k r ev, svd_result 2 2 x (svd_u (svd x)) (svd_s (svd x)) (svd_v (svd x)) /\ (0 < k < 2)%nat /\
  svd_thresh svd (Ndarray x) None (NPInt (Z.of_nat k)) "hard" = Ok (r, ev) /\ ~ rank_le 2 2 k (entry r).
Proof.
  destruct (svd_thresh_npc id_svd ex_i 2 2 1 "hard" (or_introl eq_refl) ltac:(cbn; lia) id_svd_ok) as (r & ev & E & _ & A).
  exists id_svd, ex_i, 1%nat, r, ev. split; [exact id_svd_ok|]. split; [lia|]. split; [exact E|].
  intros (e & d & R). assert (V : forall i j, (i < 2)%nat -> (j < 2)%nat -> entry r i j = at_ ex_i [i; j]).
  { intros i j Hi Hj. rewrite A. destruct i as [|[|i]], j as [|[|j]]; try lia; unfold lc; cbn [id_svd svd_s svd_u svd_v length bsum nth Nat.sub];
      change (thr1 "hard" 1 1) with (hard1 1 1); rewrite hard1_sv by lra; destruct (Rle_dec 1 1); [|lra| |lra| |lra| |lra]; unfold ex_i; cbn; lra. }
  pose proof (R 0%nat 0%nat ltac:(lia) ltac:(lia)) as R00. pose proof (R 1%nat 1%nat ltac:(lia) ltac:(lia)) as R11.
  pose proof (R 0%nat 1%nat ltac:(lia) ltac:(lia)) as R01. pose proof (R 1%nat 0%nat ltac:(lia) ltac:(lia)) as R10.
  rewrite V in R00, R11, R01, R10 by lia. cbn in R00, R11, R01, R10.
  assert (e 0%nat 0%nat * d 0%nat 0%nat * (e 0%nat 1%nat * d 0%nat 1%nat) = (e 0%nat 0%nat * d 0%nat 1%nat) * (e 0%nat 1%nat * d 0%nat 0%nat)) as Q by ring. nra.
Qed.
Print Assumptions C81_n_pc_rank_refuted.

Example C81_example : exists r ev, svd_thresh ex_svd (Ndarray ex_x) None (NPInt 1) "hard" = Ok (r, ev) /\
  entry r 0%nat 0%nat = 3 /\ entry r 1%nat 1%nat = 0 /\ (forall B, rank_le 2 2 1 B -> 1 <= dist2 2 2 (entry ex_x) B).
Proof.
  destruct (svd_thresh_npc ex_svd ex_x 2 2 1 "hard" (or_introl eq_refl) ltac:(cbn; lia) ex_svd_ok) as (r & ev & E & _ & A).
  destruct (C81_best_rank_k ex_svd ex_x 2 2 1 ltac:(cbn; lia) ex_svd_ok) as (r' & ev' & E' & _ & B & _).
  rewrite E in E'. injection E' as <- <-. exists r, ev. split; [exact E|].
  assert (H3 : thr1 "hard" 3 3 = 3) by (change (hard1 3 3 = 3); rewrite hard1_sv by lra; destruct (Rle_dec 3 3); lra).
  assert (H1 : thr1 "hard" 3 1 = 0) by (change (hard1 3 1 = 0); rewrite hard1_sv by lra; destruct (Rle_dec 3 1); lra).
  assert (V : forall i j, (i < 2)%nat -> (j < 2)%nat -> entry r i j = if (Nat.eqb i 0 && Nat.eqb j 0)%bool then 3 else 0).
  { intros i j Hi Hj. rewrite A. unfold lc. cbn [ex_svd svd_s svd_u svd_v length bsum nth Nat.sub]. rewrite H3, H1.
    destruct i as [|[|i]], j as [|[|j]]; try lia; unfold ex_i; cbn; lra. }
  rewrite !V by lia. split; [reflexivity|]. split; [reflexivity|]. intros C HC. eapply Rle_trans; [|apply B, HC].
  unfold dist2, frob. cbn [bsum]. rewrite !V by lia. unfold entry, ex_x. cbn. lra.
Qed.

(** * C82: the argument n_pc *)
Theorem C82_invalid_n_pc svd x threshold n_pc ty : (exists z, (z <= 0)%Z /\ n_pc = NPInt z) \/ (exists s, s <> "all" /\ n_pc = NPStr s) \/ n_pc = NPOther ->
  svd_thresh svd x threshold n_pc ty = Err ValueError.
Proof.
  intros H. unfold svd_thresh. replace (check_n_pc n_pc) with false; [reflexivity|]. symmetry.
  destruct H as [(z & Hz & ->)|[(s & Hs & ->)| ->]]; cbn; [apply Z.ltb_ge; lia|apply String.eqb_neq, Hs|reflexivity].
Qed.
Print Assumptions C82_invalid_n_pc.
(** Once n_pc is valid, anything but an array with two axes is a TypeError. *)
Theorem C82_type_error svd x threshold n_pc ty : n_pc = NPNone \/ n_pc = NPStr "all" \/ (exists z, (0 < z)%Z /\ n_pc = NPInt z) ->
  x = NotNdarray \/ (exists a, x = Ndarray a /\ length (shape a) <> 2%nat) -> svd_thresh svd x threshold n_pc ty = Err TypeError.
Proof.
  intros Hn Hx. unfold svd_thresh. replace (check_n_pc n_pc) with true.
  - cbn [negb]. replace (calculate_svd svd x) with (@Err svd_out TypeError); [reflexivity|]. symmetry. destruct Hx as [->|(a & -> & Ha)]; [reflexivity|].
    unfold calculate_svd. destruct (Nat.eqb_spec (length (shape a)) 2); [contradiction|reflexivity].
  - symmetry. destruct Hn as [->|[->|(z & Hz & ->)]]; [reflexivity|reflexivity|]. cbn. apply Z.ltb_lt, Hz.
Qed.
Print Assumptions C82_type_error.

(** With the soft threshold n_pc components are not kept: the n_pc-th becomes 0, so n_pc = 1 returns the zero matrix. *)
Theorem C82_soft_loses_one svd x m n k : (0 < k < Nat.min m n)%nat ->
  svd_result m n x (svd_u (svd x)) (svd_s (svd x)) (svd_v (svd x)) ->
  exists r ev, svd_thresh svd (Ndarray x) None (NPInt (Z.of_nat k)) "soft" = Ok (r, ev) /\ shape r = [m; n] /\ rank_le m n (k - 1) (entry r).
Proof.
  intros Hk Hs. destruct (svd_thresh_npc svd x m n k "soft" (or_intror eq_refl) Hk Hs) as (r & ev & E & Sr & A).
  exists r, ev. split; [exact E|]. split; [exact Sr|]. destruct Hs as (Sx & Su & Sv & L & Ou & Ov & Ps & Ms & EX). set (s := svd_s (svd x)) in *.
  destruct (lc_rank m n (k - 1) (fun l => thr1 "soft" (nth (k - 1) s 0) (nth l s 0)) (fun l i => at_ (svd_u (svd x)) [i; l]) (fun l j => at_ (svd_v (svd x)) [l; j])) as (e & d & R).
  exists e, d. intros i j Hi Hj. rewrite <- R by assumption. rewrite A. apply lc_prefix; [lia|]. intros l Hl. change (thr1 "soft") with soft1.
  apply soft1_spec; [apply Ps; lia|]. rewrite Rabs_right by (apply Rle_ge, Ps; lia). apply Ms; lia.
Qed.
Print Assumptions C82_soft_loses_one.
Theorem C82_soft_n_pc_refuted : exists svd x k r ev, svd_result 2 2 x (svd_u (svd x)) (svd_s (svd x)) (svd_v (svd x)) /\ (0 < k < 2)%nat /\ entry x 0%nat 0%nat = 3 /\
  svd_thresh svd (Ndarray x) None (NPInt (Z.of_nat k)) "soft" = Ok (r, ev) /\ mat_eq 2 2 (entry r) (fun _ _ => 0).
Proof.
  destruct (C82_soft_loses_one ex_svd ex_x 2 2 1 ltac:(cbn; lia) ex_svd_ok) as (r & ev & E & _ & e & d & R).
  exists ex_svd, ex_x, 1%nat, r, ev. split; [exact ex_svd_ok|]. split; [lia|]. split; [reflexivity|]. split; [exact E|]. exact R.
Qed.
Print Assumptions C82_soft_n_pc_refuted.

(** Without threshold and n_pc something is always written to standard output. *)
Theorem C82_always_prints svd x ty r ev : svd_thresh svd x None NPNone ty = Ok (r, ev) -> In DebugPrint ev.
Proof.
  unfold svd_thresh. cbn [check_n_pc negb]. destruct (calculate_svd svd x) as [o|e]; [|discriminate]. cbn [bind].
  destruct (pick_threshold o NPNone) as [[t evs]|e] eqn:P; [|discriminate].
  assert (evs = [DebugPrint]) as ->.
  { unfold pick_threshold in P. destruct (find_n_pc (svd_u o) (1 / 10)); [|discriminate]. cbn [bind] in P. destruct (py_index (svd_s o) _); [|discriminate]. cbn [bind] in P. injection P as _ <-. reflexivity. }
  cbn [bind fst snd]. destruct (thresh (svd_s o) (TScalar t) ty) as [sn|e]; [|discriminate]. cbn [bind].
  destruct (dot2 (diag sn) (svd_v o)) as [sv|e]; [|discriminate]. cbn [bind]. destruct (dot2 (svd_u o) sv); [|discriminate]. cbn [bind app].
  intros E. injection E as _ <-. left. reflexivity.
Qed.
Print Assumptions C82_always_prints.

(** When find_n_pc selects no component, all of them are kept: index -1 is the smallest singular value. *)
Theorem C82_none_selected_keeps_all svd x m n : (0 < Nat.min m n)%nat ->
  svd_result m n x (svd_u (svd x)) (svd_s (svd x)) (svd_v (svd x)) -> find_n_pc (svd_u (svd x)) (1 / 10) = Ok 0%nat ->
  exists r, svd_thresh svd (Ndarray x) None NPNone "hard" = Ok (r, [DebugPrint; WarnNoChange]) /\ shape r = [m; n] /\ mat_eq m n (entry r) (entry x).
Proof.
  intros Hk Hs Hf. set (s := svd_s (svd x)). set (t := nth (Nat.min m n - 1) s 0).
  destruct (svd_thresh_given svd x m n NPNone t "hard" (or_introl eq_refl) eq_refl Hs) as (r & E & Sr & A). fold s in A, E.
  pose proof Hs as (Sx & Su & Sv & L & Ou & Ov & Ps & Ms & EX). fold s in L, Ps, Ms, EX.
  assert (T : map (hard1 t) s = s).
  { apply (nth_ext _ _ 0 0); [apply map_length|]. intros l Hl. rewrite map_length in Hl. replace 0 with (hard1 t 0) at 1 by apply (thr1_0 "hard").
    rewrite map_nth, hard1_sv by (apply Ps, Hl). destruct (Rle_dec t (nth l s 0)) as [Q|Q]; [reflexivity|]. exfalso. apply Q. unfold t. apply Ms; lia. }
  exists r. split; [|split; [exact Sr|]].
  - assert (P : pick_threshold (svd x) NPNone = Ok (t, [DebugPrint])).
    { unfold pick_threshold. rewrite Hf. cbn [bind]. fold s. unfold py_index. replace ((- Z.of_nat (length s) <=? Z.of_nat 0 - 1)%Z && (Z.of_nat 0 - 1 <? Z.of_nat (length s))%Z)%bool with true.
      - change (Z.of_nat 0 - 1 <? 0)%Z with true. cbv iota. cbn [bind]. unfold t. do 3 f_equal. lia.
      - symmetry. apply Bool.andb_true_iff. rewrite Z.leb_le, Z.ltb_lt. lia. }
    revert E. unfold svd_thresh. cbn [check_n_pc negb]. unfold calculate_svd. rewrite Sx. cbn [length Nat.eqb bind]. rewrite P. cbn [bind fst snd].
    change (thr1 "hard") with hard1. fold s. rewrite thresh_scalar_hard. cbn [bind]. rewrite T. unfold warn_nc. rewrite forallb_combine_refl.
    destruct (dot2 (diag s) (svd_v (svd x))) as [sv|e]; [|discriminate]. cbn [bind]. destruct (dot2 (svd_u (svd x)) sv) as [r'|e]; [|discriminate]. cbn [bind app].
    intros E. injection E as ->. reflexivity.
  - intros i j Hi Hj. rewrite A, EX by assumption. apply bsum_ext. intros l Hl. change (thr1 "hard") with hard1.
    rewrite hard1_sv by (apply Ps, Hl). destruct (Rle_dec t (nth l s 0)) as [Q|Q]; [reflexivity|]. exfalso. apply Q. unfold t. apply Ms; lia.
Qed.
Print Assumptions C82_none_selected_keeps_all.

(** So the documented "number of principal components" of 0 does not give a matrix of rank 0: a matrix with
    one pixel, for which find_n_pc returns 0. *)
Definition one_x : nda R := mk_nda [1; 1]%nat (fun _ => 5).
Definition one_svd (_ : nda R) : svd_out := mk_svd (mk_nda [1; 1]%nat (fun _ => 1)) [5] (mk_nda [1; 1]%nat (fun _ => 1)).
Lemma one_svd_ok : svd_result 1 1 one_x (svd_u (one_svd one_x)) (svd_s (one_svd one_x)) (svd_v (one_svd one_x)).
Proof.
  split; [reflexivity|]. split; [reflexivity|]. split; [reflexivity|]. split; [reflexivity|].
  split; [|split; [|split; [|split]]].
  - intros [|l] [|l'] Hl Hl'; cbn in *; try lia. unfold dotv. cbn. lra.
  - intros [|l] [|l'] Hl Hl'; cbn in *; try lia. unfold dotv. cbn. lra.
  - intros [|l] Hl; cbn in *; [lra|lia].
  - intros [|l] [|l'] H Hl'; cbn in *; try lia. lra.
  - intros [|i] [|j] Hi Hj; try lia. unfold lc, entry. cbn. lra.
Qed.
Lemma one_n_pc : find_n_pc (svd_u (one_svd one_x)) (1 / 10) = Ok 0%nat.
Proof.
  rewrite (find_n_pc_spec _ 1 1) by (try reflexivity; lia). cbn [seq filter]. unfold spreadb. destruct (Rle_dec _ _) as [H|H]; [|reflexivity]. exfalso.
  revert H. change (1 / 2)%nat with 0%nat. cbn [bsum]. unfold autocorr, eigenimage, ext. cbn. lra.
Qed.
Theorem C82_zero_components_refuted : exists svd x r ev, svd_result 1 1 x (svd_u (svd x)) (svd_s (svd x)) (svd_v (svd x)) /\
  find_n_pc (svd_u (svd x)) (1 / 10) = Ok 0%nat /\ svd_thresh svd (Ndarray x) None NPNone "hard" = Ok (r, ev) /\ In DebugPrint ev /\ ~ rank_le 1 1 0 (entry r).
Proof.
  destruct (C82_none_selected_keeps_all one_svd one_x 1 1 ltac:(cbn; lia) one_svd_ok one_n_pc) as (r & E & _ & A).
  exists one_svd, one_x, r, [DebugPrint; WarnNoChange]. split; [exact one_svd_ok|]. split; [exact one_n_pc|]. split; [exact E|]. split; [left; reflexivity|].
  intros (e & d & R). specialize (R 0%nat 0%nat ltac:(lia) ltac:(lia)). rewrite A in R by lia. unfold entry, one_x in R. cbn in R. lra.
Qed.
Print Assumptions C82_zero_components_refuted.

Example C82_example : svd_thresh ex_svd NotNdarray None (NPInt 0) "hard" = Err ValueError /\ svd_thresh ex_svd (Ndarray ex_x) None (NPStr "ALL") "soft" = Err ValueError /\
  svd_thresh ex_svd NotNdarray None (NPInt 1) "hard" = Err TypeError.
Proof. repeat split; reflexivity. Qed.

(** * C83: svd_thresh_coef_fast *)
Definition svds_contract (svds : nda R -> nat -> svd_out) (m n : nat) (x : nda R) : Prop :=
  forall k, (0 < k < Nat.min m n)%nat -> exists u0 s0 v0, svds_result m n k x (svd_u (svds x k)) (svd_s (svds x k)) (svd_v (svds x k)) u0 s0 v0.

Lemma fast_result fuel svds x m n t nv extra ty r q : (ty = "hard" \/ ty = "soft") -> 0 <= t -> shape x = [m; n] -> svds_contract svds m n x ->
  svd_thresh_coef_fast fuel svds x t nv extra ty = Some (Ok (r, q)) ->
  exists k u0 s0 v0, (0 < k < Nat.min m n)%nat /\ svd_of m n (entry x) u0 s0 v0 /\ (nth (k - 1) s0 0 <= t \/ k = (Nat.min m n - 1)%nat) /\
    shape r = [m; n] /\ (q <= k)%nat /\ (forall l, (l < q)%nat -> thr1 ty t (nth l s0 0) <> 0) /\ (forall l, (q <= l < k)%nat -> thr1 ty t (nth l s0 0) = 0) /\
    forall i j, entry r i j = lc q (fun l => thr1 ty t (nth l s0 0)) u0 v0 i j.
Proof.
  intros Hty Ht Sx Hc E. unfold svd_thresh_coef_fast in E. rewrite Sx in E. destruct nv as [z|]; [|discriminate].
  destruct (fast_loop fuel svds x _ t _ extra) as [[o|e]|] eqn:Lp; try discriminate. injection E as E.
  destruct (fast_loop_result svds x m n t extra Sx _ _ _ Lp) as (k & Hk & -> & Hstop). destruct (Hc k Hk) as (u0 & s0 & v0 & Hs).
  destruct (fast_finish_spec m n k x _ u0 s0 v0 t ty Hty Ht Hk Hs) as (r' & q' & E' & Sr & Hq & N1 & N0 & A). rewrite E in E'. injection E' as <- <-.
  destruct Hs as (_ & _ & _ & H & _ & Al). exists k, u0, s0, v0. split; [exact Hk|]. split; [exact H|]. split; [|auto 8].
  destruct Hstop as [Hst|Hst]; [left|right; exact Hst]. destruct (Al 0%nat ltac:(lia)) as (E0 & _). rewrite E0 in Hst. rewrite Nat.sub_0_r in Hst. exact Hst.
Qed.

(** When it returns, and the smallest singular value is not above the threshold, the result is what svd_thresh
    computes: within rounding of the proximity operator (soft), optimal for the penalised rank (hard). The
    second component of the result bounds the rank. *)
Theorem C83_soft fuel svds x m n t nv extra r q s : 0 <= t -> shape x = [m; n] -> svds_contract svds m n x ->
  singular_values m n x s -> nth (Nat.min m n - 1) s 0 <= t ->
  svd_thresh_coef_fast fuel svds x t nv extra "soft" = Some (Ok (r, q)) ->
  shape r = [m; n] /\ rank_le m n q (entry r) /\
  exists P, nuclear_prox m n t (entry x) P /\ dist2 m n (entry r) P <= INR (Nat.min m n) * (/ 10 ^ 15) ^ 2.
Proof.
  intros Ht Sx Hc (u & v & Hsv) Hmin E.
  destruct (fast_result _ _ _ _ _ _ _ _ _ _ _ (or_intror eq_refl) Ht Sx Hc E) as (k & u0 & s0 & v0 & Hk & H & Hst & Sr & Hq & N1 & N0 & A).
  assert (s = s0) as <- by (eapply singular_values_unique; eassumption). split; [exact Sr|]. split.
  { destruct (lc_rank m n q (fun l => thr1 "soft" t (nth l s 0)) u0 v0) as (e & d & R). exists e, d. intros i j Hi Hj. rewrite <- R by assumption. apply A. }
  exists (lc (length s) (fun l => shrink t (nth l s 0)) u0 v0). split; [apply (nuclear_prox_of_svd m n (entry x) u0 s v0 t H Ht)|].
  destruct H as (L & Ou & Ov & Ps & Ms & EX). change (thr1 "soft") with soft1 in *.
  assert (Drop : forall l, (q <= l < length s)%nat -> soft1 t (nth l s 0) = 0).
  { intros l Hl. destruct (Nat.lt_ge_cases l k) as [B|B]; [apply N0; lia|]. apply soft1_spec; [exact Ht|]. rewrite Rabs_right by (apply Rle_ge, Ps; lia).
    destruct Hst as [Hst| ->].
    - pose proof (Ms (k - 1)%nat l ltac:(lia) ltac:(lia)). lra.
    - replace l with (Nat.min m n - 1)%nat by lia. exact Hmin. }
  rewrite (dist2_ext m n (entry r) (lc (length s) (fun l => soft1 t (nth l s 0)) u0 v0) (lc (length s) (fun l => shrink t (nth l s 0)) u0 v0) (lc (length s) (fun l => shrink t (nth l s 0)) u0 v0)); [| |intros i j _ _; reflexivity].
  - rewrite <- L. replace ((/ 10 ^ 15) ^ 2) with (/ 10 ^ 15 * / 10 ^ 15) by ring. apply soft_close; try assumption.
    + left. apply Rinv_0_lt_compat, pow10_pos.
    + intros l Hl. left. apply (soft1_spec t _ Ht).
  - intros i j _ _. rewrite A. symmetry. apply lc_prefix; [lia|exact Drop].
Qed.
Print Assumptions C83_soft.
Theorem C83_hard fuel svds x m n t nv extra r q s : 0 <= t -> shape x = [m; n] -> svds_contract svds m n x ->
  singular_values m n x s -> nth (Nat.min m n - 1) s 0 <= t ->
  svd_thresh_coef_fast fuel svds x t nv extra "hard" = Some (Ok (r, q)) ->
  shape r = [m; n] /\ rank_prox m n t (entry x) (entry r) q.
Proof.
  intros Ht Sx Hc (u & v & Hsv) Hmin E.
  destruct (fast_result _ _ _ _ _ _ _ _ _ _ _ (or_introl eq_refl) Ht Sx Hc E) as (k & u0 & s0 & v0 & Hk & H & Hst & Sr & Hq & N1 & N0 & A).
  assert (s = s0) as <- by (eapply singular_values_unique; eassumption). split; [exact Sr|].
  pose proof H as (L & Ou & Ov & Ps & Ms & EX). change (thr1 "hard") with hard1 in *.
  assert (Keep : forall l, (l < q)%nat -> t <= nth l s 0 /\ hard1 t (nth l s 0) = nth l s 0).
  { intros l Hl. specialize (N1 l Hl). revert N1. rewrite hard1_sv by (apply Ps; lia). destruct (Rle_dec t (nth l s 0)); [auto|congruence]. }
  eapply rank_prox_ext; [intros i j _ _; reflexivity| |eapply (rank_prox_of_svd m n (entry x) u0 s v0 t q H Ht)].
  - intros i j Hi Hj. rewrite A. apply bsum_ext. intros l Hl. rewrite (proj2 (Keep l Hl)). reflexivity.
  - lia.
  - intros l Hl. apply Keep, Hl.
  - intros l Hl. destruct (Nat.lt_ge_cases l k) as [B|B].
    + specialize (N0 l ltac:(lia)). revert N0. rewrite hard1_sv by (apply Ps; lia). destruct (Rle_dec t (nth l s 0)); intros; lra.
    + destruct Hst as [Hst| ->].
      * pose proof (Ms (k - 1)%nat l ltac:(lia) ltac:(lia)). lra.
      * replace l with (Nat.min m n - 1)%nat by lia. exact Hmin.
Qed.
Print Assumptions C83_hard.

(** With the default number of values one call of svds suffices; with at least one extra value per round the
    loop always ends. *)
Theorem C83_default_one_round svds x m n t extra ty : (ty = "hard" \/ ty = "soft") -> 0 <= t -> (2 <= Nat.min m n)%nat -> shape x = [m; n] -> svds_contract svds m n x ->
  exists r q, svd_thresh_coef_fast 1 svds x t (Some (-1)%Z) extra ty = Some (Ok (r, q)) /\ shape r = [m; n].
Proof.
  intros Hty Ht Hk Sx Hc. unfold svd_thresh_coef_fast. rewrite Sx. change (-1 =? -1)%Z with true. cbv iota zeta. cbn [fast_loop]. unfold svds_checked. rewrite Sx.
  replace ((0 <? Z.of_nat (Nat.min m n) - 1)%Z && (Z.of_nat (Nat.min m n) - 1 <? Z.of_nat (Nat.min m n))%Z)%bool with true.
  - rewrite Z.eqb_refl, Bool.orb_true_r. set (k := Z.to_nat (Z.of_nat (Nat.min m n) - 1)). assert (Hk' : (0 < k < Nat.min m n)%nat) by lia.
    destruct (Hc k Hk') as (u0 & s0 & v0 & Hs). destruct (fast_finish_spec m n k x _ u0 s0 v0 t ty Hty Ht Hk' Hs) as (r & q & E & Sr & _). exists r, q. rewrite E. auto.
  - symmetry. apply Bool.andb_true_iff. rewrite !Z.ltb_lt. lia.
Qed.
Print Assumptions C83_default_one_round.
(** With an estimate k such that the k-th singular value does not exceed the threshold, one call suffices too. *)
Theorem C83_good_estimate_one_round svds x m n t k extra ty s : (ty = "hard" \/ ty = "soft") -> 0 <= t -> (0 < k < Nat.min m n)%nat -> shape x = [m; n] -> svds_contract svds m n x ->
  singular_values m n x s -> nth (k - 1) s 0 <= t ->
  exists r q, svd_thresh_coef_fast 1 svds x t (Some (Z.of_nat k)) extra ty = Some (Ok (r, q)) /\ shape r = [m; n].
Proof.
  intros Hty Ht Hk Sx Hc (u & v & Hsv) Hmin. destruct (Hc k Hk) as (u0 & s0 & v0 & Hs). pose proof Hs as (_ & _ & _ & H & _ & Al).
  assert (s = s0) as <- by (eapply singular_values_unique; eassumption).
  destruct (fast_finish_spec m n k x _ u0 s v0 t ty Hty Ht Hk Hs) as (r & q & E & Sr & _). exists r, q. split; [|exact Sr].
  unfold svd_thresh_coef_fast. rewrite Sx. destruct (Z.eqb_spec (Z.of_nat k) (-1)); [lia|]. cbv zeta. cbn [fast_loop]. unfold svds_checked. rewrite Sx.
  replace ((0 <? Z.of_nat k)%Z && (Z.of_nat k <? Z.of_nat (Nat.min m n))%Z)%bool with true by (symmetry; apply Bool.andb_true_iff; rewrite !Z.ltb_lt; lia).
  rewrite Nat2Z.id. destruct (Al 0%nat ltac:(lia)) as (E0 & _). rewrite E0, Nat.sub_0_r. destruct (Rle_dec (nth (k - 1) s 0) t); [|contradiction]. cbn [orb]. rewrite E. reflexivity.
Qed.
Print Assumptions C83_good_estimate_one_round.
Lemma fast_loop_ends svds x m n t extra : shape x = [m; n] -> (1 <= extra)%Z -> forall fuel nv, (Z.of_nat (Nat.min m n) + 1 <= nv + Z.of_nat fuel)%Z -> (nv <= Z.of_nat (Nat.min m n))%Z -> (0 < fuel)%nat ->
  exists r, fast_loop fuel svds x (Z.of_nat (Nat.min m n)) t nv extra = Some r.
Proof.
  intros Sx He. induction fuel as [|fuel IH]; intros nv H Hn Hf; [lia|]. cbn [fast_loop]. unfold svds_checked. rewrite Sx.
  destruct ((0 <? nv)%Z && (nv <? Z.of_nat (Nat.min m n))%Z)%bool eqn:Q; [|eexists; reflexivity]. apply andb_prop in Q. destruct Q as [Q1 Q2]. apply Z.ltb_lt in Q1, Q2.
  destruct (_ || _)%bool; [eexists; reflexivity|]. apply IH; lia.
Qed.
Theorem C83_ends svds x m n t nv extra ty : shape x = [m; n] -> (1 <= extra)%Z -> exists fuel r, svd_thresh_coef_fast fuel svds x t nv extra ty = Some r.
Proof.
  intros Sx He. destruct nv as [z|]; [|exists 0%nat; eexists; unfold svd_thresh_coef_fast; rewrite Sx; reflexivity].
  set (z' := if (z =? -1)%Z then (Z.of_nat (Nat.min m n) - 1)%Z else z).
  assert (E : exists fuel r, fast_loop fuel svds x (Z.of_nat (Nat.min m n)) t z' extra = Some r).
  { destruct (Z_le_gt_dec z' (Z.of_nat (Nat.min m n))) as [Q|Q].
    - exists (S (Z.to_nat (Z.of_nat (Nat.min m n) + 1 - z'))). apply fast_loop_ends; try assumption; lia.
    - exists 1%nat. cbn [fast_loop]. unfold svds_checked. rewrite Sx. replace (z' <? Z.of_nat (Nat.min m n))%Z with false by (symmetry; apply Z.ltb_ge; lia).
      rewrite Bool.andb_false_r. eexists; reflexivity. }
  destruct E as (fuel & r & E). exists fuel. unfold svd_thresh_coef_fast. rewrite Sx. fold z'. rewrite E. destruct r; eexists; reflexivity.
Qed.
Print Assumptions C83_ends.

(** With extra_vals = 0 it may never end. *)
Theorem C83_never_ends svds x m n t z ty : shape x = [m; n] -> (0 < z < Z.of_nat (Nat.min m n) - 1)%Z -> t < nth 0 (svd_s (svds x (Z.to_nat z))) 0 ->
  forall fuel, svd_thresh_coef_fast fuel svds x t (Some z) 0 ty = None.
Proof.
  intros Sx Hz Ht fuel. unfold svd_thresh_coef_fast. rewrite Sx. destruct (Z.eqb_spec z (-1)); [lia|].
  assert (E : fast_loop fuel svds x (Z.of_nat (Nat.min m n)) t z 0 = None); [|rewrite E; reflexivity].
  induction fuel as [|fuel IH]; [reflexivity|]. cbn [fast_loop]. unfold svds_checked. rewrite Sx.
  replace ((0 <? z)%Z && (z <? Z.of_nat (Nat.min m n))%Z)%bool with true by (symmetry; apply Bool.andb_true_iff; rewrite !Z.ltb_lt; lia).
  destruct (Rle_dec _ t); [lra|]. destruct (Z.eqb_spec z (Z.of_nat (Nat.min m n) - 1)); [lia|]. cbn [orb]. rewrite Z.add_0_r, Z.min_l by lia. exact IH.
Qed.
Print Assumptions C83_never_ends.

(** "Recompute with n_vals + extra_vals" fails whenever that reaches min(shape): svds then raises ValueError. *)
Theorem C83_jump_too_far svds x m n t z extra ty fuel : shape x = [m; n] -> (0 < z < Z.of_nat (Nat.min m n) - 1)%Z -> t < nth 0 (svd_s (svds x (Z.to_nat z))) 0 ->
  (Z.of_nat (Nat.min m n) <= z + extra)%Z -> svd_thresh_coef_fast (S (S fuel)) svds x t (Some z) extra ty = Some (Err ValueError).
Proof.
  intros Sx Hz Ht He. unfold svd_thresh_coef_fast. rewrite Sx. destruct (Z.eqb_spec z (-1)); [lia|].
  assert (E : fast_loop (S (S fuel)) svds x (Z.of_nat (Nat.min m n)) t z extra = Some (Err ValueError)); [|rewrite E; reflexivity].
  cbn [fast_loop]. unfold svds_checked. rewrite Sx.
  replace ((0 <? z)%Z && (z <? Z.of_nat (Nat.min m n))%Z)%bool with true by (symmetry; apply Bool.andb_true_iff; rewrite !Z.ltb_lt; lia).
  destruct (Rle_dec _ t); [lra|]. destruct (Z.eqb_spec z (Z.of_nat (Nat.min m n) - 1)); [lia|]. cbn [orb].
  rewrite Z.min_r by lia. rewrite Z.ltb_irrefl, Bool.andb_false_r. reflexivity.
Qed.
Print Assumptions C83_jump_too_far.
(** n_vals = None, documented as "compute all singular values", raises. *)
Theorem C83_none_raises svds x m n t extra ty fuel : shape x = [m; n] -> svd_thresh_coef_fast fuel svds x t None extra ty = Some (Err TypeError).
Proof. intros Sx. unfold svd_thresh_coef_fast. rewrite Sx. reflexivity. Qed.
Print Assumptions C83_none_raises.

(** The k largest singular triples of the identity. *)
Definition id3 : nda R := mk_nda [3; 3]%nat (fun idx => if Nat.eqb (nth 0 idx 0%nat) (nth 1 idx 0%nat) then 1 else 0).
Definition id3_svds (_ : nda R) (k : nat) : svd_out :=
  mk_svd (mk_nda [3; k]%nat (fun idx => if Nat.eqb (nth 0 idx 0%nat) (k - 1 - nth 1 idx 0%nat) then 1 else 0)) (repeat 1 k)
         (mk_nda [k; 3]%nat (fun idx => if Nat.eqb (k - 1 - nth 0 idx 0%nat) (nth 1 idx 0%nat) then 1 else 0)).
Lemma id3_svd_of : svd_of 3 3 (entry id3) (fun l i => if Nat.eqb i l then 1 else 0) [1; 1; 1] (fun l j => if Nat.eqb l j then 1 else 0).
Proof.
  split; [reflexivity|]. split; [|split; [|split; [|split]]].
  - intros l l' Hl Hl'. cbn [length] in *. destruct l as [|[|[|l]]]; [| | |lia]; (destruct l' as [|[|[|l']]]; [| | |lia]); unfold dotv; cbn; lra.
  - intros l l' Hl Hl'. cbn [length] in *. destruct l as [|[|[|l]]]; [| | |lia]; (destruct l' as [|[|[|l']]]; [| | |lia]); unfold dotv; cbn; lra.
  - intros [|[|[|l]]] H; cbn in *; [lra|lra|lra|lia].
  - intros l l' H Hl'. cbn [length] in Hl'. destruct l as [|[|[|l]]]; [| | |lia]; (destruct l' as [|[|[|l']]]; [| | |lia]); cbn; try lra; lia.
  - intros i j Hi Hj. destruct i as [|[|[|i]]]; [| | |lia]; (destruct j as [|[|[|j]]]; [| | |lia]); unfold lc, entry, id3; cbn; lra.
Qed.
Lemma id3_contract : svds_contract id3_svds 3 3 id3.
Proof.
  intros k Hk. exists (fun l i => if Nat.eqb i l then 1 else 0), [1; 1; 1], (fun l j => if Nat.eqb l j then 1 else 0).
  split; [reflexivity|]. split; [reflexivity|]. split; [reflexivity|]. split; [exact id3_svd_of|]. split; [apply repeat_length|].
  intros l Hl. cbn in Hk. split; [|split; reflexivity]. cbn [id3_svds svd_s].
  destruct k as [|[|[|k]]]; [lia| |  |lia]; (destruct l as [|[|l]]; [| |lia]); reflexivity || lia.
Qed.
(** With default arguments the smallest singular value is lost whatever the threshold: at threshold 0 the input does not come back. *)
Theorem C83_default_drops_refuted : exists svds x r q, svds_contract svds 3 3 x /\
  svd_thresh_coef_fast 1 svds x 0 (Some (-1)%Z) 5 "hard" = Some (Ok (r, q)) /\ q = 2%nat /\ ~ mat_eq 3 3 (entry r) (entry x).
Proof.
  destruct (C83_default_one_round id3_svds id3 3 3 0 5 "hard" (or_introl eq_refl) ltac:(lra) ltac:(cbn; lia) eq_refl id3_contract) as (r & q & E & _).
  destruct (fast_result _ _ id3 3 3 _ _ _ _ _ _ (or_introl eq_refl) (Rle_refl 0) eq_refl id3_contract E) as (k & u0 & s0 & v0 & Hk & H & Hst & Sr & Hq & N1 & N0 & A).
  assert (s0 = [1; 1; 1]) as -> by (eapply singular_values_unique; [exact H|exact id3_svd_of]).
  change (thr1 "hard") with hard1 in *.
  assert (HH : forall l, (l < 3)%nat -> hard1 0 (nth l [1; 1; 1] 0) = 1).
  { intros [|[|[|l]]] Hl; cbn [nth]; try lia; rewrite hard1_sv by lra; destruct (Rle_dec 0 1); lra. }
  assert (k = 2%nat) as ->. { destruct Hst as [Hst|Hst]; [|exact Hst]. cbn in Hk. destruct k as [|[|[|k]]]; cbn in Hst; try lia; lra. }
  assert (q = 2%nat) as ->. { destruct q as [|[|[|q]]]; [| |reflexivity|lia]; specialize (N0 1%nat ltac:(lia)); rewrite HH in N0 by lia; lra. }
  exists id3_svds, id3, r, 2%nat. split; [exact id3_contract|]. split; [exact E|]. split; [reflexivity|]. intros Q.
  (* the squared distance to a matrix of rank 2 is at least 1 *)
  assert (D : dist2 3 3 (entry id3) (entry r) = 0) by (apply bsum_0; intros i Hi; apply bsum_0; intros j Hj; rewrite (Q i j Hi Hj); ring).
  assert (RL : rank_le 3 3 2 (entry r)).
  { destruct (lc_rank 3 3 2 (fun l => hard1 0 (nth l [1; 1; 1] 0)) u0 v0) as (e & d & R). exists e, d. intros i j Hi Hj. rewrite <- R by assumption. apply A. }
  destruct id3_svd_of as (L & Ou & Ov & Ps & Ms & EX).
  pose proof (eckart_young 3 3 (entry id3) 3 (fun l => nth l [1; 1; 1] 0) _ _ 2 (entry r) EX Ou Ov Ps Ms RL ltac:(lia)) as EY. rewrite D in EY. cbn in EY. lra.
Qed.
Print Assumptions C83_default_drops_refuted.
Theorem C83_recompute_refuted : exists svds x t z, svds_contract svds 3 3 x /\
  (forall fuel ty, svd_thresh_coef_fast fuel svds x t (Some z) 0 ty = None) /\
  (forall ty, svd_thresh_coef_fast 2 svds x t (Some z) 5 ty = Some (Err ValueError)) /\
  (forall fuel extra ty, svd_thresh_coef_fast fuel svds x t None extra ty = Some (Err TypeError)).
Proof.
  exists id3_svds, id3, (/ 2), 1%Z. split; [exact id3_contract|]. split; [|split].
  - intros fuel ty. apply (C83_never_ends id3_svds id3 3 3); [reflexivity|cbn; lia|change (/ 2 < 1); lra].
  - intros ty. apply (C83_jump_too_far id3_svds id3 3 3); [reflexivity|cbn; lia|change (/ 2 < 1); lra|cbn; lia].
  - intros. eapply C83_none_raises. reflexivity.
Qed.
Print Assumptions C83_recompute_refuted.

Example C83_example : exists r, svd_thresh_coef_fast 1 id3_svds id3 2 (Some (-1)%Z) 5 "hard" = Some (Ok (r, 0%nat)) /\ rank_prox 3 3 2 (entry id3) (entry r) 0.
Proof.
  destruct (C83_default_one_round id3_svds id3 3 3 2 5 "hard" (or_introl eq_refl) ltac:(lra) ltac:(cbn; lia) eq_refl id3_contract) as (r & q & E & _).
  destruct (fast_result _ _ id3 3 3 2 _ _ _ _ _ (or_introl eq_refl) ltac:(lra) eq_refl id3_contract E) as (k & u0 & s0 & v0 & Hk & H & Hst & Sr & Hq & N1 & N0 & A).
  assert (s0 = [1; 1; 1]) as -> by (eapply singular_values_unique; [exact H|exact id3_svd_of]).
  assert (q = 0%nat) as ->.
  { destruct q as [|q]; [reflexivity|]. exfalso. apply (N1 0%nat ltac:(lia)). change (hard1 2 1 = 0). rewrite hard1_sv by lra. destruct (Rle_dec 2 1); lra. }
  exists r. split; [exact E|].
  eapply (C83_hard 1 id3_svds id3 3 3 2 (Some (-1)%Z) 5 r 0 [1; 1; 1]); try exact E; try reflexivity; try lra; [exact id3_contract| |cbn; lra].
  eexists; eexists; exact id3_svd_of.
Qed.

(** * C84: find_n_pc *)

(** It counts the columns whose autocorrelation is spread out. *)
Theorem C84_counts u p k factor : shape u = [(p * p)%nat; k] -> (0 < p)%nat ->
  exists L, NoDup L /\ (forall l, In l L <-> (l < k)%nat /\ spread_out p factor (eigenimage p u l)) /\ find_n_pc u factor = Ok (length L).
Proof.
  intros Su Hp. exists (filter (fun l => spreadb p factor (eigenimage p u l)) (seq 0 k)). split; [apply NoDup_filter, seq_NoDup|]. split.
  - intros l. rewrite filter_In, in_seq, spreadb_true. split; intros [A B]; split; try assumption; lia.
  - apply find_n_pc_spec; assumption.
Qed.
Print Assumptions C84_counts.
Theorem C84_bounds u p k factor factor' : shape u = [(p * p)%nat; k] -> (0 < p)%nat -> factor <= factor' ->
  exists c c', find_n_pc u factor = Ok c /\ find_n_pc u factor' = Ok c' /\ (c <= c' <= k)%nat /\ (1 <= factor' -> c' = k).
Proof.
  intros Su Hp Hf.
  destruct (C84_counts u p k factor Su Hp) as (L & N & I & E). destruct (C84_counts u p k factor' Su Hp) as (L' & N' & I' & E').
  exists (length L), (length L'). split; [exact E|]. split; [exact E'|].
  assert (Up : (length L' <= k)%nat).
  { replace k with (length (seq 0 k)) by apply seq_length. apply NoDup_incl_length; [exact N'|]. intros l Hl. apply I' in Hl. apply in_seq. lia. }
  split; [split; [|exact Up]|].
  - apply NoDup_incl_length; [exact N|]. intros l Hl. apply I in Hl. apply I'. destruct Hl as [A B]. split; [exact A|]. eapply spread_mono; eassumption.
  - intros H1. apply Nat.le_antisymm; [exact Up|]. replace k with (length (seq 0 k)) by apply seq_length.
    apply NoDup_incl_length; [apply seq_NoDup|]. intros l Hl. apply in_seq in Hl. apply I'. split; [lia|]. apply (spread_mono p 1); [exact H1|apply spread_one, Hp].
Qed.
Print Assumptions C84_bounds.
(** Singular vectors are only determined up to their sign; the count does not depend on it. *)
Theorem C84_sign u u' p k factor : shape u = [(p * p)%nat; k] -> shape u' = shape u -> (0 < p)%nat ->
  (forall l, (l < k)%nat -> (forall i, at_ u' [i; l] = at_ u [i; l]) \/ (forall i, at_ u' [i; l] = - at_ u [i; l])) ->
  find_n_pc u' factor = find_n_pc u factor.
Proof.
  intros Su Su' Hp H. rewrite (find_n_pc_spec u p k factor Su Hp), (find_n_pc_spec u' p k factor) by (congruence || exact Hp). do 2 f_equal.
  apply filter_ext_in. intros l Hl. apply in_seq in Hl. apply Bool.eq_true_iff_eq. rewrite !spreadb_true. destruct (H l ltac:(lia)) as [E|E].
  - replace (eigenimage p u' l) with (eigenimage p u l); [reflexivity|]. unfold eigenimage. do 2 (apply FunctionalExtensionality.functional_extensionality; intro). symmetry. apply E.
  - split; apply spread_sign; intros i j _ _; unfold eigenimage; rewrite E; ring.
Qed.
Print Assumptions C84_sign.
Theorem C84_not_square u m k factor : shape u = [m; k] -> (forall p, m <> (p * p)%nat) -> find_n_pc u factor = Err ValueError.
Proof.
  intros Su H. unfold find_n_pc. rewrite Su. destruct (Nat.eqb_spec (Nat.sqrt m * Nat.sqrt m) m) as [E|E]; [|reflexivity]. exfalso. apply (H (Nat.sqrt m)). symmetry. exact E.
Qed.
Print Assumptions C84_not_square.
Example C84_example : find_n_pc (svd_u (one_svd one_x)) (1 / 10) = Ok 0%nat /\ find_n_pc (svd_u (one_svd one_x)) 1 = Ok 1%nat /\ find_n_pc ex_i 1 = Err ValueError.
Proof.
  split; [exact one_n_pc|]. split.
  - destruct (C84_bounds (svd_u (one_svd one_x)) 1 1 1 1 eq_refl ltac:(lia) (Rle_refl 1)) as (c & c' & E & E' & _ & H). rewrite E'. f_equal. apply H. lra.
  - apply (C84_not_square ex_i 2 2); [reflexivity|]. intros [|[|p]]; lia.
Qed.

(** * C85: svd_thresh_coef *)
Theorem C85_not_callable svd x t ty : svd_thresh_coef svd x None t ty = Err TypeError.
Proof. reflexivity. Qed.
Print Assumptions C85_not_callable.

(** The coefficients of component l are thresholded at t times the norm of the operator's image of eigenimage l. *)
Theorem C85_thresholds svd x m n p op ty t oc sh : (ty = "hard" \/ ty = "soft") -> m = (p * p)%nat ->
  svd_result m n x (svd_u (svd x)) (svd_s (svd x)) (svd_v (svd x)) ->
  (forall c, shape c = [Nat.min m n; p; p] ->
     (forall l i j, (l < Nat.min m n)%nat -> (i < p)%nat -> (j < p)%nat -> at_ c [l; i; j] = eigenimage p (svd_u (svd x)) l i j) -> op c = Ok oc) ->
  shape oc = Nat.min m n :: sh ->
  exists r, svd_thresh_coef svd (Ndarray x) (Some op) t ty = Ok r /\ shape r = [m; n] /\
    forall i j, (j < n)%nat -> entry r i j = mixed (Nat.min m n) (fun l i => at_ (svd_u (svd x)) [i; l])
      (fun l j => (if String.eqb ty "hard" then hard1 else soft1) (t * item_norm sh oc l) (nth l (svd_s (svd x)) 0 * at_ (svd_v (svd x)) [l; j])) i j.
Proof. apply coef_spec. Qed.
Print Assumptions C85_thresholds.

(** With soft thresholding the result U A minimises half the squared distance to x plus the weighted l1 norm of
    the coefficients A, over all coefficient matrices A, up to rounding. *)
Theorem C85_soft_minimises svd x m n p op t oc sh : 0 <= t -> m = (p * p)%nat ->
  svd_result m n x (svd_u (svd x)) (svd_s (svd x)) (svd_v (svd x)) ->
  (forall c, shape c = [Nat.min m n; p; p] ->
     (forall l i j, (l < Nat.min m n)%nat -> (i < p)%nat -> (j < p)%nat -> at_ c [l; i; j] = eigenimage p (svd_u (svd x)) l i j) -> op c = Ok oc) ->
  shape oc = Nat.min m n :: sh ->
  exists r A, svd_thresh_coef svd (Ndarray x) (Some op) t "soft" = Ok r /\ shape r = [m; n] /\
    let k := Nat.min m n in let U := fun l i => at_ (svd_u (svd x)) [i; l] in
    let obj := fun A => dist2 m n (entry x) (mixed k U A) / 2 + bsum k (fun l => bsum n (fun j => t * item_norm sh oc l * Rabs (A l j))) in
    (forall B, obj A + dist2 k n B A / 2 <= obj B) /\ dist2 m n (entry r) (mixed k U A) <= INR k * (INR n * (/ 10 ^ 15) ^ 2).
Proof.
  intros Ht Hm Hs Hop Soc. destruct (coef_spec svd x m n p op "soft" t oc sh (or_intror eq_refl) Hm Hs Hop Soc) as (r & E & Sr & Ar).
  set (k := Nat.min m n) in *. set (U := fun l i => at_ (svd_u (svd x)) [i; l]). set (s := svd_s (svd x)) in *. set (tl := fun l => t * item_norm sh oc l).
  assert (Htl : forall l, 0 <= tl l) by (intros l; apply Rmult_le_pos; [exact Ht|apply sqrt_pos]).
  set (A0 := fun l j => nth l s 0 * at_ (svd_v (svd x)) [l; j]). set (A := fun l j => shrink (tl l) (A0 l j)).
  exists r, A. split; [exact E|]. split; [exact Sr|]. cbv zeta.
  destruct Hs as (Sx & Su & Sv & L & Ou & Ov & Ps & Ms & EX). fold s in L, Ou, Ov, EX. rewrite L in Ou, EX. fold k in Ou, EX. fold U in Ou, EX, Ar.
  assert (EX' : mat_eq m n (entry x) (mixed k U A0)).
  { intros i j Hi Hj. rewrite EX by assumption. unfold lc, mixed, A0. apply bsum_ext. intros; ring. }
  assert (DX : forall B, dist2 m n (entry x) (mixed k U B) = dist2 k n A0 B).
  { intros B. rewrite (dist2_ext m n (entry x) (mixed k U A0) _ (mixed k U B) EX') by (intros i j _ _; reflexivity). apply dist2_mixed, Ou. }
  split.
  - intros B. rewrite !DX. unfold dist2, frob, Rdiv. rewrite <- !bsum_scal_r, <- !bsum_plus. apply bsum_le. intros l Hl.
    rewrite <- !bsum_scal_r, <- !bsum_plus. apply bsum_le. intros j Hj. pose proof (shrink_prox (tl l) (A0 l j) (B l j) (Htl l)) as Q.
    fold (A l j) in Q. fold (tl l). set (a := A l j) in *. set (b := B l j) in *. set (z := A0 l j) in *. set (w := tl l) in *. clearbody a b z w. clear -Q. lra.
  - rewrite (dist2_ext m n (entry r) (mixed k U (fun l j => soft1 (tl l) (A0 l j))) _ (mixed k U A)); [|intros i j Hi Hj; apply Ar, Hj|intros i j _ _; reflexivity].
    rewrite dist2_mixed by exact Ou. unfold dist2, frob. rewrite <- bsum_const. apply bsum_le. intros l Hl. rewrite <- bsum_const. apply bsum_le. intros j Hj.
    destruct (soft1_spec (tl l) (A0 l j) (Htl l)) as [Q _]. unfold A. set (d := soft1 _ _ - _) in *. clearbody d.
    replace (d * d) with (Rabs d * Rabs d) by (rewrite <- Rabs_mult; apply Rabs_right; nra). pose proof (Rabs_pos d). set (e := / 10 ^ 15) in *. clearbody e. nra.
Qed.
Print Assumptions C85_soft_minimises.

(** The identity operator gives every component the threshold t. *)
Theorem C85_identity_operator svd x m n p ty t : (ty = "hard" \/ ty = "soft") -> m = (p * p)%nat ->
  svd_result m n x (svd_u (svd x)) (svd_s (svd x)) (svd_v (svd x)) ->
  exists r, svd_thresh_coef svd (Ndarray x) (Some (fun c => Ok c)) t ty = Ok r /\ shape r = [m; n] /\
    forall i j, (j < n)%nat -> entry r i j = mixed (Nat.min m n) (fun l i => at_ (svd_u (svd x)) [i; l])
      (fun l j => (if String.eqb ty "hard" then hard1 else soft1) t (nth l (svd_s (svd x)) 0 * at_ (svd_v (svd x)) [l; j])) i j.
Proof.
  intros Hty Hm Hs. set (k := Nat.min m n).
  destruct Hs as (Sx & Su & Sv & H). pose proof H as (L & Ou & _).
  destruct (matrix2cube_spec (svd_u (svd x)) m k [p; p] Su) as (c & Ec & Sc & Ac); [cbn; lia|].
  destruct (coef_spec svd x m n p (fun _ => Ok c) ty t c [p; p] Hty Hm) as (r & E & Sr & Ar);
    [split; [exact Sx|split; [exact Su|split; [exact Sv|exact H]]]|intros; reflexivity|exact Sc|].
  assert (N : forall l, (l < k)%nat -> item_norm [p; p] c l = 1).
  { intros l Hl. unfold item_norm. cbn [fold_right]. rewrite Nat.mul_1_r.
    replace (bsum (p * p) _) with (dotv m (fun i => at_ (svd_u (svd x)) [i; l]) (fun i => at_ (svd_u (svd x)) [i; l])).
    - rewrite (Ou l l) by (rewrite L; exact Hl). rewrite Nat.eqb_refl. apply sqrt_1.
    - unfold dotv. rewrite <- Hm. apply bsum_ext. intros q Hq. rewrite Ac.
      + rewrite ravel_unravel by (cbn; lia). ring.
      + apply unravel_in_range. cbn. lia.
      + exact Hl. }
  exists r. split.
  - rewrite <- E. unfold svd_thresh_coef. unfold calculate_svd. rewrite Sx. cbn [length Nat.eqb bind].
    destruct (dot2 (diag (svd_s (svd x))) (svd_v (svd x))) as [a|e]; [|reflexivity]. cbn [bind]. rewrite Su. destruct (shape a) as [|k' [|n' [|? ?]]]; try reflexivity.
    replace (Nat.sqrt m) with p by (rewrite Hm; symmetry; apply Nat.sqrt_square). rewrite Ec. reflexivity.
  - split; [exact Sr|]. intros i j Hj. rewrite Ar by exact Hj. apply bsum_ext. intros l Hl. fold k in Hl. rewrite N by exact Hl. rewrite Rmult_1_r. reflexivity.
Qed.
Print Assumptions C85_identity_operator.

(** Shapes: a number of pixels that is not a square, or an operator returning another number of items. *)
Theorem C85_shape_errors svd x m n op t ty : svd_result m n x (svd_u (svd x)) (svd_s (svd x)) (svd_v (svd x)) -> (0 < Nat.min m n)%nat ->
  ((forall p, m <> (p * p)%nat) \/ (forall c, exists oc, op c = Ok oc /\ hd 0%nat (shape oc) <> Nat.min m n)) ->
  svd_thresh_coef svd (Ndarray x) (Some op) t ty = Err ValueError.
Proof.
  intros (Sx & Su & Sv & L & _) Hk H. unfold svd_thresh_coef, calculate_svd. rewrite Sx. cbn [length Nat.eqb bind].
  destruct (dot_diag (svd_s (svd x)) (svd_v (svd x)) _ n Sv L) as (a & Ea & Sa & _). rewrite Ea. cbn [bind]. rewrite Su, Sa.
  destruct (Nat.eq_dec (Nat.sqrt m * Nat.sqrt m) m) as [Q|Q].
  - destruct H as [H|H]; [exfalso; apply (H (Nat.sqrt m)); symmetry; exact Q|].
    destruct (matrix2cube_spec (svd_u (svd x)) m (Nat.min m n) [Nat.sqrt m; Nat.sqrt m] Su) as (c & Ec & _); [cbn; lia|]. rewrite Ec. cbn [bind].
    destruct (H c) as (oc & Eo & Ho). rewrite Eo. cbn [bind]. unfold items. rewrite !map_length, seq_length.
    destruct (Nat.eqb_spec (hd 0%nat (shape oc) * n) (Nat.min m n * n)) as [W|W]; [|reflexivity]. exfalso. apply Ho. nia.
  - unfold matrix2cube. rewrite Su. cbn [nth_error]. unfold reshape, transpose. cbn [shape]. rewrite Su. cbn [rev app prod fold_right].
    destruct (Nat.eqb_spec (Nat.min m n * (m * 1)) (Nat.min m n * (Nat.sqrt m * (Nat.sqrt m * 1)))) as [W|W]; [|reflexivity]. exfalso. apply Q. nia.
Qed.
Print Assumptions C85_shape_errors.

Example C85_example : exists r, svd_thresh_coef one_svd (Ndarray one_x) (Some (fun c => Ok c)) 2 "soft" = Ok r /\ entry r 0%nat 0%nat = 3.
Proof.
  destruct (C85_identity_operator one_svd one_x 1 1 1 "soft" 2 (or_intror eq_refl) eq_refl one_svd_ok) as (r & E & _ & A). exists r. split; [exact E|].
  rewrite A by lia. unfold mixed. cbn [Nat.min bsum one_svd svd_s svd_u svd_v nth at_ String.eqb Ascii.eqb Bool.eqb]. change (if String.eqb "soft" "hard" then hard1 else soft1) with soft1.
  rewrite (ex_soft 2 (5 * 1)); [lra|lra|exists 3%Z; lra|lra].
Qed.

(** * C86: LowRankMatrix *)
Theorem C86_invalid_type fuel svd svds p x f rank : lr_lowr p <> "standard" -> lr_lowr p <> "ngole" -> low_rank_op fuel svd svds p x f rank = Some (Err ValueError).
Proof. intros H1 H2. unfold low_rank_op. rewrite (proj2 (String.eqb_neq _ _) H1), (proj2 (String.eqb_neq _ _) H2). reflexivity. Qed.
Print Assumptions C86_invalid_type.

(** With a rank estimate (an argument or a stored one) the result is still the proximity operator, when the call
    returns and the smallest singular value does not exceed the threshold; the estimate for the next call
    bounds the rank of the result. *)
Theorem C86_rank_estimate fuel svd svds p x n sh f rank C k s : shape x = n :: sh ->
  lr_lowr p = "standard" -> lr_type p = "soft" -> (lr_rank p <> None \/ rank <> None) -> 0 <= lr_thresh p * f ->
  (forall M, cube2matrix x = Ok M -> svds_contract svds (prod sh) n M /\ singular_values (prod sh) n M s) ->
  nth (Nat.min (prod sh) n - 1) s 0 <= lr_thresh p * f ->
  low_rank_op fuel svd svds p x f rank = Some (Ok (C, k)) ->
  shape C = shape x /\ (exists q, k = Some (Z.of_nat q) /\ rank_le (prod sh) n q (pixel_matrix sh C)) /\
  exists P, nuclear_prox (prod sh) n (lr_thresh p * f) (pixel_matrix sh x) P /\
    dist2 (prod sh) n (pixel_matrix sh C) P <= INR (Nat.min (prod sh) n) * (/ 10 ^ 15) ^ 2.
Proof.
  intros Sx El Et Hr Ht Hs Hmin E. destruct (pixel_bridge x n sh Sx) as (M & EM & SM & AM). destruct (Hs M EM) as [Hc Hsv].
  assert (F : exists r q, svd_thresh_coef_fast fuel svds M (lr_thresh p * f) (py_or rank (lr_rank p)) 5 "soft" = Some (Ok (r, q)) /\
     matrix2cube r sh = Ok C /\ k = Some (Z.of_nat q)).
  { unfold low_rank_op in E. rewrite El, Et, Sx in E. change (String.eqb "standard" "standard") with true in E. cbv iota in E. rewrite EM in E. cbn [tl] in E.
    assert (E' : match svd_thresh_coef_fast fuel svds M (lr_thresh p * f) (py_or rank (lr_rank p)) 5 "soft" with None => None
       | Some r => Some (do r <- r; do c <- matrix2cube (fst (fst r, Some (Z.of_nat (snd r)))) sh; Ok (c, snd (fst r, Some (Z.of_nat (snd r))))) end = Some (Ok (C, k))).
    { destruct (lr_rank p), rank; try exact E. exfalso. destruct Hr as [Hr|Hr]; apply Hr; reflexivity. }
    clear E. destruct (svd_thresh_coef_fast fuel svds M (lr_thresh p * f) (py_or rank (lr_rank p)) 5 "soft") as [[[r q]|e]|]; try discriminate. cbn [bind fst snd] in E'.
    destruct (matrix2cube r sh) as [c|e] eqn:Q; [|discriminate]. cbn [bind] in E'. injection E' as <- <-. exists r, q. auto. }
  destruct F as (r & q & F & EC & ->).
  destruct (C83_soft _ _ _ _ _ _ _ _ _ _ _ Ht SM Hc Hsv Hmin F) as (Sr & RL & P & NP & D).
  destruct (cube_bridge r n sh Sr) as (C' & EC' & SC & AC). rewrite EC in EC'. injection EC' as <-.
  split; [congruence|]. split.
  - exists q. split; [reflexivity|]. destruct RL as (e & d & R). exists e, d. intros i j Hi Hj. rewrite AC by assumption. apply R; assumption.
  - exists P. split; [apply (nuclear_prox_ext (prod sh) n _ (entry M) _ P P AM); [intros i j _ _; reflexivity|exact NP]|].
    rewrite (dist2_ext _ _ _ (entry r) P P AC) by (intros i j _ _; reflexivity). exact D.
Qed.
Print Assumptions C86_rank_estimate.

(** In "ngole" mode with soft thresholding the images that come back minimise half the
    squared distance to the input plus the weighted l1 norm of their coefficients, up to rounding; the stored rank is unchanged. *)
Theorem C86_ngole fuel svd svds p x n sh w f rank op oc sh' M : shape x = n :: sh -> prod sh = (w * w)%nat ->
  lr_lowr p = "ngole" -> lr_type p = "soft" -> lr_op p = Some op -> 0 <= lr_thresh p * f ->
  cube2matrix x = Ok M -> svd_result (prod sh) n M (svd_u (svd M)) (svd_s (svd M)) (svd_v (svd M)) ->
  (forall c, shape c = [Nat.min (prod sh) n; w; w] ->
     (forall l i j, (l < Nat.min (prod sh) n)%nat -> (i < w)%nat -> (j < w)%nat -> at_ c [l; i; j] = eigenimage w (svd_u (svd M)) l i j) -> op c = Ok oc) ->
  shape oc = Nat.min (prod sh) n :: sh' ->
  exists C A, low_rank_op fuel svd svds p x f rank = Some (Ok (C, lr_rank p)) /\ shape C = shape x /\
    let k := Nat.min (prod sh) n in let U := fun l i => at_ (svd_u (svd M)) [i; l] in
    let obj := fun A => dist2 (prod sh) n (pixel_matrix sh x) (mixed k U A) / 2 + bsum k (fun l => bsum n (fun j => lr_thresh p * f * item_norm sh' oc l * Rabs (A l j))) in
    (forall B, obj A + dist2 k n B A / 2 <= obj B) /\ dist2 (prod sh) n (pixel_matrix sh C) (mixed k U A) <= INR k * (INR n * (/ 10 ^ 15) ^ 2).
Proof.
  intros Sx Hp El Et Eo Ht EM Hs Hop Soc. destruct (pixel_bridge x n sh Sx) as (M' & EM' & SM & AM). rewrite EM in EM'. injection EM' as <-.
  destruct (C85_soft_minimises svd M (prod sh) n w op (lr_thresh p * f) oc sh' Ht Hp Hs Hop Soc) as (r & A & E & Sr & Hmin & D).
  destruct (cube_bridge r n sh Sr) as (C & EC & SC & AC).
  exists C, A. split; [|split; [congruence|]].
  - unfold low_rank_op. rewrite El. change (String.eqb "ngole" "standard") with false. change (String.eqb "ngole" "ngole") with true. cbv iota. rewrite EM, Eo, Et. cbn [bind].
    rewrite E. cbn [bind fst snd]. rewrite Sx. cbn [tl]. rewrite EC. reflexivity.
  - cbv zeta in *. split.
    + intros B. specialize (Hmin B).
      assert (Q : forall Y, dist2 (prod sh) n (pixel_matrix sh x) Y = dist2 (prod sh) n (entry M) Y) by (intros Y; apply dist2_ext; [intros i j Hi Hj; symmetry; apply AM; assumption|intros i j _ _; reflexivity]).
      rewrite !Q. exact Hmin.
    + rewrite (dist2_ext _ _ _ (entry r) _ (mixed (Nat.min (prod sh) n) (fun l i => at_ (svd_u (svd M)) [i; l]) A) AC) by (intros i j _ _; reflexivity). exact D.
Qed.
Print Assumptions C86_ngole.

(** A stored rank of 0 makes every later call without a rank argument fail; rank=0 without a stored rank is a TypeError. *)
Theorem C86_zero_rank_fails fuel svd svds p x n sh f rank : shape x = n :: sh -> lr_lowr p = "standard" -> (0 < fuel)%nat ->
  (lr_rank p = Some 0%Z -> rank = None \/ rank = Some 0%Z -> low_rank_op fuel svd svds p x f rank = Some (Err ValueError)) /\
  (lr_rank p = None -> rank = Some 0%Z -> low_rank_op fuel svd svds p x f rank = Some (Err TypeError)).
Proof.
  intros Sx El Hf. destruct (pixel_bridge x n sh Sx) as (M & EM & SM & _). destruct fuel as [|fuel]; [lia|]. split.
  - intros Er Hr. unfold low_rank_op. rewrite El, Er. change (String.eqb "standard" "standard") with true. cbv iota. rewrite EM.
    replace (py_or rank (Some 0%Z)) with (Some 0%Z) by (destruct Hr as [-> | ->]; reflexivity).
    unfold svd_thresh_coef_fast. rewrite SM. cbn [Z.eqb fast_loop]. unfold svds_checked. rewrite SM. cbn [Z.ltb Z.compare andb]. reflexivity.
  - intros Er ->. unfold low_rank_op. rewrite El, Er. change (String.eqb "standard" "standard") with true. cbv iota. rewrite EM. cbn [py_or].
    unfold svd_thresh_coef_fast. rewrite SM. reflexivity.
Qed.
Print Assumptions C86_zero_rank_fails.

(** So calling op twice on the same data can fail the second time: the cube of three unit images. *)
Theorem C86_second_call_refuted : exists svd svds p x C k, (forall M, cube2matrix x = Ok M -> svds_contract svds 3 3 M) /\ lr_rank p = Some 1%Z /\
  low_rank_op 1 svd svds p x 1 None = Some (Ok (C, k)) /\
  forall fuel, low_rank_op (S fuel) svd svds (mk_low_rank (lr_thresh p) (lr_type p) (lr_lowr p) k (lr_op p)) x 1 None = Some (Err ValueError).
Proof.
  destruct (pixel_bridge id3 3 [3%nat] eq_refl) as (M & EM & SM & AM).
  assert (EI : mat_eq 3 3 (entry id3) (entry M)).
  { intros i j Hi Hj. symmetry. rewrite AM by assumption. unfold pixel_matrix, entry, id3. cbn [at_ nth unravel prod fold_right]. rewrite Nat.div_1_r, Nat.eqb_sym. reflexivity. }
  assert (HM : svds_contract (fun _ => id3_svds id3) 3 3 M).
  { intros k Hk. destruct (id3_contract k Hk) as (u0 & s0 & v0 & Hs). exists u0, s0, v0. destruct Hs as (Sx & Su & Sv & H & Lk & Al).
    split; [exact SM|]. split; [exact Su|]. split; [exact Sv|]. split; [|split; assumption]. eapply svd_of_ext; [|exact H]. exact EI. }
  set (svds := fun (_ : nda R) => id3_svds id3) in *.
  assert (HS : singular_values 3 3 M [1; 1; 1]) by (eexists; eexists; eapply svd_of_ext; [exact EI|exact id3_svd_of]).
  destruct (C83_good_estimate_one_round svds M 3 3 2 1 5 "hard" [1; 1; 1] (or_introl eq_refl) ltac:(lra) ltac:(cbn; lia) SM HM HS ltac:(cbn; lra)) as (r & q & E & _).
  destruct (fast_result _ _ M 3 3 2 _ _ _ _ _ (or_introl eq_refl) ltac:(lra) SM HM E) as (k & u0 & s0 & v0 & Hk & H & Hst & Sr & Hq & N1 & N0 & A).
  assert (s0 = [1; 1; 1]) as -> by (destruct HS as (u & v & HS); eapply singular_values_unique; eassumption).
  assert (q = 0%nat) as ->.
  { destruct q as [|q]; [reflexivity|]. exfalso. apply (N1 0%nat ltac:(lia)). change (hard1 2 1 = 0). rewrite hard1_sv by lra. destruct (Rle_dec 2 1); lra. }
  destruct (cube_bridge r 3 [3%nat] Sr) as (C & EC & SC & _).
  exists ex_svd, svds, (mk_low_rank 2 "hard" "standard" (Some 1%Z) None), id3, C, (Some 0%Z). split; [|split; [reflexivity|split]].
  - intros M' EM'. rewrite EM in EM'. injection EM' as <-. exact HM.
  - unfold low_rank_op. cbn [lr_thresh lr_lowr lr_rank lr_type]. change (String.eqb "standard" "standard") with true. cbv iota. rewrite EM. cbn [py_or]. rewrite Rmult_1_r.
    change (Some 1%Z) with (Some (Z.of_nat 1)). rewrite E. cbn [bind fst snd]. change (tl (shape id3)) with [3%nat]. rewrite EC. reflexivity.
  - intros fuel. apply (C86_zero_rank_fails (S fuel) ex_svd svds _ id3 3 [3%nat] 1 None); try reflexivity; [lia|left; reflexivity].
Qed.
Print Assumptions C86_second_call_refuted.

Example C86_example : forall svds, low_rank_op 1 ex_svd svds (mk_low_rank 1 "soft" "other" None None) ex_x 1 None = Some (Err ValueError) /\
  low_rank_op 1 ex_svd svds (mk_low_rank 1 "soft" "standard" None None) ex_x 1 (Some 0%Z) = Some (Err TypeError) /\
  low_rank_op 1 ex_svd svds (mk_low_rank 1 "soft" "ngole" None None) ex_x 1 None = Some (Err TypeError).
Proof. intros svds. repeat split; reflexivity. Qed.
