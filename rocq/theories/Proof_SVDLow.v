(** Lemmas for svd_thresh_coef, LowRankMatrix and the nuclear norm. *)
From Coq Require Import String.
From Verif Require Import NPReal Py IPS Model_Array Proof_Array Model_Transform Proof_Transform Model_Signal Model_Linear Model_SVD Spec_Prox Proof_Cost Proof_Prox Spec_SVD Proof_SVD Proof_SVDModel Proof_SVDMore.
From Coq Require Import List Lia.
Import ListNotations.
Local Open Scope string_scope.
Local Open Scope R_scope.

Lemma dist2_mixed m n k u A B : orthonormal m k u -> dist2 m n (mixed k u A) (mixed k u B) = dist2 k n A B.
Proof.
  intros O. unfold dist2, frob. rewrite (bsum_swap m n), (bsum_swap k n). apply bsum_ext. intros j _.
  transitivity (dotv m (fun i => bsum k (fun l => (A l j - B l j) * u l i)) (fun i => bsum k (fun l => (A l j - B l j) * u l i))).
  - apply bsum_ext. intros i _. unfold mixed. rewrite <- bsum_minus.
    rewrite (bsum_ext k (fun l => u l i * A l j - u l i * B l j) (fun l => (A l j - B l j) * u l i)) by (intros; ring). reflexivity.
  - apply dotv_ON, O.
Qed.

Lemma pixel_bridge x n sh : shape x = n :: sh -> exists M, cube2matrix x = Ok M /\ shape M = [prod sh; n] /\ mat_eq (prod sh) n (entry M) (pixel_matrix sh x).
Proof.
  intros Sx. destruct (cube2matrix_spec x n sh Sx) as (M & E & SM & A). exists M. split; [exact E|]. split; [exact SM|].
  intros p i Hp _. apply A, Hp.
Qed.
Lemma cube_bridge r n sh : shape r = [prod sh; n] -> exists C, matrix2cube r sh = Ok C /\ shape C = n :: sh /\ mat_eq (prod sh) n (pixel_matrix sh C) (entry r).
Proof.
  intros Sr. destruct (matrix2cube_spec r (prod sh) n sh Sr eq_refl) as (C & E & SC & A). exists C. split; [exact E|]. split; [exact SC|].
  intros p i Hp Hi. unfold pixel_matrix, entry. rewrite A by (try apply unravel_in_range; assumption). rewrite ravel_unravel by exact Hp. reflexivity.
Qed.
Lemma svd_of_ext m n X X' u s v : mat_eq m n X X' -> svd_of m n X u s v -> svd_of m n X' u s v.
Proof.
  intros EX (L & Ou & Ov & P & M & E). repeat split; try assumption. intros i j Hi Hj. rewrite <- EX by assumption. apply E; assumption.
Qed.

(** * Nuclear norm *)
Lemma nuclear_nonneg m n X c : is_nuclear m n X c -> 0 <= c.
Proof.
  intros [U _]. apply U. exists (fun _ _ => 0). split.
  - intros x y _ _. unfold bil. rewrite bsum_0; [lra|]. intros. apply bsum_0. intros. ring.
  - symmetry. apply bsum_0. intros. apply bsum_0. intros. ring.
Qed.
Lemma nuclear_triangle m n A B a b c : is_nuclear m n A a -> is_nuclear m n B b -> is_nuclear m n (fun i j => A i j + B i j) c -> c <= a + b.
Proof.
  intros [Ua _] [Ub _] [_ Lc]. apply Lc. intros r (W & CW & ->). rewrite frob_add_l.
  apply Rplus_le_compat; [apply Ua|apply Ub]; exists W; split; auto.
Qed.
Lemma contraction_neg m n W : contraction m n W -> contraction m n (fun i j => - W i j).
Proof.
  intros C x y Hx Hy. replace (bil m n x (fun i j => - W i j) y) with (bil m n (fun i => - x i) W y).
  - apply C; [|exact Hy]. replace (dotv m (fun i => - x i) (fun i => - x i)) with (dotv m x x); [exact Hx|]. apply bsum_ext. intros; ring.
  - apply bsum_ext. intros i _. apply bsum_ext. intros; ring.
Qed.
Lemma frob_neg_r m n A W : frob m n A (fun i j => - W i j) = - frob m n A W.
Proof.
  replace (- frob m n A W) with (-1 * frob m n A W) by ring. rewrite <- frob_scal_l. apply bsum_ext. intros i _. apply bsum_ext. intros; ring.
Qed.
Lemma nuclear_scale m n A a q : is_nuclear m n A a -> is_nuclear m n (fun i j => q * A i j) (Rabs q * a).
Proof.
  intros [U L]. split.
  - intros r (W & CW & ->). rewrite frob_scal_l. unfold Rabs. destruct (Rcase_abs q) as [N|N].
    + assert (- frob m n A W <= a); [|nra]. rewrite <- frob_neg_r. apply U. exists (fun i j => - W i j). split; [apply contraction_neg, CW|reflexivity].
    + assert (frob m n A W <= a); [|nra]. apply U. exists W. auto.
  - intros b Hb. destruct (Req_dec q 0) as [->|N].
    + rewrite Rabs_R0, Rmult_0_l. apply Hb. exists (fun _ _ => 0). split.
      * intros x y _ _. unfold bil. rewrite bsum_0; [lra|]. intros. apply bsum_0. intros. ring.
      * symmetry. apply bsum_0. intros. apply bsum_0. intros. ring.
    + assert (P : 0 < Rabs q) by (apply Rabs_pos_lt, N). apply (Rmult_le_reg_l (/ Rabs q)); [apply Rinv_0_lt_compat, P|].
      rewrite <- Rmult_assoc, Rinv_l, Rmult_1_l by lra. apply L. intros r (W & CW & ->).
      apply (Rmult_le_reg_l (Rabs q)); [exact P|]. rewrite <- Rmult_assoc, Rinv_r, Rmult_1_l by lra.
      apply Hb. unfold Rabs. destruct (Rcase_abs q).
      * exists (fun i j => - W i j). split; [apply contraction_neg, CW|]. rewrite frob_scal_l, frob_neg_r. ring.
      * exists W. split; [exact CW|]. rewrite frob_scal_l. ring.
Qed.
Lemma nuclear_ext m n X X' c : mat_eq m n X X' -> is_nuclear m n X c -> is_nuclear m n X' c.
Proof.
  intros EX [U L]. split.
  - intros r (W & CW & ->). apply U. exists W. split; [exact CW|]. apply frob_ext; [|intros i j _ _; reflexivity]. intros i j Hi Hj. symmetry. apply EX; assumption.
  - intros b Hb. apply L. intros r (W & CW & ->). apply Hb. exists W. split; [exact CW|]. apply frob_ext; [exact EX|intros i j _ _; reflexivity].
Qed.
Lemma bsum_sq_ge k s : (forall l, (l < k)%nat -> 0 <= s l) -> bsum k (fun l => s l * s l) <= bsum k s ^ 2.
Proof.
  induction k as [|k IH]; intros P; [cbn; lra|]. cbn [bsum]. specialize (IH ltac:(intros; apply P; lia)). pose proof (P k ltac:(lia)).
  assert (0 <= bsum k s) by (apply bsum_nonneg; intros; apply P; lia). nra.
Qed.
Lemma bsum_cauchy k s : bsum k s ^ 2 <= INR k * bsum k (fun l => s l * s l).
Proof.
  induction k as [|k IH]; [cbn; lra|]. rewrite S_INR. cbn [bsum].
  assert (E : 2 * s k * bsum k s <= bsum k (fun l => s l * s l) + INR k * (s k * s k)).
  { rewrite <- bsum_const, <- bsum_plus, <- bsum_scal. apply bsum_le. intros l _. pose proof (Rle_0_sqr (s k - s l)) as Q. unfold Rsqr in Q. nra. }
  nra.
Qed.
Lemma frob_svd m n X u s v : svd_of m n X u s v -> frob m n X X = bsum (length s) (fun l => nth l s 0 * nth l s 0).
Proof.
  intros (L & Ou & Ov & P & M & E). rewrite (frob_ext m n X (lc (length s) (fun l => nth l s 0) u v) X (lc (length s) (fun l => nth l s 0) u v) E E). apply frob_ON; assumption.
Qed.
Lemma nuclear_prox_unique m n t X P P' : nuclear_prox m n t X P -> nuclear_prox m n t X P' -> mat_eq m n P P'.
Proof.
  intros (c & N & H) (c' & N' & H'). apply dist2_zero. specialize (H P' c' N'). specialize (H' P c N).
  pose proof (dist2_nonneg m n P P'). rewrite (dist2_sym m n P' P) in *. lra.
Qed.
Lemma dist2_triangle m n A B C e f : dist2 m n A B <= e -> dist2 m n B C <= f -> dist2 m n A C <= 2 * e + 2 * f.
Proof.
  intros H1 H2. apply Rle_trans with (2 * dist2 m n A B + 2 * dist2 m n B C); [|lra]. unfold dist2, frob.
  rewrite <- !bsum_scal, <- bsum_plus. apply bsum_le. intros i _. rewrite <- !bsum_scal, <- bsum_plus. apply bsum_le. intros j _.
  pose proof (Rle_0_sqr ((A i j - B i j) - (B i j - C i j))) as Q. unfold Rsqr in Q. nra.
Qed.

(** * svd_thresh_coef *)
Lemma arr_norm_item sh a l : shape a <> [] -> tl (shape a) = sh -> arr_norm (sub0 a l) = item_norm sh a l.
Proof.
  intros _ E. unfold arr_norm, item_norm, flat, sub0. cbn [shape at_]. rewrite E, map_map, rsum_seq. f_equal. apply bsum_ext. intros; ring.
Qed.
Lemma nth_map_seq' {A} (f : nat -> A) k l d : (l < k)%nat -> nth l (map f (seq 0 k)) d = f l.
Proof. intros H. rewrite (nth_indep _ d (f 0%nat)) by (rewrite map_length, seq_length; exact H). rewrite map_nth, seq_nth by exact H. reflexivity. Qed.

Lemma coef_spec svd x m n p op ty t oc sh : (ty = "hard" \/ ty = "soft") -> m = (p * p)%nat ->
  svd_result m n x (svd_u (svd x)) (svd_s (svd x)) (svd_v (svd x)) ->
  (forall c, shape c = [Nat.min m n; p; p] ->
     (forall l i j, (l < Nat.min m n)%nat -> (i < p)%nat -> (j < p)%nat -> at_ c [l; i; j] = eigenimage p (svd_u (svd x)) l i j) -> op c = Ok oc) ->
  shape oc = Nat.min m n :: sh ->
  exists r, svd_thresh_coef svd (Ndarray x) (Some op) t ty = Ok r /\ shape r = [m; n] /\
    forall i j, (j < n)%nat -> entry r i j = mixed (Nat.min m n) (fun l i => at_ (svd_u (svd x)) [i; l])
      (fun l j => thr1 ty (t * item_norm sh oc l) (nth l (svd_s (svd x)) 0 * at_ (svd_v (svd x)) [l; j])) i j.
Proof.
  intros Hty Hm (Sx & Su & Sv & (Ls & Hsvd)) Hop Soc. unfold svd_thresh_coef, calculate_svd. rewrite Sx. cbn [length Nat.eqb bind].
  set (o := svd x) in *. set (k := Nat.min m n) in *.
  destruct (dot_diag (svd_s o) (svd_v o) k n Sv Ls) as (a & Ea & Sa & Aa). rewrite Ea. cbn [bind]. rewrite Su, Sa.
  assert (Sq : Nat.sqrt m = p) by (rewrite Hm; apply Nat.sqrt_square). rewrite Sq.
  destruct (matrix2cube_spec (svd_u o) m k [p; p] Su) as (c & Ec & Sc & Ac); [cbn; lia|]. rewrite Ec. cbn [bind].
  rewrite (Hop c Sc).
  2:{ intros l i j Hl Hi Hj. rewrite Ac by (cbn; auto). unfold eigenimage. cbn [ravel prod fold_right]. repeat f_equal; lia. }
  cbn [bind]. unfold items. rewrite Soc. cbn [hd]. rewrite map_map, map_length, seq_length, Nat.eqb_refl. cbn [negb].
  rewrite (mapM_ok _ (fun l => map (thr1 ty (t * item_norm sh oc l)) (map (fun j => at_ a [l; j]) (seq 0 n)))).
  2:{ intros l Hl. apply in_seq in Hl. rewrite (thresh_scalar _ _ _ Hty). rewrite nth_map_seq' by lia. rewrite (arr_norm_item sh) by (rewrite Soc; (discriminate || reflexivity)). reflexivity. }
  cbn [bind].
  match goal with |- context [dot2 (svd_u o) ?A] => destruct (dot_any (svd_u o) A m k n Su eq_refl) as (r & Er & Sr & Ar) end.
  rewrite Er. exists r. split; [reflexivity|]. split; [exact Sr|]. intros i j Hj. unfold entry, mixed. rewrite Ar. apply bsum_ext. intros l Hl. cbn [at_ nth].
  rewrite nth_map_seq' by exact Hl. rewrite map_map, nth_map_seq' by exact Hj. rewrite Aa by exact Hl. reflexivity.
Qed.
