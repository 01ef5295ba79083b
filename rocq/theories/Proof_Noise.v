(** Sums over multi-indices; the transpose test. *)
From Coq Require Import String.
From Verif Require Import NPReal Py Model_Array Proof_Array Model_Noise Spec_Noise.
From Coq Require Import Lia.
Import List ListNotations.
Local Open Scope R_scope.

Lemma upto_ext n f g : (forall i, (i < n)%nat -> f i = g i) -> upto n f = upto n g.
Proof. induction n as [|n IH]; intros H; cbn; [reflexivity|]. rewrite IH by (intros; apply H; lia). rewrite H by lia. reflexivity. Qed.
Lemma upto_lin n a b f g : upto n (fun i => a * f i + b * g i) = a * upto n f + b * upto n g.
Proof. induction n as [|n IH]; cbn; [ring|]. rewrite IH. ring. Qed.
Lemma upto_nonneg n f : (forall i, (i < n)%nat -> 0 <= f i) -> 0 <= upto n f.
Proof. induction n as [|n IH]; intros H; cbn; [lra|]. pose proof (IH ltac:(intros; apply H; lia)). pose proof (H n ltac:(lia)). lra. Qed.
Lemma upto_term n f i : (forall i, (i < n)%nat -> 0 <= f i) -> (i < n)%nat -> f i <= upto n f.
Proof.
  induction n as [|n IH]; intros H Hi; [lia|]. cbn. pose proof (upto_nonneg n f ltac:(intros; apply H; lia)). pose proof (H n ltac:(lia)).
  destruct (Nat.eq_dec i n) as [->|N]; [lra|]. pose proof (IH ltac:(intros; apply H; lia) ltac:(lia)). lra.
Qed.
Lemma upto_add n m f : upto (n + m) f = upto n f + upto m (fun i => f (n + i)%nat).
Proof. induction m as [|m IH]; [rewrite Nat.add_0_r; cbn; ring|]. rewrite Nat.add_succ_r. cbn. rewrite IH. ring. Qed.
Lemma upto_grid d p f : upto (d * p) f = upto d (fun i => upto p (fun j => f (i * p + j)%nat)).
Proof. induction d as [|d IH]; [reflexivity|]. cbn [upto]. rewrite <- IH. rewrite <- upto_add. f_equal. lia. Qed.

Lemma over_ext s f g : (forall idx, in_range s idx -> f idx = g idx) -> over s f = over s g.
Proof.
  revert f g. induction s as [|d s IH]; intros f g H; cbn; [apply H; exact I|].
  apply upto_ext. intros i Hi. apply IH. intros idx R. apply H. cbn. split; assumption.
Qed.
Lemma over_lin s a b f g : over s (fun idx => a * f idx + b * g idx) = a * over s f + b * over s g.
Proof.
  revert f g. induction s as [|d s IH]; intros f g; cbn; [reflexivity|].
  rewrite <- upto_lin. apply upto_ext. intros i _. apply IH.
Qed.
Lemma over_nonneg s f : (forall idx, in_range s idx -> 0 <= f idx) -> 0 <= over s f.
Proof.
  revert f. induction s as [|d s IH]; intros f H; cbn; [apply H; exact I|].
  apply upto_nonneg. intros i Hi. apply IH. intros idx R. apply H. cbn. split; assumption.
Qed.
Lemma over_term s f idx : (forall idx, in_range s idx -> 0 <= f idx) -> in_range s idx -> f idx <= over s f.
Proof.
  revert f idx. induction s as [|d s IH]; intros f [|i idx] H R; cbn in R; try contradiction; cbn; [lra|].
  destruct R as [Hi R]. eapply Rle_trans; [|apply (upto_term d (fun i => over s (fun idx => f (i :: idx))) i)].
  - apply (IH (fun idx => f (i :: idx)) idx); [|exact R]. intros. apply H. cbn. split; assumption.
  - intros j Hj. apply over_nonneg. intros. apply H. cbn. split; assumption.
  - exact Hi.
Qed.

Lemma fold_seq n f : fold_right Rplus 0 (map f (seq 0 n)) = upto n f.
Proof.
  assert (A : forall l c, fold_right Rplus c l = fold_right Rplus 0 l + c).
  { induction l as [|a l IHl]; intros c; cbn; [ring|]. rewrite IHl. ring. }
  induction n as [|n IH]; [reflexivity|]. rewrite seq_S, map_app, fold_right_app, A, IH. cbn. ring.
Qed.

Lemma flat_over s f : upto (prod s) (fun p => f (unravel s p)) = over s f.
Proof.
  revert f. induction s as [|d s IH]; intros f; [cbn; ring|].
  rewrite prod_cons, upto_grid. cbn [over]. apply upto_ext. intros i Hi. rewrite <- IH. apply upto_ext. intros j Hj.
  cbn [unravel]. f_equal. f_equal.
  - rewrite Nat.add_comm, Nat.div_add by lia. rewrite Nat.div_small by lia. reflexivity.
  - f_equal. rewrite Nat.add_comm, Nat.mod_add by lia. apply Nat.mod_small. lia.
Qed.

Lemma np_sum_over a : np_sum a = over (shape a) (at_ a).
Proof. unfold np_sum, ravelled. rewrite fold_seq. apply flat_over. Qed.

Lemma list_nat_eqb_refl s : list_nat_eqb s s = true.
Proof. unfold list_nat_eqb. destruct (list_eq_dec Nat.eq_dec s s); [reflexivity|contradiction]. Qed.

Lemma multiply_ok a b : shape a = shape b -> multiply a b = Ok (mk_nda (shape a) (fun idx => at_ a idx * at_ b idx)).
Proof. intros E. unfold multiply. rewrite <- E, list_nat_eqb_refl. reflexivity. Qed.

Lemma transpose_test_value {Args} random (op op_t : nda R -> option Args -> nda R) s t xa ya :
  shape (random 0%nat s) = s -> shape (random 1%nat t) = t ->
  shape (op (random 0%nat s) xa) = t -> shape (op_t (random 1%nat t) (match ya with None => xa | Some a => Some a end)) = s ->
  transpose_test random (Callable op) (Callable op_t) s xa (Some t) ya
  = Ok (Rabs (dot_arr t (op (random 0%nat s) xa) (random 1%nat t) - dot_arr s (random 0%nat s) (op_t (random 1%nat t) (match ya with None => xa | Some a => Some a end)))).
Proof.
  intros E1 E2 E3 E4. unfold transpose_test. cbv zeta. rewrite multiply_ok by congruence. cbn [bind]. rewrite multiply_ok by congruence. cbn [bind].
  rewrite !np_sum_over. cbn [shape at_]. rewrite E3, E1. reflexivity.
Qed.

(** A bilinear form that vanishes on the unit cube vanishes. *)
Lemma dot_comm s a b : dot_arr s a b = dot_arr s b a.
Proof. apply over_ext. intros. ring. Qed.
Lemma dot_lin s c d a b z e : (forall idx, in_range s idx -> at_ z idx = c * at_ a idx + d * at_ b idx) ->
  dot_arr s z e = c * dot_arr s a e + d * dot_arr s b e.
Proof. intros H. unfold dot_arr. rewrite <- over_lin. apply over_ext. intros idx R. rewrite (H idx R). ring. Qed.

Lemma unit_parts s x : shape x = s -> exists K p q, shape p = s /\ shape q = s /\ unit_interval p /\ unit_interval q /\
  forall idx, in_range s idx -> at_ x idx = K * at_ p idx + - K * at_ q idx.
Proof.
  intros E. set (K := 1 + over s (fun idx => Rabs (at_ x idx))).
  assert (B : forall idx, in_range s idx -> Rabs (at_ x idx) < K).
  { intros idx R. pose proof (over_term s (fun idx => Rabs (at_ x idx)) idx ltac:(intros; apply Rabs_pos) R) as Q. cbv beta in Q. unfold K. lra. }
  assert (PK : 0 < K). { unfold K. pose proof (over_nonneg s (fun idx => Rabs (at_ x idx)) ltac:(intros; apply Rabs_pos)). lra. }
  assert (IK : 0 < / K) by (apply Rinv_0_lt_compat; exact PK).
  assert (U : forall v, v < K -> 0 <= Rmax v 0 / K < 1).
  { intros v Hv. split; [apply Rmult_le_pos; [apply Rmax_r|lra]|]. apply (Rmult_lt_reg_r K); [exact PK|]. unfold Rdiv. rewrite Rmult_assoc, Rinv_l, Rmult_1_r, Rmult_1_l by lra.
    unfold Rmax. destruct (Rle_dec v 0); lra. }
  exists K, (mk_nda s (fun idx => Rmax (at_ x idx) 0 / K)), (mk_nda s (fun idx => Rmax (- at_ x idx) 0 / K)).
  split; [reflexivity|]. split; [reflexivity|]. split; [|split].
  - intros idx R. cbn in *. apply U. pose proof (B idx R). pose proof (Rle_abs (at_ x idx)). lra.
  - intros idx R. cbn in *. apply U. pose proof (B idx R). pose proof (Rle_abs (- at_ x idx)) as Q. rewrite Rabs_Ropp in Q. lra.
  - intros idx _. cbn. unfold Rmax. destruct (Rle_dec (at_ x idx) 0), (Rle_dec (- at_ x idx) 0); try (exfalso; lra); try (field; lra).
    assert (Z : at_ x idx = 0) by lra. rewrite Z. field. lra.
Qed.

Lemma unit_cube_transposes s t M N : linear_map s t M -> linear_map t s N ->
  (forall p q, shape p = s -> shape q = t -> unit_interval p -> unit_interval q -> dot_arr t (M p) q = dot_arr s p (N q)) ->
  transposes s t M N.
Proof.
  intros LM LN H x y Ex Ey.
  destruct (unit_parts s x Ex) as (K & p & p' & Sp & Sp' & Up & Up' & Dx).
  destruct (unit_parts t y Ey) as (L & q & q' & Sq & Sq' & Uq & Uq' & Dy).
  rewrite (dot_lin t K (- K) (M p) (M p') (M x) y (LM K (- K) p p' x Sp Sp' Ex Dx)).
  rewrite (dot_lin s K (- K) p p' x (N y) Dx).
  rewrite (dot_comm t (M p)), (dot_comm t (M p')), (dot_comm s p), (dot_comm s p').
  pose proof (LN L (- L) q q' y Sq Sq' Ey Dy) as DN.
  rewrite !(dot_lin t L (- L) q q' y _ Dy), !(dot_lin s L (- L) (N q) (N q') (N y) _ DN).
  rewrite !(dot_comm t q), !(dot_comm t q'), !(dot_comm s (N q)), !(dot_comm s (N q')).
  rewrite !H by assumption. ring.
Qed.
