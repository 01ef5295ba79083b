(** More about gram_schmidt on complex rows: C67. *)
From Verif Require Import NPReal Py IPS Spec_Opt Model_Array Model_Matrix Spec_Matrix Proof_Matrix Prop_Matrix.
From Coq Require Import List Lia.
Import ListNotations.
Local Open Scope R_scope.

(** Specification: real and imaginary part of the sum of the products a_k b_k, without conjugation. *)
Definition re_sum (a b : list cplx) : R := rsum (map (fun p => fst (fst p) * fst (snd p) - snd (fst p) * snd (snd p)) (combine a b)).
Definition im_sum (a b : list cplx) : R := rsum (map (fun p => fst (fst p) * snd (snd p) + snd (fst p) * fst (snd p)) (combine a b)).

Lemma np_inner_parts a b : np_inner a b = (re_sum a b, im_sum a b).
Proof.
  unfold np_inner, re_sum, im_sum, rsum. induction (combine a b) as [|p l IH]; [reflexivity|]. cbn [map fold_right]. rewrite IH. reflexivity.
Qed.
Lemma sums_second c v0 v1 : length v0 = length v1 ->
  let w := map (fun p => c_sub (fst p) (snd p)) (combine v1 (map (c_mul c) v0)) in
  re_sum v0 w = re_sum v1 v0 - (fst c * re_sum v0 v0 - snd c * im_sum v0 v0) /\
  im_sum v0 w = im_sum v1 v0 - (fst c * im_sum v0 v0 + snd c * re_sum v0 v0).
Proof.
  intros L. cbv zeta. revert v1 L. induction v0 as [|x v0 IH]; intros [|y v1] L; try discriminate; [cbn; split; ring|].
  injection L as L. destruct (IH v1 L) as [I1 I2]. unfold re_sum, im_sum, rsum in *. cbn [combine map fold_right fst snd c_sub c_mul] in *.
  rewrite I1, I2. split; ring.
Qed.

(** [C67] What gram_schmidt does with complex rows: the second row is orthogonal to the first for the product without conjugation, hence
    orthogonal in the usual sense when the first row is real. *)
Theorem C67_complex_rows :
  forall v0 v1 : list cplx, length v0 = length v1 -> (re_sum v0 v0 <> 0 \/ im_sum v0 v0 <> 0) ->
  re_sum v0 (c_second v0 v1) = 0 /\ im_sum v0 (c_second v0 v1) = 0 /\
  (Forall (fun z => snd z = 0) v0 -> herm v0 (c_second v0 v1) = (0, 0)).
Proof.
  intros v0 v1 L D. unfold c_second, c_project. rewrite !np_inner_parts.
  set (c := c_div _ _). destruct (sums_second c v0 v1 L) as [S1 S2]. set (w := map _ _) in *.
  assert (Dn : re_sum v0 v0 ^ 2 + im_sum v0 v0 ^ 2 <> 0).
  { intros Q. pose proof (pow2_ge_0 (re_sum v0 v0)) as P1. pose proof (pow2_ge_0 (im_sum v0 v0)) as P2.
    destruct D as [D|D]; apply D; [apply (Rsqr_0_uniq)|apply Rsqr_0_uniq]; unfold Rsqr; lra. }
  assert (Z1 : re_sum v0 w = 0) by (rewrite S1; unfold c, c_div, c_abs2; cbn [fst snd]; field; exact Dn).
  assert (Z2 : im_sum v0 w = 0) by (rewrite S2; unfold c, c_div, c_abs2; cbn [fst snd]; field; exact Dn).
  split; [exact Z1|]. split; [exact Z2|]. intros F.
  assert (E : forall b, herm v0 b = np_inner v0 b).
  { clear - F. unfold herm, np_inner. induction F as [|z l Hz F IH]; intros [|y b]; try reflexivity. cbn [combine map fold_right fst snd].
    rewrite IH. do 2 f_equal. destruct z as [p q]. cbn in Hz |- *. subst q. rewrite Ropp_0. reflexivity. }
  rewrite E, np_inner_parts, Z1, Z2. reflexivity.
Qed.
Print Assumptions C67_complex_rows.

(** (1 + i, 1) and (i, 0): the second row becomes orthogonal to the first without conjugation. *)
Example C67_complex_example : re_sum [(1, 1); (1, 0)] (c_second [(1, 1); (1, 0)] [(0, 1); (0, 0)]) = 0 /\ re_sum [(1, 1); (1, 0)] [(0, 1); (0, 0)] <> 0.
Proof.
  split; [|cbn; lra]. destruct (C67_complex_rows [(1, 1); (1, 0)] [(0, 1); (0, 0)] eq_refl) as [Q _]; [left; cbn; lra|exact Q].
Qed.
