(** Real-number conventions shared by the numeric models. *)
From Coq Require Import List.
From Coq Require Export Reals Lra.
From Coq Require Import ZArith Lia.
Open Scope R_scope.

Lemma Int_part_unique (r : R) (z : Z) : IZR z <= r < IZR z + 1 -> Int_part r = z.
Proof.
  intros [H1 H2]. destruct (base_Int_part r) as [H3 H4].
  assert (A : IZR (Int_part r) < IZR (z + 1)) by (rewrite plus_IZR; lra).
  assert (B : IZR z < IZR (Int_part r + 1)) by (rewrite plus_IZR; lra).
  apply lt_IZR in A, B. lia.
Qed.

Lemma Int_part_IZR z : Int_part (IZR z) = z.
Proof. apply Int_part_unique. lra. Qed.

Lemma Int_part_bounds r : IZR (Int_part r) <= r < IZR (Int_part r) + 1.
Proof. destruct (base_Int_part r); lra. Qed.

(** Python/NumPy conversion of a real number to an integer: truncation towards zero
    (C semantics of [astype(int)], and Python's [int()]). *)
Definition trunc (x : R) : Z :=
  if Rle_dec 0 x then Int_part x else (- Int_part (- x))%Z.

Lemma trunc_IZR z : trunc (IZR z) = z.
Proof.
  unfold trunc. destruct (Rle_dec 0 (IZR z)); [apply Int_part_IZR|].
  rewrite <- opp_IZR, Int_part_IZR. lia.
Qed.

Lemma trunc_nonneg x : 0 <= x -> IZR (trunc x) <= x < IZR (trunc x) + 1 /\ (0 <= trunc x)%Z.
Proof.
  intros H. unfold trunc. destruct (Rle_dec 0 x) as [_|]; [|lra].
  pose proof (Int_part_bounds x) as B. split; [exact B|].
  assert (IZR (-1) < IZR (Int_part x)) by lra. apply lt_IZR in H0. lia.
Qed.

Lemma trunc_neg x : x < 0 -> x <= IZR (trunc x) < x + 1 /\ (trunc x <= 0)%Z.
Proof.
  intros H. unfold trunc. destruct (Rle_dec 0 x) as [|_]; [lra|].
  pose proof (Int_part_bounds (- x)) as B. rewrite opp_IZR. split; [lra|].
  assert (IZR (-1) < IZR (Int_part (-x))) by lra. apply lt_IZR in H0. lia.
Qed.

(** Rounding to the nearest integer, ties to even (NumPy's [rint]). *)
Definition rint (x : R) : Z :=
  let f := Int_part x in
  let d := x - IZR f in
  if Rlt_dec d (1 / 2) then f
  else if Rlt_dec (1 / 2) d then (f + 1)%Z
  else if Z.even f then f else (f + 1)%Z.

(** [np.around(x, decimals=k)]: scale, [rint], unscale (idealised: exact scaling). *)
Definition around (k : nat) (x : R) : R := IZR (rint (x * 10 ^ k)) / 10 ^ k.

Lemma rint_err x : Rabs (IZR (rint x) - x) <= 1 / 2.
Proof.
  unfold rint. pose proof (Int_part_bounds x) as B. set (f := Int_part x) in *.
  destruct (Rlt_dec (x - IZR f) (1 / 2)).
  - rewrite Rabs_left1; lra.
  - destruct (Rlt_dec (1 / 2) (x - IZR f)).
    + rewrite plus_IZR. rewrite Rabs_right; lra.
    + assert (x - IZR f = 1 / 2) by lra. destruct (Z.even f).
      * rewrite Rabs_left1; lra.
      * rewrite plus_IZR. rewrite Rabs_right; lra.
Qed.

Lemma rint_IZR z : rint (IZR z) = z.
Proof.
  unfold rint. rewrite Int_part_IZR. destruct (Rlt_dec (IZR z - IZR z) (1 / 2)); [reflexivity|lra].
Qed.

Lemma rint_nonneg x : 0 <= x -> (0 <= rint x)%Z.
Proof.
  intros H. pose proof (rint_err x) as E.
  assert (IZR (-1) < IZR (rint x)).
  { unfold Rabs in E. destruct (Rcase_abs (IZR (rint x) - x)); lra. }
  apply lt_IZR in H0. lia.
Qed.

Lemma rint_nonpos x : x <= 0 -> (rint x <= 0)%Z.
Proof.
  intros H. pose proof (rint_err x) as E.
  assert (IZR (rint x) < IZR 1).
  { unfold Rabs in E. destruct (Rcase_abs (IZR (rint x) - x)); lra. }
  apply lt_IZR in H0. lia.
Qed.

Lemma pow10_pos k : 0 < 10 ^ k.
Proof. apply pow_lt; lra. Qed.

Lemma around_err k x : Rabs (around k x - x) <= / 2 * / 10 ^ k.
Proof.
  unfold around. pose proof (pow10_pos k) as P.
  replace (IZR (rint (x * 10 ^ k)) / 10 ^ k - x) with ((IZR (rint (x * 10 ^ k)) - x * 10 ^ k) * / 10 ^ k)
    by (field; lra).
  rewrite Rabs_mult, (Rabs_right (/ 10 ^ k)) by (left; apply Rinv_0_lt_compat; lra).
  apply Rmult_le_compat_r; [left; apply Rinv_0_lt_compat; lra|].
  pose proof (rint_err (x * 10 ^ k)). lra.
Qed.

Lemma around_0 k : around k 0 = 0.
Proof. unfold around. rewrite Rmult_0_l. rewrite (rint_IZR 0). field. pose proof (pow10_pos k); lra. Qed.

Lemma around_nonneg k x : 0 <= x -> 0 <= around k x.
Proof.
  intros H. unfold around. pose proof (pow10_pos k) as P.
  apply Rmult_le_pos; [|left; apply Rinv_0_lt_compat; lra].
  apply IZR_le. apply rint_nonneg. apply Rmult_le_pos; lra.
Qed.

Lemma around_nonpos k x : x <= 0 -> around k x <= 0.
Proof.
  intros H. unfold around. pose proof (pow10_pos k) as P.
  assert (IZR (rint (x * 10 ^ k)) <= 0).
  { apply (IZR_le _ 0). apply rint_nonpos. nra. }
  assert (0 < / 10 ^ k) by (apply Rinv_0_lt_compat; lra). unfold Rdiv. nra.
Qed.

(** np.sum over exact reals. *)
Definition rsum (l : list R) : R := fold_right Rplus 0 l.
(** np.mean; the mean of an empty array is nan ([None]). *)
Definition npmean (l : list R) : option R :=
  match l with nil => None | _ => Some (rsum l / INR (length l)) end.

Lemma Rabs_le_inv a b : Rabs a <= b -> - b <= a <= b.
Proof. unfold Rabs. destruct (Rcase_abs a); lra. Qed.
