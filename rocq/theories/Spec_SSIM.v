(** Specification for C129: the structural similarity index (Wang et al. 2004) of paired samples,
    and of two images by a moving window. It does not mention the model. *)
From Verif Require Import NPReal Spec_Stats.
From Coq Require Import List Lia.
Import ListNotations.
Local Open Scope R_scope.

Section Index.
Variable l : list (R * R).
Definition mean1 : R := mean_over fst l.
Definition mean2 : R := mean_over snd l.
(** Sample variances and covariance, with denominator n - 1. *)
Definition cov (f g : R * R -> R) : R :=
  sum_over (fun p => (f p - mean_over f l) * (g p - mean_over g l)) l / (INR (length l) - 1).
Definition ssim_index : R :=
  (2 * mean1 * mean2 + (1 / 100) ^ 2) * (2 * cov fst snd + (3 / 100) ^ 2)
  / ((mean1 ^ 2 + mean2 ^ 2 + (1 / 100) ^ 2) * (cov fst fst + cov snd snd + (3 / 100) ^ 2)).
End Index.

(** The pairs of pixels in the rows i to i+6 and the columns j to j+6 of two images given as
    functions of row and column. *)
Definition patch (x y : nat -> nat -> R) (i j : nat) : list (R * R) :=
  flat_map (fun a => map (fun b => (x (i + a)%nat (j + b)%nat, y (i + a)%nat (j + b)%nat)) (seq 0 7)) (seq 0 7).

(** The corners of the patches inside an image. *)
Definition corners (rows cols : nat) : list (nat * nat) :=
  flat_map (fun i => map (fun j => (i, j)) (seq 0 (cols - 6))) (seq 0 (rows - 6)).

Definition mean_ssim (rows cols : nat) (x y : nat -> nat -> R) : R :=
  mean_over (fun c => ssim_index (patch x y (fst c) (snd c))) (corners rows cols).

(** An image in row-major order as a function. *)
Definition as_image (cols : nat) (l : list R) (i j : nat) : R := nth (i * cols + j) l 0.

(** Images extended by three rows and columns on each side by reflection (c b a | a b c ...), the
    original pixel (i, j) being at (i + 3, j + 3). *)
Definition mirror (n i : nat) : nat :=
  if Nat.ltb i 3 then 2 - i else if Nat.ltb i (n + 3) then i - 3 else 2 * n + 2 - i.
Definition extended (rows cols : nat) (x : nat -> nat -> R) (i j : nat) : R := x (mirror rows i) (mirror cols j).
Definition all_pixels (rows cols : nat) : list (nat * nat) :=
  flat_map (fun i => map (fun j => (i, j)) (seq 0 cols)) (seq 0 rows).
(** Mean of the index weighted by a mask. *)
Definition masked_ssim (rows cols : nat) (x y mask : nat -> nat -> R) : R :=
  sum_over (fun p => mask (fst p) (snd p) * ssim_index (patch (extended rows cols x) (extended rows cols y) (fst p) (snd p))) (all_pixels rows cols)
  / sum_over (fun p => mask (fst p) (snd p)) (all_pixels rows cols).
