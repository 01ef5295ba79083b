(** Model of math/metrics.py: ssim, for images with two axes of the same shape (rows, cols), exact
    reals. scikit-image's structural_similarity is modelled with the settings used here
    (full=True, data_range=1.0, defaults otherwise: a uniform window of 7x7 pixels). Pixels are in
    row-major order. A mask has the shape of the images. *)
From Verif Require Import NPReal Py IPS Model_Prox Model_Stats.
From Coq Require Import List Lia ZArith.
Import ListNotations.
Local Open Scope R_scope.

(** scipy.ndimage, mode "reflect": (d c b a | a b c d | d c b a). *)
Definition refl (n : nat) (k : Z) : nat :=
  if (k <? 0)%Z then Z.to_nat (- k - 1) else if (Z.of_nat n <=? k)%Z then Z.to_nat (2 * Z.of_nat n - 1 - k) else Z.to_nat k.

(** The 49 pixels under a 7x7 window centred at (i, j). *)
Definition window (rows cols : nat) (img : list R) (i j : nat) : list R :=
  flat_map (fun a => map (fun b =>
    nth (refl rows (Z.of_nat i + Z.of_nat a - 3) * cols + refl cols (Z.of_nat j + Z.of_nat b - 3)) img 0)
    (seq 0 7)) (seq 0 7).
(** scipy.ndimage.uniform_filter(img, size=7) at (i, j) *)
Definition uniform_filter (rows cols : nat) (img : list R) (i j : nat) : R := rsum (window rows cols img i j) / 49.

(** structural_similarity: the map S at (i, j). NP = 49, use_sample_covariance, K1=0.01, K2=0.03. *)
Definition ssim_at (rows cols : nat) (x y : list R) (i j : nat) : R :=
  let f img := uniform_filter rows cols img i j in
  let cov_norm := 49 / (49 - 1) in
  let ux := f x in let uy := f y in
  let uxx := f (map2 Rmult x x) in let uyy := f (map2 Rmult y y) in let uxy := f (map2 Rmult x y) in
  let vx := cov_norm * (uxx - ux * ux) in let vy := cov_norm * (uyy - uy * uy) in let vxy := cov_norm * (uxy - ux * uy) in
  let C1 := (1 / 100 * 1) ^ 2 in let C2 := (3 / 100 * 1) ^ 2 in
  let A1 := 2 * ux * uy + C1 in let A2 := 2 * vxy + C2 in
  let B1 := ux ^ 2 + uy ^ 2 + C1 in let B2 := vx + vy + C2 in
  A1 * A2 / (B1 * B2).

Definition positions (i0 ni j0 nj : nat) : list (nat * nat) := flat_map (fun i => map (fun j => (i, j)) (seq j0 nj)) (seq i0 ni).

(** The map, and its mean over the pixels at least 3 away from the border. *)
Definition ssim_map (rows cols : nat) (x y : list R) : list R :=
  map (fun p => ssim_at rows cols x y (fst p) (snd p)) (positions 0 rows 0 cols).
Definition mssim (rows cols : nat) (x y : list R) : R :=
  mean (map (fun p => ssim_at rows cols x y (fst p) (snd p)) (positions 3 (rows - 6) 3 (cols - 6))).

(** metrics.py:115-130. [skimage]: is scikit-image installed? structural_similarity raises
    ValueError for images smaller than the window; images of nan give nan. *)
Definition m_ssim (skimage : bool) (rows cols : nat) (test ref : list px) (mask : mask_arg) : res fval :=
  if negb skimage then Err ImportError
  else
    do p <- preprocess test ref mask;
    let '(t, r, m) := p in
    if orb (Nat.ltb rows 7) (Nat.ltb cols 7) then Err ValueError
    else
      match t, r with
      | Some t, Some r =>
          match m with
          | None => Ok (Fin (mssim rows cols t r))
          | Some m => Ok (fdiv (rsum (map2 Rmult m (ssim_map rows cols t r))) (rsum m))
          end
      | _, _ => Ok NaN
      end.
