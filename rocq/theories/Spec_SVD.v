(** Specification vocabulary for signal/svd.py: finite sums, Frobenius inner product, spectral and
    nuclear norm, rank and singular value decomposition of real matrices given by their entries. *)
From Verif Require Import NPReal Py Model_Array.
From Coq Require Import List Lia.
Import ListNotations.
Local Open Scope R_scope.

Fixpoint bsum (n : nat) (f : nat -> R) : R :=
  match n with O => 0 | S n' => bsum n' f + f n' end.
(** Inner product of the first n entries. *)
Definition dotv (n : nat) (x y : nat -> R) : R := bsum n (fun i => x i * y i).
Definition mat := nat -> nat -> R.
(** sum_ij A_ij B_ij, and the squared Frobenius distance. *)
Definition frob (m n : nat) (A B : mat) : R := bsum m (fun i => bsum n (fun j => A i j * B i j)).
Definition dist2 (m n : nat) (A B : mat) : R := frob m n (fun i j => A i j - B i j) (fun i j => A i j - B i j).
(** x^T A y *)
Definition bil (m n : nat) (x : nat -> R) (A : mat) (y : nat -> R) : R := bsum m (fun i => bsum n (fun j => x i * A i j * y j)).
Definition mat_eq (m n : nat) (A B : mat) : Prop := forall i j, (i < m)%nat -> (j < n)%nat -> A i j = B i j.

(** Spectral norm at most 1. *)
Definition contraction (m n : nat) (W : mat) : Prop :=
  forall x y, dotv m x x <= 1 -> dotv n y y <= 1 -> bil m n x W y <= 1.
(** Nuclear norm, as the dual of the spectral norm. *)
Definition is_nuclear (m n : nat) (X : mat) (c : R) : Prop :=
  is_lub (fun r => exists W, contraction m n W /\ r = frob m n X W) c.
(** Rank at most r: a sum of r products of a column and a row. *)
Definition rank_le (m n r : nat) (B : mat) : Prop :=
  exists e d : nat -> nat -> R, mat_eq m n B (fun i j => bsum r (fun l => e l i * d l j)).

(** sum_l s_l u_l v_l^T *)
Definition lc (k : nat) (s : nat -> R) (u v : nat -> nat -> R) : mat := fun i j => bsum k (fun l => s l * u l i * v l j).
Definition orthonormal (m k : nat) (u : nat -> nat -> R) : Prop :=
  forall l l', (l < k)%nat -> (l' < k)%nat -> dotv m (u l) (u l') = if Nat.eqb l l' then 1 else 0.
(** (u, s, v) is a singular value decomposition of X: orthonormal left and right singular vectors,
    non-negative singular values in non-increasing order. *)
Definition svd_of (m n : nat) (X : mat) (u : nat -> nat -> R) (s : list R) (v : nat -> nat -> R) : Prop :=
  length s = Nat.min m n /\ orthonormal m (length s) u /\ orthonormal n (length s) v /\
  (forall l, (l < length s)%nat -> 0 <= nth l s 0) /\
  (forall l l', (l <= l')%nat -> (l' < length s)%nat -> nth l' s 0 <= nth l s 0) /\
  mat_eq m n X (lc (length s) (fun l => nth l s 0) u v).
(** Entries of an array with two axes. *)
Definition entry (a : nda R) : mat := fun i j => at_ a [i; j].

(** What scipy.linalg.svd(x, full_matrices=False) returns for a matrix x. *)
Definition svd_result (m n : nat) (x u : nda R) (s : list R) (v : nda R) : Prop :=
  shape x = [m; n] /\ shape u = [m; Nat.min m n] /\ shape v = [Nat.min m n; n] /\
  svd_of m n (entry x) (fun l i => at_ u [i; l]) s (fun l j => at_ v [l; j]).
(** What scipy.sparse.linalg.svds(x, k) returns for 0 < k < min(m, n): the k largest singular values
    of a singular value decomposition (u0, s0, v0), in ascending order, with their singular vectors. *)
Definition svds_result (m n k : nat) (x u : nda R) (s : list R) (v : nda R) (u0 : nat -> nat -> R) (s0 : list R) (v0 : nat -> nat -> R) : Prop :=
  shape x = [m; n] /\ shape u = [m; k] /\ shape v = [k; n] /\ svd_of m n (entry x) u0 s0 v0 /\ length s = k /\
  forall l, (l < k)%nat -> nth l s 0 = nth (k - 1 - l) s0 0 /\ (forall i, at_ u [i; l] = u0 (k - 1 - l)%nat i) /\
                           (forall j, at_ v [l; j] = v0 (k - 1 - l)%nat j).
(** The singular values of x. *)
Definition singular_values (m n : nat) (x : nda R) (s : list R) : Prop := exists u v, svd_of m n (entry x) u s v.

(** P is the proximity operator of t times the nuclear norm at X, with nuclear norm c: every other matrix
    has a larger objective, by at least half its squared distance to P. *)
Definition nuclear_prox (m n : nat) (t : R) (X P : mat) : Prop :=
  exists c, is_nuclear m n P c /\
  forall Z d, is_nuclear m n Z d -> dist2 m n P X / 2 + t * c + dist2 m n Z P / 2 <= dist2 m n Z X / 2 + t * d.
(** P has rank at most q and minimises the squared distance to X plus t^2 times the rank. *)
Definition rank_prox (m n : nat) (t : R) (X P : mat) (q : nat) : Prop :=
  rank_le m n q P /\ forall B r, rank_le m n r B -> dist2 m n X P + t * t * INR q <= dist2 m n X B + t * t * INR r.
(** Entry (pixel, image) of the matrix whose columns are the images of a cube. *)
Definition pixel_matrix (sh : list nat) (x : nda R) : mat := fun p i => at_ x (i :: unravel sh p).

(** An image of p by p pixels, continued by 0, and its correlation with itself shifted by (a, b). *)
Definition ext (p : nat) (e : nat -> nat -> R) (i j : Z) : R :=
  if ((0 <=? i) && (i <? Z.of_nat p) && (0 <=? j) && (j <? Z.of_nat p))%Z then e (Z.to_nat i) (Z.to_nat j) else 0.
Definition autocorr (p : nat) (e : nat -> nat -> R) (a b : Z) : R :=
  bsum p (fun i => bsum p (fun j => e i j * ext p e (Z.of_nat i + a) (Z.of_nat j + b))).
(** The correlation peak of an eigenimage holds at most the given fraction of the energy of its
    autocorrelation, over shifts from p/2 down to p/2 - p + 1. *)
Definition spread_out (p : nat) (factor : R) (e : nat -> nat -> R) : Prop :=
  (bsum p (fun i => bsum p (fun j => e i j * e i j))) ^ 2 <=
  factor * bsum p (fun i => bsum p (fun j => autocorr p e (Z.of_nat (p / 2) - Z.of_nat i) (Z.of_nat (p / 2) - Z.of_nat j) ^ 2)).
(** Column l of u as an image. *)
Definition eigenimage (p : nat) (u : nda R) (l : nat) : nat -> nat -> R := fun i j => at_ u [i * p + j; l]%nat.

(** The matrix U A, with u l i the entry (i, l) of U. *)
Definition mixed (k : nat) (u : nat -> nat -> R) (A : mat) : mat := fun i j => bsum k (fun l => u l i * A l j).
(** Euclidean norm of item l of an array whose items have shape sh. *)
Definition item_norm (sh : list nat) (a : nda R) (l : nat) : R := sqrt (bsum (fold_right Nat.mul 1%nat sh) (fun q => at_ a (l :: unravel sh q) ^ 2)).
