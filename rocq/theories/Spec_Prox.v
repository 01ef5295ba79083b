(** Specification vocabulary for C22-C32: minimisation problems over flat real arrays. *)
From Coq Require Export Reals Lra.
From Coq Require Import Sorted Permutation.
From Verif Require Import Py Model_Signal.
Local Open Scope R_scope.

Fixpoint sum2 {A B : Type} (f : A -> B -> R) (l : list A) (m : list B) : R :=
  match l, m with
  | a :: l', b :: m' => f a b + sum2 f l' m'
  | _, _ => 0
  end.

Definition sqdist (x z : list R) : R := sum2 (fun a b => (a - b) ^ 2) x z.
Definition weighted_l1 (w z : list R) : R := sum2 (fun w v => w * Rabs v) w z.
Definition weighted_l2sq (w z : list R) : R := sum2 (fun w v => w * v ^ 2) w z.

(** [p] minimises [obj] over arrays of length n, uniquely: every competitor is worse by at
    least half its squared distance to p. *)
Definition strong_minimiser (n : nat) (obj : list R -> R) (p : list R) : Prop :=
  length p = n /\ forall z, length z = n -> obj p + / 2 * sqdist p z <= obj z.

(** sign(x) * max(|x| - t, 0) *)
Definition shrink (t x : R) : R :=
  if Rle_dec (Rabs x) t then 0 else if Rle_dec 0 x then x - t else x + t.

Definition nonneg (l : list R) : Prop := Forall (fun v => 0 <= v) l.

(** Euclidean length and distance. *)
Definition length2 (g : list R) : R := sqrt (sum2 Rmult g g).

(** The ordered weighted l1 norm: the largest weight goes to the largest magnitude. [s] is any
    list of the magnitudes in decreasing order. *)
Definition is_owl_norm (w x : list R) (v : R) : Prop :=
  exists s, Permutation s (map Rabs x) /\ Sorted (fun a b => b <= a) s /\ v = sum2 Rmult w s.

(** The weight each of the n entries gets when the user passes a number, an array of n weights
    or an array of one weight. *)
Inductive per_element : thr -> nat -> list R -> Prop :=
| pe_scalar t n : per_element (TScalar t) n (repeat t n)
| pe_array l : per_element (TArray l) (List.length l) l
| pe_single t n : per_element (TArray [t]) n (repeat t n).

(** Sum over groups. *)
Definition weighted_lengths (w : list R) (gs : list (list R)) : R := sum2 (fun w g => w * length2 g) w gs.
Definition groups_sqdist (xs zs : list (list R)) : R := sum2 sqdist xs zs.
Definition same_shape (xs zs : list (list R)) : Prop := map (@List.length R) xs = map (@List.length R) zs.

(** Nested arrays: the values in reading order, the structure without the values. *)
Fixpoint leaves (t : ptree) : list R :=
  match t with
  | NumArr l => l
  | ObjArr l => flat_map leaves l
  | NoDtype r => [r]
  end.
Fixpoint structure (t : ptree) : ptree :=
  match t with
  | NumArr l => NumArr (map (fun _ => 0) l)
  | ObjArr l => ObjArr (map structure l)
  | NoDtype _ => NoDtype 0
  end.
(** Every value is inside a numeric array. *)
Fixpoint all_arrays (t : ptree) : Prop :=
  match t with
  | NumArr _ => True
  | ObjArr l => fold_right (fun t P => all_arrays t /\ P) True l
  | NoDtype _ => False
  end.
(** No non-empty object array consists only of numeric arrays of one common length. *)
Fixpoint ragged (t : ptree) : Prop :=
  match t with
  | NumArr _ => True
  | ObjArr l => (l = [] \/ ~ exists n, Forall (fun c => exists a, c = NumArr a /\ List.length a = n) l)
                /\ fold_right (fun t P => ragged t /\ P) True l
  | NoDtype _ => False
  end.

(** What np.argsort promises on arrays of length n: a permutation of the positions that lists
    the values in increasing order. *)
Definition is_argsort (n : nat) (argsort : list R -> list nat) : Prop :=
  forall a, List.length a = n ->
  Permutation (argsort a) (seq 0 n) /\ Sorted Rle (map (fun i => nth i a 0) (argsort a)).
(** What isotonic_regression(y, y_min=0, increasing=False) promises on arrays of length n: the
    closest non-increasing non-negative array. *)
Definition monotone_cone (l : list R) : Prop := Sorted (fun a b => b <= a) l /\ nonneg l.
Definition is_isotonic (n : nat) (iso : list R -> list R) : Prop :=
  forall y, List.length y = n -> List.length (iso y) = n /\ monotone_cone (iso y) /\
  forall z, List.length z = n -> monotone_cone z -> sqdist (iso y) y <= sqdist z y.
