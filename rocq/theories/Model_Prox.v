(** Model of opt/proximity.py: SparseThreshold, Ridge, ElasticNet, GroupLASSO,
    LinearCompositionProx, ProximityCombo, OrderedWeightedL1Norm.cost. *)
From Coq Require Import String.
From Verif Require Import NPReal Py IPS Model_Signal.
Local Open Scope string_scope.
Local Open Scope R_scope.

Definition thr_scale (f : R) (t : thr) : thr :=
  match t with TScalar t => TScalar (t * f) | TArray l => TArray (map (fun w => w * f) l) end.

(** Multiplication of a broadcast threshold-like array with data. *)
Definition bmul (t : thr) (x : list R) : res (list R) :=
  do ts <- bcast t (List.length x); Ok (map2 Rmult ts x).

(** proximity.py:211-213. Weights are a number or a flat array. *)
Definition sparse_op (weights : thr) (thresh_type : string) (x : list R) (extra_factor : R) : res (list R) :=
  thresh x (thr_scale extra_factor weights) thresh_type.

(** proximity.py:233-235; [linear] is self._linear.op. *)
Definition sparse_cost (linear : list R -> list R) (weights : thr) (x : list R) : res R :=
  do wx <- bmul weights (linear x); Ok (rsum (map Rabs wx)).

(** proximity.py:777-779. *)
Definition ridge_op (linear : list R -> list R) (weights : thr) (x : list R) (extra_factor : R) : res (list R) :=
  let lx := linear x in
  do ts <- bcast (thr_scale 2 (thr_scale extra_factor weights)) (List.length lx);
  Ok (map2 (fun t v => v / (1 + t)) ts lx).
(** proximity.py:799-801. *)
Definition ridge_cost (linear : list R -> list R) (weights : thr) (x : list R) : res R :=
  do v <- bmul weights (map (fun v => v ^ 2) (linear x)); Ok (rsum (map Rabs v)).

(** proximity.py:863-865. alpha and beta are numbers or flat arrays. *)
Definition elastic_op (alpha beta : thr) (x : list R) (extra_factor : R) : res (list R) :=
  do th <- thresh x (thr_scale extra_factor beta) "soft";
  do ns <- bcast (thr_scale extra_factor (thr_scale 2 alpha)) (List.length x);
  Ok (map2 (fun a v => v / (a + 1)) ns th).
(** proximity.py:885-888. *)
Definition elastic_cost (linear : list R -> list R) (alpha beta : thr) (x : list R) : res R :=
  do a <- bmul alpha (map (fun v => v ^ 2) (linear x));
  do b <- bmul beta (linear x);
  Ok (rsum (map2 Rplus (map Rabs a) (map Rabs b))).

(** np.finfo(np.float32).eps *)
Definition eps32 : R := / 2 ^ 23.

Definition norm2 (g : list R) : R := sqrt (dot g g).

(** proximity.py:1403-1410. The array is given by its groups (the slices along the first axis,
    i.e. the columns of a 2-D array). *)
Definition group_scale (w f : R) (g : list R) : R := Rmax 0 (1 - w * f / Rmax (norm2 g) eps32).
Definition group_op (weights : thr) (f : R) (groups : list (list R)) : res (list (list R)) :=
  do ws <- bcast weights (List.length groups);
  Ok (map2 (fun w g => map (fun v => v * group_scale w f g) g) ws groups).
(** proximity.py:1428. *)
Definition group_cost (weights : thr) (groups : list (list R)) : res R :=
  do v <- bmul weights (map norm2 groups); Ok (rsum v).

(** proximity.py:424-446: linear operator, its adjoint and the inner operator are arbitrary. *)
Definition lincomp_op {X Y : Type} (lop : X -> Y) (ladj : Y -> X) (pop : Y -> R -> Y) (x : X) (f : R) : X :=
  ladj (pop (lop x) f).
(** proximity.py:449 *)
Definition lincomp_cost {X Y : Type} (lop : X -> Y) (pcost : Y -> R) (x : X) : R := pcost (lop x).

(** proximity.py:555-565: operators and components are indexed; a missing component is an
    IndexError, extra components are ignored. *)
Fixpoint combo_op {Y : Type} (ops : list (Y -> R -> Y)) (x : list Y) (f : R) : res (list Y) :=
  match ops, x with
  | [], _ => Ok []
  | _ :: _, [] => Err IndexError
  | p :: ops', v :: x' => do r <- combo_op ops' x' f; Ok (p v f :: r)
  end.
(** proximity.py:582-587: zip stops at the shorter list. *)
Definition combo_cost {Y : Type} (costs : list (Y -> R)) (x : list Y) : R :=
  rsum (map2 (fun c v => c v) costs x).

(** np.sort on flat data. *)
Fixpoint insert_sorted (a : R) (l : list R) : list R :=
  match l with
  | [] => [a]
  | b :: l' => if Rle_dec a b then a :: l else b :: insert_sorted a l'
  end.
Definition npsort (l : list R) : list R := fold_right insert_sorted [] l.

(** proximity.py:625-638: np.max(np.diff(w)) > 0 raises, as does a negative weight; a single
    weight makes np.max fail on an empty array (also ValueError). *)
Fixpoint nonincreasing_b (w : list R) : bool :=
  match w with
  | a :: ((b :: _) as w') => if Rle_dec b a then nonincreasing_b w' else false
  | _ => true
  end.
Definition owl_init (w : list R) : res (list R) :=
  match w with
  | [] | [_] => Err ValueError
  | _ => if nonincreasing_b w then
           if forallb (fun v => geb v 0) w then Ok w else Err ValueError
         else Err ValueError
  end.
(** proximity.py:711-713 (flat data of the same length as the weights). *)
Definition owl_cost (w x : list R) : R :=
  rsum (map2 Rmult w (npsort (rev (map Rabs x)))).

(** * OrderedWeightedL1Norm.op, proximity.py:640-695 *)

(** Fancy indexing a[idx] and the scatter out[idx] = m (idx a permutation of the positions). *)
Definition gather (a : list R) (idx : list nat) : list R := map (fun i => nth i a 0) idx.
Fixpoint index_of (i : nat) (idx : list nat) : nat :=
  match idx with
  | [] => 0
  | j :: idx' => if Nat.eqb i j then 0 else S (index_of i idx')
  end.
Definition scatter (idx : list nat) (m : list R) : list R :=
  map (fun i => nth (index_of i idx) m 0) (seq 0 (List.length idx)).

(** x / |x| with the NaN at x = 0 replaced by 0, proximity.py:688-693. *)
Definition np_sign (x : R) : R := if Req_EM_T x 0 then 0 else x / Rabs x.

(** [argsort] is np.argsort (which of the orders of equal values it takes is not specified by
    NumPy), [iso] is sklearn's isotonic_regression(., y_min=0, increasing=False). Flat data with
    as many entries as weights (at least two: squeezing is then the identity). *)
Definition owl_op (argsort : list R -> list nat) (iso : list R -> list R) (w : list R) (f : R) (x : list R)
  : res (list R) :=
  if Nat.eqb (List.length w) (List.length x) then
    let threshold := map (fun v => v * f) w in
    let data_abs := map Rabs x in
    let idx := rev (argsort data_abs) in
    let data_sorted := iso (map2 Rminus (gather data_abs idx) threshold) in
    Ok (map2 Rmult (map np_sign x) (scatter idx data_sorted))
  else Err NotModelled.
