(** NumPy arrays as (shape, element at each multi-index), with the handful of
    NumPy primitives that base/transform.py and base/np_adjust.py use.
    An array is what indexing shows of it: two arrays are equal when they have
    the same shape and the same element at every in-range multi-index. *)
From Verif Require Import Py.

Record nda (A : Type) : Type := mk_nda { shape : list nat; at_ : list nat -> A }.
Arguments mk_nda {A} shape at_.
Arguments shape {A} n.
Arguments at_ {A} n _.

(** [idx] is a valid multi-index for [s]. *)
Fixpoint in_range (s idx : list nat) : Prop :=
  match s, idx with
  | [], [] => True
  | d :: s', i :: idx' => i < d /\ in_range s' idx'
  | _, _ => False
  end.

(** Equality of arrays as observed through shape and indexing. *)
Definition arr_eq {A} (a b : nda A) : Prop :=
  shape a = shape b /\ forall idx, in_range (shape a) idx -> at_ a idx = at_ b idx.

Definition prod (s : list nat) : nat := fold_right Nat.mul 1 s.

(** Row-major (C order) flat position of a multi-index, and its inverse:
    the order used by [ndarray.reshape]. *)
Fixpoint ravel (s idx : list nat) : nat :=
  match s, idx with
  | _ :: s', i :: idx' => i * prod s' + ravel s' idx'
  | _, _ => 0
  end.

Fixpoint unravel (s : list nat) (n : nat) : list nat :=
  match s with
  | [] => []
  | _ :: s' => (n / prod s') :: unravel s' (n mod prod s')
  end.

(** [ndarray.reshape]: ValueError unless the sizes agree. *)
Definition reshape {A} (a : nda A) (s : list nat) : res (nda A) :=
  if prod (shape a) =? prod s
  then Ok (mk_nda s (fun idx => at_ a (unravel (shape a) (ravel s idx))))
  else Err ValueError.

(** [ndarray.T]: reverses the axes. *)
Definition transpose {A} (a : nda A) : nda A :=
  mk_nda (rev (shape a)) (fun idx => at_ a (rev idx)).

(** [a[i]] for an in-range first index. *)
Definition sub0 {A} (a : nda A) (i : nat) : nda A :=
  mk_nda (tl (shape a)) (fun idx => at_ a (i :: idx)).

(** Iterating over [a[slice(lo, hi)]] (0 <= lo): Python slices are clamped. *)
Definition slice0 {A} (a : nda A) (lo hi : nat) : list (nda A) :=
  let n := hd 0 (shape a) in
  map (sub0 a) (seq (min lo n) (min hi n - min lo n)).

(** [a[lo0:hi0, lo1:hi1]] on a 2-D array, clamped. *)
Definition slice2 {A} (a : nda A) (lo0 hi0 lo1 hi1 : nat) : nda A :=
  let h := nth 0 (shape a) 0 in
  let w := nth 1 (shape a) 0 in
  mk_nda [min hi0 h - min lo0 h; min hi1 w - min lo1 w]
         (fun idx => at_ a [min lo0 h + nth 0 idx 0; min lo1 w + nth 1 idx 0]).

(** [np.hstack] / [np.vstack] of two 2-D arrays (ValueError on a mismatch), and of a list
    (ValueError on the empty list). *)
Definition hcat {A} (a b : nda A) : res (nda A) :=
  match shape a, shape b with
  | [h; w], [h'; w'] =>
      if h =? h' then
        Ok (mk_nda [h; w + w']
              (fun idx => if nth 1 idx 0 <? w then at_ a idx
                          else at_ b [nth 0 idx 0; nth 1 idx 0 - w]))
      else Err ValueError
  | _, _ => Err NotModelled
  end.

Definition vcat {A} (a b : nda A) : res (nda A) :=
  match shape a, shape b with
  | [h; w], [h'; w'] =>
      if w =? w' then
        Ok (mk_nda [h + h'; w]
              (fun idx => if nth 0 idx 0 <? h then at_ a idx
                          else at_ b [nth 0 idx 0 - h; nth 1 idx 0]))
      else Err ValueError
  | _, _ => Err NotModelled
  end.

Fixpoint cat_from {A} (cat : nda A -> nda A -> res (nda A)) (acc : nda A) (l : list (nda A))
  : res (nda A) :=
  match l with
  | [] => Ok acc
  | b :: l' => do ab <- cat acc b; cat_from cat ab l'
  end.

Definition hstack {A} (l : list (nda A)) : res (nda A) :=
  match l with [] => Err ValueError | a :: l' => cat_from hcat a l' end.
Definition vstack {A} (l : list (nda A)) : res (nda A) :=
  match l with [] => Err ValueError | a :: l' => cat_from vcat a l' end.

(** [np.array([a0, a1, ...])] for arrays of one common shape [s] (a new leading axis).
    With no array at all NumPy returns shape [(0,)]. Arrays of different shapes
    raise ValueError. *)
Definition list_nat_eqb (a b : list nat) : bool :=
  if list_eq_dec Nat.eq_dec a b then true else false.

Definition stack {A} (l : list (nda A)) : res (nda A) :=
  match l with
  | [] => Err NotModelled
  | a :: _ =>
      if forallb (fun b => list_nat_eqb (shape b) (shape a)) l
      then Ok (mk_nda (length l :: shape a)
                 (fun idx => match idx with
                             | [] => at_ a []
                             | i :: idx' => at_ (nth i l a) idx'
                             end))
      else Err ValueError
  end.

(** [np.transpose(a, axes)] for [axes] a permutation of the axes: output axis [k] is
    input axis [axes[k]], so input coordinate [m] is the output coordinate at the
    position of [m] in [axes]. *)
Fixpoint index_of (m : nat) (l : list nat) : nat :=
  match l with
  | [] => 0
  | x :: l' => if x =? m then 0 else S (index_of m l')
  end.

Definition np_transpose {A} (a : nda A) (axes : list nat) : nda A :=
  mk_nda (map (fun k => nth k (shape a) 0) axes)
         (fun idx => at_ a (map (fun m => nth (index_of m axes) idx 0)
                                (seq 0 (length (shape a))))).

(** [np.roll(l, k)] on a 1-D sequence: element [i] moves to [(i+k) mod n]. *)
Definition roll {A} (d : A) (l : list A) (k : Z) : list A :=
  map (fun j => nth (Z.to_nat ((Z.of_nat j - k) mod Z.of_nat (length l))) l d)
      (seq 0 (length l)).
