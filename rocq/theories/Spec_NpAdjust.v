(** Independent specifications for base/np_adjust.py. *)
From Verif Require Import Py Model_Array.

(** [b] is the array [a] turned by 180 degrees in its first two axes. *)
Definition is_half_turn {A} (a b : nda A) : Prop :=
  shape b = shape a /\
  forall h w s, shape a = h :: w :: s ->
  forall i j r, in_range (shape a) (i :: j :: r) ->
    at_ b ((h - 1 - i) :: (w - 1 - j) :: r) = at_ a (i :: j :: r).

(** [p] is [a] with [p0] rows of [z] above and below and [p1] columns left and right. *)
Definition is_padded {A} (z : A) (a p : nda A) (h w p0 p1 : nat) : Prop :=
  shape p = [h + 2 * p0; w + 2 * p1] /\
  (forall i j, i < h -> j < w -> at_ p [p0 + i; p1 + j] = at_ a [i; j]) /\
  (forall i j, i < h + 2 * p0 -> j < w + 2 * p1 ->
     (i < p0 \/ h + p0 <= i \/ j < p1 \/ w + p1 <= j) -> at_ p [i; j] = z).

(** Element of a cyclically shifted sequence: what [b] shows at position [j] is what [a]
    shows [k] places before, cyclically (positions as integers). *)
Definition cyc {A} (d : A) (a : list A) (j k : Z) : A :=
  nth (Z.to_nat ((j - k) mod Z.of_nat (length a))) a d.

(** [b] is [a] with its axes cyclically rolled by [k]: axis [j] of [b] is axis [j - k] of [a]. *)
Definition axes_rolled {A} (a b : nda A) (k : Z) : Prop :=
  length (shape b) = length (shape a) /\
  (forall j, j < length (shape a) -> nth j (shape b) 0 = cyc 0 (shape a) (Z.of_nat j) k) /\
  (forall idx_b idx_a, in_range (shape b) idx_b -> in_range (shape a) idx_a ->
     (forall j, j < length (shape a) -> nth j idx_b 0 = cyc 0 idx_a (Z.of_nat j) k) ->
     at_ b idx_b = at_ a idx_a).
