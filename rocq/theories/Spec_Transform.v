(** Independent specifications for base/transform.py and base/np_adjust.py: statements
    about which pixel goes where, using only shape and indexing. *)
From Coq Require Import Reals.
From Verif Require Import Py Model_Array.

(** [m] is the [a]-by-[b] mosaic of the [h]-by-[w] images of [cube], row by row. *)
Definition is_mosaic {A} (cube m : nda A) (a b h w : nat) : Prop :=
  shape cube = [a * b; h; w] /\ shape m = [a * h; b * w] /\
  forall i j r s, i < a -> j < b -> r < h -> s < w ->
    at_ m [i * h + r; j * w + s] = at_ cube [i * b + j; r; s].

(** Number of multi-indices of shape [s] lexicographically before [idx], by
    counting whole sub-blocks: the position of [idx] in the flattened array. *)
Fixpoint flat_pos (s idx : list nat) : nat :=
  match s, idx with
  | _ :: s', i :: idx' => i * fold_right Nat.mul 1 s' + flat_pos s' idx'
  | _, _ => 0
  end.

(** Column [i] of [m] is the flattened [i]-th image of [cube] (images of shape [s]). *)
Definition columns_are_images {A} (cube m : nda A) (n : nat) (s : list nat) : Prop :=
  shape m = [fold_right Nat.mul 1 s; n] /\
  forall i idx, i < n -> in_range s idx -> at_ m [flat_pos s idx; i] = at_ cube (i :: idx).

Definition is_integer (x : R) : Prop := exists z : Z, x = IZR z.

Definition all_pixels {A} (P : A -> Prop) (a : nda A) : Prop :=
  forall idx, in_range (shape a) idx -> P (at_ a idx).
