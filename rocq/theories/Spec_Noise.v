(** Specification vocabulary: sums over all multi-indices, inner products of arrays, adjoint and linear
    operators between arrays, means over families of draws. *)
From Verif Require Import NPReal Py Model_Array.
Import List ListNotations.
Local Open Scope R_scope.

Fixpoint upto (n : nat) (f : nat -> R) : R := match n with O => 0 | S m => upto m f + f m end.

(** The sum over all multi-indices of a shape, one axis after the other. *)
Fixpoint over (s : list nat) (f : list nat -> R) : R :=
  match s with
  | [] => f []
  | d :: s' => upto d (fun i => over s' (fun idx => f (i :: idx)))
  end.

Definition dot_arr (s : list nat) (a b : nda R) : R := over s (fun idx => at_ a idx * at_ b idx).

(** N is the transpose of M: M maps arrays of shape s to shape t, N the other way round. *)
Definition maps_shapes (s t : list nat) (M : nda R -> nda R) : Prop := forall x, shape x = s -> shape (M x) = t.
Definition transposes (s t : list nat) (M N : nda R -> nda R) : Prop :=
  forall x y, shape x = s -> shape y = t -> dot_arr t (M x) y = dot_arr s x (N y).
Definition linear_map (s t : list nat) (M : nda R -> nda R) : Prop :=
  forall c d x y z, shape x = s -> shape y = s -> shape z = s ->
  (forall idx, in_range s idx -> at_ z idx = c * at_ x idx + d * at_ y idx) ->
  forall idx, in_range t idx -> at_ (M z) idx = c * at_ (M x) idx + d * at_ (M y) idx.

(** What rng.random can return. *)
Definition unit_interval (a : nda R) : Prop := forall idx, in_range (shape a) idx -> 0 <= at_ a idx < 1.

(** The mean over a finite family. *)
Definition mean {A} (l : list A) (f : A -> R) : R := fold_right (fun a s => f a + s) 0 l / INR (length l).
