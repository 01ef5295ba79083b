(** Specification vocabulary for math/stats.py and math/metrics.py. *)
From Coq Require Import Sorted Permutation.
From Verif Require Import NPReal.
From Coq Require Import List Lia.
Import ListNotations.
Local Open Scope R_scope.

Definition count {A} (P : A -> bool) (l : list A) : nat := length (filter P l).
Definition Rleb (a b : R) : bool := if Rle_dec a b then true else false.
Definition in_interval (lo hi x : R) : bool := (Rleb lo x && Rleb x hi)%bool.

(** The middle of the data put in increasing order (the midpoint of the two middle values when
    their number is even). *)
Definition is_median (l : list R) (m : R) : Prop :=
  exists s, Permutation s l /\ Sorted Rle s /\ l <> [] /\
    m = (nth ((length l - 1) / 2) s 0 + nth (length l / 2) s 0) / 2.
(** Median absolute deviation. *)
Definition is_mad (l : list R) (d : R) : Prop :=
  exists m, is_median l m /\ is_median (map (fun x => Rabs (x - m)) l) d.

(** Least and greatest value, mean. *)
Definition is_max (l : list R) (m : R) : Prop := In m l /\ forall x, In x l -> x <= m.
Definition is_min (l : list R) (m : R) : Prop := In m l /\ forall x, In x l -> m <= x.
Fixpoint sum_over {A} (f : A -> R) (l : list A) : R := match l with [] => 0 | a :: l' => f a + sum_over f l' end.
Definition mean_over {A} (f : A -> R) (l : list A) : R := sum_over f l / INR (length l).
Definition sq_err (p : R * R) : R := (fst p - snd p) * (fst p - snd p).
