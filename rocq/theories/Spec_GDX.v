(** Specification vocabulary for C144: arrays of finite floating-point values. *)
From Verif Require Import NPReal Py Model_Stats.
From Coq Require Import List Lia FunctionalExtensionality.
Import ListNotations.
Local Open Scope R_scope.

Definition fin {I} (x : I -> R) : I -> fval := fun i => Fin (x i).
(** The operators do on finite arrays what [grad] and [prox] do. *)
Definition extends {I} (gradX : nat -> (I -> fval) -> I -> fval) (proxX : (I -> fval) -> (I -> fval) -> I -> fval)
    (grad : nat -> (I -> R) -> I -> R) (prox : (I -> R) -> (I -> R) -> I -> R) : Prop :=
  (forall k x, gradX k (fin x) = fin (grad k x)) /\ (forall y t, proxX (fin y) (fin t) = fin (prox y t)).
