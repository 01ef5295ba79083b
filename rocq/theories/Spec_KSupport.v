(** Specification vocabulary for KSupportNorm: the k-support norm of the first d entries of a
    vector, as the dual of the Euclidean norm of the k largest entries. *)
From Verif Require Import NPReal Py Spec_SVD.
From Coq Require Import List Lia.
Import ListNotations.
Local Open Scope R_scope.

(** Any k of the first d entries of u have Euclidean norm at most 1. *)
Definition top_le_1 (k d : nat) (u : nat -> R) : Prop :=
  forall T, NoDup T -> Forall (fun i => (i < d)%nat) T -> (length T <= k)%nat ->
    rsum (map (fun i => u i * u i) T) <= 1.
(** c is the k-support norm of z. *)
Definition is_ksup (k d : nat) (z : nat -> R) (c : R) : Prop :=
  is_lub (fun r => exists u, top_le_1 k d u /\ r = dotv d z u) c.
Definition sqd (d : nat) (x y : nat -> R) : R := dotv d (fun i => x i - y i) (fun i => x i - y i).

(** p is the proximity point of (lam / 2) * norm^2 at w: every other point z is worse by at least
    half its squared distance to p. *)
Definition ksup_prox (k d : nat) (lam : R) (w p : nat -> R) : Prop :=
  forall z cp cz, is_ksup k d p cp -> is_ksup k d z cz ->
    / 2 * sqd d w p + lam / 2 * cp ^ 2 + / 2 * sqd d p z <= / 2 * sqd d w z + lam / 2 * cz ^ 2.

(** The entries of a flat array as a function. *)
Definition ent (l : list R) (i : nat) : R := nth i l 0.
