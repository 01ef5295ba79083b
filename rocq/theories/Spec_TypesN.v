(** Specification vocabulary for conversions of nested sequences. *)
From Verif Require Import NPReal Py Model_Stats Proof_Types Model_TypesN.
From Coq Require Import ZArith List Lia.
Import ListNotations.
Local Open Scope R_scope.

(** A nested sequence has shape d1 x d2 x ... when it has d1 items, each of shape d2 x .... *)
Fixpoint rectangular (t : tree) (s : list nat) : Prop :=
  match s, t with
  | [], Leaf _ => True
  | d :: s', Seq l => length l = d /\ (l = [] -> s' = []) /\ Forall (fun u => rectangular u s') l
  | _, _ => False
  end.

(** t[i][j]..., when that is a number. *)
Fixpoint item (t : tree) (idx : list nat) : option number :=
  match idx, t with
  | [], Leaf n => Some n
  | i :: r, Seq l => match nth_error l i with Some u => item u r | None => None end
  | _, _ => None
  end.

Fixpoint size (s : list nat) : nat := match s with [] => 1 | d :: s' => d * size s' end.

(** Position of a multi-index in row major order; None out of range. *)
Fixpoint position (s idx : list nat) : option nat :=
  match s, idx with
  | [], [] => Some O
  | d :: s', i :: r =>
      if (i <? d)%nat then match position s' r with Some p => Some (i * size s' + p)%nat | None => None end else None
  | _, _ => None
  end.

(** The float equal to a number; the integer it truncates to. *)
Definition float_value (n : number) (v : fval) : Prop :=
  match n with NumI z => v = Fin (IZR z) | NumF w => v = w end.
Definition int_value (n : number) (z : Z) : Prop :=
  match n with NumI y => z = y | NumF (Fin r) => is_truncation z r | NumF _ => False end.
Definition has_float (n : number) : Prop := match n with NumI z => (Z.abs z < 2 ^ 1024 - 2 ^ 970)%Z | NumF _ => True end.
Definition has_int64 (n : number) : Prop := exists z, int_value n z /\ (- 2 ^ 63 <= z < 2 ^ 63)%Z.
