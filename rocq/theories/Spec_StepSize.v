(** Specification for C127: the length of the gradient step of an algorithm. It does not mention the
    model. *)
From Coq Require Import Reals.
Local Open Scope R_scope.

(** The step used when the argument step_size (None or a number) and the parameter of the class are
    given: 0 counts as not given. *)
Inductive step_used (param : R) : option R -> R -> Prop :=
| not_given : step_used param None param
| zero_given : step_used param (Some 0) param
| given s : s <> 0 -> step_used param (Some s) s.
