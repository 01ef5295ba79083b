(** Specification vocabulary for C137: penalties without constraint. *)
From Verif Require Import NPReal IPS Spec_Opt Spec_Dual.
From Coq Require Import List.
Import ListNotations.
Local Open Scope R_scope.

(** A penalty that is finite at every point and whose values are Lipschitz. *)
Definition finite_term {H : ips} (t : term H) : Prop := (forall x, t_dom t x) /\ exists G, 0 <= G /\ lipschitz_values G (t_val t).

(** At most one element of the list does not satisfy P. *)
Definition all_but_one {A} (P : A -> Prop) (l : list A) : Prop := exists l1 a l2, l = l1 ++ a :: l2 /\ Forall P l1 /\ Forall P l2.
