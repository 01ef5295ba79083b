(** What a user expects of operator objects, in terms of reading and assigning attributes. *)
From Verif Require Import NPReal Py Model_OpInit.
From Coq Require Import List.
Import ListNotations.

Section Spec.
Context {F : Type}.

(** obj.name evaluates to v. *)
Inductive reads : attr F -> obj F -> Prop :=
| reads_instance v c : reads (Plain (Some v) c) v
| reads_class v : reads (Plain None (Some v)) v
| reads_property f : reads (Checked (Some f)) (Fun f)
| reads_read_only v : reads (ReadOnly v) v.

(** obj.name = ... is allowed. *)
Inductive assignable : attr F -> Prop :=
| assignable_plain i c : assignable (Plain i c)
| assignable_property s : assignable (Checked s).

Definition absent (a : attr F) : Prop := forall v, ~ reads a v.
Definition callable (a : attr F) : Prop := exists f, reads a (Fun f).
Definition good (a : attr F) : Prop := callable a /\ assignable a.
Definition good_op (o : uop F) : Prop := good (a_op o) /\ good (a_snd o).

(** Why an operator is refused; the two methods are looked up before either is examined. *)
Inductive refused_for : uop F -> exn -> Prop :=
| no_op o : absent (a_op o) -> refused_for o ValueError
| no_second o : absent (a_snd o) -> refused_for o ValueError
| op_not_callable o : reads (a_op o) NotCallable -> ~ absent (a_snd o) -> refused_for o TypeError
| op_fixed o : callable (a_op o) -> ~ assignable (a_op o) -> ~ absent (a_snd o) -> refused_for o AttributeError
| second_not_callable o : good (a_op o) -> reads (a_snd o) NotCallable -> refused_for o TypeError
| second_fixed o : good (a_op o) -> callable (a_snd o) -> ~ assignable (a_snd o) -> refused_for o AttributeError.

(** Two operators that behave alike as long as nothing is reassigned. *)
Definition same_methods (o o' : uop F) : Prop :=
  (forall v, reads (a_op o) v <-> reads (a_op o') v) /\ (forall v, reads (a_snd o) v <-> reads (a_snd o') v).

(** A history of assignments to one attribute, failed ones being caught by the caller. *)
Fixpoint assign_all (a : attr F) (l : list (obj F)) : attr F :=
  match l with [] => a | v :: l' => assign_all (match setattr a v with Ok a' => a' | Err _ => a end) l' end.
End Spec.
