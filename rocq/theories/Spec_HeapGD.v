(** Specification vocabulary for C134. *)
From Verif Require Import IPS Model_Heap Spec_Heap.
From Coq Require Import List.

(** The operator does not write into the arrays of its own that it made in earlier calls. *)
Definition keeps_results {V} (k : nat) (op : hop2 V) : Prop :=
  forall h i o q, i < next h -> o < next h -> q < next h -> own h q = Oper k -> q <> i -> q <> o ->
  rd (fst (op h i o)) q = rd h q.

(** A two-argument operator that writes its results into a private array number c. *)
Definition op2_buffer {V} (k c : nat) (f : V -> V -> V) : hop2 V := fun h i o => op_buffer k c (fun _ => f (rd h i) (rd h o)) h i.
