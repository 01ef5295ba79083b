(** Specification vocabulary for C124: how an operator may treat the arrays it receives and returns. *)
From Verif Require Import IPS Model_Heap.
From Coq Require Import List.
Import ListNotations.

(** Operator number k computes the relation F: the array it returns holds the right value, and is
    its argument or an array of its own, old or new.  It may overwrite its own arrays; it leaves those of the
    caller, of the algorithm and of other operators alone, except that with [inplace] it may overwrite
    its argument. *)
Definition computes {V} (k : nat) (inplace : bool) (F : V -> V -> Prop) (op : hop V) : Prop :=
  forall h r w, r < next h -> F (rd h r) w ->
  let '(h', r') := op h r in
  next h <= next h' /\ r' < next h' /\ rd h' r' = w /\ (r' = r \/ own h' r' = Oper k) /\
  (forall q, q < next h -> own h' q = own h q /\
     (own h q <> Oper k -> inplace = false \/ q <> r -> rd h' q = rd h q)) /\
  (forall q, next h <= q < next h' -> own h' q = Oper k).

(** The result is always a new array and no existing array is changed. *)
Definition creates {V} (k : nat) (F : V -> V -> Prop) (op : hop V) : Prop :=
  forall h r w, r < next h -> F (rd h r) w ->
  let '(h', r') := op h r in
  next h <= r' < next h' /\ rd h' r' = w /\
  (forall q, q < next h -> own h' q = own h q /\ rd h' q = rd h q) /\
  (forall q, next h <= q < next h' -> own h' q = Oper k).

(** The same for the two-argument callables of ADMM; with [inplace] the first argument may be
    overwritten, the second always may. *)
Definition computes2 {V} (k : nat) (inplace : bool) (F : V -> V -> V) (op : hop2 V) : Prop :=
  forall h i o, i < next h -> o < next h ->
  let '(h', r') := op h i o in
  next h <= next h' /\ r' < next h' /\ rd h' r' = F (rd h i) (rd h o) /\ (r' = i \/ r' = o \/ own h' r' = Oper k) /\
  (forall q, q < next h -> own h' q = own h q /\
     (own h q <> Oper k -> inplace = false \/ q <> i -> q <> o -> rd h' q = rd h q)) /\
  (forall q, next h <= q < next h' -> own h' q = Oper k).

Definition fn {V} (f : V -> V) : V -> V -> Prop := fun v w => w = f v.

(** From h to h' no array whose owner satisfies P has changed. *)
Definition keeps {V} (P : owner -> Prop) (h h' : heap V) : Prop :=
  next h <= next h' /\ forall q, q < next h -> own h' q = own h q /\ (P (own h q) -> rd h' q = rd h q).

(** Operators between the primal and the dual space, on a heap that holds arrays of both. *)
Definition HtoH {H K : Type} (f : H -> H) : H + K -> H + K -> Prop := fun v w => exists x, v = inl x /\ w = inl (f x).
Definition HtoK {H K : Type} (f : H -> K) : H + K -> H + K -> Prop := fun v w => exists x, v = inl x /\ w = inr (f x).
Definition KtoH {H K : Type} (f : K -> H) : H + K -> H + K -> Prop := fun v w => exists y, v = inr y /\ w = inl (f y).
Definition KtoK {H K : Type} (f : K -> K) : H + K -> H + K -> Prop := fun v w => exists y, v = inr y /\ w = inr (f y).

(** Four ways of writing an operator that computes f: returning a new array; returning the argument
    (f the identity); writing into the argument; writing into a private array number c, created when
    it does not exist. *)
Definition owner_eqb (o o' : owner) : bool :=
  match o, o' with
  | Caller, Caller | Alg, Alg => true
  | Oper k, Oper k' => Nat.eqb k k'
  | _, _ => false
  end.
Definition op_new {V} (k : nat) (f : V -> V) : hop V := fun h r =>
  (mk_heap (S (next h)) (fun q => if Nat.eqb q (next h) then (Oper k, f (rd h r)) else cells h q), next h).
Definition op_same {V} : hop V := fun h r => (h, r).
Definition op_inplace {V} (f : V -> V) : hop V := fun h r => (wr h r (f (rd h r)), r).
Definition op_buffer {V} (k c : nat) (f : V -> V) : hop V := fun h r =>
  if (Nat.ltb c (next h) && owner_eqb (own h c) (Oper k))%bool then (wr h c (f (rd h r)), c) else op_new k f h r.
Definition op2_new {V} (k : nat) (f : V -> V -> V) : hop2 V := fun h i o => op_new k (fun _ => f (rd h i) (rd h o)) h i.
Definition op2_inplace {V} (f : V -> V -> V) : hop2 V := fun h i o => (wr h i (f (rd h i) (rd h o)), i).
