(** Specification vocabulary for C09-C14, independent of the models. *)
From Coq Require Export Reals Lra.
From Verif Require Import Py.

(** [L] lists the distinct members of the history [H] in order of first occurrence. *)
Definition distinct_in_first_order (H L : list nat) : Prop :=
  NoDup L /\ (forall o, In o L <-> In o H) /\
  forall i j a b, i < j -> nth_error L i = Some a -> nth_error L j = Some b ->
    exists k, nth_error H k = Some a /\ ~ In b (firstn (S k) H).

(** Observers registered for [sig] by a history of (signal, observer) registrations. *)
Definition registered_for (sig : nat) (h : list (nat * nat)) : list nat :=
  map snd (filter (fun p => Nat.eqb (fst p) sig) h).

(** What keyword [k] of the metric function is bound to: the last constant of that name, otherwise
    the attribute of the last mapping entry with that target. *)
Definition keyword_value {V} (mapping : list (nat * option nat)) (constants : list (nat * V))
  (attr : nat -> option V) (k : nat) : option V :=
  match find (fun p => Nat.eqb (fst p) k) (rev constants) with
  | Some p => Some (snd p)
  | None => match find (fun p => match snd p with Some t => Nat.eqb t k | None => false end) (rev mapping) with
            | Some p => attr (fst p)
            | None => None
            end
  end.
(** Every attribute the mapping uses exists. *)
Definition attributes_present {V} (mapping : list (nat * option nat)) (attr : nat -> option V) : Prop :=
  forall key t, In (key, Some t) mapping -> attr key <> None.

Open Scope R_scope.

Fixpoint total (l : list R) : R := match l with [] => 0 | x :: l' => x + total l' end.
Definition average (l : list R) : R := total l / INR (length l).

(** Relative change of the averages of the two halves of the last 2k values is below eps. *)
Definition windowed_change_below (k : nat) (eps : R) (values : list R) : Prop :=
  exists before older newer, values = before ++ older ++ newer /\
    length older = k /\ length newer = k /\
    average older <> 0 /\ Rabs (average older - average newer) < eps * Rabs (average older).

Definition nondecreasing (l : list R) : Prop :=
  forall i j a b, (i <= j)%nat -> nth_error l i = Some a -> nth_error l j = Some b -> a <= b.
