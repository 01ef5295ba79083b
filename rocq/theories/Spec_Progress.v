(** Specification for C128: what the user sees of the progress of a run. *)
From Verif Require Import Py Model_SetUp Model_Progress.
Local Open Scope nat_scope.

(** How often _update has been called. *)
Fixpoint updates (l : list act) : nat :=
  match l with [] => 0 | AUpdate _ :: l' => S (updates l') | _ :: l' => updates l' end.
(** How often "Converged!" has been printed. *)
Fixpoint messages (l : list act) : nat :=
  match l with [] => 0 | AConverged :: l' => S (messages l') | _ :: l' => messages l' end.
(** The calls of _update and of the metrics, in order, as in the model of the loop. *)
Fixpoint calls (l : list act) : list event :=
  match l with
  | [] => [] | AUpdate i :: l' => EUpdate i :: calls l' | AMetrics i :: l' => EMetrics i :: calls l'
  | AConverged :: l' => calls l'
  end.

(** A bar the code can test. *)
Inductive usable : bar -> Prop :=
| has_total t i c d : usable (mk_bar (Some t) i c d)
| has_iterable i c d : usable (mk_bar None (Some i) c d).
(** A bar whose truth value is true. *)
Inductive active : bar -> Prop :=
| positive_total t i c d : 0 < t -> active (mk_bar (Some t) i c d)
| true_iterable c d : active (mk_bar None (Some true) c d).

(** [advanced b k b']: b' is b after k calls of update(). *)
Definition advanced (b : bar) (k : nat) (b' : bar) : Prop :=
  b_total b' = b_total b /\ b_iterable b' = b_iterable b /\ b_closed b' = b_closed b /\ b_count b' = b_count b + k.

(** How k, the steps of the bar, relates to the number u of updates of a run of at most [max_iter]
    updates with result r: a last update that raises or after which the run has converged is not
    counted. *)
Definition bar_steps {S_} (converge : S_ -> bool) (max_iter u k : nat) (r : res S_) : Prop :=
  match r with
  | Err _ => u = k + 1
  | Ok s => (u = k + 1 /\ converge s = true) \/ (u = k /\ k = max_iter /\ (0 < max_iter -> converge s = false))
  end.
