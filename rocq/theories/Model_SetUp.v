(** Model of opt/algorithms/base.py: the iteration loop shared by every algorithm. *)
From Verif Require Import Py.
Local Open Scope nat_scope.

Section Loop.
Variable S_ : Type.                     (* all attributes of the algorithm object *)
Variable update : nat -> S_ -> res S_.  (* self._update() when self.idx = the first argument *)
Variable converge : S_ -> bool.         (* self.converge *)
Variable compute_metrics : nat -> S_ -> res S_.   (* self._compute_metrics(), base.py:242-250 *)
Variable has_metrics : bool.            (* truth value of self.metrics *)
Variable period : option Z.             (* self.metric_call_period *)

Inductive event := EUpdate (idx : nat) | EMetrics (idx : nat).

(** Truth value of a Python tuple: is it non-empty? *)
Definition tuple_truth {A} (t : list A) : bool := match t with [] => false | _ => true end.

(** base.py:271-281. The trailing comma at :275 makes [metric_conditions] a 1-tuple. *)
Definition metrics_step (max_iter idx : nat) (s : S_) (tr : list event) : res (S_ * list event) :=
  match has_metrics, period with
  | true, Some m =>
      if (m =? 0)%Z then Err ZeroDivisionError
      else
        let cond := ((Z.of_nat idx mod m =? 0)%Z || (Z.of_nat idx =? Z.of_nat max_iter - 1)%Z
                     || converge s)%bool in
        let metric_conditions := [cond] in
        if tuple_truth metric_conditions
        then do s' <- compute_metrics idx s; Ok (s', tr ++ [EMetrics idx])
        else Ok (s, tr)
  | _, _ => Ok (s, tr)
  end.

(** base.py:263-288, the for loop; [n] iterations remain. The progress bar and the
    message are in Model_Progress. *)
Fixpoint iterations_from (max_iter n idx : nat) (s : S_) (tr : list event) : res (S_ * list event) :=
  match n with
  | 0 => Ok (s, tr)
  | S n' =>
      do s1 <- update idx s;
      do p <- metrics_step max_iter idx s1 (tr ++ [EUpdate idx]);
      let '(s2, tr2) := p in
      if converge s2 then Ok (s2, tr2)
      else iterations_from max_iter n' (S idx) s2 tr2
  end.

(** base.py:252-288, 290-314 *)
Definition run_alg (max_iter : nat) (s : S_) : res (S_ * list event) :=
  iterations_from max_iter max_iter 0 s [].
End Loop.
Arguments run_alg {S_}. Arguments iterations_from {S_}. Arguments metrics_step {S_}.

(** * How each algorithm class sets [self.converge] at the end of [_update] *)

(** The object state split into the algorithm's own data, the convergence flags of the
    registered metric observers, and [self.converge]. *)
Record alg_state (D : Type) := mk_alg { data : D; flags : list bool; conv : bool }.
Arguments mk_alg {D}. Arguments data {D}. Arguments flags {D}. Arguments conv {D}.

Inductive alg_class := ForwardBackward | GenForwardBackward | POGM | Condat | GradientDescent | ADMM.

(** base.py:122-133 *)
Definition any_convergence_flag (fl : list bool) : bool := existsb (fun b => b) fl.

(** The end of [_update] for each class; [cost] is what self._cost_func.get_cost(x_new) returns,
    [None] if the object has no cost function.
    ForwardBackward forward_backward.py:462-465; GenForwardBackward :743-744; POGM :990-993;
    Condat primal_dual.py:217-219; GradientDescent gradient_descent.py:158-161;
    ADMM admm.py:172-174. (GenForwardBackward, POGM and Condat test [self._cost_func] the same way.) *)
Definition end_of_update {D} (cls : alg_class) (cost : option bool) (d : D) (s : alg_state D) : alg_state D :=
  match cost with
  | None => mk_alg d (flags s) (conv s)
  | Some c =>
      let cv :=
        match cls with
        | GenForwardBackward => c
        | ADMM => orb (any_convergence_flag (flags s)) c
        | _ => if any_convergence_flag (flags s) then true else c
        end in
      mk_alg d (flags s) cv
  end.

(** A whole update: [step] computes the new data, [cost] the cost verdict on it. *)
Definition alg_update {D} (cls : alg_class) (step : nat -> D -> D) (cost : option (nat -> D -> bool))
    (idx : nat) (s : alg_state D) : res (alg_state D) :=
  let d := step idx (data s) in
  Ok (end_of_update cls (match cost with None => None | Some c => Some (c idx d) end) d s).

(** Metric evaluation: each observer sets its own flag, [metric idx d] being the new flags. *)
Definition alg_metrics {D} (metric : nat -> D -> list bool) (idx : nat) (s : alg_state D) : res (alg_state D) :=
  Ok (mk_alg (data s) (metric idx (data s)) (conv s)).
