(** Model of the progress bar and the message of opt/algorithms/base.py, and of the bar in
    Condat.iterate. The loop itself is the one of Model_SetUp. *)
From Verif Require Import Py Model_SetUp.
Local Open Scope nat_scope.

(** A tqdm bar, as far as the code uses it. By contract with tqdm (tqdm/std.py): update() adds 1
    to the count, reset(total=t) sets the count to 0 and the total to t, close() leaves both; an
    iterable is recorded by its truth value. The bar is not disabled. *)
Record bar := mk_bar { b_total : option nat; b_iterable : option bool; b_count : nat; b_closed : bool }.

(** tqdm.__bool__ (tqdm/std.py): a bar without total and iterable has no truth value. *)
Definition bar_truth (b : bar) : res bool :=
  match b_total b with
  | Some t => Ok (Nat.ltb 0 t)
  | None => match b_iterable b with Some i => Ok i | None => Err TypeError end
  end.
Definition bar_update (b : bar) : bar := mk_bar (b_total b) (b_iterable b) (S (b_count b)) (b_closed b).
Definition bar_reset (t : nat) (b : bar) : bar := mk_bar (Some t) (b_iterable b) 0 (b_closed b).
Definition bar_close (b : bar) : bar := mk_bar (b_total b) (b_iterable b) (b_count b) true.

(** What can be observed of a run: calls of _update and of _compute_metrics, and printing. *)
Inductive act := AUpdate (idx : nat) | AMetrics (idx : nat) | AConverged.

(** The actions up to the end of the run or an exception, the bar, and the outcome. *)
Record outcome (S_ : Type) := mk_out { o_acts : list act; o_bar : option bar; o_res : res S_ }.
Arguments mk_out {S_}. Arguments o_acts {S_}. Arguments o_bar {S_}. Arguments o_res {S_}.

Section Loop.
Variable S_ : Type.
Variable update : nat -> S_ -> res S_.
Variable converge : S_ -> bool.
Variable compute_metrics : nat -> S_ -> res S_.
Variable has_metrics : bool.
Variable period : option Z.
Variable verbose progress : bool.

(** base.py:287-288, where progbar may be None *)
Definition tick (pb : option bar) : res (option bar) :=
  match pb with
  | None => Ok None
  | Some b => do t <- bar_truth b; Ok (Some (if t : bool then bar_update b else b))
  end.

(** base.py:271-280: evaluate the metrics; the actions are recorded even if this raises. *)
Definition metrics_acts (max_iter idx : nat) (s : S_) : list act * res S_ :=
  match has_metrics, period with
  | true, Some m => if (m =? 0)%Z then ([], Err ZeroDivisionError) else ([AMetrics idx], compute_metrics idx s)
  | _, _ => ([], Ok s)
  end.

(** base.py:263-288; [n] iterations remain. *)
Fixpoint iterations_pb (max_iter n idx : nat) (s : S_) (pb : option bar) (tr : list act) : outcome S_ :=
  match n with
  | 0 => mk_out tr pb (Ok s)
  | S n' =>
      let tr1 := tr ++ [AUpdate idx] in
      match update idx s with
      | Err e => mk_out tr1 pb (Err e)
      | Ok s1 =>
          let '(ma, r) := metrics_acts max_iter idx s1 in
          match r with
          | Err e => mk_out (tr1 ++ ma) pb (Err e)
          | Ok s2 =>
              if converge s2 then mk_out (tr1 ++ ma ++ (if verbose then [AConverged] else [])) pb (Ok s2)
              else match tick pb with
                   | Err e => mk_out (tr1 ++ ma) pb (Err e)
                   | Ok pb' => iterations_pb max_iter n' (S idx) s2 pb' (tr1 ++ ma)
                   end
          end
      end
  end.

(** base.py:308-314. The first component is the bar the algorithm opens itself; the with statement
    closes it, also after an exception. The bar in the outcome is the user's. *)
Definition run_alg_pb (max_iter : nat) (progbar : option bar) (s : S_) : option bar * outcome S_ :=
  match progress, progbar with
  | true, None =>
      let o := iterations_pb max_iter max_iter 0 s (Some (mk_bar (Some max_iter) None 0 false)) [] in
      (option_map bar_close (o_bar o), mk_out (o_acts o) None (o_res o))
  | _, Some b =>
      match bar_truth b with
      | Err e => (None, mk_out [] (Some b) (Err e))
      | Ok true => (None, iterations_pb max_iter max_iter 0 s (Some b) [])
      | Ok false => let o := iterations_pb max_iter max_iter 0 s None [] in (None, mk_out (o_acts o) (Some b) (o_res o))
      end
  | false, None => (None, iterations_pb max_iter max_iter 0 s None [])
  end.

(** primal_dual.py:237-244; [reweight] is None without a reweighting object. The bars opened by the
    algorithm are listed in order. *)
Fixpoint reweightings_pb (reweight : S_ -> res S_) (k max_iter : nat) (progbar : option bar) (s : S_)
    (tr : list act) : list (option bar) * outcome S_ :=
  match k with
  | 0 => ([], mk_out tr progbar (Ok s))
  | S k' =>
      match reweight s with
      | Err e => ([], mk_out tr progbar (Err e))
      | Ok s1 =>
          match match progbar with None => Ok None | Some b => do t <- bar_truth b; Ok (Some (if t : bool then bar_reset max_iter b else b)) end with
          | Err e => ([], mk_out tr progbar (Err e))
          | Ok pb =>
              let '(own, o) := run_alg_pb max_iter pb s1 in
              match o_res o with
              | Err e => ([own], mk_out (tr ++ o_acts o) (o_bar o) (Err e))
              | Ok s2 => let '(owns, o') := reweightings_pb reweight k' max_iter (o_bar o) s2 (tr ++ o_acts o) in (own :: owns, o')
              end
          end
      end
  end.
Definition condat_runs_pb (reweight : option (S_ -> res S_)) (n_rewightings max_iter : nat) (progbar : option bar)
    (s : S_) : list (option bar) * outcome S_ :=
  let '(own, o) := run_alg_pb max_iter progbar s in
  match o_res o, reweight with
  | Ok s1, Some rw =>
      let '(owns, o') := reweightings_pb rw n_rewightings max_iter (o_bar o) s1 (o_acts o) in (own :: owns, o')
  | _, _ => ([own], o)
  end.
End Loop.
Arguments iterations_pb {S_}. Arguments run_alg_pb {S_}. Arguments reweightings_pb {S_}. Arguments condat_runs_pb {S_}.
Arguments metrics_acts {S_}.
