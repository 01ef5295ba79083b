(** Model of a whole call of iterate: the loop of Model_SetUp, an algorithm's update, and the actual cost
    object of Model_Cost at the end of the update. *)
From Verif Require Import NPReal Py Model_SetUp Model_Cost.
From Coq Require Import List Lia.
Import ListNotations.

(** [_update] of an object whose data are [D], with a cost object whose function is [F] at the point
    that the class passes to get_cost. The end of the update:
    forward_backward.py:462-465 (ForwardBackward), 743-744 (GenForwardBackward), 990-993 (POGM);
    primal_dual.py:217-219; gradient_descent.py:158-161; admm.py:172-174.
    "any_convergence_flag() or get_cost(x)" does not call get_cost when a flag is set; GenForwardBackward
    and ADMM always call it. *)
Definition update_with_cost {D} (k : alg_class) (step : nat -> D -> D) (F : D -> R) (cfg : cost_cfg)
    (idx : nat) (a : alg_state (D * cost_st)) : res (alg_state (D * cost_st)) :=
  let d := step idx (fst (data a)) in
  let c := snd (data a) in
  let flag := any_convergence_flag (flags a) in
  let finish (c' : cost_st) (v : bool) := Ok (mk_alg (d, c') (flags a) v) in
  match k with
  | GenForwardBackward =>
      let '(c', r) := get_cost cfg c (Ok (F d)) in do v <- r; finish c' v
  | ADMM =>
      let '(c', r) := get_cost cfg c (Ok (F d)) in do v <- r; finish c' (orb flag v)
  | _ => if flag then finish c true
         else let '(c', r) := get_cost cfg c (Ok (F d)) in do v <- r; finish c' v
  end.

(** iterate(max_iter) on an object in state [a] (forward_backward.py:480-485, 759-764, 1008-1013, primal_dual.py:238-258,
    gradient_descent.py:133-138, admm.py:186-190), as far as the attributes go. retrieve_outputs replaces
    self.metrics by a dictionary with the same keys, so its truth value does not change. *)
Definition iterate {D} (k : alg_class) (step : nat -> D -> D) (F : D -> R) (cfg : cost_cfg) (metric : D -> list bool)
    (has_metrics : bool) (period : option Z) (max_iter : nat) (a : alg_state (D * cost_st))
    : res (alg_state (D * cost_st) * list event) :=
  run_alg (update_with_cost k step F cfg) conv (alg_metrics (fun _ d => metric (fst d))) has_metrics period max_iter a.
