(** Model of what opt/cost.py prints and of how it calls the cost methods of the operators, and of
    plot/cost_plot.py. The evaluation itself is the one of Model_Cost. *)
From Verif Require Import NPReal Py Model_Cost Model_Stats.
From Coq Require Import String List ZArith.
Import ListNotations.
Local Open Scope R_scope.

(** The parameters of a Python function (without self for a bound method): name and "has a
    default", in order; *args; keyword-only parameters; **kwargs. Positional-only parameters are
    not modelled. *)
Record signature := mk_sig { s_pos : list (string * bool); s_varargs : bool; s_kwonly : list (string * bool); s_varkw : bool }.

Definition names (l : list (string * bool)) : list string := map fst l.
Definition mem (k : string) (l : list string) : bool := existsb (String.eqb k) l.

(** Python's binding of a call with [n] positional arguments and the keywords [kws]. *)
Definition bind_call (s : signature) (n : nat) (kws : list string) : res unit :=
  if negb (orb (Nat.leb n (List.length (s_pos s))) (s_varargs s)) then Err TypeError          (* too many positional *)
  else
    let filled := names (firstn n (s_pos s)) in
    let free := (skipn n (s_pos s) ++ s_kwonly s)%list in
    if existsb (fun k => mem k filled) kws then Err TypeError                            (* multiple values *)
    else if existsb (fun k => negb (orb (mem k (names free)) (s_varkw s))) kws then Err TypeError  (* unexpected keyword *)
    else if existsb (fun p => negb (orb (snd p) (mem (fst p) kws))) free then Err TypeError        (* missing argument *)
    else Ok tt.

(** An operator's cost method: its signature, the value it returns and the lines it prints itself,
    depending on the point and on the value of verbose it is given. *)
Record cost_op (X : Type) := mk_cop { co_sig : signature; co_val : X -> bool -> R; co_out : X -> bool -> list string }.
Arguments mk_cop {X}. Arguments co_sig {X}. Arguments co_val {X}. Arguments co_out {X}.

(** cost.py:314, called at cost.py:188: op.cost( *args, verbose=self._verbose) for each operator, [n] the number
    of positional arguments. Returns what was printed and the result. *)
Fixpoint calc_list {X} (n : nat) (verbose : bool) (ops : list (cost_op X)) (x : X) : list string * res (list R) :=
  match ops with
  | [] => ([], Ok [])
  | o :: ops' =>
      match bind_call (co_sig o) n ["verbose"%string] with
      | Err e => ([], Err e)
      | Ok _ =>
          let '(out, r) := calc_list n verbose ops' x in
          ((co_out o x verbose ++ out)%list, do l <- r; Ok (co_val o x verbose :: l))
      end
  end.
Definition calc_io {X} (n : nat) (verbose : bool) (ops : list (cost_op X)) (x : X) : list string * res R :=
  let '(out, r) := calc_list n verbose ops x in (out, do l <- r; Ok (rsum l)).

(** Printed lines. [LChange None]: nan. *)
Inductive line :=
| LIteration (i : Z) | LOp (s : string) | LCost (c : R) | LBlank | LTest | LChange (d : option R).

(** cost.py:115-128: cost_diff for a complete test list *)
Definition cost_diff (tl : list R) : option R :=
  let half := (List.length tl / 2)%nat in
  match npmean (skipn half tl) with
  | None => None
  | Some t1 =>
      if Req_EM_T (around 16 t1) 0 then Some 0
      else match npmean (firstn half tl) with None => None | Some t2 => Some (Rabs (t1 - t2) / Rabs t1) end
  end.
(** cost.py:133-136 *)
Definition check_lines (c : cost_cfg) (verbose : bool) (tl : list R) : list line :=
  if (Z.of_nat (List.length tl) =? test_range c)%Z then if verbose then [LTest; LChange (cost_diff tl); LBlank] else [] else [].

(** cost.py:175-201; [calc] is what self._calc_cost prints and returns when it is called. *)
Definition get_cost_io (c : cost_cfg) (verbose : bool) (s : cost_st) (calc : list string * res R)
  : cost_st * list line * res bool :=
  let '(s', r) := get_cost c s (snd calc) in
  let lines :=
    match cost_interval c with
    | None => []
    | Some k =>
        if (k =? 0)%Z then []
        else if (iteration s mod k =? 0)%Z then
          ((if verbose then [LIteration (iteration s)] else []) ++ map LOp (fst calc) ++
           match snd calc with
           | Err _ => []
           | Ok v => (if verbose then [LCost v; LBlank] else []) ++ check_lines c verbose (test_list s ++ [v])
           end)%list
        else []
    end in
  (s', lines, r).

(** Successive calls at the points [xs] (exceptions handled by the caller). *)
Fixpoint calls_io {X} (c : cost_cfg) (verbose : bool) (n : nat) (ops : list (cost_op X)) (xs : list X) (s : cost_st) : cost_st * list line :=
  match xs with
  | [] => (s, [])
  | x :: xs' =>
      let '(s1, l1, _) := get_cost_io c verbose s (calc_io n verbose ops x) in
      let '(s2, l2) := calls_io c verbose n ops xs' s1 in (s2, (l1 ++ l2)%list)
  end.

(** A figure: the file it is saved to and the points of its line, the abscissa of
    plt.plot(values) being the position in the list. *)
Record figure := mk_fig { f_name : string; f_points : list (nat * fval); f_xlabel : string }.

(** cost_plot.py:37-54 and cost.py:209; [mpl]: is matplotlib installed? *)
Definition plot_cost (mpl : bool) (costs : list R) (output : option string) : res figure :=
  if negb mpl then Err ImportError
  else
    let file_name := match output with None => "cost_function.png"%string | Some o => (o ++ "_cost_function.png")%string end in
    let values := map (fun c => flog10 (Fin c)) costs in
    Ok (mk_fig file_name (combine (seq 0 (List.length values)) values) "Iteration"%string).
