(** Model of what the constructors of the algorithm classes check and store: opt/algorithms/base.py
    (SetUp), forward_backward.py (ForwardBackward, GenForwardBackward, POGM), primal_dual.py (Condat),
    gradient_descent.py (GenericGradOpt). Only what is checked, warned about and stored as a setting is
    modelled; copying the data, GenForwardBackward's weights (Model_FB), the parameters of FISTA
    (Model_FB), POGM's initial gradient (Model_FB) and the backend (Model_Backend) are elsewhere. *)
From Coq Require Import String Reals.
From Verif Require Import Py.
From Coq Require Import List Lia.
Import ListNotations.
Local Open Scope string_scope.

(** What a user can pass. [VFloat None] is nan; numpy.float64 is a subclass of float and numpy.float32
    is not. [VArray] records the number of entries. An object is described by what str(obj.__class__)
    prints, the names of the classes it inherits from (its own first), and its [cost] attribute: [None]
    when there is none, else whether it is callable. *)
Inductive pyval :=
| VNone | VBool (b : bool) | VInt (z : Z) | VFloat (r : option R) | VFloat32 (r : R)
| VStr (s : string) | VArray (size : nat) | VList (l : list pyval) | VFun
| VObj (repr : string) (mro : list string) (cost : option bool).
(** A metrics argument: None, a dictionary from names to the keys of each metric's own dictionary, or
    anything else. *)
Inductive metrics_arg := MNone | MDict (l : list (string * list string)) | MOther.

Inductive cls := FB | GenFB | POGM | Condat | GradOpt.

(** The arguments of a call: [c_data] is (x), (x), (u, x, y, z), (x, y), (x); [c_ops] the operators other
    than cost and linear: (grad, prox), (grad, *prox_list), (grad, prox), (grad, prox, prox_dual),
    (grad, prox); [c_params] the numeric parameters: (beta_param, lambda_param), (gamma_param,
    lambda_param), (beta_param, sigma_bar), (rho, sigma, tau), (eta, epsilon); [c_updates] the updates:
    (beta_update, lambda_update), (gamma_update, lambda_update), (), (rho_update, sigma_update,
    tau_update), (eta_update); [c_kwargs] the other keyword arguments. *)
Record call := mk_call {
  c_data : list pyval; c_ops : list pyval; c_cost : pyval; c_linear : pyval;
  c_params : list pyval; c_updates : list pyval; c_metrics : metrics_arg; c_kwargs : list (string * pyval) }.

(** Truth value; an array with several entries has none. *)
Definition truth (v : pyval) : res bool :=
  match v with
  | VNone => Ok false
  | VBool b => Ok b
  | VInt z => Ok (negb (z =? 0)%Z)
  | VFloat (Some r) => Ok (if Req_EM_T r 0 then false else true)
  | VFloat None => Ok true
  | VFloat32 r => Ok (if Req_EM_T r 0 then false else true)
  | VStr s => Ok (negb (String.eqb s ""))
  | VArray 0 => Ok false
  | VArray 1 => Err NotModelled
  | VArray _ => Err ValueError
  | VList l => Ok (negb (Nat.eqb (length l) 0))
  | VFun | VObj _ _ _ => Ok true
  end.
(** a or b *)
Definition py_or (a b : pyval) : res pyval := do t <- truth a; Ok (if t then a else b).

(** kwargs.get(name) *)
Definition kwarg (l : list (string * pyval)) (name : string) : pyval :=
  match find (fun p => String.eqb (fst p) name) l with Some p => snd p | None => VNone end.

(** base.py:64-104: the metrics must be a dictionary (:111-120) whose values have the four keys
    (:92-99). dummy_kwargs (:72) takes any other keyword. *)
Definition metric_keys : list string := ["metric"; "mapping"; "cst_kwargs"; "early_stopping"].
Definition has_key (l : list string) (k : string) : bool := existsb (String.eqb k) l.
Definition setup_init (m : metrics_arg) : res unit :=
  match m with
  | MNone => Ok tt
  | MOther => Err TypeError
  | MDict l => if forallb (fun p => forallb (has_key (snd p)) metric_keys) l then Ok tt else Err KeyError
  end.

(** base.py:158-177 (numpy backend) *)
Definition check_input_data (v : pyval) : res unit := match v with VArray _ => Ok tt | _ => Err TypeError end.
(** base.py:179-196 *)
Definition check_param (v : pyval) : res unit := match v with VFloat _ => Ok tt | _ => Err TypeError end.
(** base.py:198-221; objects with a __call__ method are not modelled. *)
Definition check_param_update (v : pyval) : res unit := match v with VNone | VFun => Ok tt | _ => Err TypeError end.

(** [op.__name__ for op in getmro(operator.__class__)] and str(operator.__class__). *)
Definition tree (v : pyval) : list string :=
  match v with
  | VNone => ["NoneType"; "object"] | VBool _ => ["bool"; "int"; "object"] | VInt _ => ["int"; "object"]
  | VFloat _ => ["float"; "object"] | VFloat32 _ => ["float32"; "floating"; "inexact"; "number"; "generic"; "object"]
  | VStr _ => ["str"; "object"] | VArray _ => ["ndarray"; "object"] | VList _ => ["list"; "object"]
  | VFun => ["function"; "object"] | VObj _ mro _ => mro
  end.
Definition class_repr (v : pyval) : string :=
  match v with
  | VNone => "<class 'NoneType'>" | VBool _ => "<class 'bool'>" | VInt _ => "<class 'int'>"
  | VFloat _ => "<class 'float'>" | VFloat32 _ => "<class 'numpy.float32'>"
  | VStr _ => "<class 'str'>" | VArray _ => "<class 'numpy.ndarray'>" | VList _ => "<class 'list'>"
  | VFun => "<class 'function'>" | VObj r _ _ => r
  end.
(** base.py:80-85 *)
Definition op_parents : list string := ["GradParent"; "ProximityParent"; "LinearParent"; "costObj"].
(** base.py:223-240: the warnings. *)
Definition check_operator (v : pyval) : list string :=
  match v with
  | VNone => []
  | _ => if existsb (has_key (tree v)) op_parents then []
         else [class_repr v ++ " does not inherit an operator parent."]
  end.

(** The [cost] attribute: no built-in type has one. *)
Definition cost_attr (v : pyval) : option bool := match v with VObj _ _ c => c | _ => None end.
(** costObj(operators): cost.py:291-294 (see Model_Cost.check_each) *)
Fixpoint cost_init (ops : list pyval) : res unit :=
  match ops with
  | [] => Ok tt
  | v :: ops' => match cost_attr v with
                 | None => Err ValueError
                 | Some false => Err TypeError
                 | Some true => cost_init ops'
                 end
  end.
Definition is_auto (v : pyval) : bool := match v with VStr s => String.eqb s "auto" | _ => false end.
(** cost == "auto"; with an array the comparison is made entry by entry. *)
Definition cost_setting (cost : pyval) (ops : list pyval) : res unit :=
  match cost with
  | VArray _ => Err NotModelled
  | _ => if is_auto cost then cost_init ops else Ok tt
  end.

Fixpoint check_all (f : pyval -> res unit) (l : list pyval) : res unit :=
  match l with [] => Ok tt | v :: l' => do _ <- f v; check_all f l' end.

(** metrics and linear is None: forward_backward.py:383-386, 614-617 *)
Definition linear_for_metrics (m : metrics_arg) (linear : pyval) : res unit :=
  match m, linear with MDict (_ :: _), VNone => Err ValueError | _, _ => Ok tt end.

(** sigma_bar < 0 or sigma_bar > 1: forward_backward.py:911-912; both are False for nan. *)
Definition sigma_bar_range (v : pyval) : res unit :=
  match v with
  | VFloat (Some r) => if Rlt_dec r 0 then Err ValueError else if Rgt_dec r 1 then Err ValueError else Ok tt
  | _ => Ok tt
  end.

(** The settings that are stored: the step size, the other numeric parameters, and the update functions
    that will be used ([true]: the FISTA object's, instead of the user's). *)
Record settings := mk_set { s_step : pyval; s_others : list pyval; s_updates : list pyval; s_fista : bool }.

Definition nthv (l : list pyval) (k : nat) : pyval := nth k l VNone.

(** The order in which the operators are looked at. *)
Definition operator_order (k : cls) (c : call) : list pyval :=
  match k with
  | FB | POGM | GradOpt => c_ops c ++ [c_cost c]                        (* fb.py:370, 893, gd.py:101 *)
  | GenFB => match c_ops c with g :: prox_list => g :: c_cost c :: prox_list | [] => [c_cost c] end   (* fb.py:601 *)
  | Condat => c_ops c ++ [c_linear c; c_cost c]                         (* pd.py:113 *)
  end.

(** The checks that come before, and after, the operators. *)
Definition before_operators (c : call) : res unit :=
  do _ <- setup_init (c_metrics c); check_all check_input_data (c_data c).
(** forward_backward.py:373-409, 604-634, 896-915; primal_dual.py:116-149; gradient_descent.py:103-117. FISTA's own
    validation of its parameters is Model_FB.fista_init; here it has the default parameters. *)
Definition after_operators (k : cls) (c : call) : res settings :=
  do _ <- cost_setting (c_cost c) (c_ops c);
  let step_size := kwarg (c_kwargs c) "step_size" in
  match k with
  | FB =>
      do _ <- linear_for_metrics (c_metrics c) (c_linear c);
      do _ <- check_all check_param (c_params c);
      do step <- py_or step_size (nthv (c_params c) 0);
      do _ <- check_param_update (nthv (c_updates c) 0);
      match nthv (c_updates c) 1 with
      | VStr s => if String.eqb s "fista"
                  then Ok (mk_set step [nthv (c_params c) 1] (c_updates c) true)
                  else Err TypeError
      | v => do _ <- check_param_update v; Ok (mk_set step [nthv (c_params c) 1] (c_updates c) false)
      end
  | GenFB =>
      do _ <- linear_for_metrics (c_metrics c) (c_linear c);
      do _ <- check_all check_param (c_params c);
      do step <- py_or step_size (nthv (c_params c) 0);
      do _ <- check_all check_param_update (c_updates c);
      Ok (mk_set step [nthv (c_params c) 1] (c_updates c) false)
  | POGM =>
      do _ <- check_all check_param (c_params c);
      do _ <- sigma_bar_range (nthv (c_params c) 1);
      do step <- py_or step_size (nthv (c_params c) 0);
      Ok (mk_set step [nthv (c_params c) 1] (c_updates c) false)
  | Condat =>
      do _ <- check_all check_param (c_params c);
      do step <- py_or step_size (nthv (c_params c) 2);
      do _ <- check_all check_param_update (c_updates c);
      Ok (mk_set step [nthv (c_params c) 0; nthv (c_params c) 1] (c_updates c) false)
  | GradOpt =>
      do _ <- check_all check_param (c_params c);
      do _ <- check_all check_param_update (c_updates c);
      Ok (mk_set (nthv (c_params c) 0) [nthv (c_params c) 1] (c_updates c) false)
  end.

(** A constructor call with auto_iterate=False: the warnings and the outcome. *)
Definition construct (k : cls) (c : call) : list string * res settings :=
  match before_operators c with
  | Err e => ([], Err e)
  | Ok _ => (flat_map check_operator (operator_order k c), after_operators k c)
  end.

(** A call has the arguments of the class. *)
Definition arity (k : cls) : nat * nat * nat * nat :=   (* data, operators (at least), parameters, updates *)
  match k with FB => (1, 2, 2, 2) | GenFB => (1, 1, 2, 2) | POGM => (4, 2, 2, 0) | Condat => (2, 3, 3, 3) | GradOpt => (1, 2, 2, 1) end.
Definition well_formed (k : cls) (c : call) : Prop :=
  let '(d, o, p, u) := arity k in
  length (c_data c) = d /\ (match k with GenFB => o <= length (c_ops c) | _ => length (c_ops c) = o end) /\
  length (c_params c) = p /\ length (c_updates c) = u.
