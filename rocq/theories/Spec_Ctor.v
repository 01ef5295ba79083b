(** Specification vocabulary for the constructors: which arguments are acceptable, stated from the
    documentation of the classes and not from the order of the checks. *)
From Coq Require Import String Reals.
From Verif Require Import Py Model_Ctor.
From Coq Require Import List Lia.
Import ListNotations.
Local Open Scope string_scope.

Definition is_array (v : pyval) : Prop := exists n, v = VArray n.
Definition is_float (v : pyval) : Prop := exists r, v = VFloat r.
Definition none_or_function (v : pyval) : Prop := v = VNone \/ v = VFun.
Definition costs (v : pyval) : Prop := exists r m, v = VObj r m (Some true).

(** bool(v) as the language reference defines it: None, False, zeros and empty containers are false. nan is
    true. *)
Inductive counts_as : pyval -> bool -> Prop :=
| ca_none : counts_as VNone false
| ca_bool b : counts_as (VBool b) b
| ca_int_0 : counts_as (VInt 0) false
| ca_int z : z <> 0%Z -> counts_as (VInt z) true
| ca_float_0 : counts_as (VFloat (Some 0%R)) false
| ca_float r : r <> 0%R -> counts_as (VFloat (Some r)) true
| ca_nan : counts_as (VFloat None) true
| ca_float32_0 : counts_as (VFloat32 0%R) false
| ca_float32 r : r <> 0%R -> counts_as (VFloat32 r) true
| ca_str_0 : counts_as (VStr "") false
| ca_str s : s <> "" -> counts_as (VStr s) true
| ca_empty_array : counts_as (VArray 0) false
| ca_list_0 : counts_as (VList []) false
| ca_list v l : counts_as (VList (v :: l)) true
| ca_fun : counts_as VFun true
| ca_obj r m c : counts_as (VObj r m c) true.

Definition metrics_ok (m : metrics_arg) : Prop :=
  match m with
  | MNone => True
  | MOther => False
  | MDict l => forall name keys, In (name, keys) l ->
                 In "metric" keys /\ In "mapping" keys /\ In "cst_kwargs" keys /\ In "early_stopping" keys
  end.
(** ForwardBackward and GenForwardBackward need a linear operator when there are metrics. *)
Definition linear_ok (k : cls) (c : call) : Prop :=
  (k = FB \/ k = GenFB) -> (exists p l, c_metrics c = MDict (p :: l)) -> c_linear c <> VNone.
Definition updates_ok (k : cls) (l : list pyval) : Prop :=
  match k with
  | FB => exists b u, l = [b; u] /\ none_or_function b /\ (none_or_function u \/ u = VStr "fista")
  | POGM => True
  | _ => Forall none_or_function l
  end.
(** sigma_bar is not a number outside [0, 1]. *)
Definition sigma_ok (k : cls) (l : list pyval) : Prop :=
  k = POGM -> forall b r, l = [b; VFloat (Some r)] -> (0 <= r <= 1)%R.
(** The truth value of step_size is defined. *)
Definition step_ok (k : cls) (c : call) : Prop :=
  k <> GradOpt -> forall n, kwarg (c_kwargs c) "step_size" = VArray n -> n = 0.

Definition acceptable (k : cls) (c : call) : Prop :=
  metrics_ok (c_metrics c) /\ Forall is_array (c_data c) /\
  (c_cost c = VStr "auto" -> Forall costs (c_ops c)) /\
  linear_ok k c /\ Forall is_float (c_params c) /\ sigma_ok k (c_params c) /\
  step_ok k c /\ updates_ok k (c_updates c).

(** Calls whose every step is modelled. *)
Definition modelled (c : call) : Prop :=
  (forall n, c_cost c <> VArray n) /\ kwarg (c_kwargs c) "step_size" <> VArray 1.

(** The argument that is the step size, and the other numeric parameters. *)
Definition step_argument (k : cls) (c : call) : pyval :=
  match k with Condat => nth 2 (c_params c) VNone | _ => nth 0 (c_params c) VNone end.
Definition other_arguments (k : cls) (c : call) : list pyval :=
  match k with Condat => firstn 2 (c_params c) | _ => skipn 1 (c_params c) end.

(** Inherits from one of the operator parents. *)
Definition proper (v : pyval) : Prop :=
  exists p, In p ["GradParent"; "ProximityParent"; "LinearParent"; "costObj"] /\ In p (tree v).

(** The operators a class looks at. *)
Definition looked_at (k : cls) (c : call) (v : pyval) : Prop :=
  In v (c_ops c) \/ v = c_cost c \/ (k = Condat /\ v = c_linear c).

(** [l'] consists of the members of [l] that satisfy P, in the same order and as often. *)
Inductive selected {A} (P : A -> Prop) : list A -> list A -> Prop :=
| sel_nil : selected P [] []
| sel_keep x l l' : P x -> selected P l l' -> selected P (x :: l) (x :: l')
| sel_drop x l l' : ~ P x -> selected P l l' -> selected P (x :: l) l'.

(** The same call with operators of other classes: f keeps what is not an object, and the cost attribute. *)
Definition reclassed (f : pyval -> pyval) : Prop :=
  forall v, match v with VObj _ _ cst => exists r m, f v = VObj r m cst | _ => f v = v end.
Definition with_operators (f : pyval -> pyval) (c : call) : call :=
  mk_call (c_data c) (map f (c_ops c)) (f (c_cost c)) (f (c_linear c)) (c_params c) (c_updates c) (c_metrics c) (c_kwargs c).
Definition with_kwargs (c : call) (l : list (string * pyval)) : call :=
  mk_call (c_data c) (c_ops c) (c_cost c) (c_linear c) (c_params c) (c_updates c) (c_metrics c) l.
