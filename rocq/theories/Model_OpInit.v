(** Model of how operator objects are put together: the setters of ProximityParent, LinearParent and
    GradParent, and the checks of ProximityCombo, LinearCombo and costObj on the operators they are
    given. F is the type of Python callables; what they compute is in the other models. *)
From Verif Require Import NPReal Py.
From Coq Require Import List ZArith.
Import ListNotations.

Section Ops.
Context {F : Type}.

(** A Python object, as far as callable() distinguishes it. *)
Inductive obj := Fun (f : F) | NotCallable.

(** base/types.py:30-32 *)
Definition check_callable (v : obj) : res F := match v with Fun f => Ok f | NotCallable => Err TypeError end.

(** An attribute of an object: an ordinary one, found in the instance or else in its class; or a
    property of the parent classes below (None: not set yet), whose setter runs check_callable; or
    a property without setter. *)
Inductive attr := Plain (inst cls : option obj) | Checked (stored : option F) | ReadOnly (v : obj).

(** getattr; a property of GradParent that has not been set raises AttributeError. *)
Definition getattr (a : attr) : res obj :=
  match a with
  | Plain (Some v) _ | Plain None (Some v) => Ok v
  | Plain None None => Err AttributeError
  | Checked (Some f) => Ok (Fun f)
  | Checked None => Err AttributeError
  | ReadOnly v => Ok v
  end.
Definition hasattr (a : attr) : bool := is_ok (getattr a).
(** opt/proximity.py:57-59, 76-78; opt/linear/base.py:41-43, 50-52; opt/gradient.py:125-127, 143-145, 152-154,
    172-174 for [Checked] *)
Definition setattr (a : attr) (v : obj) : res attr :=
  match a with
  | Plain _ c => Ok (Plain (Some v) c)
  | Checked _ => do f <- check_callable v; Ok (Checked (Some f))
  | ReadOnly _ => Err AttributeError
  end.
(** Replacing a method in the class. *)
Definition set_class (a : attr) (v : obj) : attr := match a with Plain i _ => Plain i (Some v) | a => a end.

(** An operator given to a combination: op, and cost (ProximityCombo) or adj_op (LinearCombo). *)
Record uop := mk_uop { a_op : attr; a_snd : attr }.

(** operator.op = check_callable(operator.op), and the same for the other attribute *)
Definition recheck (a : attr) : attr * res unit :=
  match (do v <- getattr a; do f <- check_callable v; setattr a (Fun f)) with Ok a' => (a', Ok tt) | Err e => (a, Err e) end.

(** proximity.py:524-530 and linear/base.py:196-204: one operator *)
Definition check_operator (o : uop) : uop * res unit :=
  if negb (hasattr (a_op o)) then (o, Err ValueError)
  else if negb (hasattr (a_snd o)) then (o, Err ValueError)
  else
    let '(a1, r1) := recheck (a_op o) in
    match r1 with
    | Err e => (mk_uop a1 (a_snd o), Err e)
    | Ok _ => let '(a2, r2) := recheck (a_snd o) in (mk_uop a1 a2, r2)
    end.

(** The loop over the operators: the operators afterwards and the outcome. *)
Fixpoint check_operators (l : list uop) : list uop * res unit :=
  match l with
  | [] => ([], Ok tt)
  | o :: l' =>
      let '(o1, r) := check_operator o in
      match r with
      | Err e => (o1 :: l', Err e)
      | Ok _ => let '(l1, r1) := check_operators l' in (o1 :: l1, r1)
      end
  end.

(** The argument operators: a list, tuple or array of operators, or something else. *)
Inductive ops_arg := OSeq (l : list uop) | OOther.

(** proximity.py:479-532: ProximityCombo *)
Definition prox_combo_init (a : ops_arg) : list uop * res (list uop) :=
  match a with
  | OOther => ([], Err TypeError)
  | OSeq [] => ([], Err ValueError)
  | OSeq l => let '(l', r) := check_operators l in (l', do _u <- r; Ok l')
  end.

(** The argument weights of LinearCombo: None, a list, tuple or array of numbers, or something
    else. np.array of numbers has a floating dtype if there is a float and no complex number. *)
Inductive num := WInt (z : Z) | WFloat (r : R) | WComplex (c : R * R).
Inductive weights_arg := WNone | WSeq (l : list num) | WOther.
Definition floating (l : list num) : bool :=
  andb (existsb (fun x => match x with WFloat _ => true | _ => false end) l)
       (forallb (fun x => match x with WComplex _ => false | _ => true end) l).
Definition num_value (x : num) : R := match x with WInt z => IZR z | WFloat r => r | WComplex c => fst c end.

(** linear/base.py:127-217: LinearCombo *)
Definition lin_combo_init (a : ops_arg) (w : weights_arg) : list uop * res (list uop * option (list R)) :=
  match a with
  | OOther => ([], Err TypeError)
  | OSeq [] => ([], Err ValueError)
  | OSeq l =>
      let '(l', r) := check_operators l in
      (l', do _u <- r;
           match w with
           | WNone => Ok (l', None)
           | WOther => Err TypeError
           | WSeq [] => Err ValueError
           | WSeq ws => if negb (Nat.eqb (List.length ws) (List.length l)) then Err ValueError
                        else if negb (floating ws) then Err TypeError
                        else Ok (l', Some (map num_value ws))
           end)
  end.

(** cost.py:291-294: costObj; the other attribute is not looked at. *)
Fixpoint check_costs (l : list attr) : list attr * res unit :=
  match l with
  | [] => ([], Ok tt)
  | a :: l' =>
      if negb (hasattr a) then (l, Err ValueError)
      else let '(a1, r) := recheck a in
           match r with
           | Err e => (a1 :: l', Err e)
           | Ok _ => let '(l1, r1) := check_costs l' in (a1 :: l1, r1)
           end
  end.

(** proximity.py:49-51, linear/base.py (LinearParent.__init__): both callables are required. *)
Definition parent_init (op second : obj) : res uop :=
  do f <- check_callable op; do g <- check_callable second; Ok (mk_uop (Checked (Some f)) (Checked (Some g))).

(** gradient.py:75-81, after the observed data have been accepted (Model_Obs) *)
Record gradient := mk_gradient { g_op : attr; g_trans_op : attr; g_get_grad : attr; g_cost : attr }.
Definition optional (v : option obj) : res attr :=
  match v with None => Ok (Checked None) | Some v => do f <- check_callable v; Ok (Checked (Some f)) end.
Definition grad_init (op trans_op : obj) (get_grad cost : option obj) : res gradient :=
  do f <- check_callable op; do g <- check_callable trans_op; do h <- optional get_grad; do c <- optional cost;
  Ok (mk_gradient (Checked (Some f)) (Checked (Some g)) h c).

(** forward_backward.py:374-377 and the like: with cost="auto" the algorithm builds
    costObj([grad, prox]). *)
Definition auto_cost (g : gradient) (prox : uop) : res unit := snd (check_costs [g_cost g; a_snd prox]).
End Ops.
Arguments obj : clear implicits. Arguments attr : clear implicits. Arguments uop : clear implicits.
Arguments ops_arg : clear implicits. Arguments gradient : clear implicits.
