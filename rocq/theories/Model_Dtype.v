(** Model of the data types of the arrays inside the algorithms: which iterations raise because an array
    operation works in place. Only the kinds of data types matter: integer, real, complex. Values are
    elsewhere (Model_FB, Model_PD, Model_GD, Model_ADMM). *)
From Verif Require Import Py.
From Coq Require Import List Lia.
Import ListNotations.

Inductive dt := DInt | DReal | DComplex.
Definition rank (d : dt) : nat := match d with DInt => 0 | DReal => 1 | DComplex => 2 end.
Definition dle (a b : dt) : bool := Nat.leb (rank a) (rank b).
(** numpy.result_type of two arrays; a Python float counts as [DReal]. *)
Definition join (a b : dt) : dt := if dle a b then b else a.
(** a += b, a /= b and numpy.copyto(a, b) need casting='same_kind': the result keeps the type of a. *)
Definition in_place (a b : dt) : res dt := if dle b a then Ok a else Err TypeError.

(** An operator, as far as types go: the type it returns for an argument of a given type. *)
Definition typed_op := dt -> dt.

Section Alg.
Variable g : typed_op.     (* grad.grad after grad.get_grad(x) *)
Variable p : typed_op.     (* prox.op *)

(** ForwardBackward: types of (_x_old, _z_old). forward_backward.py:441-456, restarting or not. *)
Definition fb_types (restart : bool) (s : dt * dt) : res (dt * dt) :=
  let '(x, z) := s in
  let y := join z (join DReal (g z)) in                                (* :442 *)
  let x_new := p y in                                                  (* :445 *)
  let z_new := if restart then x_new else join x (join DReal (join x_new x)) in   (* :448, :452 *)
  Ok (x_new, z_new).                                                   (* :455-456 *)

(** GenForwardBackward with proximity operators [ps]: types of (_x_old, _z). forward_backward.py:719-737. *)
Fixpoint genfb_loop (ps : list typed_op) (x z : dt) : res dt :=
  match ps with
  | [] => Ok z
  | q :: ps' =>
      let z_temp := join (join x z) (join DReal (g x)) in              (* :723 *)
      let z_prox := q z_temp in                                        (* :724-727 *)
      do z' <- in_place z (join DReal (join z_prox x));                (* :728 *)
      genfb_loop ps' x z'
  end.
Definition genfb_types (ps : list typed_op) (s : dt * dt) : res (dt * dt) :=
  let '(x, z) := s in
  do z' <- genfb_loop ps x z;
  let x_new := join z' DReal in                                        (* :731-734 *)
  do x' <- in_place x x_new;                                           (* :737 *)
  Ok (x', z').

(** POGM: types of (_u_old, _x_old, _y_old, _z, _g_old). forward_backward.py:937-987. *)
Record pogm_t := mk_pt { pu : dt; px : dt; py : dt; pz : dt; pg : dt }.
Definition pogm_init (u x y z : dt) : pogm_t := mk_pt u x y z (g x).    (* :887-890, 919-920 *)
Definition pogm_types (s : pogm_t) : res pogm_t :=
  let gr := g (px s) in
  do u_new <- in_place (join DReal gr) (px s);                         (* :939-940 *)
  let z0 := join DReal (join (px s) (pz s)) in                         (* :949 *)
  do z1 <- in_place z0 u_new;                                          (* :950 *)
  do z2 <- in_place z1 (join DReal (join u_new (pu s)));               (* :951 *)
  do z3 <- in_place z2 (join DReal (join u_new (px s)));               (* :952 *)
  let x_new := p z3 in                                                 (* :958 *)
  do g1 <- in_place (join z3 x_new) DReal;                             (* :963-964 *)
  do g_new <- in_place g1 gr;                                          (* :965 *)
  do y_new <- in_place (join DReal g_new) (px s);                      (* :969-970 *)
  do u' <- in_place (pu s) u_new;                                      (* :984 *)
  do x' <- in_place (px s) x_new;                                      (* :985 *)
  do g' <- in_place (pg s) g_new;                                      (* :986 *)
  do y' <- in_place (py s) y_new;                                      (* :987 *)
  Ok (mk_pt u' x' y' z3 g').

(** Condat: types of (_x_old, _y_old); [pd] prox_dual.op, [l] linear.op, [l'] linear.adj_op. primal_dual.py:186-211. *)
Definition condat_types (pd l l' : typed_op) (s : dt * dt) : res (dt * dt) :=
  let '(x, y) := s in
  let x_prox := p (join (join x (join DReal (g x))) (join DReal (l' y))) in       (* :188-192 *)
  let y_temp := join y (join DReal (l (join x_prox x))) in             (* :195 *)
  let y_prox := join y_temp (join DReal (pd (join y_temp DReal))) in   (* :197-200 *)
  let x_new := join (join DReal x_prox) (join DReal x) in              (* :203 *)
  let y_new := join (join DReal y_prox) (join DReal y) in              (* :204 *)
  do x' <- in_place x x_new;                                           (* :210 *)
  do y' <- in_place y y_new;                                           (* :211 *)
  Ok (x', y').

(** The gradient descent classes by what their direction is made of: the gradient alone (Generic, Vanilla, AdaGrad, RMSprop), a
    weighted sum with the previous direction (Momentum, ADAM), or SAGA's sum. *)
Inductive gd_kind := GradientOnly | MomentumSum | AdamSum | SagaSum.
(** Types of (_x_old, _dir_grad, _grad_memory), and whether SAGA's assignment to its memory (which converts to the type of the
    memory whatever is assigned) lost something. gradient_descent.py:146-154, 172, 364, 368, 418-420, 446-451, 462-464. *)
Definition gd_types (k : gd_kind) (epoch : bool) (s : dt * dt * dt) : res (dt * dt * dt * bool) :=
  let '(x, d, mem) := s in
  let gr := g x in
  let dir := match k with
             | GradientOnly => gr                                      (* :172 *)
             | MomentumSum => join (join DReal d) gr                   (* :364 *)
             | AdamSum => join DReal (join (join DReal d) (join DReal gr))   (* :418-420 *)
             | SagaSum => join (join d mem) gr                         (* :463 *)
             end in
  let lost := match k with SagaSum => negb (dle gr mem) | _ => false end in    (* :464 *)
  let x_new := join x (join DReal dir) in                              (* :150 *)
  let dir := match k with MomentumSum => if epoch then x_new else dir | _ => dir end in   (* :152, :368 *)
  let x_new := if epoch then p x_new else x_new in                     (* :153, :194 *)
  Ok (x_new, dir, mem, lost).
End Alg.

(** n iterations. *)
Fixpoint repeat_types {S_} (f : S_ -> res S_) (n : nat) (s : S_) : res S_ :=
  match n with 0 => Ok s | S n' => do s' <- f s; repeat_types f n' s' end.
