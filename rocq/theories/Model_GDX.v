(** Model of opt/algorithms/gradient_descent.py on real arrays whose entries may become infinite or
    nan: a division by zero gives what NumPy gives (with a warning) instead of being left out as in
    Model_GD. Finite values are exact reals, so nothing overflows. A zero has no sign here: the only
    denominators of the code are sqrt(speed) + epsilon, a sum, which is never the negative zero, and
    1 - beta^k, which does not vanish. *)
From Verif Require Import NPReal Py Model_SetUp Model_Stats Model_GD.
From Coq Require Import List Lia.
Import ListNotations.
Local Open Scope R_scope.

(** * Arithmetic of floating-point values *)
Definition xopp (u : fval) : fval := match u with Fin a => Fin (- a) | PInf => NInf | NInf => PInf | NaN => NaN end.
Definition xadd (u v : fval) : fval :=
  match u, v with
  | NaN, _ | _, NaN => NaN
  | Fin a, Fin b => Fin (a + b)
  | PInf, NInf | NInf, PInf => NaN
  | PInf, _ | _, PInf => PInf
  | NInf, _ | _, NInf => NInf
  end.
Definition xsub (u v : fval) : fval := xadd u (xopp v).
(** The infinity of the sign of a, nan for a = 0. *)
Definition inf_of (a : R) : fval := if Rlt_dec 0 a then PInf else if Rlt_dec a 0 then NInf else NaN.
Definition xmul (u v : fval) : fval :=
  match u, v with
  | NaN, _ | _, NaN => NaN
  | Fin a, Fin b => Fin (a * b)
  | Fin a, PInf | PInf, Fin a => inf_of a
  | Fin a, NInf | NInf, Fin a => inf_of (- a)
  | PInf, PInf | NInf, NInf => PInf
  | PInf, NInf | NInf, PInf => NInf
  end.
(** a / v for a finite a. *)
Definition xdiv (a : R) (v : fval) : fval :=
  match v with
  | NaN => NaN
  | PInf | NInf => Fin 0
  | Fin b => if Req_EM_T b 0 then inf_of a else Fin (a / b)
  end.
Definition xsqrt (v : fval) : fval :=
  match v with Fin a => if Rlt_dec a 0 then NaN else Fin (sqrt a) | PInf => PInf | NInf => NaN | NaN => NaN end.
(** abs(v) ** 2 *)
Definition xabs2 (v : fval) : fval := match v with Fin a => Fin (Rabs a ^ 2) | PInf | NInf => PInf | NaN => NaN end.

Section GDX.
Variable I : Type.
Notation xarr := (I -> fval).
Variable grad : nat -> xarr -> xarr.
Variable prox : xarr -> xarr -> xarr.     (* prox.op(x, extra_factor) *)

Record gdx := mk_gdx {
  x_class : gd_class;
  x_x_old : xarr; x_x_new : xarr; x_dir : xarr; x_speed : xarr;
  x_eta : R; x_eps : R; x_epoch_size : nat; x_eta_update : option (R -> nat -> R);
  x_beta_pow : R; x_gamma_pow : R;
  x_memory : nat -> xarr;
  x_calls : nat }.

(** gradient_descent.py:71-119; 243-247 (Vanilla); 306-311 (RMSprop); 347-353 (Momentum);
    401-412 (ADAM); 446-451 (SAGA). *)
Definition gdx_init (c : gd_class) (x : xarr) (eta eps : R) (epoch_size : nat) (eta_update : option (R -> nat -> R)) : res gdx :=
  let zeros : xarr := fun _ => Fin 0 in
  let speed : xarr := match c with Vanilla | Momentum _ => fun _ => Fin 1 | _ => zeros end in
  let eps' := match c with Vanilla | Momentum _ => 0 | _ => eps end in
  let ok := match c with
            | RMSprop g => in_range_closed g
            | Adam g b => in_range_open g && in_range_open b
            | _ => true
            end in
  if ok then Ok (mk_gdx c x x zeros speed eta eps' epoch_size eta_update 1 1 (fun _ => zeros) 0)
  else Err ValueError.

(** _update_grad_dir: :172, :364, :416-420, :462-464. Returns direction, beta_pow, memory. *)
Definition x_update_dir (s : gdx) (idx : nat) (g : xarr) : xarr * R * (nat -> xarr) :=
  match x_class s with
  | Momentum beta => ((fun i => xadd (xmul (Fin beta) (x_dir s i)) (g i)), x_beta_pow s, x_memory s)
  | Adam gamma beta =>
      let bp := x_beta_pow s * beta in
      ((fun i => xmul (Fin (1 / (1 - bp))) (xadd (xmul (Fin beta) (x_dir s i)) (xmul (Fin (1 - beta)) (g i)))), bp, x_memory s)
  | Saga =>
      let cycle := Nat.modulo idx (x_epoch_size s) in
      ((fun i => xadd (xsub (x_dir s i) (x_memory s cycle i)) (g i)), x_beta_pow s,
       (fun c => if Nat.eqb c cycle then g else x_memory s c))
  | _ => (g, x_beta_pow s, x_memory s)
  end.

(** _update_grad_speed: :183, :276, :322-324, :424-427. Returns speed, gamma_pow. *)
Definition x_update_speed (s : gdx) (g : xarr) : xarr * R :=
  match x_class s with
  | Ada => ((fun i => xadd (x_speed s i) (xabs2 (g i))), x_gamma_pow s)
  | RMSprop gamma => ((fun i => xadd (xmul (Fin gamma) (x_speed s i)) (xmul (Fin (1 - gamma)) (xabs2 (g i)))), x_gamma_pow s)
  | Adam gamma beta =>
      let gp := x_gamma_pow s * gamma in
      ((fun i => xmul (Fin (1 / (1 - gp))) (xadd (xmul (Fin gamma) (x_speed s i)) (xmul (Fin (1 - gamma)) (xabs2 (g i))))), gp)
  | _ => (x_speed s, x_gamma_pow s)
  end.

(** :146-156 for epoch_size > 0. *)
Definition gdx_step (idx : nat) (s : gdx) : gdx :=
  let g := grad (x_calls s) (x_x_old s) in                                        (* :146 *)
  let '(dir, bp, mem) := x_update_dir s idx g in                                  (* :147 *)
  let '(speed, gp) := x_update_speed s g in                                       (* :148 *)
  let step : xarr := fun i => xdiv (x_eta s) (xadd (xsqrt (speed i)) (Fin (x_eps s))) in    (* :149 *)
  let x_new : xarr := fun i => xsub (x_x_old s i) (xmul (step i) (dir i)) in      (* :150 *)
  let epoch := Nat.eqb (Nat.modulo idx (x_epoch_size s)) 0 in                     (* :151 *)
  let dir := if epoch then match x_class s with Momentum _ => fun _ => Fin 0 | _ => dir end else dir in  (* :152, :229, :368 *)
  let x_new := if epoch then prox x_new step else x_new in                        (* :153, :194 *)
  let eta := match x_eta_update s with Some u => u (x_eta s) idx | None => x_eta s end in        (* :155-156 *)
  mk_gdx (x_class s) x_new x_new dir speed eta (x_eps s) (x_epoch_size s) (x_eta_update s) bp gp mem (S (x_calls s)).

(** n updates with idx = 0, ..., n-1, the order in which the loop does them. *)
Fixpoint gdx_after (n : nat) (s : gdx) : gdx :=
  match n with O => s | S n' => gdx_step n' (gdx_after n' s) end.
End GDX.
Arguments mk_gdx {I}. Arguments gdx_init {I}.
Arguments x_class {I}. Arguments x_x_old {I}. Arguments x_x_new {I}. Arguments x_dir {I}. Arguments x_speed {I}.
Arguments x_eta {I}. Arguments x_eps {I}. Arguments x_epoch_size {I}. Arguments x_eta_update {I}. Arguments x_beta_pow {I}.
Arguments x_gamma_pow {I}. Arguments x_memory {I}. Arguments x_calls {I}.
Arguments x_update_dir {I}. Arguments x_update_speed {I}. Arguments gdx_step {I}. Arguments gdx_after {I}.
