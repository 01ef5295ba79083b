(** Model of opt/algorithms/gradient_descent.py on arrays with complex entries. An entry belongs to a
    real inner-product space E: the complex numbers are the plane [C_ips], where abs(z)**2 is [nsq z];
    E = R_ips is real data. The code multiplies complex arrays by real numbers and real arrays only:
    _speed_grad (:95, dtype=float) and with it the step are real, one number per entry. Exact
    arithmetic; a step whose denominator sqrt(speed) + eps is zero and the constructor's type checks
    are not modelled. The starting point is complex, so that _dir_grad and SAGA's memory, which take
    its dtype, are complex too. *)
From Verif Require Import NPReal Py IPS Model_SetUp Model_GD.
From Coq Require Import List Lia.
Import ListNotations.
Local Open Scope R_scope.

(** Complex numbers: real and imaginary part. *)
Definition C_ips : ips := prod_ips R_ips R_ips.

Section GDC.
Variables (E : ips) (I : Type).
Notation carr := (I -> E).
Variable grad : nat -> carr -> carr.
Variable prox : carr -> (I -> R) -> carr.     (* prox.op(x, extra_factor) *)

Record gdc := mk_gdc {
  c_class : gd_class;
  c_x_old : carr; c_x_new : carr; c_dir : carr; c_speed : I -> R;
  c_eta : R; c_eps : R; c_epoch_size : nat; c_eta_update : option (R -> nat -> R);
  c_beta_pow : R; c_gamma_pow : R;    (* ADAM *)
  c_memory : nat -> carr;             (* SAGA *)
  c_calls : nat }.

Definition czeros : carr := fun _ => vzero.

(** gradient_descent.py:71-119; 243-247 (Vanilla); 306-311 (RMSprop); 347-353 (Momentum);
    401-412 (ADAM); 446-451 (SAGA). *)
Definition gdc_init (c : gd_class) (x : carr) (eta eps : R) (epoch_size : nat) (eta_update : option (R -> nat -> R)) : res gdc :=
  let speed : I -> R := match c with Vanilla | Momentum _ => full 1 | _ => full 0 end in
  let eps' := match c with Vanilla | Momentum _ => 0 | _ => eps end in
  let ok := match c with
            | RMSprop g => in_range_closed g
            | Adam g b => in_range_open g && in_range_open b
            | _ => true
            end in
  if ok then Ok (mk_gdc c x x czeros speed eta eps' epoch_size eta_update 1 1 (fun _ => czeros) 0)
  else Err ValueError.

(** _update_grad_dir: :172, :364, :416-420, :462-464. Returns direction, beta_pow, memory. *)
Definition c_update_dir (s : gdc) (idx : nat) (g : carr) : carr * R * (nat -> carr) :=
  match c_class s with
  | Momentum beta => ((fun i => beta * c_dir s i + g i)%v, c_beta_pow s, c_memory s)
  | Adam gamma beta =>
      let bp := (c_beta_pow s * beta)%R in
      ((fun i => (1 / (1 - bp))%R * (beta * c_dir s i + (1 - beta)%R * g i))%v, bp, c_memory s)
  | Saga =>
      let cycle := Nat.modulo idx (c_epoch_size s) in
      ((fun i => vsub (c_dir s i) (c_memory s cycle i) + g i)%v, c_beta_pow s,
       (fun c => if Nat.eqb c cycle then g else c_memory s c))
  | _ => (g, c_beta_pow s, c_memory s)
  end.

(** _update_grad_speed: :183, :276, :322-324, :424-427; abs(grad) ** 2 is the squared modulus.
    Returns speed, gamma_pow. *)
Definition c_update_speed (s : gdc) (g : carr) : (I -> R) * R :=
  match c_class s with
  | Ada => ((fun i => c_speed s i + norm (g i) ^ 2), c_gamma_pow s)
  | RMSprop gamma => ((fun i => gamma * c_speed s i + (1 - gamma) * norm (g i) ^ 2), c_gamma_pow s)
  | Adam gamma beta =>
      let gp := c_gamma_pow s * gamma in
      ((fun i => 1 / (1 - gp) * (gamma * c_speed s i + (1 - gamma) * norm (g i) ^ 2)), gp)
  | _ => (c_speed s, c_gamma_pow s)
  end.

(** :146-156 for epoch_size > 0; the convergence test (:158-161) is in Model_SetUp. *)
Definition gdc_step (idx : nat) (s : gdc) : gdc :=
  let g := grad (c_calls s) (c_x_old s) in                                        (* :146 *)
  let '(dir, bp, mem) := c_update_dir s idx g in                                  (* :147 *)
  let '(speed, gp) := c_update_speed s g in                                       (* :148 *)
  let step : I -> R := fun i => c_eta s / (sqrt (speed i) + c_eps s) in           (* :149 *)
  let x_new : carr := fun i => vsub (c_x_old s i) (step i * dir i)%v in           (* :150 *)
  let epoch := Nat.eqb (Nat.modulo idx (c_epoch_size s)) 0 in                     (* :151 *)
  let dir := if epoch then match c_class s with Momentum _ => czeros | _ => dir end else dir in  (* :152, :229, :368 *)
  let x_new := if epoch then prox x_new step else x_new in                        (* :153, :194 *)
  let eta := match c_eta_update s with Some u => u (c_eta s) idx | None => c_eta s end in        (* :155-156 *)
  mk_gdc (c_class s) x_new x_new dir speed eta (c_eps s) (c_epoch_size s) (c_eta_update s) bp gp mem (S (c_calls s)).

(** idx % 0 raises ZeroDivisionError. *)
Definition gdc_update (cost : option (nat -> gdc -> bool)) (idx : nat) (a : alg_state gdc) : res (alg_state gdc) :=
  if Nat.eqb (c_epoch_size (data a)) 0 then Err ZeroDivisionError
  else alg_update GradientDescent gdc_step cost idx a.

(** n updates with idx = 0, ..., n-1, the order in which the loop does them. *)
Fixpoint gdc_after (n : nat) (s : gdc) : gdc :=
  match n with O => s | S n' => gdc_step n' (gdc_after n' s) end.

(** :133-138 *)
Definition gdc_iterate (cost : option (nat -> gdc -> bool)) (metric : nat -> gdc -> list bool)
    (has_metrics : bool) (period : option Z) (max_iter : nat) (s : gdc) : res carr :=
  do p <- run_alg (gdc_update cost) conv (alg_metrics metric) has_metrics period max_iter (mk_alg s [] false);
  Ok (c_x_new (data (fst p))).
End GDC.
Arguments mk_gdc {E I}. Arguments gdc_init {E I}. Arguments czeros {E I}.
Arguments c_class {E I}. Arguments c_x_old {E I}. Arguments c_x_new {E I}. Arguments c_dir {E I}. Arguments c_speed {E I}.
Arguments c_eta {E I}. Arguments c_eps {E I}. Arguments c_epoch_size {E I}. Arguments c_eta_update {E I}. Arguments c_beta_pow {E I}.
Arguments c_gamma_pow {E I}. Arguments c_memory {E I}. Arguments c_calls {E I}.
Arguments c_update_dir {E I}. Arguments c_update_speed {E I}. Arguments gdc_step {E I}. Arguments gdc_after {E I}.
Arguments gdc_iterate {E I}. Arguments gdc_update {E I}.
