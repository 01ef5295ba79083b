(** Model of opt/algorithms/gradient_descent.py. An array of shape I is a function I -> R; every
    operation of this file acts entry by entry, so I is an arbitrary index set. Real data, exact
    arithmetic: a scalar is the constant array, a step whose denominator sqrt(speed) + eps is zero
    is not modelled. The constructor's type checks are not modelled. *)
From Verif Require Import NPReal Py Model_SetUp.
From Coq Require Import List Lia.
Import ListNotations.
Local Open Scope R_scope.

Section GD.
Variable I : Type.
Definition arr : Type := I -> R.
Definition full (c : R) : arr := fun _ => c.

(** grad.grad after the k-th call of grad.get_grad, at the point x: it may change from call to call
    (stochastic gradients). *)
Variable grad : nat -> arr -> arr.
Variable prox : arr -> arr -> arr.     (* prox.op(x, extra_factor) *)

Inductive gd_class :=
| Generic | Vanilla | Ada
| RMSprop (gamma : R)
| Momentum (beta : R)
| Adam (gamma beta : R)
| Saga.

Record gd := mk_gd {
  d_class : gd_class;
  d_x_old : arr; d_x_new : arr; d_dir : arr; d_speed : arr;
  d_eta : R; d_eps : R; d_epoch_size : nat; d_eta_update : option (R -> nat -> R);
  d_beta_pow : R; d_gamma_pow : R;    (* ADAM *)
  d_memory : nat -> arr;              (* SAGA: _grad_memory[i], i < epoch_size *)
  d_calls : nat }.

Definition in_range_closed (g : R) : bool := if Rlt_dec g 0 then false else if Rgt_dec g 1 then false else true.
Definition in_range_open (g : R) : bool := if Rlt_dec g 0 then false else if Rge_dec g 1 then false else true.

(** gradient_descent.py:71-119; 243-247 (Vanilla); 306-311 (RMSprop); 347-353 (Momentum);
    401-412 (ADAM); 446-451 (SAGA). *)
Definition gd_init (c : gd_class) (x : arr) (eta eps : R) (epoch_size : nat) (eta_update : option (R -> nat -> R)) : res gd :=
  let speed := match c with Vanilla | Momentum _ => full 1 | _ => full 0 end in
  let eps' := match c with Vanilla | Momentum _ => 0 | _ => eps end in
  let ok := match c with
            | RMSprop g => in_range_closed g
            | Adam g b => in_range_open g && in_range_open b
            | _ => true
            end in
  if ok then Ok (mk_gd c x x (full 0) speed eta eps' epoch_size eta_update 1 1 (fun _ => full 0) 0)
  else Err ValueError.

(** _update_grad_dir: :172, :364, :416-420, :462-464. Returns direction, beta_pow, memory. *)
Definition update_dir (s : gd) (idx : nat) (g : arr) : arr * R * (nat -> arr) :=
  match d_class s with
  | Momentum beta => ((fun i => beta * d_dir s i + g i), d_beta_pow s, d_memory s)
  | Adam gamma beta =>
      let bp := d_beta_pow s * beta in
      ((fun i => 1 / (1 - bp) * (beta * d_dir s i + (1 - beta) * g i)), bp, d_memory s)
  | Saga =>
      let cycle := Nat.modulo idx (d_epoch_size s) in
      ((fun i => d_dir s i - d_memory s cycle i + g i), d_beta_pow s,
       (fun c => if Nat.eqb c cycle then g else d_memory s c))
  | _ => (g, d_beta_pow s, d_memory s)
  end.

(** _update_grad_speed: :183, :276, :322-324, :424-427. Returns speed, gamma_pow. *)
Definition update_speed (s : gd) (g : arr) : arr * R :=
  match d_class s with
  | Ada => ((fun i => d_speed s i + Rabs (g i) ^ 2), d_gamma_pow s)
  | RMSprop gamma => ((fun i => gamma * d_speed s i + (1 - gamma) * Rabs (g i) ^ 2), d_gamma_pow s)
  | Adam gamma beta =>
      let gp := d_gamma_pow s * gamma in
      ((fun i => 1 / (1 - gp) * (gamma * d_speed s i + (1 - gamma) * Rabs (g i) ^ 2)), gp)
  | _ => (d_speed s, d_gamma_pow s)
  end.

(** :146-156 for epoch_size > 0; the convergence test (:158-161) is in Model_SetUp. *)
Definition gd_step (idx : nat) (s : gd) : gd :=
  let g := grad (d_calls s) (d_x_old s) in                                        (* :146 *)
  let '(dir, bp, mem) := update_dir s idx g in                                    (* :147 *)
  let '(speed, gp) := update_speed s g in                                         (* :148 *)
  let step : arr := fun i => d_eta s / (sqrt (speed i) + d_eps s) in              (* :149 *)
  let x_new : arr := fun i => d_x_old s i - step i * dir i in                     (* :150 *)
  let epoch := Nat.eqb (Nat.modulo idx (d_epoch_size s)) 0 in                     (* :151 *)
  let dir := if epoch then match d_class s with Momentum _ => full 0 | _ => dir end else dir in  (* :152, :229, :368 *)
  let x_new := if epoch then prox x_new step else x_new in                        (* :153, :194 *)
  let eta := match d_eta_update s with Some u => u (d_eta s) idx | None => d_eta s end in        (* :155-156 *)
  mk_gd (d_class s) x_new x_new dir speed eta (d_eps s) (d_epoch_size s) (d_eta_update s) bp gp mem (S (d_calls s)).

(** idx % 0 raises ZeroDivisionError. *)
Definition gd_update (cost : option (nat -> gd -> bool)) (idx : nat) (a : alg_state gd) : res (alg_state gd) :=
  if Nat.eqb (d_epoch_size (data a)) 0 then Err ZeroDivisionError
  else alg_update GradientDescent gd_step cost idx a.

(** n updates with idx = 0, ..., n-1, the order in which the loop does them. *)
Fixpoint gd_after (n : nat) (s : gd) : gd :=
  match n with O => s | S n' => gd_step n' (gd_after n' s) end.
(** Updates with the given values of idx, the most recent first. *)
Fixpoint gd_run_idx (l : list nat) (s : gd) : gd :=
  match l with [] => s | idx :: l' => gd_step idx (gd_run_idx l' s) end.

(** :133-138 *)
Definition gd_iterate (cost : option (nat -> gd -> bool)) (metric : nat -> gd -> list bool)
    (has_metrics : bool) (period : option Z) (max_iter : nat) (s : gd) : res arr :=
  do p <- run_alg (gd_update cost) conv (alg_metrics metric) has_metrics period max_iter (mk_alg s [] false);
  Ok (d_x_new (data (fst p))).
End GD.
Arguments full {I}. Arguments mk_gd {I}. Arguments gd_init {I}.
Arguments d_class {I}. Arguments d_x_old {I}. Arguments d_x_new {I}. Arguments d_dir {I}. Arguments d_speed {I}.
Arguments d_eta {I}. Arguments d_eps {I}. Arguments d_epoch_size {I}. Arguments d_eta_update {I}. Arguments d_beta_pow {I}.
Arguments d_gamma_pow {I}. Arguments d_memory {I}. Arguments d_calls {I}.
Arguments update_dir {I}. Arguments update_speed {I}. Arguments gd_step {I}. Arguments gd_after {I}.
Arguments gd_run_idx {I}. Arguments gd_iterate {I}. Arguments gd_update {I}.
