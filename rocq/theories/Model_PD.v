(** Model of opt/algorithms/primal_dual.py: Condat. The primal variable lives in H, the dual one in
    K; arithmetic is exact. The conventions are those of Model_FB: gradient, proximity and linear
    operators are functions, user supplied parameter updates are functions of the number of updates
    done so far and of the current value, the type checks of the constructor are not modelled. *)
From Verif Require Import NPReal Py IPS Model_SetUp Model_FB.
From Coq Require Import List Lia.
Import ListNotations.
Local Open Scope R_scope.

Section Condat.
Context {H K : ips}.
Variable W : Type.                        (* the attributes of prox_dual a reweighting can change *)
Variable grad : H -> H.                   (* grad.grad after get_grad *)
Variable prox : H -> R -> H.              (* prox.op(x, extra_factor) *)
Variable prox_dual : W -> K -> R -> K.    (* prox_dual.op(y, extra_factor) *)
Variable lop : H -> K.                    (* linear.op; the identity if linear is None, :120-123 *)
Variable ladj : K -> H.                   (* linear.adj_op *)

(** Attributes of a Condat object; [c_new] holds (_x_new, _y_new), which do not exist before the
    first update. *)
Record condat := mk_condat {
  c_x : H; c_y : K; c_new : option (H * K);
  c_rho : R; c_sigma : R; c_tau : R; c_calls : nat; c_w : W;
  c_rho_update : option (nat -> R -> R); c_sigma_update : option (nat -> R -> R);
  c_tau_update : option (nat -> R -> R) }.

(** primal_dual.py:75-149 with auto_iterate=False. *)
Definition condat_init (x : H) (y : K) (w : W) (step_size : option R) (rho sigma tau : R)
    (rho_update sigma_update tau_update : option (nat -> R -> R)) : condat :=
  mk_condat x y None rho sigma (step_or step_size tau) 0 w rho_update sigma_update tau_update.

(** The optional argument extra_factor of prox.op, when it is not given (proximity.py:186, 407, 534, 642, 753, 840). *)
Definition default_extra_factor : R := 1.

(** primal_dual.py:186-214 (and 162-172); the convergence test (:217-220) is in Model_SetUp.
    x_prox and y_prox, before relaxation. *)
Definition condat_prox (s : condat) : H * K :=
  let x_prox := prox (c_x s - c_tau s * grad (c_x s) - c_tau s * ladj (c_y s))%v default_extra_factor in  (* :189-193 *)
  let y_temp := (c_y s + c_sigma s * lop (2 * x_prox - c_x s))%v in                                       (* :196 *)
  let y_prox := (y_temp - c_sigma s * prox_dual (c_w s) (/ c_sigma s * y_temp) (1 / c_sigma s))%v in      (* :198-201 *)
  (x_prox, y_prox).

Definition condat_update (s : condat) : condat :=
  let '(x_prox, y_prox) := condat_prox s in
  let x_new := (c_rho s * x_prox + (1 - c_rho s) * c_x s)%v in                                            (* :204 *)
  let y_new := (c_rho s * y_prox + (1 - c_rho s) * c_y s)%v in                                            (* :205 *)
  mk_condat x_new y_new (Some (x_new, y_new))
    (apply_update (c_rho_update s) (c_calls s) (c_rho s))
    (apply_update (c_sigma_update s) (c_calls s) (c_sigma s))
    (apply_update (c_tau_update s) (c_calls s) (c_tau s))
    (S (c_calls s)) (c_w s) (c_rho_update s) (c_sigma_update s) (c_tau_update s).

Definition condat_after (n : nat) (s : condat) : condat := Nat.iter n condat_update s.

Definition set_w (s : condat) (w : W) : condat :=
  mk_condat (c_x s) (c_y s) (c_new s) (c_rho s) (c_sigma s) (c_tau s) (c_calls s) w
    (c_rho_update s) (c_sigma_update s) (c_tau_update s).

(** [reweight] is the effect of reweight.reweight(linear.op(x_new)) on the weights of the dual
    proximity operator. *)
Variable reweight : K -> W -> W.

Section Iterate.
Variable cost : option (nat -> condat -> bool).
Variable metric : nat -> condat -> list bool.
Variables (has_metrics : bool) (period : option Z).

Definition condat_run (max_iter : nat) (a : alg_state condat) : res (alg_state condat) :=
  do p <- run_alg (alg_update Condat (fun _ => condat_update) cost) conv (alg_metrics metric)
            has_metrics period max_iter a;
  Ok (fst p).

(** primal_dual.py:240-244 *)
Fixpoint condat_reweightings (k max_iter : nat) (a : alg_state condat) : res (alg_state condat) :=
  match k with
  | O => Ok a
  | S k' =>
      match c_new (data a) with
      | None => Err AttributeError
      | Some (x_new, _) =>
          do a1 <- condat_run max_iter (mk_alg (set_w (data a) (reweight (lop x_new) (c_w (data a)))) (flags a) (conv a));
          condat_reweightings k' max_iter a1
      end
  end.

(** primal_dual.py:237-250: x_final and y_final; [n_rewightings] is None if reweight is None. *)
Definition condat_iterate (n_rewightings : option nat) (max_iter : nat) (s : condat) : res (H * K) :=
  do a <- condat_run max_iter (mk_alg s [] false);
  do a1 <- match n_rewightings with None => Ok a | Some k => condat_reweightings k max_iter a end;
  match c_new (data a1) with
  | Some p => Ok p
  | None => Err AttributeError
  end.
End Iterate.
End Condat.
Arguments mk_condat {H K W}. Arguments c_x {H K W}. Arguments c_y {H K W}. Arguments c_new {H K W}.
Arguments c_rho {H K W}. Arguments c_sigma {H K W}. Arguments c_tau {H K W}. Arguments c_calls {H K W}.
Arguments c_w {H K W}. Arguments c_rho_update {H K W}. Arguments c_sigma_update {H K W}. Arguments c_tau_update {H K W}.
Arguments condat_init {H K W}. Arguments condat_prox {H K W}. Arguments condat_update {H K W}.
Arguments condat_after {H K W}. Arguments condat_iterate {H K W}. Arguments condat_run {H K W}.
Arguments condat_reweightings {H K W}. Arguments set_w {H K W}.
