(** Specification for C126: Condat's method (Condat 2013, algorithm 3.1) with reweighting. It does
    not mention the model. *)
From Coq Require Import Reals.
From Verif Require Import IPS.
Local Open Scope R_scope.

Section Reweighted.
Context {H K : ips} {W : Type}.
Variables (grad : H -> H) (prox : H -> R -> H) (prox_dual : W -> K -> R -> K) (lop : H -> K) (ladj : K -> H).
Variable reweight : K -> W -> W.

(** One step with weights w: proximal steps for the primal and the dual variable, both relaxed. The
    dual step is written with the proximity operator of the function itself (Moreau). *)
Definition primal_dual_step (rho sigma tau : R) (w : W) (x : H) (y : K) (x' : H) (y' : K) : Prop :=
  exists xp yt yp,
    xp = prox (x - tau * grad x - tau * ladj y)%v 1 /\
    yt = (y + sigma * lop (2 * xp - x))%v /\
    yp = (yt - sigma * prox_dual w (/ sigma * yt) (1 / sigma))%v /\
    x' = (x + rho * (xp - x))%v /\ y' = (y + rho * (yp - y))%v.

(** k+1 runs of n steps; each starts where the one before has ended, with weights recomputed from
    the linear operator applied to that point. [X j i] is the i-th point of the j-th run. *)
Record reweighted_runs (rho sigma tau : R) (n : nat) (w0 : W) (x0 : H) (y0 : K)
    (X : nat -> nat -> H) (Y : nat -> nat -> K) (w : nat -> W) : Prop := {
  rw_start : X 0%nat 0%nat = x0 /\ Y 0%nat 0%nat = y0 /\ w 0%nat = w0;
  rw_step : forall j i, primal_dual_step rho sigma tau (w j) (X j i) (Y j i) (X j (S i)) (Y j (S i));
  rw_next : forall j, X (S j) 0%nat = X j n /\ Y (S j) 0%nat = Y j n;
  rw_weights : forall j, w (S j) = reweight (lop (X j n)) (w j) }.
End Reweighted.
