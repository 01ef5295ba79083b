(** Specification for C125: a run of the accelerated forward-backward method with a restart
    strategy, written as equations between the sequences of points, relaxation parameters and step
    sizes. It does not mention the model. *)
From Coq Require Import Reals Lra.
From Verif Require Import IPS.
Local Open Scope R_scope.

(** [count P n k]: k of the n propositions P 0, ..., P (n-1) hold. *)
Inductive count (P : nat -> Prop) : nat -> nat -> Prop :=
| count_none : count P 0 0
| count_yes n k : count P n k -> P n -> count P (S n) (S k)
| count_no n k : count P n k -> ~ P n -> count P (S n) k.

Section Run.
Context {H : ips}.
Variable grad : H -> H.
Variable prox : H -> R -> H.

(** The step from the n-th to the next point turns back: the momentum is dropped. *)
Definition turns_back (x z : nat -> H) (n : nat) : Prop := 0 <= inner (z n - x (S n))%v (x (S n) - x n)%v.

(** Points of a run from x0 with relaxation [lam] and step sizes [beta]: a proximal gradient step
    at z, then an extrapolation, which is left out after a step that turns back. *)
Record restarted_run (x0 : H) (beta lam : nat -> R) (x z : nat -> H) : Prop := {
  rr_x0 : x 0%nat = x0;
  rr_z0 : z 0%nat = x0;
  rr_step : forall n, x (S n) = prox (z n - beta n * grad (z n))%v (beta n);
  rr_restart : forall n, turns_back x z n -> z (S n) = x (S n);
  rr_momentum : forall n, ~ turns_back x z n -> z (S n) = (x n + lam n * (x (S n) - x n))%v }.

(** The same without restarts. *)
Record plain_run (x0 : H) (beta lam : nat -> R) (x z : nat -> H) : Prop := {
  pr_x0 : x 0%nat = x0;
  pr_z0 : z 0%nat = x0;
  pr_step : forall n, x (S n) = prox (z n - beta n * grad (z n))%v (beta n);
  pr_momentum : forall n, z (S n) = (x n + lam n * (x (S n) - x n))%v }.

(** Momentum of the adaptive strategies: the factor r is multiplied by xi at every restart; with
    [reset] the sequence t also starts afresh from 1. *)
Record adaptive_momentum (p q r xi : R) (reset : Prop) (x z : nat -> H) (t lam : nat -> R) : Prop := {
  am_t0 : t 0%nat = 1;
  am_keep : forall n k, ~ (reset /\ turns_back x z n) -> count (turns_back x z) (S n) k ->
    t (S n) = p + sqrt (r * xi ^ k * t n ^ 2 + q) / 2 /\ lam (S n) = 1 + (t n - 1) / t (S n);
  am_reset : forall n k, reset -> turns_back x z n -> count (turns_back x z) (S n) k ->
    t (S n) = p + sqrt (r * xi ^ k + q) / 2 /\ lam (S n) = 1 }.

(** The (n+1)-st step of the greedy strategy is too long. *)
Definition too_long (s : R) (x : nat -> H) (n : nat) : Prop :=
  match n with O => False | S _ => s * norm (x 1%nat - x 0%nat)%v <= norm (x (S n) - x n)%v end.

(** Step sizes of the greedy strategy: after a step that is too long the step size is multiplied by
    xi, but not taken below min_beta. *)
Record greedy_steps (s xi min_beta beta0 : R) (x : nat -> H) (beta : nat -> R) : Prop := {
  gs_0 : beta 0%nat = beta0;
  gs_long : forall n, too_long s x n -> (min_beta <= beta n * xi -> beta (S n) = beta n * xi) /\
    (beta n * xi <= min_beta -> beta (S n) = min_beta);
  gs_short : forall n, ~ too_long s x n -> beta (S n) = beta n }.
End Run.
