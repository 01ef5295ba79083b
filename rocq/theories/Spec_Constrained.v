(** Specification vocabulary for ADMM: the constrained problem min H(u) + G(v) subject to A u + B v = b. *)
From Verif Require Import NPReal Py IPS Spec_Opt.
Local Open Scope R_scope.

(** The optimizer returns exact minimisers of F(u) + tau/2 |A u - sgn * obs|^2 over the domain D: with sgn = 1 the
    problem written in the documentation of the argument, with sgn = -1 the step of the documented augmented
    Lagrangian, where obs stands for the rest of the constraint. *)
Definition exact_optimizer {X H : ips} (tau sgn : R) (D : X -> Prop) (F : X -> R) (A : X -> H) (opt : X -> H -> X) : Prop :=
  forall init obs, minimises D (fun u => F u + tau / 2 * nsq (A u - sgn * obs)%v) (opt init obs).

(** It returns its starting point when that is already a minimiser. *)
Definition warm_start {X H : ips} (tau sgn : R) (D : X -> Prop) (F : X -> R) (A : X -> H) (opt : X -> H -> X) : Prop :=
  forall init obs, minimises D (fun u => F u + tau / 2 * nsq (A u - sgn * obs)%v) init -> opt init obs = init.

(** (u, v) solves the problem with constraint A u + B v = c. *)
Definition constrained_solution {X Y H : ips} (D : X -> Prop) (E : Y -> Prop) (F : X -> R) (G : Y -> R) (A : X -> H) (B : Y -> H) (c : H) (u : X) (v : Y) : Prop :=
  (D u /\ E v /\ (A u + B v)%v = c) /\ forall z w, D z -> E w -> (A z + B w)%v = c -> F u + G v <= F z + G w.

(** lam is a Lagrange multiplier for (u, v): each of u and v minimises its own part of the Lagrangian. *)
Definition multiplier {X Y H : ips} (D : X -> Prop) (E : Y -> Prop) (F : X -> R) (G : Y -> R) (A : X -> H) (B : Y -> H) (u : X) (v : Y) (lam : H) : Prop :=
  minimises D (fun z => F z + inner lam (A z)) u /\ minimises E (fun w => G w + inner lam (B w)) v.
