(** Vocabulary for C139: penalties that act entry by entry, and objectives that change from update to
    update. *)
From Verif Require Import NPReal Py IPS Spec_Opt Spec_GD.
From Coq Require Import List.
Import ListNotations.
Local Open Scope R_scope.

(** Sum over the entries. *)
Definition total {I} (l : list I) (h : I -> R) : R := rsum (map h l).

(** prox.op(y, extra_factor=t) with an array t is, at entry i, the proximal point of t_i h_i. *)
Definition entrywise_prox {I} (D : I -> R -> Prop) (h : I -> R -> R) (prox : (I -> R) -> (I -> R) -> I -> R) : Prop :=
  forall y t i, 0 < t i -> is_prox (H := R_ips) (D i) (fun v => t i * h i v) (y i) (prox y t i).

(** g is a subgradient of f at x: the gradient if f is convex and differentiable. *)
Definition subgradient {H : ips} (f : H -> R) (x g : H) : Prop := forall z, f x + inner g (z - x)%v <= f z.
