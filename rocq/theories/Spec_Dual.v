(** Specification vocabulary for C135: Lipschitz penalties and non-negative sparse recovery. *)
From Verif Require Import NPReal IPS Spec_Prox Spec_Opt.
Local Open Scope R_scope.

(** The values of h at two points differ by at most G times the distance of the points. *)
Definition lipschitz_values {K : ips} (G : R) (h : K -> R) : Prop := forall u v, h u - h v <= G * norm (u - v)%v.

(** Every set of points of D with bounded values of F is bounded. *)
Definition coercive_on {H : ips} (D : H -> Prop) (F : H -> R) : Prop := forall b, exists r, forall x, D x -> F x <= b -> norm x <= r.

(** Half the squared length of A x - y plus the weighted sum of the |(L x)_i|, for x >= 0. *)
Definition sparse_analysis {n p : nat} {K : ips} (A : Rn n -> K) (y : K) (L : Rn n -> Rn p) (ws : list R) (x : Rn n) : R :=
  / 2 * nsq (A x - y)%v + weighted_l1 ws (proj1_sig (L x)).
Definition nonneg_vec {n : nat} (x : Rn n) : Prop := nonneg (proj1_sig x).
