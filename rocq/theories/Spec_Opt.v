(** Specification vocabulary for the optimisation algorithms: smooth and composite convex
    problems min f + g over a real inner-product space, g possibly with a domain D. *)
From Verif Require Import NPReal Py IPS.
Local Open Scope R_scope.

(** [df x] is the gradient of f at x: it gives all directional derivatives. *)
Definition is_gradient {H : ips} (f : H -> R) (df : H -> H) : Prop :=
  forall x h, derivable_pt_lim (fun t => f (x + t * h)%v) 0 (inner (df x) h).

Definition lipschitz {H : ips} (L : R) (df : H -> H) : Prop :=
  forall x y, norm (df x - df y)%v <= L * norm (x - y)%v.

Definition convex {H : ips} (f : H -> R) : Prop := convex_on everywhere f.

(** f is convex and differentiable with L-Lipschitz gradient df. *)
Definition smooth_convex {H : ips} (L : R) (f : H -> R) (df : H -> H) : Prop :=
  convex f /\ is_gradient f df /\ lipschitz L df.

(** prox.op(y, extra_factor=c) is the proximal point of c*g at y. *)
Definition prox_operator {H : ips} (D : H -> Prop) (g : H -> R) (prox : H -> R -> H) : Prop :=
  forall y c, 0 < c -> is_prox D (fun z => c * g z) y (prox y c).

Definition minimises {H : ips} (D : H -> Prop) (F : H -> R) (x : H) : Prop :=
  D x /\ forall z, D z -> F x <= F z.

(** Sum of w_i z_i. *)
Fixpoint weighted_sum {H : ips} (ws : list R) (zs : list H) : H :=
  match ws, zs with
  | w :: ws', z :: zs' => (w * z + weighted_sum ws' zs')%v
  | _, _ => vzero
  end.

(** A term g_i of a composite objective: its domain, its value and its proximity operator. *)
Record term (H : ips) := mk_term { t_dom : H -> Prop; t_val : H -> R; t_prox : H -> R -> H }.
Arguments mk_term {H}. Arguments t_dom {H}. Arguments t_val {H}. Arguments t_prox {H}.
Definition proper_term {H : ips} (t : term H) : Prop :=
  convex_on (t_dom t) (t_val t) /\ prox_operator (t_dom t) (t_val t) (t_prox t).
Definition common_domain {H : ips} (ts : list (term H)) (x : H) : Prop := Forall (fun t => t_dom t x) ts.
Definition sum_of_terms {H : ips} (ts : list (term H)) (x : H) : R := rsum (map (fun t => t_val t x) ts).

(** L' is the adjoint of L. *)
Definition adjoint {H K : ips} (L : H -> K) (L' : K -> H) : Prop :=
  forall x y, inner (L x) y = inner x (L' y).
(** B bounds the squared operator norm of L. *)
Definition bounded_sq {H K : ips} (B : R) (L : H -> K) : Prop := forall x, nsq (L x) <= B * nsq x.

(** p is a subgradient at x of g restricted to D. *)
Definition subgradient {H : ips} (D : H -> Prop) (g : H -> R) (x p : H) : Prop :=
  D x /\ forall z, D z -> g x + inner p (z - x)%v <= g z.

(** The problem min f + g + h o L, with g on the domain D and h on the domain E. *)
Definition composite_domain {H K : ips} (D : H -> Prop) (E : K -> Prop) (L : H -> K) (x : H) : Prop := D x /\ E (L x).
Definition composite {H K : ips} (f g : H -> R) (h : K -> R) (L : H -> K) (x : H) : R := f x + g x + h (L x).

(** x and y solve its optimality conditions: 0 = df x + p + L' y with p in dg(x), y in dh(L x). *)
Definition primal_dual_solution {H K : ips} (D : H -> Prop) (E : K -> Prop) (df : H -> H) (g : H -> R) (h : K -> R)
    (L : H -> K) (L' : K -> H) (x : H) (y : K) : Prop :=
  subgradient D g x ((-1) * (df x + L' y))%v /\ subgradient E h (L x) y.

(** The distance in which Condat's iteration is analysed: |dx|^2/tau + |dy|^2/sigma - 2 <L dx, dy>. *)
Definition pd_sq {H K : ips} (L : H -> K) (tau sigma : R) (dx : H) (dy : K) : R :=
  nsq dx / tau + nsq dy / sigma - 2 * inner (L dx) dy.
