(** Specification vocabulary for math/matrix.py. *)
From Verif Require Import NPReal Py IPS Spec_Opt.
From Coq Require Import List Lia.
Import ListNotations.
Local Open Scope R_scope.

Section Span.
Context {H : ips}.
(** x is a linear combination of the vectors of l. *)
Definition in_span (l : list H) (x : H) : Prop := exists ws, length ws = length l /\ x = weighted_sum ws l.
Definition independent (l : list H) : Prop :=
  forall ws, length ws = length l -> weighted_sum ws l = vzero -> Forall (fun w => w = 0) ws.
Definition orthogonal (l : list H) : Prop :=
  forall i j x y, nth_error l i = Some x -> nth_error l j = Some y -> i <> j -> inner x y = 0.
Definition orthonormal (l : list H) : Prop :=
  orthogonal l /\ forall x, In x l -> inner x x = 1.
End Span.

Definition linear {H K : ips} (f : H -> K) : Prop :=
  forall a b x y, f (a * x + b * y)%v = (a * f x + b * f y)%v.
Definition self_adjoint {H : ips} (f : H -> H) : Prop := forall x y, inner (f x) y = inner x (f y).
(** L bounds the operator norm of f. *)
Definition bounded_by {H : ips} (L : R) (f : H -> H) : Prop := forall x, norm (f x) <= L * norm x.
