(** Specification vocabulary for the filters: integrals over the whole real line, by antiderivatives. *)
From Verif Require Import NPReal.
Local Open Scope R_scope.

(** The improper integral of f over R exists and has the value v: f has an antiderivative F and
    F(b) - F(a) tends to v when b goes to +infinity and a to -infinity independently. *)
Definition integral_over_R (f : R -> R) (v : R) : Prop :=
  exists F, (forall x, derivable_pt_lim F x (f x)) /\
  forall eps, 0 < eps -> exists M, forall a b, a < - M -> M < b -> Rabs (F b - F a - v) < eps.

(** k is the derivative of the derivative of f. *)
Definition second_derivative (f k : R -> R) : Prop :=
  exists f', (forall x, derivable_pt_lim f x (f' x)) /\ (forall x, derivable_pt_lim f' x (k x)).
