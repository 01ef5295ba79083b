(** Vocabulary for C141: changes of variables. *)
From Verif Require Import NPReal Py IPS Spec_Opt.
From Coq Require Import List.
Local Open Scope R_scope.

Definition linear_between {H K : ips} (V : H -> K) : Prop :=
  (forall x y, V (x + y)%v = (V x + V y)%v) /\ forall a x, V (a * x)%v = (a * V x)%v.

(** V multiplies all lengths by r: a change of units by the factor r after a rotation, a reflection, a
    reordering of the entries, an orthonormal transform... *)
Definition similarity {H K : ips} (r : R) (V : H -> K) : Prop :=
  0 < r /\ linear_between V /\ (forall x y, inner (V x) (V y) = r ^ 2 * inner x y) /\ forall y, exists x, y = V x.

(** The new unknown: V x, seen from another origin. *)
Definition moved {H K : ips} (V : H -> K) (o : K) (x : H) : K := (V x + o)%v.

(** The operators of the problem after the change, k being the factor by which step sizes have to be
    divided. *)
Definition carries_gradient {H K : ips} (k : R) (V : H -> K) (o : K) (grad : H -> H) (grad' : K -> K) : Prop :=
  forall x, grad' (moved V o x) = (k * V (grad x))%v.
Definition carries_prox {H K : ips} (k : R) (V : H -> K) (o : K) (prox : H -> R -> H) (prox' : K -> R -> K) : Prop :=
  forall y t, 0 < t -> prox' (moved V o y) (t / k) = moved V o (prox y t).
