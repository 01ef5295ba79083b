(** Model of opt/proximity.py: IdentityProx. *)
From Verif Require Import NPReal IPS.
Local Open Scope R_scope.

(** proximity.py:97: op ignores every argument but the data. *)
Definition identity_prox {H : ips} (x : H) (extra_factor : R) : H := x.
(** proximity.py:98 *)
Definition identity_cost {H : ips} (x : H) : R := 0.
