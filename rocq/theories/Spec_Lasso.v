(** Specification vocabulary for C123: the LASSO objective. *)
From Verif Require Import NPReal Py IPS Spec_Prox.
From Coq Require Import List.
Local Open Scope R_scope.

(** Half the squared length of A x - y plus the weighted sum of the |x_i|. *)
Definition lasso {n : nat} {K : ips} (A : Rn n -> K) (y : K) (ws : list R) (x : Rn n) : R :=
  / 2 * nsq (A x - y)%v + weighted_l1 ws (proj1_sig x).
