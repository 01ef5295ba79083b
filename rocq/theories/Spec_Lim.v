(** Specification vocabulary for limits of the iterates: convergence of sequences of vectors and
    finite-dimensional spaces (arrays of a fixed shape, real or complex, and tuples of them). *)
From Verif Require Import NPReal Py IPS Spec_Opt.
From Coq Require Import List.
Import ListNotations.
Local Open Scope R_scope.

Definition converges {H : ips} (u : nat -> H) (l : H) : Prop :=
  forall e, 0 < e -> exists N, forall n, (N <= n)%nat -> norm (u n - l)%v < e.

(** There are finitely many vectors such that every vector is the sum of its components along them. *)
Definition finite_dimensional (H : ips) : Prop :=
  exists es : list H, forall x : H, x = weighted_sum (map (fun e => inner x e) es) es.

(** f minus mu/2 times the squared norm is still convex. *)
Definition strongly_convex {H : ips} (mu : R) (f : H -> R) : Prop := convex (fun x => f x - mu / 2 * nsq x).

(** 0 = df x + q_1 + ... + q_n with q_i a subgradient of the i-th term at x: the optimality condition
    of f + g_1 + ... + g_n. *)
Fixpoint sum_of_vectors {H : ips} (l : list H) : H := match l with [] => vzero | x :: l' => (x + sum_of_vectors l')%v end.
Definition optimal_point {H : ips} (ts : list (term H)) (df : H -> H) (x : H) : Prop :=
  exists qs, Forall2 (fun t q => subgradient (t_dom t) (t_val t) x q) ts qs /\ (df x + sum_of_vectors qs)%v = vzero.
