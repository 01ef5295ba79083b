(** Specification vocabulary for C114-C116: minimisation problems over complex arrays. *)
From Coq Require Export Reals Lra.
From Verif Require Import Py Spec_Prox.
From Coq Require Import List.
Import ListNotations.
Local Open Scope R_scope.

(** A complex number: real and imaginary part. *)
Definition modulus (z : R * R) : R := sqrt (fst z ^ 2 + snd z ^ 2).
Definition distsq (a b : R * R) : R := (fst a - fst b) ^ 2 + (snd a - snd b) ^ 2.

Definition csqdist (x z : list (R * R)) : R := sum2 distsq x z.
Definition cweighted_l1 (w : list R) (z : list (R * R)) : R := sum2 (fun w v => w * modulus v) w z.
Definition cweighted_l2sq (w : list R) (z : list (R * R)) : R := sum2 (fun w v => w * modulus v ^ 2) w z.

(** [p] minimises [obj] over complex arrays of length n; every competitor is worse by at least half
    its squared distance to p. *)
Definition cstrong_minimiser (n : nat) (obj : list (R * R) -> R) (p : list (R * R)) : Prop :=
  length p = n /\ forall z, length z = n -> obj p + / 2 * csqdist p z <= obj z.

(** Same phase, modulus reduced by t (and 0 when the modulus is at most t). *)
Definition is_cshrink (t : R) (z s : R * R) : Prop :=
  modulus s = Rmax 0 (modulus z - t) /\ exists a, 0 <= a /\ s = (a * fst z, a * snd z).

(** Euclidean length of a group of complex numbers. *)
Definition clength2 (g : list (R * R)) : R := sqrt (sum2 (fun a _ => modulus a ^ 2) g g).
Definition cweighted_lengths (w : list R) (gs : list (list (R * R))) : R := sum2 (fun w g => w * clength2 g) w gs.
Definition cgroups_sqdist (xs zs : list (list (R * R))) : R := sum2 csqdist xs zs.
Definition csame_shape (xs zs : list (list (R * R))) : Prop :=
  map (@List.length (R * R)) xs = map (@List.length (R * R)) zs.
