(** Specification vocabulary for C143: arrays whose entries lie in an inner-product space E. *)
From Verif Require Import NPReal Py IPS.
From Coq Require Import List Lia FunctionalExtensionality.
Import ListNotations.
Local Open Scope R_scope.

(** Arrays over a finite index set with entries in E, with the sum of the entrywise inner products:
    for complex entries the real part of the usual product. [l] lists the indices. *)
Section Fin.
Variables (E : ips) (I : Type) (l : list I).
Hypothesis complete : forall i, In i l.
Definition entries_ips : ips.
Proof.
  refine (mk_ips (I -> E) (fun x y i => x i + y i)%v (fun a x i => a * x i)%v (fun _ => vzero)
    (fun x y => rsum (map (fun i => inner (x i) (y i)) l)) _ _ _ _ _ _ _ _ _).
  - intros x y. extensionality i. apply vadd_comm.
  - intros x y z. extensionality i. apply vadd_assoc.
  - intros x. extensionality i. apply vadd_0.
  - intros x. extensionality i. apply vadd_opp.
  - intros x y. f_equal. apply map_ext. intros i. apply inner_sym.
  - intros x y z. unfold rsum. clear complete. induction l as [|a m IH]; cbn; [ring|]. rewrite IH, inner_add_l. ring.
  - intros a x z. unfold rsum. clear complete. induction l as [|b m IH]; cbn; [ring|]. rewrite IH, inner_scal_l. ring.
  - intros x. unfold rsum. clear complete. induction l as [|b m IH]; cbn; [lra|]. pose proof (inner_pos E (x b)). lra.
  - intros x Z. extensionality i. specialize (complete i). unfold rsum in Z.
    assert (P : forall m, 0 <= fold_right Rplus 0 (map (fun i => inner (x i) (x i)) m)).
    { clear. induction m as [|b m IH]; cbn; [lra|]. pose proof (inner_pos E (x b)). lra. }
    induction l as [|b m IH]; cbn in *; [contradiction|]. specialize (P m) as Pm. pose proof (inner_pos E (x b)) as Sb.
    destruct complete as [->|Hi]; [apply inner_def; lra|]. apply IH; [exact Hi|lra].
Defined.
End Fin.

(** A real-linear map of E that keeps lengths: for complex numbers the products with a number of
    modulus 1 and their composition with complex conjugation. *)
Definition linear_isometry {E : ips} (u : E -> E) : Prop :=
  (forall x y, u (x + y)%v = (u x + u y)%v) /\ (forall a x, u (a * x)%v = (a * u x)%v) /\ (forall x, norm (u x) = norm x).
Definition inverse_maps {A} (u v : A -> A) : Prop := (forall x, u (v x) = x) /\ (forall x, v (u x) = x).

(** The real and imaginary parts of a complex array as one real array: entry (i, true) is the real
    part of entry i, entry (i, false) the imaginary part. *)
Definition parts {I} (x : I -> R * R) : I * bool -> R := fun p => if snd p then fst (x (fst p)) else snd (x (fst p)).
Definition unparts {I} (y : I * bool -> R) : I -> R * R := fun i => (y (i, true), y (i, false)).

(** Product and conjugate of complex numbers. *)
Definition c_mul (a z : R * R) : R * R := (fst a * fst z - snd a * snd z, fst a * snd z + snd a * fst z).
Definition c_conj (z : R * R) : R * R := (fst z, - snd z).
