(** Specification vocabulary for the gradient descent classes: sequences of arrays g 0, g 1, ... *)
From Verif Require Import NPReal Py IPS.
From Coq Require Import List Lia FunctionalExtensionality.
Import ListNotations.
Local Open Scope R_scope.

Section Spec.
Context {I : Type}.

(** Sum of f 0, ..., f (n-1). *)
Fixpoint sum_below (n : nat) (f : nat -> R) : R := match n with O => 0 | S m => sum_below m f + f m end.

(** Heavy-ball direction without any reset: m_k = beta m_(k-1) + g_k. *)
Fixpoint heavy_ball (beta : R) (g : nat -> I -> R) (k : nat) : I -> R :=
  match k with
  | O => g 0%nat
  | S k' => fun i => beta * heavy_ball beta g k' i + g k i
  end.

(** The most recent g j with j < n and j mod e = c, zero if there is none. *)
Definition is_latest (e c n : nat) (g : nat -> I -> R) (v : I -> R) : Prop :=
  (exists j, (j < n)%nat /\ Nat.modulo j e = c /\ v = g j /\ forall j', (j < j' < n)%nat -> Nat.modulo j' e <> c) \/
  ((forall j, (j < n)%nat -> Nat.modulo j e <> c) /\ v = fun _ => 0).
End Spec.

(** Real arrays over a finite index set, with the Euclidean inner product. [l] lists the indices
    (each at least once). *)
Section Fin.
Variables (I : Type) (l : list I).
Hypothesis complete : forall i, In i l.
Definition fin_ips : ips.
Proof.
  refine (mk_ips (I -> R) (fun x y i => x i + y i) (fun a x i => a * x i) (fun _ => 0)
    (fun x y => rsum (map (fun i => x i * y i) l)) _ _ _ _ _ _ _ _ _).
  - intros x y. extensionality i. ring.
  - intros x y z. extensionality i. ring.
  - intros x. extensionality i. ring.
  - intros x. extensionality i. ring.
  - intros x y. f_equal. apply map_ext. intros i. ring.
  - intros x y z. unfold rsum. clear complete. induction l as [|a m IH]; cbn; [ring|]. rewrite IH. ring.
  - intros a x z. unfold rsum. clear complete. induction l as [|b m IH]; cbn; [ring|]. rewrite IH. ring.
  - intros x. unfold rsum. clear complete. induction l as [|b m IH]; cbn; [lra|]. nra.
  - intros x E. extensionality i. specialize (complete i). unfold rsum in E.
    assert (P : forall m, 0 <= fold_right Rplus 0 (map (fun i => x i * x i) m)).
    { clear. induction m as [|b m IH]; cbn; [lra|]. nra. }
    induction l as [|b m IH]; cbn in *; [contradiction|]. specialize (P m) as Pm.
    pose proof (Rle_0_sqr (x b)) as Sb. unfold Rsqr in Sb. destruct complete as [->|Hi]; [apply Rsqr_0_uniq; unfold Rsqr; lra|]. apply IH; [exact Hi|lra].
Defined.
End Fin.
