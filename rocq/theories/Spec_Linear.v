(** Specification vocabulary for C33-C38. *)
From Verif Require Import NPReal Py Model_Array Model_Linear.
Import List ListNotations.
Local Open Scope R_scope.

(** np.vdot: sum of conj(a_i) * b_i. *)
Definition cdot (a b : list C) : C :=
  fold_right (fun p s => cadd (cmul (cconj (fst p)) (snd p)) s) c0 (combine a b).

(** Inner products of images, stacks of images and stacks of coefficient stacks. *)
Definition dot2 (h w : nat) (a b : nda R) : R := sumn h (fun i => sumn w (fun j => at_ a [i; j] * at_ b [i; j])).
Definition dot3 (n h w : nat) (a b : nda R) : R := sumn n (fun k => dot2 h w (sub0 a k) (sub0 b k)).
Definition dot4 (n m h w : nat) (a b : nda R) : R := sumn n (fun k => dot3 m h w (sub0 a k) (sub0 b k)).

(** The calls that have an effect: those whose data has the weights' shape, each with the
    threshold factor in force at that moment. *)
Fixpoint effective (sh : list nat) (n : R) (l : list rw_event) : list (R * list R) :=
  match l with
  | [] => []
  | SetFactor n' :: l' => effective sh n' l'
  | Reweight x :: l' =>
      if list_eq_dec Nat.eq_dec (fa_shape x) sh then (n, fa_data x) :: effective sh n l' else effective sh n l'
  end.

(** The weight of entry i with initial weight w0 after those calls. *)
Definition reweighted (w0 : R) (i : nat) (calls : list (R * list R)) : R :=
  w0 * fold_right (fun c p => 1 / (1 + Rabs (nth i (snd c) 0) / (fst c * w0)) * p) 1 calls.

Definition well_formed (a : farr) : Prop := length (fa_data a) = prod (fa_shape a).
Definition positive_factors (n : R) (l : list rw_event) : Prop :=
  0 < n /\ Forall (fun e => match e with SetFactor n => 0 < n | Reweight x => well_formed x end) l.
