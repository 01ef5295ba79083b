(** Specification for C130. *)
From Verif Require Import NPReal Py Spec_Observable Spec_Cost.
From Coq Require Import String List.
Import ListNotations.
Local Open Scope R_scope.

(** The relative change between the averages of two lists of costs, 0 if the newer average is
    at most half a unit in the 16th decimal. *)
Definition relative_change (older newer : list R) : R :=
  if Rle_dec (Rabs (average newer)) (/ 2 * / 10 ^ 16) then 0 else Rabs (average newer - average older) / Rabs (average newer).

(** What a reader sees: a number labelled iteration, text of an operator, ... *)
Section Report.
Context {X L : Type}.
Variables (iteration : nat -> L) (text : string -> L) (cost : R -> L) (blank test : L) (change : R -> L).
Variable texts : X -> list string.      (* what the operators print at a point *)
Variable total : X -> R.                (* the cost at a point *)

(** The report on the k-th evaluation (k = 1, 2, ...) when the cost is evaluated at every c-th of
    the points xs and tested on windows of w values. *)
Definition report (c w : nat) (xs : list X) (k : nat) : list L :=
  match nth_error xs (k * c - 1) with
  | None => []
  | Some x =>
      [iteration (k * c)%nat] ++ map text (texts x) ++ [cost (total x); blank] ++
      (if (k mod w =? 0)%nat then
         let window := firstn w (skipn (k - w) (every c (map total xs))) in
         [test; change (relative_change (firstn (w / 2) window) (skipn (w / 2) window)); blank]
       else [])
  end.
End Report.
