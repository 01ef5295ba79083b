(** Specification vocabulary for C18-C21. *)
From Coq Require Export Reals Lra.
From Verif Require Import Py Spec_Observable.
Local Open Scope R_scope.

(** The entries numbered c, 2c, 3c, ... (counting from 1) of a history. *)
Definition every (c : nat) (h : list R) : list R :=
  map (fun k => nth (k * c - 1) h 0) (seq 1 (length h / c)).

(** The relative change from [older] to [newer] is at most [tol]; the change counts as 0 when
    the newer average is at most half a unit in the 16th decimal. *)
Definition small_change (tol : R) (older newer : list R) : Prop :=
  if Rle_dec (Rabs (average newer)) (/ 2 * / 10 ^ 16) then 0 <= tol
  else Rabs (average newer - average older) <= tol * Rabs (average newer).

(** [costs] ends with a complete window of [w] entries (windows follow one another) whose
    halves differ by little. *)
Definition full_quiet_window (w : nat) (tol : R) (costs : list R) : Prop :=
  exists windows older newer, costs = windows ++ older ++ newer /\
    Nat.divide w (length windows) /\ length older = (w / 2)%nat /\ length newer = (w - w / 2)%nat /\
    small_change tol older newer.
