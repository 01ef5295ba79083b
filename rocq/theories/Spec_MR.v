(** Specification vocabulary for C98-C100. *)
From Coq Require Import String Ascii.
From Verif Require Import NPReal Py Model_Array.
Import List ListNotations.

(** The box of [bh] x [bw] entries of [a] whose corner is at (i0, j0). *)
Definition is_box (a r : nda R) (i0 j0 bh bw : nat) : Prop :=
  shape r = [bh; bw] /\ forall i j, (i < bh)%nat -> (j < bw)%nat -> at_ r [i; j] = at_ a [i0 + i; j0 + j]%nat.

(** The non-zero entries of [a] lie in the box, and each of its four sides has one: no smaller box
    contains them all. *)
Definition bounding_box (a : nda R) (i0 j0 bh bw : nat) : Prop :=
  (forall i j, in_range (shape a) [i; j] -> at_ a [i; j] <> 0%R -> (i0 <= i < i0 + bh)%nat /\ (j0 <= j < j0 + bw)%nat) /\
  (exists j, in_range (shape a) [i0; j] /\ at_ a [i0; j] <> 0%R) /\
  (exists j, in_range (shape a) [i0 + bh - 1; j]%nat /\ at_ a [i0 + bh - 1; j]%nat <> 0%R) /\
  (exists i, in_range (shape a) [i; j0] /\ at_ a [i; j0] <> 0%R) /\
  (exists i, in_range (shape a) [i; j0 + bw - 1]%nat /\ at_ a [i; j0 + bw - 1]%nat <> 0%R) /\
  (0 < bh)%nat /\ (0 < bw)%nat.

(** A word of a command line: not empty, no white space (the characters at which Python splits). *)
Definition blank (c : ascii) : Prop := In (nat_of_ascii c) [9; 10; 11; 12; 13; 28; 29; 30; 31; 32; 133; 160]%nat.
Fixpoint no_blank (s : string) : Prop :=
  match s with EmptyString => True | String c s' => ~ blank c /\ no_blank s' end.
Definition word (s : string) : Prop := s <> EmptyString /\ no_blank s.
