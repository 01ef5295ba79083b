(** Specification vocabulary for the wavelet transform: arrays agreeing on an h x w region, scalar products of
    images and of coefficient vectors, linear combinations. *)
From Verif Require Import NPReal Model_Linear Model_Wavelet.
From Coq Require Import List.
Import ListNotations.
Local Open Scope R_scope.

(** Same sizes and same entries. *)
Definition beq (b c : block) : Prop := rows b = rows c /\ cols b = cols c /\ forall i j, (i < rows b)%nat -> (j < cols b)%nat -> ent b i j = ent c i j.
(** The two arrays agree on the first h rows and w columns. *)
Definition agree (h w : nat) (b c : block) : Prop := forall i j, (i < h)%nat -> (j < w)%nat -> ent b i j = ent c i j.
(** The scalar product of two images and of two vectors. *)
Definition ip (b c : block) : R := sumn (rows b) (fun i => sumn (cols b) (fun j => ent b i j * ent c i j)).
Fixpoint dotl (l m : list R) : R := match l, m with x :: l, y :: m => x * y + dotl l m | _, _ => 0 end.
(** Linear combinations. *)
Definition comb (s t : R) (b c : block) : block := mk_block (rows b) (cols b) (fun i j => s * ent b i j + t * ent c i j).
Definition lcomb (s t : R) (l m : list R) : list R := map (fun p => s * fst p + t * snd p) (combine l m).
(** The image whose entries are all v. *)
Definition const_image (h w : nat) (v : R) : block := mk_block h w (fun _ _ => v).
