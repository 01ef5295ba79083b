(** More theorems about MatrixOperator on complex data: C33. *)
From Verif Require Import NPReal Py IPS Model_Prox Model_Linear Spec_Linear Proof_Linear.
From Coq Require Import List Lia.
Import ListNotations.
Local Open Scope R_scope.

Lemma sumn_rsum n f : sumn n f = rsum (map f (seq 0 n)).
Proof.
  induction n as [|n IH]; [reflexivity|]. rewrite seq_S, map_app. cbn [sumn]. rewrite IH.
  cbn [map Nat.add]. generalize (map f (seq 0 n)). intros l. unfold rsum. induction l as [|a l IH2]; cbn [app fold_right]; [lra|]. rewrite <- IH2. ring.
Qed.

(** [C33] The result of op in real and imaginary parts, and the real part of the product of two arrays: the sum of the products of the real parts and of
    the imaginary parts. *)
Theorem C33_real_and_imaginary_parts :
  forall a x, length x = m_cols a -> exists u, matrix_op a x = Ok u /\
  (forall i, (i < m_rows a)%nat ->
    let re j := fst (m_ent a i j) in let im j := snd (m_ent a i j) in let re_x j := fst (nth j x (0, 0)) in let im_x j := snd (nth j x (0, 0)) in
    nth i u (0, 0) = (rsum (map (fun j => re j * re_x j - im j * im_x j) (seq 0 (m_cols a))),
                      rsum (map (fun j => re j * im_x j + im j * re_x j) (seq 0 (m_cols a))))) /\
  (forall v w, length v = length w ->
    fst (cdot v w) = rsum (map (fun k => fst (nth k v (0, 0)) * fst (nth k w (0, 0)) + snd (nth k v (0, 0)) * snd (nth k w (0, 0))) (seq 0 (length v)))).
Proof.
  intros a x Hx. unfold matrix_op, matvec. rewrite Hx, Nat.eqb_refl. eexists. split; [reflexivity|]. split.
  - intros i Hi. cbv zeta. change (0, 0) with c0. rewrite nth_map_seq by exact Hi. apply c_eq; cbn [fst snd].
    + rewrite csumn_fst, sumn_rsum. reflexivity.
    + rewrite csumn_snd, sumn_rsum. reflexivity.
  - intros v w Hl. rewrite cdot_csumn by exact Hl. rewrite csumn_fst, sumn_rsum. f_equal. apply map_ext. intros k. change (0, 0) with c0. cbn. ring.
Qed.
Print Assumptions C33_real_and_imaginary_parts.

(** (i 2) (1, i) = i + 2 i = 3 i. *)
Example C33_parts_example : exists u, matrix_op (mk_mat 1 2 (fun _ j => if Nat.eqb j 0 then (0, 1) else (2, 0))) [(1, 0); (0, 1)] = Ok u /\ nth 0 u (0, 0) = (0, 3).
Proof.
  destruct (C33_real_and_imaginary_parts (mk_mat 1 2 (fun _ j => if Nat.eqb j 0 then (0, 1) else (2, 0))) [(1, 0); (0, 1)] eq_refl) as (u & E & P & _).
  exists u. split; [exact E|]. rewrite (P 0%nat) by (cbn; lia). cbn. f_equal; ring.
Qed.
