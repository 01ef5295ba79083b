(** Property theorems C33-C38: opt/linear/base.py, opt/linear/wavelet.py, opt/gradient.py,
    opt/reweight.py. *)
From Verif Require Import NPReal Py IPS Model_Array Model_NpAdjust Model_Types Spec_NpAdjust Model_Linear Spec_Linear Proof_Linear.
From Coq Require Import List Lia.
Import ListNotations.
Local Open Scope R_scope.

(** C33 *)
Theorem C33_matrix_operator_adjoint :
  forall a x y, length x = m_cols a -> length y = m_rows a ->
  exists u v, matrix_op a x = Ok u /\ matrix_adj_op a y = Ok v /\
    length u = m_rows a /\ length v = m_cols a /\ cdot u y = cdot x v.
Proof. exact matrix_adjoint. Qed.
Print Assumptions C33_matrix_operator_adjoint.

(** A 1x2 complex matrix (i, 2): <op x, y> with x = (1, i), y = (1+i) is 3 - 3i... = <x, adj y>. *)
Example C33_example : exists u v,
  matrix_op (mk_mat 1 2 (fun _ j => if Nat.eqb j 0 then (0, 1) else (2, 0))) [(1, 0); (0, 1)] = Ok u /\
  matrix_adj_op (mk_mat 1 2 (fun _ j => if Nat.eqb j 0 then (0, 1) else (2, 0))) [(1, 1)] = Ok v /\
  cdot u [(1, 1)] = (3, -3) /\ cdot [(1, 0); (0, 1)] v = (3, -3).
Proof.
  unfold matrix_op, matrix_adj_op, any_complex. cbn. destruct (Req_EM_T 1 0); [lra|]. cbn.
  eexists. eexists. split; [reflexivity|]. split; [reflexivity|].
  split; cbn; unfold cadd, cmul, cconj, c0; cbn; f_equal; ring.
Qed.

(** C34: without weights the result of adj_op is the adjoint divided by the number of operators. *)
Theorem C34_linear_combo_mean_is_scaled_adjoint :
  forall (H K : ips) (ops : list ((H -> K) * (K -> H))) x y,
  ops <> [] -> Forall (fun o => forall u v, inner (fst o u) v = inner u (snd o v)) ops ->
  length y = length ops ->
  exists r, combo_lin_adj ops None y = Ok r /\
    rsum (map2 inner (combo_lin_op ops x) y) = INR (length ops) * inner x r.
Proof. exact @combo_mean_scale. Qed.
Print Assumptions C34_linear_combo_mean_is_scaled_adjoint.

(** ... hence it is not the adjoint as soon as there are two operators. *)
Theorem C34_linear_combo_adjoint_refuted :
  exists (ops : list ((R_ips -> R_ips) * (R_ips -> R_ips))) x y r,
  Forall (fun o => forall u v, inner (fst o u) v = inner u (snd o v)) ops /\
  length y = length ops /\ combo_lin_adj ops None y = Ok r /\
  rsum (map2 inner (combo_lin_op ops x) y) <> inner x r.
Proof.
  exists [(fun v => v, fun v => v); (fun v => v, fun v => v)], (1 : R_ips), [1; 1]. eexists.
  split; [repeat constructor|]. split; [reflexivity|]. split; [reflexivity|]. cbn. lra.
Qed.
Print Assumptions C34_linear_combo_adjoint_refuted.

(** With weights, adj_op is the adjoint for the inner product weighted by them; in particular
    unit weights give the adjoint. *)
Theorem C34_linear_combo_weighted_adjoint :
  forall (H K : ips) (ops : list ((H -> K) * (K -> H))) ws x y,
  ops <> [] -> Forall (fun o => forall u v, inner (fst o u) v = inner u (snd o v)) ops ->
  length y = length ops -> length ws = length ops ->
  exists r, combo_lin_adj ops (Some ws) y = Ok r /\
    rsum (map2 Rmult ws (map2 inner (combo_lin_op ops x) y)) = inner x r.
Proof. exact @combo_weights_adjoint. Qed.
Print Assumptions C34_linear_combo_weighted_adjoint.

(** C34: LinearCombo needs at least one operator (ValueError otherwise); weights, if given, must be as
    many as the operators (ValueError) and floats (TypeError). Everything else is accepted, so the
    weights of an accepted object pair up with the operators one to one. *)
Theorem C34_linear_combo_validation :
  (forall ws, combo_check 0 ws = Err ValueError) /\
  (forall n, (0 < n)%nat -> combo_check n None = Ok tt) /\
  (forall n m b, (0 < n)%nat -> m <> n -> combo_check n (Some (m, b)) = Err ValueError) /\
  (forall n, (0 < n)%nat -> combo_check n (Some (n, false)) = Err TypeError) /\
  (forall n, (0 < n)%nat -> combo_check n (Some (n, true)) = Ok tt).
Proof.
  unfold combo_check. split; [reflexivity|].
  split; [intros n N; destruct (Nat.eqb_spec n 0); [lia|reflexivity]|].
  split; [intros n m b N M; destruct (Nat.eqb_spec n 0); [lia|]; destruct (Nat.eqb_spec m 0); [reflexivity|];
          destruct (Nat.eqb_spec m n); [contradiction|reflexivity]|].
  split; intros n N; destruct (Nat.eqb_spec n 0); try lia; rewrite Nat.eqb_refl; reflexivity.
Qed.
Print Assumptions C34_linear_combo_validation.

Example C34_example :
  combo_lin_adj (H := R_ips) (K := R_ips) [(fun v => 2 * v, fun v => 2 * v); (fun v => 3 * v, fun v => 3 * v)] (Some [1; 1]) [10; 100]
  = Ok (1 * (2 * 10) + (1 * (3 * 100) + 0)).
Proof. reflexivity. Qed.

(** C35, filters of odd height and width. *)
Theorem C35_convolution_adjoint_odd :
  forall filters x y n m a b h w,
  shape filters = [m; a; b] -> shape x = [n; h; w] -> shape y = [n; m; h; w] ->
  (0 < n)%nat -> (0 < m)%nat -> Nat.Odd a -> Nat.Odd b ->
  exists u v, wavelet_op filters x = Ok u /\ wavelet_adj_op filters y = Ok v /\
    shape u = [n; m; h; w] /\ shape v = [n; h; w] /\ dot4 n m h w u y = dot3 n h w x v.
Proof. exact wavelet_adjoint. Qed.
Print Assumptions C35_convolution_adjoint_odd.

(** One 1x2 filter, one 1x2 image. *)
Theorem C35_convolution_adjoint_refuted :
  exists filters x y u v,
  shape filters = [1; 1; 2]%nat /\ shape x = [1; 1; 2]%nat /\ shape y = [1; 1; 1; 2]%nat /\
  wavelet_op filters x = Ok u /\ wavelet_adj_op filters y = Ok v /\ dot4 1 1 1 2 u y <> dot3 1 1 2 x v.
Proof.
  destruct even_not_adjoint as (u & v & E1 & E2 & N). exists even_filter, even_x, even_y, u, v. auto 7.
Qed.
Print Assumptions C35_convolution_adjoint_refuted.

(** Image (5, 7) and filter (1, 2, 3): the centre of the filter stays on the pixel. *)
Example C35_example : exists c,
  convolve (mk_nda [1; 2]%nat (row2 5 7 1)) (mk_nda [1; 3]%nat (fun i => INR (1 + nth 1 i 0%nat))) = Ok c /\
  at_ c [0; 0]%nat = 2 * 5 + 1 * 7 /\ at_ c [0; 1]%nat = 3 * 5 + 2 * 7.
Proof. eexists. split; [reflexivity|]. unfold row2, kz. cbn. change (Pos.to_nat 1) with 1%nat. change (Pos.to_nat 2) with 2%nat. cbn. split; lra. Qed.

(** C36 *)
Theorem C36_grad_basic_is_gradient :
  forall (H K : ips) (op : H -> K) (trans_op : K -> H) (obs : K),
  (forall u v, op (u + v)%v = (op u + op v)%v) -> (forall u v, inner (op u) v = inner u (trans_op v)) ->
  forall x h, grad_basic_cost op obs (x + h)%v
    = grad_basic_cost op obs x + inner (grad_basic op trans_op obs x) h + / 2 * norm (op h) ^ 2.
Proof. exact @grad_basic_gradient. Qed.
Print Assumptions C36_grad_basic_is_gradient.

Example C36_example : grad_basic (H := R_ips) (K := R_ips) (fun x => 3 * x) (fun x => 3 * x) 5 2 = 3 * (3 * 2 + -1 * 5).
Proof. reflexivity. Qed.

(** C37 *)
Theorem C37_reweight_closed_form :
  forall w n l, well_formed w -> Forall (fun v => 0 < v) (fa_data w) -> positive_factors n l ->
  let s := rw_run (rw_init w n) l in
  fa_shape (rw_weights s) = fa_shape w /\ length (fa_data (rw_weights s)) = length (fa_data w) /\
  forall i, (i < length (fa_data w))%nat ->
    nth i (fa_data (rw_weights s)) 0 = reweighted (nth i (fa_data w) 0) i (effective (fa_shape w) n l) /\
    0 < nth i (fa_data (rw_weights s)) 0 <= nth i (fa_data w) 0.
Proof. exact reweight_closed_form. Qed.
Print Assumptions C37_reweight_closed_form.

(** The call that follows any history: no weight increases, an entry with zero data keeps its
    weight, a wrong shape raises ValueError and changes no weight. *)
Theorem C37_reweight_next_call :
  forall w n l x, well_formed w -> Forall (fun v => 0 < v) (fa_data w) -> positive_factors n l -> well_formed x ->
  let s := rw_run (rw_init w n) l in let s' := fst (reweight s x) in
  (fa_shape x = fa_shape w -> snd (reweight s x) = Ok tt /\
     forall i, (i < length (fa_data w))%nat ->
       nth i (fa_data (rw_weights s')) 0 <= nth i (fa_data (rw_weights s)) 0 /\
       (nth i (fa_data x) 0 = 0 -> nth i (fa_data (rw_weights s')) 0 = nth i (fa_data (rw_weights s)) 0)) /\
  (fa_shape x <> fa_shape w -> snd (reweight s x) = Err ValueError /\ rw_weights s' = rw_weights s).
Proof. exact reweight_after. Qed.
Print Assumptions C37_reweight_next_call.

(** The docstring's example (weights 4, data 4) and a second call with factor 3. *)
Example C37_example : reweighted 4 0 (effective [1]%nat 1
   [Reweight (mk_farr [1]%nat [4]); Reweight (mk_farr [2]%nat [9; 9]); SetFactor 3; Reweight (mk_farr [1]%nat [12])]) = 1.
Proof.
  unfold reweighted. cbn. rewrite !Rabs_right by lra. lra.
Qed.

(** C38: the caller's own float array is the live weights array. *)
Theorem C38_callers_array_is_live_weights :
  forall d h r factor l, nth_error h r = Some (ArrFloat d) ->
  Forall (fun e => match e with Reweight x => well_formed x | _ => True end) l ->
  exists s, h_rw_init h r factor = Ok s /\
    nth_error (hr_heap (h_rw_run s l)) r =
      Some (ArrFloat (fa_data (rw_weights (rw_run (rw_init (mk_farr [length d] d) factor) l)))).
Proof. exact h_shared. Qed.
Print Assumptions C38_callers_array_is_live_weights.

Theorem C38_callers_array_unchanged_refuted :
  exists h r factor l s v, nth_error h r = Some v /\ h_rw_init h r factor = Ok s /\
    nth_error (hr_heap (h_rw_run s l)) r <> Some v.
Proof.
  exists [ArrFloat [4]], 0%nat, 1, [Reweight (mk_farr [1]%nat [4])].
  eexists. eexists. split; [reflexivity|]. split; [reflexivity|].
  cbn. intros E.
  assert (Q : 4 * (1 / (1 + Rabs 4 / (1 * 4))) = 4) by congruence.
  rewrite Rabs_right in Q by lra. lra.
Qed.
Print Assumptions C38_callers_array_unchanged_refuted.

(** It holds for everything but arrays of a floating dtype. *)
Theorem C38_other_containers_unchanged :
  forall v h r factor s l, nth_error h r = Some v -> (forall d, v <> ArrFloat d) ->
  h_rw_init h r factor = Ok s -> nth_error (hr_heap (h_rw_run s l)) r = Some v.
Proof. exact h_private. Qed.
Print Assumptions C38_other_containers_unchanged.

Example C38_example : exists s, h_rw_init [ArrInt [4]%Z] 0 1 = Ok s /\ hr_heap s = [ArrInt [4]%Z; ArrFloat [IZR 4]].
Proof. eexists. split; reflexivity. Qed.
