(** Theorems about math/matrix.py: C67 (gram_schmidt), C68 (rotate), C69-C70 (PowerMethod). *)
From Verif Require Import NPReal Py IPS Spec_Opt Model_Array Model_Matrix Spec_Matrix Proof_Matrix.
From Coq Require Import List Lia.
Import ListNotations.
Local Open Scope R_scope.

(** The plane. *)
Definition R2 : ips := prod_ips R_ips R_ips.
Definition pt (a b : R) : R2 := (a, b).

(** * C67 *)
(** [C67] On linearly independent rows, gram_schmidt returns orthogonal (resp. orthonormal) rows
    without nan; the first k of them span what the first k input rows span, and each has a positive
    inner product with its input row. *)
Theorem C67_independent_rows :
  forall (H : ips) (rows : list H), independent rows ->
  exists us es,
    gram_schmidt rows Orthogonal = Ok (GSOne (map Some us)) /\
    gram_schmidt rows Orthonormal = Ok (GSOne (map Some es)) /\
    gram_schmidt rows Both = Ok (GSBoth (map Some us) (map Some es)) /\
    length us = length rows /\ length es = length rows /\ orthogonal us /\ orthonormal es /\
    (forall k x, in_span (firstn k rows) x <-> in_span (firstn k us) x) /\
    (forall k x, in_span (firstn k rows) x <-> in_span (firstn k es) x) /\
    (forall k u v, nth_error us k = Some u -> nth_error rows k = Some v -> inner u v = inner u u) /\
    (forall k e v, nth_error es k = Some e -> nth_error rows k = Some v -> 0 < inner e v).
Proof.
  intros H rows Hi. destruct (gs_main [] [] rows gs_inv_nil indep_nil) as [A _]. destruct (A Hi) as (us & E & L & O & N & Sp & Dg).
  cbn [app map] in *. exists us, (map unitv us). unfold gram_schmidt. rewrite E, onorm_some by exact N.
  assert (Sp' : forall k x, in_span (firstn k rows) x <-> in_span (firstn k us) x).
  { intros k x. destruct (Nat.le_gt_cases k (length rows)) as [Hk|Hk]; [apply Sp, Hk|].
    rewrite (firstn_all2 rows), (firstn_all2 us) by lia. specialize (Sp (length rows) ltac:(lia) x).
    rewrite firstn_all, <- L, firstn_all in Sp. exact Sp. }
  do 3 (split; [reflexivity|]). split; [exact L|]. split; [rewrite map_length; exact L|]. split; [exact O|].
  split; [apply unit_orthonormal; assumption|]. split; [exact Sp'|]. split; [|split; [exact Dg|]].
  - intros k x. rewrite firstn_map, <- unit_span; [apply Sp'|]. intros u Hu. apply N.
    rewrite <- (firstn_skipn k us). apply in_app_iff. left. exact Hu.
  - intros k e v He Hv. rewrite nth_error_map in He. destruct (nth_error us k) as [u|] eqn:Eu; [|discriminate].
    injection He as <-. unfold unitv. rewrite inner_scal_l, (Dg k u v Eu Hv).
    pose proof (N u (nth_error_In _ _ Eu)) as Nu. pose proof (pos_norm u Nu) as P. pose proof (inner_pos H u).
    apply Rmult_lt_0_compat; [apply Rinv_0_lt_compat, P|lra].
Qed.
Print Assumptions C67_independent_rows.

(** [C67] On linearly dependent rows it raises nothing: one of the rows it returns is nan. *)
Theorem C67_dependent_rows_nan :
  forall (H : ips) (rows : list H), ~ independent rows ->
  exists es, gram_schmidt rows Orthonormal = Ok (GSOne es) /\ In None es.
Proof.
  intros H rows Hd. destruct (gs_main [] [] rows gs_inv_nil indep_nil) as [_ B]. destruct (B Hd) as (k & u & E & Z).
  eexists. split; [reflexivity|]. apply in_map_iff. exists (Some u). split.
  - cbn. destruct (Req_EM_T (norm u) 0) as [_|N]; [reflexivity|]. exfalso. apply N. unfold norm. rewrite Z. apply sqrt_0.
  - eapply nth_error_In, E.
Qed.
Print Assumptions C67_dependent_rows_nan.

(** [C67] Any other return_opt raises ValueError. *)
Theorem C67_invalid_option : forall (H : ips) (rows : list H), gram_schmidt rows OtherOpt = Err ValueError.
Proof. reflexivity. Qed.
Print Assumptions C67_invalid_option.

(** Hermitian inner product. *)
Definition herm (a b : list cplx) : cplx := fold_right c_add (0, 0) (map (fun p => c_mul (fst (fst p), - snd (fst p)) (snd p)) (combine a b)).
(** [C67, refuted for complex rows] (1, 2i) and (1, 0) are turned into rows that are not orthogonal:
    the inner product of the implementation does not conjugate. *)
Theorem C67_complex_rows_refuted :
  exists v0 v1 : list cplx, length v0 = length v1 /\ (forall c, map (c_mul c) v0 <> v1) /\
  np_inner v0 v0 <> (0, 0) /\ herm v0 (c_second v0 v1) <> (0, 0).
Proof.
  exists [(1, 0); (0, 2)], [(1, 0); (0, 0)]. split; [reflexivity|]. split; [|split].
  - intros [c d] E. cbn in E. injection E. lra.
  - cbn. intros E. injection E. lra.
  - cbn. unfold c_mul, c_div, c_abs2, c_add, c_sub. cbn. intros E. injection E. intros _ E1.
    match type of E1 with ?a = 0 => replace a with (8 / 3) in E1 by field end. lra.
Qed.
Print Assumptions C67_complex_rows_refuted.

Example C67_example :
  independent (H := R2) [pt 1 1; pt 1 0] /\
  exists us, gram_schmidt (H := R2) [pt 1 1; pt 1 0] Orthogonal = Ok (GSOne us) /\ us = [Some (pt 1 1); Some (pt (1 / 2) (- (1 / 2)))].
Proof.
  split.
  - intros [|a [|b [|c ws]]] L E; try discriminate. cbn in E. injection E. intros E1 E2.
    repeat constructor; lra.
  - eexists. split; [reflexivity|]. cbn. unfold project, pt. cbn. destruct (Req_EM_T (1 * 1 + 1 * 1) 0); [lra|]. cbn.
    apply f_equal2; [reflexivity|]. apply f_equal2; [|reflexivity]. apply f_equal. apply f_equal2; field.
Qed.

(** * C68 *)
(** [C68] Each entry of rot_matrix is within 0.5e-10 of the rotation matrix. *)
Theorem C68_rot_matrix : forall t,
  let '((a, b), (c, d)) := rot_matrix t in
  Rabs (a - cos t) <= / 2 * / 10 ^ 10 /\ Rabs (b - - sin t) <= / 2 * / 10 ^ 10 /\
  Rabs (c - sin t) <= / 2 * / 10 ^ 10 /\ Rabs (d - cos t) <= / 2 * / 10 ^ 10.
Proof. intros t. unfold rot_matrix. repeat split; apply around_err. Qed.
Print Assumptions C68_rot_matrix.

(** [C68] rotate never fails on a square array, whatever the angle; it keeps the shape, and every
    output pixel is some input pixel. *)
Theorem C68_rotate_total : forall A (m : nda A) n t, shape m = [n; n] -> (1 <= n)%nat ->
  exists r, rotate_matrix m t = Ok r /\ shape r = [n; n] /\
  forall i j, (i < n)%nat -> (j < n)%nat -> exists k l, (k < n)%nat /\ (l < n)%nat /\ at_ r [i; j] = at_ m [k; l].
Proof.
  intros A m n t Sh Hn. destruct (rotate_ok m n t Sh Hn) as (r & E & S & P). exists r. split; [exact E|]. split; [exact S|].
  intros i j Hi Hj. destruct (P i j Hi Hj) as (k & l & _ & Hk & Hl & Q). exists k, l. repeat split; assumption.
Qed.
Print Assumptions C68_rotate_total.

(** [C68] A non-square 2-D array raises ValueError. *)
Theorem C68_not_square : forall A (m : nda A) h w t, shape m = [h; w] -> h <> w -> rotate_matrix m t = Err ValueError.
Proof. intros A m h w t Sh Hn. unfold rotate_matrix. rewrite Sh. destruct (Nat.eqb_spec h w); [contradiction|]. reflexivity. Qed.
Print Assumptions C68_not_square.

(** [C68] Angle 0 is the identity. *)
Theorem C68_zero_angle : forall A (m : nda A) n, shape m = [n; n] -> (1 <= n)%nat ->
  exists r, rotate_matrix m 0 = Ok r /\ arr_eq r m.
Proof.
  intros A m n Sh Hn. destruct (rotate_ok m n 0 Sh Hn) as (r & E & S & P). exists r. split; [exact E|].
  split; [rewrite S, Sh; reflexivity|]. rewrite S. intros [|i [|j [|? ?]]] R; try (cbn in R; tauto). destruct R as (Hi & Hj & _).
  destruct (P i j Hi Hj) as (k & l & Es & _ & _ & Q). rewrite Q.
  rewrite (source_int n 0 1 0 i j) in Es; [|apply cos_0|apply sin_0].
  replace ((Z.of_nat i - Z.of_nat ((n - 1) / 2)) * 1 + (Z.of_nat j - Z.of_nat ((n - 1) / 2)) * 0 + Z.of_nat ((n - 1) / 2))%Z with (Z.of_nat i) in Es by ring.
  replace ((Z.of_nat j - Z.of_nat ((n - 1) / 2)) * 1 - (Z.of_nat i - Z.of_nat ((n - 1) / 2)) * 0 + Z.of_nat ((n - 1) / 2))%Z with (Z.of_nat j) in Es by ring.
  rewrite !wrap_id in Es by assumption. injection Es as <- <-. reflexivity.
Qed.
Print Assumptions C68_zero_angle.

(** [C68] With an odd side the quarter and half turns are exact. *)
Theorem C68_quarter_turns : forall A (m : nda A) n, shape m = [n; n] -> Nat.odd n = true ->
  (exists r, rotate_matrix m (PI / 2) = Ok r /\ forall i j, (i < n)%nat -> (j < n)%nat -> at_ r [i; j] = at_ m [j; (n - 1 - i)%nat]) /\
  (exists r, rotate_matrix m PI = Ok r /\ forall i j, (i < n)%nat -> (j < n)%nat -> at_ r [i; j] = at_ m [(n - 1 - i)%nat; (n - 1 - j)%nat]) /\
  (exists r, rotate_matrix m (- (PI / 2)) = Ok r /\ forall i j, (i < n)%nat -> (j < n)%nat -> at_ r [i; j] = at_ m [(n - 1 - j)%nat; i]).
Proof.
  intros A m n Sh Odd. apply Nat.odd_spec in Odd. destruct Odd as (s & En). assert (Hn : (1 <= n)%nat) by lia.
  assert (Hs : ((n - 1) / 2)%nat = s). { replace (n - 1)%nat with (s * 2)%nat by lia. apply Nat.div_mul. lia. }
  split; [|split].
  - destruct (rotate_ok m n (PI / 2) Sh Hn) as (r & E & S & P). exists r. split; [exact E|]. intros i j Hi Hj.
    destruct (P i j Hi Hj) as (k & l & Es & _ & _ & Q). rewrite Q.
    rewrite (source_int n _ 0 1 i j cos_PI2 sin_PI2), Hs in Es.
    replace ((Z.of_nat i - Z.of_nat s) * 0 + (Z.of_nat j - Z.of_nat s) * 1 + Z.of_nat s)%Z with (Z.of_nat j) in Es by ring.
    replace ((Z.of_nat j - Z.of_nat s) * 0 - (Z.of_nat i - Z.of_nat s) * 1 + Z.of_nat s)%Z with (Z.of_nat (n - 1 - i)) in Es by lia.
    rewrite !wrap_id in Es by lia. injection Es as <- <-. reflexivity.
  - destruct (rotate_ok m n PI Sh Hn) as (r & E & S & P). exists r. split; [exact E|]. intros i j Hi Hj.
    destruct (P i j Hi Hj) as (k & l & Es & _ & _ & Q). rewrite Q.
    rewrite (source_int n _ (-1) 0 i j cos_PI sin_PI), Hs in Es.
    replace ((Z.of_nat i - Z.of_nat s) * -1 + (Z.of_nat j - Z.of_nat s) * 0 + Z.of_nat s)%Z with (Z.of_nat (n - 1 - i)) in Es by lia.
    replace ((Z.of_nat j - Z.of_nat s) * -1 - (Z.of_nat i - Z.of_nat s) * 0 + Z.of_nat s)%Z with (Z.of_nat (n - 1 - j)) in Es by lia.
    rewrite !wrap_id in Es by lia. injection Es as <- <-. reflexivity.
  - destruct (rotate_ok m n (- (PI / 2)) Sh Hn) as (r & E & S & P). exists r. split; [exact E|]. intros i j Hi Hj.
    destruct (P i j Hi Hj) as (k & l & Es & _ & _ & Q). rewrite Q.
    rewrite (source_int n _ 0 (-1) i j), Hs in Es; [|rewrite cos_neg; apply cos_PI2|rewrite sin_neg, sin_PI2; reflexivity].
    replace ((Z.of_nat i - Z.of_nat s) * 0 + (Z.of_nat j - Z.of_nat s) * -1 + Z.of_nat s)%Z with (Z.of_nat (n - 1 - j)) in Es by lia.
    replace ((Z.of_nat j - Z.of_nat s) * 0 - (Z.of_nat i - Z.of_nat s) * -1 + Z.of_nat s)%Z with (Z.of_nat i) in Es by lia.
    rewrite !wrap_id in Es by lia. injection Es as <- <-. reflexivity.
Qed.
Print Assumptions C68_quarter_turns.

(** [C68] With an even side rotate by pi/2 gives row i the input column n - 2 - i, modulo n, so the
    last row shows the last column instead of the first. *)
Theorem C68_even_quarter_turn : forall A (m : nda A) n, shape m = [n; n] -> Nat.even n = true -> (2 <= n)%nat ->
  exists r, rotate_matrix m (PI / 2) = Ok r /\
  (forall i j, (i < n - 1)%nat -> (j < n)%nat -> at_ r [i; j] = at_ m [j; (n - 2 - i)%nat]) /\
  (forall j, (j < n)%nat -> at_ r [(n - 1)%nat; j] = at_ m [j; (n - 1)%nat]).
Proof.
  intros A m n Sh Ev Hn. apply Nat.even_spec in Ev. destruct Ev as (h & En).
  assert (Hs : ((n - 1) / 2)%nat = (h - 1)%nat).
  { replace (n - 1)%nat with (1 + (h - 1) * 2)%nat by lia. rewrite Nat.div_add by lia. reflexivity. }
  destruct (rotate_ok m n (PI / 2) Sh ltac:(lia)) as (r & E & S & P). exists r. split; [exact E|].
  assert (G : forall i j, (i < n)%nat -> (j < n)%nat ->
    exists l, wrap_index n (Z.of_nat n - 2 - Z.of_nat i) = Some l /\ at_ r [i; j] = at_ m [j; l]).
  { intros i j Hi Hj. destruct (P i j Hi Hj) as (k & l & Es & _ & _ & Q). rewrite Q.
    rewrite (source_int n _ 0 1 i j cos_PI2 sin_PI2), Hs in Es.
    replace ((Z.of_nat i - Z.of_nat (h - 1)) * 0 + (Z.of_nat j - Z.of_nat (h - 1)) * 1 + Z.of_nat (h - 1))%Z with (Z.of_nat j) in Es by ring.
    replace ((Z.of_nat j - Z.of_nat (h - 1)) * 0 - (Z.of_nat i - Z.of_nat (h - 1)) * 1 + Z.of_nat (h - 1))%Z with (Z.of_nat n - 2 - Z.of_nat i)%Z in Es by lia.
    rewrite wrap_id in Es by lia. destruct (wrap_index n (Z.of_nat n - 2 - Z.of_nat i)) as [l'|] eqn:W; [|discriminate].
    injection Es as <- <-. exists l'. split; reflexivity. }
  split.
  - intros i j Hi Hj. destruct (G i j ltac:(lia) Hj) as (l & W & Q).
    replace (Z.of_nat n - 2 - Z.of_nat i)%Z with (Z.of_nat (n - 2 - i)) in W by lia. rewrite wrap_id in W by lia. injection W as <-. exact Q.
  - intros j Hj. destruct (G (n - 1)%nat j ltac:(lia) Hj) as (l & W & Q).
    replace (Z.of_nat n - 2 - Z.of_nat (n - 1))%Z with (-1)%Z in W by lia. unfold wrap_index in W.
    destruct (Z.leb_spec (Z.of_nat n) (-1)); [lia|]. cbn [Z.ltb Z.compare] in W.
    destruct (Z.leb_spec 0 (-1 + Z.of_nat n)); [|lia]. destruct (Z.ltb_spec (-1 + Z.of_nat n) (Z.of_nat n)); [|lia].
    cbn [andb] in W. assert (El : l = Z.to_nat (-1 + Z.of_nat n)) by congruence. rewrite Q, El. do 3 f_equal. lia.
Qed.
Print Assumptions C68_even_quarter_turn.
(** [C68, refuted] So the quarter turn is not exact with an even side. *)
Theorem C68_even_side_refuted :
  exists (m r : nda nat) n i j, shape m = [n; n] /\ rotate_matrix m (PI / 2) = Ok r /\ (i < n)%nat /\ (j < n)%nat /\
  at_ r [i; j] <> at_ m [j; (n - 1 - i)%nat].
Proof.
  destruct (C68_even_quarter_turn nat (mk_nda [2%nat; 2%nat] (fun idx => nth 1 idx 0%nat)) 2 eq_refl eq_refl ltac:(lia)) as (r & E & _ & P).
  exists (mk_nda [2%nat; 2%nat] (fun idx => nth 1 idx 0%nat)), r, 2%nat, 1%nat, 0%nat. split; [reflexivity|]. split; [exact E|]. split; [lia|]. split; [lia|].
  change (at_ r [1%nat; 0%nat]) with (at_ r [(2 - 1)%nat; 0%nat]). rewrite (P 0%nat) by lia. cbn. lia.
Qed.
Print Assumptions C68_even_side_refuted.

(** [C68, refuted] Rotation loses pixels: at pi/4 a 3x3 array and the same with its corners set to 0
    have the same rotation. *)
Lemma cs_pi4 : let c := around 10 (cos (PI / 4)) in let s := around 10 (sin (PI / 4)) in let s' := around 10 (- sin (PI / 4)) in
  7 / 10 < c < 8 / 10 /\ 7 / 10 < s < 8 / 10 /\ - (8 / 10) < s' < - (7 / 10).
Proof.
  cbv zeta. pose proof (round_err (cos (PI / 4))) as A. pose proof (round_err (sin (PI / 4))) as B. pose proof (round_err (- sin (PI / 4))) as C.
  pose proof d10 as D. rewrite cos_PI4, sin_PI4 in *.
  assert (Q : 705 / 1000 < 1 / sqrt 2 < 708 / 1000).
  { pose proof (sqrt_sqrt 2 ltac:(lra)) as E. pose proof (sqrt_lt_R0 2 ltac:(lra)) as P. set (q := sqrt 2) in *. clearbody q.
    assert (1413 / 1000 < q < 1418 / 1000) by nra. split; (apply Rmult_lt_reg_r with q; [exact P|]; unfold Rdiv; rewrite Rmult_1_l, (Rinv_l q) by lra; nra). }
  set (d := / 10 ^ 10) in *. clearbody d. lra.
Qed.

Theorem C68_pixels_lost_refuted :
  exists m m' : nda R, shape m = [3%nat; 3%nat] /\ shape m' = [3%nat; 3%nat] /\ at_ m [0%nat; 0%nat] <> at_ m' [0%nat; 0%nat] /\
  exists r r', rotate_matrix m (PI / 4) = Ok r /\ rotate_matrix m' (PI / 4) = Ok r' /\ arr_eq r r'.
Proof.
  set (corner := fun k l : nat => (negb (Nat.eqb k 1) && negb (Nat.eqb l 1))%bool).
  exists (mk_nda [3%nat; 3%nat] (fun _ => 1)),
    (mk_nda [3%nat; 3%nat] (fun idx => if corner (nth 0 idx 0%nat) (nth 1 idx 0%nat) then 0 else 1)).
  split; [reflexivity|]. split; [reflexivity|]. split; [cbn; lra|].
  destruct (rotate_ok (mk_nda [3%nat; 3%nat] (fun _ => 1)) 3 (PI / 4) eq_refl ltac:(lia)) as (r & E & S & P).
  destruct (rotate_ok (mk_nda [3%nat; 3%nat] (fun idx => if corner (nth 0 idx 0%nat) (nth 1 idx 0%nat) then 0 else 1)) 3 (PI / 4) eq_refl ltac:(lia)) as (r' & E' & S' & P').
  exists r, r'. split; [exact E|]. split; [exact E'|]. split; [rewrite S, S'; reflexivity|].
  rewrite S. intros [|i [|j [|? ?]]] R; try (cbn in R; tauto). destruct R as (Hi & Hj & _).
  destruct (P i j Hi Hj) as (k & l & Es & Hk & Hl & Q). destruct (P' i j Hi Hj) as (k' & l' & Es' & _ & _ & Q'). rewrite Es in Es'. injection Es' as <- <-.
  rewrite Q, Q'. cbn [at_ nth]. replace (corner k l) with false; [reflexivity|]. symmetry. unfold corner.
  clear -Es Hi Hj. unfold rot_source, rot_matrix in Es. change (Z.of_nat ((3 - 1) / 2)) with 1%Z in Es.
  destruct cs_pi4 as (C & B & D). cbv zeta in *. set (c := around 10 (cos (PI / 4))) in *. set (s := around 10 (sin (PI / 4))) in *. set (s' := around 10 (- sin (PI / 4))) in *. clearbody c s s'.
  assert (Z1 : wrap_index 3 1 = Some 1%nat) by reflexivity.
  assert (A : trunc (IZR (Z.of_nat i - 1) * c + IZR (Z.of_nat j - 1) * s) = 0%Z \/ trunc (IZR (Z.of_nat i - 1) * s' + IZR (Z.of_nat j - 1) * c) = 0%Z).
  { destruct i as [|[|[|i]]]; [| | |lia]; (destruct j as [|[|[|j]]]; [| | |lia]); cbn [Z.of_nat Pos.of_succ_nat Z.sub Z.add Z.opp Z.pos_sub Pos.succ Pos.pred_double Pos.add];
      first [ left; apply trunc_small; unfold Rabs; destruct (Rcase_abs _); lra | right; apply trunc_small; unfold Rabs; destruct (Rcase_abs _); lra ]. }
  destruct A as [A|A]; rewrite A in Es; cbn [Z.add] in Es; rewrite Z1 in Es.
  - destruct (wrap_index 3 (trunc _ + 1)) in Es; [|discriminate]. injection Es as <- <-. reflexivity.
  - destruct (wrap_index 3 (trunc _ + 1)) in Es; [|discriminate]. injection Es as <- <-. apply Bool.andb_false_r.
Qed.
Print Assumptions C68_pixels_lost_refuted.

Example C68_example : exists r, rotate_matrix (mk_nda [3%nat; 3%nat] (fun idx => (3 * nth 0 idx 0 + nth 1 idx 0)%nat)) (PI / 2) = Ok r /\
  map (fun p => at_ r [fst p; snd p]) (pairs 3) = [2; 5; 8; 1; 4; 7; 0; 3; 6]%nat.
Proof.
  destruct (C68_quarter_turns nat (mk_nda [3%nat; 3%nat] (fun idx => (3 * nth 0 idx 0 + nth 1 idx 0)%nat)) 3 eq_refl eq_refl) as [(r & E & P) _].
  exists r. split; [exact E|]. cbn. rewrite !P by lia. reflexivity.
Qed.

(** * C69 *)
(** [C69] The estimate never exceeds the operator norm (times extra_factor). *)
Theorem C69_never_above_norm :
  forall (H : ips) (op : H -> H) L x0 tol n f r, bounded_by L op -> 0 <= f ->
  get_spec_rad op x0 tol n f = Ok (Some r) -> r <= L * f.
Proof.
  intros H op L x0 tol n f r B Hf E. unfold get_spec_rad in E. destruct n as [|n]; [discriminate|].
  unfold ounit in E. destruct (Req_EM_T (norm x0) 0) as [Z|N]; [discriminate|].
  destruct (pm_loop op (S n) _ _ tol) as [q|] eqn:Q; [|discriminate]. injection E as <-.
  apply Rmult_le_compat_r; [exact Hf|]. eapply pm_le; [exact B|apply unit_norm, N|exact Q].
Qed.
Print Assumptions C69_never_above_norm.

(** [C69] For a self-adjoint operator whose norm L is an eigenvalue, and a start that is not
    orthogonal to the eigenvector, the estimate with tolerance 0 converges to L as max_iter grows,
    from below and without ever decreasing; no spectral gap is needed. *)
Theorem C69_converges :
  forall (H : ips) (op : H -> H) L v x0, linear op -> self_adjoint op -> bounded_by L op -> 0 < L ->
  op v = (L * v)%v -> inner x0 v <> 0 -> forall eps, 0 < eps ->
  exists N, forall n, (N <= n)%nat -> exists r, get_spec_rad op x0 0 n 1 = Ok (Some r) /\ L - eps <= r <= L.
Proof.
  intros H op L v x0 Lin SA B HL Ev Nv eps He.
  assert (Hom : forall a x, op (a * x)%v = (a * op x)%v).
  { intros a x. pose proof (Lin a 0 x x) as Q. replace (a * x + 0 * x)%v with (a * x)%v in Q by vring. rewrite Q. vring. }
  assert (N0 : norm x0 <> 0). { intros Z. apply norm_eq0 in Z. rewrite Z, inner_0_l in Nv. lra. }
  pose proof (norm_pos_neq _ N0) as P0. set (y := (/ norm x0 * x0)%v).
  assert (Ny : inner y v <> 0).
  { unfold y. rewrite inner_scal_l. apply Rmult_integral_contrapositive_currified; [apply Rinv_neq_0_compat; lra|exact Nv]. }
  assert (Pv : 0 < norm v). { apply norm_pos_neq. intros Z. apply norm_eq0 in Z. rewrite Z, inner_0_r in Nv. lra. }
  assert (Hc : 0 < Rabs (inner y v) / norm v) by (apply Rdiv_lt_0_compat; [apply Rabs_pos_lt, Ny|exact Pv]).
  destruct (root_limit L _ eps HL Hc He) as (N & HN). exists (S N). intros n Hn. destruct n as [|n]; [lia|].
  destruct (pm_lower op Hom SA L v n y (norm x0) 0 HL (Rle_refl 0) Ev (unit_norm _ N0) Ny) as (r & Er & Hr & Pr & Hl).
  exists r. unfold get_spec_rad, ounit. destruct (Req_EM_T (norm x0) 0) as [Z|_]; [contradiction|]. fold y. rewrite Er. cbn. rewrite Rmult_1_r.
  split; [reflexivity|]. split; [|eapply pm_le; [exact B|apply unit_norm, N0|exact Er]].
  apply (HN n r); [lia|lra|]. unfold Rdiv. rewrite <- Rmult_assoc. apply Rmult_le_reg_r with (norm v); [exact Pv|].
  rewrite Rmult_assoc, Rinv_l, Rmult_1_r by lra. exact Hl.
Qed.
Print Assumptions C69_converges.

(** [C69] One more iteration never lowers the estimate of a self-adjoint operator. *)
Theorem C69_monotone :
  forall (H : ips) (op : H -> H) x0 n r r', linear op -> self_adjoint op ->
  get_spec_rad op x0 0 n 1 = Ok (Some r) -> get_spec_rad op x0 0 (S n) 1 = Ok (Some r') -> r <= r'.
Proof.
  intros H op x0 n r r' Lin SA E E'.
  assert (Hom : forall a x, op (a * x)%v = (a * op x)%v).
  { intros a x. pose proof (Lin a 0 x x) as Q. replace (a * x + 0 * x)%v with (a * x)%v in Q by vring. rewrite Q. vring. }
  unfold get_spec_rad in E, E'. destruct n as [|n]; [discriminate|].
  unfold ounit in E, E'. destruct (Req_EM_T (norm x0) 0) as [Z|N]; [discriminate|].
  destruct (pm_loop op (S n) _ _ 0) as [q|] eqn:Q in E; [|discriminate].
  destruct (pm_loop op (S (S n)) _ _ 0) as [q'|] eqn:Q' in E'; [|discriminate].
  injection E as <-. injection E' as <-. rewrite !Rmult_1_r.
  apply (pm_mono op Hom SA n _ _ 0 q q' (Rle_refl 0) (unit_norm _ N) Q Q').
Qed.
Print Assumptions C69_monotone.

Definition diag (a b : R) (x : R2) : R2 := (a * fst x, b * snd x).
Lemma diag_linear a b : linear (diag a b).
Proof. intros s t [x1 x2] [y1 y2]. unfold diag. cbn. f_equal; ring. Qed.
Lemma diag_self_adjoint a b : self_adjoint (diag a b).
Proof. intros [x1 x2] [y1 y2]. unfold diag. cbn. ring. Qed.
Lemma diag_bounded a b : 0 <= b <= a -> bounded_by a (diag a b).
Proof.
  intros Hab [x1 x2]. unfold norm, diag. cbn. rewrite <- (sqrt_square a) at 3 by lra. rewrite <- sqrt_mult by nra. apply sqrt_le_1_alt.
  assert (0 <= x2 * x2) by nra. assert (b * b <= a * a) by nra. nra.
Qed.

(** [C69, refuted] The estimate is not an upper bound of the norm, so 1 / spec_rad is not a safe
    gradient step: for diag(2, 1) and a start with both entries non-zero, every tolerance and every
    number of iterations give spec_rad < 2 and 1 / spec_rad > 1 / 2. *)
Theorem C69_upper_bound_refuted :
  exists (op : R2 -> R2) (v x0 : R2), linear op /\ self_adjoint op /\ bounded_by 2 op /\ op v = (2 * v)%v /\ v <> vzero /\
  forall tol n, (1 <= n)%nat -> exists r, get_spec_rad op x0 tol n 1 = Ok (Some r) /\ r < 2 /\ 1 / 2 < 1 / r.
Proof.
  exists (diag 2 1), (pt 1 0), (pt 1 1). split; [apply diag_linear|]. split; [apply diag_self_adjoint|]. split; [apply diag_bounded; lra|].
  split; [unfold diag, pt; cbn; f_equal; ring|]. split; [intros E; injection E; lra|]. intros tol n Hn. destruct n as [|n]; [lia|].
  assert (G : forall n (x : R2) nrm, norm x = 1 -> snd x <> 0 -> exists r, pm_loop (diag 2 1) (S n) (Some x) nrm tol = Some r /\ 0 < r < 2).
  { clear. induction n as [|n IH]; intros x nrm U Nx.
    - assert (B : 0 < norm (diag 2 1 x) < 2).
      { destruct x as [x1 x2]. unfold norm, diag in *. cbn in *. assert (E : x1 * x1 + x2 * x2 = 1).
        { rewrite <- (sqrt_sqrt (x1 * x1 + x2 * x2)) by nra. rewrite U. ring. }
        assert (0 < x2 * x2) by nra. split; [apply sqrt_lt_R0; nra|]. apply Rlt_le_trans with (sqrt (2 * 2)); [apply sqrt_lt_1_alt; nra|rewrite sqrt_square; lra]. }
      cbn [pm_loop]. destruct (Rlt_dec _ tol); exists (norm (diag 2 1 x)); split; try reflexivity; exact B.
    - assert (B : 0 < norm (diag 2 1 x) < 2).
      { destruct x as [x1 x2]. unfold norm, diag in *. cbn in *. assert (E : x1 * x1 + x2 * x2 = 1).
        { rewrite <- (sqrt_sqrt (x1 * x1 + x2 * x2)) by nra. rewrite U. ring. }
        assert (0 < x2 * x2) by nra. split; [apply sqrt_lt_R0; nra|]. apply Rlt_le_trans with (sqrt (2 * 2)); [apply sqrt_lt_1_alt; nra|rewrite sqrt_square; lra]. }
      remember (S n) as m. cbn [pm_loop]. destruct (Rlt_dec _ tol); [exists (norm (diag 2 1 x)); split; [reflexivity|exact B]|]. subst m.
      unfold ounit. destruct (Req_EM_T (norm (diag 2 1 x)) 0) as [Z|N]; [lra|]. apply IH; [apply unit_norm, N|].
      destruct x as [x1 x2]. cbn in Nx |- *. apply Rmult_integral_contrapositive_currified; [apply Rinv_neq_0_compat, N|lra]. }
  assert (N : norm (pt 1 1) <> 0).
  { unfold norm, pt. cbn. pose proof (sqrt_lt_R0 (1 * 1 + 1 * 1) ltac:(lra)). lra. }
  unfold get_spec_rad, ounit. destruct (Req_EM_T (norm (pt 1 1)) 0) as [Z|_]; [contradiction|].
  destruct (G n (/ norm (pt 1 1) * pt 1 1)%v (norm (pt 1 1)) (unit_norm _ N)) as (r & Er & Hr).
  { cbn. rewrite Rmult_1_r. apply Rinv_neq_0_compat, N. }
  rewrite Er. exists r. cbn. rewrite Rmult_1_r. split; [reflexivity|]. split; [lra|].
  apply Rmult_lt_reg_r with (2 * r); [lra|]. replace (1 / 2 * (2 * r)) with r by field. replace (1 / r * (2 * r)) with 2 by (field; lra). lra.
Qed.
Print Assumptions C69_upper_bound_refuted.

(** [C69, refuted] Stopping on the tolerance does not mean the estimate has converged: the first test
    compares it with the norm of the random start. Here the start (0.3, 0.4), which the generator
    can draw, makes every positive tolerance stop at 1/2 while the norm is 2/3. *)
Theorem C69_convergence_test_refuted :
  exists (op : R2 -> R2) (v x0 : R2), linear op /\ self_adjoint op /\ op v = (2 / 3 * v)%v /\ v <> vzero /\ inner x0 v <> 0 /\
  (0 <= fst x0 < 1 /\ 0 <= snd x0 < 1) /\
  forall tol n, 0 < tol -> (1 <= n)%nat -> get_spec_rad op x0 tol n 1 = Ok (Some (1 / 2)).
Proof.
  exists (diag (2 / 3) (3 / 8)), (pt 1 0), (pt (3 / 10) (4 / 10)).
  split; [apply diag_linear|]. split; [apply diag_self_adjoint|].
  split; [unfold diag, pt; cbn; f_equal; ring|]. split; [intros E; injection E; lra|]. split; [cbn; lra|]. split; [cbn; lra|].
  intros tol n Ht Hn. destruct n as [|n]; [lia|].
  assert (E0 : norm (pt (3 / 10) (4 / 10)) = 1 / 2).
  { unfold norm, pt. cbn. replace (3 / 10 * (3 / 10) + 4 / 10 * (4 / 10)) with (1 / 2 * (1 / 2)) by field. apply sqrt_square. lra. }
  unfold get_spec_rad, ounit. rewrite E0. destruct (Req_EM_T (1 / 2) 0); [lra|]. cbn [pm_loop].
  assert (E1 : norm (diag (2 / 3) (3 / 8) (/ (1 / 2) * pt (3 / 10) (4 / 10))%v) = 1 / 2).
  { unfold norm, diag, pt. cbn. match goal with |- sqrt ?a = _ => replace a with (1 / 2 * (1 / 2)) by field end. apply sqrt_square. lra. }
  rewrite E1. replace (1 / 2 - 1 / 2) with 0 by ring. rewrite Rabs_R0. destruct (Rlt_dec 0 tol); [|lra]. cbn. rewrite Rmult_1_r. reflexivity.
Qed.
Print Assumptions C69_convergence_test_refuted.

(** [C69] With max_iter = 0 the estimate is never bound. *)
Theorem C69_zero_iterations : forall (H : ips) (op : H -> H) x0 tol f, get_spec_rad op x0 tol 0 f = Err UnboundLocalError.
Proof. reflexivity. Qed.
Print Assumptions C69_zero_iterations.

Definition triple (x : R_ips) : R_ips := (3 * x)%R.
Example C69_example : get_spec_rad triple 5 0 20 1 = Ok (Some 3) /\ get_spec_rad triple 5 0 20 (11 / 10) = Ok (Some (33 / 10)).
Proof.
  assert (E : forall x : R, Rabs x = 1 -> norm (triple x) = 3).
  { intros x U. unfold norm, triple. cbn. change (sqrt (Rsqr (3 * x)) = 3). rewrite sqrt_Rsqr_abs, Rabs_mult, U, Rabs_right by lra. ring. }
  assert (A : forall n (x : R) nrm, Rabs x = 1 -> pm_loop triple (S n) (Some x) nrm 0 = Some 3).
  { induction n as [|n IH]; intros x nrm U.
    - cbn [pm_loop]. rewrite E by exact U. destruct (Rlt_dec _ 0); reflexivity.
    - remember (S n) as m. cbn [pm_loop]. rewrite E by exact U. destruct (Rlt_dec _ 0); [reflexivity|]. subst m. unfold ounit. rewrite E by exact U.
      destruct (Req_EM_T 3 0); [lra|]. apply IH. cbn. unfold triple. replace (/ 3 * (3 * x))%R with x by field. exact U. }
  assert (E5 : norm (H := R_ips) 5 = 5). { unfold norm. cbn. apply sqrt_square. lra. }
  unfold get_spec_rad, ounit. rewrite E5. destruct (Req_EM_T 5 0); [lra|].
  rewrite A by (cbn; rewrite Rabs_right; lra). cbn. split; do 2 f_equal; field.
Qed.

(** * C70 *)
(** [C70, refuted] The rng argument does not make the result reproducible: with a generator that
    honours its seed, two runs given the same seed draw different starts and return different
    estimates. *)
Theorem C70_seed_refuted :
  exists (draw : option nat -> nat -> R2) (op : R2 -> R2),
  (forall seed e e', draw (Some seed) e = draw (Some seed) e') /\
  forall seed : nat, exists e e' r r',
    get_spec_rad op (initial_x draw (Some seed) e) 0 20 1 = Ok (Some r) /\
    get_spec_rad op (initial_x draw (Some seed) e') 0 20 1 = Ok (Some r') /\ r <> r'.
Proof.
  exists (fun s e => match s with Some _ => pt 1 1 | None => if Nat.eqb e 0 then pt 1 0 else pt 0 1 end), (diag 2 1).
  split; [reflexivity|]. intros seed. exists 0%nat, 1%nat, 2, 1. unfold initial_x, pm_rng_attribute. cbn [Nat.eqb].
  assert (G : forall (e : R2) lam, 0 < lam -> norm e = 1 -> diag 2 1 e = (lam * e)%v -> forall n nrm, pm_loop (diag 2 1) (S n) (Some e) nrm 0 = Some lam).
  { intros e lam Hl U E. assert (En : norm (diag 2 1 e) = lam) by (rewrite E, norm_scal, U, Rabs_right by lra; ring).
    induction n as [|n IH]; intros nrm.
    - cbn [pm_loop]. rewrite En. destruct (Rlt_dec _ 0); reflexivity.
    - remember (S n) as m. cbn [pm_loop]. rewrite En. destruct (Rlt_dec _ 0); [reflexivity|]. subst m. unfold ounit. rewrite En.
      destruct (Req_EM_T lam 0); [lra|]. replace (/ lam * diag 2 1 e)%v with e; [apply IH|]. rewrite E. apply inner_ext. intros z. rewrite !inner_scal_l. field. lra. }
  assert (U1 : norm (pt 1 0) = 1) by (unfold norm, pt; cbn; replace (1 * 1 + 0 * 0) with 1 by ring; apply sqrt_1).
  assert (U2 : norm (pt 0 1) = 1) by (unfold norm, pt; cbn; replace (0 * 0 + 1 * 1) with 1 by ring; apply sqrt_1).
  assert (V : forall x : R2, (/ 1 * x)%v = x) by (intros x; rewrite Rinv_1; apply vscal_1).
  split; [|split; [|lra]]; unfold get_spec_rad, ounit; rewrite ?U1, ?U2; (destruct (Req_EM_T 1 0); [lra|]); rewrite V.
  - rewrite (G (pt 1 0) 2); [cbn; rewrite Rmult_1_r; reflexivity|lra|exact U1|unfold diag, pt; cbn; f_equal; ring].
  - rewrite (G (pt 0 1) 1); [cbn; rewrite Rmult_1_r; reflexivity|lra|exact U2|unfold diag, pt; cbn; f_equal; ring].
Qed.
Print Assumptions C70_seed_refuted.

Example C70_example : initial_x (H := R_ips) (fun (s : option nat) e => match s with Some k => INR k | None => e end) (Some 7%nat) 3 = 3.
Proof. reflexivity. Qed.
