(** C104-C106: the wavelet transforms. *)
From Coq Require Import String.
From Verif Require Import NPReal Py Model_Linear Proof_Linear Model_Wavelet Spec_Wavelet Proof_Wavelet.
From Coq Require Import List Lia.
Import ListNotations.
Local Open Scope R_scope.
Local Open Scope string_scope.

(** * C104: the 2D Haar transform on numpy *)

(** The image always comes back, inside an array whose sizes are rounded up to even numbers. *)
Theorem C104_reconstruction : forall level x, exists c y,
  let o := fst (cpu_op (cpu_new level 1) x) in
  snd (cpu_op (cpu_new level 1) x) = Ok c /\ cpu_adj_op o c = Ok y /\ agree (rows x) (cols x) y x /\
  (rows x <= rows y <= rows x + 1)%nat /\ (cols x <= cols y <= cols x + 1)%nat /\
  (level = 0%nat \/ (Nat.even (rows y) = true /\ Nat.even (cols y) = true)).
Proof.
  intros L x. destruct (roundtrip L 1 x ltac:(lia)) as (y & E & Ry & Cy & Ay). rewrite cpu_op_1 by lia. cbn [fst snd].
  exists (flat_map flat (wavedec L x)), y. split; [reflexivity|]. split; [exact E|]. split; [exact Ay|].
  pose proof (half_bounds (rows x)). pose proof (half_bounds (cols x)). destruct L as [|L].
  - split; [lia|]. split; [lia|]. left. reflexivity.
  - split; [lia|]. split; [lia|]. right. rewrite Ry, Cy, !Nat.even_mul. split; reflexivity.
Qed.
Print Assumptions C104_reconstruction.

(** When 2^level divides both sizes the reconstruction is exact, and there are as many coefficients as pixels. *)
Theorem C104_exact : forall level x p q, rows x = (2 ^ level * p)%nat -> cols x = (2 ^ level * q)%nat -> exists c y,
  let o := fst (cpu_op (cpu_new level 1) x) in
  snd (cpu_op (cpu_new level 1) x) = Ok c /\ List.length c = (rows x * cols x)%nat /\ cpu_adj_op o c = Ok y /\ beq y x.
Proof.
  intros L x p q Hp Hq. destruct (roundtrip L 1 x ltac:(lia)) as (y & E & Ry & Cy & Ay). rewrite cpu_op_1 by lia. cbn [fst snd].
  exists (flat_map flat (wavedec L x)), y. split; [reflexivity|]. split; [rewrite flats_length; exact (total_wavedec L x p q Hp Hq)|]. split; [exact E|].
  assert (Er : rows y = rows x) by (rewrite Ry; destruct L; [reflexivity|]; rewrite Hp; cbn [Nat.pow]; rewrite <- !Nat.mul_assoc, half_even; reflexivity).
  assert (Ec : cols y = cols x) by (rewrite Cy; destruct L; [reflexivity|]; rewrite Hq; cbn [Nat.pow]; rewrite <- !Nat.mul_assoc, half_even; reflexivity).
  split; [exact Er|]. split; [exact Ec|]. intros i j Hi Hj. apply Ay; congruence.
Qed.
Print Assumptions C104_exact.

(** Then adj_op is the adjoint of op, and op is onto: op (adj_op c) = c for every vector of that length. *)
Theorem C104_adjoint : forall level x p q c, rows x = (2 ^ level * p)%nat -> cols x = (2 ^ level * q)%nat -> List.length c = (rows x * cols x)%nat -> exists w y,
  let o := fst (cpu_op (cpu_new level 1) x) in
  snd (cpu_op (cpu_new level 1) x) = Ok w /\ cpu_adj_op o c = Ok y /\ rows y = rows x /\ cols y = cols x /\
  dotl w c = ip x y /\ snd (cpu_op o y) = Ok c.
Proof.
  intros L x p q c Hp Hq Hc. rewrite <- (total_wavedec L x p q Hp Hq) in Hc. destruct (orthogonal L 1 x p q c ltac:(lia) Hp Hq Hc) as (y & E & D & I & F).
  rewrite cpu_op_1 by lia. cbn [fst snd]. exists (flat_map flat (wavedec L x)), y. split; [reflexivity|]. split; [exact E|].
  unfold dims in D. injection D as D1 D2. split; [exact D1|]. split; [exact D2|]. split; [exact I|]. unfold cpu_op. cbn [c_batch c_level snd Nat.ltb Nat.leb]. f_equal. exact F.
Qed.
Print Assumptions C104_adjoint.

(** Hence energy is preserved. *)
Theorem C104_energy : forall level x p q, rows x = (2 ^ level * p)%nat -> cols x = (2 ^ level * q)%nat -> exists c,
  snd (cpu_op (cpu_new level 1) x) = Ok c /\ dotl c c = ip x x.
Proof.
  intros L x p q Hp Hq. destruct (C104_exact L x p q Hp Hq) as (c & y & A & Lc & B & (R1 & R2 & R3)). destruct (C104_adjoint L x p q c Hp Hq Lc) as (w & y' & A' & B' & _ & _ & I & _).
  exists c. split; [exact A|]. cbv zeta in *. rewrite A in A'. injection A' as <-. rewrite B in B'. injection B' as <-. rewrite I. unfold ip. apply sumn_ext. intros i Hi. apply sumn_ext. intros j Hj. rewrite R3 by congruence. reflexivity.
Qed.
Print Assumptions C104_energy.

(** op is linear on images of every size. *)
Theorem C104_linear : forall level s t x y, rows x = rows y -> cols x = cols y -> exists c d,
  snd (cpu_op (cpu_new level 1) x) = Ok c /\ snd (cpu_op (cpu_new level 1) y) = Ok d /\ List.length c = List.length d /\
  snd (cpu_op (cpu_new level 1) (comb s t x y)) = Ok (lcomb s t c d).
Proof.
  intros L s t x y Hr Hc. assert (D : dims x = dims y) by (unfold dims; congruence). rewrite !cpu_op_1 by lia. cbn [snd]. do 2 eexists. split; [reflexivity|]. split; [reflexivity|]. split.
  - rewrite !flats_length, (wavedec_sizes L x y D). reflexivity.
  - f_equal. exact (wavedec_lin L s t x y D).
Qed.
Print Assumptions C104_linear.

(** What the coefficients are: the first ones are the sums over squares of side 2^level, divided by 2^level. *)
Theorem C104_coarse : forall level x p q, rows x = (2 ^ level * p)%nat -> cols x = (2 ^ level * q)%nat -> exists c,
  snd (cpu_op (cpu_new level 1) x) = Ok c /\ forall i j, (i < p)%nat -> (j < q)%nat ->
  nth (i * q + j) c 0 = sumn (2 ^ level) (fun u => sumn (2 ^ level) (fun v => ent x (2 ^ level * i + u) (2 ^ level * j + v))) / 2 ^ level.
Proof.
  intros L x p q Hp Hq. rewrite cpu_op_1 by lia. cbn [snd]. eexists. split; [reflexivity|]. intros i j Hi Hj. exact (coarse_coefficients L x p q i j Hp Hq Hi Hj).
Qed.
Print Assumptions C104_coarse.
(** All the others vanish on a constant image. *)
Theorem C104_constant : forall level p q v, exists c, snd (cpu_op (cpu_new level 1) (const_image (2 ^ level * p) (2 ^ level * q) v)) = Ok c /\
  forall n, nth n c 0 = (if Nat.ltb n (p * q) then 2 ^ level * v else 0).
Proof.
  intros L p q v. set (x := const_image _ _ v). rewrite cpu_op_1 by lia. cbn [snd]. eexists. split; [reflexivity|]. intros n.
  destruct (wavedec_head L x p q eq_refl eq_refl) as (c & ds & E & Rc & Cc & Ac). pose proof (coarse_coefficients L x p q) as K. rewrite E in *. cbn [flat_map] in *.
  destruct (Nat.ltb_spec n (p * q)) as [H|H].
  - assert (Hq : (q <> 0)%nat) by nia. rewrite (Nat.div_mod n q Hq), (Nat.mul_comm q). pose proof (Nat.mod_upper_bound n q Hq). rewrite K; try reflexivity; try assumption; [|apply Nat.div_lt_upper_bound; lia].
    cbn [ent x const_image]. assert (C : forall m, sumn m (fun _ => v) = INR m * v) by (induction m as [|m IH]; [cbn; ring|]; cbn [sumn]; rewrite IH, S_INR; ring).
    assert (C' : forall m, sumn m (fun _ => INR (2 ^ L) * v) = INR m * (INR (2 ^ L) * v)) by (induction m as [|m IH]; [cbn; ring|]; cbn [sumn]; rewrite IH, S_INR; ring).
    rewrite (sumn_ext _ _ (fun _ => INR (2 ^ L) * v)) by (intros; apply C). rewrite C', pow_INR. cbn [INR]. replace (1 + 1) with 2 by ring. field. apply pow_nonzero. lra.
  - rewrite app_nth2 by (rewrite flat_length, Rc, Cc; lia). pose proof (nth_in_or_default (n - List.length (flat c)) (flat_map flat ds) 0) as ID. set (z := nth _ _ 0) in *. clearbody z. destruct ID as [I|D]; [|exact D].
    apply in_flat_map in I. destruct I as (d & Hd & I). unfold flat in I. apply in_flat_map in I. destruct I as (i & _ & I). apply in_map_iff in I. destruct I as (j & <- & _).
    apply (wavedec_const L (2 ^ L * p) (2 ^ L * q) v d); fold x. rewrite E. exact Hd.
Qed.
Print Assumptions C104_constant.

(** An image of odd sizes comes back with another shape. *)
Theorem C104_same_shape_refuted : exists level x c y,
  let o := fst (cpu_op (cpu_new level 1) x) in
  snd (cpu_op (cpu_new level 1) x) = Ok c /\ cpu_adj_op o c = Ok y /\ rows x = 3%nat /\ rows y = 4%nat /\ cols y = 4%nat.
Proof.
  exists 1%nat, (const_image 3 3 1). destruct (roundtrip 1 1 (const_image 3 3 1) ltac:(lia)) as (y & E & Ry & Cy & _). rewrite cpu_op_1 by lia. cbn [fst snd].
  eexists _, y. split; [reflexivity|]. split; [exact E|]. split; [reflexivity|]. split; [exact Ry|exact Cy].
Qed.
Print Assumptions C104_same_shape_refuted.

(** And then adj_op is not the adjoint of op: even where shapes agree. *)
Theorem C104_adjoint_refuted : exists level x c y,
  let o := fst (cpu_op (cpu_new level 1) x) in
  snd (cpu_op (cpu_new level 1) x) = Ok c /\ cpu_adj_op o c = Ok y /\ rows y = rows x /\ cols y = cols x /\ dotl c c = 16 /\ ip x y = 4.
Proof.
  exists 2%nat, (const_image 2 2 1). destruct (roundtrip 2 1 (const_image 2 2 1) ltac:(lia)) as (y & E & Ry & Cy & Ay). rewrite cpu_op_1 by lia. cbn [fst snd].
  eexists _, y. split; [reflexivity|]. split; [exact E|]. split; [exact Ry|]. split; [exact Cy|]. pose proof s2_nz as N. pose proof s2 as Q. split.
  - cbn. unfold lo, hi. cbn. unfold lo, hi. cbn.
    assert (Z : forall u, u - u = 0) by (intros; ring). rewrite ?Z.
    assert (Z0 : forall u : R, 0 / u = 0) by (intros; unfold Rdiv; ring). rewrite ?Z0, ?Z, ?Rplus_0_l, ?Z0.
    assert (D : forall u, (u + u) / sqrt 2 = u * sqrt 2) by (intros; apply (Rmult_eq_reg_r (sqrt 2)); [|exact N]; unfold Rdiv; rewrite !Rmult_assoc, Rinv_l, Q by exact N; ring).
    rewrite ?D. ring_simplify. replace (sqrt 2 ^ 8) with ((sqrt 2 * sqrt 2) * (sqrt 2 * sqrt 2) * (sqrt 2 * sqrt 2) * (sqrt 2 * sqrt 2)) by ring. rewrite Q. ring.
  - unfold ip. cbn. rewrite !Ay by (cbn; lia). cbn. ring.
Qed.
Print Assumptions C104_adjoint_refuted.

Example C104_example : exists c y, let x := mk_block 4 6 (fun i j => INR (i + 2 * j)) in let o := fst (cpu_op (cpu_new 1 1) x) in
  snd (cpu_op (cpu_new 1 1) x) = Ok c /\ List.length c = 24%nat /\ cpu_adj_op o c = Ok y /\ ent y 3 5 = INR 13 /\ rows y = 4%nat.
Proof.
  destruct (C104_exact 1 (mk_block 4 6 (fun i j => INR (i + 2 * j))) 2 3 eq_refl eq_refl) as (c & y & A & Lc & B & (R1 & R2 & R3)). exists c, y. cbv zeta in *.
  split; [exact A|]. split; [exact Lc|]. split; [exact B|]. split; [rewrite R3 by (rewrite ?R1, ?R2; cbn; lia); reflexivity|exact R1].
Qed.

(** * C105: the objects *)

(** The stored shapes are those of the last image, whatever was transformed before. *)
Theorem C105_last_shape : forall level x1 x2,
  let o1 := fst (cpu_op (cpu_new level 1) x1) in fst (cpu_op o1 x2) = fst (cpu_op (cpu_new level 1) x2) /\ snd (cpu_op o1 x2) = snd (cpu_op (cpu_new level 1) x2).
Proof. intros. split; reflexivity. Qed.
Print Assumptions C105_last_shape.

(** adj_op on a vector too short for the last image is an error; on any other it gives an image, and surplus
    entries are ignored. *)
Theorem C105_adj_length : forall level x w c, snd (cpu_op (cpu_new level 1) x) = Ok w ->
  let o := fst (cpu_op (cpu_new level 1) x) in
  ((List.length c < List.length w)%nat -> cpu_adj_op o c = Err ValueError) /\
  ((List.length w <= List.length c)%nat -> exists y y', cpu_adj_op o c = Ok y /\ cpu_adj_op o (firstn (List.length w) c) = Ok y' /\ beq y y').
Proof.
  intros L x w c. rewrite cpu_op_1 by lia. cbn [fst snd]. intros [= <-]. rewrite flats_length. split; intros H.
  - rewrite cpu_adj_1, (cut_short _ _ H) by lia. reflexivity.
  - exact (adj_total L x c H).
Qed.
Print Assumptions C105_adj_length.

(** adj_op before the first op raises AttributeError, for every vector. *)
Theorem C105_adj_first : forall level n_batch c, cpu_adj_op (cpu_new level n_batch) c = Err AttributeError.
Proof. intros. unfold cpu_adj_op, cpu_new. cbn. destruct n_batch as [|[|n]]; reflexivity. Qed.
Print Assumptions C105_adj_first.

(** Documented: n_batch is "the number of channel/ batch dimension". No operator with more than one batch can be applied. *)
Theorem C105_batch_refuted : exists n_batch, (1 < n_batch)%nat /\ forall level x c s,
  snd (cpu_op (cpu_new level n_batch) x) = Err AttributeError /\ cpu_adj_op (mk_cpu level n_batch s) c = Err AttributeError.
Proof. exists 2%nat. split; [lia|]. intros. split; reflexivity. Qed.
Print Assumptions C105_batch_refuted.
Theorem C105_batch_always : forall n_batch level x c s, (1 < n_batch)%nat ->
  cpu_op (cpu_new level n_batch) x = (cpu_new level n_batch, Err AttributeError) /\ cpu_adj_op (mk_cpu level n_batch s) c = Err AttributeError.
Proof. intros n L x c s H. unfold cpu_op, cpu_adj_op, cpu_new. cbn [c_batch]. replace (Nat.ltb 1 n) with true by (symmetry; apply Nat.ltb_lt; exact H). split; reflexivity. Qed.
Print Assumptions C105_batch_always.

(** Which backend is used. *)
Theorem C105_backend : forall backend mode ptwt pywt,
  (forall o, wavelet_transform backend mode ptwt pywt = Ok o -> (backend = "cupy" /\ ptwt = true /\ o = Cupy mode) \/ (backend = "numpy" /\ pywt = true /\ exists m, o = CPU m)) /\
  (wavelet_transform backend mode ptwt pywt = Err ValueError <-> ~ ((backend = "cupy" /\ ptwt = true) \/ (backend = "numpy" /\ pywt = true))).
Proof.
  intros b m p q. unfold wavelet_transform. destruct (String.eqb_spec b "cupy") as [->|N1]; [|destruct (String.eqb_spec b "numpy") as [->|N2]]; destruct p, q; cbn; (split; [intros o E; try discriminate; injection E as <-; eauto 6|split; [intros E; try discriminate E; intros [[? ?]|[? ?]]; congruence|intros E; try reflexivity; exfalso; apply E; auto]]).
Qed.
Print Assumptions C105_backend.
(** The boundary mode asked for is ignored on numpy. *)
Theorem C105_mode_refuted : exists mode, mode <> "symmetric" /\ wavelet_transform "numpy" mode true true = Ok (CPU "symmetric").
Proof. exists "zero". split; [discriminate|reflexivity]. Qed.
Print Assumptions C105_mode_refuted.
Theorem C105_mode_ignored : forall mode mode' ptwt, wavelet_transform "numpy" mode ptwt true = wavelet_transform "numpy" mode' ptwt true.
Proof. intros. unfold wavelet_transform. destruct ptwt; reflexivity. Qed.
Print Assumptions C105_mode_ignored.

Example C105_example : let o := fst (cpu_op (fst (cpu_op (cpu_new 1 1) (const_image 8 8 1))) (const_image 2 2 1)) in
  c_shapes o = Some [(1, 1); (1, 1); (1, 1); (1, 1)]%nat /\ wavelet_transform "cupy" "zero" false true = Err ValueError.
Proof. split; reflexivity. Qed.

(** * C106: the pytorch transform *)

(** The list of subbands returned by op determines the coefficients: regrouping inverts flattening. *)
Theorem C106_regroup : forall {T} (k : nat) (c : T * list (list T)), (0 < k)%nat -> (forall g, In g (snd c) -> List.length g = k) -> regroup k (flatten c) = Ok c.
Proof. intros T k c Hk H. apply regroup_flatten; [exact Hk|]. apply Forall_forall. exact H. Qed.
Print Assumptions C106_regroup.

(** Through the cupy wrapper: reconstruction is that of the library on the batched image, for every decomposition
    with k arrays per level. *)
Theorem C106_roundtrip : forall {T} (k : nat) (dec : tensor T -> tensor T * list (list (tensor T))) rec (shape : list nat) (x : tensor T), (0 < k)%nat ->
  (forall g, In g (snd (dec (add_batch shape x))) -> List.length g = k) ->
  (forall t, In t (flatten (dec (add_batch shape x))) -> List.length (snd t) = numel (fst t)) ->
  let (shapes, data) := cupy_op dec shape x in cupy_adj_op k rec (Some shapes) data = Ok (rec (dec (add_batch shape x))).
Proof.
  intros T k dec rec shape x Hk Hg Ht. unfold cupy_op. set (c := dec (add_batch shape x)) in *. pose proof (split_flatten (flatten c) (proj2 (Forall_forall _ _) Ht)) as E.
  rewrite (surjective_pairing (cupy_flatten (flatten c))). unfold cupy_adj_op. rewrite E. cbn [bind]. rewrite (C106_regroup k c Hk Hg). reflexivity.
Qed.
Print Assumptions C106_roundtrip.

(** So with a library that reconstructs exactly, an image of the operator's own shape comes back with one more axis. *)
Theorem C106_extra_axis : forall {T} (k : nat) (dec : tensor T -> tensor T * list (list (tensor T))) rec (x : tensor T), (0 < k)%nat ->
  (forall y, rec (dec y) = y) -> (forall y g, In g (snd (dec y)) -> List.length g = k) -> (forall y t, In t (flatten (dec y)) -> List.length (snd t) = numel (fst t)) ->
  let (shapes, data) := cupy_op dec (fst x) x in cupy_adj_op k rec (Some shapes) data = Ok (1%nat :: fst x, snd x).
Proof.
  intros T k dec rec x Hk Hr Hg Ht. pose proof (C106_roundtrip k dec rec (fst x) x Hk (Hg _) (Ht _)) as E. destruct (cupy_op dec (fst x) x) as [shapes data]. rewrite E, Hr. unfold add_batch.
  destruct (list_eq_dec Nat.eq_dec (fst x) (fst x)); [reflexivity|contradiction].
Qed.
Print Assumptions C106_extra_axis.
Theorem C106_same_shape_refuted : exists (dec : tensor R -> tensor R * list (list (tensor R))) rec x y,
  (forall z, rec (dec z) = z) /\ (let (shapes, data) := cupy_op dec (fst x) x in cupy_adj_op 3 rec (Some shapes) data = Ok y) /\ fst y <> fst x.
Proof.
  exists (fun z => (z, [])), (fun c => fst c), ([2; 1]%nat, [1; 2]), ([1; 2; 1]%nat, [1; 2]). split; [reflexivity|]. split; [reflexivity|discriminate].
Qed.
Print Assumptions C106_same_shape_refuted.

(** adj_op before the first op raises TypeError; a vector too short is an error. *)
Theorem C106_adj_first : forall {T} k (rec : tensor T * list (list (tensor T)) -> tensor T) data, cupy_adj_op k rec None data = Err TypeError.
Proof. reflexivity. Qed.
Print Assumptions C106_adj_first.

Example C106_example : let c := (([1; 1]%nat, [1]), [[([1; 1]%nat, [2]); ([1; 1]%nat, [3]); ([1; 1]%nat, [4])]; [([2; 1]%nat, [5; 6]); ([1; 2]%nat, [7; 8]); ([1; 1]%nat, [9])]]) in
  flatten c = [([1; 1]%nat, [1]); ([1; 1]%nat, [2]); ([1; 1]%nat, [3]); ([1; 1]%nat, [4]); ([2; 1]%nat, [5; 6]); ([1; 2]%nat, [7; 8]); ([1; 1]%nat, [9])] /\
  regroup 3 (flatten c) = Ok c /\ snd (cupy_flatten (flatten c)) = [1; 2; 3; 4; 5; 6; 7; 8; 9].
Proof. split; [reflexivity|]. split; reflexivity. Qed.
