(** Property theorems C01-C07: base/transform.py and base/np_adjust.py. *)
From Verif Require Import NPReal Py Model_Array Model_Transform Model_NpAdjust
  Spec_Transform Spec_NpAdjust Proof_Array Proof_Transform Proof_NpAdjust.
Open Scope nat_scope.

(** A stack of two 2-by-3 images holding 0..11, used by the examples below. *)
Definition ex_cube : nda nat := mk_nda [2; 2; 3] (ravel [2; 2; 3]).

(** C01: stack -> matrix -> stack; columns are the flattened images; any image rank. *)
Theorem C01_cube_matrix_roundtrip :
  forall (A : Type) (cube : nda A) n s, shape cube = n :: s ->
  exists M C, cube2matrix cube = Ok M /\ columns_are_images cube M n s /\
    matrix2cube M s = Ok C /\ arr_eq C cube.
Proof. exact @cube_matrix_roundtrip. Qed.
Print Assumptions C01_cube_matrix_roundtrip.

Theorem C01_matrix_cube_roundtrip :
  forall (A : Type) (m : nda A) p n s, shape m = [p; n] -> p = fold_right Nat.mul 1 s ->
  exists C M, matrix2cube m s = Ok C /\ cube2matrix C = Ok M /\ arr_eq M m.
Proof. exact @matrix_cube_roundtrip. Qed.
Print Assumptions C01_matrix_cube_roundtrip.

(** The flat position used above is the lexicographic rank of a multi-index. *)
Theorem C01_flat_pos_is_lexicographic_rank :
  forall s a b, in_range s a -> in_range s b -> lex_lt a b -> flat_pos s a < flat_pos s b.
Proof. intros s a b Ha Hb H. rewrite !flat_pos_ravel. exact (ravel_lex s a b Ha Hb H). Qed.
Print Assumptions C01_flat_pos_is_lexicographic_rank.

Example C01_example :
  shape ex_cube = 2 :: [2; 3] /\
  match cube2matrix ex_cube with
  | Ok m => shape m = [6; 2] /\ at_ m [4; 1] = 10
  | Err _ => False end.
Proof. vm_compute. auto. Qed.

(** C01: a single number is refused (IndexError), and so are vectors as matrices; an image shape that
    does not have as many pixels as the matrix has rows is a ValueError. *)
Theorem C01_errors :
  (forall (A : Type) (cube : nda A), shape cube = [] -> cube2matrix cube = Err IndexError) /\
  (forall (A : Type) (m : nda A) s, length (shape m) < 2 -> matrix2cube m s = Err IndexError) /\
  (forall (A : Type) (m : nda A) p n s, shape m = [p; n] -> 0 < n -> p <> fold_right Nat.mul 1 s -> matrix2cube m s = Err ValueError).
Proof.
  split; [|split].
  - intros A cube E. unfold cube2matrix. rewrite E. reflexivity.
  - intros A m s L. unfold matrix2cube. destruct (shape m) as [|a [|b r]]; cbn in *; [reflexivity|reflexivity|lia].
  - intros A m p n s E Hn Ne. unfold matrix2cube. rewrite E. cbn [nth_error]. unfold reshape. cbn [transpose shape]. rewrite E.
    replace (prod (rev [p; n]) =? prod (n :: s)) with false; [reflexivity|]. symmetry. apply Nat.eqb_neq. unfold prod in *. cbn. nia.
Qed.
Print Assumptions C01_errors.

(** C02: mosaic placement and both round trips. *)
Theorem C02_cube_map_roundtrip :
  forall (A : Type) (cube : nda A) a b h w,
  shape cube = [a * b; h; w] -> 0 < a -> 0 < b ->
  exists M C, cube2map cube (a, b) = Ok M /\ is_mosaic cube M a b h w /\
    map2cube M (a, b) = Ok C /\ arr_eq C cube.
Proof. exact @cube_map_roundtrip. Qed.
Print Assumptions C02_cube_map_roundtrip.

Theorem C02_map_cube_roundtrip :
  forall (A : Type) (m : nda A) a b h w,
  shape m = [a * h; b * w] -> 0 < a -> 0 < b ->
  exists C M, map2cube m (a, b) = Ok C /\ cube2map C (a, b) = Ok M /\ arr_eq M m.
Proof. exact @map_cube_roundtrip. Qed.
Print Assumptions C02_map_cube_roundtrip.

(** C02: anything but a stack of a*b images is a ValueError. *)
Theorem C02_errors :
  forall (A : Type) (cube : nda A) a b,
  (forall h w, shape cube <> [a * b; h; w]) -> cube2map cube (a, b) = Err ValueError.
Proof.
  intros A cube a b Ne. unfold cube2map. destruct (shape cube) as [|n [|h [|w [|r t]]]]; try reflexivity.
  cbn [length Nat.eqb negb nth]. destruct (Nat.eqb_spec n (a * b)) as [->|N]; [|reflexivity]. destruct (Ne h w eq_refl).
Qed.
Print Assumptions C02_errors.

Example C02_example :
  shape ex_cube = [1 * 2; 2; 3] /\
  match cube2map ex_cube (1, 2) with
  | Ok m => shape m = [2; 6] /\ at_ m [1; 3] = 9
  | Err _ => False end.
Proof. vm_compute. auto. Qed.

(** C03 is false of the code: [np.all(shape % layout)] only rejects maps that are bad in
    BOTH dimensions.  A 1-by-3 map with layout (1, 2) is accepted and a pixel is lost. *)
Theorem C03_map2cube_rejects_bad_layout_refuted :
  exists (m : nda nat) h w a b, shape m = [h; w] /\ 0 < a /\ 0 < b /\
    (h mod a <> 0 \/ w mod b <> 0) /\
    exists C, map2cube m (a, b) = Ok C /\ prod (shape C) < prod (shape m).
Proof.
  exists (mk_nda [1; 3] (ravel [1; 3])), 1, 3, 1, 2.
  split; [reflexivity|]. split; [lia|]. split; [lia|]. split; [right; discriminate|].
  eexists. split; [reflexivity|]. vm_compute. lia.
Qed.
Print Assumptions C03_map2cube_rejects_bad_layout_refuted.

(** ... for every map that is bad in exactly one dimension: h*(w mod b) pixels vanish. *)
Theorem C03_map2cube_drops_pixels :
  forall (A : Type) (m : nda A) h w a b,
  shape m = [h; w] -> 0 < a -> 0 < b -> h mod a = 0 -> w mod b <> 0 ->
  exists C, map2cube m (a, b) = Ok C /\ shape C = [a * b; h / a; w / b] /\
    prod (shape C) + h * (w mod b) = prod (shape m).
Proof. exact @map2cube_drops. Qed.
Print Assumptions C03_map2cube_drops_pixels.

(** What does hold: rejection when both dimensions are bad. *)
Theorem C03_map2cube_rejects_both_bad :
  forall (A : Type) (m : nda A) h w a b,
  shape m = [h; w] -> 0 < a -> 0 < b -> h mod a <> 0 -> w mod b <> 0 ->
  map2cube m (a, b) = Err ValueError.
Proof. exact @map2cube_rejects_both_bad. Qed.
Print Assumptions C03_map2cube_rejects_both_bad.

Example C03_example : map2cube (mk_nda [3; 3] (ravel [3; 3])) (2, 2) = Err ValueError.
Proof. reflexivity. Qed.

(** C04 is false for fractional pixels: [astype(int)] truncates. *)
Theorem C04_matrix_map_roundtrip_refuted :
  exists (m : nda R) a b n, shape m = [a * n; b * n] /\ 0 < a /\ 0 < b /\ 0 < n /\
  exists M M', map2matrix m (a, b) = Ok M /\ matrix2map M (a * n) (b * n) = Ok M' /\
    exists idx, in_range (shape m) idx /\ IZR (at_ M' idx) <> at_ m idx.
Proof.
  destruct matrix_map_half as (M & M' & H1 & H2 & H3).
  exists (mk_nda [1; 1] (fun _ => (1 / 2)%R)), 1, 1, 1.
  split; [reflexivity|]. do 3 (split; [lia|]). exists M, M'. split; [exact H1|]. split; [exact H2|].
  exists [0; 0]. split; [cbn; lia|exact H3].
Qed.
Print Assumptions C04_matrix_map_roundtrip_refuted.

(** Exactly what happens: every pixel is truncated towards zero. *)
Theorem C04_matrix_map_truncates :
  forall (m : nda R) a b n, shape m = [a * n; b * n] -> 0 < a -> 0 < b -> 0 < n ->
  exists M M', map2matrix m (a, b) = Ok M /\ matrix2map M (a * n) (b * n) = Ok M' /\
    shape M' = shape m /\ forall idx, in_range (shape m) idx -> at_ M' idx = trunc (at_ m idx).
Proof. exact matrix_map_trunc. Qed.
Print Assumptions C04_matrix_map_truncates.

(** Hence the round trip is exact on integer-valued maps. *)
Theorem C04_matrix_map_roundtrip_integers :
  forall (m : nda R) a b n, shape m = [a * n; b * n] -> 0 < a -> 0 < b -> 0 < n ->
  all_pixels is_integer m ->
  exists M M', map2matrix m (a, b) = Ok M /\ matrix2map M (a * n) (b * n) = Ok M' /\
    shape M' = shape m /\ forall idx, in_range (shape m) idx -> IZR (at_ M' idx) = at_ m idx.
Proof. exact matrix_map_roundtrip_int. Qed.
Print Assumptions C04_matrix_map_roundtrip_integers.

(** Tiles wider than high are accepted and silently cropped to squares. *)
Theorem C04_map2matrix_crops_wide_tiles :
  forall (A : Type) (m : nda A) a b h w,
  shape m = [a * h; b * w] -> 0 < a -> 0 < b -> h <= w ->
  exists M, map2matrix m (a, b) = Ok M /\ shape M = [h * h; a * b].
Proof. exact @map2matrix_crops. Qed.
Print Assumptions C04_map2matrix_crops_wide_tiles.

Example C04_example :
  let m := mk_nda [2; 4] (fun idx => IZR (Z.of_nat (ravel [2; 4] idx))) in
  shape m = [1 * 2; 2 * 2] /\ all_pixels is_integer m.
Proof. cbn. split; [reflexivity|]. intros idx _. eexists; reflexivity. Qed.

(** C05 *)
Theorem C05_rotate_half_turn_involution :
  forall (A : Type) (a : nda A) h w s, shape a = h :: w :: s ->
  exists b c, rotate a = Ok b /\ is_half_turn a b /\ rotate b = Ok c /\ arr_eq c a.
Proof. exact @rotate_involution. Qed.
Print Assumptions C05_rotate_half_turn_involution.

Theorem C05_rotate_stack_involution :
  forall (A : Type) (a : nda A) n h w s, shape a = n :: h :: w :: s -> 0 < n ->
  exists b c, rotate_stack a = Ok b /\ (forall k, k < n -> is_half_turn (sub0 a k) (sub0 b k)) /\
    rotate_stack b = Ok c /\ arr_eq c a.
Proof. exact @rotate_stack_involution. Qed.
Print Assumptions C05_rotate_stack_involution.

(** Arrays with too few dimensions are rejected. *)
Theorem C05_low_dimensions_rejected :
  forall A (a : nda A),
  (length (shape a) < 2 -> rotate a = Err ValueError) /\
  (shape a = [] -> rotate_stack a = Err TypeError) /\
  (forall n s, shape a = n :: s -> 0 < n -> length s < 2 -> rotate_stack a = Err ValueError).
Proof.
  intros A a. split; [exact (rotate_low_dim a)|]. split; [intros E; unfold rotate_stack; rewrite E; reflexivity|].
  intros n s E Hn Hs. unfold rotate_stack. rewrite E. destruct n as [|n]; [lia|]. cbn [seq map mapM].
  rewrite rotate_low_dim; [reflexivity|]. unfold sub0. cbn [shape]. rewrite E. exact Hs.
Qed.
Print Assumptions C05_low_dimensions_rejected.

Example C05_example :
  shape ex_cube = 2 :: 2 :: 3 :: [] /\
  match rotate_stack ex_cube with
  | Ok b => at_ b [1; 0; 0] = 11 /\ at_ b [0; 1; 2] = 0
  | Err _ => False end.
Proof. vm_compute. auto. Qed.

(** C06 *)
Theorem C06_ftl_ftr_inverse :
  forall (A : Type) (a : nda A), arr_eq (ftl (ftr a)) a /\ arr_eq (ftr (ftl a)) a.
Proof. intros A a. exact (conj (ftl_ftr a) (ftr_ftl a)). Qed.
Print Assumptions C06_ftl_ftr_inverse.

Theorem C06_fancy_transpose_rolls_axes :
  forall (A : Type) (a : nda A) k, axes_rolled a (fancy_transpose a k) k.
Proof. exact @ft_axes_rolled. Qed.
Print Assumptions C06_fancy_transpose_rolls_axes.

Theorem C06_fancy_transpose_composes :
  forall (A : Type) (a : nda A) j k,
  arr_eq (fancy_transpose (fancy_transpose a j) k) (fancy_transpose a (j + k)).
Proof. exact @ft_compose. Qed.
Print Assumptions C06_fancy_transpose_composes.

Theorem C06_fancy_transpose_period :
  forall (A : Type) (a : nda A) k,
  (k mod Z.of_nat (length (shape a)) = 0)%Z -> arr_eq (fancy_transpose a k) a.
Proof. exact @ft_period. Qed.
Print Assumptions C06_fancy_transpose_period.

Example C06_example :
  shape (ftr ex_cube) = [3; 2; 2] /\ at_ (ftr ex_cube) [2; 1; 0] = at_ ex_cube [1; 0; 2].
Proof. vm_compute. auto. Qed.

(** C07 *)
Theorem C07_pad2d_exact :
  forall (A : Type) (z : A) (a : nda A) pad h w (p q : nat) rest,
  shape a = [h; w] ->
  (pad = PSeq (Z.of_nat p :: Z.of_nat q :: rest) \/
   (p = q /\ (pad = PInt (Z.of_nat p) \/ pad = PSeq [Z.of_nat p]))) ->
  exists b, pad2d z a pad = Ok b /\ is_padded z a b h w p q.
Proof. exact @pad2d_core. Qed.
Print Assumptions C07_pad2d_exact.

(** C07: a padding that is neither an integer nor a sequence, a negative width and an array that is
    not 2-D are ValueErrors, an empty sequence is an IndexError; nothing else fails. *)
Theorem C07_errors :
  forall (A : Type) (z : A) (a : nda A),
  pad2d z a POther = Err ValueError /\ pad2d z a (PSeq []) = Err IndexError /\
  (forall p q rest, (p < 0)%Z \/ (q < 0)%Z \/ length (shape a) <> 2 -> pad2d z a (PSeq (p :: q :: rest)) = Err ValueError) /\
  (forall p, (p < 0)%Z \/ length (shape a) <> 2 -> pad2d z a (PInt p) = Err ValueError /\ pad2d z a (PSeq [p]) = Err ValueError) /\
  (forall pad e, length (shape a) = 2 -> pad2d z a pad = Err e -> pad = POther \/ pad = PSeq [] \/
     exists p, (p < 0)%Z /\ (pad = PInt p \/ exists l, pad = PSeq l /\ In p (firstn 2 l))).
Proof.
  intros A z a.
  assert (G : forall p q rest, (p < 0)%Z \/ (q < 0)%Z \/ length (shape a) <> 2 -> pad2d z a (PSeq (p :: q :: rest)) = Err ValueError).
  { intros p q rest Q. unfold pad2d. cbn [bind]. destruct (shape a) as [|h [|w [|r t]]]; try reflexivity.
    destruct (Z.ltb_spec p 0), (Z.ltb_spec q 0); try reflexivity. cbn [length] in Q. lia. }
  split; [reflexivity|]. split; [reflexivity|]. split; [exact G|]. split.
  - intros p Q. assert (Q' : (p < 0)%Z \/ (p < 0)%Z \/ length (shape a) <> 2) by (destruct Q; auto). split; exact (G p p [] Q').
  - intros pad e L. assert (N : forall p q l, pad2d z a (PSeq (p :: q :: l)) = Err e -> (p < 0)%Z \/ (q < 0)%Z).
    { intros p q l E. unfold pad2d in E. cbn [bind] in E. destruct (shape a) as [|h [|w [|r t]]]; try discriminate L.
      destruct (Z.ltb_spec p 0), (Z.ltb_spec q 0); auto. discriminate E. }
    destruct pad as [p|[|p [|q l]]|]; intros E; auto; right; right.
    + exists p. destruct (N p p [] E); auto.
    + exists p. split; [destruct (N p p [] E); assumption|]. right. eexists. split; [reflexivity|]. left. reflexivity.
    + destruct (N p q l E) as [Lp|Lq]; [exists p|exists q]; (split; [assumption|]; right; eexists; split; [reflexivity|]); cbn; auto.
Qed.
Print Assumptions C07_errors.

Example C07_example :
  match pad2d 0 (mk_nda [2; 2] (fun _ => 7)) (PSeq [1; 2]%Z) with
  | Ok b => shape b = [4; 6] /\ at_ b [1; 2] = 7 /\ at_ b [1; 1] = 0
  | Err _ => False end.
Proof. vm_compute. auto. Qed.
