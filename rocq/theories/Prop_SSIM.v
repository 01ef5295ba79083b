(** Property theorems C129: metrics.ssim. *)
From Verif Require Import NPReal Py IPS Model_Prox Model_Stats Spec_Stats Proof_Stats Model_SSIM Spec_SSIM Proof_SSIM Prop_Stats.
From Coq Require Import List Lia ZArith Psatz.
Import ListNotations.
Local Open Scope R_scope.

Lemma pixels_seq {A} (g : nat -> A) rows cols :
  map (fun p => g (fst p * cols + snd p)%nat) (all_pixels rows cols) = map g (seq 0 (rows * cols)).
Proof.
  unfold all_pixels. rewrite flat_map_map. induction rows as [|rows IH]; [reflexivity|].
  rewrite seq_S, flat_map_app, IH. cbn [flat_map Nat.add]. rewrite app_nil_r, map_map. cbn [fst snd].
  replace (S rows * cols)%nat with (rows * cols + cols)%nat by lia. rewrite seq_app, map_app. f_equal. cbn [Nat.add].
  rewrite (seq_plus (rows * cols) cols), map_map. apply map_ext. intros j. f_equal. lia.
Qed.
Lemma nth_seq_self (m : list R) : map (fun k => nth k m 0) (seq 0 (length m)) = m.
Proof. induction m as [|a m IH]; [reflexivity|]. cbn [length seq map nth]. f_equal. rewrite <- seq_shift, map_map. exact IH. Qed.
Lemma image_pixels rows cols m : length m = (rows * cols)%nat -> map (fun p => as_image cols m (fst p) (snd p)) (all_pixels rows cols) = m.
Proof.
  intros L. unfold as_image. rewrite (pixels_seq (fun k => nth k m 0)), <- L. apply nth_seq_self.
Qed.
Lemma map2_map {A} (f g : A -> R) l : map2 Rmult (map f l) (map g l) = map (fun a => f a * g a) l.
Proof. induction l as [|a l IH]; [reflexivity|]. cbn. rewrite IH. reflexivity. Qed.

Lemma nth_range (t : list R) k : (forall x, In x t -> 0 <= x) -> 0 <= nth k t 0.
Proof. intros N. destruct (nth_in_or_default k t 0) as [I| ->]; [apply N, I|lra]. Qed.

Lemma patch_index (x y : nat -> nat -> R) i j : (forall i j, 0 <= x i j) -> (forall i j, 0 <= y i j) ->
  let l := patch x y i j in -1 <= ssim_index l <= 1 /\
  (ssim_index l = 1 <-> forall a b, (a < 7)%nat -> (b < 7)%nat -> x (i + a)%nat (j + b)%nat = y (i + a)%nat (j + b)%nat).
Proof.
  intros Nx Ny l. assert (Ll : 1 < INR (length l)). { change (length l) with 49%nat. cbn. lra. }
  assert (In' : forall p, In p l <-> exists a b, (a < 7)%nat /\ (b < 7)%nat /\ p = (x (i + a)%nat (j + b)%nat, y (i + a)%nat (j + b)%nat)).
  { intros p. unfold l, patch. rewrite in_flat_map. split.
    - intros (a & Ha & H). apply in_map_iff in H. destruct H as (b & <- & Hb). apply in_seq in Ha, Hb. exists a, b. repeat split; lia.
    - intros (a & b & Ha & Hb & ->). exists a. split; [apply in_seq; lia|]. apply in_map_iff. exists b. split; [reflexivity|apply in_seq; lia]. }
  assert (P1 : forall p, In p l -> 0 <= fst p) by (intros p Hp; apply In' in Hp; destruct Hp as (a & b & _ & _ & ->); apply Nx).
  assert (P2 : forall p, In p l -> 0 <= snd p) by (intros p Hp; apply In' in Hp; destruct Hp as (a & b & _ & _ & ->); apply Ny).
  split; [apply index_range; assumption|]. rewrite (index_one l Ll P1 P2). split.
  - intros E a b Ha Hb. apply (E (x (i + a)%nat (j + b)%nat, y (i + a)%nat (j + b)%nat)). apply In'. exists a, b. auto.
  - intros E p Hp. apply In' in Hp. destruct Hp as (a & b & Ha & Hb & ->). apply E; assumption.
Qed.

Section Images.
Variables rows cols : nat.
Hypothesis Hr : (7 <= rows)%nat.
Hypothesis Hc : (7 <= cols)%nat.

Lemma size_ok : orb (Nat.ltb rows 7) (Nat.ltb cols 7) = false.
Proof. destruct (Nat.ltb_spec rows 7), (Nat.ltb_spec cols 7); try lia; reflexivity. Qed.

Lemma unmasked test ref t r :
  length test = length ref ->
  min_max_normalize (map magnitude test) = Some t -> min_max_normalize (map magnitude ref) = Some r ->
  m_ssim true rows cols test ref MNone = Ok (Fin (mean_ssim rows cols (as_image cols t) (as_image cols r))).
Proof.
  intros L Et Er. unfold m_ssim, preprocess. rewrite Et, Er. cbn [negb bind]. rewrite size_ok. do 2 f_equal. apply mssim_spec.
  rewrite (mmn_length _ _ Et), (mmn_length _ _ Er), !map_length. exact L.
Qed.

Lemma masked test ref m t r :
  length test = length ref -> length m = (rows * cols)%nat -> rsum m <> 0 ->
  min_max_normalize (map magnitude test) = Some t -> min_max_normalize (map magnitude ref) = Some r ->
  m_ssim true rows cols test ref (MArr m) = Ok (Fin (masked_ssim rows cols (as_image cols t) (as_image cols r) (as_image cols m))).
Proof.
  intros L Lm Nz Et Er. unfold m_ssim, preprocess. rewrite Et, Er. cbn [negb bind]. rewrite size_ok.
  rewrite fdiv_pos by exact Nz. do 2 f_equal.
  assert (Lt : length t = length r) by (rewrite (mmn_length _ _ Et), (mmn_length _ _ Er), !map_length; exact L).
  unfold masked_ssim. rewrite <- (sum_over_map (fun p => as_image cols m (fst p) (snd p)) (fun v => v)).
  rewrite image_pixels by exact Lm. rewrite (rsum_sum_over m). f_equal.
  rewrite <- (image_pixels rows cols m Lm) at 1. unfold ssim_map. change (positions 0 rows 0 cols) with (all_pixels rows cols).
  rewrite map2_map, rsum_sum_over, sum_over_map. apply sum_over_ext. intros p _. rewrite ssim_at_index by exact Lt. rewrite wpairs_extended. reflexivity.
Qed.

Lemma corners_nonempty : 0 < INR (length (corners rows cols)).
Proof.
  apply lt_0_INR. assert (I : In (0, 0)%nat (corners rows cols)) by (apply in_corners; cbn; lia).
  destruct (corners rows cols); [destruct I|cbn; lia].
Qed.

Lemma mean_ssim_range x y : (forall i j, 0 <= x i j) -> (forall i j, 0 <= y i j) ->
  -1 <= mean_ssim rows cols x y <= 1 /\
  (mean_ssim rows cols x y = 1 <-> forall i j, (i < rows)%nat -> (j < cols)%nat -> x i j = y i j).
Proof.
  intros Nx Ny. pose proof corners_nonempty as Ln. unfold mean_ssim, mean_over. set (f := fun c : nat * nat => ssim_index (patch x y (fst c) (snd c))).
  assert (Rg : forall c, -1 <= f c <= 1) by (intros c; apply (patch_index x y (fst c) (snd c) Nx Ny)).
  set (cs := corners rows cols) in *.
  assert (U : sum_over f cs <= 1 * INR (length cs)) by (apply sum_over_bound; intros; apply Rg).
  assert (D : sum_over (fun c => - f c) cs <= 1 * INR (length cs)) by (apply sum_over_bound; intros c _; pose proof (Rg c); lra).
  rewrite (sum_over_ext _ (fun c => (-1) * f c)) in D by (intros; ring). rewrite sum_over_scal in D.
  split.
  - split; apply (Rmult_le_reg_r (INR (length cs)) _ _ Ln); unfold Rdiv; rewrite Rmult_assoc, Rinv_l by lra; lra.
  - split.
    + intros E. apply div_one in E; [|lra].
      assert (Z : sum_over (fun c => 1 - f c) cs = 0).
      { rewrite (so_ext _ (fun c => 1 + (-1) * f c)) by (intros; ring). rewrite so_plus, so_scal, so_const, E. ring. }
      assert (P0 : forall c, In c cs -> 0 <= 1 - f c) by (intros c _; pose proof (Rg c); lra).
      pose proof (sum_over_zero _ cs P0 Z) as Q. intros i j Hi Hj.
      set (i0 := Nat.min i (rows - 7)). set (j0 := Nat.min j (cols - 7)).
      assert (F : f (i0, j0) = 1). { specialize (Q (i0, j0)). cbv beta in Q. assert (I : In (i0, j0) cs) by (apply in_corners; cbn; lia). specialize (Q I). lra. }
      destruct (patch_index x y i0 j0 Nx Ny) as [_ P]. pose proof (proj1 P F (i - i0)%nat (j - j0)%nat ltac:(lia) ltac:(lia)) as G.
      replace (i0 + (i - i0))%nat with i in G by lia. replace (j0 + (j - j0))%nat with j in G by lia. exact G.
    + intros E. assert (S1 : sum_over f cs = 1 * INR (length cs)).
      { rewrite <- so_const. apply so_ext. intros c Hc'. apply in_corners in Hc'. apply (patch_index x y (fst c) (snd c) Nx Ny). intros a b Ha Hb. apply E; lia. }
      rewrite S1. field. lra.
Qed.

Lemma mean_ssim_sym x y : mean_ssim rows cols y x = mean_ssim rows cols x y.
Proof.
  unfold mean_ssim, mean_over. f_equal. apply so_ext. intros c _. rewrite <- index_sym. reflexivity.
Qed.
End Images.

(** C129. Without a mask, ssim is the mean of the structural similarity index over all 7x7 patches
    of the two normalised magnitude images. It is symmetric, between -1 and 1, and 1 exactly if one
    magnitude image is an increasing affine function of the other. *)
Theorem C129_ssim :
  forall rows cols test ref t r, (7 <= rows)%nat -> (7 <= cols)%nat ->
  length test = (rows * cols)%nat -> length ref = (rows * cols)%nat ->
  min_max_normalize (map magnitude test) = Some t -> min_max_normalize (map magnitude ref) = Some r ->
  exists v, m_ssim true rows cols test ref MNone = Ok (Fin v) /\ m_ssim true rows cols ref test MNone = Ok (Fin v) /\
    v = mean_ssim rows cols (as_image cols t) (as_image cols r) /\ -1 <= v <= 1 /\
    (v = 1 <-> exists a b, 0 < a /\ map magnitude test = map (fun x => a * x + b) (map magnitude ref)).
Proof.
  intros rows cols test ref t r Hr Hc Lt Lr Et Er. assert (L : length test = length ref) by congruence.
  exists (mean_ssim rows cols (as_image cols t) (as_image cols r)).
  split; [apply unmasked; assumption|]. split; [rewrite <- mean_ssim_sym; apply unmasked; [assumption..|symmetry; exact L|assumption|assumption]|]. split; [reflexivity|].
  assert (Nt : forall x, In x t -> 0 <= x). { destruct (mmn_inv _ _ Et) as (lo & hi & A & B & H & ->). destruct (rescale_range lo hi _ A B H) as [[_ Q] _]. exact Q. }
  assert (Nr : forall x, In x r -> 0 <= x). { destruct (mmn_inv _ _ Er) as (lo & hi & A & B & H & ->). destruct (rescale_range lo hi _ A B H) as [[_ Q] _]. exact Q. }
  destruct (mean_ssim_range rows cols Hr Hc (as_image cols t) (as_image cols r)) as [Rg One]; [intros; apply nth_range; assumption..|].
  split; [exact Rg|]. rewrite One.
  destruct (C76_mse test ref t r L Et Er) as (e & _ & _ & Ee & _ & Iff). rewrite <- Iff.
  assert (Lt' : length t = (rows * cols)%nat) by (rewrite (mmn_length _ _ Et), map_length; exact Lt).
  assert (Lr' : length r = (rows * cols)%nat) by (rewrite (mmn_length _ _ Er), map_length; exact Lr).
  split.
  - intros E. assert (Q : t = r).
    { rewrite <- (image_pixels rows cols t Lt'), <- (image_pixels rows cols r Lr'). apply map_ext_in. intros p Hp.
      unfold all_pixels in Hp. apply in_flat_map in Hp. destruct Hp as (i & Hi & H). apply in_map_iff in H. destruct H as (j & <- & Hj). apply in_seq in Hi, Hj. apply E; cbn; lia. }
    rewrite Ee, Q. apply mse_self.
  - intros Z i j _ _. rewrite Ee in Z. apply mse_zero in Z; [|congruence]. rewrite Z. reflexivity.
Qed.
Print Assumptions C129_ssim.

(** With a mask it is the mean of the index weighted by the mask, the index being computed at every
    pixel from the images reflected at their borders; with a non-negative mask it is again between
    -1 and 1. *)
Theorem C129_masked :
  forall rows cols test ref m t r, (7 <= rows)%nat -> (7 <= cols)%nat ->
  length test = length ref -> length m = (rows * cols)%nat -> rsum m <> 0 ->
  min_max_normalize (map magnitude test) = Some t -> min_max_normalize (map magnitude ref) = Some r ->
  exists v, m_ssim true rows cols test ref (MArr m) = Ok (Fin v) /\
    v = masked_ssim rows cols (as_image cols t) (as_image cols r) (as_image cols m) /\
    ((forall w, In w m -> 0 <= w) -> -1 <= v <= 1).
Proof.
  intros rows cols test ref m t r Hr Hc L Lm Nz Et Er. eexists. split; [apply masked; eassumption|]. split; [reflexivity|]. intros Nm.
  assert (Nt : forall x, In x t -> 0 <= x). { destruct (mmn_inv _ _ Et) as (lo & hi & A & B & H & ->). destruct (rescale_range lo hi _ A B H) as [[_ Q] _]. exact Q. }
  assert (Nr : forall x, In x r -> 0 <= x). { destruct (mmn_inv _ _ Er) as (lo & hi & A & B & H & ->). destruct (rescale_range lo hi _ A B H) as [[_ Q] _]. exact Q. }
  unfold masked_ssim. set (ps := all_pixels rows cols). set (w := fun p : nat * nat => as_image cols m (fst p) (snd p)).
  set (f := fun p : nat * nat => ssim_index (patch (extended rows cols (as_image cols t)) (extended rows cols (as_image cols r)) (fst p) (snd p))).
  change (-1 <= sum_over (fun p => w p * f p) ps / sum_over w ps <= 1).
  assert (Nw : forall p, 0 <= w p) by (intros p; apply nth_range; exact Nm).
  assert (Rg : forall p, -1 <= f p <= 1).
  { intros p. destruct (patch_index (extended rows cols (as_image cols t)) (extended rows cols (as_image cols r)) (fst p) (snd p)) as [Q _]; [intros; apply nth_range; assumption..|exact Q]. }
  assert (Ws : sum_over w ps <> 0).
  { intros Q. apply Nz. rewrite <- (image_pixels rows cols m Lm), rsum_sum_over, sum_over_map. exact Q. }
  pose proof (so_nonneg w ps (fun p _ => Nw p)) as W0. assert (Wp : 0 < sum_over w ps) by lra.
  assert (U : 0 <= sum_over (fun p => w p * (1 - f p)) ps) by (apply so_nonneg; intros p _; apply Rmult_le_pos; [apply Nw|pose proof (Rg p); lra]).
  assert (D : 0 <= sum_over (fun p => w p * (1 + f p)) ps) by (apply so_nonneg; intros p _; apply Rmult_le_pos; [apply Nw|pose proof (Rg p); lra]).
  rewrite (so_ext _ (fun p => w p + (-1) * (w p * f p))) in U by (intros; ring). rewrite so_plus, so_scal in U.
  rewrite (so_ext _ (fun p => w p + w p * f p)) in D by (intros; ring). rewrite so_plus in D.
  split; apply (Rmult_le_reg_r (sum_over w ps) _ _ Wp); unfold Rdiv; rewrite Rmult_assoc, Rinv_l by lra; lra.
Qed.
Print Assumptions C129_masked.

(** Errors: without scikit-image, with a mask that is not an array, and for images smaller than the
    window. A constant magnitude image, or a mask of zeros, gives nan. *)
Theorem C129_errors :
  (forall rows cols test ref mask, m_ssim false rows cols test ref mask = Err ImportError) /\
  (forall rows cols test ref, m_ssim true rows cols test ref MOther = Err ValueError) /\
  (forall rows cols test ref mask, (rows < 7 \/ cols < 7)%nat -> m_ssim true rows cols test ref mask = Err ValueError) /\
  (forall rows cols test ref mask, (7 <= rows)%nat -> (7 <= cols)%nat -> mask <> MOther ->
     (forall x y, In x test -> In y test -> magnitude x = magnitude y) -> m_ssim true rows cols test ref mask = Ok NaN) /\
  (forall rows cols test ref m, (7 <= rows)%nat -> (7 <= cols)%nat -> (forall w, In w m -> w = 0) -> m_ssim true rows cols test ref (MArr m) = Ok NaN).
Proof.
  split; [reflexivity|]. split; [reflexivity|]. split; [|split].
  - intros rows cols test ref mask S. unfold m_ssim. assert (E : orb (Nat.ltb rows 7) (Nat.ltb cols 7) = true).
    { destruct (Nat.ltb_spec rows 7), (Nat.ltb_spec cols 7); try reflexivity. lia. }
    destruct mask; cbn [negb preprocess bind]; rewrite ?E; reflexivity.
  - intros rows cols test ref mask Hr Hc Nm C. assert (E : min_max_normalize (map magnitude test) = None).
    { apply mmn_none. intros x y Hx Hy. apply in_map_iff in Hx, Hy. destruct Hx as (p & <- & Hp), Hy as (q & <- & Hq). apply C; assumption. }
    unfold m_ssim, preprocess. rewrite E. destruct mask; cbn [negb bind]; try rewrite (size_ok rows cols Hr Hc); try reflexivity. congruence.
  - intros rows cols test ref m Hr Hc Z. unfold m_ssim, preprocess. cbn [negb bind]. rewrite (size_ok rows cols Hr Hc).
    destruct (min_max_normalize (map magnitude test)) as [t|]; [|reflexivity]. destruct (min_max_normalize (map magnitude ref)) as [r|]; [|reflexivity].
    assert (Z1 : rsum m = 0).
    { rewrite rsum_sum_over, (so_ext _ (fun _ => 0)) by exact Z. rewrite so_const. ring. }
    assert (Z2 : forall l, rsum (map2 Rmult m l) = 0).
    { clear - Z. induction m as [|a m IH]; intros [|b l]; try reflexivity. change (a * b + rsum (map2 Rmult m l) = 0).
      rewrite IH by (intros w Hw; apply Z; right; exact Hw). rewrite (Z a (or_introl eq_refl)). ring. }
    rewrite Z1, Z2. unfold fdiv. destruct (Req_EM_T 0 0); [|congruence]. destruct (Req_EM_T 0 0); [reflexivity|congruence].
Qed.
Print Assumptions C129_errors.

(** A mask of ones is not the same as no mask: without a mask the 3 rows and columns at the borders
    are left out of the mean. Witness: a 7x7 image with a bright first row against its negative. *)
Definition stripe (o z : R) : list R := repeat o 7 ++ repeat z 42.
Lemma stripe_window o z i j : (i < 7)%nat -> (j < 7)%nat ->
  window 7 7 (stripe o z) i j =
  flat_map (fun a => repeat (nth (refl 7 (Z.of_nat i + Z.of_nat a - 3)) [o; z; z; z; z; z; z] z) 7) (seq 0 7).
Proof.
  intros Hi Hj. do 7 (destruct i as [|i]; [do 7 (destruct j as [|j]; [reflexivity|]); lia|]). lia.
Qed.
Definition bright (i : nat) : R := nth i [2; 2; 2; 1; 0; 0; 0] 0.
Lemma stripe_filter o z i j : (i < 7)%nat -> (j < 7)%nat ->
  uniform_filter 7 7 (stripe o z) i j = bright i / 7 * o + (1 - bright i / 7) * z.
Proof.
  intros Hi Hj. unfold uniform_filter. rewrite stripe_window by assumption. unfold bright, rsum.
  do 7 (destruct i as [|i]; [cbv -[Rplus Rmult Rdiv Rminus IZR]; field|]). lia.
Qed.
Lemma stripe_prod o z o' z' : map2 Rmult (stripe o z) (stripe o' z') = stripe (o * o') (z * z').
Proof. reflexivity. Qed.
Definition stripe_ssim (u : R) : R :=
  let v := 49 / 48 * (u * (1 - u)) in
  (2 * u * (1 - u) + 1 / 10000) * (9 / 10000 - 2 * v) / ((u * u + (1 - u) * (1 - u) + 1 / 10000) * (2 * v + 9 / 10000)).
Lemma stripe_at i j : (i < 7)%nat -> (j < 7)%nat -> ssim_at 7 7 (stripe 1 0) (stripe 0 1) i j = stripe_ssim (bright i / 7).
Proof.
  intros Hi Hj. unfold ssim_at. rewrite !stripe_prod, !stripe_filter by assumption. unfold stripe_ssim. set (u := bright i / 7). cbv zeta. f_equal; [|f_equal]; field_simplify; try reflexivity; ring_simplify.
  all: f_equal; field.
Qed.
Lemma stripe_values : stripe_ssim 0 = 1 / 10001 /\ stripe_ssim (1 / 7) = - 299042059 / 928452941 /\ stripe_ssim (2 / 7) = - 831737059 / 1211147941.
Proof. unfold stripe_ssim. cbv zeta. repeat split; field. Qed.

Lemma stripe_normalised : min_max_normalize (map magnitude (real_px (stripe 1 0))) = Some (stripe 1 0) /\
  min_max_normalize (map magnitude (real_px (stripe 0 1))) = Some (stripe 0 1).
Proof.
  assert (B : forall o z x, In x (stripe o z) -> x = o \/ x = z).
  { intros o z x Hx. apply in_app_or in Hx. destruct Hx as [Hx|Hx]; apply repeat_spec in Hx; auto. }
  assert (Io : forall o z, In o (stripe o z)) by (intros; left; reflexivity).
  assert (Iz : forall o z, In z (stripe o z)) by (intros; do 7 right; left; reflexivity).
  assert (Re : forall l, rescale 0 1 l = l).
  { intros l. unfold rescale. rewrite <- (map_id l) at 2. apply map_ext. intros a. field. }
  split; (rewrite real_px_abs by (apply Forall_forall; intros x Hx; apply B in Hx; lra)); rewrite (mmn_some _ 0 1), Re; try reflexivity; try lra;
    (split; [auto|]; intros x Hx; apply B in Hx; lra).
Qed.

Lemma stripe_unmasked : mssim 7 7 (stripe 1 0) (stripe 0 1) = - 299042059 / 928452941.
Proof.
  unfold mssim. change (positions 3 (7 - 6) 3 (7 - 6)) with [(3, 3)%nat]. unfold mean. cbn [map length fst snd]. rewrite stripe_at by lia.
  change (bright 3) with 1. destruct stripe_values as [_ [-> _]]. unfold rsum. cbn. field.
Qed.
Lemma stripe_masked : rsum (map2 Rmult (repeat 1 49) (ssim_map 7 7 (stripe 1 0) (stripe 0 1))) =
  7 * (3 * (- 831737059 / 1211147941) + - 299042059 / 928452941 + 3 * (1 / 10001)).
Proof.
  unfold ssim_map. rewrite (map_ext_in _ (fun p => stripe_ssim (bright (fst p) / 7))).
  - destruct stripe_values as (A & B & C).
    assert (E : map (fun p : nat * nat => stripe_ssim (bright (fst p) / 7)) (positions 0 7 0 7) = flat_map (fun i => repeat (stripe_ssim (bright i / 7)) 7) (seq 0 7)) by reflexivity.
    rewrite E. unfold bright. cbn [seq flat_map nth]. replace (0 / 7) with 0 by field. rewrite A, B, C. unfold rsum. cbn. field.
  - intros p Hp. unfold positions in Hp. apply in_flat_map in Hp. destruct Hp as (i & Hi & H). apply in_map_iff in H. destruct H as (j & <- & Hj). apply in_seq in Hi, Hj. apply stripe_at; cbn; lia.
Qed.

Theorem C129_mask_of_ones_refuted :
  exists rows cols test ref v w, length test = (rows * cols)%nat /\ length ref = (rows * cols)%nat /\
    m_ssim true rows cols test ref MNone = Ok (Fin v) /\
    m_ssim true rows cols test ref (MArr (repeat 1 (rows * cols))) = Ok (Fin w) /\ v <> w.
Proof.
  destruct stripe_normalised as [Et Er].
  exists 7%nat, 7%nat, (real_px (stripe 1 0)), (real_px (stripe 0 1)), (- 299042059 / 928452941),
    (7 * (3 * (- 831737059 / 1211147941) + - 299042059 / 928452941 + 3 * (1 / 10001)) / 49).
  split; [reflexivity|]. split; [reflexivity|]. change (7 * 7)%nat with 49%nat.
  assert (S49 : rsum (repeat 1 49) = 49) by (unfold rsum; cbn; lra).
  split; [|split].
  - unfold m_ssim, preprocess. rewrite Et, Er. cbn [negb bind Nat.ltb Nat.leb orb]. rewrite stripe_unmasked. reflexivity.
  - unfold m_ssim, preprocess. rewrite Et, Er. cbn [negb bind Nat.ltb Nat.leb orb]. rewrite stripe_masked, S49. apply f_equal. apply fdiv_pos. lra.
  - lra.
Qed.
Print Assumptions C129_mask_of_ones_refuted.

(** A concrete case: an image with a bright first row against its negative. *)
Example C129_example : m_ssim true 7 7 (real_px (stripe 1 0)) (real_px (stripe 0 1)) MNone = Ok (Fin (- 299042059 / 928452941)).
Proof.
  destruct stripe_normalised as [Et Er]. unfold m_ssim, preprocess. rewrite Et, Er. cbn [negb bind Nat.ltb Nat.leb orb]. rewrite stripe_unmasked. reflexivity.
Qed.
