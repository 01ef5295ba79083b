(** Lemmas for C129. *)
From Verif Require Import NPReal Py IPS Model_Prox Model_Stats Spec_Stats Proof_Stats Model_SSIM Spec_SSIM.
From Coq Require Import List Lia ZArith Psatz.
Import ListNotations.
Local Open Scope R_scope.

Lemma so_plus {A} (f g : A -> R) l : sum_over (fun p => f p + g p) l = sum_over f l + sum_over g l.
Proof. induction l as [|a l IH]; cbn; [ring|rewrite IH; ring]. Qed.
Lemma so_scal {A} c (f : A -> R) l : sum_over (fun p => c * f p) l = c * sum_over f l.
Proof. induction l as [|a l IH]; cbn; [ring|rewrite IH; ring]. Qed.
Lemma so_ext {A} (f g : A -> R) l : (forall a, In a l -> f a = g a) -> sum_over f l = sum_over g l.
Proof. induction l as [|a l IH]; intros E; cbn; [reflexivity|]. rewrite (E a (or_introl eq_refl)), IH; [reflexivity|]. intros b Hb. apply E. right. exact Hb. Qed.
Lemma so_const {A} c (l : list A) : sum_over (fun _ => c) l = c * INR (length l).
Proof. induction l as [|a l IH]; [cbn; ring|]. cbn [sum_over length]. rewrite IH, S_INR. ring. Qed.
Lemma so_nonneg {A} (f : A -> R) l : (forall a, In a l -> 0 <= f a) -> 0 <= sum_over f l.
Proof. induction l as [|a l IH]; intros E; cbn; [lra|]. pose proof (E a (or_introl eq_refl)). pose proof (IH (fun b Hb => E b (or_intror Hb))). lra. Qed.
Lemma so_zero {A} (f : A -> R) l : (forall a, In a l -> 0 <= f a) -> sum_over f l = 0 -> forall a, In a l -> f a = 0.
Proof.
  induction l as [|b l IH]; intros N E a Ha; [destruct Ha|]. cbn in E.
  pose proof (N b (or_introl eq_refl)) as Nb. pose proof (so_nonneg f l (fun c Hc => N c (or_intror Hc))) as Nl.
  destruct Ha as [<-|Ha]; [lra|]. apply IH; [intros c Hc; apply N; right; exact Hc|lra|exact Ha].
Qed.

Lemma div_one a b : b <> 0 -> a / b = 1 -> a = b.
Proof. intros B E. replace a with (a / b * b) by (field; exact B). rewrite E. ring. Qed.

Section Index.
Variable l : list (R * R).
Hypothesis Len : 1 < INR (length l).
Notation n := (INR (length l)).

Lemma so_mean f : sum_over f l = n * mean_over f l.
Proof. unfold mean_over. field. lra. Qed.

Lemma cov_uncentred f g : cov l f g = n / (n - 1) * (mean_over (fun p => f p * g p) l - mean_over f l * mean_over g l).
Proof.
  unfold cov. assert (E : sum_over (fun p => (f p - mean_over f l) * (g p - mean_over g l)) l
    = sum_over (fun p => f p * g p) l - n * mean_over f l * mean_over g l).
  { rewrite (so_ext _ (fun p => f p * g p + ((- mean_over g l) * f p + ((- mean_over f l) * g p + mean_over f l * mean_over g l)))) by (intros; ring).
    rewrite !so_plus, !so_scal, so_const, (so_mean f), (so_mean g). ring. }
  rewrite E, (so_mean (fun p => f p * g p)). field. lra.
Qed.
Lemma cov_nonneg f : 0 <= cov l f f.
Proof.
  unfold cov. apply Rmult_le_pos; [|left; apply Rinv_0_lt_compat; lra]. apply so_nonneg. intros a _. exact (Rle_0_sqr _).
Qed.
Lemma cov_diff : cov l (fun p => fst p - snd p) (fun p => fst p - snd p) = cov l fst fst + cov l snd snd - 2 * cov l fst snd.
Proof.
  assert (M : mean_over (fun p => fst p - snd p) l = mean_over fst l - mean_over snd l).
  { unfold mean_over. rewrite (so_ext _ (fun p => fst p + (-1) * snd p)) by (intros; ring). rewrite so_plus, so_scal. field. lra. }
  unfold cov. rewrite M. set (m1 := mean_over fst l). set (m2 := mean_over snd l).
  rewrite (so_ext _ (fun p => (fst p - m1) * (fst p - m1) + ((snd p - m2) * (snd p - m2) + (-2) * ((fst p - m1) * (snd p - m2))))) by (intros; ring).
  rewrite !so_plus, so_scal. field. lra.
Qed.
Lemma cov_sum : cov l (fun p => fst p + snd p) (fun p => fst p + snd p) = cov l fst fst + cov l snd snd + 2 * cov l fst snd.
Proof.
  assert (M : mean_over (fun p => fst p + snd p) l = mean_over fst l + mean_over snd l).
  { unfold mean_over. rewrite so_plus. field. lra. }
  unfold cov. rewrite M. set (m1 := mean_over fst l). set (m2 := mean_over snd l).
  rewrite (so_ext _ (fun p => (fst p - m1) * (fst p - m1) + ((snd p - m2) * (snd p - m2) + 2 * ((fst p - m1) * (snd p - m2))))) by (intros; ring).
  rewrite !so_plus, so_scal. field. lra.
Qed.

Hypothesis P1 : forall p, In p l -> 0 <= fst p.
Hypothesis P2 : forall p, In p l -> 0 <= snd p.
Lemma means_nonneg : 0 <= mean1 l /\ 0 <= mean2 l.
Proof.
  unfold mean1, mean2, mean_over. split; (apply Rmult_le_pos; [apply so_nonneg; auto|left; apply Rinv_0_lt_compat; lra]).
Qed.

Lemma index_range : -1 <= ssim_index l <= 1.
Proof.
  destruct means_nonneg as [M1 M2]. pose proof (cov_nonneg fst) as V1. pose proof (cov_nonneg snd) as V2.
  pose proof (cov_nonneg (fun p => fst p - snd p)) as D. rewrite cov_diff in D. pose proof (cov_nonneg (fun p => fst p + snd p)) as Sm. rewrite cov_sum in Sm.
  unfold ssim_index. set (a := mean1 l) in *. set (b := mean2 l) in *. set (x := cov l fst fst) in *. set (y := cov l snd snd) in *. set (z := cov l fst snd) in *.
  assert (HB1 : 0 < a ^ 2 + b ^ 2 + (1 / 100) ^ 2) by nra. assert (HB2 : 0 < x + y + (3 / 100) ^ 2) by nra.
  assert (HA1 : 0 <= 2 * a * b + (1 / 100) ^ 2 <= a ^ 2 + b ^ 2 + (1 / 100) ^ 2).
  { pose proof (Rmult_le_pos a b M1 M2). pose proof (pow2_ge_0 (a - b)). split; lra. }
  assert (HA2 : - (x + y + (3 / 100) ^ 2) <= 2 * z + (3 / 100) ^ 2 <= x + y + (3 / 100) ^ 2) by (split; lra).
  set (A1 := 2 * a * b + (1 / 100) ^ 2) in *. set (B1 := a ^ 2 + b ^ 2 + (1 / 100) ^ 2) in *.
  set (A2 := 2 * z + (3 / 100) ^ 2) in *. set (B2 := x + y + (3 / 100) ^ 2) in *.
  assert (HB : 0 < B1 * B2) by nra.
  split; apply (Rmult_le_reg_r (B1 * B2) _ _ HB); unfold Rdiv; rewrite Rmult_assoc, Rinv_l by lra; rewrite Rmult_1_r.
  - assert (0 <= A1 * (A2 + B2)) by (apply Rmult_le_pos; lra). assert (0 <= (B1 - A1) * B2) by (apply Rmult_le_pos; lra). nra.
  - assert (0 <= A1 * (B2 - A2)) by (apply Rmult_le_pos; lra). assert (0 <= (B1 - A1) * B2) by (apply Rmult_le_pos; lra). nra.
Qed.
Lemma index_one : ssim_index l = 1 <-> forall p, In p l -> fst p = snd p.
Proof.
  destruct means_nonneg as [M1 M2]. pose proof (cov_nonneg fst) as V1. pose proof (cov_nonneg snd) as V2.
  pose proof (cov_nonneg (fun p => fst p - snd p)) as D. rewrite cov_diff in D.
  unfold ssim_index. set (a := mean1 l) in *. set (b := mean2 l) in *. set (x := cov l fst fst) in *. set (y := cov l snd snd) in *. set (z := cov l fst snd) in *.
  assert (HB1 : 0 < a ^ 2 + b ^ 2 + (1 / 100) ^ 2) by nra. assert (HB2 : 0 < x + y + (3 / 100) ^ 2) by nra.
  split.
  - intros E. assert (F : (2 * a * b + (1 / 100) ^ 2) * (2 * z + (3 / 100) ^ 2) = (a ^ 2 + b ^ 2 + (1 / 100) ^ 2) * (x + y + (3 / 100) ^ 2)).
    { apply div_one in E; [exact E|]. apply Rgt_not_eq, Rmult_lt_0_compat; assumption. }
    set (d1 := (a - b) ^ 2). set (d2 := x + y - 2 * z) in *.
    assert (K : (2 * a * b + (1 / 100) ^ 2) * d2 + d1 * (x + y + (3 / 100) ^ 2) = 0).
    { replace ((2 * a * b + (1 / 100) ^ 2) * d2 + d1 * (x + y + (3 / 100) ^ 2)) with ((a ^ 2 + b ^ 2 + (1 / 100) ^ 2) * (x + y + (3 / 100) ^ 2) - (2 * a * b + (1 / 100) ^ 2) * (2 * z + (3 / 100) ^ 2)) by (unfold d1, d2; ring). lra. }
    assert (Hd1 : 0 <= d1) by (apply pow2_ge_0). assert (H1 : 0 < 2 * a * b + (1 / 100) ^ 2) by nra.
    pose proof (Rmult_le_pos _ _ (Rlt_le _ _ H1) D) as T1. pose proof (Rmult_le_pos _ _ Hd1 (Rlt_le _ _ HB2)) as T2.
    assert (E2 : d2 = 0). { assert (Q : (2 * a * b + (1 / 100) ^ 2) * d2 = 0) by lra. apply Rmult_integral in Q. destruct Q; [lra|assumption]. }
    assert (E1 : d1 = 0). { assert (Q : d1 * (x + y + (3 / 100) ^ 2) = 0) by lra. apply Rmult_integral in Q. destruct Q; [assumption|lra]. }
    assert (Eab : a = b). { unfold d1 in E1. replace ((a - b) ^ 2) with ((a - b) * (a - b)) in E1 by ring. apply Rmult_integral in E1. destruct E1; lra. }
    assert (Z : cov l (fun p => fst p - snd p) (fun p => fst p - snd p) = 0) by (rewrite cov_diff; exact E2).
    unfold cov in Z. apply Rmult_integral in Z. destruct Z as [Z|Z]; [|pose proof (Rinv_0_lt_compat (n - 1) ltac:(lra)); lra].
    assert (Mz : mean_over (fun p => fst p - snd p) l = 0).
    { unfold mean_over. rewrite (so_ext _ (fun p => fst p + (-1) * snd p)) by (intros; ring). rewrite so_plus, so_scal.
      change (sum_over fst l) with (sum_over (@fst R R) l). rewrite (so_mean fst), (so_mean snd). change (mean_over fst l) with a. change (mean_over snd l) with b. rewrite Eab. field. lra. }
    rewrite Mz in Z. intros p Hp. pose proof (so_zero _ l (fun a _ => Rle_0_sqr _) Z p Hp) as Q. cbv beta in Q. apply Rmult_integral in Q. destruct Q; lra.
  - intros Eq. assert (Ab : a = b). { unfold a, b, mean1, mean2, mean_over. rewrite (so_ext fst snd l Eq). reflexivity. }
    assert (Mm : mean_over fst l = mean_over snd l) by exact Ab.
    assert (Xz : x = z). { unfold x, z, cov. rewrite <- Mm. f_equal. apply so_ext. intros p Hp. rewrite (Eq p Hp). reflexivity. }
    assert (Yz : y = z). { unfold y, z, cov. rewrite Mm. f_equal. apply so_ext. intros p Hp. rewrite (Eq p Hp). reflexivity. }
    rewrite Ab, Xz, Yz in *. replace (2 * b * b) with (b ^ 2 + b ^ 2) by ring. replace (2 * z) with (z + z) by ring. apply Rinv_r_sym || (unfold Rdiv; apply Rinv_r); nra.
Qed.
End Index.

(** Swapping the images. *)
Lemma index_sym l : ssim_index (map (fun p => (snd p, fst p)) l) = ssim_index l.
Proof.
  assert (So : forall f : R * R -> R, sum_over f (map (fun p => (snd p, fst p)) l) = sum_over (fun p => f (snd p, fst p)) l).
  { intros f. induction l as [|a l' IH]; cbn; [reflexivity|rewrite IH; reflexivity]. }
  unfold ssim_index, mean1, mean2, cov, mean_over. rewrite !So, map_length. cbn.
  rewrite (so_ext (fun p => (snd p - sum_over (fun p0 => snd p0) l / INR (length l)) * (fst p - sum_over (fun p0 => fst p0) l / INR (length l)))
     (fun p => (fst p - sum_over (fun p0 => fst p0) l / INR (length l)) * (snd p - sum_over (fun p0 => snd p0) l / INR (length l)))) by (intros; ring).
  change (fun p0 : R * R => fst p0) with (@fst R R). change (fun p0 : R * R => snd p0) with (@snd R R).
  f_equal; ring.
Qed.

(** * Windows *)
Definition wpairs (rows cols : nat) (x y : list R) (i j : nat) : list (R * R) :=
  flat_map (fun a => map (fun b =>
    let k := (refl rows (Z.of_nat i + Z.of_nat a - 3) * cols + refl cols (Z.of_nat j + Z.of_nat b - 3))%nat in (nth k x 0, nth k y 0))
    (seq 0 7)) (seq 0 7).

Lemma wpairs_length rows cols x y i j : length (wpairs rows cols x y i j) = 49%nat.
Proof. reflexivity. Qed.
Lemma wpairs_INR rows cols x y i j : INR (length (wpairs rows cols x y i j)) = 49.
Proof. rewrite wpairs_length. cbn. lra. Qed.

Lemma flat_map_map {A B C} (f : A -> list B) (g : B -> C) l : map g (flat_map f l) = flat_map (fun a => map g (f a)) l.
Proof. induction l as [|a l IH]; cbn; [reflexivity|]. rewrite map_app, IH. reflexivity. Qed.
Lemma flat_map_ext2 {A B} (f g : A -> list B) l : (forall a, In a l -> f a = g a) -> flat_map f l = flat_map g l.
Proof. induction l as [|a l IH]; intros E; cbn; [reflexivity|]. rewrite (E a (or_introl eq_refl)), IH; [reflexivity|]. intros b Hb. apply E. right. exact Hb. Qed.

Lemma window_pairs rows cols x y img g i j : (forall k, nth k img 0 = g (nth k x 0, nth k y 0)) ->
  window rows cols img i j = map g (wpairs rows cols x y i j).
Proof.
  intros E. unfold window, wpairs. rewrite flat_map_map. apply flat_map_ext2. intros a _. rewrite map_map. apply map_ext. intros b. apply E.
Qed.
Lemma nth_map2 x y k : length x = length y -> nth k (map2 Rmult x y) 0 = nth k x 0 * nth k y 0.
Proof.
  revert y k. induction x as [|a x IH]; intros [|b y] k L; try discriminate.
  - destruct k; cbn; ring.
  - destruct k as [|k]; [reflexivity|]. cbn. apply IH. cbn in L. congruence.
Qed.
Lemma filter_pairs rows cols x y img g i j : (forall k, nth k img 0 = g (nth k x 0, nth k y 0)) ->
  uniform_filter rows cols img i j = mean_over g (wpairs rows cols x y i j).
Proof.
  intros E. unfold uniform_filter. rewrite (window_pairs rows cols x y img g i j E). rewrite rsum_sum_over, sum_over_map. unfold mean_over.
  rewrite wpairs_INR. reflexivity.
Qed.

Lemma ssim_at_index rows cols x y i j : length x = length y -> ssim_at rows cols x y i j = ssim_index (wpairs rows cols x y i j).
Proof.
  intros L. unfold ssim_at.
  rewrite (filter_pairs rows cols x y x fst) by reflexivity. rewrite (filter_pairs rows cols x y y snd) by reflexivity.
  rewrite (filter_pairs rows cols x y (map2 Rmult x x) (fun p => fst p * fst p)) by (intros k; apply nth_map2; reflexivity).
  rewrite (filter_pairs rows cols x y (map2 Rmult y y) (fun p => snd p * snd p)) by (intros k; apply nth_map2; reflexivity).
  rewrite (filter_pairs rows cols x y (map2 Rmult x y) (fun p => fst p * snd p)) by (intros k; apply nth_map2; exact L).
  cbv zeta. set (w := wpairs rows cols x y i j).
  assert (Lw : 1 < INR (length w)) by (unfold w; rewrite wpairs_INR; lra).
  unfold ssim_index, mean1, mean2. rewrite !(cov_uncentred w Lw).
  assert (Ew : INR (length w) = 49) by apply wpairs_INR. rewrite !Ew.
  replace ((1 / 100 * 1) ^ 2) with ((1 / 100) ^ 2) by ring. replace ((3 / 100 * 1) ^ 2) with ((3 / 100) ^ 2) by ring. reflexivity.
Qed.

Lemma refl_mirror n i a : refl n (Z.of_nat i + Z.of_nat a - 3) = mirror n (i + a).
Proof.
  unfold refl, mirror. destruct (Z.ltb_spec (Z.of_nat i + Z.of_nat a - 3) 0).
  - destruct (Nat.ltb_spec (i + a) 3); lia.
  - destruct (Nat.ltb_spec (i + a) 3); [lia|]. destruct (Z.leb_spec (Z.of_nat n) (Z.of_nat i + Z.of_nat a - 3)).
    + destruct (Nat.ltb_spec (i + a) (n + 3)); lia.
    + destruct (Nat.ltb_spec (i + a) (n + 3)); lia.
Qed.
Lemma wpairs_extended rows cols x y i j :
  wpairs rows cols x y i j = patch (extended rows cols (as_image cols x)) (extended rows cols (as_image cols y)) i j.
Proof.
  unfold wpairs, patch, extended, as_image. apply flat_map_ext2. intros a _. apply map_ext. intros b. rewrite !refl_mirror. reflexivity.
Qed.
Lemma mirror_inside n i : (i < n)%nat -> mirror n (i + 3) = i.
Proof. intros L. unfold mirror. destruct (Nat.ltb_spec (i + 3) 3); [lia|]. destruct (Nat.ltb_spec (i + 3) (n + 3)); lia. Qed.
Lemma patch_inside rows cols x y i j : (i + 6 < rows)%nat -> (j + 6 < cols)%nat ->
  patch (extended rows cols x) (extended rows cols y) (i + 3) (j + 3) = patch x y i j.
Proof.
  intros Hi Hj. unfold patch. apply flat_map_ext2. intros a Ha. apply in_seq in Ha. apply map_ext_in. intros b Hb. apply in_seq in Hb.
  unfold extended. replace (i + 3 + a)%nat with (i + a + 3)%nat by lia. replace (j + 3 + b)%nat with (j + b + 3)%nat by lia.
  rewrite !mirror_inside by lia. reflexivity.
Qed.

Lemma seq_plus s n : seq s n = map (fun i => (i + s)%nat) (seq 0 n).
Proof.
  revert s. induction n as [|n IH]; intros s; [reflexivity|]. cbn [seq map]. f_equal. rewrite (IH (S s)), (IH 1%nat), map_map. apply map_ext. intros. lia.
Qed.
Lemma flat_map_comp {A B C} (f : B -> list C) (g : A -> B) l : flat_map f (map g l) = flat_map (fun a => f (g a)) l.
Proof. induction l as [|a l IH]; cbn; [reflexivity|rewrite IH; reflexivity]. Qed.
Lemma positions_corners rows cols : positions 3 (rows - 6) 3 (cols - 6) = map (fun c => (fst c + 3, snd c + 3)%nat) (corners rows cols).
Proof.
  unfold positions, corners. rewrite (seq_plus 3 (rows - 6)), flat_map_comp, flat_map_map. apply flat_map_ext2. intros i _.
  rewrite (seq_plus 3 (cols - 6)), !map_map. reflexivity.
Qed.
Lemma in_corners rows cols c : In c (corners rows cols) <-> (fst c + 6 < rows /\ snd c + 6 < cols)%nat.
Proof.
  unfold corners. rewrite in_flat_map. split.
  - intros (i & Hi & H). apply in_map_iff in H. destruct H as (j & <- & Hj). apply in_seq in Hi, Hj. cbn. lia.
  - intros [A B]. exists (fst c). split; [apply in_seq; lia|]. apply in_map_iff. exists (snd c). split; [destruct c; reflexivity|apply in_seq; lia].
Qed.

Lemma mssim_spec rows cols x y : length x = length y -> mssim rows cols x y = mean_ssim rows cols (as_image cols x) (as_image cols y).
Proof.
  intros L. unfold mssim, mean_ssim. rewrite positions_corners, map_map, mean_map. unfold mean_over. f_equal. apply sum_over_ext.
  intros c Hc. apply in_corners in Hc. cbn [fst snd]. rewrite ssim_at_index by exact L. rewrite wpairs_extended, patch_inside by tauto. reflexivity.
Qed.
