From Coq Require Import Sorted Permutation String.
From Verif Require Import NPReal Py IPS Spec_Observable Model_Signal Model_Prox Spec_Prox Proof_Cost.
From Coq Require Import List.
Import ListNotations.
Local Open Scope string_scope.
Local Open Scope R_scope.

(** * Separable problems *)
Lemma sum2_le {A B} (f g : A -> B -> R) l m :
  length l = length m ->
  (forall i a b, nth_error l i = Some a -> nth_error m i = Some b -> f a b <= g a b) -> sum2 f l m <= sum2 g l m.
Proof.
  revert m. induction l as [|a l IH]; intros [|b m] L H; cbn in *; try discriminate; [lra|].
  apply Rplus_le_compat; [apply (H 0%nat); reflexivity|]. apply IH; [congruence|].
  intros i a' b' Ha Hb. apply (H (S i)); assumption.
Qed.

Lemma sum2_plus {A B} (f g : A -> B -> R) l m :
  sum2 (fun a b => f a b + g a b) l m = sum2 f l m + sum2 g l m.
Proof. revert m. induction l as [|a l IH]; intros [|b m]; cbn; try lra. rewrite IH. lra. Qed.
Lemma sum2_scal {A B} c (f : A -> B -> R) l m : sum2 (fun a b => c * f a b) l m = c * sum2 f l m.
Proof. revert m. induction l as [|a l IH]; intros [|b m]; cbn; try lra. rewrite IH. lra. Qed.
Lemma sum2_ext {A B} (f g : A -> B -> R) l m : (forall a b, f a b = g a b) -> sum2 f l m = sum2 g l m.
Proof. intros E. revert m. induction l as [|a l IH]; intros [|b m]; cbn; auto. rewrite E, IH. reflexivity. Qed.
Lemma sum2_swap {A B} (f : A -> B -> R) l m : sum2 f l m = sum2 (fun b a => f a b) m l.
Proof. revert m. induction l as [|a l IH]; intros [|b m]; cbn; auto. rewrite IH. reflexivity. Qed.

Lemma sqdist_sym x z : sqdist x z = sqdist z x.
Proof. unfold sqdist. rewrite sum2_swap. apply sum2_ext. intros; ring. Qed.

Lemma map2_len {A B C} (f : A -> B -> C) l m : length l = length m -> length (map2 f l m) = length m.
Proof. intros E. apply map2_length; [exact E|reflexivity]. Qed.

(** Minimising a sum of scalar problems: w are per-element parameters, P the scalar solution. *)
Lemma separable_minimiser {A : Type} (pen : A -> R -> R) (P : A -> R -> R) (w : list A) (x : list R) :
  length w = length x ->
  (forall i t v, nth_error w i = Some t -> nth_error x i = Some v -> forall z,
     / 2 * (P t v - v) ^ 2 + pen t (P t v) + / 2 * (P t v - z) ^ 2 <= / 2 * (z - v) ^ 2 + pen t z) ->
  strong_minimiser (length x) (fun z => / 2 * sqdist z x + sum2 pen w z) (map2 P w x).
Proof.
  intros L H. split; [apply map2_len; exact L|].
  revert w L H. induction x as [|v x IH]; intros [|t w] L H z Lz; cbn in L, Lz; try discriminate.
  - destruct z; [|discriminate]. cbn. lra.
  - destruct z as [|z0 z]; [discriminate|]. cbn [map2]. unfold sqdist in *. cbn [sum2].
    assert (IH' := fun L' H' => IH w L' H' z ltac:(cbn in Lz; lia)).
    specialize (IH' ltac:(lia) ltac:(intros i a b Ha Hb; apply (H (S i)); assumption)).
    specialize (H 0%nat t v eq_refl eq_refl z0). cbn [sum2] in *. lra.
Qed.

(** * Positivity (C22) *)
Lemma pos_thresh_max x : pos_thresh x = Rmax 0 x.
Proof.
  unfold pos_thresh, gtb, b2r. unfold Rmax.
  destruct (Rlt_dec 0 x), (Rle_dec 0 x); lra.
Qed.

Lemma pos_projection x :
  nonneg (map pos_thresh x) /\ length (map pos_thresh x) = length x /\
  (nonneg x -> map pos_thresh x = x) /\
  map pos_thresh (map pos_thresh x) = map pos_thresh x /\
  forall z, length z = length x -> nonneg z ->
    sqdist (map pos_thresh x) x + sqdist (map pos_thresh x) z <= sqdist z x.
Proof.
  assert (N : forall a, 0 <= pos_thresh a) by (intros; rewrite pos_thresh_max; apply Rmax_l).
  split; [|split; [|split; [|split]]].
  - unfold nonneg. apply Forall_map. apply Forall_forall. intros; apply N.
  - apply map_length.
  - intros Hx. induction Hx as [|a x Ha Hx IH]; [reflexivity|]. cbn. rewrite IH, pos_thresh_max, Rmax_right by exact Ha. reflexivity.
  - rewrite map_map. apply map_ext. intros a. rewrite (pos_thresh_max (pos_thresh a)). apply Rmax_right, N.
  - induction x as [|a x IH]; intros [|z0 z] L Hz; cbn in *; try discriminate; [unfold sqdist; cbn; lra|].
    inversion Hz; subst. specialize (IH z ltac:(congruence) H2). unfold sqdist in *. cbn.
    rewrite (pos_thresh_max a). change (fun a b : R => (a - b) * ((a - b) * 1)) with (fun a b : R => (a - b) ^ 2).
    assert ((Rmax 0 a - a) ^ 2 + (Rmax 0 a - z0) ^ 2 <= (z0 - a) ^ 2); [|cbn [pow] in *; lra].
    unfold Rmax. destruct (Rle_dec 0 a); nra.
Qed.

Lemma ptree_ind' (P : ptree -> Prop) :
  (forall l, P (NumArr l)) -> (forall l, Forall P l -> P (ObjArr l)) -> (forall r, P (NoDtype r)) -> forall t, P t.
Proof.
  intros H1 H2 H3. fix IH 1. intros [l|l|r]; [apply H1| |apply H3]. apply H2.
  induction l as [|t l IHl]; constructor; [apply IH|exact IHl].
Qed.

Lemma same_length_nums_spec l rows : same_length_nums l = Some rows ->
  l = map NumArr rows.
Proof.
  revert rows. induction l as [|[a|?|?] l IH]; intros rows E; cbn in E; try discriminate.
  - inversion E. reflexivity.
  - fold (same_length_nums l) in E. destruct (same_length_nums l) as [[|b rs]|]; [| |discriminate].
    + inversion E; subst. rewrite (IH [] eq_refl). reflexivity.
    + destruct (Nat.eqb _ _); [|discriminate]. inversion E; subst. rewrite (IH _ eq_refl). reflexivity.
Qed.

Lemma np_object_array_leaves l : leaves (np_object_array l) = flat_map leaves l.
Proof.
  unfold np_object_array. destruct l as [|t l]; [reflexivity|].
  destruct (same_length_nums (t :: l)) as [rows|] eqn:E; [|reflexivity].
  apply same_length_nums_spec in E. rewrite E. clear E. cbn [leaves].
  induction rows as [|r rows IH]; [reflexivity|]. cbn [map flat_map]. rewrite IH. f_equal.
  cbn [leaves]. clear. induction r as [|a r IH]; [reflexivity|]. cbn. f_equal. exact IH.
Qed.

Lemma pos_recursive_leaves t : all_arrays t ->
  exists t', pos_recursive t = Ok t' /\ leaves t' = map (Rmax 0) (leaves t).
Proof.
  induction t as [l|l IH|r] using ptree_ind'; intros Ha.
  - eexists. split; [reflexivity|]. cbn. apply map_ext. intros. apply pos_thresh_max.
  - cbn [pos_recursive]. set (go := fix go (l : list ptree) : res (list ptree) := _).
    assert (G : exists rs, go l = Ok rs /\ flat_map leaves rs = map (Rmax 0) (flat_map leaves l)).
    { induction l as [|t l IHl].
      - exists []. auto.
      - inversion IH as [|? ? I1 I2]; subst. destruct Ha as [A1 A2].
        destruct (I1 A1) as (t' & E1 & E2). destruct (IHl I2 A2) as (rs & R1 & R2).
        exists (t' :: rs). unfold go at 1. fold go. rewrite E1. cbn [bind].
        rewrite R1. cbn [bind flat_map]. split; [reflexivity|]. rewrite map_app, E2, R2. reflexivity. }
    destruct G as (rs & -> & E). cbn [bind]. eexists. split; [reflexivity|].
    rewrite np_object_array_leaves. exact E.
  - destruct Ha.
Qed.

Lemma same_length_nums_lengths l rows : same_length_nums l = Some rows ->
  exists n, Forall (fun c => exists a, c = NumArr a /\ length a = n) l.
Proof.
  intros E. pose proof (same_length_nums_spec l rows E) as El.
  assert (X : exists n, Forall (fun r => length r = n) rows /\ forall r, hd_error rows = Some r -> length r = n).
  { revert rows E El. induction l as [|[a|?|?] l IH]; intros rows E El; cbn in E; try discriminate.
    - inversion E. exists 0%nat. split; [constructor|discriminate].
    - fold (same_length_nums l) in E. destruct (same_length_nums l) as [rs|] eqn:El'; [|discriminate].
      destruct (IH rs eq_refl (same_length_nums_spec _ _ El')) as (n & F & Hh). destruct rs as [|b rs].
      + inversion E; subst rows. exists (length a). split; [repeat constructor|]. intros r Hr; inversion Hr. reflexivity.
      + destruct (Nat.eqb_spec (length a) (length b)) as [Hab|]; [|discriminate]. inversion E; subst rows.
        exists n. assert (length a = n) by (rewrite Hab; apply Hh; reflexivity).
        split; [constructor; assumption|]. intros r Hr; inversion Hr; subst. reflexivity. }
  destruct X as (n & F & _). exists n. rewrite El. apply Forall_map. eapply Forall_impl; [|exact F].
  cbn. intros a Ha. exists a. auto.
Qed.

Lemma pos_recursive_structure t : ragged t ->
  exists t', pos_recursive t = Ok t' /\ structure t' = structure t.
Proof.
  induction t as [l|l IH|r] using ptree_ind'; intros Ha.
  - eexists. split; [reflexivity|]. cbn. rewrite map_map. reflexivity.
  - destruct Ha as [Hr Ha].
    cbn [pos_recursive]. set (go := fix go (l : list ptree) : res (list ptree) := _).
    assert (G : exists rs, go l = Ok rs /\ map structure rs = map structure l).
    { clear Hr. induction l as [|t l IHl].
      - exists []. auto.
      - inversion IH as [|? ? I1 I2]; subst. destruct Ha as [A1 A2].
        destruct (I1 A1) as (t' & E1 & E2). destruct (IHl I2 A2) as (rs & R1 & R2).
        exists (t' :: rs). unfold go at 1. fold go. rewrite E1. cbn [bind].
        rewrite R1. cbn [bind map]. split; [reflexivity|]. rewrite E2, R2. reflexivity. }
    destruct G as (rs & -> & E). cbn [bind]. eexists. split; [reflexivity|].
    unfold np_object_array. destruct rs as [|r rs]; [cbn; rewrite <- E; reflexivity|].
    destruct (same_length_nums (r :: rs)) as [rows|] eqn:S; [|cbn [structure]; rewrite E; reflexivity].
    exfalso. destruct Hr as [->|Hr]; [discriminate|]. apply Hr.
    destruct (same_length_nums_lengths _ _ S) as (n & F). exists n.
    clear -F E. revert l E. induction F as [|c cs (a & -> & Hc) F IH]; intros [|d l] E; cbn in E; try discriminate; [constructor|].
    inversion E as [[E1 E2]]. constructor; [|apply IH; exact E2].
    destruct d as [b| |]; cbn in E1; try discriminate. exists b. split; [reflexivity|].
    inversion E1 as [E3]. apply (f_equal (@length R)) in E3. rewrite !map_length in E3. congruence.
  - destruct Ha.
Qed.

(** * thresh (C23-C26) *)
Lemma thresh_hard x t ts : bcast t (length x) = Ok ts -> thresh x t "hard" = Ok (map2 hard1 ts x).
Proof. intros E. unfold thresh. cbn. rewrite E. reflexivity. Qed.
Lemma thresh_soft x t ts : bcast t (length x) = Ok ts -> thresh x t "soft" = Ok (map2 soft1 ts x).
Proof. intros E. unfold thresh. cbn. rewrite E. reflexivity. Qed.

Lemma bcast_length t n ts : bcast t n = Ok ts -> length ts = n.
Proof.
  destruct t as [v|l]; cbn; [intros E; inversion E; apply repeat_length|].
  destruct (Nat.eqb_spec (length l) n); [intros E; inversion E; subst; auto|].
  destruct l as [|v [|? ?]]; try (destruct (Nat.eqb n 1); discriminate).
  intros E; inversion E. apply repeat_length.
Qed.

Lemma bcast_array l n : length l = n -> bcast (TArray l) n = Ok l.
Proof. intros <-. cbn. rewrite Nat.eqb_refl. reflexivity. Qed.

Lemma hard1_spec t x : (t <= Rabs x -> hard1 t x = x) /\ (Rabs x < t -> hard1 t x = 0).
Proof. unfold hard1, geb, b2r. destruct (Rle_dec t (Rabs x)); split; intros; lra. Qed.

Lemma hard1_idem t x : hard1 t (hard1 t x) = hard1 t x.
Proof.
  destruct (Rle_dec t (Rabs x)) as [H|H].
  - rewrite (proj1 (hard1_spec t x) H). apply (hard1_spec t x). exact H.
  - rewrite (proj2 (hard1_spec t x)) by lra. unfold hard1, b2r. destruct (geb _ _); lra.
Qed.

Lemma eps64_pos : 0 < eps64.
Proof. unfold eps64. apply Rinv_0_lt_compat. apply pow_lt. lra. Qed.

Lemma eps64_small : eps64 < / 2 * / 10 ^ 15.
Proof.
  unfold eps64. rewrite <- Rinv_mult. apply Rinv_lt_contravar; [apply Rmult_lt_0_compat; [|apply pow_lt; lra]; apply Rmult_lt_0_compat; [lra|apply pow_lt; lra]|].
  rewrite !pow_IZR. rewrite <- mult_IZR. apply IZR_lt. reflexivity.
Qed.

Lemma shrink_vi t x z : 0 <= t -> t * Rabs (shrink t x) + (x - shrink t x) * (z - shrink t x) <= t * Rabs z.
Proof.
  intros Ht. unfold shrink. destruct (Rle_dec (Rabs x) t) as [H|H].
  - apply Rabs_le_inv in H. rewrite Rabs_R0. unfold Rabs. destruct (Rcase_abs z); nra.
  - destruct (Rle_dec 0 x) as [Hx|Hx].
    + rewrite Rabs_right in H by lra. rewrite (Rabs_right (x - t)) by lra.
      pose proof (RRle_abs z). nra.
    + rewrite Rabs_left in H by lra. rewrite (Rabs_left (x + t)) by lra.
      pose proof (RRle_abs (- z)) as Q. rewrite Rabs_Ropp in Q. nra.
Qed.

Lemma shrink_prox t x z : 0 <= t ->
  / 2 * (shrink t x - x) ^ 2 + t * Rabs (shrink t x) + / 2 * (shrink t x - z) ^ 2 <= / 2 * (z - x) ^ 2 + t * Rabs z.
Proof. intros Ht. pose proof (shrink_vi t x z Ht). nra. Qed.

Lemma shrink_nonexpansive t x y : 0 <= t -> Rabs (shrink t x - shrink t y) <= Rabs (x - y).
Proof.
  intros Ht. pose proof (shrink_vi t x (shrink t y) Ht) as A. pose proof (shrink_vi t y (shrink t x) Ht) as B.
  set (p := shrink t x) in *. set (q := shrink t y) in *.
  assert (E : (p - q) * (p - q) <= (x - y) * (p - q)) by nra.
  destruct (Req_dec p q) as [->|N]; [rewrite Rminus_diag_eq, Rabs_R0 by reflexivity; apply Rabs_pos|].
  assert (P : 0 < Rabs (p - q)) by (apply Rabs_pos_lt; lra).
  apply (Rmult_le_reg_r (Rabs (p - q))); [exact P|].
  rewrite <- !Rabs_mult. rewrite (Rabs_right ((p - q) * (p - q))) by nra.
  apply Rle_trans with ((x - y) * (p - q)); [exact E|apply RRle_abs].
Qed.

Lemma soft_unrounded_shrink t x : 0 <= t -> x = 0 \/ eps64 <= Rabs x -> soft_unrounded t x = shrink t x.
Proof.
  intros Ht [->|H].
  - unfold soft_unrounded, shrink. rewrite Rabs_R0, Rmult_0_r. destruct (Rle_dec 0 t); [reflexivity|contradiction].
  - pose proof eps64_pos as Ep. unfold soft_unrounded. rewrite (Rmax_right eps64) by exact H.
    assert (Hp : 0 < Rabs x) by lra. unfold shrink.
    destruct (Rle_dec (Rabs x) t) as [L|L].
    + rewrite Rmax_right; [lra|].
      assert (1 <= t / Rabs x); [|lra].
      apply (Rmult_le_reg_r (Rabs x)); [exact Hp|]. unfold Rdiv. rewrite Rmult_assoc, Rinv_l by lra. lra.
    + assert (Lt : t / Rabs x < 1).
      { apply (Rmult_lt_reg_r (Rabs x)); [exact Hp|]. unfold Rdiv. rewrite Rmult_assoc, Rinv_l by lra. lra. }
      rewrite Rmax_left by lra.
      destruct (Rle_dec 0 x) as [Hx|Hx].
      * rewrite Rabs_right in * by lra. field. lra.
      * rewrite Rabs_left in * by lra. field. lra.
Qed.

Lemma soft_unrounded_tiny t x : 0 <= t -> Rabs x < eps64 -> Rabs (soft_unrounded t x) <= Rabs x.
Proof.
  intros Ht H. pose proof eps64_pos as Ep. unfold soft_unrounded. rewrite (Rmax_left eps64) by lra.
  rewrite Rabs_mult. assert (0 <= t / eps64) by (apply Rmult_le_pos; [exact Ht|left; apply Rinv_0_lt_compat; exact Ep]).
  rewrite (Rabs_right (Rmax _ 0)) by (apply Rle_ge; apply Rmax_r).
  assert (Rmax (1 - t / eps64) 0 <= 1) by (apply Rmax_lub; lra).
  pose proof (Rabs_pos x). nra.
Qed.

Lemma soft1_tiny t x : 0 <= t -> Rabs x < eps64 -> soft1 t x = 0.
Proof.
  intros Ht H. unfold soft1. apply around_zero. pose proof (soft_unrounded_tiny t x Ht H). pose proof eps64_small. lra.
Qed.

Lemma shrink_abs_le t x : 0 <= t -> Rabs (shrink t x) <= Rabs x.
Proof.
  intros Ht. unfold shrink. destruct (Rle_dec (Rabs x) t) as [L|L]; [rewrite Rabs_R0; apply Rabs_pos|].
  unfold Rabs in *. destruct (Rle_dec 0 x), (Rcase_abs x), (Rcase_abs (x - t)), (Rcase_abs (x + t)); lra.
Qed.

Lemma soft1_spec t x : 0 <= t ->
  Rabs (soft1 t x - shrink t x) < / 10 ^ 15 /\ 0 <= soft1 t x * x /\ (Rabs x <= t -> soft1 t x = 0).
Proof.
  intros Ht. assert (P10 : 0 < / 10 ^ 15) by (apply Rinv_0_lt_compat, pow10_pos).
  destruct (Rlt_dec (Rabs x) eps64) as [H|H].
  - rewrite (soft1_tiny t x Ht H). split; [|split; [lra|reflexivity]].
    rewrite Rminus_0_l, Rabs_Ropp. pose proof (shrink_abs_le t x Ht). pose proof eps64_small. lra.
  - unfold soft1. rewrite (soft_unrounded_shrink t x Ht (or_intror (Rnot_lt_le _ _ H))).
    split; [|split].
    + pose proof (around_err 15 (shrink t x)). lra.
    + unfold shrink. destruct (Rle_dec (Rabs x) t) as [L|L]; [rewrite around_0; lra|].
      destruct (Rle_dec 0 x) as [Hx|Hx].
      * rewrite Rabs_right in L by lra. pose proof (around_nonneg 15 (x - t)). nra.
      * rewrite Rabs_left in L by lra. pose proof (around_nonpos 15 (x + t)). nra.
    + intros L. unfold shrink. destruct (Rle_dec (Rabs x) t); [apply around_0|contradiction].
Qed.

Lemma wl1_sum w z : weighted_l1 w z = sum2 (fun t v => t * Rabs v) w z.
Proof. reflexivity. Qed.

Lemma soft_minimises ts x :
  length ts = length x -> nonneg ts -> Forall (fun v => v = 0 \/ eps64 <= Rabs v) x ->
  strong_minimiser (length x) (fun z => / 2 * sqdist z x + weighted_l1 ts z) (map2 soft_unrounded ts x).
Proof.
  intros L Hw Hx. unfold weighted_l1. apply (separable_minimiser (fun t v => t * Rabs v)); [exact L|].
  intros i t v Ht Hv z.
  assert (0 <= t) by (unfold nonneg in Hw; rewrite Forall_forall in Hw; apply Hw; eapply nth_error_In; exact Ht).
  rewrite Forall_forall in Hx. rewrite soft_unrounded_shrink; [|assumption|apply Hx; eapply nth_error_In; exact Hv].
  apply shrink_prox. assumption.
Qed.

Lemma map2_nth {A B C} (f : A -> B -> C) l m i :
  length l = length m -> nth_error (map2 f l m) i =
  match nth_error l i, nth_error m i with Some a, Some b => Some (f a b) | _, _ => None end.
Proof.
  revert m i. induction l as [|a l IH]; intros [|b m] [|i] L; cbn in *; try discriminate; auto.
Qed.

(** * Ridge, ElasticNet *)
Lemma ridge_scalar t v z : 0 <= t ->
  / 2 * (v / (1 + t * 2) - v) ^ 2 + t * (v / (1 + t * 2)) ^ 2 + / 2 * (v / (1 + t * 2) - z) ^ 2 <= / 2 * (z - v) ^ 2 + t * z ^ 2.
Proof.
  intros Ht. set (p := v / (1 + t * 2)).
  assert (E : v = p * (1 + t * 2)) by (unfold p; field; lra). rewrite E.
  assert (0 <= t * (p - z) ^ 2) by (apply Rmult_le_pos; [lra|apply pow2_ge_0]). nra.
Qed.

Lemma elastic_scalar a b v z : 0 <= a -> 0 <= b ->
  let p := shrink b v / (a * 2 + 1) in
  / 2 * (p - v) ^ 2 + (a * p ^ 2 + b * Rabs p) + / 2 * (p - z) ^ 2 <= / 2 * (z - v) ^ 2 + (a * z ^ 2 + b * Rabs z).
Proof.
  intros Ha Hb p. assert (P : 0 < a * 2 + 1) by lra.
  assert (E : shrink b v = p * (a * 2 + 1)) by (unfold p; field; lra).
  (* subgradient at the shrunk point scales *)
  assert (V : b * Rabs p + (v - p * (a * 2 + 1)) * (z - p) <= b * Rabs z).
  { unfold shrink in E. destruct (Rle_dec (Rabs v) b) as [L|L].
    - assert (H : p = 0) by (symmetry in E; apply Rmult_integral in E; destruct E; lra). rewrite H. rewrite Rabs_R0. apply Rabs_le_inv in L.
      unfold Rabs. destruct (Rcase_abs z); nra.
    - destruct (Rle_dec 0 v) as [Hv|Hv].
      + rewrite Rabs_right in L by lra. assert (0 < p) by nra. rewrite (Rabs_right p) by lra.
        pose proof (RRle_abs z). nra.
      + rewrite Rabs_left in L by lra. assert (p < 0) by nra. rewrite (Rabs_left p) by lra.
        pose proof (RRle_abs (- z)) as Q. rewrite Rabs_Ropp in Q. nra. }
  assert (0 <= a * (p - z) ^ 2) by (apply Rmult_le_pos; [lra|apply pow2_ge_0]). nra.
Qed.

(** * GroupLASSO *)
Lemma dot_sum2 g h : dot g h = sum2 Rmult g h.
Proof.
  revert h. induction g as [|a g IH]; intros [|b h]; unfold dot in *; cbn in *; auto.
  unfold rsum in *. rewrite IH. reflexivity.
Qed.

Lemma norm2_length2 g : norm2 g = length2 g.
Proof. unfold norm2, length2. rewrite dot_sum2. reflexivity. Qed.

Definition vec_of (g : list R) : Rn (length g) := exist _ g eq_refl.

Lemma block_prox_vi {H : ips} w (x : H) : 0 <= w ->
  let s := Rmax 0 (1 - w / norm x) in
  forall z, w * norm (if Rle_dec (norm x) w then vzero else (s * x)%v)
     + inner (x - (if Rle_dec (norm x) w then vzero else (s * x)%v))%v
             (z - (if Rle_dec (norm x) w then vzero else (s * x)%v))%v <= w * norm z.
Proof.
  intros Hw s z. destruct (Rle_dec (norm x) w) as [L|L].
  - rewrite norm_0, !vsub_0_r. pose proof (cauchy_schwarz_norm x z). pose proof (norm_pos z). nra.
  - assert (Hp : 0 < norm x) by lra.
    assert (Hs : s = 1 - w / norm x).
    { unfold s. apply Rmax_right. assert (w / norm x <= 1); [|lra].
      apply (Rmult_le_reg_r (norm x)); [exact Hp|]. unfold Rdiv. rewrite Rmult_assoc, Rinv_l by lra. lra. }
    assert (H0 : 0 <= s) by (unfold s; apply Rmax_l).
    rewrite norm_scal, (Rabs_right s) by lra.
    replace (inner (x - s * x)%v (z - s * x)%v) with ((1 - s) * inner x z - (1 - s) * s * nsq x) by (iexpand; ring).
    rewrite <- norm_sq. pose proof (cauchy_schwarz_norm x z). rewrite Hs.
    assert (W : w / norm x * norm x = w) by (unfold Rdiv; rewrite Rmult_assoc, Rinv_l by lra; lra).
    set (q := w / norm x) in *.
    assert (Hq : 0 <= q) by (unfold q; apply Rmult_le_pos; [exact Hw|left; apply Rinv_0_lt_compat; exact Hp]).
    assert (q * inner x z <= q * (norm x * norm z)) by (apply Rmult_le_compat_l; assumption).
    nra.
Qed.

Lemma eps32_pos : 0 < eps32.
Proof. unfold eps32. apply Rinv_0_lt_compat, pow_lt. lra. Qed.

Lemma norm2_pos g : 0 <= norm2 g.
Proof. apply sqrt_pos. Qed.

Lemma norm2_zero g : norm2 g = 0 -> Forall (fun v => v = 0) g.
Proof.
  unfold norm2. intros E. assert (Hp : 0 <= dot g g).
  { exact (inner_pos (Rn (length g)) (vec_of g)). }
  apply sqrt_eq_0 in E; [|exact Hp].
  assert (V : vec_of g = vzero) by (apply (inner_def (Rn (length g)) (vec_of g)); exact E).
  apply (f_equal (@proj1_sig _ _)) in V. cbn in V. rewrite V at 1.
  apply Forall_forall. intros v Hv. apply repeat_spec in Hv. exact Hv.
Qed.

Definition scaled (w f : R) (g : list R) : list R := map (fun v => v * group_scale w f g) g.

Lemma group_small w f g : 0 <= w * f -> norm2 g = 0 \/ eps32 <= norm2 g -> norm2 g <= w * f ->
  Forall (fun v => v = 0) (scaled w f g).
Proof.
  intros Hw [E|E] L; unfold scaled; apply Forall_map.
  - apply norm2_zero in E. eapply Forall_impl; [|exact E]. intros a ->. lra.
  - apply Forall_forall. intros v _. pose proof eps32_pos.
    unfold group_scale. rewrite (Rmax_left (norm2 g)) by exact E. rewrite Rmax_left; [lra|].
    assert (1 <= w * f / norm2 g); [|lra].
    apply (Rmult_le_reg_r (norm2 g)); [lra|]. unfold Rdiv. rewrite Rmult_assoc, Rinv_l by lra. lra.
Qed.

Lemma sqdist_nsq n (a b : Rn n) : sqdist (proj1_sig a) (proj1_sig b) = nsq (a - b)%v.
Proof.
  destruct a as [a pa], b as [b pb]. 
  change (nsq _) with (dot (map2 Rplus a (map (Rmult (-1)) b)) (map2 Rplus a (map (Rmult (-1)) b))).
  rewrite dot_sum2. cbn [proj1_sig]. assert (L : length a = length b) by congruence. clear pa pb. unfold sqdist.
  revert b L. induction a as [|u a IH]; intros [|v b] L; cbn in *; try discriminate; [reflexivity|].
  rewrite (IH b) by congruence. ring.
Qed.

Lemma length2_norm n (a : Rn n) : length2 (proj1_sig a) = norm a.
Proof. unfold length2. rewrite <- dot_sum2. reflexivity. Qed.

Lemma group_minimises w f g z :
  0 <= w * f -> norm2 g = 0 \/ eps32 <= norm2 g -> length z = length g ->
  / 2 * sqdist (scaled w f g) g + w * f * length2 (scaled w f g) + / 2 * sqdist (scaled w f g) z
   <= / 2 * sqdist z g + w * f * length2 z.
Proof.
  intros Hw Hn Lz. set (n := length g).
  set (x := vec_of g : Rn n).
  set (zz := exist _ z Lz : Rn n).
  assert (Np : length (scaled w f g) = n) by (unfold scaled; apply map_length).
  set (pp := exist _ (scaled w f g) Np : Rn n).
  assert (SD := sqdist_nsq n). assert (NN := length2_norm n).
  change (scaled w f g) with (proj1_sig pp). change z with (proj1_sig zz).
  change (sqdist (proj1_sig pp) g) with (sqdist (proj1_sig pp) (proj1_sig x)).
  change (sqdist (proj1_sig zz) g) with (sqdist (proj1_sig zz) (proj1_sig x)). rewrite !SD, !NN.
  assert (PE : pp = if Rle_dec (norm x) (w * f) then vzero else (Rmax 0 (1 - w * f / norm x) * x)%v).
  { apply Rvec_eq. cbn [pp proj1_sig].
    change (norm x) with (norm2 g).
    destruct (Rle_dec (norm2 g) (w * f)) as [L|L].
    - pose proof (group_small w f g Hw Hn L) as Z0. cbn. rewrite <- Np.
      clear -Z0. induction Z0 as [|a l Ha Z0 IH]; cbn; [reflexivity|]. rewrite Ha, IH at 1. reflexivity.
    - cbn. unfold scaled. apply map_ext. intros v. rewrite Rmult_comm. f_equal.
      unfold group_scale. destruct Hn as [E|E]; [lra|]. rewrite (Rmax_left (norm2 g)) by exact E. reflexivity. }
  pose proof (block_prox_vi (w * f) x Hw zz) as V. cbn zeta in V. rewrite <- PE in V.
  assert (E : / 2 * nsq (zz - x)%v = / 2 * nsq (pp - x)%v - inner (x - pp)%v (zz - pp)%v + / 2 * nsq (pp - zz)%v).
  { iexpand. rewrite (inner_sym _ x zz), (inner_sym _ x pp), (inner_sym _ pp zz). field. }
  rewrite E. lra.
Qed.

(** * Sorting, OWL *)
Lemma insert_perm a l : Permutation (insert_sorted a l) (a :: l).
Proof.
  induction l as [|b l IH]; cbn; [reflexivity|]. destruct (Rle_dec a b); [reflexivity|].
  rewrite IH. apply perm_swap.
Qed.
Lemma npsort_perm l : Permutation (npsort l) l.
Proof. induction l as [|a l IH]; cbn; [reflexivity|]. rewrite insert_perm. constructor. exact IH. Qed.
Lemma insert_sorted_sorted a l : Sorted Rle l -> Sorted Rle (insert_sorted a l).
Proof.
  induction l as [|b l IH]; intros S; cbn; [repeat constructor|].
  destruct (Rle_dec a b) as [H|H].
  - constructor; [exact S|constructor; exact H].
  - inversion S as [|? ? S1 S2]; subst. constructor; [apply IH; exact S1|].
    destruct l as [|c l]; cbn; [constructor; lra|]. inversion S2; subst.
    destruct (Rle_dec a c); constructor; lra.
Qed.
Lemma npsort_sorted l : Sorted Rle (npsort l).
Proof. induction l as [|a l IH]; cbn; [constructor|]. apply insert_sorted_sorted. exact IH. Qed.

(** * Lists of weights *)
Lemma per_element_bcast t n ws : per_element t n ws -> bcast t n = Ok ws.
Proof.
  intros H; destruct H as [v m|l|v m]; [reflexivity|apply bcast_array; reflexivity|].
  cbn. destruct m as [|[|m]]; reflexivity.
Qed.
Lemma per_element_length t n ws : per_element t n ws -> length ws = n.
Proof. intros H. apply per_element_bcast in H. eapply bcast_length. exact H. Qed.
Lemma map_repeat' {A B} (h : A -> B) v n : map h (repeat v n) = repeat (h v) n.
Proof. induction n; cbn; congruence. Qed.
Lemma per_element_scale f t n ws : per_element t n ws -> per_element (thr_scale f t) n (map (fun w => w * f) ws).
Proof.
  intros H; destruct H as [v m|l|v m]; cbn.
  - rewrite map_repeat'. constructor.
  - rewrite <- (map_length (fun w => w * f) l) at 1. constructor.
  - rewrite map_repeat'. constructor.
Qed.

Lemma rsum_map2 {A B} (f : A -> B -> R) l m : rsum (map2 f l m) = sum2 f l m.
Proof. revert m. induction l as [|a l IH]; intros [|b m]; unfold rsum in *; cbn; auto. rewrite IH. reflexivity. Qed.
Lemma rsum_abs_map2 {A B} (f : A -> B -> R) l m : rsum (map Rabs (map2 f l m)) = sum2 (fun a b => Rabs (f a b)) l m.
Proof. revert m. induction l as [|a l IH]; intros [|b m]; unfold rsum in *; cbn; auto. rewrite IH. reflexivity. Qed.
Lemma sum2_map_r {A B C} (f : A -> B -> R) (h : C -> B) l m : sum2 f l (map h m) = sum2 (fun a c => f a (h c)) l m.
Proof. revert m. induction l as [|a l IH]; intros [|b m]; cbn; auto. rewrite IH. reflexivity. Qed.
Lemma sum2_map_l {A B C} (f : A -> B -> R) (h : C -> A) l m : sum2 f (map h l) m = sum2 (fun c b => f (h c) b) l m.
Proof. revert m. induction l as [|a l IH]; intros [|b m]; cbn; auto. rewrite IH. reflexivity. Qed.
Lemma map2_map_l {A B C D} (f : A -> B -> C) (h : D -> A) l m : map2 f (map h l) m = map2 (fun a b => f (h a) b) l m.
Proof. revert m. induction l as [|a l IH]; intros [|b m]; cbn; auto. rewrite IH. reflexivity. Qed.
Lemma sum2_ext_l {A B} (P : A -> Prop) (f g : A -> B -> R) l m :
  Forall P l -> (forall a b, P a -> f a b = g a b) -> sum2 f l m = sum2 g l m.
Proof.
  intros F E. revert m. induction F as [|a l Ha F IH]; intros [|b m]; cbn; auto. rewrite (E a b Ha), IH. reflexivity.
Qed.

Lemma sparse_op_soft weights ws x f :
  per_element weights (length x) ws ->
  sparse_op weights "soft" x f = Ok (map2 soft1 (map (fun w => w * f) ws) x).
Proof. intros H. unfold sparse_op. apply thresh_soft, per_element_bcast, per_element_scale, H. Qed.

Lemma nonneg_scaled ws f : nonneg ws -> 0 <= f -> nonneg (map (fun w => w * f) ws).
Proof.
  intros H Hf. unfold nonneg in *. apply Forall_map. eapply Forall_impl; [|exact H]. cbn. intros; nra.
Qed.

Lemma sparse_cost_spec weights ws x :
  per_element weights (length x) ws -> nonneg ws -> sparse_cost (fun v => v) weights x = Ok (weighted_l1 ws x).
Proof.
  intros H N. unfold sparse_cost, bmul. rewrite (per_element_bcast _ _ _ H). cbn [bind].
  rewrite rsum_abs_map2. unfold weighted_l1. f_equal. apply (sum2_ext_l (fun w => 0 <= w)); [exact N|].
  intros w v Hw. rewrite Rabs_mult, (Rabs_right w) by lra. reflexivity.
Qed.

Lemma ridge_spec weights ws x f :
  per_element weights (length x) ws -> Forall (fun w => 0 <= w * f) ws ->
  exists p, ridge_op (fun v => v) weights x f = Ok p /\
    strong_minimiser (length x) (fun z => / 2 * sqdist z x + f * weighted_l2sq ws z) p.
Proof.
  intros H N. unfold ridge_op.
  rewrite (per_element_bcast _ _ _ (per_element_scale 2 _ _ _ (per_element_scale f _ _ _ H))). cbn [bind].
  eexists. split; [reflexivity|]. rewrite !map2_map_l.
  assert (E : forall z, f * weighted_l2sq ws z = sum2 (fun w v => w * f * v ^ 2) ws z).
  { intros z. unfold weighted_l2sq. rewrite <- sum2_scal. apply sum2_ext. intros; ring. }
  destruct (separable_minimiser (fun w v => w * f * v ^ 2) (fun w v => v / (1 + w * f * 2)) ws x
              (per_element_length _ _ _ H)) as [S1 S2].
  - intros i t v Ht _ z. apply ridge_scalar. rewrite Forall_forall in N. apply N. eapply nth_error_In. exact Ht.
  - split; [exact S1|]. intros z Lz. rewrite !E. apply S2. exact Lz.
Qed.

Lemma ridge_cost_spec weights ws x :
  per_element weights (length x) ws -> nonneg ws -> ridge_cost (fun v => v) weights x = Ok (weighted_l2sq ws x).
Proof.
  intros H N. unfold ridge_cost, bmul. rewrite map_length, (per_element_bcast _ _ _ H). cbn [bind].
  rewrite rsum_abs_map2, sum2_map_r. unfold weighted_l2sq. f_equal.
  apply (sum2_ext_l (fun w => 0 <= w)); [exact N|].
  intros w v Hw. apply Rabs_right. apply Rle_ge, Rmult_le_pos; [exact Hw|apply pow2_ge_0].
Qed.

(** elastic_op applies [elastic1] entry-wise: the rounded threshold divided by the normalisation. *)
Definition elastic1 (rounding : R -> R) (f : R) (ab : R * R) (x : R) : R :=
  rounding (soft_unrounded (snd ab * f) x) / (fst ab * 2 * f + 1).

Lemma elastic_op_spec alpha beta al be x f :
  per_element alpha (length x) al -> per_element beta (length x) be ->
  elastic_op alpha beta x f = Ok (map2 (elastic1 (around 15) f) (combine al be) x).
Proof.
  intros Ha Hb. unfold elastic_op.
  rewrite (thresh_soft x _ _ (per_element_bcast _ _ _ (per_element_scale f _ _ _ Hb))). cbn [bind].
  rewrite (per_element_bcast _ _ _ (per_element_scale f _ _ _ (per_element_scale 2 _ _ _ Ha))). cbn [bind].
  f_equal. rewrite !map2_map_l.
  assert (La := per_element_length _ _ _ Ha). assert (Lb := per_element_length _ _ _ Hb). clear -La Lb.
  revert al be La Lb. induction x as [|v x IH]; intros [|a al] [|b be] La Lb; cbn in *; try discriminate; auto.
  f_equal. apply IH; congruence.
Qed.

Lemma combine_forall {A B} (P : A -> Prop) (Q : B -> Prop) l m :
  Forall P l -> Forall Q m -> Forall (fun ab => P (fst ab) /\ Q (snd ab)) (combine l m).
Proof.
  intros F. revert m. induction F as [|a l Ha F IH]; intros m G; [constructor|].
  destruct G as [|b m Hb G]; [constructor|]. constructor; [cbn; auto|apply IH; exact G].
Qed.

Lemma elastic_minimises al be x f :
  length al = length x -> length be = length x -> nonneg al -> nonneg be -> 0 <= f ->
  Forall (fun v => v = 0 \/ eps64 <= Rabs v) x ->
  strong_minimiser (length x) (fun z => / 2 * sqdist z x + f * (weighted_l2sq al z + weighted_l1 be z))
    (map2 (elastic1 (fun v => v) f) (combine al be) x).
Proof.
  intros La Lb Na Nb Hf Hx.
  assert (E : forall z, f * (weighted_l2sq al z + weighted_l1 be z)
            = sum2 (fun ab v => (fst ab * f) * v ^ 2 + (snd ab * f) * Rabs v) (combine al be) z).
  { intros z. unfold weighted_l2sq, weighted_l1. clear -La Lb. assert (L : length al = length be) by congruence.
    clear La Lb. revert be z L. induction al as [|a al IH]; intros [|b be] [|v z] L; cbn in *; try discriminate; try ring.
    rewrite <- IH by congruence. ring. }
  destruct (separable_minimiser (fun ab v => (fst ab * f) * v ^ 2 + (snd ab * f) * Rabs v) (elastic1 (fun v => v) f)
     (combine al be) x) as [S1 S2].
  - rewrite combine_length. lia.
  - intros i [a b] v Hi Hv z. cbn [fst snd].
    pose proof (combine_forall _ _ _ _ Na Nb) as F. rewrite Forall_forall in F.
    destruct (F _ (nth_error_In _ _ Hi)) as [Pa Pb]. cbn in Pa, Pb.
    rewrite Forall_forall in Hx. specialize (Hx v (nth_error_In _ _ Hv)).
    unfold elastic1. cbn [fst snd].
    rewrite soft_unrounded_shrink; [|nra|exact Hx].
    replace (a * 2 * f + 1) with (a * f * 2 + 1) by ring.
    apply elastic_scalar; nra.
  - split; [exact S1|]. intros z Lz. rewrite !E. apply S2. exact Lz.
Qed.

Lemma elastic_cost_spec alpha beta al be x :
  per_element alpha (length x) al -> per_element beta (length x) be -> nonneg al -> nonneg be ->
  elastic_cost (fun v => v) alpha beta x = Ok (weighted_l2sq al x + weighted_l1 be x).
Proof.
  intros Ha Hb Na Nb. unfold elastic_cost, bmul. rewrite map_length, (per_element_bcast _ _ _ Ha). cbn [bind].
  rewrite (per_element_bcast _ _ _ Hb). cbn [bind]. f_equal. rewrite rsum_map2.
  assert (La := per_element_length _ _ _ Ha). assert (Lb := per_element_length _ _ _ Hb). clear Ha Hb.
  unfold weighted_l2sq, weighted_l1.
  revert al be La Lb Na Nb. induction x as [|v x IH]; intros [|a al] [|b be] La Lb Na Nb; cbn in *; try discriminate; [ring|].
  inversion Na; inversion Nb; subst. rewrite IH by (congruence || assumption).
  rewrite (Rabs_mult b), (Rabs_right b) by lra. rewrite (Rabs_right (a * _)); [ring|].
  apply Rle_ge, Rmult_le_pos; [assumption|nra].
Qed.

(** * Groups *)
Lemma group_op_spec weights ws f gs :
  per_element weights (length gs) ws -> group_op weights f gs = Ok (map2 (fun w g => scaled w f g) ws gs).
Proof. intros H. unfold group_op. rewrite (per_element_bcast _ _ _ H). reflexivity. Qed.

Lemma group_cost_spec weights ws gs :
  per_element weights (length gs) ws -> group_cost weights gs = Ok (weighted_lengths ws gs).
Proof.
  intros H. unfold group_cost, bmul. rewrite map_length, (per_element_bcast _ _ _ H). cbn [bind].
  rewrite rsum_map2, sum2_map_r. unfold weighted_lengths. f_equal. apply sum2_ext. intros. rewrite norm2_length2. reflexivity.
Qed.

Lemma groups_minimise ws f gs :
  length ws = length gs -> Forall (fun w => 0 <= w * f) ws ->
  Forall (fun g => length2 g = 0 \/ eps32 <= length2 g) gs ->
  let p := map2 (fun w g => scaled w f g) ws gs in
  same_shape p gs /\
  forall zs, same_shape zs gs ->
   / 2 * groups_sqdist p gs + f * weighted_lengths ws p + / 2 * groups_sqdist p zs
   <= / 2 * groups_sqdist zs gs + f * weighted_lengths ws zs.
Proof.
  intros L N G. cbn zeta. unfold same_shape, groups_sqdist, weighted_lengths.
  revert ws L N. induction G as [|g gs Hg G IH]; intros [|w ws] L N; cbn in L; try discriminate.
  - split; [reflexivity|]. intros [|? ?] S; [cbn; lra|discriminate].
  - inversion N as [|? ? N1 N2]; subst. destruct (IH ws ltac:(congruence) N2) as [I1 I2].
    cbn [map2 map]. split.
    + f_equal; [unfold scaled; apply map_length|exact I1].
    + intros [|z zs] S; [discriminate|]. inversion S as [[S1 S2]]. specialize (I2 zs S2). cbn [sum2].
      rewrite <- norm2_length2 in Hg. pose proof (group_minimises w f g z N1 Hg S1) as M. nra.
Qed.

(** * Composition and combination *)
Lemma lincomp_prox {H K : ips} (lop : H -> K) (ladj : K -> H) (g : K -> R) (pop : K -> R -> K) f x :
  (forall x y, inner (lop x) y = inner x (ladj y)) ->
  (forall x, ladj (lop x) = x) -> (forall y, lop (ladj y) = y) ->
  (forall y, is_prox everywhere (fun z => f * g z) y (pop y f)) ->
  is_prox everywhere (fun z => f * lincomp_cost lop g z) x (lincomp_op lop ladj pop x f).
Proof.
  intros Adj I1 I2 P. destruct (P (lop x)) as [_ M]. split; [exact I|]. intros z _.
  unfold lincomp_cost, lincomp_op in *. rewrite I2.
  assert (D : forall a b : H, nsq (lop a - lop b)%v = nsq (a - b)%v).
  { intros a b. unfold nsq.
    assert (Q : forall u v, inner (lop u) (lop v) = inner u v) by (intros u v; rewrite Adj, I1; reflexivity).
    iexpand. rewrite !Q. reflexivity. }
  specialize (M (lop z) I).
  rewrite <- (D (ladj (pop (lop x) f)) x), <- (D z x), I2. exact M.
Qed.

Lemma combo_op_ok {Y} (ops : list (Y -> R -> Y)) x f :
  (length ops <= length x)%nat -> combo_op ops x f = Ok (map2 (fun p v => p v f) ops x).
Proof.
  revert x. induction ops as [|p ops IH]; intros [|v x] L; cbn in *; auto; [lia|]. rewrite IH by lia. reflexivity.
Qed.
Lemma combo_op_short {Y} (ops : list (Y -> R -> Y)) x f :
  (length x < length ops)%nat -> combo_op ops x f = Err IndexError.
Proof.
  revert x. induction ops as [|p ops IH]; intros [|v x] L; cbn in *; auto; try lia. rewrite IH by lia. reflexivity.
Qed.

(** Penalty functions are given per component; the product objective is the sum. *)
Lemma combo_minimises {Y} (d : Y -> Y -> R) (ops : list (Y -> R -> Y)) (costs : list (Y -> R)) x f :
  length ops = length x -> length costs = length x ->
  (forall i p c v, nth_error ops i = Some p -> nth_error costs i = Some c -> nth_error x i = Some v ->
     forall z, d (p v f) v + f * c (p v f) <= d z v + f * c z) ->
  forall z, length z = length x ->
  sum2 d (map2 (fun p v => p v f) ops x) x + f * combo_cost costs (map2 (fun p v => p v f) ops x)
  <= sum2 d z x + f * combo_cost costs z.
Proof.
  unfold combo_cost. revert ops costs. induction x as [|v x IH]; intros [|p ops] [|c costs] L1 L2 H [|z0 z] Lz;
    cbn in L1, L2, Lz; try discriminate; [cbn; lra|].
  specialize (IH ops costs ltac:(congruence) ltac:(congruence) (fun i => H (S i)) z ltac:(congruence)).
  specialize (H 0%nat p c v eq_refl eq_refl eq_refl z0). unfold rsum in *. cbn. lra.
Qed.
