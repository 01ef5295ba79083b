(** The search for alpha in KSupportNorm: it always succeeds, and the threshold it returns is
    within rounding-size distance of the exact one. *)
From Verif Require Import NPReal Py Model_Signal Model_Stats Model_KSupport Spec_SVD Proof_SVD Proof_SVDMore Proof_SVDModel Spec_KSupport Proof_KSupport.
From Coq Require Import List Lia Psatz Sorted.
Import ListNotations.
Local Open Scope R_scope.

(** * theta *)
Definition clip (v : R) : R := Rmax 0 (Rmin 1 v).
Ltac clp := unfold clip, Rmax, Rmin in *; repeat destruct (Rle_dec _ _); try lra.
Lemma theta1_clip lam a x : theta1 lam a x = clip (a * Rabs x - lam).
Proof.
  unfold theta1, geb, gtb, b2r. cbv zeta. generalize (a * Rabs x). intros v. clp; destruct (Rlt_dec _ _); cbn; lra.
Qed.
Lemma clip_range v : 0 <= clip v <= 1.
Proof. clp. Qed.
Lemma clip_mono u v : u <= v -> clip u <= clip v.
Proof. intros. clp. Qed.
Lemma clip_lip u v : u <= v -> clip v - clip u <= v - u.
Proof. intros. clp. Qed.
Lemma theta1_range lam a x : 0 <= theta1 lam a x <= 1.
Proof. rewrite theta1_clip. apply clip_range. Qed.
Lemma theta1_mono lam a b x : a <= b -> theta1 lam a x <= theta1 lam b x.
Proof. intros. rewrite !theta1_clip. apply clip_mono. pose proof (Rabs_pos x). nra. Qed.

Lemma theta_sum_cons lam x w a : theta_sum lam (x :: w) a = theta1 lam a x + theta_sum lam w a.
Proof. reflexivity. Qed.
Lemma theta_sum_mono lam w a b : a <= b -> theta_sum lam w a <= theta_sum lam w b.
Proof.
  intros L. induction w as [|x w IH]; [unfold theta_sum; cbn; lra|]. rewrite !theta_sum_cons.
  pose proof (theta1_mono lam a b x L). lra.
Qed.

Lemma lip_continuity (f : R -> R) M : 0 <= M -> (forall x y, x <= y -> Rabs (f y - f x) <= M * (y - x)) -> continuity f.
Proof.
  intros M0 H x. unfold continuity_pt, continue_in, limit1_in, limit_in. intros eps E.
  exists (eps / (M + 1)). split; [apply Rlt_gt, Rdiv_lt_0_compat; lra|].
  intros y [_ D]. cbn in *. unfold R_dist in *.
  assert (L : Rabs (f y - f x) <= M * Rabs (y - x)).
  { destruct (Rle_dec x y) as [l|l].
    - rewrite (Rabs_right (y - x)) by lra. apply H, l.
    - rewrite (Rabs_minus_sym (f y)), (Rabs_minus_sym y), (Rabs_right (x - y)) by lra. apply H. lra. }
  eapply Rle_lt_trans; [exact L|]. pose proof (Rabs_pos (y - x)) as P.
  assert (Q : (M + 1) * Rabs (y - x) < eps).
  { apply (Rmult_lt_compat_l (M + 1)) in D; [|lra]. replace ((M + 1) * (eps / (M + 1))) with eps in D by (field; lra). exact D. }
  nra.
Qed.

Lemma theta1_lip lam a b x : a <= b -> theta1 lam b x - theta1 lam a x <= Rabs x * (b - a).
Proof.
  intros L. rewrite !theta1_clip. eapply Rle_trans; [apply clip_lip|].
  - pose proof (Rabs_pos x). nra.
  - lra.
Qed.

Lemma theta_sum_lip lam w : exists M, 0 <= M /\ forall a b, a <= b -> Rabs (theta_sum lam w b - theta_sum lam w a) <= M * (b - a).
Proof.
  induction w as [|x w [M [M0 H]]].
  - exists 0. split; [lra|]. intros a b L. unfold theta_sum. cbn. rewrite Rminus_0_r, Rabs_R0. lra.
  - exists (Rabs x + M). pose proof (Rabs_pos x). split; [lra|]. intros a b L. rewrite !theta_sum_cons.
    specialize (H a b L). pose proof (theta1_lip lam a b x L). pose proof (theta1_mono lam a b x L).
    apply Rabs_le_inv in H. apply Rabs_le. nra.
Qed.

Lemma theta_sum_cont lam w : continuity (theta_sum lam w).
Proof. destruct (theta_sum_lip lam w) as (M & M0 & H). apply (lip_continuity _ M M0 H). Qed.

Lemma theta_sum_ivt lam w k a b : a < b -> theta_sum lam w a < k -> k < theta_sum lam w b ->
  exists t, a <= t <= b /\ theta_sum lam w t = k.
Proof.
  intros L A B.
  destruct (IVT (fun t => theta_sum lam w t - k) a b) as [t [T E]]; try lra.
  - apply continuity_minus; [apply theta_sum_cont|apply continuity_const; intros ? ?; reflexivity].
  - exists t. split; [exact T|lra].
Qed.

(** * The magnitude of one output entry as a function of tau = lam / alpha *)
Definition zc (lam t x : R) : R := Rmin (Rmax (x - t) 0) (x / (1 + lam)).

Lemma zc_mono lam t t' x : t <= t' -> zc lam t' x <= zc lam t x.
Proof. intros. unfold zc, Rmin, Rmax. repeat destruct (Rle_dec _ _); lra. Qed.
Lemma zc_lip lam t t' x : t <= t' -> zc lam t x - zc lam t' x <= t' - t.
Proof. intros. unfold zc, Rmin, Rmax. repeat destruct (Rle_dec _ _); lra. Qed.

Lemma out_zc lam a x : 0 < lam -> 0 < a -> 0 <= x ->
  x * clip (a * x - lam) / (clip (a * x - lam) + lam) = zc lam (lam / a) x.
Proof.
  intros L A X. assert (X1 : 0 <= x / (1 + lam)) by (apply Rmult_le_pos; [lra|apply Rlt_le, Rinv_0_lt_compat; lra]).
  assert (LA : 0 < lam / a) by (apply Rdiv_lt_0_compat; lra).
  assert (LE : lam = lam / a * a) by (field; lra).
  assert (XE : x = x / (1 + lam) * (1 + lam)) by (field; lra).
  unfold zc. destruct (Rle_dec (a * x - lam) 0) as [C|C].
  - replace (clip (a * x - lam)) with 0 by clp. replace (x * 0 / (0 + lam)) with 0 by (field; lra).
    assert (x <= lam / a) by nra. rewrite Rmax_right by lra. rewrite Rmin_left; lra.
  - destruct (Rle_dec 1 (a * x - lam)) as [D|D].
    + replace (clip (a * x - lam)) with 1 by clp. replace (x * 1 / (1 + lam)) with (x / (1 + lam)) by (field; lra).
      rewrite Rmin_right; [reflexivity|]. assert (Q : x / (1 + lam) <= x - lam / a).
      { apply (Rmult_le_reg_r ((1 + lam) * a)); [nra|].
        replace (x / (1 + lam) * ((1 + lam) * a)) with (x * a) by (field; lra).
        replace ((x - lam / a) * ((1 + lam) * a)) with ((x * a - lam) * (1 + lam)) by (field; lra). nra. }
      eapply Rle_trans; [exact Q|apply Rmax_l].
    + replace (clip (a * x - lam)) with (a * x - lam) by clp.
      replace (x * (a * x - lam) / (a * x - lam + lam)) with (x - lam / a).
      * rewrite Rmax_left by nra. rewrite Rmin_left; [reflexivity|].
        apply (Rmult_le_reg_r ((1 + lam) * a)); [nra|].
        replace (x / (1 + lam) * ((1 + lam) * a)) with (x * a) by (field; lra).
        replace ((x - lam / a) * ((1 + lam) * a)) with ((x * a - lam) * (1 + lam)) by (field; lra). nra.
      * field. split; [lra|]. nra.
Qed.

Lemma zc_zero lam x : 0 < lam -> 0 <= x -> zc lam 0 x = x / (1 + lam).
Proof.
  intros L X. unfold zc. assert (X1 : 0 <= x / (1 + lam)) by (apply Rmult_le_pos; [lra|apply Rlt_le, Rinv_0_lt_compat; lra]).
  assert (XE : x = x / (1 + lam) * (1 + lam)) by (field; lra).
  rewrite Rmax_left by lra. rewrite Rmin_right; [reflexivity|]. nra.
Qed.

(** * The exact threshold *)
Definition nnz (w : list R) : R := rsum (map (fun x => if Req_EM_T x 0 then 0 else 1) w).
Definition exact_tau (lam : R) (w : list R) (k t : R) : Prop :=
  (t = 0 /\ nnz w <= k) \/ (0 < t /\ theta_sum lam w (lam / t) = k).
Definition exact_theta (lam t x : R) : R :=
  if Req_EM_T t 0 then (if Req_EM_T x 0 then 0 else 1) else theta1 lam (lam / t) x.
Definition exact_out (lam : R) (t : R) (x : R) : R := x * exact_theta lam t x / (exact_theta lam t x + lam).

Lemma theta_sum_bsum lam w a : theta_sum lam w a = bsum (length w) (fun i => theta1 lam a (ent w i)).
Proof.
  unfold theta_sum. rewrite rsum_bsum, map_length. apply bsum_ext. intros i I. unfold ent.
  rewrite (nth_indep _ 0 (theta1 lam a 0)) by (rewrite map_length; exact I). apply map_nth.
Qed.
Lemma nnz_bsum w : nnz w = bsum (length w) (fun i => if Req_EM_T (ent w i) 0 then 0 else 1).
Proof.
  unfold nnz. rewrite rsum_bsum, map_length. apply bsum_ext. intros i I. unfold ent.
  rewrite (nth_indep _ 0 ((fun x => if Req_EM_T x 0 then 0 else 1) 0)) by (rewrite map_length; exact I).
  apply (map_nth (fun x => if Req_EM_T x 0 then 0 else 1)).
Qed.

Lemma exact_is_prox lam w k t : 0 < lam -> exact_tau lam w (INR k) t ->
  ksup_prox k (length w) lam (ent w) (fun i => exact_out lam t (ent w i)).
Proof.
  intros L [[-> N]|[T S]].
  - apply (ks_optimal k _ lam _ (fun i => exact_theta lam 0 (ent w i)) _ 0 L); try lra;
      unfold exact_out, exact_theta; destruct (Req_EM_T 0 0) as [_|C]; try lra.
    + intros i I. destruct (Req_EM_T _ _); lra.
    + reflexivity.
    + intros i I H. destruct (Req_EM_T (ent w i) 0) as [->|]; [|lra]. rewrite Rabs_R0. lra.
    + intros i I H. pose proof (Rabs_pos (ent w i)). lra.
    + rewrite <- nnz_bsum. exact N.
  - assert (LT : 0 < lam / t) by (apply Rdiv_lt_0_compat; lra).
    assert (TE : t / lam * (lam / t) = 1) by (field; lra). assert (TL : 0 < t / lam) by (apply Rdiv_lt_0_compat; lra).
    assert (EE : forall x, exact_theta lam t x = clip (lam / t * Rabs x - lam)).
    { intros x. unfold exact_theta. destruct (Req_EM_T t 0); [lra|]. apply theta1_clip. }
    assert (Q : forall x, t / lam * (lam / t * x) = x) by (intros x; rewrite <- Rmult_assoc, TE; ring).
    apply (ks_optimal k _ lam _ (fun i => exact_theta lam t (ent w i)) _ (t / lam) L); try lra.
    + intros i I. rewrite EE. apply clip_range.
    + reflexivity.
    + intros i I. cbn beta. rewrite EE. intros H. rewrite <- (Q (Rabs (ent w i))) at 1. apply Rmult_le_compat_l; [lra|]. clp.
    + intros i I. cbn beta. rewrite EE. intros H. rewrite <- (Q (Rabs (ent w i))). apply Rmult_le_compat_l; [lra|].
      rewrite (Q (Rabs (ent w i))). clp.
    + right. rewrite <- S, theta_sum_bsum. apply bsum_ext. intros i I.
      unfold exact_theta. destruct (Req_EM_T t 0); [lra|reflexivity].
    + right. rewrite <- S, theta_sum_bsum. apply bsum_ext. intros i I.
      unfold exact_theta. destruct (Req_EM_T t 0); [lra|reflexivity].
Qed.

(** * The grid *)
Lemma idx_ok l i : (i < length l)%nat -> idx l i = Ok (nth i l 0).
Proof. intros I. unfold idx. rewrite (nth_error_nth' l 0 I). reflexivity. Qed.

Lemma uinsert_in a l x : In x (uinsert a l) <-> x = a \/ In x l.
Proof.
  induction l as [|b l IH]; cbn [uinsert]; [cbn; intuition congruence|].
  destruct (Req_EM_T a b) as [->|N]; [cbn; intuition congruence|].
  destruct (Rlt_dec a b); cbn; rewrite ?IH; intuition congruence.
Qed.
Lemma npunique_in l x : In x (npunique l) <-> In x l.
Proof.
  unfold npunique. induction l as [|a l IH]; [reflexivity|]. cbn [fold_right]. rewrite uinsert_in, IH. cbn. intuition congruence.
Qed.
Lemma uinsert_sorted a l : StronglySorted Rlt l -> StronglySorted Rlt (uinsert a l).
Proof.
  induction l as [|b l IH]; intros H; cbn [uinsert]; [constructor; [constructor|constructor]|].
  destruct (Req_EM_T a b) as [->|N]; [exact H|]. inversion H as [|? ? H1 H2]; subst.
  destruct (Rlt_dec a b) as [L|L].
  - constructor; [exact H|]. constructor; [exact L|]. eapply Forall_impl; [|exact H2]. cbn. intros. lra.
  - constructor; [apply IH, H1|]. apply Forall_forall. intros x X. apply uinsert_in in X. destruct X as [->|X]; [lra|].
    rewrite Forall_forall in H2. apply H2, X.
Qed.
Lemma npunique_sorted l : StronglySorted Rlt (npunique l).
Proof. unfold npunique. induction l; [constructor|]. apply uinsert_sorted, IHl. Qed.

Lemma sorted_nth l : StronglySorted Rlt l -> forall i j, (i < j < length l)%nat -> nth i l 0 < nth j l 0.
Proof.
  induction 1 as [|a l H IH F]; intros i j IJ; [cbn in IJ; lia|].
  cbn [length] in IJ. destruct j as [|j]; [lia|]. destruct i as [|i]; cbn [nth].
  - rewrite Forall_forall in F. apply F, nth_In. lia.
  - apply IH. lia.
Qed.
Lemma sorted_nth_le l i j : StronglySorted Rlt l -> (i <= j < length l)%nat -> nth i l 0 <= nth j l 0.
Proof.
  intros H IJ. destruct (Nat.eq_dec i j) as [->|N]; [lra|]. apply Rlt_le, sorted_nth; [exact H|lia].
Qed.

Section Search.
Context (lam : R) (w : list R) (G : list R) (k : R).
Hypothesis (SG : StronglySorted Rlt G).
Let Sf (i : nat) : R := theta_sum lam w (nth i G 0).

Lemma Sf_mono i j : (i <= j < length G)%nat -> Sf i <= Sf j.
Proof. intros. apply theta_sum_mono, sorted_nth_le; assumption. Qed.

Lemma loop_finds fuel : forall first last prev mid s0 s1,
  (first < last < length G)%nat -> (last - first <= fuel)%nat -> (prev <= first \/ last <= prev)%nat ->
  Sf first <= k <= Sf last ->
  exists i, (first <= i < last)%nat /\ ks_loop fuel lam w G k first last prev mid s0 s1 = Ok (true, i, Sf i, Sf (i + 1)) /\
    Sf i <= k <= Sf (i + 1).
Proof.
  induction fuel as [|fuel IH]; intros first last prev mid s0 s1 FL FU PR B; [lia|].
  cbn [ks_loop]. replace (Nat.leb first last) with true by (symmetry; apply Nat.leb_le; lia).
  pose proof (Nat.div_mod (first + last) 2 ltac:(lia)) as DM. pose proof (Nat.mod_upper_bound (first + last) 2 ltac:(lia)) as MU.
  set (m := Nat.div (first + last) 2) in *. clearbody m. cbv zeta.
  assert (M : (first <= m < last)%nat) by lia.
  destruct (Nat.eqb_spec prev m) as [E|E].
  - assert (E1 : m = first) by lia. assert (last = first + 1)%nat by lia. rewrite E1 in *. clear E1. subst last. subst prev. 
    rewrite !idx_ok by lia. cbn [bind fst snd].
    assert (BB : forall b c : bool, (if b then (first + 1 - 1)%nat else if c then first else first) = first) by (intros [] []; lia).
    rewrite !BB.
    cbn [bind fst snd]. rewrite !idx_ok by lia. cbn [bind].
    exists first. fold (Sf first). fold (Sf (first + 1)).
    split; [lia|]. split; [|exact B]. unfold geb. destruct (Rle_dec _ _); [|lra]. destruct (Rle_dec _ _); [|lra]. reflexivity.
  - cbn [bind fst snd]. rewrite !idx_ok by lia. cbn [bind]. fold (Sf m). fold (Sf (m + 1)).
    destruct (geb k (Sf m) && geb (Sf (m + 1)) k) eqn:Fo.
    + exists m. unfold geb in Fo. destruct (Rle_dec (Sf m) k); [|discriminate]. destruct (Rle_dec k (Sf (m + 1))); [|discriminate].
      split; [lia|]. split; [reflexivity|lra].
    + pose proof (Sf_mono m (m + 1) ltac:(lia)) as Mo.
      unfold gtb. destruct (Rlt_dec (Sf (m + 1)) k) as [L1|L1].
      * assert (m + 1 <> last)%nat by (intros C; rewrite C in L1; lra).
        assert (m <> first) by lia.
        destruct (IH m last m m (Sf m) (Sf (m + 1))) as (i & I & Ei & Bi); try lia; [lra|].
        exists i. split; [lia|]. split; assumption.
      * assert (L2 : k < Sf m).
        { unfold geb in Fo. destruct (Rle_dec (Sf m) k); [|lra]. destruct (Rle_dec k (Sf (m + 1))); [discriminate|lra]. }
        destruct (Rlt_dec k (Sf m)); [|lra].
        assert (m <> first) by (intros C; rewrite C in L2; lra).
        destruct (IH first m m m (Sf m) (Sf (m + 1))) as (i & I & Ei & Bi); try lia; [lra|].
        exists i. split; [lia|]. split; assumption.
Qed.

Lemma search_finds : (2 <= length G)%nat -> Sf 0 < k ->
  (Sf (length G - 1) <= k /\
   ks_search lam w G k = Ok (nth (length G - 2) G 0, nth (length G - 1) G 0, Sf 0, Sf (length G - 1))) \/
  (exists i, (i + 1 < length G)%nat /\ Sf i <= k <= Sf (i + 1) /\
   ks_search lam w G k = Ok (nth i G 0, nth (i + 1) G 0, Sf i, Sf (i + 1))).
Proof.
  intros N S0. unfold ks_search. rewrite !idx_ok by lia. cbn [bind]. fold (Sf 0). fold (Sf (length G - 1)).
  unfold geb. destruct (Rle_dec k (Sf 0)) as [C|_]; [lra|].
  destruct (Rle_dec (Sf (length G - 1)) k) as [L|L].
  - left. split; [exact L|]. cbn [bind]. replace (length G - 2 + 1)%nat with (length G - 1)%nat by lia.
    rewrite !idx_ok by lia. reflexivity.
  - right. destruct (loop_finds (length G) 0 (length G - 1) 0 0 (Sf 0) (Sf (length G - 1))) as (i & I & Ei & Bi); try lia; [lra|].
    exists i. split; [lia|]. split; [exact Bi|]. rewrite Ei. cbn [bind]. rewrite !idx_ok by lia. reflexivity.
Qed.
End Search.

(** * Distance to the exact threshold *)

(** Inside a bracket of the grid every entry's theta is affine beyond [a']. *)
Definition kinkfree (lam a' b x : R) : Prop :=
  (lam <= a' * Rabs x \/ b * Rabs x <= lam) /\ (lam + 1 <= a' * Rabs x \/ b * Rabs x <= lam + 1).

Lemma kinkfree_affine lam a' b x : 0 < a' < b -> kinkfree lam a' b x ->
  exists m, (m = 0 \/ (m = Rabs x /\ lam <= a' * Rabs x)) /\ 0 <= m /\
    forall y, a' <= y <= b -> theta1 lam y x = theta1 lam a' x + m * (y - a').
Proof.
  intros AB [[K1|K1] [K2|K2]]; pose proof (Rabs_pos x) as X.
  - exists 0. split; [left; reflexivity|]. split; [lra|]. intros y Y. rewrite !theta1_clip.
    assert (a' * Rabs x <= y * Rabs x) by nra. clp.
  - exists (Rabs x). split; [right; split; [reflexivity|exact K1]|]. split; [exact X|]. intros y Y. rewrite !theta1_clip.
    assert (a' * Rabs x <= y * Rabs x) by nra. assert (y * Rabs x <= b * Rabs x) by nra. clp.
  - exists 0. split; [left; reflexivity|]. split; [lra|]. intros y Y. nra.
  - exists 0. split; [left; reflexivity|]. split; [lra|]. intros y Y. rewrite !theta1_clip.
    assert (y * Rabs x <= b * Rabs x) by nra. assert (a' * Rabs x <= b * Rabs x) by nra. clp.
Qed.

Lemma sum_affine lam a' b w : 0 < lam -> 0 < a' < b -> Forall (kinkfree lam a' b) w ->
  exists m, 0 <= m /\ (forall y, a' <= y <= b -> theta_sum lam w y = theta_sum lam w a' + m * (y - a')) /\
    ((m = 0 /\ forall x, In x w -> forall y, a' <= y <= b -> theta1 lam y x = theta1 lam a' x) \/ lam <= m * a').
Proof.
  intros L AB. induction w as [|x w IH]; intros F.
  - exists 0. split; [lra|]. split; [intros; unfold theta_sum; cbn; lra|]. left. split; [reflexivity|]. intros x [].
  - destruct (IH (Forall_inv_tail F)) as (m & M0 & A & C). destruct (kinkfree_affine _ _ _ _ AB (Forall_inv F)) as (n & N & N0 & B).
    exists (n + m). split; [lra|]. split.
    + intros y Y. rewrite !theta_sum_cons, (A y Y), (B y Y). ring.
    + destruct N as [->|[-> N]].
      * destruct C as [[-> C]|C]; [|right; nra]. left. split; [ring|]. intros z [<-|Z] y Y; [rewrite (B y Y); ring|apply C; assumption].
      * right. nra.
Qed.

Lemma theta_growth lam a y x : 0 < lam -> 0 < a <= y -> theta1 lam y x - theta1 lam a x <= (lam + 1) * (y - a) / a.
Proof.
  intros L AY. pose proof (Rabs_pos x) as X.
  assert (Q : 0 <= (lam + 1) * (y - a) / a) by (apply Rmult_le_pos; [nra|apply Rlt_le, Rinv_0_lt_compat; lra]).
  destruct (Rle_dec (lam + 1) (a * Rabs x)) as [C|C].
  - rewrite !theta1_clip. assert (a * Rabs x <= y * Rabs x) by nra.
    replace (clip (y * Rabs x - lam)) with 1 by clp. replace (clip (a * Rabs x - lam)) with 1 by clp. lra.
  - eapply Rle_trans; [apply theta1_lip; lra|]. apply (Rmult_le_reg_r a); [lra|].
    replace ((lam + 1) * (y - a) / a * a) with ((lam + 1) * (y - a)) by (field; lra). nra.
Qed.
Lemma sum_growth lam a y w : 0 < lam -> 0 < a <= y ->
  theta_sum lam w y - theta_sum lam w a <= INR (length w) * ((lam + 1) * (y - a) / a).
Proof.
  intros L AY. induction w as [|x w IH]; [unfold theta_sum; cbn; lra|]. rewrite !theta_sum_cons. cbn [length]. rewrite S_INR.
  pose proof (theta_growth lam a y x L AY). lra.
Qed.

Lemma inv_order lam x y : 0 < lam -> 0 < x <= y -> lam / y <= lam / x.
Proof. intros L XY. apply Rmult_le_compat_l; [lra|]. apply Rinv_le_contravar; lra. Qed.

Lemma zc_theta lam a a' x : 0 < lam -> 0 < a -> 0 < a' -> theta1 lam a x = theta1 lam a' x ->
  zc lam (lam / a) (Rabs x) = zc lam (lam / a') (Rabs x).
Proof.
  intros L A A' E. rewrite <- !out_zc by (try lra; apply Rabs_pos). rewrite !theta1_clip in E. rewrite E. reflexivity.
Qed.

Lemma zc_close lam t t' x c : Rabs (t - t') <= c -> Rabs (zc lam t x - zc lam t' x) <= c.
Proof.
  intros H. apply Rabs_le_inv in H. apply Rabs_le. destruct (Rle_dec t t') as [L|L].
  - pose proof (zc_lip lam t t' x L). pose proof (zc_mono lam t t' x L). lra.
  - pose proof (zc_lip lam t' t x ltac:(lra)). pose proof (zc_mono lam t' t x ltac:(lra)). lra.
Qed.

Definition err_const (lam : R) (d : nat) (e : R) : R := (2 + INR d * (1 + / lam)) * e.

Lemma bracket_err lam w a b e k xs xt : 0 < lam -> 0 < e -> 0 < a < b ->
  (forall x c, In x w -> c = lam \/ c = lam + 1 -> c <= a * (Rabs x + e) \/ b * (Rabs x + e) <= c) ->
  theta_sum lam w a < k < theta_sum lam w b ->
  a <= xs <= b -> theta_sum lam w a + (theta_sum lam w b - theta_sum lam w a) / (b - a) * (xs - a) = k ->
  a <= xt <= b -> theta_sum lam w xt = k ->
  forall x, In x w -> Rabs (zc lam (lam / xs) (Rabs x) - zc lam (lam / xt) (Rabs x)) <= err_const lam (length w) e.
Proof.
  intros L E AB GR KB XS LX XT SX x IX.
  assert (C0 : 2 * e <= err_const lam (length w) e).
  { unfold err_const. pose proof (pos_INR (length w)). pose proof (Rinv_0_lt_compat lam L).
    assert (0 <= INR (length w) * (1 + / lam)) by (apply Rmult_le_pos; lra). nra. }
  assert (TA : lam / xs <= lam / a) by (apply inv_order; lra). assert (TB : lam / b <= lam / xs) by (apply inv_order; lra).
  assert (TA' : lam / xt <= lam / a) by (apply inv_order; lra). assert (TB' : lam / b <= lam / xt) by (apply inv_order; lra).
  destruct (Rle_dec (b * (lam - e * a)) (a * lam)) as [SM|BG].
  { assert (lam / a - lam / b <= e).
    { apply (Rmult_le_reg_r (a * b)); [nra|]. replace ((lam / a - lam / b) * (a * b)) with (lam * b - lam * a) by (field; lra). nra. }
    apply zc_close. apply Rabs_le. lra. }
  apply Rnot_le_lt in BG.
  assert (LE : 0 < lam - e * a) by nra.
  set (a' := a * lam / (lam - e * a)).
  assert (AE : a' * (lam - e * a) = a * lam) by (unfold a'; field; lra).
  assert (A1 : a <= a') by (clearbody a'; nra).
  assert (A2 : a' < b) by (clearbody a'; nra).
  assert (TE : lam / a' = lam / a - e) by (unfold a'; field; lra).
  clearbody a'.
  assert (KF : Forall (kinkfree lam a' b) w).
  { apply Forall_forall. intros y Y. pose proof (Rabs_pos y) as Y0.
    assert (KK : forall c, c = lam \/ c = lam + 1 -> c <= a' * Rabs y \/ b * Rabs y <= c).
    { intros c Hc. destruct (GR y c Y Hc) as [g|g]; [left|right; nra].
      assert (lam <= c) by (destruct Hc; lra).
      apply (Rmult_le_reg_r (lam - e * a)); [exact LE|].
      replace (a' * Rabs y * (lam - e * a)) with (a' * (lam - e * a) * Rabs y) by ring. rewrite AE.
      assert (lam * (c - a * e) <= lam * (a * Rabs y)) by (apply Rmult_le_compat_l; lra).
      assert (e * a * lam <= e * a * c) by (apply Rmult_le_compat_l; [nra|lra]). lra. }
    split; apply KK; [left|right]; reflexivity. }
  destruct (sum_affine lam a' b w L (conj (Rlt_le_trans 0 a a' (proj1 AB) A1) A2) KF) as (m & M0 & AF & MC).
  set (Sa := theta_sum lam w a) in *. set (Sb := theta_sum lam w b) in *. set (S' := theta_sum lam w a') in *.
  set (sg := (Sb - Sa) / (b - a)) in *.
  assert (SGE : sg * (b - a) = Sb - Sa) by (unfold sg; field; lra).
  set (B := INR (length w) * ((lam + 1) * (a' - a) / a)).
  assert (SB : S' - Sa <= B) by (apply sum_growth; lra).
  assert (SM1 : Sa <= S') by (apply theta_sum_mono; lra).
  assert (SG0 : 0 <= sg) by (clearbody sg; nra).
  assert (SB2 : sg * (a' - a) <= B).
  { assert (Q : Sb - Sa <= INR (length w) * ((lam + 1) * (b - a) / a)) by (apply sum_growth; lra).
    assert (Q2 : sg <= INR (length w) * ((lam + 1) / a)).
    { apply (Rmult_le_reg_r (b - a)); [lra|]. rewrite SGE. eapply Rle_trans; [exact Q|]. right. field. lra. }
    unfold B. replace (INR (length w) * ((lam + 1) * (a' - a) / a)) with (INR (length w) * ((lam + 1) / a) * (a' - a)) by (field; lra).
    apply Rmult_le_compat_r; lra. }
  assert (BSb : Sb = S' + m * (b - a')) by (apply AF; lra).
  assert (B0 : 0 <= B) by lra.
  assert (BE : B / a' = INR (length w) * (1 + / lam) * e).
  { unfold B. assert (E3 : (a' - a) / a / a' = e / lam).
    { replace ((a' - a) / a / a') with ((lam / a - lam / a') / lam) by (field; lra). rewrite TE. field. lra. }
    transitivity (INR (length w) * (lam + 1) * ((a' - a) / a / a')); [field; lra|]. rewrite E3. field. lra. }
  clearbody B sg. 
  set (D := S' - (Sa + sg * (a' - a))).
  assert (SG1 : 0 <= sg * (a' - a)) by (apply Rmult_le_pos; lra).
  assert (DB : - B <= D <= B) by (unfold D; lra).
  assert (DY : forall y, a' <= y <= b -> - B <= theta_sum lam w y - (Sa + sg * (y - a)) <= B).
  { intros y Y. rewrite (AF y Y).
    assert (DL : (S' + m * (y - a') - (Sa + sg * (y - a))) * (b - a') = D * (b - y)).
    { unfold D. assert (Z1 : S' = Sb - m * (b - a')) by lra. assert (Z2 : Sb = Sa + sg * (b - a)) by lra. rewrite Z1, Z2. ring. }
    generalize dependent (S' + m * (y - a') - (Sa + sg * (y - a))). intros v DL. clearbody D. clear - DL DB Y A2 B0.
    assert (0 < b - a') by lra. assert (0 <= b - y <= b - a') by lra. split; nra. }
  set (X := Rmax xs a'). set (Xt := Rmax xt a').
  assert (MX : Rabs (m * (X - Xt)) <= B).
  { unfold X, Xt. unfold Rmax. destruct (Rle_dec xs a') as [C1|C1]; destruct (Rle_dec xt a') as [C2|C2].
    - rewrite Rminus_diag_eq, Rmult_0_r, Rabs_R0 by reflexivity. exact B0.
    - assert (sg * (xs - a) <= sg * (a' - a)) by (apply Rmult_le_compat_l; lra).
      pose proof (AF xt ltac:(lra)) as Q. apply Rabs_le. split; [lra|].
      assert (0 <= m * (xt - a')) by (apply Rmult_le_pos; lra). lra.
    - assert (theta_sum lam w xt <= S') by (apply theta_sum_mono; lra).
      pose proof (AF xs ltac:(lra)) as Q. pose proof (DY xs ltac:(lra)) as Q2. apply Rabs_le.
      assert (0 <= m * (xs - a')) by (apply Rmult_le_pos; lra). lra.
    - pose proof (AF xt ltac:(lra)) as Q. pose proof (AF xs ltac:(lra)) as Q1. pose proof (DY xs ltac:(lra)) as Q2. apply Rabs_le. lra. }
  assert (X1 : a' <= X <= b /\ xs <= X /\ (X = xs \/ X = a')) by (unfold X, Rmax; destruct (Rle_dec _ _); lra).
  assert (X2 : a' <= Xt <= b /\ xt <= Xt /\ (Xt = xt \/ Xt = a')) by (unfold Xt, Rmax; destruct (Rle_dec _ _); lra).
  clearbody X Xt.
  assert (E1 : Rabs (zc lam (lam / xs) (Rabs x) - zc lam (lam / X) (Rabs x)) <= e).
  { apply zc_close. assert (lam / X <= lam / xs) by (apply inv_order; lra). apply Rabs_le. split; [lra|].
    destruct X1 as (_ & _ & [->| ->]); lra. }
  assert (E2 : Rabs (zc lam (lam / Xt) (Rabs x) - zc lam (lam / xt) (Rabs x)) <= e).
  { apply zc_close. assert (lam / Xt <= lam / xt) by (apply inv_order; lra). apply Rabs_le. split; [|lra].
    destruct X2 as (_ & _ & [->| ->]); lra. }
  assert (E3 : Rabs (zc lam (lam / X) (Rabs x) - zc lam (lam / Xt) (Rabs x)) <= INR (length w) * (1 + / lam) * e).
  { destruct MC as [[-> MC]|MC].
    - assert (TT : theta1 lam X x = theta1 lam Xt x) by (rewrite (MC x IX X) by lra; rewrite (MC x IX Xt) by lra; reflexivity).
      rewrite (zc_theta lam X Xt x) by (assumption || lra). rewrite Rminus_diag_eq, Rabs_R0 by reflexivity. rewrite <- BE.
      apply Rmult_le_pos; [exact B0|apply Rlt_le, Rinv_0_lt_compat; lra].
    - apply zc_close. rewrite <- BE.
      assert (MP : 0 < m) by nra.
      apply Rabs_le_inv in MX.
      assert (DX : - (B * a') <= lam * (X - Xt) <= B * a').
      { assert (Z : forall s, 0 <= s -> m * s <= B -> lam * s <= B * a').
        { intros s s0 ms. assert (lam * s <= m * a' * s) by (apply Rmult_le_compat_r; lra).
          assert (m * s * a' <= B * a') by (apply Rmult_le_compat_r; lra). lra. }
        destruct (Rle_dec Xt X) as [o|o].
        - pose proof (Z (X - Xt) ltac:(lra) ltac:(lra)). assert (0 <= lam * (X - Xt)) by (apply Rmult_le_pos; lra).
          assert (0 <= B * a') by (apply Rmult_le_pos; lra). lra.
        - pose proof (Z (Xt - X) ltac:(lra) ltac:(lra)). assert (0 <= lam * (Xt - X)) by (apply Rmult_le_pos; lra).
          assert (0 <= B * a') by (apply Rmult_le_pos; lra). lra. }
      replace (lam / X - lam / Xt) with (lam * (Xt - X) / (X * Xt)) by (field; lra).
      assert (XX : a' * a' <= X * Xt) by (apply Rmult_le_compat; lra).
      assert (XP : 0 < X * Xt) by (apply Rmult_lt_0_compat; lra).
      assert (BB : B * a' <= B / a' * (X * Xt)).
      { replace (B * a') with (B / a' * (a' * a')) by (field; lra). apply Rmult_le_compat_l; [|exact XX].
        apply Rmult_le_pos; [exact B0|apply Rlt_le, Rinv_0_lt_compat; lra]. }
      apply Rabs_le. split; apply (Rmult_le_reg_r (X * Xt)); try exact XP;
        replace (lam * (Xt - X) / (X * Xt) * (X * Xt)) with (lam * (Xt - X)) by (field; lra); lra. }
  unfold err_const.
  replace (zc lam (lam / xs) (Rabs x) - zc lam (lam / xt) (Rabs x)) with
    ((zc lam (lam / xs) (Rabs x) - zc lam (lam / X) (Rabs x)) + (zc lam (lam / X) (Rabs x) - zc lam (lam / Xt) (Rabs x))
     + (zc lam (lam / Xt) (Rabs x) - zc lam (lam / xt) (Rabs x))) by ring.
  eapply Rle_trans; [apply Rabs_triang|]. eapply Rle_trans; [apply Rplus_le_compat_r, Rabs_triang|]. lra.
Qed.
