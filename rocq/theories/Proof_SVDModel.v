(** Lemmas connecting Model_SVD.v with the mathematics of Proof_SVD.v. *)
From Coq Require Import String.
From Verif Require Import NPReal Py IPS Model_Array Model_Transform Proof_Transform Model_Signal Model_Linear Model_SVD Spec_Prox Proof_Prox Spec_SVD Proof_SVD.
From Coq Require Import List Lia.
Import ListNotations.
Local Open Scope string_scope.
Local Open Scope R_scope.

Lemma rsum_app l l' : rsum (l ++ l')%list = rsum l + rsum l'.
Proof. unfold rsum. induction l as [|a l IH]; cbn; [|rewrite IH]; lra. Qed.
Lemma rsum_seq k f : rsum (map f (seq 0 k)) = bsum k f.
Proof. induction k as [|k IH]; [reflexivity|]. rewrite seq_S, map_app, rsum_app, IH. cbn. lra. Qed.
Lemma rsum_bsum l : rsum l = bsum (length l) (fun i => nth i l 0).
Proof.
  rewrite <- (rsum_seq (length l)). f_equal. induction l as [|a l IH]; [reflexivity|]. cbn. f_equal. rewrite <- seq_shift, map_map. exact IH.
Qed.

(** u @ diag(s) @ v *)
Lemma dot_diag s v k n : shape v = [k; n] -> length s = k ->
  exists a, dot2 (diag s) v = Ok a /\ shape a = [k; n] /\ forall l j, (l < k)%nat -> at_ a [l; j] = nth l s 0 * at_ v [l; j].
Proof.
  intros Hv Hs. unfold dot2, diag. cbn [shape]. rewrite Hs, Hv, Nat.eqb_refl. eexists. split; [reflexivity|]. split; [reflexivity|].
  intros l j Hl. cbn [at_ nth]. rewrite rsum_seq.
  rewrite (bsum_ext k _ (fun i => if Nat.eqb i l then nth i s 0 * at_ v [i; j] else 0)); [apply bsum_delta, Hl|].
  intros i _. cbn [nth]. rewrite (Nat.eqb_sym l i). destruct (Nat.eqb_spec i l) as [->|N]; ring.
Qed.
Lemma dot_any u a m k n : shape u = [m; k] -> shape a = [k; n] ->
  exists r, dot2 u a = Ok r /\ shape r = [m; n] /\ forall i j, at_ r [i; j] = bsum k (fun l => at_ u [i; l] * at_ a [l; j]).
Proof.
  intros Hu Ha. unfold dot2. rewrite Hu, Ha, Nat.eqb_refl. eexists. split; [reflexivity|]. split; [reflexivity|].
  intros i j. cbn [at_ nth]. apply rsum_seq.
Qed.
Lemma dot_usv s u v m k n : shape u = [m; k] -> shape v = [k; n] -> length s = k ->
  exists a r, dot2 (diag s) v = Ok a /\ dot2 u a = Ok r /\ shape r = [m; n] /\
    forall i j, entry r i j = lc k (fun l => nth l s 0) (fun l i => at_ u [i; l]) (fun l j => at_ v [l; j]) i j.
Proof.
  intros Hu Hv Hs. destruct (dot_diag s v k n Hv Hs) as (a & Ea & Sa & Aa). destruct (dot_any u a m k n Hu Sa) as (r & Er & Sr & Ar).
  exists a, r. repeat split; try assumption. intros i j. unfold entry, lc. rewrite Ar. apply bsum_ext. intros l Hl. rewrite Aa by exact Hl. ring.
Qed.

Lemma map2_repeat {A B C} (f : A -> B -> C) a l : map2 f (repeat a (length l)) l = map (f a) l.
Proof. induction l as [|b l IH]; [reflexivity|]. cbn. f_equal. exact IH. Qed.
Lemma thresh_scalar_hard x t : thresh x (TScalar t) "hard" = Ok (map (hard1 t) x).
Proof. rewrite (thresh_hard x _ (repeat t (length x))) by reflexivity. rewrite map2_repeat. reflexivity. Qed.
Lemma thresh_scalar_soft x t : thresh x (TScalar t) "soft" = Ok (map (soft1 t) x).
Proof. rewrite (thresh_soft x _ (repeat t (length x))) by reflexivity. rewrite map2_repeat. reflexivity. Qed.
Definition thr1 (ty : string) : R -> R -> R := if String.eqb ty "hard" then hard1 else soft1.
Lemma thresh_scalar x t ty : ty = "hard" \/ ty = "soft" -> thresh x (TScalar t) ty = Ok (map (thr1 ty t) x).
Proof. intros [-> | ->]; [apply thresh_scalar_hard|apply thresh_scalar_soft]. Qed.
Lemma thr1_0 ty t : thr1 ty t 0 = 0.
Proof.
  unfold thr1. destruct (String.eqb ty "hard"); [unfold hard1; ring|]. unfold soft1, soft_unrounded. rewrite Rmult_0_r. apply around_0.
Qed.

(** The result of svd_thresh for a given threshold, in terms of the decomposition. *)
Definition warn_nc (s_new s : list R) : list event :=
  if forallb (fun p => if Req_EM_T (fst p) (snd p) then true else false) (combine s_new s) then [WarnNoChange] else [].
Lemma svd_thresh_given svd x m n n_pc t ty : (ty = "hard" \/ ty = "soft") -> check_n_pc n_pc = true ->
  svd_result m n x (svd_u (svd x)) (svd_s (svd x)) (svd_v (svd x)) ->
  exists r, svd_thresh svd (Ndarray x) (Some (TScalar t)) n_pc ty = Ok (r, warn_nc (map (thr1 ty t) (svd_s (svd x))) (svd_s (svd x))) /\
    shape r = [m; n] /\
    forall i j, entry r i j = lc (length (svd_s (svd x))) (fun l => thr1 ty t (nth l (svd_s (svd x)) 0))
                                 (fun l i => at_ (svd_u (svd x)) [i; l]) (fun l j => at_ (svd_v (svd x)) [l; j]) i j.
Proof.
  intros Hty Hc (Sx & Su & Sv & Ls & _). set (o := svd x) in *. unfold svd_thresh. rewrite Hc. cbn [negb calculate_svd].
  rewrite Sx. cbn [length Nat.eqb bind fst snd]. fold o. rewrite (thresh_scalar _ _ _ Hty). cbn [bind].
  destruct (dot_usv (map (thr1 ty t) (svd_s o)) (svd_u o) (svd_v o) m (length (svd_s o)) n) as (a & r & Ea & Er & Sr & Ar);
    [rewrite Ls; exact Su|rewrite Ls; exact Sv|apply map_length|].
  rewrite Ea. cbn [bind]. rewrite Er. cbn [bind app]. exists r. split; [reflexivity|]. split; [exact Sr|].
  intros i j. rewrite Ar. apply bsum_ext. intros l Hl. rewrite <- (thr1_0 ty t) at 1. rewrite map_nth. reflexivity.
Qed.

Lemma shrink_prox_facts t s : 0 <= t -> 0 <= s -> 0 <= shrink t s /\ 0 <= s - shrink t s <= t /\ shrink t s * (s - shrink t s) = t * shrink t s.
Proof.
  intros Ht Hs. unfold shrink. rewrite Rabs_right by lra. destruct (Rle_dec s t); [|destruct (Rle_dec 0 s); [|lra]]; repeat split; try lra; ring.
Qed.

Lemma nuclear_prox_of_svd m n X u s v t : svd_of m n X u s v -> 0 <= t -> nuclear_prox m n t X (lc (length s) (fun l => shrink t (nth l s 0)) u v).
Proof.
  intros (Ls & Ou & Ov & Ps & Ms & E) Ht. exists (bsum (length s) (fun l => shrink t (nth l s 0))).
  assert (F : forall l, (l < length s)%nat -> 0 <= shrink t (nth l s 0) /\ 0 <= nth l s 0 - shrink t (nth l s 0) <= t /\
     shrink t (nth l s 0) * (nth l s 0 - shrink t (nth l s 0)) = t * shrink t (nth l s 0)) by (intros l Hl; apply shrink_prox_facts; [exact Ht|apply Ps, Hl]).
  split.
  - eapply nuclear_of_svd; [intros i j _ _; reflexivity|exact Ou|exact Ov|]. intros l Hl. apply F, Hl.
  - intros Z d Hd. apply (soft_prox m n X (length s) (fun l => nth l s 0)); assumption.
Qed.
Lemma nuclear_prox_ext m n t X X' P P' : mat_eq m n X X' -> mat_eq m n P P' -> nuclear_prox m n t X P -> nuclear_prox m n t X' P'.
Proof.
  intros EX EP (c & N & H). exists c. split.
  - destruct N as [U L]. split.
    + intros r (W & CW & ->). apply U. exists W. split; [exact CW|]. apply frob_ext; [|intros i j _ _; reflexivity]. intros i j Hi Hj. symmetry. apply EP; assumption.
    + intros b Hb. apply L. intros r (W & CW & ->). apply Hb. exists W. split; [exact CW|]. apply frob_ext; [exact EP|intros i j _ _; reflexivity].
  - intros Z d Hd. specialize (H Z d Hd). rewrite (dist2_ext m n P P' X X' EP EX), (dist2_ext m n Z Z P P'), (dist2_ext m n Z Z X X') in H; try exact EP; try exact EX; try (intros i j _ _; reflexivity). exact H.
Qed.

Lemma soft_close m n k u v (a b : nat -> R) e : orthonormal m k u -> orthonormal n k v -> 0 <= e -> (forall l, (l < k)%nat -> Rabs (a l - b l) <= e) ->
  dist2 m n (lc k a u v) (lc k b u v) <= INR k * (e * e).
Proof.
  intros Ou Ov He H. rewrite dist2_ON by assumption. rewrite <- bsum_const. apply bsum_le. intros l Hl. specialize (H l Hl).
  set (d := a l - b l) in *. clearbody d. unfold Rabs in H. destruct (Rcase_abs d); nra.
Qed.

(** Number of singular values kept by a hard threshold, when they come in non-increasing order. *)
Definition keepb (t s : R) : bool := if Rle_dec t s then true else false.
Definition nkept (t : R) (s : list R) : nat := length (filter (keepb t) s).

Lemma lc_rank m n k a u v : rank_le m n k (lc k a u v).
Proof. exists (fun l i => a l * u l i), v. intros i j _ _. apply bsum_ext. intros; ring. Qed.
Lemma lc_prefix k q a u v i j : (q <= k)%nat -> (forall l, (q <= l < k)%nat -> a l = 0) -> lc k a u v i j = lc q a u v i j.
Proof.
  intros Hq H. unfold lc. replace k with (q + (k - q))%nat by lia. rewrite bsum_split.
  rewrite (bsum_0 (k - q)); [lra|]. intros l Hl. rewrite H by lia. ring.
Qed.

(** The kept values form a prefix. *)
Lemma kept_prefix t s : (forall l l', (l <= l')%nat -> (l' < length s)%nat -> nth l' s 0 <= nth l s 0) ->
  (nkept t s <= length s)%nat /\ (forall l, (l < nkept t s)%nat -> t <= nth l s 0) /\ (forall l, (nkept t s <= l < length s)%nat -> nth l s 0 < t).
Proof.
  unfold nkept. induction s as [|a s IH]; intros M; [cbn; repeat split; intros; lia|].
  assert (M' : forall l l', (l <= l')%nat -> (l' < length s)%nat -> nth l' s 0 <= nth l s 0).
  { intros l l' H H'. apply (M (S l) (S l')); cbn; lia. }
  specialize (IH M').
  assert (F : filter (keepb t) (a :: s) = if Rle_dec t a then a :: filter (keepb t) s else filter (keepb t) s).
  { cbn [filter]. unfold keepb at 1. destruct (Rle_dec t a); reflexivity. }
  rewrite F. clear F. destruct (Rle_dec t a) as [H|H].
  - destruct IH as (I1 & I2 & I3). cbn [length]. repeat split; [lia| |].
    + intros [|l] Hl; [exact H|]. apply I2. lia.
    + intros [|l] Hl; [lia|]. apply I3. lia.
  - assert (Z : filter (keepb t) s = []).
    { destruct (filter (keepb t) s) as [|b r] eqn:E; [reflexivity|]. assert (In b (filter (keepb t) s)) as I by (rewrite E; left; reflexivity).
      apply filter_In in I. destruct I as [I K]. unfold keepb in K. destruct (Rle_dec t b); [|discriminate].
      destruct (In_nth s b 0 I) as (p & Hp & Ep). specialize (M 0%nat (S p) ltac:(lia)). cbn in M. specialize (M ltac:(lia)). rewrite Ep in M. lra. }
    rewrite Z. cbn [length]. repeat split; [lia|intros; lia|]. intros l Hl. specialize (M 0%nat l ltac:(lia)). cbn [length] in *. specialize (M ltac:(lia)). change (nth 0 (a :: s) 0) with a in M. lra.
Qed.

Lemma hard1_sv t s : 0 <= s -> hard1 t s = if Rle_dec t s then s else 0.
Proof.
  intros Hs. destruct (Rle_dec t s) as [H|H].
  - apply (hard1_spec t s). rewrite Rabs_right by lra. lra.
  - apply (hard1_spec t s). rewrite Rabs_right by lra. lra.
Qed.

(** Keeping the values above t, and possibly some equal to t, is optimal. *)
Lemma rank_prox_of_svd m n X u s v t q : svd_of m n X u s v -> 0 <= t -> (q <= length s)%nat ->
  (forall l, (l < q)%nat -> t <= nth l s 0) -> (forall l, (q <= l < length s)%nat -> nth l s 0 <= t) ->
  rank_prox m n t X (lc q (fun l => nth l s 0) u v) q.
Proof.
  intros (Ls & Ou & Ov & Ps & Ms & E) Ht Hq K D. split; [apply lc_rank|]. intros B r HB.
  pose proof (hard_bound m n X (length s) (fun l => nth l s 0) u v r B t E Ou Ov HB) as H.
  eapply Rle_trans; [|exact H]. clear H.
  set (a := fun l => if Nat.ltb l q then nth l s 0 else 0).
  rewrite (dist2_ext m n X (lc (length s) (fun l => nth l s 0) u v) (lc q (fun l => nth l s 0) u v) (lc (length s) a u v) E).
  - rewrite dist2_ON by assumption. replace (length s) with (q + (length s - q))%nat at 1 2 by lia. rewrite !bsum_split.
    rewrite (bsum_0 q), (Rplus_0_l).
    + rewrite <- (Rmult_comm (INR q)), <- bsum_const, Rplus_comm. apply Rplus_le_compat; apply bsum_le; intros l Hl.
      * specialize (K l Hl). apply Rmin_glb; nra.
      * unfold a. destruct (Nat.ltb_spec (q + l) q) as [L|L]; [lia|]. specialize (D (q + l)%nat ltac:(lia)). specialize (Ps (q + l)%nat ltac:(lia)). apply Rmin_glb; nra.
    + intros l Hl. unfold a. destruct (Nat.ltb_spec l q); [ring|lia].
  - intros i j _ _. rewrite (lc_prefix (length s) q a); [|exact Hq|].
    + apply bsum_ext. intros l Hl. unfold a. destruct (Nat.ltb_spec l q); [reflexivity|lia].
    + intros l Hl. unfold a. destruct (Nat.ltb_spec l q); [lia|reflexivity].
Qed.
Lemma rank_prox_ext m n t X X' P P' q : mat_eq m n X X' -> mat_eq m n P P' -> rank_prox m n t X P q -> rank_prox m n t X' P' q.
Proof.
  intros EX EP ((e & d & R) & H). split.
  - exists e, d. intros i j Hi Hj. rewrite <- EP by assumption. apply R; assumption.
  - intros B r HB. specialize (H B r HB). rewrite (dist2_ext m n X X' P P' EX EP), (dist2_ext m n X X' B B EX) in H by (intros i j _ _; reflexivity). exact H.
Qed.
Lemma svd_result_entry m n x u s v : svd_result m n x u s v ->
  mat_eq m n (entry x) (lc (length s) (fun l => nth l s 0) (fun l i => at_ u [i; l]) (fun l j => at_ v [l; j])).
Proof. intros (_ & _ & _ & _ & _ & _ & _ & _ & E). exact E. Qed.
