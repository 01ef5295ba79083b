(** Lemmas about find_n_pc, svd_thresh_coef_fast and svd_thresh_coef. *)
From Coq Require Import String.
From Verif Require Import NPReal Py IPS Model_Array Proof_Array Model_Transform Proof_Transform Model_Signal Model_Linear Model_SVD Spec_Prox Proof_Cost Proof_Prox Spec_SVD Proof_SVD Proof_SVDModel.
From Coq Require Import List Lia.
Import ListNotations.
Local Open Scope string_scope.
Local Open Scope R_scope.

(** * Uniqueness of the singular values *)
Lemma lc_trunc_dist m n X u s v r : svd_of m n X u s v -> (r <= length s)%nat ->
  dist2 m n X (lc r (fun l => nth l s 0) u v) = bsum (length s - r) (fun l => nth (r + l) s 0 * nth (r + l) s 0).
Proof.
  intros (Ls & Ou & Ov & Ps & Ms & E) Hr.
  set (a := fun l => if Nat.ltb l r then nth l s 0 else 0).
  rewrite (dist2_ext m n X (lc (length s) (fun l => nth l s 0) u v) _ (lc (length s) a u v) E).
  - rewrite dist2_ON by assumption. replace (length s) with (r + (length s - r))%nat at 1 by lia. rewrite bsum_split, (bsum_0 r), Rplus_0_l.
    + apply bsum_ext. intros l Hl. unfold a. destruct (Nat.ltb_spec (r + l) r); [lia|ring].
    + intros l Hl. unfold a. destruct (Nat.ltb_spec l r); [ring|lia].
  - intros i j _ _. rewrite (lc_prefix (length s) r a); [|exact Hr|].
    + apply bsum_ext. intros l Hl. unfold a. destruct (Nat.ltb_spec l r); [reflexivity|lia].
    + intros l Hl. unfold a. destruct (Nat.ltb_spec l r); [lia|reflexivity].
Qed.
Lemma tail_le m n X u s v u' s' v' r : svd_of m n X u s v -> svd_of m n X u' s' v' -> (r <= length s)%nat ->
  bsum (length s - r) (fun l => nth (r + l) s 0 * nth (r + l) s 0) <= bsum (length s - r) (fun l => nth (r + l) s' 0 * nth (r + l) s' 0).
Proof.
  intros H H' Hr. assert (L : length s = length s') by (destruct H as [-> _], H' as [-> _]; reflexivity).
  destruct (Nat.eq_dec r (length s)) as [->|N]; [rewrite Nat.sub_diag; cbn; lra|].
  replace (length s - r)%nat with (length s' - r)%nat at 2 by lia. rewrite <- (lc_trunc_dist m n X u' s' v' r H') by lia.
  destruct H as (Ls & Ou & Ov & Ps & Ms & E). apply (eckart_young m n X (length s) (fun l => nth l s 0) u v r); try assumption; [apply lc_rank|lia].
Qed.
Lemma singular_values_unique m n X u s v u' s' v' : svd_of m n X u s v -> svd_of m n X u' s' v' -> s = s'.
Proof.
  intros H H'. assert (L : length s = length s') by (destruct H as [-> _], H' as [-> _]; reflexivity).
  assert (T : forall r, (r <= length s)%nat ->
     bsum (length s - r) (fun l => nth (r + l) s 0 * nth (r + l) s 0) = bsum (length s - r) (fun l => nth (r + l) s' 0 * nth (r + l) s' 0)).
  { intros r Hr. apply Rle_antisym; [apply (tail_le m n X u s v u' s' v'); assumption|].
    pose proof (tail_le m n X u' s' v' u s v r H' H) as Q. rewrite <- L in Q. apply Q. exact Hr. }
  assert (Sh : forall (f : nat -> R) r k, bsum (S k) (fun l => f (r + l)%nat) = f r + bsum k (fun l => f (S r + l)%nat)).
  { intros f r k. replace (S k) with (1 + k)%nat by lia. rewrite bsum_split. cbn [bsum]. rewrite Rplus_0_l, Nat.add_0_r. f_equal.
    apply bsum_ext. intros i _. f_equal. lia. }
  apply (nth_ext s s' 0 0 L). intros r Hr.
  pose proof (T r ltac:(lia)) as T1. pose proof (T (S r) ltac:(lia)) as T2.
  replace (length s - r)%nat with (S (length s - S r)) in T1 by lia.
  rewrite (Sh (fun l => nth l s 0 * nth l s 0)), (Sh (fun l => nth l s' 0 * nth l s' 0)) in T1. rewrite T2 in T1.
  destruct H as (_ & _ & _ & Ps & _). destruct H' as (_ & _ & _ & Ps' & _). specialize (Ps r Hr). specialize (Ps' r ltac:(lia)). nra.
Qed.

(** * svd_thresh_coef_fast *)
Lemma bsum_first k f : bsum (S k) f = f 0%nat + bsum k (fun l => f (S l)).
Proof. change (S k) with (1 + k)%nat. rewrite bsum_split. cbn [bsum]. rewrite Rplus_0_l. reflexivity. Qed.
Lemma bsum_rev k f : bsum k f = bsum k (fun l => f (k - 1 - l)%nat).
Proof.
  induction k as [|k IH]; [reflexivity|]. rewrite (bsum_first k (fun l => f (S k - 1 - l)%nat)). cbn [bsum]. rewrite IH, Rplus_comm. f_equal; [f_equal; lia|].
  apply bsum_ext. intros l Hl. f_equal. lia.
Qed.

Lemma fast_loop_result svds x m n t extra : shape x = [m; n] -> forall fuel nv o,
  fast_loop fuel svds x (Z.of_nat (Nat.min m n)) t nv extra = Some (Ok o) ->
  exists k, (0 < k < Nat.min m n)%nat /\ o = svds x k /\ (nth 0 (svd_s o) 0 <= t \/ k = (Nat.min m n - 1)%nat).
Proof.
  intros Sx. induction fuel as [|fuel IH]; intros nv o; [discriminate|]. cbn [fast_loop]. unfold svds_checked. rewrite Sx.
  destruct (_ && _)%bool eqn:E; [|discriminate]. apply andb_prop in E. destruct E as [E1 E2]. apply Z.ltb_lt in E1, E2.
  destruct (_ || _)%bool eqn:Q.
  - intros H. injection H as <-. exists (Z.to_nat nv). split; [lia|]. split; [reflexivity|].
    apply Bool.orb_prop in Q. destruct Q as [Q|Q].
    + left. destruct (Rle_dec _ t) as [L|L]; [exact L|discriminate].
    + right. apply Z.eqb_eq in Q. lia.
  - apply IH.
Qed.

Lemma soft1_zero_mono t s s' : 0 <= t -> 0 <= s <= s' -> soft1 t s' = 0 -> soft1 t s = 0.
Proof.
  intros Ht [H0 H] Z. destruct (Rlt_dec (Rabs s) eps64) as [L|L]; [apply soft1_tiny; assumption|].
  pose proof eps64_pos as Ep. rewrite Rabs_right in L by lra. unfold soft1 in *. rewrite around_zero in *.
  rewrite soft_unrounded_shrink in * by (try exact Ht; right; rewrite Rabs_right; lra).
  revert Z. unfold shrink. rewrite !(Rabs_right s), !(Rabs_right s') by lra.
  destruct (Rle_dec s t), (Rle_dec s' t), (Rle_dec 0 s), (Rle_dec 0 s'); intros Z; rewrite ?Rabs_R0 in *; try lra.
  rewrite Rabs_right in * by lra. lra.
Qed.
Lemma hard1_zero_mono t s s' : 0 <= t -> 0 <= s <= s' -> hard1 t s' = 0 -> hard1 t s = 0.
Proof.
  intros Ht [H0 H]. rewrite !hard1_sv by lra. destruct (Rle_dec t s), (Rle_dec t s'); intros; lra.
Qed.
Lemma thr1_zero_mono ty t s s' : 0 <= t -> 0 <= s <= s' -> thr1 ty t s' = 0 -> thr1 ty t s = 0.
Proof. unfold thr1. destruct (String.eqb ty "hard"); [apply hard1_zero_mono|apply soft1_zero_mono]. Qed.

(** Non-zero entries of a list in which zeros come first. *)
Lemma count_suffix s : (forall l l', (l <= l')%nat -> (l' < length s)%nat -> nth l' s 0 = 0 -> nth l s 0 = 0) ->
  (count_nonzero s <= length s)%nat /\ (forall l, (l < length s - count_nonzero s)%nat -> nth l s 0 = 0) /\
  (forall l, (length s - count_nonzero s <= l < length s)%nat -> nth l s 0 <> 0).
Proof.
  unfold count_nonzero. induction s as [|a s IH]; intros M; [cbn; repeat split; intros; lia|].
  assert (M' : forall l l', (l <= l')%nat -> (l' < length s)%nat -> nth l' s 0 = 0 -> nth l s 0 = 0).
  { intros l l' H H'. apply (M (S l) (S l')); cbn; lia. }
  specialize (IH M'). destruct IH as (I1 & I2 & I3). cbn [filter]. destruct (Req_EM_T a 0) as [H|H].
  - cbn [length]. repeat split; [lia| |].
    + intros [|l] Hl; [exact H|]. cbn [nth]. apply I2. lia.
    + intros [|l] Hl; [lia|]. cbn [nth]. apply I3. lia.
  - assert (NZ : forall l, (l < length s)%nat -> nth l s 0 <> 0).
    { intros l Hl E. apply H. apply (M 0%nat (S l)); cbn; [lia|lia|exact E]. }
    assert (F : filter (fun x => if Req_EM_T x 0 then false else true) s = s).
    { clear -NZ. induction s as [|b s IH]; [reflexivity|]. cbn [filter]. destruct (Req_EM_T b 0) as [E|E].
      - exfalso. apply (NZ 0%nat); [cbn; lia|exact E].
      - f_equal. apply IH. intros l Hl. apply (NZ (S l)). cbn. lia. }
    rewrite F. cbn [length]. repeat split; [lia|intros; lia|]. intros [|l] Hl; [exact H|]. cbn [nth]. apply NZ. lia.
Qed.

Lemma fast_finish_spec m n k x o u0 s0 v0 t ty : (ty = "hard" \/ ty = "soft") -> 0 <= t -> (0 < k < Nat.min m n)%nat ->
  svds_result m n k x (svd_u o) (svd_s o) (svd_v o) u0 s0 v0 ->
  exists r q, fast_finish o t ty = Ok (r, q) /\ shape r = [m; n] /\ (q <= k)%nat /\
    (forall l, (l < q)%nat -> thr1 ty t (nth l s0 0) <> 0) /\ (forall l, (q <= l < k)%nat -> thr1 ty t (nth l s0 0) = 0) /\
    forall i j, entry r i j = lc q (fun l => thr1 ty t (nth l s0 0)) u0 v0 i j.
Proof.
  intros Hty Ht Hk (Sx & Su & Sv & (Ls & Ou & Ov & Ps & Ms & E) & Lk & A). unfold fast_finish. rewrite (thresh_scalar _ _ _ Hty). cbn [bind].
  set (sn := map (thr1 ty t) (svd_s o)).
  assert (Ln : length sn = k) by (unfold sn; rewrite map_length; exact Lk).
  assert (N : forall l, (l < k)%nat -> nth l sn 0 = thr1 ty t (nth (k - 1 - l) s0 0)).
  { intros l Hl. unfold sn. rewrite <- (thr1_0 ty t) at 1. rewrite map_nth. f_equal. apply (A l Hl). }
  destruct (count_suffix sn) as (C1 & C2 & C3).
  { intros l l' H H' Z. rewrite Ln in H'. rewrite N in * by lia. revert Z. apply thr1_zero_mono; [exact Ht|]. split; [apply Ps; lia|apply Ms; lia]. }
  set (q := count_nonzero sn) in *. rewrite Ln in *. rewrite Su, Sv.
  set (start := if Nat.eqb q 0 then 0%nat else (k - q)%nat).
  set (U := mk_nda [m; (k - start)%nat] _). set (V := mk_nda [(k - start)%nat; n] _).
  destruct (dot_any U V m (k - start)%nat n eq_refl eq_refl) as (r & Er & Sr & Ar). rewrite Er. cbn [bind].
  exists r, q. split; [reflexivity|]. split; [exact Sr|]. split; [lia|]. split; [|split].
  - intros l Hl. specialize (C3 (k - 1 - l)%nat ltac:(lia)). rewrite N in C3 by lia. replace (k - 1 - (k - 1 - l))%nat with l in C3 by lia. exact C3.
  - intros l Hl. specialize (C2 (k - 1 - l)%nat ltac:(lia)). rewrite N in C2 by lia. replace (k - 1 - (k - 1 - l))%nat with l in C2 by lia. exact C2.
  - intros i j. unfold entry. rewrite Ar. unfold U, V. cbn [at_ nth].
    assert (Hstart : (start <= k)%nat) by (unfold start; destruct (Nat.eqb q 0); lia).
    rewrite (bsum_ext _ _ (fun l => nth (start + l) sn 0 * u0 (k - 1 - (start + l))%nat i * v0 (k - 1 - (start + l))%nat j)).
    2:{ intros l Hl. destruct (A (start + l)%nat ltac:(lia)) as (_ & Au & Av). rewrite Au, Av. ring. }
    unfold lc. unfold start. destruct (Nat.eqb_spec q 0) as [Z|Z].
    + rewrite Z. cbn [bsum]. apply bsum_0. intros l Hl. rewrite C2 by lia. ring.
    + replace (k - (k - q))%nat with q by lia. rewrite (bsum_rev q). apply bsum_ext. intros l Hl.
      rewrite N by lia. replace (k - 1 - (k - q + (q - 1 - l)))%nat with l by lia. reflexivity.
Qed.

(** * find_n_pc *)
Lemma sumn_bsum n f : sumn n f = bsum n f.
Proof. induction n as [|n IH]; [reflexivity|]. cbn. rewrite IH. lra. Qed.

Lemma auto_conv p e : (0 < p)%nat -> exists c,
  convolve (mk_nda [p; p] (fun idx => e (nth 0 idx 0%nat) (nth 1 idx 0%nat)))
           (mk_nda [p; p] (fun idx => e (p - 1 - nth 0 idx 0)%nat (p - 1 - nth 1 idx 0)%nat)) = Ok c /\
  forall i j, (i < p)%nat -> (j < p)%nat -> at_ c [i; j] = autocorr p e (Z.of_nat (p / 2) - Z.of_nat i) (Z.of_nat (p / 2) - Z.of_nat j).
Proof.
  intros Hp. unfold convolve. cbn [shape]. destruct (Nat.eqb_spec p 0); [lia|]. cbn [orb]. eexists. split; [reflexivity|].
  intros i j Hi Hj. cbn [at_ nth]. rewrite sumn_bsum. unfold autocorr. apply bsum_ext. intros a Ha. rewrite sumn_bsum. apply bsum_ext. intros b Hb.
  f_equal. unfold kz, ext. cbn [at_ nth].
  assert (Hh : (Z.of_nat (p / 2) + (Z.of_nat p - 1) / 2 = Z.of_nat p - 1)%Z).
  { rewrite Nat2Z.inj_div. pose proof (Z.div_mod (Z.of_nat p) 2 ltac:(lia)). pose proof (Z.mod_pos_bound (Z.of_nat p) 2 ltac:(lia)).
    pose proof (Z.div_mod (Z.of_nat p - 1) 2 ltac:(lia)). pose proof (Z.mod_pos_bound (Z.of_nat p - 1) 2 ltac:(lia)).
    change (Z.of_nat 2) with 2%Z. lia. }
  set (g := ((Z.of_nat p - 1) / 2)%Z) in *. set (h := Z.of_nat (p / 2)) in *. clearbody g h.
  set (w := andb (andb (andb (0 <=? Z.of_nat i + g - Z.of_nat a)%Z _) _) _). set (w' := andb (andb (andb (0 <=? Z.of_nat a + (h - Z.of_nat i))%Z _) _) _).
  assert (Ew : w = w').
  { unfold w, w'. apply Bool.eq_true_iff_eq. rewrite !Bool.andb_true_iff, !Z.leb_le, !Z.ltb_lt. lia. }
  rewrite Ew. destruct w' eqn:W; [|reflexivity]. unfold w in Ew.
  rewrite !Bool.andb_true_iff, !Z.leb_le, !Z.ltb_lt in Ew. f_equal; lia.
Qed.
Lemma autocorr_peak p e : autocorr p e 0 0 = bsum p (fun i => bsum p (fun j => e i j * e i j)).
Proof.
  unfold autocorr. apply bsum_ext. intros i Hi. apply bsum_ext. intros j Hj. f_equal. unfold ext. rewrite !Z.add_0_r, !Nat2Z.id.
  destruct (andb _ _) eqn:E; [reflexivity|]. exfalso. apply Bool.not_true_iff_false in E. apply E. rewrite !Bool.andb_true_iff, !Z.leb_le, !Z.ltb_lt. lia.
Qed.

Lemma filter_map_length {A B} (f : A -> B) (P : B -> bool) l : length (filter P (map f l)) = length (filter (fun a => P (f a)) l).
Proof. induction l as [|a l IH]; [reflexivity|]. cbn. destruct (P (f a)); cbn; rewrite IH; reflexivity. Qed.

Definition spreadb (p : nat) (factor : R) (e : nat -> nat -> R) : bool :=
  if Rle_dec ((bsum p (fun i => bsum p (fun j => e i j * e i j))) ^ 2)
     (factor * bsum p (fun i => bsum p (fun j => autocorr p e (Z.of_nat (p / 2) - Z.of_nat i) (Z.of_nat (p / 2) - Z.of_nat j) ^ 2))) then true else false.
Lemma mapM_forall2 {A B} (f : A -> res B) (Q : A -> B -> Prop) l : (forall a, In a l -> exists b, f a = Ok b /\ Q a b) -> exists bs, mapM f l = Ok bs /\ Forall2 Q l bs.
Proof.
  induction l as [|a l IH]; intros H; [exists []; split; [reflexivity|constructor]|].
  destruct (H a (or_introl eq_refl)) as (b & E & q). destruct IH as (bs & Es & qs); [intros; apply H; right; assumption|].
  exists (b :: bs). cbn. rewrite E. cbn. rewrite Es. split; [reflexivity|constructor; assumption].
Qed.
Lemma find_n_pc_spec u p k factor : shape u = [(p * p)%nat; k] -> (0 < p)%nat ->
  find_n_pc u factor = Ok (length (filter (fun l => spreadb p factor (eigenimage p u l)) (seq 0 k))).
Proof.
  intros Su Hp. unfold find_n_pc. rewrite Su. cbv zeta. rewrite Nat.sqrt_square, Nat.eqb_refl. cbn [negb].
  destruct (mapM_forall2 (fun l : nat =>
      let e := mk_nda [p; p] (fun idx => at_ u [nth 0 idx 0 * p + nth 1 idx 0; l]%nat) in
      convolve e (mk_nda [p; p] (fun idx => at_ e [p - 1 - nth 0 idx 0; p - 1 - nth 1 idx 0]%nat)))
     (fun l c => forall i j, (i < p)%nat -> (j < p)%nat -> at_ c [i; j] = autocorr p (eigenimage p u l) (Z.of_nat (p / 2) - Z.of_nat i) (Z.of_nat (p / 2) - Z.of_nat j))
     (seq 0 k)) as (bs & Eb & Fb).
  { intros l _. apply (auto_conv p (eigenimage p u l) Hp). }
  cbv zeta in Eb. rewrite Eb. cbn [bind]. f_equal. clear Eb. revert Fb. generalize (seq 0 k) as ls.
  induction 1 as [|l c ls cs Hc F IH]; [reflexivity|]. cbn [filter].
  assert (D : (p / 2 < p)%nat) by (apply Nat.div_lt; lia).
  assert (E1 : at_ c [(p / 2)%nat; (p / 2)%nat] = bsum p (fun i => bsum p (fun j => eigenimage p u l i j * eigenimage p u l i j))).
  { rewrite Hc by assumption. rewrite Z.sub_diag. apply autocorr_peak. }
  assert (E2 : sumn p (fun i => sumn p (fun j => at_ c [i; j] ^ 2)) = bsum p (fun i => bsum p (fun j => autocorr p (eigenimage p u l) (Z.of_nat (p / 2) - Z.of_nat i) (Z.of_nat (p / 2) - Z.of_nat j) ^ 2))).
  { rewrite sumn_bsum. apply bsum_ext. intros i Hi. rewrite sumn_bsum. apply bsum_ext. intros j Hj. rewrite Hc by assumption. reflexivity. }
  rewrite E1, E2. unfold spreadb at 1. destruct (Rle_dec _ _); cbn [length]; rewrite IH; reflexivity.
Qed.

Lemma spreadb_true p f e : spreadb p f e = true <-> spread_out p f e.
Proof. unfold spreadb, spread_out. destruct (Rle_dec _ _); split; intros; try assumption; try reflexivity; try discriminate; contradiction. Qed.
Lemma energy_nonneg p (g : nat -> nat -> R) : 0 <= bsum p (fun i => bsum p (fun j => g i j ^ 2)).
Proof. apply bsum_nonneg. intros. apply bsum_nonneg. intros. apply pow2_ge_0. Qed.
Lemma spread_mono p f f' e : f <= f' -> spread_out p f e -> spread_out p f' e.
Proof.
  unfold spread_out. intros H Q. eapply Rle_trans; [exact Q|]. apply Rmult_le_compat_r; [apply energy_nonneg|exact H].
Qed.
Lemma bsum_term n f j : (forall i, (i < n)%nat -> 0 <= f i) -> (j < n)%nat -> f j <= bsum n f.
Proof.
  intros P Hj. rewrite <- (bsum_delta n j f Hj). apply bsum_le. intros i Hi. destruct (Nat.eqb i j); [lra|apply P, Hi].
Qed.
Lemma spread_one p e : (0 < p)%nat -> spread_out p 1 e.
Proof.
  intros Hp. unfold spread_out. rewrite Rmult_1_l. rewrite <- autocorr_peak.
  assert (D : (p / 2 < p)%nat) by (apply Nat.div_lt; lia).
  set (g := fun i j => autocorr p e (Z.of_nat (p / 2) - Z.of_nat i) (Z.of_nat (p / 2) - Z.of_nat j) ^ 2).
  replace (autocorr p e 0 0 ^ 2) with (g (p / 2)%nat (p / 2)%nat) by (unfold g; rewrite Z.sub_diag; reflexivity).
  apply Rle_trans with (bsum p (fun j => g (p / 2)%nat j)).
  - apply (bsum_term p (fun j => g (p / 2)%nat j)); [intros; apply pow2_ge_0|exact D].
  - apply (bsum_term p (fun i => bsum p (fun j => g i j))); [|exact D]. intros. apply bsum_nonneg. intros. apply pow2_ge_0.
Qed.
Lemma spread_sign p f e e' : (forall i j, (i < p)%nat -> (j < p)%nat -> e' i j = - e i j) -> spread_out p f e -> spread_out p f e'.
Proof.
  intros H. unfold spread_out.
  rewrite (bsum_ext p (fun i => bsum p (fun j => e' i j * e' i j)) (fun i => bsum p (fun j => e i j * e i j))).
  2:{ intros i Hi. apply bsum_ext. intros j Hj. rewrite H by assumption. ring. }
  assert (A : forall a b, autocorr p e' a b = autocorr p e a b).
  { intros a b. unfold autocorr. apply bsum_ext. intros i Hi. apply bsum_ext. intros j Hj. rewrite H by assumption. unfold ext.
    destruct (andb _ _) eqn:E; [|ring]. rewrite !Bool.andb_true_iff, !Z.leb_le, !Z.ltb_lt in E. rewrite H by lia. ring. }
  rewrite (bsum_ext p (fun i => bsum p (fun j => autocorr p e' _ _ ^ 2)) (fun i => bsum p (fun j => autocorr p e (Z.of_nat (p / 2) - Z.of_nat i) (Z.of_nat (p / 2) - Z.of_nat j) ^ 2))); [auto|].
  intros i Hi. apply bsum_ext. intros j Hj. rewrite A. reflexivity.
Qed.
