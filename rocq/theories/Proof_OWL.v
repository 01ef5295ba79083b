(** OrderedWeightedL1Norm: cost and op. *)
From Coq Require Import Sorted Permutation String.
From Verif Require Import NPReal Py IPS Model_Signal Model_Prox Spec_Prox Proof_Prox.
From Coq Require Import List Lia.
Import ListNotations.
Local Open Scope R_scope.

Definition ge (a b : R) : Prop := b <= a.

Lemma ge_trans : Relations_1.Transitive ge.
Proof. intros a b c. unfold ge. lra. Qed.

Lemma desc_strong l : Sorted ge l -> StronglySorted ge l.
Proof. apply Sorted_StronglySorted. intros a b c. unfold ge; lra. Qed.

(** Sorted arrangements are unique. *)
Lemma desc_unique l m : Sorted ge l -> Sorted ge m -> Permutation l m -> l = m.
Proof.
  intros Sl. apply desc_strong in Sl. revert m. induction Sl as [|a l Sl IH Fa]; intros m Sm P.
  - apply Permutation_nil in P. congruence.
  - apply desc_strong in Sm. destruct Sm as [|b m Sm Fb]; [apply Permutation_sym, Permutation_nil in P; discriminate|].
    assert (E : a = b).
    { rewrite Forall_forall in Fa, Fb.
      assert (Ia : In a (b :: m)) by (eapply Permutation_in; [exact P|left; reflexivity]).
      assert (Ib : In b (a :: l)) by (eapply Permutation_in; [exact (Permutation_sym P)|left; reflexivity]).
      destruct Ia as [->|Ia]; [reflexivity|]. destruct Ib as [->|Ib]; [reflexivity|].
      specialize (Fa _ Ib). specialize (Fb _ Ia). unfold ge in *. lra. }
    subst b. f_equal. apply IH; [apply StronglySorted_Sorted; exact Sm|]. apply Permutation_cons_inv in P. exact P.
Qed.

(** Insertion into a decreasing list. *)
Fixpoint ins (a : R) (l : list R) : list R :=
  match l with
  | [] => [a]
  | b :: l' => if Rle_dec b a then a :: l else b :: ins a l'
  end.
Definition sortd (l : list R) : list R := fold_right ins [] l.

Lemma ins_perm a l : Permutation (ins a l) (a :: l).
Proof.
  induction l as [|b l IH]; cbn; [reflexivity|]. destruct (Rle_dec b a); [reflexivity|]. rewrite IH. apply perm_swap.
Qed.
Lemma sortd_perm l : Permutation (sortd l) l.
Proof. induction l as [|a l IH]; cbn; [reflexivity|]. rewrite ins_perm. constructor. exact IH. Qed.
Lemma ins_sorted a l : Sorted ge l -> Sorted ge (ins a l).
Proof.
  induction l as [|b l IH]; intros S; cbn; [repeat constructor|].
  destruct (Rle_dec b a) as [H|H].
  - constructor; [exact S|constructor; exact H].
  - inversion S as [|? ? S1 S2]; subst. constructor; [apply IH; exact S1|].
    destruct l as [|c l]; cbn; [constructor; unfold ge; lra|]. inversion S2; subst.
    destruct (Rle_dec c a); constructor; unfold ge in *; lra.
Qed.
Lemma sortd_sorted l : Sorted ge (sortd l).
Proof. induction l as [|a l IH]; cbn; [constructor|]. apply ins_sorted. exact IH. Qed.
Lemma sortd_length l : length (sortd l) = length l.
Proof. apply Permutation_length, sortd_perm. Qed.

Lemma ins_head a s : Sorted ge (a :: s) -> ins a s = a :: s.
Proof.
  intros S. destruct s as [|b s]; [reflexivity|]. cbn. inversion S as [|? ? ? H]; subst. inversion H; subst.
  destruct (Rle_dec b a); [reflexivity|]. unfold ge in *. lra.
Qed.

(** Inserting a pair into two sorted lists gains at least the product. *)
Lemma ins_gain a b s t : length s = length t -> Sorted ge s -> Sorted ge t ->
  a * b + sum2 Rmult s t <= sum2 Rmult (ins a s) (ins b t).
Proof.
  revert a b t. induction s as [|s1 s IH]; intros a b [|t1 t] L Ss St; cbn in L; try discriminate; [cbn; lra|].
  inversion Ss as [|? ? Ss' _]; inversion St as [|? ? St' _]; subst. apply eq_add_S in L.
  cbn [ins]. destruct (Rle_dec s1 a) as [Ha|Ha], (Rle_dec t1 b) as [Hb|Hb]; cbn [sum2].
  - lra.
  - pose proof (IH s1 b t L Ss' St') as G. rewrite (ins_head s1 s Ss) in G. cbn [sum2] in G.
    assert (0 <= (a - s1) * (t1 - b)) by (apply Rmult_le_pos; lra). cbn [sum2]. nra.
  - pose proof (IH a t1 t L Ss' St') as G. rewrite (ins_head t1 t St) in G. cbn [sum2] in G.
    assert (0 <= (s1 - a) * (b - t1)) by (apply Rmult_le_pos; lra). cbn [sum2]. nra.
  - pose proof (IH a b t L Ss' St') as G. lra.
Qed.

Lemma rearrangement l m : length l = length m -> sum2 Rmult l m <= sum2 Rmult (sortd l) (sortd m).
Proof.
  revert m. induction l as [|a l IH]; intros [|b m] L; cbn in L; try discriminate; [cbn; lra|].
  apply eq_add_S in L. specialize (IH m L). cbn [sortd fold_right sum2]. fold (sortd l) (sortd m).
  pose proof (ins_gain a b (sortd l) (sortd m)) as G. rewrite !sortd_length in G.
  specialize (G L (sortd_sorted l) (sortd_sorted m)). lra.
Qed.

(** * Cost *)
Lemma owl_cost_pairs_ascending w x :
  exists s, Permutation s (map Rabs x) /\ Sorted Rle s /\ owl_cost w x = sum2 Rmult w s.
Proof.
  exists (npsort (rev (map Rabs x))). split; [|split].
  - rewrite npsort_perm. symmetry. apply Permutation_rev.
  - apply npsort_sorted.
  - unfold owl_cost. apply rsum_map2.
Qed.

Lemma nonincreasing_b_sorted w : nonincreasing_b w = true -> Sorted ge w.
Proof.
  induction w as [|a w IH]; intros E; [constructor|]. destruct w as [|b w]; [repeat constructor|].
  cbn in E. destruct (Rle_dec b a) as [H|]; [|discriminate]. constructor; [apply IH; exact E|constructor; exact H].
Qed.

Lemma owl_init_ok w w' : owl_init w = Ok w' -> w' = w /\ Sorted ge w /\ nonneg w /\ (2 <= length w)%nat.
Proof.
  unfold owl_init. destruct w as [|a [|b w]]; try discriminate.
  destruct (nonincreasing_b (a :: b :: w)) eqn:N; [|discriminate].
  destruct (forallb _ _) eqn:F; [|discriminate]. intros E; inversion E; subst.
  split; [reflexivity|]. split; [apply nonincreasing_b_sorted; exact N|]. split; [|cbn; lia].
  rewrite forallb_forall in F. unfold nonneg. apply Forall_forall. intros v Hv. specialize (F v Hv).
  unfold geb in F. destruct (Rle_dec 0 v); [assumption|discriminate].
Qed.

(** The code's value never exceeds the OWL norm. *)
Lemma owl_cost_le w x v : length w = length x -> Sorted ge w -> is_owl_norm w x v -> owl_cost w x <= v.
Proof.
  intros L Sw (s & Ps & Ss & ->). destruct (owl_cost_pairs_ascending w x) as (a & Pa & _ & ->).
  assert (La : length w = length a) by (rewrite L; apply Permutation_length in Pa; rewrite map_length in Pa; congruence).
  pose proof (rearrangement w a La) as G.
  rewrite (desc_unique (sortd w) w) in G; [|apply sortd_sorted|exact Sw|apply sortd_perm].
  rewrite (desc_unique (sortd a) s) in G; [exact G|apply sortd_sorted|exact Ss|].
  rewrite sortd_perm, Pa, Ps. reflexivity.
Qed.

(** * op *)
Lemma index_of_nth idx j d : NoDup idx -> (j < length idx)%nat -> index_of (nth j idx d) idx = j.
Proof.
  revert j. induction idx as [|i idx IH]; intros j N L; cbn in L; [lia|]. inversion N as [|? ? Ni Nd]; subst.
  destruct j as [|j]; cbn [nth index_of]; [rewrite Nat.eqb_refl; reflexivity|].
  destruct (Nat.eqb_spec (nth j idx d) i) as [E|_].
  - exfalso. apply Ni. rewrite <- E. apply nth_In. lia.
  - f_equal. apply IH; [exact Nd|lia].
Qed.

Lemma gather_scatter idx m : Permutation idx (seq 0 (length idx)) -> length m = length idx ->
  gather (scatter idx m) idx = m.
Proof.
  intros P L. assert (N : NoDup idx) by (eapply Permutation_NoDup; [symmetry; exact P|apply seq_NoDup]).
  apply (nth_ext _ _ 0 0); [unfold gather; rewrite map_length; congruence|].
  unfold gather. rewrite map_length. intros j Hj.
  rewrite (nth_indep _ 0 (nth (length idx) (scatter idx m) 0)) by (rewrite map_length; exact Hj).
  rewrite (map_nth (fun i => nth i (scatter idx m) 0) idx (length idx)).
  unfold scatter.
  assert (B : (nth j idx (length idx) < length idx)%nat).
  { assert (I : In (nth j idx (length idx)) (seq 0 (length idx))) by (eapply Permutation_in; [exact P|apply nth_In; exact Hj]).
    apply in_seq in I. lia. }
  rewrite (nth_indep _ 0 (nth (index_of 0%nat idx) m 0)) by (rewrite map_length, seq_length; exact B).
  rewrite (map_nth (fun i => nth (index_of i idx) m 0) (seq 0 (length idx)) 0%nat).
  rewrite seq_nth by exact B. cbn [plus]. rewrite index_of_nth by assumption. reflexivity.
Qed.

Lemma gather_perm a idx : Permutation idx (seq 0 (length a)) -> Permutation (gather a idx) a.
Proof.
  intros P. unfold gather. rewrite (Permutation_map _ P). clear P.
  assert (E : map (fun i => nth i a 0) (seq 0 (length a)) = a); [|rewrite E; reflexivity].
  apply (nth_ext _ _ 0 0); [rewrite map_length; apply seq_length|].
  rewrite map_length, seq_length. intros n Hn.
  rewrite (nth_indep _ 0 (nth 0%nat a 0)) by (rewrite map_length, seq_length; exact Hn).
  rewrite (map_nth (fun i => nth i a 0)). rewrite seq_nth by exact Hn. reflexivity.
Qed.

(** Gathering two arrays the same way keeps sums over pairs. *)
Lemma sum_over_seq (F : nat -> R) idx n : Permutation idx (seq 0 n) ->
  rsum (map F idx) = rsum (map F (seq 0 n)).
Proof.
  intros P. apply (Permutation_map F) in P. unfold rsum. revert P.
  generalize (map F idx) (map F (seq 0 n)). intros l m P. induction P; cbn; lra.
Qed.
Lemma sum2_seq (f : R -> R -> R) a b : length a = length b ->
  sum2 f a b = rsum (map (fun i => f (nth i a 0) (nth i b 0)) (seq 0 (length a))).
Proof.
  unfold rsum. revert b. induction a as [|u a IH]; intros [|v b] L; cbn in L; try discriminate; [reflexivity|].
  apply eq_add_S in L. cbn [sum2 length seq map fold_right]. rewrite <- seq_shift, map_map. rewrite (IH b L). reflexivity.
Qed.
Lemma sum2_gather (f : R -> R -> R) a b idx : length a = length b -> Permutation idx (seq 0 (length a)) ->
  sum2 f (gather a idx) (gather b idx) = sum2 f a b.
Proof.
  intros L P. rewrite (sum2_seq f a b L), <- (sum_over_seq _ _ _ P). unfold gather, rsum.
  clear. induction idx as [|i idx IH]; cbn; [reflexivity|]. rewrite IH. reflexivity.
Qed.

Lemma rev_sorted l : Sorted Rle l -> Sorted ge (rev l).
Proof.
  intros S. apply Sorted_StronglySorted in S; [|intros a b c; lra]. apply StronglySorted_Sorted.
  induction S as [|a l S IH F]; cbn; [constructor|].
  assert (X : forall l m, StronglySorted ge l -> StronglySorted ge m -> (forall u v, In u l -> In v m -> ge u v) ->
             StronglySorted ge (l ++ m)).
  { clear. intros l m Sl Sm. induction Sl as [|a l Sl IH F]; intros H; cbn; [exact Sm|].
    constructor; [apply IH; intros; apply H; [right|]; assumption|].
    apply Forall_app. split; [exact F|]. apply Forall_forall. intros v Hv. apply H; [left; reflexivity|exact Hv]. }
  apply X; [exact IH|repeat constructor|]. intros u v Hu [<-|[]].
  rewrite Forall_forall in F. apply F. apply in_rev. exact Hu.
Qed.

(** The cone is convex; projection inequality. *)
Definition cone n (z : Rn n) : Prop := monotone_cone (proj1_sig z).

Lemma sorted_map2 (h : R -> R -> R) l m : (forall a b c d, b <= a -> d <= c -> h b d <= h a c) ->
  Sorted ge l -> Sorted ge m -> Sorted ge (map2 h l m).
Proof.
  intros Hh Sl. revert m. induction Sl as [|a l Sl IH Ha]; intros m Sm; [constructor|].
  destruct Sm as [|b m Sm Hb]; cbn; [constructor|]. constructor; [apply IH; exact Sm|].
  destruct Ha as [|a' l Ha]; cbn; [constructor|]. destruct Hb as [|b' m Hb]; cbn; [constructor|].
  constructor. apply Hh; assumption.
Qed.
Lemma nonneg_map2 (h : R -> R -> R) l m : (forall a b, 0 <= a -> 0 <= b -> 0 <= h a b) ->
  nonneg l -> nonneg m -> nonneg (map2 h l m).
Proof.
  intros Hh Nl. unfold nonneg in *. revert m. induction Nl as [|a l Ha Nl IH]; intros m Nm; [constructor|].
  destruct Nm as [|b m Hb Nm]; cbn; constructor; auto.
Qed.
Lemma sorted_scal c l : 0 <= c -> Sorted ge l -> Sorted ge (map (Rmult c) l).
Proof.
  intros Hc S. induction S as [|a l S IH Ha]; cbn; [constructor|]. constructor; [exact IH|].
  destruct Ha; cbn; constructor. unfold ge in *. nra.
Qed.
Lemma nonneg_scal c l : 0 <= c -> nonneg l -> nonneg (map (Rmult c) l).
Proof. intros Hc N. unfold nonneg. apply Forall_map. eapply Forall_impl; [|exact N]. cbn; intros; nra. Qed.

Lemma cone_convex n : convex_on (cone n) (fun _ => 0).
Proof.
  intros [x px] [y py] t [Sx Nx] [Sy Ny] Ht. split; [|lra]. unfold cone, monotone_cone in *. cbn in *. split.
  - apply (sorted_map2 Rplus); [intros; lra| |]; apply sorted_scal; try lra; assumption.
  - apply nonneg_map2; [intros; lra| |]; apply nonneg_scal; try lra; assumption.
Qed.

Lemma isotonic_vi iso y q : is_isotonic (length y) iso -> length q = length y -> monotone_cone q ->
  sum2 Rmult (map2 Rminus y (iso y)) (map2 Rminus q (iso y)) <= 0.
Proof.
  intros H L Cq. destruct (H y eq_refl) as (Lp & Cp & M). set (n := length y).
  set (yy := exist _ y eq_refl : Rn n). set (pp := exist _ (iso y) Lp : Rn n). set (qq := exist _ q L : Rn n).
  assert (P : is_prox (cone n) (fun _ => 0) yy pp).
  { split; [exact Cp|]. intros [z Lz] Cz. specialize (M z Lz Cz). 
    rewrite <- !sqdist_nsq. cbn [proj1_sig pp yy]. lra. }
  apply (is_prox_vi _ _ _ _ (cone_convex n)) in P. destruct P as [_ V]. specialize (V qq Cq).
  assert (E : forall a b : Rn n, proj1_sig (a - b)%v = map2 Rminus (proj1_sig a) (proj1_sig b)).
  { intros [a pa] [b pb]. cbn. clear. revert b. induction a as [|u a IH]; intros [|v b]; cbn; auto. rewrite IH. f_equal. ring. }
  change (inner (yy - pp)%v (qq - pp)%v) with (dot (proj1_sig (yy - pp)%v) (proj1_sig (qq - pp)%v)) in V.
  rewrite !E, dot_sum2 in V. cbn [proj1_sig yy pp qq] in V. lra.
Qed.

Lemma sum2_zero_le {A B} (f : A -> B -> R) l m : (forall a b, 0 <= f a b) -> 0 <= sum2 f l m.
Proof. intros H. revert m. induction l as [|a l IH]; intros [|b m]; cbn; try lra. pose proof (H a b). specialize (IH m). lra. Qed.

(** The projection of a - t (a in the cone, t >= 0) stays below a. *)
Lemma isotonic_below iso a t : is_isotonic (length a) iso -> length t = length a -> monotone_cone a -> nonneg t ->
  Forall2 Rle (iso (map2 Rminus a t)) a.
Proof.
  intros H L [Sa Na] Nt. set (y := map2 Rminus a t).
  assert (Ly : length y = length a) by (unfold y; apply map2_length; congruence).
  rewrite <- Ly in H. destruct (H y eq_refl) as (Lp & [Sp Np] & _). set (p := iso y) in *.
  assert (V := isotonic_vi iso y (map2 Rmin p a) H). fold p in V.
  assert (V' := V ltac:(apply map2_length; congruence)). clear V.
  assert (V : sum2 Rmult (map2 Rminus y p) (map2 Rminus (map2 Rmin p a) p) <= 0).
  { apply V'. split; [apply sorted_map2; [|exact Sp|exact Sa]|apply nonneg_map2; [|exact Np|exact Na]].
    - intros b c d e Hb Hd. unfold Rmin. destruct (Rle_dec c e), (Rle_dec b d); lra.
    - intros. apply Rmin_glb; assumption. }
  clear V' Sa Sp H. revert V. clearbody p. unfold y in *. clear y.
  assert (Lpa : length p = length a) by congruence. clear Lp Ly. revert t L Nt p Lpa Np Na.
  assert (G : forall a t p, length t = length a -> length p = length a -> nonneg t ->
     sum2 (fun u v => Rmax 0 (u - v) ^ 2) p a <= sum2 Rmult (map2 Rminus (map2 Rminus a t) p) (map2 Rminus (map2 Rmin p a) p)).
  { clear. induction a as [|u a IH]; intros [|s t] [|v p] Lt Lp Nt; cbn in Lt, Lp; try discriminate; [cbn; lra|].
    inversion Nt; subst. specialize (IH t p ltac:(congruence) ltac:(congruence) H2). cbn [map2 sum2].
    assert (Rmax 0 (v - u) ^ 2 <= (u - s - v) * (Rmin v u - v)); [|lra].
    unfold Rmax, Rmin. destruct (Rle_dec 0 (v - u)), (Rle_dec v u); nra. }
  intros t L Nt p Lpa Np Na V. pose proof (G a t p L Lpa Nt) as Q. assert (Z : sum2 (fun u v => Rmax 0 (u - v) ^ 2) p a <= 0) by lra.
  clear -Z Lpa. revert p Lpa Z. induction a as [|u a IH]; intros [|v p] L Z; cbn in L; try discriminate; [constructor|].
  cbn [sum2] in Z.
  assert (P1 : 0 <= sum2 (fun u v => Rmax 0 (u - v) ^ 2) p a) by (apply sum2_zero_le; intros; apply pow2_ge_0).
  pose proof (pow2_ge_0 (Rmax 0 (v - u))). constructor.
  - unfold Rmax in *. destruct (Rle_dec 0 (v - u)); nra.
  - apply IH; [congruence|]. lra.
Qed.

Lemma np_sign_spec x o : 0 <= o -> (x = 0 -> o = 0) ->
  Rabs (np_sign x * o) = o /\ (np_sign x * o - x) ^ 2 = (o - Rabs x) ^ 2.
Proof.
  intros Ho H0. unfold np_sign. destruct (Req_EM_T x 0) as [->|N].
  - rewrite (H0 eq_refl), Rabs_R0. rewrite Rmult_0_r, Rabs_R0. split; ring.
  - destruct (Rle_dec 0 x) as [P|P].
    + rewrite (Rabs_right x) by lra. replace (x / x * o) with o by (field; exact N). rewrite Rabs_right by lra. split; ring.
    + rewrite (Rabs_left x) by lra. replace (x / - x * o) with (- o) by (field; exact N).
      rewrite Rabs_Ropp, Rabs_right by lra. split; ring.
Qed.

(** Deterministic projection part: from sorted magnitudes [a], thresholds [t], and the
    competitor's sorted magnitudes [q]. *)
Lemma sorted_problem iso a t q : is_isotonic (length a) iso -> length t = length a -> length q = length a -> monotone_cone q ->
  let p := iso (map2 Rminus a t) in
  / 2 * sqdist p a + sum2 Rmult t p + / 2 * sqdist p q <= / 2 * sqdist q a + sum2 Rmult t q.
Proof.
  intros H Lt Lq Cq p.
  assert (Ly : length (map2 Rminus a t) = length a) by (apply map2_length; congruence).
  rewrite <- Ly in H. pose proof (isotonic_vi iso (map2 Rminus a t) q H ltac:(congruence) Cq) as V. fold p in V.
  assert (Lp : length p = length a) by (unfold p; rewrite (proj1 (H _ eq_refl)); exact Ly).
  clearbody p. clear -V Lp Lt Lq.
  assert (E : / 2 * sqdist p a + sum2 Rmult t p + / 2 * sqdist p q
     = / 2 * sqdist q a + sum2 Rmult t q + sum2 Rmult (map2 Rminus (map2 Rminus a t) p) (map2 Rminus q p)).
  { unfold sqdist. clear V. revert t q p Lt Lq Lp. induction a as [|a0 a IH]; intros [|t0 t] [|q0 q] [|p0 p] Lt Lq Lp;
      cbn in Lt, Lq, Lp; try discriminate; [cbn; field|]. specialize (IH t q p ltac:(congruence) ltac:(congruence) ltac:(congruence)).
    cbn [sum2 map2]. 
    assert (X : / 2 * (p0 - a0) ^ 2 + t0 * p0 + / 2 * (p0 - q0) ^ 2 = / 2 * (q0 - a0) ^ 2 + t0 * q0 + (a0 - t0 - p0) * (q0 - p0)) by field.
    lra. }
  lra.
Qed.

Lemma sqdist_expand x z : length x = length z ->
  sqdist z x = sum2 Rmult z z - 2 * sum2 Rmult z x + sum2 Rmult x x.
Proof.
  unfold sqdist. revert z. induction x as [|u x IH]; intros [|v z] L; cbn in L; try discriminate; [cbn; ring|].
  cbn [sum2]. rewrite IH by congruence. ring.
Qed.

Lemma sum2_sq_rsum l : sum2 Rmult l l = rsum (map (fun v => v * v) l).
Proof. unfold rsum. induction l as [|a l IH]; cbn; [reflexivity|]. rewrite IH. reflexivity. Qed.
Lemma rsum_perm l m : Permutation l m -> rsum l = rsum m.
Proof. intros P. unfold rsum. induction P; cbn; lra. Qed.
Lemma sum2_sq_perm l m : Permutation l m -> sum2 Rmult l l = sum2 Rmult m m.
Proof. intros P. rewrite !sum2_sq_rsum. apply rsum_perm, Permutation_map, P. Qed.
Lemma sum2_sq_abs l : sum2 Rmult (map Rabs l) (map Rabs l) = sum2 Rmult l l.
Proof.
  induction l as [|a l IH]; cbn; [reflexivity|]. rewrite IH. f_equal.
  rewrite <- Rabs_mult, Rabs_right; [reflexivity|]. nra.
Qed.
Lemma sum2_abs_le x z : sum2 Rmult z x <= sum2 Rmult (map Rabs z) (map Rabs x).
Proof.
  revert z. induction x as [|u x IH]; intros [|v z]; cbn; try lra. specialize (IH z).
  pose proof (RRle_abs (v * u)). rewrite Rabs_mult in *. lra.
Qed.

(** Sorting both magnitude lists brings the arrays no further apart. *)
Lemma sorted_closer x z a q : length z = length x ->
  Permutation a (map Rabs x) -> Sorted ge a -> Permutation q (map Rabs z) -> Sorted ge q ->
  sqdist q a <= sqdist z x.
Proof.
  intros L Pa Sa Pq Sq.
  assert (La : length a = length x) by (apply Permutation_length in Pa; rewrite map_length in Pa; exact Pa).
  assert (Lq : length q = length z) by (apply Permutation_length in Pq; rewrite map_length in Pq; exact Pq).
  rewrite !sqdist_expand by congruence.
  rewrite (sum2_sq_perm _ _ Pa), (sum2_sq_perm _ _ Pq), !sum2_sq_abs.
  pose proof (sum2_abs_le x z) as A.
  pose proof (rearrangement (map Rabs z) (map Rabs x) ltac:(rewrite !map_length; exact L)) as B.
  rewrite (desc_unique (sortd (map Rabs z)) q) in B; [|apply sortd_sorted|exact Sq|rewrite sortd_perm, Pq; reflexivity].
  rewrite (desc_unique (sortd (map Rabs x)) a) in B; [|apply sortd_sorted|exact Sa|rewrite sortd_perm, Pa; reflexivity].
  lra.
Qed.

Lemma owl_signs x o : length o = length x -> nonneg o -> Forall2 (fun u v => u = 0 -> v = 0) x o ->
  map Rabs (map2 Rmult (map np_sign x) o) = o /\ sqdist (map2 Rmult (map np_sign x) o) x = sqdist o (map Rabs x).
Proof.
  intros L N F. revert L N. induction F as [|u v x o H0 F IH]; intros L N; [split; reflexivity|].
  inversion N as [|? ? N1 N2]; subst. destruct (IH ltac:(cbn in L; congruence) N2) as [I1 I2].
  destruct (np_sign_spec u v N1 H0) as [S1 S2]. unfold sqdist in *. cbn [map map2 sum2]. rewrite S1, I1, S2, I2. split; reflexivity.
Qed.

Lemma scatter_length idx m : length (scatter idx m) = length idx.
Proof. unfold scatter. rewrite map_length. apply seq_length. Qed.

(** Gather is injective on lists indexed by a permutation. *)
Lemma gather_forall2 (P : R -> R -> Prop) a b idx : length a = length b -> Permutation idx (seq 0 (length a)) ->
  Forall2 P (gather a idx) (gather b idx) -> Forall2 P a b.
Proof.
  intros L Pm F.
  assert (Q : forall i, (i < length a)%nat -> P (nth i a 0) (nth i b 0)).
  { intros i Hi. assert (I : In i idx) by (eapply Permutation_in; [symmetry; exact Pm|apply in_seq; lia]).
    unfold gather in F. clear -F I. induction idx as [|j idx IH]; [destruct I|]. cbn in F. inversion F; subst.
    destruct I as [->|I]; [assumption|apply IH; assumption]. }
  clear -L Q. revert b L Q. induction a as [|u a IH]; intros [|v b] L Q; cbn in L; try discriminate; constructor.
  - apply (Q 0%nat). cbn. lia.
  - apply IH; [congruence|]. intros i Hi. apply (Q (S i)). cbn. lia.
Qed.

Lemma owl_op_prox argsort iso w x f c :
  is_argsort (length x) argsort -> is_isotonic (length x) iso -> owl_init w = Ok w -> 0 <= f ->
  owl_op argsort iso w f x = Ok c ->
  length c = length x /\
  forall z vc vz, length z = length x -> is_owl_norm w c vc -> is_owl_norm w z vz ->
    / 2 * sqdist c x + f * vc <= / 2 * sqdist z x + f * vz.
Proof.
  intros Ha Hi Hw Hf. unfold owl_op. destruct (Nat.eqb_spec (length w) (length x)) as [L|]; [|discriminate].
  intros E. assert (Ec := f_equal (fun r => match r with Ok v => v | Err _ => c end) E). cbn beta iota in Ec. clear E.
  destruct (owl_init_ok _ _ Hw) as (_ & Sw & Nw & _).
  destruct (Ha (map Rabs x) (map_length _ _)) as [Pi Si]. set (idx0 := argsort (map Rabs x)) in *.
  set (idx := rev idx0). set (t := map (fun v => v * f) w). set (a := gather (map Rabs x) idx).
  assert (Pidx : Permutation idx (seq 0 (length (map Rabs x)))) by (unfold idx; rewrite <- Permutation_rev, map_length; exact Pi).
  assert (Lidx : length idx = length x) by (apply Permutation_length in Pidx; rewrite seq_length, map_length in Pidx; exact Pidx).
  assert (Pa : Permutation a (map Rabs x)) by (apply gather_perm; exact Pidx).
  assert (Sa : Sorted ge a) by (unfold a, gather, idx; rewrite map_rev; apply rev_sorted; exact Si).
  assert (La : length a = length x) by (unfold a, gather; rewrite map_length; exact Lidx).
  assert (Na : nonneg a).
  { unfold nonneg. apply Forall_forall. intros v Hv. apply (Permutation_in _ Pa), in_map_iff in Hv.
    destruct Hv as (u & <- & _). apply Rabs_pos. }
  assert (Lt : length t = length a) by (unfold t; rewrite map_length; congruence).
  assert (Nt : nonneg t) by (apply nonneg_scaled; assumption).
  set (p := iso (map2 Rminus a t)) in *.
  rewrite <- La in Hi. destruct (Hi (map2 Rminus a t) ltac:(apply map2_length; congruence)) as (Lp & [Sp Np] & _). fold p in Lp, Sp, Np.
  pose proof (isotonic_below iso a t Hi Lt (conj Sa Na) Nt) as B. fold p in B.
  set (o := scatter idx p) in *.
  assert (Lo : length o = length x) by (unfold o; rewrite scatter_length; exact Lidx).
  assert (Go : gather o idx = p).
  { apply gather_scatter; [|congruence]. rewrite Lidx. rewrite map_length in Pidx. exact Pidx. }
  assert (Po : Permutation p o).
  { rewrite <- Go. apply gather_perm. rewrite Lo. rewrite map_length in Pidx. exact Pidx. }
  assert (No : nonneg o).
  { unfold nonneg in *. apply Forall_forall. intros v Hv. rewrite Forall_forall in Np. apply Np.
    eapply Permutation_in; [symmetry; exact Po|exact Hv]. }
  assert (Fo : Forall2 (fun u v => u = 0 -> v = 0) x o).
  { assert (F1 : Forall2 Rle o (map Rabs x)).
    { apply (gather_forall2 Rle _ _ idx); [rewrite map_length; exact Lo| |rewrite Go; exact B].
      rewrite Lo. rewrite map_length in Pidx. exact Pidx. }
    clearbody o. clear -F1 No. revert o F1 No. induction x as [|u x IH]; intros o F1 No; inversion F1 as [|v ? o' ? Hv F]; subst; constructor.
    - intros ->. rewrite Rabs_R0 in Hv. apply Forall_inv in No. apply Rle_antisym; assumption.
    - apply IH; [exact F|]. inversion No; assumption. }
  destruct (owl_signs x o Lo No Fo) as [Ac Dc].
  change (map2 Rmult (map np_sign x) o = c) in Ec. rewrite Ec in Ac, Dc.
  split; [rewrite <- Ec; apply map2_length; [rewrite map_length; reflexivity|exact Lo]|].
  intros z vc vz Lz (sc & Pc & Sc & ->) (q & Pq & Sq & ->).
  assert (Es : sc = p).
  { apply desc_unique; [exact Sc|exact Sp|]. rewrite Pc, Ac. symmetry. exact Po. }
  subst sc.
  assert (Dp : sqdist c x = sqdist p a).
  { rewrite Dc, <- Go. unfold a, sqdist. rewrite sum2_gather; [reflexivity|rewrite map_length; exact Lo|].
    rewrite Lo. rewrite map_length in Pidx. exact Pidx. }
  assert (Lq : length q = length a).
  { apply Permutation_length in Pq. rewrite map_length in Pq. congruence. }
  assert (Nq : nonneg q).
  { unfold nonneg. apply Forall_forall. intros v Hv. apply (Permutation_in _ Pq), in_map_iff in Hv.
    destruct Hv as (u & <- & _). apply Rabs_pos. }
  pose proof (sorted_problem iso a t q Hi Lt Lq (conj Sq Nq)) as M. cbn zeta in M. fold p in M.
  pose proof (sorted_closer x z a q Lz Pa Sa Pq Sq) as C.
  assert (W : forall s, sum2 Rmult t s = f * sum2 Rmult w s).
  { intros s. unfold t. rewrite sum2_map_l, <- sum2_scal. apply sum2_ext. intros; ring. }
  rewrite !W in M. rewrite Dp. assert (0 <= sqdist p q) by (apply sum2_zero_le; intros; apply pow2_ge_0). lra.
Qed.
