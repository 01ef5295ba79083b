From Verif Require Import Py Model_Array Model_NpAdjust Spec_NpAdjust Proof_Array.

(** * rotate *)
Lemma rotate_spec {A} (a : nda A) h w s :
  shape a = h :: w :: s -> exists b, rotate a = Ok b /\ is_half_turn a b.
Proof.
  intros Hs. unfold rotate. rewrite Hs. eexists. split; [reflexivity|]. split; [cbn; auto|].
  intros h' w' s'. rewrite Hs. intros E. inversion E; subst.
  intros i j r. cbn [in_range at_]. intros (Hi & Hj & _). do 2 f_equal; [lia|]. f_equal. lia.
Qed.

Lemma half_turn_twice {A} (a b c : nda A) h w s :
  shape a = h :: w :: s -> is_half_turn a b -> is_half_turn b c -> arr_eq c a.
Proof.
  intros Hs [H1 H2] [H3 H4]. split; [congruence|].
  intros idx. rewrite H3, H1, Hs. destruct idx as [|i [|j r]]; cbn [in_range]; try tauto.
  intros (Hi & Hj & Hr).
  assert (Hb : shape b = h :: w :: s) by congruence.
  specialize (H4 _ _ _ Hb (h - 1 - i) (w - 1 - j) r).
  rewrite Hb in H4. cbn [in_range] in H4.
  specialize (H4 ltac:(repeat split; auto; lia)).
  replace (h - 1 - (h - 1 - i)) with i in H4 by lia.
  replace (w - 1 - (w - 1 - j)) with j in H4 by lia.
  rewrite H4. apply (H2 _ _ _ Hs). rewrite Hs; cbn; auto.
Qed.

Lemma rotate_involution {A} (a : nda A) h w s :
  shape a = h :: w :: s ->
  exists b c, rotate a = Ok b /\ is_half_turn a b /\ rotate b = Ok c /\ arr_eq c a.
Proof.
  intros Hs. destruct (rotate_spec a h w s Hs) as (b & Hb & Hhb).
  destruct (rotate_spec b h w s) as (c & Hc & Hhc); [destruct Hhb; congruence|].
  exists b, c. repeat (split; [assumption|]). eapply half_turn_twice; eauto.
Qed.

Lemma rotate_low_dim {A} (a : nda A) : length (shape a) < 2 -> rotate a = Err ValueError.
Proof. unfold rotate. destruct (shape a) as [|h [|w s]]; cbn; auto; lia. Qed.

Definition rotated {A} (a : nda A) : nda A :=
  match rotate a with Ok b => b | Err _ => a end.

Lemma rotate_stack_spec {A} (a : nda A) n h w s :
  shape a = n :: h :: w :: s -> 0 < n ->
  exists b, rotate_stack a = Ok b /\ shape b = shape a /\
    forall k, k < n -> is_half_turn (sub0 a k) (sub0 b k).
Proof.
  intros Hs Hn. unfold rotate_stack. rewrite Hs.
  assert (Hsub : forall k, shape (sub0 a k) = h :: w :: s) by (intros; cbn; rewrite Hs; reflexivity).
  assert (Hrot : forall k, rotate (sub0 a k) = Ok (rotated (sub0 a k)) /\ is_half_turn (sub0 a k) (rotated (sub0 a k))).
  { intros k. destruct (rotate_spec _ _ _ _ (Hsub k)) as (b & Hb & Hh).
    unfold rotated. rewrite Hb. auto. }
  rewrite (mapM_ok _ rotated).
  2:{ intros x Hx. apply in_map_iff in Hx. destruct Hx as (k & <- & _). apply Hrot. }
  cbn [bind]. rewrite map_map.
  destruct (stack_spec (rotated (sub0 a 0)) (h :: w :: s) (map (fun k => rotated (sub0 a k)) (seq 0 n))) as (b & Hb & Hsb & Hat).
  - rewrite <- length_zero_iff_nil, map_length, seq_length. lia.
  - apply Forall_forall. intros x Hx. apply in_map_iff in Hx. destruct Hx as (k & <- & _).
    destruct (Hrot k) as [_ [E _]]. rewrite E. apply Hsub.
  - rewrite map_length, seq_length in *. exists b. split; [exact Hb|]. split; [congruence|].
    intros k Hk. destruct (Hrot k) as [_ [E1 E2]]. split.
    + cbn [sub0 shape]. rewrite Hsb, Hs. reflexivity.
    + intros h' w' s' Hs' i j r Hr. specialize (E2 _ _ _ Hs' i j r Hr).
      unfold sub0 at 1. cbn [at_]. rewrite Hat by auto.
      rewrite (map_nth (fun k => rotated (sub0 a k))), seq_nth by auto. exact E2.
Qed.

Lemma rotate_stack_involution {A} (a : nda A) n h w s :
  shape a = n :: h :: w :: s -> 0 < n ->
  exists b c, rotate_stack a = Ok b /\ (forall k, k < n -> is_half_turn (sub0 a k) (sub0 b k)) /\
    rotate_stack b = Ok c /\ arr_eq c a.
Proof.
  intros Hs Hn. destruct (rotate_stack_spec a n h w s Hs Hn) as (b & Hb & Hsb & Hh).
  destruct (rotate_stack_spec b n h w s) as (c & Hc & Hsc & Hh'); [congruence|auto|].
  exists b, c. repeat (split; [assumption|]). split; [congruence|].
  intros idx. rewrite Hsc, Hsb, Hs. destruct idx as [|k idx]; [cbn; tauto|]. intros [Hk Hr].
  assert (E : arr_eq (sub0 c k) (sub0 a k)).
  { eapply half_turn_twice; [|apply Hh; auto|apply Hh'; auto]. cbn. rewrite Hs. reflexivity. }
  destruct E as [E1 E2]. specialize (E2 idx). cbn [sub0 shape at_] in E2. apply E2.
  rewrite Hsc, Hsb, Hs. exact Hr.
Qed.

(** * pad2d *)
Lemma pad2d_core {A} (z : A) (a : nda A) pad h w (p q : nat) rest :
  shape a = [h; w] ->
  (pad = PSeq (Z.of_nat p :: Z.of_nat q :: rest) \/ (p = q /\ (pad = PInt (Z.of_nat p) \/ pad = PSeq [Z.of_nat p]))) ->
  exists b, pad2d z a pad = Ok b /\ is_padded z a b h w p q.
Proof.
  intros Hs Hpad.
  assert (E : exists b, pad2d z a pad = Ok b /\ b = mk_nda [h + 2 * p; w + 2 * q] (fun idx =>
                  let i := nth 0 idx 0 in let j := nth 1 idx 0 in
                  if (p <=? i) && (i <? h + p) && (q <=? j) && (j <? w + q)
                  then at_ a [i - p; j - q] else z)).
  { eexists; split; [|reflexivity].
    assert (Hneg : forall n, (Z.of_nat n <? 0)%Z = false) by (intros; apply Z.ltb_ge; lia).
    destruct Hpad as [-> | [<- [-> | ->]]]; unfold pad2d; cbn [bind]; rewrite Hs, ?Hneg, ?Nat2Z.id;
      cbn [orb]; reflexivity. }
  destruct E as (b & Hb & Eb). exists b. split; [exact Hb|]. rewrite Eb. split; [reflexivity|]. split.
  - intros i j Hi Hj. cbn [at_ nth]. 
    replace (p <=? p + i) with true by (symmetry; apply Nat.leb_le; lia).
    replace (p + i <? h + p) with true by (symmetry; apply Nat.ltb_lt; lia).
    replace (q <=? q + j) with true by (symmetry; apply Nat.leb_le; lia).
    replace (q + j <? w + q) with true by (symmetry; apply Nat.ltb_lt; lia).
    cbn [andb]. replace (p + i - p) with i by lia. replace (q + j - q) with j by lia. reflexivity.
  - intros i j Hi Hj Hout. cbn [at_ nth].
    destruct (Nat.leb_spec p i), (Nat.ltb_spec i (h + p)), (Nat.leb_spec q j), (Nat.ltb_spec j (w + q));
      cbn [andb]; auto; lia.
Qed.

Lemma pad2d_errors {A} (z : A) (a : nda A) :
  pad2d z a POther = Err ValueError /\ pad2d z a (PSeq []) = Err IndexError.
Proof. split; reflexivity. Qed.

(** * fancy_transpose *)
Lemma roll_length {A} (d : A) l k : length (roll d l k) = length l.
Proof. unfold roll. rewrite map_length, seq_length. reflexivity. Qed.

Lemma roll_nth {A} (d : A) l k j : j < length l -> nth j (roll d l k) d = cyc d l (Z.of_nat j) k.
Proof.
  intros H. unfold roll, cyc.
  rewrite (nth_indep _ d ((fun j => nth (Z.to_nat ((Z.of_nat j - k) mod Z.of_nat (length l))) l d) 0))
    by (rewrite map_length, seq_length; auto).
  rewrite (map_nth (fun j => nth (Z.to_nat ((Z.of_nat j - k) mod Z.of_nat (length l))) l d)).
  rewrite seq_nth by auto. reflexivity.
Qed.

Lemma cyc_pos n k j : 0 < n -> Z.to_nat ((Z.of_nat j - k) mod Z.of_nat n) < n.
Proof. intros H. pose proof (Z.mod_pos_bound (Z.of_nat j - k) (Z.of_nat n)). lia. Qed.

Lemma cyc_seq n k j : 0 < n -> cyc 0 (seq 0 n) (Z.of_nat j) k = Z.to_nat ((Z.of_nat j - k) mod Z.of_nat n).
Proof.
  intros H. unfold cyc. rewrite seq_length, seq_nth by (apply cyc_pos; auto). reflexivity.
Qed.

Lemma index_of_spec l m i : NoDup l -> i < length l -> nth i l 0 = m -> index_of m l = i.
Proof.
  revert i. induction l as [|x l IH]; intros i Hnd Hi Hm; [cbn in Hi; lia|].
  inversion Hnd as [|? ? Hx Hnd']; subst. cbn [index_of].
  destruct i as [|i]; cbn [nth].
  - rewrite Nat.eqb_refl. reflexivity.
  - destruct (Nat.eqb_spec x (nth i l 0)) as [E|E].
    + exfalso. apply Hx. rewrite E. apply nth_In. cbn in Hi; lia.
    + f_equal. apply IH; auto. cbn in Hi; lia.
Qed.

Lemma cyc_roundtrip n k m : m < n ->
  Z.to_nat ((Z.of_nat (Z.to_nat ((Z.of_nat m + k) mod Z.of_nat n)) - k) mod Z.of_nat n) = m.
Proof.
  intros H. rewrite Z2Nat.id by (apply Z.mod_pos_bound; lia).
  rewrite Zminus_mod_idemp_l. replace (Z.of_nat m + k - k)%Z with (Z.of_nat m) by lia.
  rewrite Z.mod_small by lia. lia.
Qed.

Lemma axes_NoDup n k : NoDup (roll 0 (seq 0 n) k).
Proof.
  destruct (Nat.eq_dec n 0) as [->|Hn]; [constructor|].
  apply (NoDup_nth _ 0). rewrite roll_length, seq_length. intros i j Hi Hj.
  rewrite !roll_nth by (rewrite seq_length; auto). rewrite !cyc_seq by lia.
  intros E.
  assert (E' : ((Z.of_nat i - k) mod Z.of_nat n = (Z.of_nat j - k) mod Z.of_nat n)%Z).
  { pose proof (Z.mod_pos_bound (Z.of_nat i - k) (Z.of_nat n)).
    pose proof (Z.mod_pos_bound (Z.of_nat j - k) (Z.of_nat n)). lia. }
  assert (E2 : ((Z.of_nat i - k + k) mod Z.of_nat n = (Z.of_nat j - k + k) mod Z.of_nat n)%Z).
  { rewrite <- (Zplus_mod_idemp_l (Z.of_nat i - k)), <- (Zplus_mod_idemp_l (Z.of_nat j - k)), E'. reflexivity. }
  replace (Z.of_nat i - k + k)%Z with (Z.of_nat i) in E2 by lia.
  replace (Z.of_nat j - k + k)%Z with (Z.of_nat j) in E2 by lia.
  rewrite !Z.mod_small in E2 by lia. lia.
Qed.

Lemma index_of_axes n k m : m < n ->
  index_of m (roll 0 (seq 0 n) k) = Z.to_nat ((Z.of_nat m + k) mod Z.of_nat n).
Proof.
  intros H. assert (Hlt : Z.to_nat ((Z.of_nat m + k) mod Z.of_nat n) < n).
  { pose proof (Z.mod_pos_bound (Z.of_nat m + k) (Z.of_nat n)). lia. }
  apply index_of_spec; [apply axes_NoDup | rewrite roll_length, seq_length; auto |].
  rewrite roll_nth by (rewrite seq_length; auto). rewrite cyc_seq by lia. apply cyc_roundtrip; auto.
Qed.

Lemma nth_map_seq {B} (f : nat -> B) n j d : j < n -> nth j (map f (seq 0 n)) d = f j.
Proof.
  intros H. rewrite (nth_indep _ d (f 0)) by (rewrite map_length, seq_length; auto).
  rewrite map_nth, seq_nth by auto. reflexivity.
Qed.

Lemma ft_shape {A} (a : nda A) k j : j < length (shape a) ->
  nth j (shape (fancy_transpose a k)) 0 = cyc 0 (shape a) (Z.of_nat j) k.
Proof.
  intros H. unfold fancy_transpose, np_transpose; cbn [shape].
  set (n := length (shape a)) in *.
  rewrite (nth_indep _ 0 ((fun k => nth k (shape a) 0) 0)) by (rewrite map_length, roll_length, seq_length; auto).
  rewrite (map_nth (fun k => nth k (shape a) 0)). rewrite roll_nth by (rewrite seq_length; auto). rewrite cyc_seq by lia. reflexivity.
Qed.

Lemma ft_length {A} (a : nda A) k : length (shape (fancy_transpose a k)) = length (shape a).
Proof. unfold fancy_transpose, np_transpose; cbn [shape]. rewrite map_length, roll_length, seq_length. reflexivity. Qed.

(** The input multi-index that output multi-index [idx] reads. *)
Lemma ft_at {A} (a : nda A) k idx :
  at_ (fancy_transpose a k) idx =
  at_ a (map (fun m => nth (Z.to_nat ((Z.of_nat m + k) mod Z.of_nat (length (shape a)))) idx 0)
             (seq 0 (length (shape a)))).
Proof.
  unfold fancy_transpose, np_transpose; cbn [at_]. f_equal. apply map_ext_in.
  intros m Hm. apply in_seq in Hm. rewrite index_of_axes by lia. reflexivity.
Qed.

Lemma list_ext_nth (l l' : list nat) : length l = length l' ->
  (forall j, j < length l -> nth j l 0 = nth j l' 0) -> l = l'.
Proof. intros H1 H2. apply (nth_ext _ _ 0 0); auto. Qed.

Lemma ft_axes_rolled {A} (a : nda A) k : axes_rolled a (fancy_transpose a k) k.
Proof.
  split; [apply ft_length|]. split; [intros; apply ft_shape; auto|].
  intros ib ia Hib Hia H. rewrite ft_at. f_equal.
  set (n := length (shape a)) in *.
  assert (La : length ia = n) by (apply in_range_length; auto).
  apply list_ext_nth; rewrite map_length, seq_length; [auto|].
  intros j Hj. rewrite nth_map_seq by auto.
  rewrite H by (pose proof (Z.mod_pos_bound (Z.of_nat j + k) (Z.of_nat n)); lia).
  unfold cyc. rewrite La. f_equal. apply cyc_roundtrip; auto.
Qed.

(** An axis roll is determined by [axes_rolled]; composition adds the rolls. *)
Lemma axes_rolled_trans {A} (a b c : nda A) j k :
  axes_rolled a b j -> axes_rolled b c k -> axes_rolled a c (j + k).
Proof.
  intros (L1 & S1 & A1) (L2 & S2 & A2).
  set (n := length (shape a)) in *.
  assert (Hcomp : forall (l1 l2 l3 : list nat), length l1 = n -> length l2 = n ->
    (forall i, i < n -> nth i l2 0 = cyc 0 l1 (Z.of_nat i) j) ->
    (forall i, i < n -> nth i l3 0 = cyc 0 l2 (Z.of_nat i) k) ->
    forall i, i < n -> nth i l3 0 = cyc 0 l1 (Z.of_nat i) (j + k)).
  { intros l1 l2 l3 H1 H2 H3 H4 i Hi. rewrite H4 by auto. unfold cyc at 1. rewrite H2.
    pose proof (Z.mod_pos_bound (Z.of_nat i - k) (Z.of_nat n)).
    rewrite H3 by lia. unfold cyc. rewrite H1. do 2 f_equal.
    rewrite Z2Nat.id by lia. rewrite Zminus_mod_idemp_l. f_equal. lia. }
  split; [fold n; lia|]. split.
  - apply (Hcomp (shape a) (shape b) (shape c)); auto. intros i Hi. apply S2. lia.
  - intros ic ia Hc Ha H.
    assert (La : length ia = n) by (apply in_range_length; auto).
    assert (Lc : length ic = n) by (rewrite (in_range_length _ _ Hc); congruence).
    set (ib := map (fun i => cyc 0 ia (Z.of_nat i) j) (seq 0 n)).
    assert (Hib : forall i, i < n -> nth i ib 0 = cyc 0 ia (Z.of_nat i) j).
    { intros i Hi. unfold ib. apply (nth_map_seq (fun i => cyc 0 ia (Z.of_nat i) j)); auto. }
    assert (Lb : length ib = n) by (unfold ib; rewrite map_length, seq_length; auto).
    assert (Rb : in_range (shape b) ib).
    { apply in_range_nth. split; [congruence|]. intros i Hi.
      rewrite Hib by lia. rewrite S1 by lia. unfold cyc. rewrite La. fold n.
      apply in_range_nth in Ha. apply Ha. fold n. apply cyc_pos. lia. }
    rewrite (A2 ic ib Hc Rb).
    + apply A1; auto.
    + intros i Hi. rewrite H by lia. unfold cyc. rewrite La, Lb.
      pose proof (Z.mod_pos_bound (Z.of_nat i - k) (Z.of_nat n)).
      rewrite Hib by lia. unfold cyc. rewrite La. do 2 f_equal.
      rewrite Z2Nat.id by lia. rewrite Zminus_mod_idemp_l. f_equal. lia.
Qed.

Lemma axes_rolled_unique {A} (a b c : nda A) k :
  axes_rolled a b k -> axes_rolled a c k -> arr_eq b c.
Proof.
  intros (L1 & S1 & A1) (L2 & S2 & A2). set (n := length (shape a)) in *.
  assert (E : shape b = shape c).
  { apply list_ext_nth; [congruence|]. intros j Hj. rewrite S1, S2 by lia. reflexivity. }
  split; [exact E|]. intros idx Hidx.
  set (ia := map (fun m => nth (Z.to_nat ((Z.of_nat m + k) mod Z.of_nat n)) idx 0) (seq 0 n)).
  assert (Lx : length idx = n) by (rewrite (in_range_length _ _ Hidx); auto).
  assert (La : length ia = n) by (unfold ia; rewrite map_length, seq_length; auto).
  assert (Ra : in_range (shape a) ia).
  { apply in_range_nth. split; [auto|]. intros m Hm. fold n in Hm. unfold ia. rewrite nth_map_seq by auto.
    assert (Hb : Z.to_nat ((Z.of_nat m + k) mod Z.of_nat n) < n)
      by (pose proof (Z.mod_pos_bound (Z.of_nat m + k) (Z.of_nat n)); lia).
    apply in_range_nth in Hidx. destruct Hidx as [_ Hidx]. specialize (Hidx _ ltac:(rewrite L1; exact Hb)).
    rewrite S1 in Hidx by exact Hb. unfold cyc in Hidx. fold n in Hidx. rewrite cyc_roundtrip in Hidx by auto. exact Hidx. }
  assert (Hrel : forall j, j < n -> nth j idx 0 = cyc 0 ia (Z.of_nat j) k).
  { intros j Hj. unfold cyc. rewrite La. unfold ia.
    pose proof (cyc_pos n k j ltac:(lia)) as Hp. rewrite nth_map_seq by auto.
    f_equal. rewrite Z2Nat.id by (apply Z.mod_pos_bound; lia).
    rewrite Zplus_mod_idemp_l. replace (Z.of_nat j - k + k)%Z with (Z.of_nat j) by lia.
    rewrite Z.mod_small by lia. lia. }
  rewrite (A1 idx ia Hidx Ra Hrel). symmetry. apply A2; auto. rewrite <- E. auto.
Qed.

Lemma axes_rolled_0 {A} (a : nda A) k : (k mod Z.of_nat (length (shape a)) = 0)%Z -> axes_rolled a a k.
Proof.
  set (n := length (shape a)). intros Hk.
  assert (H : forall (l : list nat) j, length l = n -> j < n -> nth j l 0 = cyc 0 l (Z.of_nat j) k).
  { intros l j Hl Hj. unfold cyc. rewrite Hl. f_equal.
    rewrite Zminus_mod, Hk, Z.sub_0_r, Zmod_mod, Z.mod_small by lia. lia. }
  split; [auto|]. split; [intros; apply H; auto|].
  intros ib ia Hb Ha E. f_equal. apply list_ext_nth.
  - rewrite (in_range_length _ _ Hb), (in_range_length _ _ Ha). auto.
  - intros j Hj. rewrite (in_range_length _ _ Hb) in Hj. rewrite E by auto. symmetry. apply H; auto.
    apply in_range_length; auto.
Qed.

Lemma ft_compose {A} (a : nda A) j k :
  arr_eq (fancy_transpose (fancy_transpose a j) k) (fancy_transpose a (j + k)).
Proof.
  eapply axes_rolled_unique; [|apply ft_axes_rolled].
  eapply axes_rolled_trans; apply ft_axes_rolled.
Qed.

Lemma ft_period {A} (a : nda A) k :
  (k mod Z.of_nat (length (shape a)) = 0)%Z -> arr_eq (fancy_transpose a k) a.
Proof. intros H. eapply axes_rolled_unique; [apply ft_axes_rolled|apply axes_rolled_0; auto]. Qed.

Lemma ft_inverse {A} (a : nda A) k : arr_eq (fancy_transpose (fancy_transpose a k) (- k)) a.
Proof.
  eapply arr_eq_trans; [apply ft_compose|]. apply ft_period.
  replace (k + - k)%Z with 0%Z by lia. apply Zmod_0_l.
Qed.

Lemma ftl_ftr {A} (a : nda A) : arr_eq (ftl (ftr a)) a.
Proof. apply (ft_inverse a 1). Qed.
Lemma ftr_ftl {A} (a : nda A) : arr_eq (ftr (ftl a)) a.
Proof. apply (ft_inverse a (-1)). Qed.
