From Coq Require Import Permutation.
From Verif Require Import NPReal Py Model_Observable Spec_Observable Proof_Observable Model_Cost Spec_Cost.
Local Open Scope R_scope.

Lemma rint_zero x : rint x = 0%Z <-> Rabs x <= / 2.
Proof.
  split; intros H.
  - pose proof (rint_err x) as E. rewrite H in E. rewrite Rminus_0_l, Rabs_Ropp in E. lra.
  - unfold rint. destruct (Int_part_bounds x) as [B1 B2].
    set (f := Int_part x) in *. apply Rabs_le_inv in H.
    assert (F : (-1 <= f <= 0)%Z).
    { split; [apply le_IZR|apply Zlt_succ_le; apply lt_IZR; unfold Z.succ; rewrite plus_IZR]; 
        [|lra]. destruct (Z.le_gt_cases (-1) f) as [|G]; [apply IZR_le; assumption|].
      assert (f <= -2)%Z by lia. apply IZR_le in H0. lra. }
    assert (f = -1 \/ f = 0)%Z as [E|E] by lia; rewrite E in *.
    + destruct (Rlt_dec (x - -1) (1/2)); [lra|]. destruct (Rlt_dec (1/2) (x - -1)); [reflexivity|]. reflexivity.
    + destruct (Rlt_dec (x - 0) (1/2)); [reflexivity|]. destruct (Rlt_dec (1/2) (x - 0)); [lra|]. reflexivity.
Qed.

Lemma around_zero k x : around k x = 0 <-> Rabs x <= / 2 * / 10 ^ k.
Proof.
  unfold around. pose proof (pow10_pos k) as P.
  assert (PI : 0 < / 10 ^ k) by (apply Rinv_0_lt_compat; exact P).
  transitivity (rint (x * 10 ^ k) = 0%Z).
  - split; intros H; [|rewrite H; lra].
    apply eq_IZR. unfold Rdiv in H. apply Rmult_integral in H. destruct H; [exact H|lra].
  - rewrite rint_zero, Rabs_mult, (Rabs_right (10 ^ k)) by lra. split; intros H.
    + apply (Rmult_le_compat_r (/ 10 ^ k)) in H; [|lra]. rewrite Rmult_assoc, Rinv_r, Rmult_1_r in H by lra. exact H.
    + apply (Rmult_le_compat_r (10 ^ k)) in H; [|lra]. rewrite Rmult_assoc, Rinv_l, Rmult_1_r in H by lra. exact H.
Qed.

(** ** histories *)
Definition ok_calls (c : cost_cfg) (h : list R) (s : cost_st) : cost_st := cost_calls c (map (@Ok R) h) s.

Lemma ok_calls_snoc c h x s : ok_calls c (h ++ [x]) s = fst (get_cost c (ok_calls c h s) (Ok x)).
Proof. unfold ok_calls, cost_calls. rewrite map_app, fold_left_app. reflexivity. Qed.

Lemma every_snoc c h x : (0 < c)%nat ->
  every c (h ++ [x]) = every c h ++ (if (S (length h) mod c =? 0)%nat then [x] else []).
Proof.
  intros Hc. unfold every. rewrite app_length. cbn [length]. rewrite Nat.add_1_r.
  assert (Hd := Nat.div_mod (length h) c ltac:(lia)).
  assert (Hm := Nat.mod_upper_bound (length h) c ltac:(lia)).
  assert (K : forall n, (n <= length h / c)%nat ->
     map (fun k => nth (k * c - 1) (h ++ [x]) 0) (seq 1 n) = map (fun k => nth (k * c - 1) h 0) (seq 1 n)).
  { intros n Hn. apply map_ext_in. intros k Hk. apply in_seq in Hk.
    apply app_nth1. assert (k * c <= (length h / c) * c)%nat by (apply Nat.mul_le_mono_r; lia). nia. }
  destruct (Nat.eqb_spec (S (length h) mod c) 0) as [E|E].
  - assert (Q : (S (length h) / c = S (length h / c))%nat).
    { assert (Hd' := Nat.div_mod (S (length h)) c ltac:(lia)). rewrite E in Hd'. nia. }
    rewrite Q, seq_S, map_app, K by lia. f_equal. cbn [map]. f_equal.
    assert (Hd' := Nat.div_mod (S (length h)) c ltac:(lia)). rewrite E, Q in Hd'.
    rewrite app_nth2 by lia. replace (_ - _)%nat with 0%nat by lia. reflexivity.
  - assert (Q : (S (length h) / c = length h / c)%nat).
    { symmetry. apply (Nat.div_unique _ _ _ (S (length h mod c))); [|lia].
      destruct (Nat.eq_dec (S (length h mod c)) c) as [E'|]; [|lia].
      exfalso. apply E. replace (S (length h)) with (S (length h / c) * c)%nat by (cbn [Nat.mul]; lia).
      apply Nat.mod_mul. lia. }
    rewrite Q, K, app_nil_r by lia. reflexivity.
Qed.

Lemma iter_mod n c : (0 < c)%nat -> ((Z.of_nat n + 1) mod Z.of_nat c =? 0)%Z = (S n mod c =? 0)%nat.
Proof.
  intros Hc. replace (Z.of_nat n + 1)%Z with (Z.of_nat (S n)) by lia.
  rewrite <- Nat2Z.inj_mod by lia.
  destruct (Nat.eqb_spec (S n mod c) 0) as [E|E]; [rewrite E; reflexivity|].
  apply Z.eqb_neq. lia.
Qed.

Definition cinv (c w : nat) (h : list R) (s : cost_st) : Prop :=
  iteration s = (Z.of_nat (length h) + 1)%Z /\ cost_list s = every c h /\
  exists windows, every c h = windows ++ test_list s /\ Nat.divide w (length windows) /\
    (length (test_list s) < w)%nat.

Definition verdict_ok (c w : nat) (tol : R) (h : list R) (r : bool) : Prop :=
  r = true <-> (Nat.divide c (length h) /\ (0 < length h)%nat /\ full_quiet_window w tol (every c h)).

Section H.
Variable cfg : cost_cfg.
Variable c w : nat.
Hypothesis Hc : (0 < c)%nat.
Hypothesis Hw : (2 <= w)%nat.
Hypothesis Ic : cost_interval cfg = Some (Z.of_nat c).
Hypothesis Iw : test_range cfg = Z.of_nat w.

Lemma window_unique (a b o n o' n' : list R) : 
  a ++ o ++ n = b ++ o' ++ n' -> length o = length o' -> length n = length n' ->
  a = b /\ o = o' /\ n = n'.
Proof.
  intros E L1 L2.
  assert (LL : length a = length b) by (apply (f_equal (@length R)) in E; rewrite !app_length in E; lia).
  assert (X : forall (u v u' v' : list R), length u = length u' -> u ++ v = u' ++ v' -> u = u' /\ v = v').
  { clear. induction u as [|x u IH]; destruct u' as [|y u']; cbn; intros v' L E; try discriminate; [auto|].
    inversion E; subst. destruct (IH v u' v') as [-> ->]; auto. }
  destruct (X _ _ _ _ LL E) as [-> E2]. destruct (X _ _ _ _ L1 E2) as [-> ->]. auto.
Qed.

Lemma halves_average (tl : list R) : length tl = w ->
  npmean (skipn (length tl / 2) tl) = Some (average (skipn (w / 2) tl)) /\
  npmean (firstn (length tl / 2) tl) = Some (average (firstn (w / 2) tl)) /\
  length (firstn (w / 2) tl) = (w / 2)%nat /\ length (skipn (w / 2) tl) = (w - w / 2)%nat.
Proof.
  intros L. rewrite L.
  assert (D : (0 < w / 2 < w)%nat) by (split; [apply Nat.div_str_pos; lia|apply Nat.div_lt; lia]).
  assert (L1 : length (firstn (w / 2) tl) = (w / 2)%nat) by (rewrite firstn_length; lia).
  assert (L2 : length (skipn (w / 2) tl) = (w - w / 2)%nat) by (rewrite skipn_length; lia).
  rewrite !npmean_average; [auto| |]; intros E; apply (f_equal (@length R)) in E; cbn [length] in E; lia.
Qed.

Lemma test_is_small_change (older newer : list R) :
  (if Req_EM_T (around 16 (average newer)) 0 then if Rle_dec 0 (tolerance cfg) then true else false
   else if Rle_dec (Rabs (average newer - average older) / Rabs (average newer)) (tolerance cfg) then true else false) = true
  <-> small_change (tolerance cfg) older newer.
Proof.
  unfold small_change.
  destruct (Req_EM_T (around 16 (average newer)) 0) as [E|E].
  - apply around_zero in E. destruct (Rle_dec (Rabs (average newer)) (/ 2 * / 10 ^ 16)); [|contradiction].
    destruct (Rle_dec 0 (tolerance cfg)); split; try discriminate; auto.
  - destruct (Rle_dec _ (/ 2 * / 10 ^ 16)) as [H|H]; [apply around_zero in H; contradiction|].
    assert (Hp : 0 < Rabs (average newer)).
    { apply Rabs_pos_lt. intros Z0. apply E. rewrite Z0. apply around_0. }
    destruct (Rle_dec _ (tolerance cfg)) as [H1|H1].
    + split; [|reflexivity]. intros _. apply (Rmult_le_compat_r (Rabs (average newer))) in H1; [|lra].
      unfold Rdiv in H1. rewrite Rmult_assoc, Rinv_l, Rmult_1_r in H1 by lra. exact H1.
    + split; [discriminate|]. intros H2. exfalso. apply H1.
      apply (Rmult_le_reg_r (Rabs (average newer))); [exact Hp|].
      unfold Rdiv. rewrite Rmult_assoc, Rinv_l, Rmult_1_r by lra. exact H2.
Qed.

Lemma step_inv h s x :
  cinv c w h s ->
  cinv c w (h ++ [x]) (fst (get_cost cfg s (Ok x))) /\
  exists r, snd (get_cost cfg s (Ok x)) = Ok r /\ verdict_ok c w (tolerance cfg) (h ++ [x]) r.
Proof.
  intros (I1 & I2 & win & I3 & I4 & I5).
  assert (Ln : length (h ++ [x]) = S (length h)) by (rewrite app_length; cbn; lia).
  unfold get_cost. rewrite Ic.
  destruct (Z.eqb_spec (Z.of_nat c) 0); [lia|].
  rewrite I1, iter_mod by exact Hc.
  unfold verdict_ok, cinv. rewrite Ln, every_snoc by exact Hc.
  destruct (Nat.eqb_spec (S (length h) mod c) 0) as [E|E].
  2:{ cbn [fst snd iteration cost_list test_list]. rewrite app_nil_r. split.
      - split; [lia|]. split; [exact I2|]. exists win. auto.
      - exists false. split; [reflexivity|]. split; [discriminate|]. intros (HD & _).
        exfalso. apply E. apply Nat.mod_divide; [lia|exact HD]. }
  assert (HD : Nat.divide c (S (length h))) by (apply Nat.mod_divide; [lia|exact E]).
  unfold check_cost. cbn [cost test_list cost_list iteration]. rewrite Iw.
  rewrite app_length. cbn [length]. rewrite Nat.add_1_r.
  destruct (Z.eqb_spec (Z.of_nat (S (length (test_list s)))) (Z.of_nat w)) as [F|F].
  - assert (Lt : length (test_list s ++ [x]) = w) by (rewrite app_length; cbn; lia).
    destruct (halves_average _ Lt) as (A1 & A2 & A3 & A4).
    rewrite Lt in A1, A2. replace (S (length (test_list s))) with w by lia. rewrite A1, A2.
    cbn [fst snd iteration cost_list test_list].
    split.
    + split; [lia|]. split; [rewrite I2; reflexivity|].
      exists (win ++ test_list s ++ [x]). rewrite app_nil_r, I3, <- app_assoc. split; [reflexivity|].
      split; [|cbn; lia]. rewrite app_length, Lt. destruct I4 as [q ->]. exists (S q). lia.
    + eexists. split; [reflexivity|]. rewrite (test_is_small_change (firstn (w / 2) (test_list s ++ [x]))). split.
      * intros SC. split; [exact HD|]. split; [lia|].
        exists win, (firstn (w / 2) (test_list s ++ [x])), (skipn (w / 2) (test_list s ++ [x])).
        rewrite firstn_skipn, I3, <- app_assoc. auto.
      * intros (_ & _ & win' & o & nn & W1 & W2 & W3 & W4 & W5).
        rewrite I3, <- app_assoc in W1.
        rewrite <- (firstn_skipn (w / 2) (test_list s ++ [x])) in W1.
        apply window_unique in W1; [|congruence|congruence]. destruct W1 as (-> & <- & <-). exact W5.
  - cbn [fst snd iteration cost_list test_list]. split.
    + split; [lia|]. split; [rewrite I2; reflexivity|]. exists win.
      rewrite I3, <- app_assoc. split; [reflexivity|]. split; [exact I4|]. rewrite app_length. cbn. lia.
    + exists false. split; [reflexivity|]. split; [discriminate|].
      intros (_ & _ & win' & o & nn & W1 & W2 & W3 & W4 & _). exfalso.
      apply (f_equal (@length R)) in W1. rewrite I3, !app_length in W1. cbn [length] in W1.
      destruct I4 as [q1 Q1]. destruct W2 as [q2 Q2]. rewrite Q1, Q2, W3, W4 in W1.
      assert ((w / 2 < w)%nat) by (apply Nat.div_lt; lia).
      assert (q1 * w + (length (test_list s) + 1) = (q2 + 1) * w)%nat by lia.
      assert (length (test_list s) + 1 < w)%nat by lia.
      assert (q1 < q2 + 1)%nat by nia. nia.
Qed.

Lemma calls_inv init h : cinv c w h (ok_calls cfg h (cost_init init)).
Proof.
  induction h as [|x h IH] using rev_ind.
  - split; [reflexivity|]. unfold every. cbn. rewrite Nat.div_0_l by lia. split; [reflexivity|].
    exists []. split; [reflexivity|]. split; [exists 0%nat; reflexivity|cbn; lia].
  - rewrite ok_calls_snoc. apply step_inv. exact IH.
Qed.

Lemma verdict init h x :
  exists r, snd (get_cost cfg (ok_calls cfg h (cost_init init)) (Ok x)) = Ok r /\
    verdict_ok c w (tolerance cfg) (h ++ [x]) r.
Proof. apply step_inv. apply calls_inv. Qed.
End H.

(** The cost list does not depend on the window at all. *)
Lemma cost_list_spec cfg c h init :
  (0 < c)%nat -> cost_interval cfg = Some (Z.of_nat c) ->
  let s := ok_calls cfg h (cost_init init) in
  iteration s = (Z.of_nat (length h) + 1)%Z /\ cost_list s = every c h.
Proof.
  intros Hc Ic. induction h as [|x h IH] using rev_ind.
  - unfold every. cbn. rewrite Nat.div_0_l by lia. auto.
  - cbn zeta in *. rewrite ok_calls_snoc, every_snoc by exact Hc.
    set (s := ok_calls cfg h (cost_init init)) in *. destruct IH as [I1 I2].
    unfold get_cost. rewrite Ic. destruct (Z.eqb_spec (Z.of_nat c) 0); [lia|].
    rewrite I1, iter_mod by exact Hc. rewrite app_length. cbn [length].
    destruct (_ =? _)%nat; cbn [fst].
    + destruct (check_cost _ _) as [s2 r] eqn:E. cbn [fst iteration cost_list].
      assert (iteration s2 = iteration s /\ cost_list s2 = cost_list s ++ [x]) as [-> ->].
      { unfold check_cost in E. cbn [cost test_list cost_list iteration] in E.
        destruct (_ =? _)%Z; inversion E; cbn; auto. }
      rewrite I1, I2. split; [lia|reflexivity].
    + cbn [iteration cost_list]. rewrite I2, app_nil_r. split; [lia|reflexivity].
Qed.

Lemma interval_none cfg h calc init :
  cost_interval cfg = None ->
  let s := cost_calls cfg h (cost_init init) in
  snd (get_cost cfg s calc) = Ok false /\ cost_list s = [].
Proof.
  intros Ic. split.
  - unfold get_cost. rewrite Ic. reflexivity.
  - induction h as [|x h IH] using rev_ind; [reflexivity|].
    unfold cost_calls in *. rewrite fold_left_app. cbn [fold_left]. unfold get_cost at 1. rewrite Ic. exact IH.
Qed.

(** ** constant cost *)
Lemma total_repeat v n : total (repeat v n) = INR n * v.
Proof. induction n; [cbn; lra|]. cbn [repeat total]. rewrite IHn, S_INR. lra. Qed.
Lemma average_repeat v n : (0 < n)%nat -> average (repeat v n) = v.
Proof.
  intros H. unfold average. rewrite total_repeat, repeat_length. field. apply not_0_INR. lia.
Qed.

Lemma nth_repeat_R (v : R) n k d : (k < n)%nat -> nth k (repeat v n) d = v.
Proof. revert k; induction n; intros [|k] H; cbn; try lia; [reflexivity|apply IHn; lia]. Qed.

Lemma every_repeat c v n : (0 < c)%nat -> every c (repeat v n) = repeat v (n / c).
Proof.
  intros Hc. unfold every. rewrite repeat_length.
  assert (G : forall m a, (a + m <= S (n / c))%nat -> (0 < a)%nat -> map (fun k => nth (k * c - 1) (repeat v n) 0) (seq a m) = repeat v m).
  { induction m as [|m IH]; intros a Ha Hp; [reflexivity|]. cbn [seq map repeat]. f_equal; [|apply IH; lia].
    apply nth_repeat_R. assert (c * (n / c) <= n)%nat by (apply Nat.mul_div_le; lia). 
    assert (a * c <= (n / c) * c)%nat by (apply Nat.mul_le_mono_r; lia). nia. }
  apply G; lia.
Qed.

Lemma app_repeat_inv (v : R) n : forall a b, a ++ b = repeat v n -> a = repeat v (length a) /\ b = repeat v (length b).
Proof.
  induction n as [|n IH]; intros a b E; cbn in E.
  - apply app_eq_nil in E. destruct E as [-> ->]. auto.
  - destruct a as [|x a]; cbn in E.
    + subst b. split; [reflexivity|]. cbn. rewrite repeat_length. reflexivity.
    + inversion E; subst. destruct (IH a b H1) as [-> ->]. cbn. rewrite !repeat_length. auto.
Qed.

Lemma constant_window w tol v m :
  (2 <= w)%nat -> 0 <= tol -> (full_quiet_window w tol (repeat v m) <-> Nat.divide w m /\ (0 < m)%nat).
Proof.
  intros Hw Ht. assert (D : (0 < w / 2 < w)%nat) by (split; [apply Nat.div_str_pos; lia|apply Nat.div_lt; lia]).
  split.
  - intros (win & o & n & E & [q Q] & L1 & L2 & _).
    apply (f_equal (@length R)) in E. rewrite repeat_length, !app_length in E.
    split; [exists (S q); lia|lia].
  - intros [[q Q] Hm]. destruct q as [|q]; [lia|].
    exists (repeat v (q * w)), (repeat v (w / 2)), (repeat v (w - w / 2)).
    rewrite <- !repeat_app, !repeat_length. split; [f_equal; lia|]. split; [exists q; lia|].
    split; [reflexivity|]. split; [reflexivity|].
    unfold small_change. rewrite !average_repeat by lia. rewrite Rminus_diag_eq, Rabs_R0 by reflexivity.
    destruct (Rle_dec _ _); [exact Ht|]. apply Rmult_le_pos; [exact Ht|apply Rabs_pos].
Qed.

Lemma constant_cost cfg c w v init n :
  (0 < c)%nat -> (2 <= w)%nat -> cost_interval cfg = Some (Z.of_nat c) ->
  test_range cfg = Z.of_nat w -> 0 <= tolerance cfg ->
  exists r, snd (get_cost cfg (ok_calls cfg (repeat v n) (cost_init init)) (Ok v)) = Ok r /\
    (r = true <-> Nat.divide (c * w) (S n)).
Proof.
  intros Hc Hw Ic Iw Ht. destruct (verdict cfg c w Hc Hw Ic Iw init (repeat v n) v) as (r & E & V).
  exists r. split; [exact E|]. unfold verdict_ok in V. rewrite V.
  rewrite <- repeat_cons. change (v :: repeat v n) with (repeat v (S n)).
  rewrite repeat_length, every_repeat, constant_window by assumption. split.
  - intros ([q Q] & _ & ([p P] & _)). exists p. rewrite Q in P. rewrite Nat.div_mul in P by lia. nia.
  - intros [q Q]. assert (Q2 : S n = (q * w * c)%nat) by nia. split; [exists (q * w)%nat; exact Q2|].
    split; [lia|]. rewrite Q2, Nat.div_mul by lia. split; [exists q; reflexivity|]. destruct q; nia.
Qed.

(** ** costObj *)
Lemma check_each_spec {X} (l : list (operator X)) :
  match check_each l with
  | Ok fs => l = map HasCost fs
  | Err e => exists pre f rest, l = map HasCost pre ++ f :: rest /\
      ((f = NoCost /\ e = ValueError) \/ (f = CostNotCallable /\ e = TypeError))
  end.
Proof.
  induction l as [|[| |f] l IH]; cbn [check_each].
  - reflexivity.
  - exists [], NoCost, l. auto.
  - exists [], CostNotCallable, l. auto.
  - destruct (check_each l) as [fs|e]; cbn [bind].
    + rewrite IH. reflexivity.
    + destruct IH as (pre & g & rest & -> & H). exists (f :: pre), g, rest. auto.
Qed.

Lemma check_each_ok {X} (fs : list (X -> R)) : check_each (map HasCost fs) = Ok fs.
Proof. induction fs as [|f fs IH]; [reflexivity|]. cbn. rewrite IH. reflexivity. Qed.

Lemma total_perm l l' : Permutation l l' -> total l = total l'.
Proof. induction 1; cbn; lra. Qed.
