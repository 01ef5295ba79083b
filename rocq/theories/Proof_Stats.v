(** Lemmas about math/stats.py and math/metrics.py. *)
From Coq Require Import Sorted Permutation.
From Verif Require Import NPReal Py IPS Model_Prox Proof_Prox Proof_OWL Spec_Stats Model_Stats.
From Coq Require Import List Lia.
Import ListNotations.
Local Open Scope R_scope.

(** * Median *)
Lemma asc_unique s t : Sorted Rle s -> Sorted Rle t -> Permutation s t -> s = t.
Proof.
  intros Ss St P. rewrite <- (rev_involutive s), <- (rev_involutive t). f_equal.
  apply desc_unique; [apply rev_sorted; exact Ss|apply rev_sorted; exact St|].
  rewrite <- Permutation_rev, P. apply Permutation_rev.
Qed.

Lemma is_median_unique l m m' : is_median l m -> is_median l m' -> m = m'.
Proof.
  intros (s & P & S & _ & ->) (s' & P' & S' & _ & ->).
  rewrite (asc_unique s s' S S'); [reflexivity|]. rewrite P, P'. reflexivity.
Qed.

Lemma half_odd n : Nat.odd n = true -> ((n - 1) / 2 = n / 2)%nat.
Proof.
  intros O. apply Nat.odd_spec in O. destruct O as (k & ->). replace (2 * k + 1 - 1)%nat with (k * 2)%nat by lia.
  replace (2 * k + 1)%nat with (1 + k * 2)%nat by lia. rewrite Nat.div_mul, Nat.div_add by lia. reflexivity.
Qed.
Lemma half_even n : Nat.odd n = false -> n <> 0%nat -> ((n - 1) / 2 = n / 2 - 1)%nat.
Proof.
  intros O N. rewrite <- Nat.negb_even in O. apply Bool.negb_false_iff, Nat.even_spec in O. destruct O as (k & ->).
  replace (2 * k - 1)%nat with (1 + (k - 1) * 2)%nat by lia. rewrite Nat.div_add by lia. rewrite (Nat.mul_comm 2 k), Nat.div_mul by lia. reflexivity.
Qed.

Lemma median_spec l m : median l = Some m <-> is_median l m.
Proof.
  assert (A : forall m, median l = Some m -> is_median l m).
  { intros q E. unfold median in E. destruct (Nat.eqb_spec (length l) 0) as [Z|N]; [discriminate|].
    exists (npsort l). split; [apply npsort_perm|]. split; [apply npsort_sorted|]. split; [intros ->; cbn in N; lia|].
    destruct (Nat.odd (length l)) eqn:O.
    - rewrite half_odd by exact O. assert (Eq : q = nth (length l / 2) (npsort l) 0) by congruence. rewrite Eq. field.
    - rewrite half_even by assumption. congruence. }
  split; [apply A|]. intros M. destruct (median l) as [q|] eqn:E.
  - f_equal. apply (is_median_unique l); [apply A; reflexivity|exact M].
  - unfold median in E. destruct M as (_ & _ & _ & N & _). destruct l; [contradiction|]. cbn in E. destruct (Nat.odd _); discriminate.
Qed.

Lemma mad_spec l d : mad l = Some d <-> is_mad l d.
Proof.
  unfold mad. split.
  - destruct (median l) as [m|] eqn:E; [|discriminate]. intros E2. exists m. split; apply median_spec; assumption.
  - intros (m & M & D). apply median_spec in M. rewrite M. apply median_spec, D.
Qed.

Lemma sorted_nth s i j : Sorted Rle s -> (i <= j < length s)%nat -> nth i s 0 <= nth j s 0.
Proof.
  intros S. apply Sorted_StronglySorted in S; [|intros a b c; lra]. revert i j.
  induction S as [|a s S IH F]; intros i j H; [cbn in H; lia|]. destruct j as [|j]; [replace i with 0%nat by lia; lra|].
  destruct i as [|i]; cbn [nth].
  - rewrite Forall_forall in F. apply F. apply nth_In. cbn in H. lia.
  - apply IH. cbn in H. lia.
Qed.

Lemma is_median_affine a b l m : is_median l m -> is_median (map (fun x => a * x + b) l) (a * m + b).
Proof.
  intros (s & P & Ss & N & ->). set (f := fun x => a * x + b).
  assert (L : length s = length l) by (apply Permutation_length; exact P).
  assert (Nl : length l <> 0%nat) by (destruct l; [contradiction|cbn; lia]).
  assert (K1 : ((length l - 1) / 2 < length l)%nat) by (apply Nat.div_lt_upper_bound; lia).
  assert (K2 : (length l / 2 < length l)%nat) by (apply Nat.div_lt; lia).
  destruct (Rle_dec 0 a) as [Ha|Ha].
  - exists (map f s). split; [apply Permutation_map; exact P|]. split; [|split].
    + clear -Ss Ha. induction Ss as [|x s Ss IH Hd]; cbn; constructor; [exact IH|]. destruct Hd; cbn; constructor. unfold f. nra.
    + destruct l; [contradiction|discriminate].
    + rewrite map_length. rewrite !(nth_indep (map f s) 0 (f 0)) by (rewrite map_length, L; assumption).
      rewrite !map_nth. unfold f. field.
  - exists (map f (rev s)). split; [apply Permutation_map; rewrite <- P; symmetry; apply Permutation_rev|]. split; [|split].
    + apply rev_sorted in Ss. clear -Ss Ha. induction Ss as [|x s' Ss IH Hd]; cbn; constructor; [exact IH|]. destruct Hd as [|y s' Hy]; cbn; constructor.
      unfold f, Proof_OWL.ge in *. nra.
    + destruct l; [contradiction|discriminate].
    + rewrite map_length. rewrite !(nth_indep (map f (rev s)) 0 (f 0)) by (rewrite map_length, rev_length, L; assumption).
      rewrite !map_nth. rewrite !rev_nth by lia. rewrite L.
      assert (E1 : (length l - S ((length l - 1) / 2) = length l / 2)%nat).
      { destruct (Nat.odd (length l)) eqn:O; [rewrite half_odd by exact O|rewrite half_even by assumption].
        - apply Nat.odd_spec in O. destruct O as (k & Ek). rewrite Ek at 2 3. rewrite Ek. replace (2 * k + 1)%nat with (1 + k * 2)%nat by lia. rewrite Nat.div_add by lia. cbn. lia.
        - rewrite <- Nat.negb_even in O. apply Bool.negb_false_iff, Nat.even_spec in O. destruct O as (k & Ek). rewrite Ek, (Nat.mul_comm 2 k), Nat.div_mul by lia. lia. }
      assert (E2 : (length l - S (length l / 2) = (length l - 1) / 2)%nat) by lia.
      rewrite E1, E2. unfold f. field.
Qed.

Lemma is_median_perm l l' m : Permutation l l' -> is_median l m -> is_median l' m.
Proof.
  intros Q (s & P & S & N & E). exists s. split; [rewrite P; exact Q|]. split; [exact S|].
  split; [intros ->; apply N, Permutation_nil; symmetry; exact Q|]. rewrite <- (Permutation_length Q). exact E.
Qed.

(** * Counting *)
Lemma count_perm {A} (f : A -> bool) l l' : Permutation l l' -> count f l = count f l'.
Proof. unfold count. induction 1; cbn; try (destruct (f x)); try destruct (f y); cbn; congruence. Qed.
Lemma count_app {A} (f : A -> bool) l l' : count f (l ++ l') = (count f l + count f l')%nat.
Proof. unfold count. induction l as [|a l IH]; cbn; [reflexivity|]. destruct (f a); cbn; lia. Qed.
Lemma count_all {A} (f : A -> bool) l : (forall x, In x l -> f x = true) -> count f l = length l.
Proof. unfold count. induction l as [|a l IH]; intros F; cbn; [reflexivity|]. rewrite F by (left; reflexivity). cbn. rewrite IH; [reflexivity|]. intros; apply F; right; assumption. Qed.
Lemma count_map {A B} (g : A -> B) (f : B -> bool) l : count f (map g l) = count (fun x => f (g x)) l.
Proof. unfold count. induction l as [|a l IH]; cbn; [reflexivity|]. destruct (f (g a)); cbn; lia. Qed.
Lemma count_le {A} (f g : A -> bool) l : (forall x, In x l -> f x = true -> g x = true) -> (count f l <= count g l)%nat.
Proof.
  unfold count. induction l as [|a l IH]; intros F; cbn; [lia|]. specialize (IH ltac:(intros; apply F; [right|]; assumption)).
  destruct (f a) eqn:E; [rewrite (F a (or_introl eq_refl) E); cbn; lia|]. destruct (g a); cbn; lia.
Qed.
Lemma count_disjoint {A} (f g : A -> bool) l : (forall x, In x l -> f x = true -> g x = false) -> (count f l + count g l <= length l)%nat.
Proof.
  unfold count. induction l as [|a l IH]; intros F; cbn; [lia|]. specialize (IH ltac:(intros; apply F; [right|]; assumption)).
  destruct (f a) eqn:E; [rewrite (F a (or_introl eq_refl) E); cbn; lia|]. destruct (g a); cbn; lia.
Qed.
Lemma Rleb_spec a b : Rleb a b = true <-> a <= b.
Proof. unfold Rleb. destruct (Rle_dec a b); split; intros; try assumption; try reflexivity; try discriminate; contradiction. Qed.

Lemma median_halves l m : is_median l m ->
  (length l <= 2 * count (fun x => Rleb x m) l)%nat /\ (length l <= 2 * count (fun x => Rleb m x) l)%nat.
Proof.
  intros (s & P & S & N & E). assert (L : length s = length l) by (apply Permutation_length; exact P).
  rewrite <- !(count_perm _ s l P), <- L. rewrite <- L in E.
  assert (Ns : length s <> 0%nat) by (rewrite L; destruct l; [contradiction|cbn; lia]).
  assert (D : (length s = 2 * ((length s - 1) / 2) + 1 \/ length s = 2 * ((length s - 1) / 2) + 2)%nat).
  { pose proof (Nat.div_mod (length s - 1) 2 ltac:(lia)). pose proof (Nat.mod_upper_bound (length s - 1) 2 ltac:(lia)). lia. }
  assert (K : (length s / 2 = length s - 1 - (length s - 1) / 2)%nat).
  { pose proof (Nat.div_mod (length s) 2 ltac:(lia)). pose proof (Nat.mod_upper_bound (length s) 2 ltac:(lia)). lia. }
  set (p := ((length s - 1) / 2)%nat) in *. set (q := (length s / 2)%nat) in *.
  assert (M : nth p s 0 <= nth q s 0) by (apply sorted_nth; [exact S|lia]).
  split.
  - rewrite <- (firstn_skipn (p + 1) s) at 2. rewrite count_app, count_all.
    + rewrite firstn_length. lia.
    + intros x Hx. apply Rleb_spec. apply (In_nth _ _ 0) in Hx. destruct Hx as (i & Hi & <-). rewrite firstn_length in Hi.
      assert (Hn : nth i (firstn (p + 1) s) 0 = nth i s 0).
      { rewrite <- (firstn_skipn (p + 1) s) at 2. rewrite app_nth1; [reflexivity|rewrite firstn_length; lia]. }
      rewrite Hn. pose proof (sorted_nth s i p S ltac:(lia)). lra.
  - rewrite <- (firstn_skipn q s) at 2. rewrite count_app, (count_all _ (skipn q s)).
    + rewrite skipn_length. lia.
    + intros x Hx. apply Rleb_spec. apply (In_nth _ _ 0) in Hx. destruct Hx as (i & Hi & <-). rewrite skipn_length in Hi.
      assert (Hn : nth i (skipn q s) 0 = nth (q + i) s 0).
      { rewrite <- (firstn_skipn q s) at 2. rewrite app_nth2; [f_equal|]; rewrite firstn_length; lia. }
      rewrite Hn. pose proof (sorted_nth s q (q + i) S ltac:(lia)). lra.
Qed.

Lemma in_interval_spec lo hi x : in_interval lo hi x = true <-> lo <= x <= hi.
Proof. unfold in_interval. rewrite Bool.andb_true_iff, !Rleb_spec. tauto. Qed.

Lemma median_interval l m lo hi : is_median l m -> (length l < 2 * count (in_interval lo hi) l)%nat -> lo <= m <= hi.
Proof.
  intros M C. destruct (median_halves l m M) as [A B]. split; apply Rnot_lt_le; intros H.
  - assert (D : (count (in_interval lo hi) l + count (fun x => Rleb x m) l <= length l)%nat).
    { apply count_disjoint. intros x _ Hx. apply in_interval_spec in Hx. unfold Rleb. destruct (Rle_dec x m); [lra|reflexivity]. }
    lia.
  - assert (D : (count (in_interval lo hi) l + count (fun x => Rleb m x) l <= length l)%nat).
    { apply count_disjoint. intros x _ Hx. apply in_interval_spec in Hx. unfold Rleb. destruct (Rle_dec m x); [lra|reflexivity]. }
    lia.
Qed.

(** * Extrema, means *)
Lemma fold_max_ge d l x : x = d \/ In x l -> x <= fold_right Rmax d l.
Proof.
  induction l as [|a l IH]; cbn; intros H; [destruct H as [->|[]]; lra|].
  destruct H as [H|[->|H]]; [|apply Rmax_l|]; (eapply Rle_trans; [apply IH; auto|apply Rmax_r]).
Qed.
Lemma fold_max_in d l : fold_right Rmax d l = d \/ In (fold_right Rmax d l) l.
Proof.
  induction l as [|a l IH]; cbn; [left; reflexivity|]. set (m := fold_right Rmax d l) in *. clearbody m. unfold Rmax. destruct (Rle_dec a m); [|right; left; reflexivity].
  destruct IH as [I|I]; [left; exact I|right; right; exact I].
Qed.
Lemma fold_min_le d l x : x = d \/ In x l -> fold_right Rmin d l <= x.
Proof.
  induction l as [|a l IH]; cbn; intros H; [destruct H as [->|[]]; lra|].
  destruct H as [H|[->|H]]; [|apply Rmin_l|]; (eapply Rle_trans; [apply Rmin_r|apply IH; auto]).
Qed.
Lemma fold_min_in d l : fold_right Rmin d l = d \/ In (fold_right Rmin d l) l.
Proof.
  induction l as [|a l IH]; cbn; [left; reflexivity|]. set (m := fold_right Rmin d l) in *. clearbody m. unfold Rmin. destruct (Rle_dec a m); [right; left; reflexivity|].
  destruct IH as [I|I]; [left; exact I|right; right; exact I].
Qed.
Lemma hd_in (l : list R) : l <> [] -> In (hd 0 l) l.
Proof. destruct l; [contradiction|left; reflexivity]. Qed.
Lemma lmax_spec l : l <> [] -> is_max l (lmax l).
Proof.
  intros N. split; [|intros x Hx; apply fold_max_ge; right; exact Hx].
  destruct (fold_max_in (hd 0 l) l) as [E|E]; [unfold lmax; rewrite E; apply hd_in, N|exact E].
Qed.
Lemma lmin_spec l : l <> [] -> is_min l (lmin l).
Proof.
  intros N. split; [|intros x Hx; apply fold_min_le; right; exact Hx].
  destruct (fold_min_in (hd 0 l) l) as [E|E]; [unfold lmin; rewrite E; apply hd_in, N|exact E].
Qed.
Lemma is_max_unique l m m' : is_max l m -> is_max l m' -> m = m'.
Proof. intros [A B] [C D]. apply Rle_antisym; auto. Qed.
Lemma is_min_unique l m m' : is_min l m -> is_min l m' -> m = m'.
Proof. intros [A B] [C D]. apply Rle_antisym; auto. Qed.
Lemma lmax_eq l m : is_max l m -> lmax l = m.
Proof. intros M. apply (is_max_unique l); [apply lmax_spec; intros ->; destruct M as [[] _]|exact M]. Qed.
Lemma lmin_eq l m : is_min l m -> lmin l = m.
Proof. intros M. apply (is_min_unique l); [apply lmin_spec; intros ->; destruct M as [[] _]|exact M]. Qed.

Lemma rsum_sum_over l : rsum l = sum_over (fun x => x) l.
Proof. induction l as [|a l IH]; [reflexivity|]. cbn. rewrite <- IH. reflexivity. Qed.
Lemma sum_over_map {A B} (g : A -> B) f l : sum_over f (map g l) = sum_over (fun x => f (g x)) l.
Proof. induction l as [|a l IH]; cbn; [reflexivity|]. rewrite IH. reflexivity. Qed.
Lemma sum_over_ext {A} (f g : A -> R) l : (forall x, In x l -> f x = g x) -> sum_over f l = sum_over g l.
Proof. induction l as [|a l IH]; intros E; cbn; [reflexivity|]. rewrite E, IH by (auto using in_eq, in_cons). reflexivity. Qed.
Lemma sum_over_nonneg {A} (f : A -> R) l : (forall x, In x l -> 0 <= f x) -> 0 <= sum_over f l.
Proof. induction l as [|a l IH]; intros E; cbn; [lra|]. assert (0 <= f a) by auto using in_eq. specialize (IH ltac:(auto using in_cons)). lra. Qed.
Lemma sum_over_zero {A} (f : A -> R) l : (forall x, In x l -> 0 <= f x) -> sum_over f l = 0 -> forall x, In x l -> f x = 0.
Proof.
  induction l as [|a l IH]; intros E Z x Hx; [contradiction|]. cbn in Z. assert (0 <= f a) by auto using in_eq.
  assert (0 <= sum_over f l) by (apply sum_over_nonneg; auto using in_cons).
  destruct Hx as [<-|Hx]; [lra|]. apply IH; auto using in_cons. lra.
Qed.
Lemma sum_over_bound {A} (f : A -> R) c l : (forall x, In x l -> f x <= c) -> sum_over f l <= c * INR (length l).
Proof.
  induction l as [|a l IH]; intros E; cbn [sum_over length]; [cbn; lra|]. rewrite S_INR. assert (f a <= c) by auto using in_eq.
  specialize (IH ltac:(auto using in_cons)). lra.
Qed.
Lemma sum_over_scal {A} (f : A -> R) c l : sum_over (fun x => c * f x) l = c * sum_over f l.
Proof. induction l as [|a l IH]; cbn; [ring|]. rewrite IH. ring. Qed.
Lemma map2_combine {A B C} (f : A -> B -> C) l m : map2 f l m = map (fun p => f (fst p) (snd p)) (combine l m).
Proof. revert m. induction l as [|a l IH]; intros [|b m]; cbn; try reflexivity. rewrite IH. reflexivity. Qed.
Lemma mean_map {A} (f : A -> R) l : mean (map f l) = mean_over f l.
Proof. unfold mean, mean_over. rewrite rsum_sum_over, sum_over_map, map_length. reflexivity. Qed.
Lemma mse_spec a b : mse a b = mean_over sq_err (combine a b).
Proof.
  unfold mse. rewrite map2_combine, mean_map. unfold mean_over. f_equal. apply sum_over_ext. intros [x y] _. unfold sq_err. cbn. ring.
Qed.
Lemma sq_err_nonneg p : 0 <= sq_err p.
Proof. unfold sq_err. apply Rle_0_sqr. Qed.
Lemma mean_nonneg {A} (f : A -> R) l : (forall x, In x l -> 0 <= f x) -> 0 <= mean_over f l.
Proof.
  intros E. unfold mean_over. destruct l as [|a l]; [cbn; lra|]. apply Rmult_le_pos; [apply sum_over_nonneg, E|].
  apply Rlt_le, Rinv_0_lt_compat, lt_0_INR. cbn; lia.
Qed.
Lemma mean_zero {A} (f : A -> R) l : (forall x, In x l -> 0 <= f x) -> mean_over f l = 0 -> forall x, In x l -> f x = 0.
Proof.
  intros E Z. apply sum_over_zero; [exact E|]. unfold mean_over in Z. destruct l as [|a l]; [reflexivity|].
  assert (P : 0 < INR (length (a :: l))) by (apply lt_0_INR; cbn; lia).
  apply Rmult_eq_reg_r with (/ INR (length (a :: l))); [unfold Rdiv in Z; rewrite Z; ring|apply Rinv_neq_0_compat; lra].
Qed.
Lemma mse_zero a b : length a = length b -> mean_over sq_err (combine a b) = 0 -> a = b.
Proof.
  intros L Z. assert (F := mean_zero sq_err (combine a b) (fun p _ => sq_err_nonneg p) Z). clear Z.
  revert b L F. induction a as [|x a IH]; intros [|y b] L F; try discriminate; [reflexivity|].
  cbn in F. f_equal; [|apply IH; [cbn in L; lia|]; intros p Hp; apply F; right; exact Hp].
  specialize (F (x, y) (or_introl eq_refl)). unfold sq_err in F. cbn in F. nra.
Qed.
Lemma combine_self {A} (l : list A) : combine l l = map (fun x => (x, x)) l.
Proof. induction l as [|a l IH]; cbn; [reflexivity|]. rewrite IH. reflexivity. Qed.
Lemma mse_self a : mean_over sq_err (combine a a) = 0.
Proof.
  unfold mean_over. rewrite combine_self, sum_over_map. rewrite (sum_over_ext _ (fun _ => 0 * 0)) by (intros; unfold sq_err; cbn; ring).
  rewrite sum_over_scal. unfold Rdiv. ring.
Qed.
Lemma combine_swap {A B} (a : list A) (b : list B) : combine b a = map (fun p => (snd p, fst p)) (combine a b).
Proof. revert b. induction a as [|x a IH]; intros [|y b]; cbn; try reflexivity. rewrite IH. reflexivity. Qed.
Lemma mse_sym a b : mean_over sq_err (combine a b) = mean_over sq_err (combine b a).
Proof.
  rewrite (combine_swap a b). unfold mean_over. rewrite sum_over_map, map_length. f_equal. apply sum_over_ext.
  intros [x y] _. unfold sq_err. cbn. ring.
Qed.

(** * Logarithms *)
Lemma ln10_pos : 0 < ln 10.
Proof. rewrite <- ln_1. apply ln_increasing; lra. Qed.
Lemma log10_mult a b : 0 < a -> 0 < b -> log10 (a * b) = log10 a + log10 b.
Proof. intros. unfold log10. rewrite ln_mult by assumption. pose proof ln10_pos. field. lra. Qed.
Lemma log10_inv a : 0 < a -> log10 (/ a) = - log10 a.
Proof. intros. unfold log10. rewrite ln_Rinv by assumption. pose proof ln10_pos. field. lra. Qed.
Lemma log10_div a b : 0 < a -> 0 < b -> log10 (a / b) = log10 a - log10 b.
Proof. intros. unfold Rdiv. rewrite log10_mult, log10_inv by auto using Rinv_0_lt_compat. ring. Qed.
Lemma log10_sqrt a : 0 < a -> log10 (sqrt a) = log10 a / 2.
Proof.
  intros Ha. pose proof (sqrt_lt_R0 a Ha). rewrite <- (sqrt_sqrt a) at 2 by lra. rewrite log10_mult by assumption. field.
Qed.
Lemma log10_increasing a b : 0 < a -> a < b -> log10 a < log10 b.
Proof. intros Ha Hb. unfold log10. apply Rmult_lt_compat_r; [apply Rinv_0_lt_compat, ln10_pos|apply ln_increasing; assumption]. Qed.
Lemma flog_pos x : 0 < x -> flog10 (Fin x) = Fin (log10 x).
Proof. intros. unfold flog10. destruct (Rlt_dec 0 x); [reflexivity|contradiction]. Qed.
Lemma flog_zero : flog10 (Fin 0) = NInf.
Proof. unfold flog10. destruct (Rlt_dec 0 0); [lra|]. destruct (Req_EM_T 0 0); [reflexivity|lra]. Qed.
Lemma fdiv_pos a b : b <> 0 -> fdiv a b = Fin (a / b).
Proof. intros. unfold fdiv. destruct (Req_EM_T b 0); [contradiction|reflexivity]. Qed.
Lemma fdiv_zero a : 0 < a -> fdiv a 0 = PInf.
Proof. intros. unfold fdiv. destruct (Req_EM_T 0 0); [|lra]. destruct (Req_EM_T a 0); [lra|]. destruct (Rlt_dec 0 a); [reflexivity|lra]. Qed.

Lemma norm_diff a b : norm2l (map2 Rminus a b) = sqrt (sum_over sq_err (combine a b)).
Proof.
  unfold norm2l. f_equal. rewrite map2_combine, map_map, rsum_sum_over, sum_over_map. apply sum_over_ext. intros [x y] _. reflexivity.
Qed.

(** * Normalisation *)
Definition rescale (lo hi : R) (l : list R) : list R := map (fun x => (x - lo) / (hi - lo)) l.
Lemma mmn_some l lo hi : is_min l lo -> is_max l hi -> lo < hi -> min_max_normalize l = Some (rescale lo hi l).
Proof.
  intros A B H. unfold min_max_normalize. rewrite (lmax_eq l hi B), (lmin_eq l lo A). destruct (Req_EM_T (hi - lo) 0); [lra|reflexivity].
Qed.
Lemma mmn_inv l n : min_max_normalize l = Some n -> exists lo hi, is_min l lo /\ is_max l hi /\ lo < hi /\ n = rescale lo hi l.
Proof.
  unfold min_max_normalize. destruct (Req_EM_T (lmax l - lmin l) 0) as [|N]; [discriminate|]. intros E. injection E as <-.
  assert (Nl : l <> []). { intros ->. apply N. unfold lmax, lmin. cbn. ring. }
  exists (lmin l), (lmax l). pose proof (lmin_spec l Nl) as A. pose proof (lmax_spec l Nl) as B.
  split; [exact A|]. split; [exact B|]. split; [|reflexivity]. destruct A as [A1 _]. destruct B as [_ B2]. specialize (B2 _ A1). lra.
Qed.
Lemma mmn_none l : min_max_normalize l = None <-> (forall x y, In x l -> In y l -> x = y).
Proof.
  unfold min_max_normalize. destruct (Req_EM_T (lmax l - lmin l) 0) as [E|N].
  - split; [|reflexivity]. intros _ x y Hx Hy. assert (Nl : l <> []) by (intros ->; contradiction).
    destruct (lmax_spec l Nl) as [_ A]. destruct (lmin_spec l Nl) as [_ B].
    pose proof (A x Hx). pose proof (A y Hy). pose proof (B x Hx). pose proof (B y Hy). lra.
  - split; [discriminate|]. intros C. exfalso. apply N. destruct l as [|a l]; [unfold lmax, lmin; cbn; ring|].
    assert (Nl : a :: l <> []) by discriminate. rewrite (C (lmax (a :: l)) (lmin (a :: l))); [ring|apply lmax_spec, Nl|apply lmin_spec, Nl].
Qed.
Lemma rescale_range lo hi l : is_min l lo -> is_max l hi -> lo < hi -> is_min (rescale lo hi l) 0 /\ is_max (rescale lo hi l) 1.
Proof.
  intros [A1 A2] [B1 B2] H. assert (P : 0 < / (hi - lo)) by (apply Rinv_0_lt_compat; lra).
  split; (split; [apply in_map_iff|intros x Hx; apply in_map_iff in Hx; destruct Hx as (y & <- & Hy)]).
  - exists lo. split; [unfold Rdiv; ring|exact A1].
  - apply Rmult_le_pos; [pose proof (A2 y Hy); lra|lra].
  - exists hi. split; [field; lra|exact B1].
  - apply Rmult_le_reg_r with (hi - lo); [lra|]. unfold Rdiv. rewrite Rmult_assoc, Rinv_l by lra. pose proof (B2 y Hy). lra.
Qed.
Lemma rescale_id n : rescale 0 1 n = n.
Proof. unfold rescale. rewrite <- (map_id n) at 2. apply map_ext. intros x. field. Qed.
Lemma real_px_abs n : Forall (fun x => 0 <= x) n -> map magnitude (real_px n) = n.
Proof.
  unfold real_px. rewrite map_map. intros F. rewrite <- (map_id n) at 2. apply map_ext_in. intros x Hx. rewrite Forall_forall in F.
  unfold magnitude. cbn. replace (x * (x * 1) + 0 * (0 * 1)) with (x * x) by ring. apply sqrt_square, F, Hx.
Qed.
Lemma rescale_nonneg lo hi l : is_min l lo -> is_max l hi -> lo < hi -> Forall (fun x => 0 <= x) (rescale lo hi l).
Proof. intros A B H. apply Forall_forall. intros x Hx. destruct (rescale_range lo hi l A B H) as [[_ R] _]. apply R, Hx. Qed.
(** Normalising twice changes nothing. *)
Lemma renormalise l n : min_max_normalize l = Some n -> min_max_normalize (map magnitude (real_px n)) = Some n.
Proof.
  intros E. apply mmn_inv in E. destruct E as (lo & hi & A & B & H & ->). rewrite real_px_abs by (apply rescale_nonneg; assumption).
  destruct (rescale_range lo hi l A B H) as [A' B']. rewrite (mmn_some _ 0 1 A' B' ltac:(lra)), rescale_id. reflexivity.
Qed.

Lemma m_mse_nomask test ref t r : min_max_normalize (map magnitude test) = Some t -> min_max_normalize (map magnitude ref) = Some r ->
  m_mse test ref MNone = Ok (Fin (mean_over sq_err (combine t r))).
Proof.
  intros E1 E2. unfold m_mse, preprocess. rewrite E1, E2. cbn [bind apply_mask]. do 2 f_equal.
  rewrite map2_combine, map_map, mean_map. reflexivity.
Qed.
Lemma apply_ones t n : length t = n -> apply_mask (Some (repeat 1 n)) t = t.
Proof.
  intros <-. cbn. induction t as [|x t IH]; cbn; [reflexivity|]. rewrite IH. f_equal. ring.
Qed.
Lemma mmn_length l n : min_max_normalize l = Some n -> length n = length l.
Proof. intros E. apply mmn_inv in E. destruct E as (lo & hi & _ & _ & _ & ->). apply map_length. Qed.
