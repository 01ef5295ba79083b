(** Theorems about math/stats.py (C71-C74) and math/metrics.py (C75-C78). *)
From Coq Require Import Sorted Permutation.
From Verif Require Import NPReal Py IPS Spec_Stats Model_Stats Proof_Stats.
From Coq Require Import List Lia.
Import ListNotations.
Local Open Scope R_scope.

(** * C71 *)
(** [C71] mad is the median absolute deviation, and sigma_mad 1.4826 times it; at least half of the
    data lie within it of the median. No data gives nan. *)
Theorem C71_mad_is_median_deviation : forall l,
  (l = [] -> mad l = None) /\ (l <> [] -> exists d, mad l = Some d /\ is_mad l d /\ sigma_mad l = Some (1.4826 * d) /\
     exists m, is_median l m /\ (length l <= 2 * count (fun x => Rleb (Rabs (x - m)) d) l)%nat).
Proof.
  intros l. split; [intros ->; reflexivity|]. intros N.
  assert (M : exists m, median l = Some m).
  { unfold median. destruct l; [contradiction|]. cbn [Nat.eqb length]. destruct (Nat.odd _); eexists; reflexivity. }
  destruct M as (m & Em).
  assert (D : exists d, median (map (fun x => Rabs (x - m)) l) = Some d).
  { unfold median. destruct l; [contradiction|]. cbn [Nat.eqb length map]. destruct (Nat.odd _); eexists; reflexivity. }
  destruct D as (d & Ed). exists d. assert (E : mad l = Some d) by (unfold mad; rewrite Em; exact Ed).
  split; [exact E|]. split; [apply mad_spec, E|]. split; [unfold sigma_mad; rewrite E; cbn; do 2 f_equal; lra|].
  exists m. split; [apply median_spec, Em|]. apply median_spec, median_halves in Ed. rewrite map_length, count_map in Ed. apply Ed.
Qed.
Print Assumptions C71_mad_is_median_deviation.

(** [C71] mad does not change when a constant is added, scales with |a|, and does not depend on the
    order of the pixels. *)
Theorem C71_invariances : forall l d, mad l = Some d ->
  (forall c, mad (map (fun x => x + c) l) = Some d) /\
  (forall a, mad (map (fun x => a * x) l) = Some (Rabs a * d)) /\
  (forall l', Permutation l l' -> mad l' = Some d).
Proof.
  intros l d E. apply mad_spec in E. destruct E as (m & M & D). split; [|split].
  - intros c. apply mad_spec. exists (1 * m + c). split.
    + replace (map (fun x => x + c) l) with (map (fun x => 1 * x + c) l) by (apply map_ext; intros; ring). apply is_median_affine, M.
    + rewrite map_map. replace (map (fun x => Rabs (x + c - (1 * m + c))) l) with (map (fun x => Rabs (x - m)) l) by (apply map_ext; intros; f_equal; ring). exact D.
  - intros a. apply mad_spec. exists (a * m + 0). split.
    + replace (map (fun x => a * x) l) with (map (fun x => a * x + 0) l) by (apply map_ext; intros; ring). apply is_median_affine, M.
    + rewrite map_map. replace (map (fun x => Rabs (a * x - (a * m + 0))) l) with (map (fun y => Rabs a * y + 0) (map (fun x => Rabs (x - m)) l)).
      * replace (Rabs a * d) with (Rabs a * d + 0) by ring. apply is_median_affine, D.
      * rewrite map_map. apply map_ext. intros x. rewrite Rplus_0_r, <- Rabs_mult. f_equal. ring.
  - intros l' P. apply mad_spec. exists m. split; [eapply is_median_perm; [exact P|exact M]|].
    eapply is_median_perm; [apply Permutation_map, P|exact D].
Qed.
Print Assumptions C71_invariances.

(** [C71] Robustness: when more than half of the data lie in [lo, hi], whatever the others are,
    0 <= mad <= hi - lo. *)
Theorem C71_robust : forall l lo hi d, (length l < 2 * count (in_interval lo hi) l)%nat -> mad l = Some d -> 0 <= d <= hi - lo.
Proof.
  intros l lo hi d C E. apply mad_spec in E. destruct E as (m & M & D).
  pose proof (median_interval l m lo hi M C) as B. apply (median_interval _ d 0 (hi - lo) D).
  rewrite map_length, count_map. eapply Nat.lt_le_trans; [exact C|]. apply Nat.mul_le_mono_l. apply count_le.
  intros x _ Hx. apply in_interval_spec in Hx. apply in_interval_spec. split; [apply Rabs_pos|]. unfold Rabs. destruct (Rcase_abs _); lra.
Qed.
Print Assumptions C71_robust.

Example C71_example : mad [0; 1; 2; 3; 4; 5; 6; 7; 8] = Some 2.
Proof.
  apply mad_spec. exists 4. split.
  - exists [0; 1; 2; 3; 4; 5; 6; 7; 8]. split; [reflexivity|]. split; [repeat (constructor; try lra)|]. split; [discriminate|]. cbn. lra.
  - exists [0; 1; 1; 2; 2; 3; 3; 4; 4]. split.
    + cbn. rewrite (Rabs_left (0 - 4)), (Rabs_left (1 - 4)), (Rabs_left (2 - 4)), (Rabs_left (3 - 4)) by lra.
      rewrite (Rabs_right (4 - 4)), (Rabs_right (5 - 4)), (Rabs_right (6 - 4)), (Rabs_right (7 - 4)), (Rabs_right (8 - 4)) by lra.
      replace (- (0 - 4)) with 4 by ring. replace (- (1 - 4)) with 3 by ring. replace (- (2 - 4)) with 2 by ring. replace (- (3 - 4)) with 1 by ring.
      replace (4 - 4) with 0 by ring. replace (5 - 4) with 1 by ring. replace (6 - 4) with 2 by ring. replace (7 - 4) with 3 by ring. replace (8 - 4) with 4 by ring.
      apply (Permutation_trans (l' := rev [4; 3; 2; 1; 0; 1; 2; 3; 4])); [|symmetry; apply Permutation_rev]. cbn.
      change [4; 3; 2; 1; 0; 1; 2; 3; 4] with ([4; 3; 2; 1] ++ 0 :: [1; 2; 3; 4]). apply Permutation_cons_app. cbn.
      change [4; 3; 2; 1; 1; 2; 3; 4] with ([4; 3; 2] ++ 1 :: [1; 2; 3; 4]). apply Permutation_cons_app. cbn.
      change [4; 3; 2; 1; 2; 3; 4] with ([4; 3; 2] ++ 1 :: [2; 3; 4]). apply Permutation_cons_app. cbn.
      change [4; 3; 2; 2; 3; 4] with ([4; 3] ++ 2 :: [2; 3; 4]). apply Permutation_cons_app. cbn.
      change [4; 3; 2; 3; 4] with ([4; 3] ++ 2 :: [3; 4]). apply Permutation_cons_app. cbn.
      change [4; 3; 3; 4] with ([4] ++ 3 :: [3; 4]). apply Permutation_cons_app. cbn.
      change [4; 3; 4] with ([4] ++ 3 :: [4]). apply Permutation_cons_app. cbn. reflexivity.
    + split; [repeat (constructor; try lra)|]. split; [discriminate|]. cbn. lra.
Qed.

(** * C72 *)
(** [C72] stats.mse of two images of the same (non-empty) size is the mean squared difference: it is
    symmetric, non-negative, 0 exactly for equal images, and scales with the square. *)
Theorem C72_mse : forall a b, a <> [] -> length a = length b ->
  mse a b = mean_over sq_err (combine a b) /\ mse a b = mse b a /\ 0 <= mse a b /\ (mse a b = 0 <-> a = b) /\
  (forall c, mse (map (Rmult c) a) (map (Rmult c) b) = c * c * mse a b) /\
  (forall c, mse (map (Rplus c) a) (map (Rplus c) b) = mse a b).
Proof.
  intros a b _ L. rewrite !mse_spec. split; [reflexivity|]. split; [apply mse_sym|]. split; [apply mean_nonneg; intros; apply sq_err_nonneg|].
  split; [split; [apply mse_zero, L|intros ->; apply mse_self]|].
  assert (G : forall f : R -> R, combine (map f a) (map f b) = map (fun p => (f (fst p), f (snd p))) (combine a b)).
  { intros f. clear L. revert b. induction a as [|x a IH]; intros [|y b]; cbn; try reflexivity. rewrite IH. reflexivity. }
  split; intros c; rewrite mse_spec, G; unfold mean_over; rewrite sum_over_map, map_length.
  - rewrite (sum_over_ext _ (fun p => c * c * sq_err p)) by (intros [x y] _; unfold sq_err; cbn; ring). rewrite sum_over_scal. unfold Rdiv. ring.
  - f_equal. apply sum_over_ext. intros [x y] _. unfold sq_err. cbn. ring.
Qed.
Print Assumptions C72_mse.

(** [C72, refuted] On 8-bit images (dtype uint8) the difference and the square wrap around: two
    different images can have mse 0. *)
Theorem C72_uint8_refuted :
  exists a b : list Z, length a = length b /\ Forall (fun x => (0 <= x < 256)%Z) (a ++ b) /\ a <> b /\ mse_u8 a b = 0.
Proof.
  exists [0; 16; 32]%Z, [16; 0; 48]%Z. split; [reflexivity|]. split; [repeat (constructor; [lia|]); constructor|]. split; [discriminate|].
  unfold mse_u8, mean. cbn. lra.
Qed.
Print Assumptions C72_uint8_refuted.

Example C72_example : mse [0; 1; 2] [2; 3; 4] = 4.
Proof. unfold mse, mean. cbn. lra. Qed.

(** * C73 *)
(** [C73] 'wiki': 10 log10(max_pix^2 / mse), infinite for equal images, and larger for the smaller mse. *)
Theorem C73_wiki : forall rows a b max_pix, a <> [] -> length a = length b -> 0 < max_pix ->
  (a <> b -> psnr rows a b Wiki max_pix = Ok (Fin (10 * log10 (max_pix * max_pix / mean_over sq_err (combine a b))))) /\
  (a = b -> psnr rows a b Wiki max_pix = Ok PInf).
Proof.
  intros rows a b M _ L HM. unfold psnr. rewrite mse_spec. split.
  - intros N. assert (P : 0 < mean_over sq_err (combine a b)).
    { pose proof (mean_nonneg sq_err (combine a b) (fun p _ => sq_err_nonneg p)). destruct (Req_dec (mean_over sq_err (combine a b)) 0) as [Z|Z]; [|lra].
      exfalso. apply N, mse_zero; assumption. }
    rewrite flog_pos by exact P. cbn. do 2 f_equal. rewrite log10_div, log10_mult by (try exact P; try apply Rmult_lt_0_compat; assumption). ring.
  - intros ->. rewrite mse_self, flog_zero. reflexivity.
Qed.
Print Assumptions C73_wiki.

Theorem C73_wiki_ranks_by_error : forall rows a b b' M p p', a <> [] -> length a = length b -> length a = length b' -> 0 < M -> a <> b -> a <> b' ->
  psnr rows a b Wiki M = Ok (Fin p) -> psnr rows a b' Wiki M = Ok (Fin p') ->
  (p' < p <-> mean_over sq_err (combine a b) < mean_over sq_err (combine a b')).
Proof.
  intros rows a b b' M p p' Hne L L' HM N N' E E'.
  assert (Pos : forall c, length a = length c -> a <> c -> 0 < mean_over sq_err (combine a c)).
  { intros c Lc Nc. pose proof (mean_nonneg sq_err (combine a c) (fun p _ => sq_err_nonneg p)). destruct (Req_dec (mean_over sq_err (combine a c)) 0) as [Z|Z]; [|lra].
    exfalso. apply Nc, mse_zero; assumption. }
  destruct (C73_wiki rows a b M Hne L HM) as [A _]. rewrite (A N) in E. destruct (C73_wiki rows a b' M Hne L' HM) as [A' _]. rewrite (A' N') in E'.
  assert (Ep : p = 10 * log10 (M * M / mean_over sq_err (combine a b))) by congruence.
  assert (Ep' : p' = 10 * log10 (M * M / mean_over sq_err (combine a b'))) by congruence. clear E E' A A'.
  specialize (Pos b L N) as P1. specialize (Pos b' L' N') as P2. clear Pos.
  set (e := mean_over sq_err (combine a b)) in *. set (e' := mean_over sq_err (combine a b')) in *. clearbody e e'.
  assert (PM : 0 < M * M) by (apply Rmult_lt_0_compat; assumption).
  rewrite log10_div in Ep, Ep' by assumption. split; intros Q.
  - apply Rnot_le_lt. intros G. destruct (Req_dec e e') as [Eq|Ne]; [subst; lra|].
    pose proof (log10_increasing e' e P2 ltac:(lra)). lra.
  - pose proof (log10_increasing e e' P1 Q). lra.
Qed.
Print Assumptions C73_wiki_ranks_by_error.

(** [C73] 'starck' on a square image: 10 log10((max - min)^2 / mse), so it is the 'wiki' value when
    max_pix is the range of the first image. *)
Theorem C73_starck_square : forall n a b lo hi, length a = (n * n)%nat -> length b = (n * n)%nat ->
  is_min a lo -> is_max a hi -> lo < hi -> a <> b ->
  psnr n a b Starck 255 = psnr n a b Wiki (hi - lo) /\
  psnr n a b Starck 255 = Ok (Fin (10 * log10 ((hi - lo) * (hi - lo) / mean_over sq_err (combine a b)))).
Proof.
  intros n a b lo hi La Lb A B H N.
  assert (E : psnr n a b Starck 255 = Ok (Fin (10 * log10 ((hi - lo) * (hi - lo) / mean_over sq_err (combine a b))))).
  { assert (Na : a <> []) by (intros ->; destruct A as [[] _]).
    assert (Hn : 0 < INR n). { apply lt_0_INR. destruct n; [|lia]. destruct a; [contradiction|discriminate]. }
    assert (P : 0 < mean_over sq_err (combine a b)).
    { pose proof (mean_nonneg sq_err (combine a b) (fun p _ => sq_err_nonneg p)). destruct (Req_dec (mean_over sq_err (combine a b)) 0) as [Z|Z]; [|lra].
      exfalso. apply N, mse_zero; [congruence|exact Z]. }
    unfold psnr. rewrite (lmax_eq a hi B), (lmin_eq a lo A), (Rabs_right (hi - lo)) by lra.
    assert (Lc : length (combine a b) = (n * n)%nat) by (rewrite combine_length; lia).
    assert (Es : norm2l (map2 Rminus a b) = INR n * sqrt (mean_over sq_err (combine a b))).
    { rewrite norm_diff. replace (sum_over sq_err (combine a b)) with (INR n * INR n * mean_over sq_err (combine a b)).
      - rewrite sqrt_mult by nra. rewrite sqrt_square by lra. reflexivity.
      - unfold mean_over. rewrite Lc, mult_INR. field. lra. }
    pose proof (sqrt_lt_R0 _ P) as Ps. rewrite Es.
    assert (Q : fdiv (INR n * (hi - lo)) (INR n * sqrt (mean_over sq_err (combine a b))) = Fin ((hi - lo) / sqrt (mean_over sq_err (combine a b)))).
    { rewrite fdiv_pos by (apply Rmult_integral_contrapositive_currified; lra). f_equal. field. lra. }
    rewrite Q, flog_pos by (apply Rdiv_lt_0_compat; lra). destruct a; [contradiction|]. cbn [fscale]. do 2 f_equal.
    set (e := mean_over sq_err _) in *. clearbody e.
    rewrite !log10_div, log10_mult, log10_sqrt by (try apply Rmult_lt_0_compat; lra). field. }
  split; [|exact E]. rewrite E. destruct (C73_wiki n a b (hi - lo)) as [W _]; [intros ->; destruct A as [[] _]|congruence|lra|]. symmetry. apply W, N.
Qed.
Print Assumptions C73_starck_square.

(** [C73, refuted] On other shapes it depends on the orientation: the same four pixels as one row and
    as one column (the two images transposed) give different values. *)
Theorem C73_transpose_refuted :
  exists a b p p', length a = length b /\ a <> b /\
  psnr 1 a b Starck 255 = Ok (Fin p) /\ psnr (length a) a b Starck 255 = Ok (Fin p') /\ p <> p'.
Proof.
  exists [0; 1], [0; 0]. assert (Na : norm2l (map2 Rminus [0; 1] [0; 0]) = 1).
  { unfold norm2l. cbn. replace ((0 - 0) * (0 - 0) + ((1 - 0) * (1 - 0) + 0)) with 1 by ring. apply sqrt_1. }
  assert (Mx : lmax [0; 1] = 1) by (apply lmax_eq; split; [right; left; reflexivity|intros x [<-|[<-|[]]]; lra]).
  assert (Mn : lmin [0; 1] = 0) by (apply lmin_eq; split; [left; reflexivity|intros x [<-|[<-|[]]]; lra]).
  exists (20 * log10 1), (20 * log10 2). split; [reflexivity|]. split; [intros E; injection E; lra|].
  unfold psnr. rewrite Na, Mx, Mn. rewrite Rabs_right by lra. rewrite !fdiv_pos by lra.
  split; [|split].
  - replace (INR 1 * (1 - 0) / 1) with 1 by (cbn; field). rewrite flog_pos by lra. reflexivity.
  - replace (INR (length [0; 1]) * (1 - 0) / 1) with 2 by (cbn; field). rewrite flog_pos by lra. reflexivity.
  - pose proof (log10_increasing 1 2 ltac:(lra) ltac:(lra)). lra.
Qed.
Print Assumptions C73_transpose_refuted.

(** [C73] Any other method raises ValueError. *)
Theorem C73_invalid_method : forall rows a b M, psnr rows a b OtherMethod M = Err ValueError.
Proof. reflexivity. Qed.
Print Assumptions C73_invalid_method.

Example C73_example : psnr 1 [0] [2] Wiki 20 = Ok (Fin (10 * log10 100)).
Proof.
  destruct (C73_wiki 1 [0] [2] 20 ltac:(discriminate) eq_refl ltac:(lra)) as [A _]. rewrite A by (intros E; injection E; lra). do 3 f_equal. f_equal.
  unfold mean_over, sq_err. cbn. field.
Qed.

(** * C74 *)
(** [C74] psnr_stack raises ValueError unless both inputs have three axes, and otherwise applies the
    metric to the values of psnr on corresponding images. *)
Theorem C74_dimensions : forall A nd1 nd2 (metric : list fval -> A) s1 s2 m,
  nd1 <> 3%nat \/ nd2 <> 3%nat -> psnr_stack nd1 nd2 metric s1 s2 m = Err ValueError.
Proof.
  intros A nd1 nd2 metric s1 s2 m H. unfold psnr_stack. destruct (Nat.eqb_spec nd1 3), (Nat.eqb_spec nd2 3); cbn; try reflexivity. lia.
Qed.
Print Assumptions C74_dimensions.
Theorem C74_values : forall A (metric : list fval -> A) s1 s2 m vs, length s1 = length s2 ->
  Forall2 (fun p v => psnr (fst (fst p)) (snd (fst p)) (snd (snd p)) m 255 = Ok v) (combine s1 s2) vs ->
  psnr_stack 3 3 metric s1 s2 m = Ok (metric vs) /\ length vs = length s1.
Proof.
  intros A metric s1 s2 m vs L F. split.
  - unfold psnr_stack. cbn [Nat.eqb andb negb]. replace (mapM _ (combine s1 s2)) with (Ok vs); [reflexivity|]. symmetry.
    induction F as [|p v l vs Hp F IH]; cbn [mapM]; [reflexivity|]. rewrite Hp. cbn [bind]. rewrite IH. reflexivity.
  - assert (G : length (combine s1 s2) = length vs) by (clear - F; induction F; cbn; congruence). rewrite combine_length in G. lia.
Qed.
Print Assumptions C74_values.
(** [C74, refuted] Stacks of different lengths are not rejected: the extra images are ignored. *)
Theorem C74_length_mismatch_refuted :
  exists s1 s2 : list (nat * list R), length s1 <> length s2 /\ exists v, psnr_stack 3 3 (fun l => l) s1 s2 Wiki = Ok [v].
Proof.
  exists [(1%nat, [0])], [(1%nat, [1]); (1%nat, [5])]. split; [cbn; lia|].
  destruct (C73_wiki 1 [0] [1] 255 ltac:(discriminate) eq_refl ltac:(lra)) as [W _].
  assert (E : psnr 1 [0] [1] Wiki 255 = Ok (Fin (10 * log10 (255 * 255 / mean_over sq_err (combine [0] [1]))))) by (apply W; intros Q; injection Q; lra).
  eexists. unfold psnr_stack. cbn [Nat.eqb andb negb combine mapM fst snd]. rewrite E. reflexivity.
Qed.
Print Assumptions C74_length_mismatch_refuted.
Example C74_example : psnr_stack 2 3 (fun l => l) [] [] Starck = Err ValueError.
Proof. reflexivity. Qed.

(** * C75 *)
(** [C75] min_max_normalize maps a non-constant image affinely onto [0, 1], increasing, with both ends
    attained; a constant image becomes nan. *)
Theorem C75_normalize : forall l, l <> [] ->
  ((forall x y, In x l -> In y l -> x = y) <-> min_max_normalize l = None) /\
  (forall n, min_max_normalize l = Some n ->
     length n = length l /\ is_min n 0 /\ is_max n 1 /\
     exists lo hi, is_min l lo /\ is_max l hi /\ lo < hi /\ n = map (fun x => (x - lo) / (hi - lo)) l).
Proof.
  intros l N. split; [rewrite mmn_none; tauto|]. intros n E. split; [apply mmn_length, E|]. apply mmn_inv in E.
  destruct E as (lo & hi & A & B & H & ->). destruct (rescale_range lo hi l A B H) as [A' B']. split; [exact A'|]. split; [exact B'|].
  exists lo, hi. split; [exact A|]. split; [exact B|]. split; [exact H|reflexivity].
Qed.
Print Assumptions C75_normalize.
Example C75_example : min_max_normalize [1; 3; 2] = Some [0; 1; 1 / 2] /\ min_max_normalize [4; 4] = None.
Proof.
  split.
  - rewrite (mmn_some _ 1 3); [unfold rescale; cbn; do 2 f_equal; [lra|]; f_equal; [lra|]; f_equal; lra| | |lra];
      (split; [cbn; tauto|intros x [<-|[<-|[<-|[]]]]; lra]).
  - apply mmn_none. intros x y [<-|[<-|[]]] [<-|[<-|[]]]; reflexivity.
Qed.

(** * C76 *)
(** [C76] metrics.mse without mask is the mean squared difference of the normalised magnitudes:
    symmetric, between 0 and 1, and 0 exactly when the magnitudes of one image are an increasing
    affine function of those of the other. It is nan when one of them has constant magnitude. *)
Theorem C76_mse : forall test ref t r, length test = length ref ->
  min_max_normalize (map magnitude test) = Some t -> min_max_normalize (map magnitude ref) = Some r ->
  exists e, m_mse test ref MNone = Ok (Fin e) /\ m_mse ref test MNone = Ok (Fin e) /\ e = mean_over sq_err (combine t r) /\ 0 <= e <= 1 /\
  (e = 0 <-> exists a b, 0 < a /\ map magnitude test = map (fun x => a * x + b) (map magnitude ref)).
Proof.
  intros test ref t r L Et Er. exists (mean_over sq_err (combine t r)).
  assert (Lt : length t = length r) by (rewrite (mmn_length _ _ Et), (mmn_length _ _ Er), !map_length; exact L).
  split; [apply m_mse_nomask; assumption|]. split; [rewrite mse_sym; apply m_mse_nomask; assumption|]. split; [reflexivity|].
  apply mmn_inv in Et. destruct Et as (lo & hi & A & B & H & ->). apply mmn_inv in Er. destruct Er as (lo' & hi' & A' & B' & H' & ->).
  destruct (rescale_range lo hi _ A B H) as [[_ R1] [_ R2]]. destruct (rescale_range lo' hi' _ A' B' H') as [[_ R1'] [_ R2']]. split; [split|split].
  - apply mean_nonneg. intros; apply sq_err_nonneg.
  - unfold mean_over. set (c := combine _ _). assert (C : sum_over sq_err c <= 1 * INR (length c)).
    { apply sum_over_bound. intros [x y] Hxy. pose proof (in_combine_l _ _ _ _ Hxy) as Hx. pose proof (in_combine_r _ _ _ _ Hxy) as Hy.
      pose proof (R1 x Hx). pose proof (R2 x Hx). pose proof (R1' y Hy). pose proof (R2' y Hy). unfold sq_err. cbn. nra. }
    destruct (Nat.eq_dec (length c) 0) as [Z|NZ].
    + assert (Ec : c = []) by (destruct c; [reflexivity|discriminate]). rewrite Ec. cbn. lra.
    + assert (P : 0 < INR (length c)) by (apply lt_0_INR; lia). apply Rmult_le_reg_r with (INR (length c)); [exact P|].
      unfold Rdiv. rewrite Rmult_assoc, Rinv_l by lra. lra.
  - intros Z. apply mse_zero in Z; [|exact Lt]. exists ((hi - lo) / (hi' - lo')), (lo - (hi - lo) / (hi' - lo') * lo').
    split; [apply Rdiv_lt_0_compat; lra|].
    assert (G : forall u v : list R, rescale lo hi u = rescale lo' hi' v -> u = map (fun x => (hi - lo) / (hi' - lo') * x + (lo - (hi - lo) / (hi' - lo') * lo')) v).
    { induction u as [|x u IH]; intros [|y v] E; try discriminate; [reflexivity|]. cbn in E. injection E as E1 E2. cbn. f_equal; [|apply IH, E2].
      apply Rmult_eq_reg_r with (/ (hi - lo)); [|apply Rinv_neq_0_compat; lra].
      assert (Q : x = (hi - lo) * ((y - lo') / (hi' - lo')) + lo). { rewrite <- E1. field. lra. } rewrite Q. field. lra. }
    apply G, Z.
  - intros (a & b & Ha & E).
    assert (El : lo = a * lo' + b).
    { apply (is_min_unique (map magnitude test)); [exact A|]. rewrite E. destruct A' as [A1 A2]. split; [apply in_map_iff; exists lo'; split; [reflexivity|exact A1]|].
      intros x Hx. apply in_map_iff in Hx. destruct Hx as (y & <- & Hy). pose proof (A2 y Hy). nra. }
    assert (Eh : hi = a * hi' + b).
    { apply (is_max_unique (map magnitude test)); [exact B|]. rewrite E. destruct B' as [B1 B2]. split; [apply in_map_iff; exists hi'; split; [reflexivity|exact B1]|].
      intros x Hx. apply in_map_iff in Hx. destruct Hx as (y & <- & Hy). pose proof (B2 y Hy). nra. }
    replace (rescale lo hi (map magnitude test)) with (rescale lo' hi' (map magnitude ref)); [apply mse_self|].
    rewrite E. unfold rescale. rewrite (map_map (fun x => a * x + b)). apply map_ext. intros x. rewrite El, Eh. field. nra.
Qed.
Print Assumptions C76_mse.

(** [C76] nan when one of the magnitudes is constant. *)
Theorem C76_constant_image_nan : forall test ref mask,
  (forall x y, In x test -> In y test -> magnitude x = magnitude y) -> mask <> MOther -> m_mse test ref mask = Ok NaN.
Proof.
  intros test ref mask C N. assert (E : min_max_normalize (map magnitude test) = None).
  { apply mmn_none. intros x y Hx Hy. apply in_map_iff in Hx, Hy. destruct Hx as (p & <- & Hp), Hy as (q & <- & Hq). apply C; assumption. }
  unfold m_mse, preprocess. rewrite E. destruct mask; [reflexivity|reflexivity|contradiction].
Qed.
Print Assumptions C76_constant_image_nan.

(** [C76, refuted] So a test image with the wrong brightness (here twice the reference) has error 0. *)
Theorem C76_zero_iff_equal_refuted :
  exists test ref, length test = length ref /\ map magnitude test <> map magnitude ref /\ m_mse test ref MNone = Ok (Fin 0).
Proof.
  exists (real_px [0; 2]), (real_px [0; 1]). split; [reflexivity|].
  assert (M1 : map magnitude (real_px [0; 2]) = [0; 2]) by (apply real_px_abs; repeat constructor; lra).
  assert (M2 : map magnitude (real_px [0; 1]) = [0; 1]) by (apply real_px_abs; repeat constructor; lra).
  split; [rewrite M1, M2; intros E; injection E; lra|].
  assert (E1 : min_max_normalize (map magnitude (real_px [0; 2])) = Some (rescale 0 2 [0; 2])).
  { rewrite M1. apply mmn_some; [split; [cbn; tauto|intros x [<-|[<-|[]]]; lra]|split; [cbn; tauto|intros x [<-|[<-|[]]]; lra]|lra]. }
  assert (E2 : min_max_normalize (map magnitude (real_px [0; 1])) = Some (rescale 0 1 [0; 1])).
  { rewrite M2. apply mmn_some; [split; [cbn; tauto|intros x [<-|[<-|[]]]; lra]|split; [cbn; tauto|intros x [<-|[<-|[]]]; lra]|lra]. }
  rewrite (m_mse_nomask _ _ _ _ E1 E2). do 2 f_equal. unfold rescale, mean_over, sq_err. cbn. field.
Qed.
Print Assumptions C76_zero_iff_equal_refuted.

Example C76_example : m_mse (real_px [0; 1; 4]) (real_px [0; 2; 4]) MNone = Ok (Fin (1 / 48)).
Proof.
  assert (M1 : map magnitude (real_px [0; 1; 4]) = [0; 1; 4]) by (apply real_px_abs; repeat constructor; lra).
  assert (M2 : map magnitude (real_px [0; 2; 4]) = [0; 2; 4]) by (apply real_px_abs; repeat constructor; lra).
  assert (E1 : min_max_normalize (map magnitude (real_px [0; 1; 4])) = Some (rescale 0 4 [0; 1; 4])).
  { rewrite M1. apply mmn_some; [split; [cbn; tauto|intros x [<-|[<-|[<-|[]]]]; lra]|split; [cbn; tauto|intros x [<-|[<-|[<-|[]]]]; lra]|lra]. }
  assert (E2 : min_max_normalize (map magnitude (real_px [0; 2; 4])) = Some (rescale 0 4 [0; 2; 4])).
  { rewrite M2. apply mmn_some; [split; [cbn; tauto|intros x [<-|[<-|[<-|[]]]]; lra]|split; [cbn; tauto|intros x [<-|[<-|[<-|[]]]]; lra]|lra]. }
  rewrite (m_mse_nomask _ _ _ _ E1 E2). do 2 f_equal. unfold rescale, mean_over, sq_err. cbn. field.
Qed.

(** * C77 *)
(** [C77] A mask that is neither None nor an array: ValueError. *)
Theorem C77_invalid_mask : forall test ref,
  m_mse test ref MOther = Err ValueError /\ m_snr test ref MOther = Err ValueError /\
  m_psnr test ref MOther = Err ValueError /\ m_nrmse test ref MOther = Err ValueError.
Proof. intros. repeat split. Qed.
Print Assumptions C77_invalid_mask.

(** [C77] A mask of ones is the same as no mask. *)
Theorem C77_mask_of_ones : forall test ref n, length test = n -> length ref = n ->
  m_mse test ref (MArr (repeat 1 n)) = m_mse test ref MNone /\ m_snr test ref (MArr (repeat 1 n)) = m_snr test ref MNone /\
  m_psnr test ref (MArr (repeat 1 n)) = m_psnr test ref MNone /\ m_nrmse test ref (MArr (repeat 1 n)) = m_nrmse test ref MNone.
Proof.
  intros test ref n Lt Lr. unfold m_snr, m_psnr, m_nrmse. unfold m_mse at 1 2. unfold preprocess. cbn [bind].
  destruct (min_max_normalize (map magnitude test)) as [t|] eqn:Et; [|repeat split].
  destruct (min_max_normalize (map magnitude ref)) as [r|] eqn:Er; [|repeat split].
  rewrite !apply_ones by (rewrite ?(mmn_length _ _ Et), ?(mmn_length _ _ Er), map_length; assumption). cbn [apply_mask]. repeat split.
Qed.
Print Assumptions C77_mask_of_ones.

(** [C77] With a mask, mse is the mean over all the pixels of the squared difference of the normalised
    images times the mask. *)
Theorem C77_masked_mse : forall test ref m t r,
  min_max_normalize (map magnitude test) = Some t -> min_max_normalize (map magnitude ref) = Some r ->
  m_mse test ref (MArr m) = Ok (Fin (mean_over (fun p => (fst p * (fst (snd p) - snd (snd p))) ^ 2) (combine m (combine t r)))).
Proof.
  intros test ref m t r Et Er. unfold m_mse, preprocess. rewrite Et, Er. cbn [bind apply_mask]. do 2 f_equal.
  unfold mean, mean_over. rewrite map_length. f_equal.
  - clear. revert t r. induction m as [|a m IH]; intros [|x t] [|y r]; cbn; try reflexivity. cbn in IH. rewrite IH. ring.
  - f_equal. clear. revert t r. induction m as [|a m IH]; intros [|x t] [|y r]; cbn; try reflexivity. rewrite IH. reflexivity.
Qed.
Print Assumptions C77_masked_mse.

(** Two images and a region of interest used as witnesses below. *)
Definition roi : list R := [1; 1; 0].
Definition img_a : list R := [0; 1; 2].
Definition img_b : list R := [0; 1; 4].
Ltac minmax3 := split; [cbn; tauto|intros ? [<-|[<-|[<-|[]]]]; lra].
Lemma abs_a : map magnitude (real_px img_a) = img_a.
Proof. apply real_px_abs. repeat constructor; lra. Qed.
Lemma abs_b : map magnitude (real_px img_b) = img_b.
Proof. apply real_px_abs. repeat constructor; lra. Qed.
Lemma norm_a : min_max_normalize (map magnitude (real_px img_a)) = Some [0; 1 / 2; 1].
Proof. rewrite abs_a, (mmn_some _ 0 2) by (try minmax3; lra). unfold rescale, img_a. cbn [map]. do 2 f_equal; [field|]. f_equal; [field|]. f_equal. field. Qed.
Lemma norm_b : min_max_normalize (map magnitude (real_px img_b)) = Some [0; 1 / 4; 1].
Proof. rewrite abs_b, (mmn_some _ 0 4) by (try minmax3; lra). unfold rescale, img_b. cbn [map]. do 2 f_equal; [field|]. f_equal; [field|]. f_equal. field. Qed.
Lemma norm_peak x : 0 < x -> min_max_normalize (map magnitude (real_px [0; x; 0])) = Some [0; 1; 0].
Proof.
  intros P. rewrite real_px_abs by (repeat constructor; lra). rewrite (mmn_some _ 0 x) by (try minmax3; lra).
  unfold rescale. cbn [map]. do 2 f_equal; [field; lra|]. f_equal; [field; lra|]. f_equal. field. lra.
Qed.
Lemma roi_a : apply_mask (Some roi) [0; 1 / 2; 1] = [0; 1 / 2; 0].
Proof. cbn. f_equal; [ring|]. f_equal; [ring|]. f_equal. ring. Qed.
Lemma roi_b : apply_mask (Some roi) [0; 1 / 4; 1] = [0; 1 / 4; 0].
Proof. cbn. f_equal; [ring|]. f_equal; [ring|]. f_equal. ring. Qed.
Lemma masked_ab : m_mse (real_px img_a) (real_px img_b) (MArr roi) = Ok (Fin (1 / 48)).
Proof. rewrite (C77_masked_mse _ _ _ _ _ norm_a norm_b). do 2 f_equal. unfold mean_over, roi. cbn. field. Qed.

(** [C77, refuted] The metric is not computed on the region of interest only: changing a pixel of the
    test image outside the mask changes the masked mse. *)
Theorem C77_outside_pixels_refuted :
  exists test test' ref mask e e', length test = length test' /\
  (forall i, nth i mask 0 <> 0 -> nth i test (0, 0) = nth i test' (0, 0)) /\
  m_mse test ref (MArr mask) = Ok (Fin e) /\ m_mse test' ref (MArr mask) = Ok (Fin e') /\ e <> e'.
Proof.
  exists (real_px img_a), (real_px img_b), (real_px img_b), roi, (1 / 48), 0. split; [reflexivity|]. split.
  - intros i Hi. destruct i as [|[|[|i]]]; try reflexivity. contradiction Hi; reflexivity.
  - split; [apply masked_ab|]. split; [|lra]. rewrite (C77_masked_mse _ _ _ _ _ norm_b norm_b). do 2 f_equal. unfold mean_over, roi. cbn. field.
Qed.
Print Assumptions C77_outside_pixels_refuted.

(** [C77, refuted] Nor is it the mean over the region: the sum is divided by the number of all pixels. *)
Theorem C77_roi_mean_refuted :
  exists test ref mask t r e, min_max_normalize (map magnitude test) = Some t /\ min_max_normalize (map magnitude ref) = Some r /\
  m_mse test ref (MArr mask) = Ok (Fin e) /\
  e <> mean_over (fun p => sq_err (snd p)) (filter (fun p => if Req_EM_T (fst p) 0 then false else true) (combine mask (combine t r))).
Proof.
  exists (real_px img_a), (real_px img_b), roi, [0; 1 / 2; 1], [0; 1 / 4; 1], (1 / 48).
  split; [apply norm_a|]. split; [apply norm_b|]. split; [apply masked_ab|].
  unfold roi. cbn [combine filter fst]. destruct (Req_EM_T 1 0); [lra|]. destruct (Req_EM_T 0 0); [|lra].
  unfold mean_over, sq_err. cbn. lra.
Qed.
Print Assumptions C77_roi_mean_refuted.

(** [C77, refuted] psnr and nrmse normalise the masked images a second time, so their error is not
    mse(test, ref, mask): here that is 1/48 but psnr says infinite and nrmse 0. *)
Theorem C77_psnr_perfect_refuted :
  exists test ref mask e, m_mse test ref (MArr mask) = Ok (Fin e) /\ 0 < e /\
  m_psnr test ref (MArr mask) = Ok PInf /\ m_nrmse test ref (MArr mask) = Ok (Fin 0).
Proof.
  exists (real_px img_a), (real_px img_b), roi, (1 / 48). split; [apply masked_ab|]. split; [lra|].
  unfold m_psnr, m_nrmse, preprocess. rewrite norm_a, norm_b. cbn [bind]. rewrite roi_a, roi_b.
  rewrite (m_mse_nomask _ _ _ _ (norm_peak (1 / 2) ltac:(lra)) (norm_peak (1 / 4) ltac:(lra))). rewrite mse_self. cbn [bind fdiv_r fsqrt fdiv_l]. split.
  - assert (Mx : lmax (map Rabs [0; 1 / 2; 0]) = 1 / 2).
    { cbn [map]. rewrite Rabs_R0, Rabs_right by lra. apply lmax_eq. minmax3. }
    rewrite Mx, fdiv_zero by lra. reflexivity.
  - rewrite sqrt_0. assert (Q : 0 < sqrt (mean (map (fun x => x * x) [0; 1 / 2; 0]))) by (apply sqrt_lt_R0; unfold mean; cbn; lra).
    rewrite fdiv_pos by lra. do 2 f_equal. unfold Rdiv. ring.
Qed.
Print Assumptions C77_psnr_perfect_refuted.

(** [C77, refuted] snr masks the test image but not the reference: comparing an image with itself under
    a mask gives -10 log10 5, not an infinite ratio. *)
Theorem C77_snr_identical_refuted :
  exists test mask, m_mse test test (MArr mask) = Ok (Fin 0) /\ m_snr test test (MArr mask) = Ok (Fin (- (10 * log10 5))).
Proof.
  exists (real_px img_a), roi. split.
  - rewrite (C77_masked_mse _ _ _ _ _ norm_a norm_a). do 2 f_equal. unfold mean_over, roi. cbn. field.
  - unfold m_snr, preprocess. rewrite norm_a. cbn [bind]. rewrite roi_a.
    assert (E : min_max_normalize (map magnitude (real_px [0; 1 / 2; 1])) = Some [0; 1 / 2; 1]) by (apply (renormalise _ _ norm_a)).
    rewrite (m_mse_nomask _ _ _ _ (norm_peak (1 / 2) ltac:(lra)) E). cbn [bind fdiv_r].
    replace (mean (map (fun x => x * x) [0; 1 / 2; 0])) with (1 / 12) by (unfold mean; cbn; field).
    replace (mean_over sq_err (combine [0; 1; 0] [0; 1 / 2; 1])) with (5 / 12) by (unfold mean_over, sq_err; cbn; field).
    rewrite fdiv_pos by lra. replace (1 / 12 / (5 / 12)) with (/ 5) by field. rewrite flog_pos by lra. cbn [fscale]. do 2 f_equal.
    rewrite log10_inv by lra. ring.
Qed.
Print Assumptions C77_snr_identical_refuted.

Example C77_example : m_mse (real_px img_a) (real_px img_b) (MArr roi) = Ok (Fin (1 / 48)) /\ m_snr (real_px img_a) (real_px img_b) MOther = Err ValueError.
Proof. split; [apply masked_ab|reflexivity]. Qed.

(** * C78 *)
(** [C78] Without a mask, with e = mse(test, ref) and s the mean square of the normalised test image:
    psnr = 10 log10(1 / e), snr = 10 log10(s / e), nrmse = sqrt(e / s); so snr = -20 log10(nrmse). Two
    images of equal normalised magnitudes have infinite psnr and snr, and nrmse 0. *)
Theorem C78_without_mask : forall test ref t r e, length test = length ref ->
  min_max_normalize (map magnitude test) = Some t -> min_max_normalize (map magnitude ref) = Some r -> m_mse test ref MNone = Ok (Fin e) ->
  let s := mean_over (fun x => x * x) t in 0 < s /\
  (0 < e -> m_psnr test ref MNone = Ok (Fin (10 * log10 (1 / e))) /\ m_snr test ref MNone = Ok (Fin (10 * log10 (s / e))) /\
            m_nrmse test ref MNone = Ok (Fin (sqrt (e / s))) /\ 10 * log10 (s / e) = - (20 * log10 (sqrt (e / s)))) /\
  (e = 0 -> m_psnr test ref MNone = Ok PInf /\ m_snr test ref MNone = Ok PInf /\ m_nrmse test ref MNone = Ok (Fin 0)).
Proof.
  intros test ref t r e L Et Er Ee s.
  assert (Ps : 0 < s).
  { destruct (mmn_inv _ _ Et) as (lo & hi & A & B & H & ->). destruct (rescale_range lo hi _ A B H) as [_ [I1 _]].
    unfold s, mean_over. set (l := rescale _ _ _) in *. clearbody l. apply in_split in I1. destruct I1 as (l1 & l2 & ->).
    assert (N : forall k : list R, 0 <= sum_over (fun x => x * x) k) by (induction k as [|x k IH]; cbn; [lra|nra]).
    assert (A' : forall k1 k2 : list R, sum_over (fun x => x * x) (k1 ++ k2) = sum_over (fun x => x * x) k1 + sum_over (fun x => x * x) k2).
    { clear. induction k1 as [|x k IH]; intros k2; cbn; [lra|]. rewrite IH. lra. }
    apply Rdiv_lt_0_compat; [|apply lt_0_INR; rewrite app_length; cbn; lia]. rewrite A'. cbn. pose proof (N l1). pose proof (N l2). lra. }
  split; [exact Ps|].
  assert (Em : m_mse (real_px t) (real_px r) MNone = Ok (Fin e)).
  { rewrite <- Ee, (m_mse_nomask _ _ _ _ Et Er). apply m_mse_nomask; eapply renormalise; [exact Et|exact Er]. }
  assert (Es : mean (map (fun x => x * x) t) = s) by (unfold s; apply mean_map).
  assert (Mx : lmax (map Rabs t) = 1).
  { destruct (mmn_inv _ _ Et) as (lo & hi & A & B & H & ->). destruct (rescale_range lo hi _ A B H) as [[_ I0] I1].
    replace (map Rabs (rescale lo hi (map magnitude test))) with (rescale lo hi (map magnitude test)); [apply lmax_eq, I1|].
    rewrite <- (map_id (rescale lo hi (map magnitude test))) at 1. apply map_ext_in. intros x Hx. symmetry. apply Rabs_right. apply Rle_ge, I0, Hx. }
  unfold m_psnr, m_snr, m_nrmse, preprocess. rewrite Et, Er. cbn [bind apply_mask]. rewrite Em, Es, Mx. cbn [bind fdiv_r fsqrt fdiv_l].
  clearbody s. pose proof (sqrt_lt_R0 _ Ps) as Pq. split.
  - intros Pe. rewrite !fdiv_pos by lra. rewrite !flog_pos by (apply Rdiv_lt_0_compat; lra). split; [reflexivity|]. split; [reflexivity|]. split.
    + rewrite sqrt_div by lra. reflexivity.
    + assert (Pes : 0 < e / s) by (apply Rdiv_lt_0_compat; lra). rewrite log10_sqrt by exact Pes. rewrite !log10_div by lra. lra.
  - intros ->. rewrite !fdiv_zero by lra. split; [reflexivity|]. split; [reflexivity|]. rewrite sqrt_0, fdiv_pos by lra. do 2 f_equal. unfold Rdiv. ring.
Qed.
Print Assumptions C78_without_mask.

Example C78_example : m_psnr (real_px img_a) (real_px img_b) MNone = Ok (Fin (10 * log10 48)) /\ m_psnr (real_px img_a) (real_px img_a) MNone = Ok PInf.
Proof.
  assert (E : m_mse (real_px img_a) (real_px img_b) MNone = Ok (Fin (1 / 48))).
  { rewrite (m_mse_nomask _ _ _ _ norm_a norm_b). do 2 f_equal. unfold mean_over, sq_err. cbn. field. }
  split.
  - destruct (C78_without_mask (real_px img_a) (real_px img_b) _ _ _ eq_refl norm_a norm_b E) as (_ & A & _). destruct (A ltac:(lra)) as [B _]. rewrite B. do 4 f_equal. field.
  - destruct (C78_without_mask (real_px img_a) (real_px img_a) _ _ 0 eq_refl norm_a norm_a) as (_ & _ & A); [|apply A; reflexivity].
    rewrite (m_mse_nomask _ _ _ _ norm_a norm_a), mse_self. reflexivity.
Qed.
