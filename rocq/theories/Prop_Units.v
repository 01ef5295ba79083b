(** Theorems of C140: what a change of units, of origin or of the order of the entries does to a run of
    the gradient descent classes, and how far one update can move an entry. *)
From Verif Require Import NPReal Py IPS Model_SetUp Spec_Opt Proof_Smooth Spec_GD Model_GD Proof_GD Prop_GD Proof_Ada Proof_Units.
From Coq Require Import List Lia FunctionalExtensionality.
Import ListNotations.
Local Open Scope R_scope.

(** The classes that divide by the speed and epsilon. *)
Definition divides_by_speed (c : gd_class) : Prop := match c with Vanilla | Momentum _ => False | _ => True end.

(** [C140] Below, x n is what iterate(max_iter=n) returns without cost function nor metrics. *)
Theorem C140_returned :
  forall I grad prox cl (x0 : arr I) eta eps e eu s n metric period, e <> 0%nat -> gd_init cl x0 eta eps e eu = Ok s ->
  gd_iterate grad prox None metric false period n s = Ok (d_x_new (gd_after grad prox n s)).
Proof. intros I grad prox cl x0 eta eps e eu s n metric period He E. apply init_ok in E. apply iterate_plain. subst s. exact He. Qed.
Print Assumptions C140_returned.

(** [C140] Multiplying the objective and the penalty by c > 0 (so the gradient by c, and the operator
    gets step sizes multiplied by c) together with epsilon changes nothing. *)
Theorem C140_units_of_the_objective :
  forall I grad prox cl (x0 : arr I) eta eps e eu s c s', divides_by_speed cl -> 0 < c ->
  gd_init cl x0 eta eps e eu = Ok s -> gd_init cl x0 eta (c * eps) e eu = Ok s' ->
  let grad' k y := fun i => c * grad k y i in
  let prox' y t := prox y (fun i => c * t i) in
  forall n, d_x_new (gd_after grad' prox' n s') = d_x_new (gd_after grad prox n s).
Proof.
  intros I grad prox cl x0 eta eps e eu s c s' Hcl Hc E E' grad' prox' n. apply init_ok in E. apply init_ok in E'.
  set (T := image (I := I) (J := I) (fun x => x) (fun d i => c * d i) (fun v i => c ^ 2 * v i) (fun e => e) (fun e => c * e) (fun u => u)).
  assert (Ts : s' = T s).
  { subst s s'. unfold T, image. cbn. apply mk_gd_eq; try reflexivity.
    - extensionality i. unfold full. ring.
    - clear - Hcl. destruct cl; try contradiction Hcl; extensionality i; unfold full; ring.
    - clear - Hcl. destruct cl; try contradiction Hcl; reflexivity.
    - extensionality k. extensionality i. unfold full. ring. }
  assert (Cs : d_class s = cl) by (subst s; reflexivity).
  enough (Run : gd_after grad' prox' n s' = T (gd_after grad prox n s)) by (rewrite Run; reflexivity).
  rewrite Ts. apply (image_run_inv _ _ _ _ _ _ grad prox grad' prox' (fun s => d_class s = cl)); [| |exact Cs].
  - intros r idx <-. apply (step_consts grad prox idx r).
  - clear - Hcl Hc. intros r idx Hr. apply image_step.
    + reflexivity.
    + intros g. unfold update_dir, image. cbn [d_class d_dir d_beta_pow d_memory d_epoch_size]. rewrite Hr.
      destruct cl; try contradiction Hcl; cbn [fst snd]; try reflexivity.
      * f_equal. f_equal. extensionality i. ring.
      * f_equal; [f_equal; extensionality i; ring|]. extensionality k. destruct (Nat.eqb k _); reflexivity.
    + intros g. unfold update_speed, image. cbn [d_class d_speed d_gamma_pow]. rewrite Hr.
      assert (Ab : forall v, Rabs (c * v) ^ 2 = c ^ 2 * Rabs v ^ 2) by (intros v; rewrite Rabs_mult, (Rabs_right c) by lra; ring).
      destruct cl; try contradiction Hcl; cbn [fst snd]; try reflexivity; f_equal; extensionality i; rewrite Ab; ring.
    + intros dir sp st st' y y'.
      assert (S' : st' = fun i => / c * st i).
      { unfold st', st. extensionality i. rewrite sqrt_scaled by exact Hc. replace (c * sqrt (sp i) + c * d_eps r) with (c * (sqrt (sp i) + d_eps r)) by ring.
        unfold Rdiv. rewrite Rinv_mult. ring. }
      assert (Y : y' = y) by (unfold y', y; rewrite S'; extensionality i; field; lra).
      split; [exact Y|]. unfold prox'. rewrite Y, S'. f_equal. extensionality i. field. lra.
    + extensionality i. unfold full. ring.
    + reflexivity.
Qed.
Print Assumptions C140_units_of_the_objective.

(** [C140] The classes with a fixed step: eta has to be divided by c. *)
Theorem C140_units_fixed_step :
  forall I grad prox cl (x0 : arr I) eta eps e s c s', ~ divides_by_speed cl -> 0 < c ->
  gd_init cl x0 eta eps e None = Ok s -> gd_init cl x0 (eta / c) eps e None = Ok s' ->
  let grad' k y := fun i => c * grad k y i in
  let prox' y t := prox y (fun i => c * t i) in
  forall n, d_x_new (gd_after grad' prox' n s') = d_x_new (gd_after grad prox n s).
Proof.
  intros I grad prox cl x0 eta eps e s c s' Hcl Hc E E' grad' prox' n. apply init_ok in E. apply init_ok in E'.
  set (T := image (I := I) (J := I) (fun x => x) (fun d i => c * d i) (fun v => v) (fun e => e / c) (fun e => e) (fun u => u)).
  assert (Ts : s' = T s).
  { subst s s'. unfold T, image. cbn. apply mk_gd_eq; try reflexivity.
    - extensionality i. unfold full. ring.
    - extensionality k. extensionality i. unfold full. ring. }
  assert (Cs : d_class s = cl /\ d_eta_update s = None) by (subst s; split; reflexivity).
  enough (Run : gd_after grad' prox' n s' = T (gd_after grad prox n s)) by (rewrite Run; reflexivity).
  rewrite Ts. apply (image_run_inv _ _ _ _ _ _ grad prox grad' prox' (fun s => d_class s = cl /\ d_eta_update s = None)); [| |exact Cs].
  - intros r idx [<- <-]. split; apply (step_consts grad prox idx r).
  - clear - Hcl Hc. intros r idx [Hr Hn]. apply image_step.
    + reflexivity.
    + intros g. unfold update_dir, image. cbn [d_class d_dir d_beta_pow d_memory d_epoch_size]. rewrite Hr.
      destruct cl; try (destruct (Hcl Logic.I)); cbn [fst snd]; try reflexivity. f_equal. f_equal. extensionality i. ring.
    + intros g. unfold update_speed, image. cbn [d_class d_speed d_gamma_pow]. rewrite Hr.
      destruct cl; try (destruct (Hcl Logic.I)); reflexivity.
    + intros dir sp st st' y y'.
      assert (S' : st' = fun i => / c * st i) by (unfold st', st; extensionality i; unfold Rdiv; ring).
      assert (Y : y' = y) by (unfold y', y; rewrite S'; extensionality i; field; lra).
      split; [exact Y|]. unfold prox'. rewrite Y, S'. f_equal. extensionality i. field. lra.
    + extensionality i. unfold full. ring.
    + rewrite Hn. reflexivity.
Qed.
Print Assumptions C140_units_fixed_step.

(** [C140] The order, or the arrangement in a shape, of the entries does not matter: any class. sigma j
    is the old place of the entry now at j. *)
Theorem C140_order_of_the_entries :
  forall I J (sigma : J -> I) (tau : I -> J) grad prox cl (x0 : arr I) eta eps e eu s s',
  (forall i, sigma (tau i) = i) -> (forall j, tau (sigma j) = j) ->
  let place {X} (x : I -> X) j := x (sigma j) in
  let back (y : arr J) : arr I := fun i => y (tau i) in
  gd_init cl x0 eta eps e eu = Ok s -> gd_init cl (place x0) eta eps e eu = Ok s' ->
  let grad' k y := place (grad k (back y)) in
  let prox' y t := place (prox (back y) (back t)) in
  forall n, d_x_new (gd_after grad' prox' n s') = place (d_x_new (gd_after grad prox n s)).
Proof.
  intros I J sigma tau grad prox cl x0 eta eps e eu s s' Hst Hts place back E E' grad' prox' n. apply init_ok in E. apply init_ok in E'.
  assert (Bp : forall x : arr I, back (place R x) = x) by (intros x; extensionality i; unfold back, place; rewrite Hst; reflexivity).
  set (T := image (I := I) (J := J) (place R) (place R) (place R) (fun e => e) (fun e => e) (fun u => u)).
  assert (Ts : s' = T s) by (subst s s'; unfold T, image; cbn; apply mk_gd_eq; try reflexivity; destruct cl; reflexivity).
  enough (Run : gd_after grad' prox' n s' = T (gd_after grad prox n s)) by (rewrite Run; reflexivity).
  rewrite Ts. apply (image_run _ _ _ _ _ _ grad prox grad' prox'). intros r idx. apply image_step.
  - intros k x. unfold grad'. rewrite Bp. reflexivity.
  - intros g. unfold update_dir, image. cbn [d_class d_dir d_beta_pow d_memory d_epoch_size].
    destruct (d_class r); cbn [fst snd]; try reflexivity. f_equal. extensionality k. destruct (Nat.eqb k _); reflexivity.
  - intros g. unfold update_speed, image. cbn [d_class d_speed d_gamma_pow]. destruct (d_class r); reflexivity.
  - intros dir sp st st' y y'. split; [reflexivity|]. unfold prox'. change y' with (place R y). change st' with (place R st). rewrite !Bp. reflexivity.
  - reflexivity.
  - reflexivity.
Qed.
Print Assumptions C140_order_of_the_entries.

(** [C140] Nor does the origin. *)
Theorem C140_origin :
  forall I (o : arr I) grad prox cl x0 eta eps e eu s s',
  let plus (x : arr I) : arr I := fun i => x i + o i in
  let minus (x : arr I) : arr I := fun i => x i - o i in
  gd_init cl x0 eta eps e eu = Ok s -> gd_init cl (plus x0) eta eps e eu = Ok s' ->
  let grad' k y := grad k (minus y) in
  let prox' y t := plus (prox (minus y) t) in
  forall n, d_x_new (gd_after grad' prox' n s') = plus (d_x_new (gd_after grad prox n s)).
Proof.
  intros I o grad prox cl x0 eta eps e eu s s' plus minus E E' grad' prox' n. apply init_ok in E. apply init_ok in E'.
  assert (Mp : forall x, minus (plus x) = x) by (intros x; extensionality i; unfold minus, plus; ring).
  set (T := image (I := I) (J := I) plus (fun d => d) (fun v => v) (fun e => e) (fun e => e) (fun u => u)).
  assert (Ts : s' = T s) by (subst s s'; reflexivity).
  enough (Run : gd_after grad' prox' n s' = T (gd_after grad prox n s)) by (rewrite Run; reflexivity).
  rewrite Ts. apply (image_run _ _ _ _ _ _ grad prox grad' prox'). intros r idx. apply image_step.
  - intros k x. unfold grad'. rewrite Mp. reflexivity.
  - intros g. unfold update_dir, image. cbn [d_class d_dir d_beta_pow d_memory d_epoch_size]. destruct (d_class r); reflexivity.
  - intros g. unfold update_speed, image. cbn [d_class d_speed d_gamma_pow]. destruct (d_class r); reflexivity.
  - intros dir sp st st' y y'. assert (Y : y' = plus y) by (unfold y', y, plus; extensionality i; change st' with st; ring).
    split; [exact Y|]. unfold prox'. rewrite Y, Mp. reflexivity.
  - reflexivity.
  - reflexivity.
Qed.
Print Assumptions C140_origin.

(** * How far one update moves an entry *)

Section Move.
Variables (I : Type) (grad : nat -> arr I -> arr I) (prox : arr I -> arr I -> arr I).
Variables (cl : gd_class) (x0 : arr I) (eta eps : R) (e : nat) (s : gd I).
Hypothesis Init : gd_init cl x0 eta eps e None = Ok s.
Let x k : arr I := d_x_new (gd_after grad prox k s).
Let sp k : arr I := d_speed (gd_after grad prox k s).
Lemma move_old n : d_x_old (gd_after grad prox n s) = x n.
Proof. symmetry. apply after_new. pose proof (init_ok _ _ _ _ _ _ _ Init) as E. subst s. reflexivity. Qed.
Lemma move_seen n : seen grad prox s n = grad n (x n).
Proof.
  unfold seen. rewrite move_old. destruct (after_consts grad prox n s) as (_ & _ & _ & _ & ->).
  pose proof (init_ok _ _ _ _ _ _ _ Init) as E. subst s. cbn [d_calls]. rewrite Nat.add_0_r. reflexivity.
Qed.
Lemma move_step n i : divides_by_speed cl -> (Nat.modulo n e <> 0%nat \/ forall y t, prox y t = y) ->
  x (S n) i - x n i = - (eta / (sqrt (sp (S n) i) + eps) * new_dir grad n (gd_after grad prox n s) i).
Proof.
  intros Hcl Q. pose proof (init_ok _ _ _ _ _ _ _ Init) as E. rewrite <- !move_old. cbn [gd_after]. rewrite x_step, epoch_after.
  replace (if Nat.eqb (n mod d_epoch_size s) 0 then prox (descent grad n (gd_after grad prox n s)) (step_size grad (gd_after grad prox n s)) else descent grad n (gd_after grad prox n s))
    with (descent grad n (gd_after grad prox n s)).
  - unfold descent, step_size. unfold sp. cbn [gd_after]. rewrite speed_step, eta_const, eps_after by (subst s; reflexivity).
    replace (d_eta s) with eta by (subst s; reflexivity).
    replace (d_eps s) with eps by (clear - Hcl E; subst s; destruct cl; try contradiction Hcl; reflexivity). ring.
  - destruct (Nat.eqb_spec (n mod d_epoch_size s) 0) as [Z|_]; [|reflexivity]. destruct Q as [N|Id]; [|symmetry; apply Id].
    exfalso. apply N. replace e with (d_epoch_size s) by (subst s; reflexivity). exact Z.
Qed.
(** A bound of the direction by the root of the speed bounds the move. *)
Lemma move_bound n i c : divides_by_speed cl -> (Nat.modulo n e <> 0%nat \/ forall y t, prox y t = y) -> 0 <= eta -> 0 < eps ->
  Rabs (new_dir grad n (gd_after grad prox n s) i) <= c * sqrt (sp (S n) i) -> 0 <= c -> Rabs (x (S n) i - x n i) <= c * eta.
Proof.
  intros Hcl Q Heta Heps B Hc. rewrite (move_step n i Hcl Q), Rabs_Ropp, Rabs_mult. pose proof (sqrt_pos (sp (S n) i)) as Sq.
  assert (Ip : 0 < / (sqrt (sp (S n) i) + eps)) by (apply Rinv_0_lt_compat; lra).
  rewrite (Rabs_right (eta / _)) by (apply Rle_ge, Rmult_le_pos; lra).
  apply Rle_trans with (eta / (sqrt (sp (S n) i) + eps) * (c * (sqrt (sp (S n) i) + eps))).
  - apply Rmult_le_compat_l; [apply Rmult_le_pos; lra|]. apply Rle_trans with (1 := B). apply Rmult_le_compat_l; lra.
  - right. field. lra.
Qed.
End Move.

(** [C140] No update of AdaGrad moves an entry by more than eta, none of RMSprop (gamma < 1) by more than
    eta / sqrt(1 - gamma), before the penalty acts and whatever the gradients. *)
Theorem C140_adagrad_moves_at_most_eta :
  forall I grad prox (x0 : arr I) eta eps e s, gd_init Ada x0 eta eps e None = Ok s -> 0 <= eta -> 0 < eps ->
  let x k := d_x_new (gd_after grad prox k s) in
  forall n i, Nat.modulo n e <> 0%nat \/ (forall y t, prox y t = y) -> Rabs (x (S n) i - x n i) <= eta.
Proof.
  intros I grad prox x0 eta eps e s E Heta Heps x n i Q. rewrite <- (Rmult_1_l eta).
  apply (move_bound I grad prox Ada x0 eta eps e s E n i 1 Logic.I Q Heta Heps); [|lra].
  pose proof (init_ok _ _ _ _ _ _ _ E) as E'. assert (C : d_class s = (@Ada)) by (subst s; reflexivity).
  rewrite Rmult_1_l. rewrite (ada_speed grad prox (S n) s i C). replace (d_speed s i) with 0 by (subst s; reflexivity). cbn [sum_below].
  replace (new_dir grad n (gd_after grad prox n s) i) with (seen grad prox s n i) by (unfold new_dir, update_dir; rewrite class_after, C; reflexivity).
  rewrite <- sqrt_Rsqr_abs. apply sqrt_le_1_alt. rewrite Rsqr_pow2.
  assert (0 <= sum_below n (fun k => seen grad prox s k i ^ 2)); [|lra].
  clear. induction n as [|n IH]; [cbn; lra|]. cbn [sum_below]. pose proof (pow2_ge_0 (seen grad prox s n i)). lra.
Qed.
Print Assumptions C140_adagrad_moves_at_most_eta.

Theorem C140_rmsprop_step_bound :
  forall I grad prox gamma (x0 : arr I) eta eps e s, gd_init (RMSprop gamma) x0 eta eps e None = Ok s -> gamma < 1 -> 0 <= eta -> 0 < eps ->
  let x k := d_x_new (gd_after grad prox k s) in
  forall n i, Nat.modulo n e <> 0%nat \/ (forall y t, prox y t = y) -> Rabs (x (S n) i - x n i) <= / sqrt (1 - gamma) * eta.
Proof.
  intros I grad prox gamma x0 eta eps e s E Hg1 Heta Heps x n i Q.
  assert (Sg : 0 < sqrt (1 - gamma)) by (apply sqrt_lt_R0; lra). assert (Ig : 0 < / sqrt (1 - gamma)) by (apply Rinv_0_lt_compat, Sg).
  apply (move_bound I grad prox (RMSprop gamma) x0 eta eps e s E n i (/ sqrt (1 - gamma)) Logic.I Q Heta Heps); [|lra].
  pose proof (C59_rmsprop I grad prox gamma x0 eta eps e None s E) as [_ Sp]. cbv zeta in Sp.
  assert (Hg : 0 <= gamma).
  { clear - E. unfold gd_init, in_range_closed in E. destruct (Rlt_dec gamma 0); [discriminate|]. lra. }
  pose proof (init_ok _ _ _ _ _ _ _ E) as E'. assert (C : d_class s = RMSprop gamma) by (subst s; reflexivity).
  assert (P : 0 <= d_speed (gd_after grad prox n s) i).
  { rewrite (rms_speed grad prox n s i gamma C) by (subst s; reflexivity). clear - Hg Hg1.
    generalize (n - 1)%nat. intros m. induction n as [|n IH]; [cbn; lra|]. cbn [sum_below].
    assert (0 <= (1 - gamma) * gamma ^ (m - n) * seen grad prox s n i ^ 2) by (apply Rmult_le_pos; [apply Rmult_le_pos; [lra|apply pow_le, Hg]|apply pow2_ge_0]). lra. }
  rewrite (rms_speed_step grad prox n s i gamma C).
  replace (new_dir grad n (gd_after grad prox n s) i) with (seen grad prox s n i) by (unfold new_dir, update_dir; rewrite class_after, C; reflexivity).
  set (g := seen grad prox s n i). apply Rmult_le_reg_l with (sqrt (1 - gamma)); [exact Sg|].
  rewrite <- Rmult_assoc, Rinv_r, Rmult_1_l by lra. rewrite <- sqrt_Rsqr_abs, <- sqrt_mult_alt by lra. apply sqrt_le_1_alt. rewrite Rsqr_pow2.
  assert (0 <= gamma * d_speed (gd_after grad prox n s) i) by (apply Rmult_le_pos; assumption). lra.
Qed.
Print Assumptions C140_rmsprop_step_bound.

(** [C140] ADAM with beta <= gamma (equal by default): a bound that depends on beta and gamma only. *)
Theorem C140_adam_step_bound :
  forall I grad prox gamma beta (x0 : arr I) eta eps e s, gd_init (Adam gamma beta) x0 eta eps e None = Ok s -> beta <= gamma -> 0 <= eta -> 0 < eps ->
  let x k := d_x_new (gd_after grad prox k s) in
  forall n i, Nat.modulo n e <> 0%nat \/ (forall y t, prox y t = y) ->
  Rabs (x (S n) i - x n i) <= sqrt ((1 - beta) / (1 - gamma) * exp (beta / (1 - beta) ^ 2)) * eta.
Proof.
  intros I grad prox gamma beta x0 eta eps e s E Hbg Heta Heps x n i Q.
  apply (move_bound I grad prox (Adam gamma beta) x0 eta eps e s E n i _ Logic.I Q Heta Heps); [|apply sqrt_pos].
  assert (R : gamma < 1 /\ 0 <= beta).
  { clear - E. unfold gd_init, in_range_open in E. destruct (Rlt_dec gamma 0); [discriminate|]. destruct (Rge_dec gamma 1); [discriminate|].
    destruct (Rlt_dec beta 0); [discriminate|]. lra. }
  pose proof (init_ok _ _ _ _ _ _ _ E) as E'. assert (C : d_class s = Adam gamma beta) by (subst s; reflexivity).
  assert (B1 : d_beta_pow s = 1) by (subst s; reflexivity). assert (G1 : d_gamma_pow s = 1) by (subst s; reflexivity).
  pose proof (ratio_bound beta gamma (fun k => d_dir (gd_after grad prox k s) i) (fun k => d_speed (gd_after grad prox k s) i) (fun k => seen grad prox s k i)
    ltac:(tauto) Hbg ltac:(tauto) ltac:(subst s; reflexivity) ltac:(subst s; reflexivity)
    (fun k => adam_dir grad prox k s gamma beta i C B1 G1) (fun k => adam_speed grad prox k s gamma beta i C B1 G1) (S n)) as B.
  cbv beta in B. cbn [gd_after] in B. rewrite dir_step, class_after, C, Tauto.if_same in B. exact B.
Qed.
Print Assumptions C140_adam_step_bound.

(** [C140, refuted] But that bound cannot be eta, as it is for the documented method when beta = gamma:
    with the default weights, a constant gradient 1 and epsilon = 1e-6 the fourth update moves by more
    than 6 eta. *)
Lemma adam_constant I prox (x0 : arr I) eta eps e s : gd_init (Adam (9 / 10) (9 / 10)) x0 eta eps e None = Ok s ->
  let grad (_ : nat) (_ : arr I) : arr I := full 1 in
  forall i, exists D, 46 < D < 49 /\ d_dir (gd_after grad prox 4 s) i = D /\ d_speed (gd_after grad prox 4 s) i = D.
Proof.
  intros E grad i. pose proof (init_ok _ _ _ _ _ _ _ E) as E'. assert (C : d_class s = Adam (9 / 10) (9 / 10)) by (subst s; reflexivity).
  assert (B1 : d_beta_pow s = 1) by (subst s; reflexivity). assert (G1 : d_gamma_pow s = 1) by (subst s; reflexivity).
  rewrite (adam_dir grad prox 3 s _ _ i C B1 G1), (adam_dir grad prox 2 s _ _ i C B1 G1), (adam_dir grad prox 1 s _ _ i C B1 G1), (adam_dir grad prox 0 s _ _ i C B1 G1).
  rewrite (adam_speed grad prox 3 s _ _ i C B1 G1), (adam_speed grad prox 2 s _ _ i C B1 G1), (adam_speed grad prox 1 s _ _ i C B1 G1), (adam_speed grad prox 0 s _ _ i C B1 G1).
  assert (Sn : forall k, seen grad prox s k i = 1) by reflexivity. rewrite !Sn.
  replace (d_dir (gd_after grad prox 0 s) i) with 0 by (subst s; reflexivity). replace (d_speed (gd_after grad prox 0 s) i) with 0 by (subst s; reflexivity).
  eexists. split; [|split; [reflexivity|]]; cbn [pow]; lra.
Qed.
Theorem C140_adam_moves_further_than_eta :
  forall I (x0 : arr I) eta s, 0 < eta -> gd_init (Adam (9 / 10) (9 / 10)) x0 eta (/ 10 ^ 6) 1 None = Ok s ->
  let x k := d_x_new (gd_after (fun _ _ => full 1) (fun y _ => y) k s) in
  forall i, x 4%nat i - x 3%nat i < - (6 * eta).
Proof.
  intros I x0 eta s Heta E x i.
  pose proof (move_step I (fun _ _ => full 1) (fun y _ => y) _ x0 eta _ 1 s E 3 i Logic.I (or_intror (fun y t => eq_refl))) as M. cbv zeta in M. fold x in M. cbv beta in M.
  change (d_x_new (gd_after (fun _ _ => full 1) (fun y _ => y) 4 s) i - d_x_new (gd_after (fun _ _ => full 1) (fun y _ => y) 3 s) i) with (x 4%nat i - x 3%nat i) in M. rewrite M.
  destruct (adam_constant I (fun y _ => y) x0 eta _ 1 s E i) as (D & HD & D1 & D2). cbv zeta in D1, D2. rewrite D2.
  pose proof (init_ok _ _ _ _ _ _ _ E) as E'. assert (C : d_class s = Adam (9 / 10) (9 / 10)) by (subst s; reflexivity).
  change (gd_after (fun (_ : nat) (_ : arr I) => full 1) (fun y _ : arr I => y) 4 s) with (gd_step (fun (_ : nat) (_ : arr I) => full 1) (fun y _ : arr I => y) 3 (gd_after (fun (_ : nat) (_ : arr I) => full 1) (fun y _ : arr I => y) 3 s)) in D1.
  rewrite dir_step, class_after, C, Tauto.if_same in D1. rewrite D1.
  assert (S7 : sqrt D < 7) by (rewrite <- (sqrt_square 7) by lra; apply sqrt_lt_1; lra). pose proof (sqrt_pos D) as S0.
  assert (Ep : 0 < / 10 ^ 6 < / 100) by (split; [apply Rinv_0_lt_compat; lra|apply Rinv_lt_contravar; lra]).
  set (q := sqrt D + / 10 ^ 6) in *. assert (Hq : 0 < q < 71 / 10) by (unfold q; lra).
  apply Ropp_lt_contravar. replace (eta / q * D) with (eta * (D / q)) by (field; lra). rewrite (Rmult_comm 6). apply Rmult_lt_compat_l; [exact Heta|].
  apply Rmult_lt_reg_r with q; [lra|]. unfold Rdiv. rewrite Rmult_assoc, Rinv_l by lra. lra.
Qed.
Print Assumptions C140_adam_moves_further_than_eta.
Theorem C140_adam_moves_at_most_eta_refuted :
  exists gamma beta grad (x0 : U) eta eps s, beta <= gamma /\ 0 < eta /\ 0 < eps /\ gd_init (Adam gamma beta) x0 eta eps 1 None = Ok s /\
  exists n, eta < Rabs (d_x_new (gd_after grad (fun y _ => y) (S n) s) tt - d_x_new (gd_after grad (fun y _ => y) n s) tt).
Proof.
  destruct (gd_init (Adam (9 / 10) (9 / 10)) (one 0) 1 (/ 10 ^ 6) 1 None) as [s|] eqn:E.
  - exists (9 / 10), (9 / 10), (fun _ _ => full 1), (one 0), 1, (/ 10 ^ 6), s. split; [lra|]. split; [lra|]. split; [apply Rinv_0_lt_compat; lra|]. split; [exact E|].
    exists 3%nat. pose proof (C140_adam_moves_further_than_eta unit (one 0) 1 s Rlt_0_1 E tt) as Q. cbv zeta in Q. rewrite Rabs_left by lra. lra.
  - exfalso. unfold gd_init, in_range_open in E. destruct (Rlt_dec (9 / 10) 0); [lra|]. destruct (Rge_dec (9 / 10) 1); [lra|]. discriminate E.
Qed.
Print Assumptions C140_adam_moves_at_most_eta_refuted.

(** [C140, refuted] With beta^2 > gamma there is no bound at all: for beta = 1/2, gamma = 1/8, every eta
    and epsilon, one large gradient followed by zero gradients moves the entry by more than M eta in one
    update, for every M. *)
Section Burst.
Variables (eta eps : R) (s : gd unit).
Hypothesis Init : gd_init (Adam (/ 8) (/ 2)) (one 0) eta eps 1 None = Ok s.
Definition burst (G : R) (k : nat) (_ : arr unit) : arr unit := match k with O => one G | _ => one 0 end.
Lemma burst_state k : exists D S2, 0 < D /\ 0 < S2 /\ 2 ^ k * S2 <= D ^ 2 /\
  forall G, d_dir (gd_after (burst G) (fun y _ => y) (S k) s) tt = G * D /\ d_speed (gd_after (burst G) (fun y _ => y) (S k) s) tt = G ^ 2 * S2.
Proof.
  pose proof (init_ok _ _ _ _ _ _ _ Init) as E'. assert (C : d_class s = Adam (/ 8) (/ 2)) by (subst s; reflexivity).
  assert (B1 : d_beta_pow s = 1) by (subst s; reflexivity). assert (G1 : d_gamma_pow s = 1) by (subst s; reflexivity).
  induction k as [|k (D & S2 & HD & HS & HR & IH)].
  - exists 1, 1. split; [lra|]. split; [lra|]. split; [cbn; lra|]. intros G.
    rewrite (adam_dir (burst G) (fun y _ => y) 0 s _ _ tt C B1 G1), (adam_speed (burst G) (fun y _ => y) 0 s _ _ tt C B1 G1).
    rewrite (move_seen _ _ _ _ _ _ _ _ _ Init). cbn [burst]. unfold one.
    replace (d_dir (gd_after (burst G) (fun y _ => y) 0 s) tt) with 0 by (subst s; reflexivity).
    replace (d_speed (gd_after (burst G) (fun y _ => y) 0 s) tt) with 0 by (subst s; reflexivity). cbn [pow]. split; field.
  - assert (P2 : 0 < (/ 2) ^ S (S k) <= / 2) by (split; [apply pow_lt; lra|pose proof (pow_range (/ 2) (S k) ltac:(lra)); lra]).
    assert (P8 : 0 < (/ 8) ^ S (S k) <= (/ 2) ^ S (S k)) by (split; [apply pow_lt; lra|apply pow_incr; lra]).
    set (b := (/ 2) ^ S (S k)) in *. set (c := (/ 8) ^ S (S k)) in *.
    exists (/ (1 - b) * (/ 2 * D)), (/ (1 - c) * (/ 8 * S2)).
    assert (Ib : 1 <= / (1 - b)) by (rewrite <- Rinv_1 at 1; apply Rinv_le_contravar; lra).
    assert (Ic : 0 < / (1 - c)) by (apply Rinv_0_lt_compat; lra).
    split; [apply Rmult_lt_0_compat; lra|]. split; [apply Rmult_lt_0_compat; lra|]. split.
    + replace (2 ^ S k * (/ (1 - c) * (/ 8 * S2))) with (/ 4 * (/ (1 - c) * (2 ^ k * S2))) by (cbn [pow]; field; lra).
      replace ((/ (1 - b) * (/ 2 * D)) ^ 2) with (/ 4 * (/ (1 - b) * (/ (1 - b) * D ^ 2))) by (field; lra).
      apply Rmult_le_compat_l; [lra|].
      assert (Le : / (1 - c) <= / (1 - b) * / (1 - b)).
      { apply Rle_trans with (/ (1 - b)); [apply Rinv_le_contravar; lra|]. rewrite <- (Rmult_1_r (/ (1 - b))) at 1. apply Rmult_le_compat_l; lra. }
      rewrite <- (Rmult_assoc (/ (1 - b)) (/ (1 - b))). apply Rmult_le_compat; [lra|apply Rmult_le_pos; [apply pow_le; lra|lra]|exact Le|exact HR].
    + intros G. destruct (IH G) as [I1 I2].
      rewrite (adam_dir (burst G) (fun y _ => y) (S k) s _ _ tt C B1 G1), (adam_speed (burst G) (fun y _ => y) (S k) s _ _ tt C B1 G1), I1, I2.
      rewrite (move_seen _ _ _ _ _ _ _ _ _ Init). cbn [burst]. unfold one. fold b c. split; field; lra.
Qed.
End Burst.
Theorem C140_adam_without_bound_refuted :
  exists gamma beta, 0 < gamma < 1 /\ 0 < beta < 1 /\ forall eta eps, 0 < eta -> 0 < eps ->
  exists s, gd_init (Adam gamma beta) (one 0) eta eps 1 None = Ok s /\
  forall M, exists grad n, M * eta < Rabs (d_x_new (gd_after grad (fun y _ => y) (S n) s) tt - d_x_new (gd_after grad (fun y _ => y) n s) tt).
Proof.
  exists (/ 8), (/ 2). split; [lra|]. split; [lra|]. intros eta eps Heta Heps.
  destruct (gd_init (Adam (/ 8) (/ 2)) (one 0) eta eps 1 None) as [s|] eqn:E.
  2:{ exfalso. unfold gd_init, in_range_open in E. destruct (Rlt_dec (/ 8) 0); [lra|]. destruct (Rge_dec (/ 8) 1); [lra|].
      destruct (Rlt_dec (/ 2) 0); [lra|]. destruct (Rge_dec (/ 2) 1); [lra|]. discriminate E. }
  exists s. split; [reflexivity|]. intros M.
  destruct (Pow_x_infinity 2 ltac:(rewrite Rabs_right; lra) (4 * M ^ 2 + 1)) as (n & Hn). specialize (Hn n (Nat.le_refl n)).
  rewrite Rabs_right in Hn by (apply Rle_ge, pow_le; lra).
  destruct (burst_state eta eps s E n) as (D & S2 & HD & HS & HR & St).
  assert (Q : 0 < sqrt S2) by (apply sqrt_lt_R0, HS). set (G := eps / sqrt S2).
  assert (HG : 0 < G) by (apply Rmult_lt_0_compat; [exact Heps|apply Rinv_0_lt_compat, Q]).
  exists (burst G), n. destruct (St G) as [S1 Sp].
  rewrite (move_step unit (burst G) (fun y _ => y) _ (one 0) eta eps 1 s E n tt Logic.I (or_intror (fun y t => eq_refl))).
  assert (C : d_class s = Adam (/ 8) (/ 2)) by (apply init_ok in E; subst s; reflexivity).
  assert (Nd : new_dir (burst G) n (gd_after (burst G) (fun y _ => y) n s) tt = G * D) by (rewrite <- S1; cbn [gd_after]; rewrite dir_step, class_after, C, Tauto.if_same; reflexivity).
  rewrite Nd, Sp, sqrt_scaled by exact HG. replace (G * sqrt S2) with eps by (unfold G; field; lra).
  rewrite Rabs_Ropp, Rabs_right by (apply Rle_ge, Rmult_le_pos; [apply Rmult_le_pos; [lra|left; apply Rinv_0_lt_compat; lra]|apply Rmult_le_pos; lra]).
  replace (eta / (eps + eps) * (G * D)) with (eta * (D / (2 * sqrt S2))) by (unfold G; field; split; lra).
  rewrite (Rmult_comm M). apply Rmult_lt_compat_l; [exact Heta|].
  assert (K : (2 * M * sqrt S2) ^ 2 < D ^ 2).
  { replace ((2 * M * sqrt S2) ^ 2) with (4 * M ^ 2 * (sqrt S2 * sqrt S2)) by ring. rewrite sqrt_sqrt by lra. apply Rlt_le_trans with (2 := HR). apply Rmult_lt_compat_r; lra. }
  apply Rmult_lt_reg_r with (2 * sqrt S2); [lra|]. unfold Rdiv. rewrite Rmult_assoc, Rinv_l by lra. rewrite Rmult_1_r.
  apply Rnot_le_lt. intros L. assert (D ^ 2 <= (M * (2 * sqrt S2)) ^ 2) by (apply pow_incr; lra).
  replace (M * (2 * sqrt S2)) with (2 * M * sqrt S2) in * by ring. lra.
Qed.
Print Assumptions C140_adam_without_bound_refuted.

(** AdaGrad from 0 with gradient -3, epsilon 1 and eta 2 moves to 3/2; with gradient -6 and epsilon 2 as well. *)
Example C140_example :
  exists s s', gd_init Ada (one 0) 2 1 1 None = Ok s /\ gd_init Ada (one 0) 2 (2 * 1) 1 None = Ok s' /\
  d_x_new (gd_after (fun _ _ => one (-3)) (fun y _ => y) 1 s) = one (3 / 2) /\
  d_x_new (gd_after (fun _ _ => one (-6)) (fun y _ => y) 1 s') = one (3 / 2).
Proof.
  eexists. eexists. split; [reflexivity|]. split; [reflexivity|].
  split; cbn; extensionality u; unfold one, full; rewrite Rabs_left by lra.
  - replace (0 + _) with (3 * 3) by ring. rewrite sqrt_square by lra. field.
  - replace (0 + _) with (6 * 6) by ring. rewrite sqrt_square by lra. field.
Qed.
