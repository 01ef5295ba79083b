(** Theorems of C144: divisions by zero in the gradient descent classes. Entries are finite, infinite
    or nan (Model_GDX); x k is the estimate after k updates. *)
From Verif Require Import NPReal Py IPS Model_SetUp Model_Stats Spec_GD Model_GD Proof_GD Prop_GD Spec_GDX Model_GDX Proof_GDX.
From Coq Require Import List Lia FunctionalExtensionality.
Import ListNotations.
Local Open Scope R_scope.

(** [C144] With epsilon > 0 (for the vanilla descent and momentum whatever epsilon is) no update of
    any class divides by zero: operators that map finite arrays to finite arrays give finite
    estimates for ever, those of the real model. *)
Theorem C144_finite_for_ever :
  forall I gradX proxX grad prox cl (x0 : I -> R) eta eps e eu s s', extends gradX proxX grad prox ->
  match cl with Vanilla | Momentum _ => True | _ => 0 < eps end ->
  gdx_init cl (fin x0) eta eps e eu = Ok s -> gd_init cl x0 eta eps e eu = Ok s' ->
  forall n, x_x_new (gdx_after gradX proxX n s) = fin (d_x_new (gd_after grad prox n s')) /\
    x_speed (gdx_after gradX proxX n s) = fin (d_speed (gd_after grad prox n s')).
Proof.
  intros I gradX proxX grad prox cl x0 eta eps e eu s s' Ext He E E' n.
  assert (Es : s = fin_state s') by (rewrite fin_init, E' in E; cbn in E; congruence).
  assert (So : sound s').
  { assert (R : match cl with RMSprop g => 0 <= g <= 1 | Adam g _ => 0 <= g < 1 | _ => True end).
    { clear - E'. unfold gd_init, in_range_closed, in_range_open in E'. destruct cl; try exact Logic.I; destruct (Rlt_dec gamma 0); try discriminate.
      - destruct (Rgt_dec gamma 1); [discriminate|]. lra.
      - destruct (Rge_dec gamma 1); [discriminate|]. lra. }
    apply init_ok in E'. subst s'. split; [cbn; lra|]. cbn. destruct cl; repeat split; try assumption; try lra; intros i; unfold full; lra. }
  rewrite Es, (fin_run gradX proxX grad prox Ext); [split; reflexivity|]. intros k Hk. apply (sound_step grad prox 0), sound_run, So.
Qed.
Print Assumptions C144_finite_for_ever.

(** [C144] AdaGrad with epsilon = 0: finite for ever if no entry of the first gradient is zero. *)
Theorem C144_adagrad_without_epsilon :
  forall I gradX proxX grad prox (x0 : I -> R) eta e eu s s', extends gradX proxX grad prox ->
  gdx_init Ada (fin x0) eta 0 e eu = Ok s -> gd_init Ada x0 eta 0 e eu = Ok s' -> (forall i, grad 0%nat x0 i <> 0) ->
  forall n, x_x_new (gdx_after gradX proxX n s) = fin (d_x_new (gd_after grad prox n s')).
Proof.
  intros I gradX proxX grad prox x0 eta e eu s s' Ext E E' Hg n.
  assert (Es : s = fin_state s') by (rewrite fin_init, E' in E; cbn in E; congruence). apply init_ok in E'.
  assert (C : forall k, d_class (gd_after grad prox k s') = @Ada) by (intros k; rewrite class_after; subst s'; reflexivity).
  assert (Ep : forall k, d_eps (gd_after grad prox k s') = 0) by (intros k; rewrite eps_after; subst s'; reflexivity).
  assert (Pos : forall k i, 0 < new_speed grad (gd_after grad prox k s') i).
  { intros k i. induction k as [|k IH].
    - unfold new_speed, update_speed. rewrite C. cbn [fst gd_after]. replace (d_speed s' i) with 0 by (subst s'; reflexivity).
      replace (grad (d_calls s') (d_x_old s') i) with (grad 0%nat x0 i) by (subst s'; reflexivity). rewrite Rplus_0_l. apply pow_lt, Rabs_pos_lt, Hg.
    - unfold new_speed at 1, update_speed. rewrite C. cbn [fst]. cbn [gd_after]. rewrite (speed_step grad prox k).
      match goal with |- 0 < _ + ?q ^ 2 => pose proof (pow2_ge_0 q) end. lra. }
  rewrite Es, (fin_run gradX proxX grad prox Ext); [reflexivity|]. intros k Hk i. specialize (Pos k i). rewrite Ep. split; [lra|].
  pose proof (sqrt_lt_R0 _ Pos). lra.
Qed.
Print Assumptions C144_adagrad_without_epsilon.

(** [C144] and nan for ever at an entry whose first gradient is zero (for instance an entry the data do
    not depend on), whatever happens at the other entries. *)
Theorem C144_adagrad_nan :
  forall I gradX (x0 : I -> fval) eta e eu s i, gdx_init Ada x0 eta 0 e eu = Ok s -> gradX 0%nat x0 i = Fin 0 ->
  forall n, x_x_new (gdx_after gradX (fun y _ => y) (S n) s) i = NaN.
Proof.
  intros I gradX x0 eta e eu s i E Hg n. injection E as <-. set (st := mk_gdx _ _ _ _ _ _ _ _ _ _ _ _ _).
  assert (Old : forall k, x_x_new (gdx_after gradX (fun y _ => y) k st) = x_x_old (gdx_after gradX (fun y _ => y) k st)).
  { intros [|k]; [reflexivity|]. cbn [gdx_after]. unfold gdx_step. destruct (x_update_dir _ _ _) as [[dir bp] mem]. destruct (x_update_speed _ _). reflexivity. }
  induction n as [|n IH].
  - cbn [gdx_after]. unfold gdx_step. cbn [x_calls x_x_old st x_update_dir x_update_speed x_class x_speed x_eta x_eps]. rewrite Tauto.if_same. cbn [x_x_new].
    rewrite Hg. cbn. rewrite Rabs_R0. replace (0 + 0 * (0 * 1)) with 0 by ring. destruct (Rlt_dec 0 0); [lra|]. rewrite sqrt_0. cbn.
    destruct (Req_EM_T (0 + 0) 0) as [_|Q]; [|destruct Q; ring]. unfold inf_of. destruct (Rlt_dec 0 eta); [|destruct (Rlt_dec eta 0)]; cbn.
    + unfold inf_of. destruct (Rlt_dec 0 0); [lra|]. destruct (x0 i); reflexivity.
    + unfold inf_of. rewrite Ropp_0. destruct (Rlt_dec 0 0); [lra|]. destruct (x0 i); reflexivity.
    + destruct (x0 i); reflexivity.
  - set (m := S n) in *. cbn [gdx_after]. unfold gdx_step. destruct (x_update_dir _ _ _) as [[dir bp] mem]. destruct (x_update_speed _ _) as [sp gp].
    rewrite Tauto.if_same. cbn [x_x_new]. rewrite <- Old, IH. reflexivity.
Qed.
Print Assumptions C144_adagrad_nan.

(** [C144] The generic class and SAGA with epsilon = 0 and eta > 0: the first update makes every entry
    infinite, against the sign of the gradient, or nan. *)
Theorem C144_generic_without_epsilon :
  forall I gradX (x0 : I -> R) eta e eu cl s, cl = Generic \/ cl = Saga -> gdx_init cl (fin x0) eta 0 e eu = Ok s -> 0 < eta ->
  forall i g, gradX 0%nat (fin x0) i = Fin g ->
  x_x_new (gdx_after gradX (fun y _ => y) 1 s) i = inf_of (- g).
Proof.
  intros I gradX x0 eta e eu cl s Hc E Heta i g Hg.
  assert (Z : sqrt 0 + 0 = 0) by (rewrite sqrt_0; ring).
  assert (Ie : inf_of eta = PInf) by (unfold inf_of; destruct (Rlt_dec 0 eta); [reflexivity|lra]).
  destruct Hc as [-> | ->]; injection E as <-; cbn [gdx_after]; unfold gdx_step; cbn [x_calls x_x_old x_update_dir x_update_speed x_class x_speed x_eta x_eps x_dir x_memory x_epoch_size];
    rewrite Tauto.if_same; cbn [x_x_new]; rewrite Hg; cbn; (destruct (Rlt_dec 0 0); [lra|]); cbn; rewrite Z;
    (destruct (Req_EM_T 0 0) as [_|Q]; [|destruct Q; reflexivity]); rewrite Ie; cbn;
    [|replace (0 + - 0 + g) with g by ring]; unfold inf_of;
    destruct (Rlt_dec 0 g), (Rlt_dec 0 (- g)), (Rlt_dec g 0), (Rlt_dec (- g) 0); try lra; reflexivity.
Qed.
Print Assumptions C144_generic_without_epsilon.

(** Specification: a value that is positive (negative), infinities included. *)
Inductive positive : fval -> Prop := pos_inf : positive PInf | pos_fin a : 0 < a -> positive (Fin a).
Inductive negative : fval -> Prop := neg_inf : negative NInf | neg_fin a : a < 0 -> negative (Fin a).

(** [C144] The later updates of the generic class with epsilon = 0 and a constant eta > 0, entry by entry, v being the gradient at the entry: a
    gradient pointing away from zero (as that of a convex function far from its minimiser) turns an infinite entry into nan, one
    pointing towards zero leaves it, a finite entry becomes infinite against the sign of v, and nan entries stay. *)
Theorem C144_generic_later_updates :
  forall I gradX (x0 : I -> fval) eta e s, gdx_init Generic x0 eta 0 e None = Ok s -> 0 < eta ->
  let x n := x_x_new (gdx_after gradX (fun y _ => y) n s) in
  forall n i, let v := gradX n (x n) i in
  (x n i = PInf -> (positive v -> x (S n) i = NaN) /\ (negative v -> x (S n) i = PInf)) /\
  (x n i = NInf -> (positive v -> x (S n) i = NInf) /\ (negative v -> x (S n) i = NaN)) /\
  (forall a, x n i = Fin a -> (positive v -> x (S n) i = NInf) /\ (negative v -> x (S n) i = PInf)) /\
  (x n i = NaN \/ v = Fin 0 \/ v = NaN -> forall m, (n < m)%nat -> x m i = NaN).
Proof.
  intros I gradX x0 eta e s E He x n i v. injection E as <-. set (st := mk_gdx _ _ _ _ _ _ _ _ _ _ _ _ _) in *.
  assert (Inv : forall k, let q := gdx_after gradX (fun y _ => y) k st in
    x_class q = Generic /\ x_speed q = (fun _ => Fin 0) /\ x_eps q = 0 /\ x_eta q = eta /\ x_eta_update q = None /\ x_calls q = k /\ x_x_old q = x_x_new q).
  { induction k as [|k IH]; [repeat split|]. cbv zeta in *. destruct IH as (I1 & I2 & I3 & I4 & I5 & I6 & I7). cbn [gdx_after].
    unfold gdx_step, x_update_dir, x_update_speed. rewrite I1, I5. cbn [x_class x_speed x_eps x_eta x_eta_update x_calls x_x_old x_x_new].
    repeat split; auto. }
  assert (Ie : inf_of eta = PInf) by (unfold inf_of; destruct (Rlt_dec 0 eta); [reflexivity|lra]).
  assert (Step : forall k j, x (S k) j = xsub (x k j) (xmul PInf (gradX k (x k) j))).
  { intros k j. unfold x. destruct (Inv k) as (I1 & I2 & I3 & I4 & I5 & I6 & I7). cbn [gdx_after].
    set (q := gdx_after gradX (fun y _ => y) k st) in *. unfold gdx_step, x_update_dir, x_update_speed. rewrite I1. rewrite Tauto.if_same. cbn [x_x_new].
    rewrite I2, I3, I4, I6, I7. cbn. destruct (Rlt_dec 0 0); [lra|]. rewrite sqrt_0. cbn. destruct (Req_EM_T (0 + 0) 0) as [_|Q]; [|destruct Q; ring].
    rewrite Ie. reflexivity. }
  assert (P : positive v -> xmul PInf v = PInf).
  { intros Q. destruct Q as [|a Ha]; cbn; [reflexivity|]. unfold inf_of. destruct (Rlt_dec 0 a); [reflexivity|lra]. }
  assert (N : negative v -> xmul PInf v = NInf).
  { intros Q. destruct Q as [|a Ha]; cbn; [reflexivity|]. unfold inf_of. destruct (Rlt_dec 0 a); [lra|]. destruct (Rlt_dec a 0); [reflexivity|lra]. }
  assert (St : forall m, (n < m)%nat -> x (S n) i = NaN -> x m i = NaN).
  { intros m Hm Q. induction Hm as [|m Hm IH]; [exact Q|]. rewrite Step, IH. reflexivity. }
  split; [|split; [|split]].
  - intros X. split; intros Q; rewrite Step, X; fold v; [rewrite (P Q)|rewrite (N Q)]; reflexivity.
  - intros X. split; intros Q; rewrite Step, X; fold v; [rewrite (P Q)|rewrite (N Q)]; reflexivity.
  - intros a X. split; intros Q; rewrite Step, X; fold v; [rewrite (P Q)|rewrite (N Q)]; reflexivity.
  - intros Q m Hm. apply St; [exact Hm|]. rewrite Step. fold v. destruct Q as [Q|[Q|Q]]; rewrite Q; [reflexivity| |destruct (x n i); reflexivity].
    cbn. unfold inf_of. destruct (Rlt_dec 0 0); [lra|]. destruct (x n i); reflexivity.
Qed.
Print Assumptions C144_generic_later_updates.

(** Least squares with the identity, gradient y - 1, from 0: infinite after one update, nan from the second on. *)
Example C144_later_example :
  exists s, gdx_init (I := unit) Generic (fun _ => Fin 0) 1 0 1 None = Ok s /\
  let x n := x_x_new (gdx_after (fun _ y i => xsub (y i) (Fin 1)) (fun y _ => y) n s) tt in
  x 1%nat = PInf /\ forall n, x (S (S n)) = NaN.
Proof.
  eexists. split; [reflexivity|]. intros x.
  set (g := fun (_ : nat) (y : unit -> fval) i => xsub (y i) (Fin 1)) in *.
  pose proof (C144_generic_later_updates unit g (fun _ => Fin 0) 1 1 _ eq_refl ltac:(lra)) as T. cbv zeta in T.
  assert (X1 : x 1%nat = PInf).
  { destruct (T 0%nat tt) as (_ & _ & Q & _). specialize (Q 0 eq_refl). apply Q. apply neg_fin. cbn. lra. }
  assert (X2 : x 2%nat = NaN).
  { destruct (T 1%nat tt) as (Q & _). destruct (Q X1) as [Q1 _]. apply Q1. change (positive (xsub (x 1%nat) (Fin 1))). rewrite X1. constructor. }
  split; [exact X1|]. intros [|n]; [exact X2|]. destruct (T 2%nat tt) as (_ & _ & _ & Q). apply Q; [left; exact X2|lia].
Qed.

(** [C144, refuted] Every epsilon that the constructor accepts keeps the estimates finite: a negative
    one can meet the root of the speed. *)
Theorem C144_any_epsilon_refuted :
  exists eps s, gdx_init (I := unit) Ada (fun _ => Fin 0) 1 eps 1 None = Ok s /\ eps < 0 /\
  x_x_new (gdx_after (fun (_ : nat) _ _ => Fin 1) (fun y _ => y) 1 s) tt = NInf.
Proof.
  exists (- (1)). eexists. split; [reflexivity|]. split; [lra|]. cbn. rewrite Rabs_R1. replace (0 + 1 * (1 * 1)) with 1 by ring.
  destruct (Rlt_dec 1 0); [lra|]. rewrite sqrt_1. cbn. destruct (Req_EM_T (1 + - (1)) 0) as [_|Q]; [|destruct Q; ring]. unfold inf_of.
  destruct (Rlt_dec 0 1); [|lra]. cbn. unfold inf_of. destruct (Rlt_dec 0 1); [|lra]. reflexivity.
Qed.
Print Assumptions C144_any_epsilon_refuted.

(** Two entries, the second one not seen by the data: gradient (y_0 - 1, 0), from (3, 5), AdaGrad with
    eta = 1. With epsilon = 1 the estimate is (7/3, 5), with epsilon = 0 it is (2, nan). *)
Example C144_example :
  let gradX (_ : nat) (y : bool -> fval) : bool -> fval := fun i => if i then xsub (y true) (Fin 1) else Fin 0 in
  let x0 : bool -> R := fun i => if i then 3 else 5 in
  exists s s', gdx_init Ada (fin x0) 1 1 1 None = Ok s /\ gdx_init Ada (fin x0) 1 0 1 None = Ok s' /\
  x_x_new (gdx_after gradX (fun y _ => y) 1 s) = fin (fun i : bool => if i then 7 / 3 else 5) /\
  x_x_new (gdx_after gradX (fun y _ => y) 1 s') true = Fin 2 /\ (forall n, x_x_new (gdx_after gradX (fun y _ => y) (S n) s') false = NaN).
Proof.
  intros gradX x0. eexists. eexists. split; [reflexivity|]. split; [reflexivity|]. split; [|split].
  - assert (S4 : sqrt (0 + Rabs (3 + - (1)) ^ 2) = 2).
    { replace (0 + Rabs (3 + - (1)) ^ 2) with (2 * 2); [apply sqrt_square; lra|]. rewrite Rabs_right by lra. ring. }
    assert (S0 : sqrt (0 + Rabs 0 ^ 2) = 0) by (rewrite Rabs_R0; replace (0 + 0 ^ 2) with 0 by ring; apply sqrt_0).
    extensionality i. destruct i; cbn - [sqrt pow Rabs]; unfold xsqrt.
    + destruct (Rlt_dec _ 0) as [Q|_]; [pose proof (pow2_ge_0 (Rabs (3 + - (1)))); lra|]. rewrite S4. cbn. destruct (Req_EM_T (2 + 1) 0); [lra|]. cbn. unfold fin. f_equal. field.
    + destruct (Rlt_dec _ 0) as [Q|_]; [pose proof (pow2_ge_0 (Rabs 0)); lra|]. rewrite S0. cbn. destruct (Req_EM_T (0 + 1) 0); [lra|]. cbn. unfold fin. f_equal. field.
  - assert (S4 : sqrt (0 + Rabs (3 + - (1)) ^ 2) = 2).
    { replace (0 + Rabs (3 + - (1)) ^ 2) with (2 * 2); [apply sqrt_square; lra|]. rewrite Rabs_right by lra. ring. }
    cbn - [sqrt pow Rabs]; unfold xsqrt. destruct (Rlt_dec _ 0) as [Q|_]; [pose proof (pow2_ge_0 (Rabs (3 + - (1)))); lra|]. rewrite S4. cbn.
    destruct (Req_EM_T (2 + 0) 0); [lra|]. cbn. f_equal. field.
  - intros n. apply (C144_adagrad_nan bool gradX (fin x0) 1 1 None _ false eq_refl eq_refl).
Qed.
