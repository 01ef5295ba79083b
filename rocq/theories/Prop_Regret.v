(** Theorems of C139: AdaGrad and the vanilla descent when the objective changes from update to
    update, with a penalty. x k is the estimate after k updates; epoch_size is 1, so the penalty is
    applied at every update. *)
From Verif Require Import NPReal Py IPS Model_SetUp Spec_Opt Proof_Smooth Spec_Prox Proof_Prox Spec_GD Model_GD Proof_GD Prop_GD Proof_Ada Spec_Regret Proof_Regret.
From Coq Require Import List Lia FunctionalExtensionality.
Import ListNotations.
Local Open Scope R_scope.

(** The classes whose direction is the gradient itself. *)
Definition plain (c : gd_class) : Prop := match c with Generic | Vanilla | Ada | RMSprop _ => True | _ => False end.

Section Run.
Variables (I : Type) (grad : nat -> arr I -> arr I) (prox : arr I -> arr I -> arr I).
Variables (c : gd_class) (x0 : arr I) (eta eps : R) (eu : option (R -> nat -> R)) (s : gd I).
Hypothesis Pc : plain c.
Hypothesis Init : gd_init c x0 eta eps 1 eu = Ok s.
Let x k : arr I := d_x_new (gd_after grad prox k s).
Let sp k : arr I := d_speed (gd_after grad prox k s).
Let e k : R := d_eta (gd_after grad prox k s).
Lemma run_old n : d_x_old (gd_after grad prox n s) = x n.
Proof. symmetry. apply after_new. pose proof (init_ok _ _ _ _ _ _ _ Init) as E. subst s. reflexivity. Qed.
Lemma run_calls n : d_calls (gd_after grad prox n s) = n.
Proof. destruct (after_consts grad prox n s) as (_ & _ & _ & _ & ->). pose proof (init_ok _ _ _ _ _ _ _ Init) as E. subst s. cbn. lia. Qed.
Lemma run_start : x 0%nat = x0.
Proof. pose proof (init_ok _ _ _ _ _ _ _ Init) as E. unfold x. subst s. reflexivity. Qed.
Lemma run_speed n : sp (S n) = new_speed grad (gd_after grad prox n s).
Proof. apply speed_step. Qed.
Lemma run_step k : x (S k) =
  prox (fun i => x k i - e k / (sqrt (sp (S k) i) + d_eps s) * grad k (x k) i) (fun i => e k / (sqrt (sp (S k) i) + d_eps s)).
Proof.
  pose proof (init_ok _ _ _ _ _ _ _ Init) as E. assert (Cs : d_class s = c) by (subst s; reflexivity).
  rewrite <- run_old. cbn [gd_after]. rewrite x_step, epoch_after. replace (d_epoch_size s) with 1%nat by (subst s; reflexivity).
  rewrite Nat.mod_1_r. cbn [Nat.eqb]. unfold descent, step_size. rewrite <- run_speed, eps_after. fold (e k). rewrite run_old. f_equal.
  extensionality i. f_equal. f_equal. unfold new_dir, update_dir. rewrite class_after, Cs, run_calls, run_old.
  clear - Pc. destruct c; try contradiction Pc; reflexivity.
Qed.
Lemma run_eta_const : eu = None -> forall k, e k = eta.
Proof. intros -> k. pose proof (init_ok _ _ _ _ _ _ _ Init) as E. unfold e. rewrite eta_const by (subst s; reflexivity). subst s. reflexivity. Qed.
Lemma run_eta_next u : eu = Some u -> forall k, e (S k) = u (e k) k.
Proof.
  intros Q k. pose proof (init_ok _ _ _ _ _ _ _ Init) as E. unfold e. cbn [gd_after]. unfold gd_step at 1.
  destruct (update_dir _ _ _) as [[d1 b1] m1]. destruct (update_speed _ _) as [p1 q1]. cbn [d_eta].
  destruct (after_consts grad prox k s) as (_ & _ & _ & -> & _). replace (d_eta_update s) with (Some u) by (subst s; symmetry; exact Q). reflexivity.
Qed.
Lemma run_eta_start : e 0%nat = eta.
Proof. pose proof (init_ok _ _ _ _ _ _ _ Init) as E. unfold e. subst s. reflexivity. Qed.
Lemma run_returns n metric period : gd_iterate grad prox None metric false period n s = Ok (x n).
Proof. apply iterate_plain. pose proof (init_ok _ _ _ _ _ _ _ Init) as E. subst s. discriminate. Qed.
End Run.

(** [C139] AdaGrad. The gradient seen at update k is a subgradient of the objective f_k of that update,
    whatever that is (changed data, one term of a sum, a non-smooth function); the penalty h acts
    entry by entry. Compared with any fixed point z within B of the estimates, entry by entry, the
    accumulated excess of the objectives is at most B^2/(2 eta) + eta times the sum over the entries of
    the root of the accumulated squared gradients (and an epsilon term). *)
Theorem C139_adagrad_regret :
  forall I (l : list I) (complete : forall i, In i l) D h prox grad f (x0 : arr I) eta eps s,
  let H := fin_ips I l complete in
  (forall i, convex_on (H := R_ips) (D i) (h i)) -> entrywise_prox D h prox -> 0 < eta -> 0 < eps ->
  gd_init Ada x0 eta eps 1 None = Ok s ->
  let x k := d_x_new (gd_after grad prox k s) in
  (forall k, subgradient (H := H) (f k) (x k) (grad k (x k))) ->
  forall n B z, (forall i, D i (z i)) -> (forall k i, (k <= n)%nat -> Rabs (x k i - z i) <= B) ->
  sum_below n (fun k => f k (x k) + total l (fun i => h i (x (S k) i)) - (f k z + total l (fun i => h i (z i)))) <=
  total l (fun i => let r := sqrt (sum_below n (fun k => grad k (x k) i ^ 2)) in (r + eps) * B ^ 2 / (2 * eta) + eta * r).
Proof.
  intros I l complete D h prox grad f x0 eta eps s H Ch P Heta Heps Init x Sg n B z Dz Bd.
  set (sp := fun k => d_speed (gd_after grad prox k s)).
  assert (Es : d_eps s = eps) by (pose proof (init_ok _ _ _ _ _ _ _ Init); subst s; reflexivity).
  assert (Cs : d_class s = (@Ada)) by (pose proof (init_ok _ _ _ _ _ _ _ Init); subst s; reflexivity).
  assert (S0 : forall i, sp 0%nat i = 0) by (pose proof (init_ok _ _ _ _ _ _ _ Init); intros i; unfold sp; subst s; reflexivity).
  assert (Sx : forall k i, sp k i = sum_below k (fun k => grad k (x k) i ^ 2)).
  { intros k i. unfold sp. rewrite ada_speed by exact Cs. change (d_speed s i) with (sp 0%nat i). rewrite S0, Rplus_0_l. f_equal.
    extensionality j. unfold seen. rewrite (run_calls _ _ _ _ _ _ _ _ _ Init), (run_old _ _ _ _ _ _ _ _ _ Init). reflexivity. }
  apply Rle_trans with (sum_below n (fun k => lsum l (fun i => h i (x (S k) i) - h i (z i) + grad k (x k) i * (x k i - z i)))).
  - apply sum_below_le. intros k _. pose proof (Sg k z) as Q. unfold H in Q. rewrite fin_inner in Q.
    rewrite lsum_plus, lsum_minus. change (@total I) with (@lsum I).
    replace (lsum l (fun i => grad k (x k) i * (x k i - z i))) with (- lsum l (fun i => grad k (x k) i * (vsub (H := fin_ips I l complete) z (x k)) i)); [lra|].
    replace (- lsum l (fun i => grad k (x k) i * (vsub (H := fin_ips I l complete) z (x k)) i)) with (-1 * lsum l (fun i => grad k (x k) i * (vsub (H := fin_ips I l complete) z (x k)) i)) by ring.
    rewrite <- lsum_scal. apply lsum_ext. intros i. unfold vsub. cbn. ring.
  - rewrite swap_sums. apply lsum_le. intros i. cbv zeta. rewrite <- Sx.
    replace (B ^ 2) with (B * B) by ring.
    apply (e_regret (D i) (h i) eta eps B (z i) (fun k => x k i) (fun k => grad k (x k) i) (fun k => sp k i) (Ch i) Heta Heps (S0 i)).
    + intros k. rewrite !Sx. cbn [sum_below]. ring.
    + intros k. pose proof (run_step I grad prox Ada x0 eta eps None s Logic.I Init k) as St. cbv beta zeta in St. rewrite (run_eta_const _ _ _ _ _ _ _ _ _ Init eq_refl), Es in St.
      change (d_x_new (gd_after grad prox (S k) s)) with (x (S k)) in St. change (d_speed (gd_after grad prox (S k) s)) with (sp (S k)) in St. change (d_x_new (gd_after grad prox k s)) with (x k) in St.
      rewrite St.
      apply (P (fun i => x k i - eta / (sqrt (sp (S k) i) + eps) * grad k (x k) i) (fun i => eta / (sqrt (sp (S k) i) + eps)) i).
      apply Rmult_lt_0_compat; [exact Heta|]. apply Rinv_0_lt_compat. pose proof (sqrt_pos (sp (S k) i)). lra.
    + apply Dz.
    + intros k Hk. apply Bd, Hk.
Qed.
Print Assumptions C139_adagrad_regret.

(** [C139] So for one objective f, subgradients with entries bounded by G and a penalty h >= 0, the best
    of the first n estimates is within an explicit C / sqrt n of the value at z. *)
Theorem C139_adagrad_rate :
  forall I (l : list I) (complete : forall i, In i l) D h prox grad f (x0 : arr I) eta eps s B G z,
  let H := fin_ips I l complete in
  (forall i, convex_on (H := R_ips) (D i) (h i)) -> (forall i v, 0 <= h i v) -> entrywise_prox D h prox -> 0 < eta -> 0 < eps ->
  gd_init Ada x0 eta eps 1 None = Ok s ->
  let x k := d_x_new (gd_after grad prox k s) in
  let F y := f y + total l (fun i => h i (y i)) in
  (forall k, subgradient (H := H) f (x k) (grad k (x k))) ->
  (forall k i, Rabs (grad k (x k) i) <= G) -> (forall i, D i (z i)) -> (forall k i, Rabs (x k i - z i) <= B) ->
  forall n, exists k, (k <= n)%nat /\
  F (x k) - F z <= (INR (length l) * ((G + eps) * B ^ 2 / (2 * eta) + eta * G) + total l (fun i => h i (x0 i))) / sqrt (INR (S n)).
Proof.
  intros I l complete D h prox grad f x0 eta eps s B G z H Ch Hp P Heta Heps Init x F Sg HG Dz Bd n.
  pose proof (C139_adagrad_regret I l complete D h prox grad (fun _ => f) x0 eta eps s Ch P Heta Heps Init Sg (S n) B z Dz ltac:(intros k i _; apply Bd)) as Q.
  cbv zeta in Q. fold x in Q.
  assert (N1 : 1 <= sqrt (INR (S n))).
  { rewrite <- sqrt_1 at 1. apply sqrt_le_1_alt. rewrite S_INR. pose proof (pos_INR n). lra. }
  set (rn := sqrt (INR (S n))) in *. assert (Rn : rn * rn = INR (S n)) by (apply sqrt_sqrt, pos_INR).
  assert (T : sum_below (S n) (fun k => F (x k) - F z) <= rn * (INR (length l) * ((G + eps) * B ^ 2 / (2 * eta) + eta * G) + total l (fun i => h i (x0 i)))).
  { assert (Tel : forall m, sum_below m (fun k => F (x k) - F z) = sum_below m (fun k => f (x k) + total l (fun i => h i (x (S k) i)) - (f z + total l (fun i => h i (z i)))) + total l (fun i => h i (x0 i)) - total l (fun i => h i (x m i))).
    { induction m as [|m IH]; [cbn [sum_below]; unfold x; rewrite (run_start _ _ _ _ _ _ _ _ _ Init); ring|]. cbn [sum_below]. rewrite IH. unfold F. ring. }
    rewrite Tel. assert (H0 : 0 <= total l (fun i => h i (x (S n) i))) by (apply lsum_pos; intros i; apply Hp).
    assert (H1 : 0 <= total l (fun i => h i (x0 i))) by (apply lsum_pos; intros i; apply Hp).
    assert (U : total l (fun i => (sqrt (sum_below (S n) (fun k => grad k (x k) i ^ 2)) + eps) * B ^ 2 / (2 * eta) + eta * sqrt (sum_below (S n) (fun k => grad k (x k) i ^ 2))) <= rn * (INR (length l) * ((G + eps) * B ^ 2 / (2 * eta) + eta * G))).
    { replace (rn * (INR (length l) * ((G + eps) * B ^ 2 / (2 * eta) + eta * G))) with (lsum l (fun _ => rn * ((G + eps) * B ^ 2 / (2 * eta) + eta * G))) by (rewrite lsum_const; ring).
      apply lsum_le. intros i.
      assert (G0 : 0 <= G) by (apply Rle_trans with (2 := HG 0%nat i); apply Rabs_pos).
      assert (Rt : sqrt (sum_below (S n) (fun k => grad k (x k) i ^ 2)) <= rn * G).
      { rewrite <- (sqrt_square (rn * G)) by nra. apply sqrt_le_1_alt. replace (rn * G * (rn * G)) with (INR (S n) * (G * G)) by (rewrite <- Rn; ring).
        generalize (S n). intros m. induction m as [|m IH]; [cbn; lra|]. cbn [sum_below]. rewrite S_INR.
        assert (grad m (x m) i ^ 2 <= G * G). { rewrite <- abs_sq. specialize (HG m i). pose proof (Rabs_pos (grad m (x m) i)). nra. } lra. }
      set (r := sqrt (sum_below (S n) (fun k => grad k (x k) i ^ 2))) in *.
      assert (Q1 : (r + eps) * B ^ 2 / (2 * eta) <= rn * (G + eps) * B ^ 2 / (2 * eta)).
      { apply Rmult_le_compat_r; [left; apply Rinv_0_lt_compat; lra|]. apply Rmult_le_compat_r; [apply pow2_ge_0|]. nra. }
      assert (Q2 : eta * r <= eta * (rn * G)) by (apply Rmult_le_compat_l; lra). lra. }
    pose proof (Rmult_le_compat_r _ _ _ H1 N1). lra. }
  apply (smallest n (fun k => F (x k) - F z)) in T. destruct T as (k & Hk & V). exists k. split; [exact Hk|].
  apply Rle_trans with (1 := V). right. rewrite <- Rn. field. lra.
Qed.
Print Assumptions C139_adagrad_rate.

(** The vanilla step, in the space of the arrays. *)
Lemma vanilla_step I (l : list I) (complete : forall i, In i l) D h prox grad (x0 : arr I) eta eps eu s (e : nat -> R) :
  let H := fin_ips I l complete in
  prox_operator (H := H) D h (fun y c => prox y (full c)) -> gd_init Vanilla x0 eta eps 1 eu = Ok s ->
  (forall k, d_eta (gd_after grad prox k s) = e k) -> (forall k, 0 < e k) ->
  let x k := d_x_new (gd_after grad prox k s) in
  forall k, is_prox (H := H) D (fun v => e k * h v) (vsub (H := H) (x k) (vscal (i := H) (e k) (grad k (x k)))) (x (S k)).
Proof.
  intros H P Init Ee Pe x k. pose proof (init_ok _ _ _ _ _ _ _ Init) as E.
  pose proof (run_step I grad prox Vanilla x0 eta eps eu s Logic.I Init k) as St. cbv beta zeta in St.
  rewrite Ee in St. rewrite (run_speed I grad prox s k) in St.
  destruct (unit_speed grad prox k s) as [N _]; [left; subst s; reflexivity|subst s; reflexivity|subst s; reflexivity|].
  rewrite N in St. replace (d_eps s) with 0 in St by (subst s; reflexivity).
  assert (T : e k / (sqrt 1 + 0) = e k) by (rewrite sqrt_1; field).
  replace (fun i : I => e k / (sqrt (full 1 i) + 0)) with (full (e k) : arr I) in St by (extensionality i; unfold full; symmetry; exact T).
  change (d_x_new (gd_after grad prox (S k) s)) with (x (S k)) in St. change (d_x_new (gd_after grad prox k s)) with (x k) in St. rewrite St.
  replace (fun i => x k i - e k / (sqrt (full 1 i) + 0) * grad k (x k) i) with (vsub (H := H) (x k) (vscal (i := H) (e k) (grad k (x k)))).
  - apply P. apply Pe.
  - extensionality i. unfold full. rewrite T. unfold vsub. cbn. ring.
Qed.

Lemma regret_sum (H : ips) (f : nat -> H -> R) (x g : nat -> H) h (z : H) n : (forall k, subgradient (f k) (x k) (g k)) ->
  sum_below n (fun k => f k (x k) + h (x (S k)) - (f k z + h z)) <= sum_below n (fun k => h (x (S k)) - h z + inner (g k) (x k - z)%v).
Proof.
  intros Sg. apply sum_below_le. intros k _. pose proof (Sg k z) as Q.
  assert (E : inner (g k) (z - x k)%v = - inner (g k) (x k - z)%v) by (iexpand; ring). rewrite E in Q. lra.
Qed.

(** [C139] VanillaGenericGradOpt with a constant eta, any penalty: no bound on the estimates is needed. *)
Theorem C139_vanilla_constant_eta :
  forall I (l : list I) (complete : forall i, In i l) D h prox grad f (x0 : arr I) eta eps s,
  let H := fin_ips I l complete in
  convex_on (H := H) D h -> prox_operator (H := H) D h (fun y c => prox y (full c)) -> 0 < eta -> gd_init Vanilla x0 eta eps 1 None = Ok s ->
  let x k := d_x_new (gd_after grad prox k s) in
  (forall k, subgradient (H := H) (f k) (x k) (grad k (x k))) ->
  forall n z, D z ->
  sum_below n (fun k => f k (x k) + h (x (S k)) - (f k z + h z)) <=
  nsq (H := H) (vsub (H := H) x0 z) / (2 * eta) + eta / 2 * sum_below n (fun k => nsq (H := H) (grad k (x k))).
Proof.
  intros I l complete D h prox grad f x0 eta eps s H Ch P Heta Init x Sg n z Dz.
  apply Rle_trans with (1 := regret_sum H f x (fun k => grad k (x k)) h z n Sg).
  assert (Ee : forall k, d_eta (gd_after grad prox k s) = eta) by (intros k; apply (run_eta_const _ _ _ _ _ _ _ _ _ Init eq_refl)).
  pose proof (vanilla_step I l complete D h prox grad x0 eta eps None s (fun _ => eta) P Init Ee ltac:(intros; exact Heta)) as XS.
  pose proof (c_regret (H := H) D h Ch x (fun k => grad k (x k)) (fun _ => eta) z ltac:(intros; exact Heta) XS Dz eta n ltac:(reflexivity)) as Q.
  rewrite <- (run_start I grad prox Vanilla x0 eta eps None s Init). exact Q.
Qed.
Print Assumptions C139_vanilla_constant_eta.

(** [C139] With an eta_update that never increases eta. *)
Theorem C139_vanilla_decreasing_eta :
  forall I (l : list I) (complete : forall i, In i l) D h prox grad f (x0 : arr I) eta eps u s (e : nat -> R),
  let H := fin_ips I l complete in
  convex_on (H := H) D h -> prox_operator (H := H) D h (fun y c => prox y (full c)) ->
  gd_init Vanilla x0 eta eps 1 (Some u) = Ok s ->
  e 0%nat = eta -> (forall k, e (S k) = u (e k) k) -> (forall k, 0 < e k) -> (forall k, e (S k) <= e k) ->
  let x k := d_x_new (gd_after grad prox k s) in
  (forall k, subgradient (H := H) (f k) (x k) (grad k (x k))) ->
  forall n B z, D z -> (forall k, (k <= n)%nat -> norm (H := H) (vsub (H := H) (x k) z) <= B) ->
  sum_below (S n) (fun k => f k (x k) + h (x (S k)) - (f k z + h z)) <=
  B ^ 2 / (2 * e n) + / 2 * sum_below (S n) (fun k => e k * nsq (H := H) (grad k (x k))).
Proof.
  intros I l complete D h prox grad f x0 eta eps u s e H Ch P Init E0 ES Pe De x Sg n B z Dz Bd.
  apply Rle_trans with (1 := regret_sum H f x (fun k => grad k (x k)) h z (S n) Sg).
  assert (Ee : forall k, d_eta (gd_after grad prox k s) = e k).
  { induction k as [|k IH]; [rewrite E0; apply (run_eta_start _ _ _ _ _ _ _ _ _ Init)|].
    rewrite (run_eta_next _ _ _ _ _ _ _ _ _ Init u eq_refl), IH. symmetry. apply ES. }
  pose proof (vanilla_step I l complete D h prox grad x0 eta eps (Some u) s e P Init Ee Pe) as XS.
  apply (u_regret (H := H) D h Ch x (fun k => grad k (x k)) e z Pe XS Dz (B ^ 2) n De).
  intros k Hk. rewrite <- norm_sq. specialize (Bd k Hk). pose proof (norm_pos (H := H) (vsub (H := H) (x k) z)). replace (B ^ 2) with (B * B) by ring. apply Rmult_le_compat; lra.
Qed.
Print Assumptions C139_vanilla_decreasing_eta.

(** [C139] For instance eta_update = lambda eta, k: eta * sqrt((k + 1) / (k + 2)), which makes eta
    proportional to 1/sqrt(k+1): the accumulated excess over n+1 updates is of order sqrt(n+1), so the
    average excess vanishes. *)
Theorem C139_vanilla_root_schedule :
  forall I (l : list I) (complete : forall i, In i l) D h prox grad f (x0 : arr I) eta eps s,
  let H := fin_ips I l complete in
  let u eta k := eta * sqrt (INR (S k) / INR (S (S k))) in
  convex_on (H := H) D h -> prox_operator (H := H) D h (fun y c => prox y (full c)) -> 0 < eta ->
  gd_init Vanilla x0 eta eps 1 (Some u) = Ok s ->
  let x k := d_x_new (gd_after grad prox k s) in
  (forall k, subgradient (H := H) (f k) (x k) (grad k (x k))) ->
  forall n B G z, D z -> (forall k, (k <= n)%nat -> norm (H := H) (vsub (H := H) (x k) z) <= B) ->
  (forall k, (k <= n)%nat -> norm (H := H) (grad k (x k)) <= G) ->
  sum_below (S n) (fun k => f k (x k) + h (x (S k)) - (f k z + h z)) <= (B ^ 2 / (2 * eta) + eta * G ^ 2) * sqrt (INR (S n)).
Proof.
  intros I l complete D h prox grad f x0 eta eps s H u Ch P Heta Init x Sg n B G z Dz Bd HG.
  assert (Pr : forall k, 0 < sqrt (INR (S k))) by (intros k; apply sqrt_lt_R0, lt_0_INR; lia).
  set (e := fun k => eta / sqrt (INR (S k))).
  assert (E0 : e 0%nat = eta) by (unfold e; cbn; rewrite sqrt_1; field).
  assert (ES : forall k, e (S k) = u (e k) k).
  { intros k. unfold e, u. rewrite sqrt_div by (try apply pos_INR; apply lt_0_INR; lia). field. split; apply Rgt_not_eq, Pr. }
  assert (Pe : forall k, 0 < e k) by (intros k; apply Rmult_lt_0_compat; [exact Heta|apply Rinv_0_lt_compat, Pr]).
  assert (De : forall k, e (S k) <= e k).
  { intros k. unfold e. apply Rmult_le_compat_l; [lra|]. apply Rinv_le_contravar; [apply Pr|]. apply sqrt_le_1_alt, le_INR. lia. }
  pose proof (C139_vanilla_decreasing_eta I l complete D h prox grad f x0 eta eps u s e Ch P Init E0 ES Pe De Sg n B z Dz Bd) as Q.
  cbv zeta in Q. fold x in Q. apply Rle_trans with (1 := Q).
  assert (T : sum_below (S n) (fun k => e k * nsq (H := H) (grad k (x k))) <= 2 * eta * G ^ 2 * sqrt (INR (S n))).
  { apply Rle_trans with (sum_below (S n) (fun k => eta * G ^ 2 * / sqrt (INR (S k)))).
    - apply sum_below_le. intros k Hk. specialize (HG k ltac:(lia)). pose proof (norm_pos (H := H) (grad k (x k))).
      assert (nsq (H := H) (grad k (x k)) <= G ^ 2) by (rewrite <- norm_sq; replace (G ^ 2) with (G * G) by ring; apply Rmult_le_compat; lra).
      unfold e. replace (eta * G ^ 2 * / sqrt (INR (S k))) with (eta / sqrt (INR (S k)) * G ^ 2) by (unfold Rdiv; ring).
      apply Rmult_le_compat_l; [left; apply Pe|assumption].
    - rewrite sum_below_scal. pose proof (inv_roots (S n)) as V. apply (Rmult_le_compat_l (eta * G ^ 2)) in V; [lra|]. pose proof (pow2_ge_0 G). nra. }
  unfold e at 1. pose proof (Pr n) as Pn. set (r := sqrt (INR (S n))) in *. clearbody r.
  replace (B ^ 2 / (2 * (eta / r))) with (B ^ 2 / (2 * eta) * r) by (field; repeat split; lra). 
  apply Rle_trans with (B ^ 2 / (2 * eta) * r + / 2 * (2 * eta * G ^ 2 * r)); [apply Rplus_le_compat_l, Rmult_le_compat_l; [lra|exact T]|right; field; lra].
Qed.
Print Assumptions C139_vanilla_root_schedule.

(** [C139, refuted] A constant eta is not enough for non-smooth objectives: on |x| from eta/2 the
    estimates jump between eta/2 and - eta/2. *)
Theorem C139_constant_eta_refuted :
  exists (f : U -> R) grad eta x0 s, 0 < eta /\ (forall x, subgradient (H := U) f x (grad x)) /\ (forall x, norm (H := U) (grad x) <= 1) /\ f (one 0) = 0 /\
  gd_init Vanilla x0 eta 0 1 None = Ok s /\ forall n, f (d_x_new (gd_after (fun _ => grad) (fun y _ => y) n s)) = / 2.
Proof.
  set (gr := fun u : U => (fun _ => if Rlt_dec 0 (u tt) then 1 else -1) : U).
  exists (fun u => Rabs (u tt)), gr, 1, (one (/ 2)). eexists. split; [lra|]. split; [|split; [|split; [apply Rabs_R0|split; [reflexivity|]]]].
  - intros x z. rewrite U_inner. replace ((vsub z x) tt) with (z tt - x tt) by (unfold vsub; cbn; ring). unfold gr.
    destruct (Rlt_dec 0 (x tt)) as [L|L].
    + rewrite Rabs_right by lra. pose proof (Rle_abs (z tt)). lra.
    + rewrite Rabs_left1 by lra. pose proof (Rle_abs (- z tt)) as Q. rewrite Rabs_Ropp in Q. lra.
  - intros x. rewrite U_norm. unfold gr. destruct (Rlt_dec 0 (x tt)); [rewrite Rabs_right|rewrite Rabs_left]; lra.
  - cbv beta. match goal with |- forall n, Rabs (d_x_new (gd_after _ _ n ?s) tt) = _ => set (st := s) end.
    assert (G : forall n, d_x_new (gd_after (fun _ => gr) (fun y _ => y) n st) = one (/ 2) \/ d_x_new (gd_after (fun _ => gr) (fun y _ => y) n st) = one (- / 2)).
    { assert (Xn : forall n, d_x_new (gd_after (fun _ => gr) (fun y _ => y) n st) = d_x_old (gd_after (fun _ => gr) (fun y _ => y) n st)) by (intros k; apply after_new; reflexivity).
      induction n as [|n IH]; [left; reflexivity|].
      assert (E : d_x_new (gd_after (fun _ => gr) (fun y _ => y) (S n) st) = fun i => d_x_new (gd_after (fun _ => gr) (fun y _ => y) n st) i - gr (d_x_new (gd_after (fun _ => gr) (fun y _ => y) n st)) i).
      { rewrite (Xn (S n)). cbn [gd_after]. rewrite x_step. rewrite Tauto.if_same.
        destruct (unit_speed (fun _ => gr) (fun y _ => y) n st (or_introl eq_refl) eq_refl eq_refl) as [_ Sp].
        unfold descent. rewrite Sp, eta_const, <- Xn by reflexivity. unfold new_dir, update_dir. rewrite class_after. cbn [d_class st fst]. rewrite <- Xn.
        extensionality i. unfold full. change (d_eta st) with 1. ring. }
      rewrite E. destruct IH as [-> | ->]; [right|left]; extensionality i; unfold gr, one.
      - destruct (Rlt_dec 0 (/ 2)); lra.
      - destruct (Rlt_dec 0 (- / 2)); lra. }
    intros n. destruct (G n) as [-> | ->]; unfold one; [rewrite Rabs_right|rewrite Rabs_left]; lra.
Qed.
Print Assumptions C139_constant_eta_refuted.

(** [C139] Fixed points: with an entrywise penalty, an update of the generic, vanilla, AdaGrad or
    RMSprop class changes nothing exactly at the minimisers of f plus the penalty. *)
Theorem C139_fixed_points :
  forall I (eq_dec : forall i j : I, {i = j} + {i <> j}) (l : list I) (complete : forall i, In i l) (D : I -> R -> Prop) h prox f df c (x0 : arr I) eta eps s,
  let H := fin_ips I l complete in
  let Dom (y : arr I) : Prop := forall i, D i (y i) in
  (forall i, convex_on (H := R_ips) (D i) (h i)) -> entrywise_prox D h prox -> convex (H := H) f -> is_gradient (H := H) f df ->
  plain c -> 0 < eta -> 0 < eps -> gd_init c x0 eta eps 1 None = Ok s ->
  let x k := d_x_new (gd_after (fun _ => df) prox k s) in
  forall k, x (S k) = x k <-> minimises (H := H) Dom (fun y => f y + total l (fun i => h i (y i))) (x k).
Proof.
  intros I eq_dec l complete D h prox f df c x0 eta eps s H Dom Ch P Cf Gf Pc Heta Heps Init x k.
  pose proof (run_step I (fun _ => df) prox c x0 eta eps None s Pc Init k) as St. cbv beta zeta in St.
  rewrite (run_eta_const _ _ _ _ _ _ _ _ _ Init eq_refl) in St.
  change (d_x_new (gd_after (fun _ => df) prox (S k) s)) with (x (S k)) in St. change (d_x_new (gd_after (fun _ => df) prox k s)) with (x k) in St.
  set (t := fun i => eta / (sqrt (d_speed (gd_after (fun _ => df) prox (S k) s) i) + d_eps s)) in *.
  assert (Pt : forall i, 0 < t i).
  { intros i. unfold t. apply Rmult_lt_0_compat; [exact Heta|]. apply Rinv_0_lt_compat.
    pose proof (init_ok _ _ _ _ _ _ _ Init) as E. assert (Cs : d_class s = c) by (subst s; reflexivity).
    pose proof (sqrt_pos (d_speed (gd_after (fun _ => df) prox (S k) s) i)) as Sq.
    destruct c; try contradiction Pc; try (replace (d_eps s) with eps by (subst s; reflexivity); lra).
    cbn [gd_after]. rewrite speed_step. destruct (unit_speed (fun _ => df) prox k s) as [N _]; [left; exact Cs|subst s; reflexivity|subst s; reflexivity|].
    rewrite N. replace (d_eps s) with 0 by (subst s; reflexivity). unfold full. rewrite sqrt_1. lra. }
  change (fun i => x k i - eta / (sqrt (d_speed (gd_after (fun _ => df) prox (S k) s) i) + d_eps s) * df (x k) i) with (fun i => x k i - t i * df (x k) i) in St.
  assert (V : forall i, D i (x (S k) i) /\ forall z, D i z -> t i * h i (x (S k) i) + (x k i - t i * df (x k) i - x (S k) i) * (z - x (S k) i) <= t i * h i z).
  { intros i. apply R_vi; [apply Ch|apply Pt|]. rewrite St. exact (P (fun i => x k i - t i * df (x k) i) t i (Pt i)). }
  assert (CT : convex_on (H := H) Dom (fun y => total l (fun i => h i (y i)))).
  { intros a b r Da Db Hr. split.
    - intros i. apply (Ch i (a i) (b i) r (Da i) (Db i) Hr).
    - change (@total I) with (@lsum I). rewrite <- !lsum_scal, <- lsum_plus. apply lsum_le. intros i. apply (Ch i (a i) (b i) r (Da i) (Db i) Hr). }
  rewrite (minimises_vi (H := H) Dom f (fun y => total l (fun i => h i (y i))) df (x k) Cf Gf CT). split.
  - intros E. rewrite E in V. split; [intros i; apply V|]. intros z Dz. unfold H. rewrite fin_inner. change (@total I) with (@lsum I).
    apply Rle_trans with (lsum l (fun i => h i (z i) + (df (x k) i * (z i - x k i))) - lsum l (fun i => df (x k) i * (vsub (H := fin_ips I l complete) z (x k)) i)).
    + apply Rplus_le_compat_r. apply lsum_le. intros i. destruct (V i) as [_ W]. specialize (W (z i) (Dz i)).
      apply Rmult_le_reg_l with (t i); [apply Pt|]. lra.
    + rewrite lsum_plus. right. replace (lsum l (fun i => df (x k) i * (z i - x k i))) with (lsum l (fun i => df (x k) i * (vsub (H := fin_ips I l complete) z (x k)) i)); [ring|].
      apply lsum_ext. intros i. unfold vsub. cbn. ring.
  - intros [Dx Vi]. extensionality i.
    assert (W : forall v, D i v -> t i * h i (x k i) + (x k i - t i * df (x k) i - x k i) * (v - x k i) <= t i * h i v).
    { intros v Dv. set (z := fun j => if eq_dec i j then v else x k j).
      assert (Dz : Dom z) by (intros j; unfold z; destruct (eq_dec i j) as [<-|]; [exact Dv|apply Dx]).
      specialize (Vi z Dz). unfold H in Vi. rewrite fin_inner in Vi. change (@total I) with (@lsum I) in Vi.
      assert (Q : 0 <= lsum l (fun j => if eq_dec i j then h i v - h i (x k i) + df (x k) i * (v - x k i) else 0)).
      { rewrite (lsum_ext l _ (fun j => h j (z j) - h j (x k j) + df (x k) j * (vsub (H := fin_ips I l complete) z (x k)) j)).
        - rewrite lsum_plus, lsum_minus. lra.
        - intros j. unfold z, vsub. cbn. destruct (eq_dec i j) as [<-|]; ring. }
      assert (Pos : 0 <= h i v - h i (x k i) + df (x k) i * (v - x k i)).
      { apply Rnot_lt_le. intros Neg. apply (Rlt_irrefl 0). apply Rle_lt_trans with (1 := Q).
        set (a := h i v - h i (x k i) + df (x k) i * (v - x k i)) in *.
        pose proof (lsum_one l (fun j => - (if eq_dec i j then a else 0)) i (complete i)) as O. cbv beta in O.
        assert (N : forall j, 0 <= - (if eq_dec i j then a else 0)) by (intros j; destruct (eq_dec i j); lra). specialize (O N).
        rewrite (lsum_ext l _ (fun j => -1 * (if eq_dec i j then a else 0))) in O by (intros j; ring). rewrite lsum_scal in O.
        destruct (eq_dec i i) as [_|C]; [lra|congruence]. }
      apply (Rmult_le_compat_l (t i)) in Pos; [|left; apply Pt]. lra. }
    destruct (V i) as [D1 V1]. specialize (V1 (x k i) (Dx i)). specialize (W (x (S k) i) D1).
    assert (Z : (x (S k) i - x k i) * (x (S k) i - x k i) <= 0) by lra.
    pose proof (Rle_0_sqr (x (S k) i - x k i)) as Z0. unfold Rsqr in Z0.
    apply Rminus_diag_uniq, Rsqr_0_uniq. unfold Rsqr. lra.
Qed.
Print Assumptions C139_fixed_points.

(** The soft threshold is such a penalty: SparseThreshold.op without rounding (C25), one threshold
    weight_i * step_i per entry. *)
Theorem C139_soft_threshold_is_entrywise :
  forall I (w : I -> R), (forall i, 0 <= w i) ->
  entrywise_prox (fun _ _ => True) (fun i v => w i * Rabs v) (fun y t i => shrink (w i * t i) (y i)).
Proof.
  intros I w Hw y t i Ht. split; [exact Logic.I|]. intros z _. specialize (Hw i).
  pose proof (shrink_prox (w i * t i) (y i) z ltac:(nra)) as Q. unfold nsq, vsub. cbn.
  pose proof (Rle_0_sqr (shrink (w i * t i) (y i) - z)) as P. unfold Rsqr in P. nra.
Qed.
Print Assumptions C139_soft_threshold_is_entrywise.

(** So is the projection onto non-negative arrays (Positivity on real data, C22). *)
Theorem C139_positivity_is_entrywise :
  forall I, entrywise_prox (fun _ v => 0 <= v) (fun _ _ => 0) (fun (y _ : arr I) i => Rmax (y i) 0).
Proof.
  intros I y t i Ht. split; [apply Rmax_r|]. intros z Hz. unfold nsq, vsub. cbn.
  unfold Rmax. destruct (Rle_dec (y i) 0); pose proof (Rle_0_sqr (y i - z)) as P; pose proof (Rle_0_sqr z) as P2; unfold Rsqr in P, P2; nra.
Qed.
Print Assumptions C139_positivity_is_entrywise.

(** |x| from 1 with eta = epsilon = 1: one update of AdaGrad moves to 1/2; the excess 1 over the value at
    0 is within the bound 2. *)
Example C139_example :
  exists s, gd_init Ada (one 1) 1 1 1 None = Ok s /\
  d_x_new (gd_after (fun _ _ => one 1) (fun y _ => y) 1 s) = one (/ 2) /\
  Rabs 1 - Rabs 0 <= total [tt] (fun i => (sqrt (sum_below 1 (fun _ => one 1 i ^ 2)) + 1) * 1 ^ 2 / (2 * 1) + 1 * sqrt (sum_below 1 (fun _ => one 1 i ^ 2))).
Proof.
  eexists. split; [reflexivity|]. split.
  - cbn. extensionality u. unfold one, full. rewrite (Rabs_right 1) by lra. replace (0 + 1 * (1 * 1)) with 1 by ring. rewrite sqrt_1. field.
  - unfold total, one. cbn. unfold rsum. cbn. replace (0 + 1 * (1 * 1)) with 1 by ring. rewrite sqrt_1, Rabs_R1, Rabs_R0. lra.
Qed.
