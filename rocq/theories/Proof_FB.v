(** FISTA parameters, ForwardBackward and its convergence. *)
From Coq Require Import String.
From Verif Require Import NPReal Py IPS Model_SetUp Spec_Observable Proof_SetUp Spec_Opt Proof_Smooth Model_FB.
From Coq Require Import List Lia.
Import ListNotations.
Local Open Scope string_scope.
Local Open Scope R_scope.

(** * The t sequence *)
Lemma lambdas_S n f : snd (lambdas (S n) f) = fst (update_lambda (snd (lambdas n f))).
Proof.
  revert f. induction n as [|n IH]; intros f.
  - cbn. destruct (update_lambda f). reflexivity.
  - cbn [lambdas]. cbn [lambdas] in IH. destruct (update_lambda f) as [f1 l1] eqn:E. specialize (IH f1).
    destruct (lambdas n f1) as [ls f2]. cbn [snd] in *.
    destruct (update_lambda f1) as [f1' l']. destruct (lambdas n f1') as [ls' f2']. cbn in *. exact IH.
Qed.

Lemma lambdas_length n f : length (fst (lambdas n f)) = n.
Proof.
  revert f. induction n as [|n IH]; intros f; cbn; [reflexivity|]. destruct (update_lambda f) as [f1 l].
  specialize (IH f1). destruct (lambdas n f1). cbn in *. congruence.
Qed.

Lemma lambdas_nth n k f : (k < n)%nat -> nth k (fst (lambdas n f)) 0 = snd (update_lambda (snd (lambdas k f))).
Proof.
  revert k f. induction n as [|n IH]; intros k f Hk; [lia|]. cbn [lambdas].
  destruct (update_lambda f) as [f1 l] eqn:E. specialize (IH (pred k) f1).
  destruct (lambdas n f1) as [ls f2] eqn:E2. destruct k as [|k].
  - cbn. rewrite E. reflexivity.
  - cbn [nth fst pred] in *. rewrite IH by lia. cbn [lambdas]. rewrite E. destruct (lambdas k f1). reflexivity.
Qed.

(** The values without restart. *)
Fixpoint tau (p q r : R) (n : nat) : R :=
  match n with O => 1 | S n' => p + sqrt (r * tau p q r n' ^ 2 + q) * / 2 end.

Definition no_restart (m : fmode) (t tp : R) (mb s xi : R) : fista := mk_fista m None mb s xi t tp None false.

Lemma regular_state p q r mb s xi n : exists tp,
  snd (lambdas n (no_restart (Regular p q r) 1 1 mb s xi)) = no_restart (Regular p q r) (tau p q r n) tp mb s xi.
Proof.
  induction n as [|n [tp IH]]; [eexists; reflexivity|]. rewrite lambdas_S, IH. eexists. reflexivity.
Qed.

Lemma tau_4_ge p q n : 0 <= p -> 0 <= q -> 1 + INR n * p <= tau p q 4 n.
Proof.
  intros Hp Hq. induction n as [|n IH]; [cbn; lra|]. rewrite S_INR. cbn [tau].
  assert (P : 1 <= tau p q 4 n) by (pose proof (pos_INR n); nra).
  assert (S : 2 * tau p q 4 n <= sqrt (4 * tau p q 4 n ^ 2 + q)).
  { rewrite <- (sqrt_Rsqr (2 * tau p q 4 n)) at 1 by lra. apply sqrt_le_1_alt. unfold Rsqr. nra. }
  lra.
Qed.

(** The condition under which the accelerated rate holds. *)
Lemma tau_4_cond p q n : 0 < p <= / 2 -> 0 <= q <= (2 - 2 * p) ^ 2 ->
  tau p q 4 (S n) * tau p q 4 (S n) - tau p q 4 (S n) <= tau p q 4 n * tau p q 4 n.
Proof.
  intros Hp Hq. pose proof (tau_4_ge p q n ltac:(lra) ltac:(lra)) as P0.
  assert (P : 1 <= tau p q 4 n) by (pose proof (pos_INR n); nra). clear P0.
  cbn [tau]. set (t := tau p q 4 n) in *. clearbody t. set (s := sqrt (4 * t ^ 2 + q)).
  assert (S2 : s * s = 4 * t ^ 2 + q) by (apply sqrt_sqrt; nra).
  assert (S1 : 2 <= s).
  { rewrite <- (sqrt_Rsqr 2) by lra. apply sqrt_le_1_alt. unfold Rsqr. nra. }
  (* (p + s/2)^2 - (p + s/2) - t^2 = p^2 - p + q/4 + (p - 1/2) s *)
  assert (E : (p + s * / 2) * (p + s * / 2) - (p + s * / 2) = p * p - p + (p - / 2) * s + t ^ 2 + q / 4) by nra.
  rewrite E. assert ((p - / 2) * s <= (p - / 2) * 2) by nra.
  assert (q / 4 <= (1 - p) ^ 2) by nra. nra.
Qed.

Lemma tau_half_identity n :
  tau (/ 2) 1 4 (S n) * tau (/ 2) 1 4 (S n) - tau (/ 2) 1 4 (S n) = tau (/ 2) 1 4 n * tau (/ 2) 1 4 n.
Proof.
  cbn [tau]. set (t := tau (/ 2) 1 4 n). assert (S2 : sqrt (4 * t ^ 2 + 1) * sqrt (4 * t ^ 2 + 1) = 4 * t ^ 2 + 1) by (apply sqrt_sqrt; nra).
  nra.
Qed.

Lemma tau_default_identity n :
  tau 1 1 4 (S n) * tau 1 1 4 (S n) - tau 1 1 4 (S n) = tau 1 1 4 n * tau 1 1 4 n + tau 1 1 4 (S n) - 3 / 4.
Proof.
  cbn [tau]. set (t := tau 1 1 4 n). assert (S2 : sqrt (4 * t ^ 2 + 1) * sqrt (4 * t ^ 2 + 1) = 4 * t ^ 2 + 1) by (apply sqrt_sqrt; nra).
  nra.
Qed.

Lemma regular_lambda_range p q n : 0 <= p -> 0 <= q ->
  1 <= 1 + (tau p q 4 n - 1) / tau p q 4 (S n) < 2.
Proof.
  intros Hp Hq. pose proof (tau_4_ge p q n Hp Hq) as P0.
  assert (P : 1 <= tau p q 4 n) by (pose proof (pos_INR n); nra).
  assert (P2 : tau p q 4 n <= tau p q 4 (S n)).
  { cbn [tau]. assert (S : 2 * tau p q 4 n <= sqrt (4 * tau p q 4 n ^ 2 + q)).
    { rewrite <- (sqrt_Rsqr (2 * tau p q 4 n)) at 1 by lra. apply sqrt_le_1_alt. unfold Rsqr. nra. } lra. }
  set (t := tau p q 4 n) in *. set (t' := tau p q 4 (S n)) in *. clearbody t t'.
  assert (I : 0 < / t') by (apply Rinv_0_lt_compat; lra).
  split; [unfold Rdiv; nra|]. apply Rplus_lt_reg_l with (-1). 
  replace (-1 + (1 + (t - 1) / t')) with ((t - 1) / t') by ring. replace (-1 + 2) with 1 by ring.
  apply Rmult_lt_reg_r with t'; [lra|]. unfold Rdiv. rewrite Rmult_assoc, Rinv_l by lra. lra.
Qed.

(** Chambolle-Dossal. *)
Definition tau_cd (a : R) (n : nat) : R := match n with O => 1 | S n' => (INR n' + a - 1) / a end.
Lemma cd_state a mb s xi n : exists tp,
  snd (lambdas n (no_restart (CD a 0) 1 1 mb s xi)) = no_restart (CD a n) (tau_cd a n) tp mb s xi.
Proof.
  induction n as [|n [tp IH]]; [eexists; reflexivity|]. rewrite lambdas_S, IH. eexists. reflexivity.
Qed.

Lemma tau_cd_cond a n : 2 < a -> (2 <= n)%nat ->
  1 <= tau_cd a n /\ tau_cd a (S n) * tau_cd a (S n) - tau_cd a (S n) <= tau_cd a n * tau_cd a n.
Proof.
  intros Ha Hn. destruct n as [|[|n]]; [lia|lia|]. cbn [tau_cd]. rewrite !S_INR. pose proof (pos_INR n) as Pn.
  set (m := INR n + a). assert (Hm : a <= m) by (unfold m; lra). 
  replace (INR n + 1 + a - 1) with m by (unfold m; ring). replace (INR n + 1 + 1 + a - 1) with (m + 1) by (unfold m; ring).
  assert (Ia : 0 < / a) by (apply Rinv_0_lt_compat; lra). split.
  - apply Rmult_le_reg_r with a; [lra|]. unfold Rdiv. rewrite Rmult_assoc, Rinv_l by lra. lra.
  - apply Rmult_le_reg_r with (a * a); [nra|].
    replace (((m + 1) / a * ((m + 1) / a) - (m + 1) / a) * (a * a)) with ((m + 1) * (m + 1) - a * (m + 1)) by (field; lra).
    replace (m / a * (m / a) * (a * a)) with (m * m) by (field; lra). nra.
Qed.

(** What update_lambda returns. *)
Lemma update_lambda_none m t tp mb s xi : snd (update_lambda (no_restart m t tp mb s xi)) =
  1 + (t - 1) / f_t_now (fst (update_lambda (no_restart m t tp mb s xi))).
Proof. destruct m; reflexivity. Qed.

Lemma cd_lambda_value a n k mb s xi : (k < n)%nat ->
  nth k (fst (lambdas n (no_restart (CD a 0) 1 1 mb s xi))) 0 = 1 + (tau_cd a k - 1) / tau_cd a (S k).
Proof.
  intros Hk. rewrite lambdas_nth by exact Hk. destruct (cd_state a mb s xi k) as [tp E]. rewrite E. reflexivity.
Qed.
Lemma regular_lambda_value p q r n k mb s xi : (k < n)%nat ->
  nth k (fst (lambdas n (no_restart (Regular p q r) 1 1 mb s xi))) 0 = 1 + (tau p q r k - 1) / tau p q r (S k).
Proof.
  intros Hk. rewrite lambdas_nth by exact Hk. destruct (regular_state p q r mb s xi k) as [tp E]. rewrite E. reflexivity.
Qed.

Lemma cd_lambda_1 a : 2 < a -> 1 + (tau_cd a 1 - 1) / tau_cd a 2 = 1 - / a.
Proof. intros Ha. cbn. field. lra. Qed.

Lemma cd_lambda_other a k : 2 < a -> k <> 1%nat -> 1 <= 1 + (tau_cd a k - 1) / tau_cd a (S k) < 2.
Proof.
  intros Ha Hk. destruct k as [|[|k]]; [|contradiction|].
  - cbn. replace (1 - 1) with 0 by ring. unfold Rdiv. rewrite Rmult_0_l. lra.
  - cbn [tau_cd]. rewrite !S_INR. pose proof (pos_INR k) as Pk.
    replace ((((INR k + 1) + a - 1) / a - 1) / ((INR k + 1 + 1 + a - 1) / a)) with (INR k / (INR k + 1 + a)) by (field; split; lra).
    assert (I : 0 < / (INR k + 1 + a)) by (apply Rinv_0_lt_compat; lra).
    split; [unfold Rdiv; nra|]. 
    assert (INR k / (INR k + 1 + a) < 1); [|lra].
    apply Rmult_lt_reg_r with (INR k + 1 + a); [lra|]. unfold Rdiv. rewrite Rmult_assoc, Rinv_l by lra. lra.
Qed.

(** fista_init without restart. *)
Lemma fista_init_regular p q r : fista_init (mk_fargs None None None None None p q r) = Ok (no_restart (Regular p q r) 1 1 0 0 0).
Proof. reflexivity. Qed.
Lemma fista_init_cd a p q r : 2 < a -> fista_init (mk_fargs None None None None (Some a) p q r) = Ok (no_restart (CD a 0) 1 1 0 0 0).
Proof. intros Ha. unfold fista_init. cbn [a_acd a_strategy]. destruct (Rgt_dec a 2); [reflexivity|lra]. Qed.

(** * ForwardBackward *)
Section FB.
Context {H : ips}.
Variable grad : H -> H.
Variable prox : H -> R -> H.
Notation fb_update := (fb_update grad prox).
Notation fb_after := (fb_after grad prox).
Notation T := (fb_map grad prox).

Lemma fb_update_x (s : fb) : fb_x_old (fb_update s) = T (fb_beta s) (fb_z_old s).
Proof.
  unfold Model_FB.fb_update. destruct (fb_the_rule s) as [f|bu lu]; cbn; [|reflexivity].
  destruct (is_restart f _ _ _) as [f1 r]. destruct (update_lambda f1). reflexivity.
Qed.
Lemma fb_update_new (s : fb) : fb_new (fb_update s) = Some (fb_x_old (fb_update s), fb_z_old (fb_update s)).
Proof.
  unfold Model_FB.fb_update. destruct (fb_the_rule s) as [f|bu lu]; cbn; [|reflexivity].
  destruct (is_restart f _ _ _) as [f1 r]. destruct (update_lambda f1). reflexivity.
Qed.

Lemma fb_update_user (s : fb) bu lu : fb_the_rule s = RUser bu lu ->
  fb_update s = mk_fb (T (fb_beta s) (fb_z_old s)) (fb_x_old s + fb_lambda s * (T (fb_beta s) (fb_z_old s) - fb_x_old s))%v
    (Some (T (fb_beta s) (fb_z_old s), fb_x_old s + fb_lambda s * (T (fb_beta s) (fb_z_old s) - fb_x_old s))%v)
    (apply_update bu (fb_calls s) (fb_beta s)) (apply_update lu (fb_calls s) (fb_lambda s)) (RUser bu lu) (S (fb_calls s)).
Proof. intros E. unfold Model_FB.fb_update. rewrite E. reflexivity. Qed.

Lemma fb_update_plain_fista (s : fb) m t tp mb sg xi : fb_the_rule s = RFista (no_restart m t tp mb sg xi) ->
  let f' := fst (update_lambda (no_restart m t tp mb sg xi)) in
  let x' := T (fb_beta s) (fb_z_old s) in
  let z' := (fb_x_old s + fb_lambda s * (x' - fb_x_old s))%v in
  fb_update s = mk_fb x' z' (Some (x', z')) (fb_beta s) (snd (update_lambda (no_restart m t tp mb sg xi))) (RFista f') (S (fb_calls s)).
Proof.
  intros E. unfold Model_FB.fb_update. rewrite E. cbn [is_restart f_strategy no_restart].
  destruct (update_lambda _) as [f1 l] eqn:U. reflexivity.
Qed.

(** State after n updates, no restart: parameters. *)
Lemma fb_fista_state x0 step bp f0 m mb sg xi : f0 = no_restart m 1 1 mb sg xi ->
  let s0 := mk_fb x0 x0 None step bp (RFista f0) 0 in
  forall n, fb_the_rule (fb_after n s0) = RFista (snd (lambdas n f0)) /\ fb_beta (fb_after n s0) = step /\
    (exists mn tn tp, snd (lambdas n f0) = no_restart mn tn tp mb sg xi) /\
    fb_lambda (fb_after n s0) = match n with O => bp | S k => nth k (fst (lambdas n f0)) 0 end.
Proof.
  intros -> s0 n. induction n as [|n (I1 & I2 & (mn & tn & tp & I3) & I4)].
  - split; [reflexivity|]. split; [reflexivity|]. split; [|reflexivity]. exists m, 1, 1. reflexivity.
  - change (fb_after (S n) s0) with (fb_update (fb_after n s0)).
    rewrite I3 in I1. rewrite (fb_update_plain_fista _ _ _ _ _ _ _ I1). cbn [fb_the_rule fb_beta fb_lambda].
    rewrite lambdas_S, I3. split; [reflexivity|]. split; [exact I2|]. split.
    + destruct mn; cbn; do 3 eexists; reflexivity.
    + rewrite lambdas_nth by lia. rewrite I3. reflexivity.
Qed.

Lemma fb_fista_z x0 step bp f0 m mb sg xi n : f0 = no_restart m 1 1 mb sg xi ->
  let s0 := mk_fb x0 x0 None step bp (RFista f0) 0 in
  fb_z_old (fb_after (S n) s0) =
    (fb_x_old (fb_after n s0) + fb_lambda (fb_after n s0) * (fb_x_old (fb_after (S n) s0) - fb_x_old (fb_after n s0)))%v.
Proof.
  intros E s0. destruct (fb_fista_state x0 step bp f0 m mb sg xi E n) as (I1 & _ & (mn & tn & tp & I3) & _). fold s0 in I1.
  rewrite I3 in I1. change (fb_after (S n) s0) with (fb_update (fb_after n s0)).
  rewrite (fb_update_plain_fista _ _ _ _ _ _ _ I1). reflexivity.
Qed.

Section Convex.
Variables (D : H -> Prop) (f g : H -> R) (beta : R).
Hypothesis Hb : 0 < beta.
Hypothesis Sf : smooth_convex (/ beta) f grad.
Hypothesis Cg : convex_on D g.
Hypothesis Pg : prox_operator D g prox.
Let F z := f z + g z.

Lemma T_step y : pg_step D F beta y (T beta y).
Proof.
  split; [apply (fb_map_in D g); assumption|]. intros z Dz. apply (prox_grad_ineq D f g); assumption.
Qed.
Lemma F_convex : convex_on D F.
Proof. apply convex_sum; [apply Sf|exact Cg]. Qed.

(** ISTA *)
Lemma ista_state x0 lam n : let s0 := mk_fb x0 x0 None beta lam (RUser None None) 0 in
  fb_the_rule (fb_after n s0) = RUser None None /\ fb_beta (fb_after n s0) = beta /\ fb_lambda (fb_after n s0) = lam.
Proof.
  intros s0. induction n as [|n (I1 & I2 & I3)]; [repeat split; reflexivity|].
  change (fb_after (S n) s0) with (fb_update (fb_after n s0)). rewrite (fb_update_user _ _ _ I1). cbn. auto.
Qed.

Lemma ista_steps x0 n : let s0 := mk_fb x0 x0 None beta 1 (RUser None None) 0 in
  fb_z_old (fb_after n s0) = fb_x_old (fb_after n s0) /\
  fb_x_old (fb_after (S n) s0) = T beta (fb_x_old (fb_after n s0)).
Proof.
  intros s0. assert (Z : fb_z_old (fb_after n s0) = fb_x_old (fb_after n s0)).
  { destruct n as [|n]; [reflexivity|]. destruct (ista_state x0 1 n) as (I1 & I2 & I3). fold s0 in I1, I2, I3.
    change (fb_after (S n) s0) with (fb_update (fb_after n s0)). rewrite (fb_update_user _ _ _ I1). cbn. rewrite I3.
    vring. }
  split; [exact Z|]. destruct (ista_state x0 1 n) as (I1 & I2 & I3). fold s0 in I1, I2, I3.
  change (fb_after (S n) s0) with (fb_update (fb_after n s0)). rewrite fb_update_x, I2, Z. reflexivity.
Qed.

Lemma fb_ista x0 : let s0 := mk_fb x0 x0 None beta 1 (RUser None None) 0 in
  let X n := fb_x_old (fb_after n s0) in
  (forall n, F (X (S (S n))) <= F (X (S n))) /\ (D x0 -> F (X 1%nat) <= F x0) /\
  forall z, D z -> forall k, F (X (S k)) - F z <= nsq (x0 - z)%v / (2 * beta * INR (S k)).
Proof.
  intros s0 X. assert (St : forall n, pg_step D F beta (X n) (X (S n))).
  { intros n. destruct (ista_steps x0 n) as [_ E]. unfold X. fold s0 in E. rewrite E. apply T_step. }
  split; [intros n; apply (ista_mono D F beta Hb X St)|]. split.
  - intros D0. destruct (St 0%nat) as [_ V]. specialize (V x0 D0). change (X 0%nat) with x0 in V.
    rewrite vsub_self in V. unfold nsq at 1 in V. rewrite inner_0_l in V.
    pose proof (nsq_pos (X 1%nat - x0)%v). assert (0 < / (2 * beta)) by (apply Rinv_0_lt_compat; lra). nra.
  - intros z Dz k. pose proof (ista_rate D F beta Hb X St z Dz k) as V. change (X 0%nat) with x0 in V.
    pose proof (nsq_pos (X (S k) - z)%v). assert (I : 0 < / (2 * beta)) by (apply Rinv_0_lt_compat; lra).
    assert (P : 0 < INR (S k)) by (apply lt_0_INR; lia).
    apply Rmult_le_reg_l with (INR (S k)); [exact P|].
    replace (INR (S k) * (nsq (x0 - z)%v / (2 * beta * INR (S k)))) with (/ (2 * beta) * nsq (x0 - z)%v) by (field; lra).
    nra.
Qed.

(** FISTA, general: from the index n0 on, the t sequence satisfies the usual condition. *)
Section Accel.
Variable x0 : H.
Variable f0 : fista.
Variables (m : fmode) (mb sg xi : R).
Hypothesis Ef : f0 = no_restart m 1 1 mb sg xi.
Let s0 := mk_fb x0 x0 None beta 1 (RFista f0) 0.
Let X n := fb_x_old (fb_after n s0).
Let Z n := fb_z_old (fb_after n s0).
Let t n := f_t_now (snd (lambdas n f0)).

Lemma X_step n : pg_step D F beta (Z n) (X (S n)).
Proof.
  unfold X, Z. change (fb_after (S n) s0) with (fb_update (fb_after n s0)). rewrite fb_update_x.
  destruct (fb_fista_state x0 beta 1 f0 m mb sg xi Ef n) as (_ & E & _). fold s0 in E. rewrite E. apply T_step.
Qed.
Lemma Z_0 : Z 0 = X 0. Proof. reflexivity. Qed.
Lemma Z_1 : Z 1 = X 1.
Proof. unfold Z, X. unfold s0. rewrite (fb_fista_z x0 beta 1 f0 m mb sg xi 0 Ef). cbn [fb_lambda Model_FB.fb_after Nat.iter nat_rect]. vring. Qed.
Lemma Z_SS n : Z (S (S n)) = (X (S (S n)) + ((t n - 1) / t (S n)) * (X (S (S n)) - X (S n)))%v.
Proof.
  unfold Z. unfold s0. rewrite (fb_fista_z x0 beta 1 f0 m mb sg xi (S n) Ef). fold s0. fold (X (S n)) (X (S (S n))).
  destruct (fb_fista_state x0 beta 1 f0 m mb sg xi Ef (S n)) as (_ & _ & _ & E). fold s0 in E. rewrite E.
  rewrite lambdas_nth by lia.
  destruct (fb_fista_state x0 beta 1 f0 m mb sg xi Ef n) as (_ & _ & (mn & tn & tp & E3) & _).
  unfold t. rewrite lambdas_S, E3, update_lambda_none.
  cbn [f_t_now no_restart]. fold (no_restart mn tn tp mb sg xi). vring.
Qed.
Lemma X_in n : D (X (S n)). Proof. apply (X_step n). Qed.

(** Energy at index n >= 2. *)
Let E z n := 2 * beta * (t n * t n) * (F (X (S (S n))) - F z) + nsq (X (S n) + t n * (X (S (S n)) - X (S n)) - z)%v.

Lemma E_decreases z n0 : minimises D F z ->
  (forall n, (n0 <= n)%nat -> 1 <= t (S n) /\ t (S n) * t (S n) - t (S n) <= t n * t n) ->
  forall n, (n0 <= n)%nat -> E z n <= E z n0.
Proof.
  intros [Dz M] Ht n Hn. induction Hn as [|n Hn IH]; [lra|]. apply Rle_trans with (E z n); [|exact IH].
  destruct (Ht n Hn) as [H1 H2]. unfold E.
  apply (accel_step D F beta Hb (X (S (S n))) (X (S n)) (Z (S (S n)))); auto.
  - apply F_convex.
  - apply X_in.
  - apply M. apply X_in.
  - apply Z_SS.
  - apply X_step.
Qed.

Lemma fejer z n : minimises D F z -> nsq (X (S n) - z)%v <= nsq (Z n - z)%v.
Proof. intros M. apply (pg_closer D F beta Hb); [apply X_step|exact M]. Qed.

Lemma rate z n0 : minimises D F z -> t n0 = 1 ->
  (forall n, (n0 <= n)%nat -> 1 <= t (S n) /\ t (S n) * t (S n) - t (S n) <= t n * t n) ->
  forall n, (n0 <= n)%nat -> 2 * beta * (t n * t n) * (F (X (S (S n))) - F z) <= nsq (Z (S n0) - z)%v.
Proof.
  intros M E1 Ht n Hn. pose proof (E_decreases z n0 M Ht n Hn) as Q. unfold E in Q.
  pose proof (nsq_pos (X (S n) + t n * (X (S (S n)) - X (S n)) - z)%v).
  rewrite E1 in Q.
  replace (X (S n0) + 1 * (X (S (S n0)) - X (S n0)) - z)%v with (X (S (S n0)) - z)%v in Q by vring.
  destruct (X_step (S n0)) as [_ V]. specialize (V z (proj1 M)).
  assert (I : 0 < / (2 * beta)) by (apply Rinv_0_lt_compat; lra).
  apply (Rmult_le_compat_l (2 * beta)) in V; [|lra].
  replace (2 * beta * (F z + / (2 * beta) * (nsq (Z (S n0) - z)%v - nsq (X (S (S n0)) - z)%v)))
    with (2 * beta * F z + nsq (Z (S n0) - z)%v - nsq (X (S (S n0)) - z)%v) in V by (field; lra).
  nra.
Qed.

Lemma energy n : (forall k, ((t k - 1) / t (S k)) * ((t k - 1) / t (S k)) <= 1) ->
  F (X (S (S n))) + / (2 * beta) * nsq (X (S (S n)) - X (S n))%v <= F (X (S n)) + / (2 * beta) * nsq (X (S n) - X n)%v.
Proof.
  intros Ht. destruct n as [|n].
  - apply (inertial_energy D F beta Hb (X 1) (X 0) (Z 1) (X 2) 0); [apply X_in|lra| |apply X_step]. rewrite Z_1. vring.
  - apply (inertial_energy D F beta Hb _ _ (Z (S (S n))) _ _ (X_in _) (Ht n)); [apply Z_SS|apply X_step].
Qed.
End Accel.

(** Regular mode with p <= 1/2. *)
Lemma fista_rate_regular p q x0 z : 0 < p <= / 2 -> 0 <= q <= (2 - 2 * p) ^ 2 -> minimises D F z ->
  let s0 := mk_fb x0 x0 None beta 1 (RFista (no_restart (Regular p q 4) 1 1 0 0 0)) 0 in
  forall k, F (fb_x_old (fb_after (S (S k)) s0)) - F z <= nsq (x0 - z)%v / (2 * beta * (1 + INR k * p) ^ 2).
Proof.
  intros Hp Hq M s0 k.
  assert (Et : forall n, f_t_now (snd (lambdas n (no_restart (Regular p q 4) 1 1 0 0 0))) = tau p q 4 n).
  { intros n. destruct (regular_state p q 4 0 0 0 n) as [tp E]. rewrite E. reflexivity. }
  pose proof (rate x0 _ (Regular p q 4) 0 0 0 eq_refl z 0 M (Et 0%nat)) as R1.
  assert (Hc : forall n, (0 <= n)%nat -> 1 <= f_t_now (snd (lambdas (S n) (no_restart (Regular p q 4) 1 1 0 0 0))) /\
     f_t_now (snd (lambdas (S n) (no_restart (Regular p q 4) 1 1 0 0 0))) * f_t_now (snd (lambdas (S n) (no_restart (Regular p q 4) 1 1 0 0 0))) - f_t_now (snd (lambdas (S n) (no_restart (Regular p q 4) 1 1 0 0 0)))
     <= f_t_now (snd (lambdas n (no_restart (Regular p q 4) 1 1 0 0 0))) * f_t_now (snd (lambdas n (no_restart (Regular p q 4) 1 1 0 0 0)))).
  { intros n _. rewrite !Et. split; [|apply tau_4_cond; assumption].
    pose proof (tau_4_ge p q (S n) ltac:(lra) ltac:(lra)). pose proof (pos_INR (S n)). nra. }
  specialize (R1 Hc k ltac:(lia)). cbv zeta beta in R1. rewrite Et in R1.
  rewrite (Z_1 x0 _ (Regular p q 4) 0 0 0 eq_refl) in R1.
  pose proof (fejer x0 _ (Regular p q 4) 0 0 0 eq_refl z 0 M) as Fj. cbv zeta beta in Fj.
  pose proof (tau_4_ge p q k ltac:(lra) ltac:(lra)) as Tk. pose proof (pos_INR k) as Pk.
  change (fb_z_old _) with x0 in Fj. fold s0 in R1, Fj.
  set (d := F _ - F z) in *. assert (Hd : 0 <= d).
  { unfold d. pose proof (proj2 M _ (X_in x0 _ (Regular p q 4) 0 0 0 eq_refl (S k))) as Q. fold s0 in Q. lra. }
  set (w := 1 + INR k * p) in *. assert (Hw : 1 <= w) by (unfold w; pose proof (Rmult_le_pos _ _ Pk (Rlt_le _ _ (proj1 Hp))); lra).
  assert (Hw2 : 1 <= w ^ 2) by (clear - Hw; nra).
  apply Rmult_le_reg_l with (2 * beta * w ^ 2); [apply Rmult_lt_0_compat; lra|].
  replace (2 * beta * w ^ 2 * (nsq (x0 - z)%v / (2 * beta * w ^ 2))) with (nsq (x0 - z)%v) by (field; split; lra).
  assert (w ^ 2 <= tau p q 4 k * tau p q 4 k) by (clear - Hw Tk; nra).
  assert (2 * beta * w ^ 2 * d <= 2 * beta * (tau p q 4 k * tau p q 4 k) * d); [|lra].
  apply Rmult_le_compat_r; [exact Hd|]. apply Rmult_le_compat_l; lra.
Qed.

Lemma fista_rate_cd a x0 z : 2 < a -> minimises D F z ->
  let s0 := mk_fb x0 x0 None beta 1 (RFista (no_restart (CD a 0) 1 1 0 0 0)) 0 in
  forall k, (2 <= k)%nat -> F (fb_x_old (fb_after (S (S k)) s0)) - F z <= a ^ 2 * nsq (x0 - z)%v / (2 * beta * (INR k + a - 2) ^ 2).
Proof.
  intros Ha M. set (f0 := no_restart (CD a 0) 1 1 0 0 0). intros s0 k Hk.
  assert (Et : forall n, f_t_now (snd (lambdas n f0)) = tau_cd a n).
  { intros n. destruct (cd_state a 0 0 0 n) as [tp E]. unfold f0. rewrite E. reflexivity. }
  assert (E2 : f_t_now (snd (lambdas 2 f0)) = 1) by (rewrite Et; cbn; field; lra).
  pose proof (rate x0 f0 (CD a 0) 0 0 0 eq_refl z 2 M E2) as R1.
  assert (Hc : forall n, (2 <= n)%nat -> 1 <= f_t_now (snd (lambdas (S n) f0)) /\
     f_t_now (snd (lambdas (S n) f0)) * f_t_now (snd (lambdas (S n) f0)) - f_t_now (snd (lambdas (S n) f0)) <= f_t_now (snd (lambdas n f0)) * f_t_now (snd (lambdas n f0))).
  { intros n Hn. rewrite !Et. split; [apply (tau_cd_cond a (S n)); [exact Ha|lia]|apply tau_cd_cond; assumption]. }
  specialize (R1 Hc k Hk). cbv zeta beta in R1. rewrite Et in R1. fold s0 in R1.
  (* Z 3 is a convex combination of X 3 and X 2 *)
  pose proof (Z_SS x0 f0 (CD a 0) 0 0 0 eq_refl 1) as Z3. cbv zeta beta in Z3. rewrite !Et in Z3. fold s0 in Z3.
  pose proof (fejer x0 f0 (CD a 0) 0 0 0 eq_refl z 0 M) as F0. cbv zeta beta in F0. pose proof (fejer x0 f0 (CD a 0) 0 0 0 eq_refl z 1 M) as F1. cbv zeta beta in F1.
  pose proof (fejer x0 f0 (CD a 0) 0 0 0 eq_refl z 2 M) as F2. cbv zeta beta in F2. fold s0 in F0, F1, F2.
  pose proof (Z_1 x0 f0 (CD a 0) 0 0 0 eq_refl) as Z1. cbv zeta beta in Z1. fold s0 in Z1. rewrite Z1 in F1.
  pose proof (Z_SS x0 f0 (CD a 0) 0 0 0 eq_refl 0) as Z2. cbv zeta beta in Z2. rewrite !Et in Z2. fold s0 in Z2.
  assert (Z2' : fb_z_old (fb_after 2 s0) = fb_x_old (fb_after 2 s0)).
  { rewrite Z2. cbn [tau_cd]. replace ((1 - 1) / ((INR 0 + a - 1) / a)) with 0 by (cbn; field; lra). vring. }
  rewrite Z2' in F2. change (fb_z_old (fb_after 0 s0)) with x0 in F0.
  set (x3 := fb_x_old (fb_after 3 s0)) in *. set (x2 := fb_x_old (fb_after 2 s0)) in *. set (x1 := fb_x_old (fb_after 1 s0)) in *.
  assert (Q : nsq (fb_z_old (fb_after 3 s0) - z)%v <= nsq (x0 - z)%v).
  { rewrite Z3. clear Z3.
    assert (Ec : (tau_cd a 1 - 1) / tau_cd a 2 = - / a) by (cbn; field; lra). rewrite Ec.
    set (c := / a). assert (Hc1 : 0 < c < 1).
    { unfold c. split; [apply Rinv_0_lt_compat; lra|]. rewrite <- Rinv_1. apply Rinv_lt_contravar; lra. }
    assert (E : nsq (x3 + - c * (x3 - x2) - z)%v = (1 - c) * nsq (x3 - z)%v + c * nsq (x2 - z)%v - c * (1 - c) * nsq (x3 - x2)%v).
    { iexpand. rewrite (inner_sym H x2 x3), (inner_sym H z x3), (inner_sym H z x2). ring. }
    rewrite E. pose proof (nsq_pos (x3 - x2)%v). 
    assert (0 <= c * (1 - c) * nsq (x3 - x2)%v) by (apply Rmult_le_pos; [apply Rmult_le_pos; lra|assumption]). nra. }
  set (d := F (fb_x_old (fb_after (S (S k)) s0)) - F z) in *. 
  assert (Tk : tau_cd a k = (INR k + a - 2) / a).
  { destruct k as [|k']; [lia|]. cbn [tau_cd]. rewrite S_INR. f_equal. ring. }
  rewrite Tk in R1. assert (Pk : 2 <= INR k) by (replace 2 with (INR 2) by (cbn; ring); apply le_INR; exact Hk).
  set (w := INR k + a - 2) in *. assert (Hw : 2 < w) by (unfold w; lra).
  apply Rmult_le_reg_l with (2 * beta * w ^ 2 / a ^ 2).
  { apply Rdiv_lt_0_compat; [apply Rmult_lt_0_compat; [lra|]|]; apply pow_lt; lra. }
  replace (2 * beta * w ^ 2 / a ^ 2 * (a ^ 2 * nsq (x0 - z)%v / (2 * beta * w ^ 2))) with (nsq (x0 - z)%v) by (field; repeat split; lra).
  replace (2 * beta * w ^ 2 / a ^ 2 * d) with (2 * beta * (w / a * (w / a)) * d) by (field; lra). lra.
Qed.

Lemma fista_energy_regular p q x0 n : 0 <= p -> 0 <= q ->
  let s0 := mk_fb x0 x0 None beta 1 (RFista (no_restart (Regular p q 4) 1 1 0 0 0)) 0 in
  let X n := fb_x_old (fb_after n s0) in
  F (X (S (S n))) + / (2 * beta) * nsq (X (S (S n)) - X (S n))%v <= F (X (S n)) + / (2 * beta) * nsq (X (S n) - X n)%v.
Proof.
  intros Hp Hq s0 X. apply (energy x0 _ (Regular p q 4) 0 0 0 eq_refl). intros k.
  destruct (regular_state p q 4 0 0 0 k) as [tp E]. destruct (regular_state p q 4 0 0 0 (S k)) as [tp' E'].
  rewrite E, E'. cbn [f_t_now no_restart]. pose proof (regular_lambda_range p q k Hp Hq). nra.
Qed.

Lemma fista_energy_cd a x0 n : 2 < a ->
  let s0 := mk_fb x0 x0 None beta 1 (RFista (no_restart (CD a 0) 1 1 0 0 0)) 0 in
  let X n := fb_x_old (fb_after n s0) in
  F (X (S (S n))) + / (2 * beta) * nsq (X (S (S n)) - X (S n))%v <= F (X (S n)) + / (2 * beta) * nsq (X (S n) - X n)%v.
Proof.
  intros Ha s0 X. apply (energy x0 _ (CD a 0) 0 0 0 eq_refl). intros k.
  destruct (cd_state a 0 0 0 k) as [tp E]. destruct (cd_state a 0 0 0 (S k)) as [tp' E'].
  rewrite E, E'. cbn [f_t_now no_restart]. destruct (Nat.eq_dec k 1) as [->|Nk].
  - pose proof (cd_lambda_1 a Ha) as C1. replace ((tau_cd a 1 - 1) / tau_cd a 2) with (- / a) by lra.
    assert (0 < / a < 1) by (split; [apply Rinv_0_lt_compat; lra|rewrite <- Rinv_1; apply Rinv_lt_contravar; lra]). nra.
  - pose proof (cd_lambda_other a k Ha Nk). nra.
Qed.
End Convex.
End FB.
