(** Theorems about ADMM, FastADMM and ADMMcostObj: C53-C56 and their part of C47. *)
From Coq Require Import String.
From Verif Require Import NPReal Py IPS Model_SetUp Spec_Opt Proof_Smooth Model_FB Proof_FB2 Proof_Inst Model_ADMM.
From Coq Require Import List Lia.
Import ListNotations.
Local Open Scope string_scope.
Local Open Scope R_scope.

(** * C53 *)

(** The part that holds: when the whole state is left unchanged the constraint is satisfied. *)
Theorem C53_fixed_points_satisfy_constraint :
  forall (H K : ips) A B b opti_H opti_G (u : H) (v : K) mu,
  admm_update A B b opti_H opti_G (admm_init u v mu) = admm_init u v mu -> (A u + B v)%v = b.
Proof.
  intros H K A B b opti_H opti_G u v mu E. unfold admm_update, admm_init in E. cbn in E.
  assert (E1 := f_equal (@ad_u_new H K) E). assert (E2 := f_equal (@ad_v_new H K) E). assert (E3 := f_equal (@ad_mu_new H K) E).
  cbn in E1, E2, E3. rewrite E1 in E2, E3. rewrite E2 in E3. apply sub_eq0.
  replace (A u + B v - b)%v with ((mu + (A u + B v - b)) - mu)%v by vring. rewrite E3. apply vsub_self.
Qed.
Print Assumptions C53_fixed_points_satisfy_constraint.

(** The multiplier accumulates the constraint residuals of the iterates. *)
Theorem C53_multiplier_accumulates_residuals :
  forall (H K : ips) A B b opti_H opti_G (u : H) (v : K) mu n,
  let s k := admm_after A B b opti_H opti_G k (admm_init u v mu) in
  ad_mu_new (s n) = fold_left (fun m k => (m + (A (ad_u_new (s k)) + B (ad_v_new (s k)) - b))%v) (seq 1 n) mu.
Proof.
  intros H K A B b opti_H opti_G u v mu n s.
  assert (I : ad_mu_new (s n) = fold_left (fun m k => (m + (A (ad_u_new (s k)) + B (ad_v_new (s k)) - b))%v) (seq 1 n) mu
     /\ ad_mu_old (s n) = ad_mu_new (s n)); [|apply I].
  induction n as [|n [I1 I2]]; [split; reflexivity|].
  assert (E : s (S n) = admm_update A B b opti_H opti_G (s n)) by reflexivity.
  rewrite seq_S, fold_left_app. cbn [fold_left Nat.add]. rewrite <- I1. rewrite <- I2. rewrite E. split; reflexivity.
Qed.
Print Assumptions C53_multiplier_accumulates_residuals.

(** C53 is false: the multiplier has no influence whatsoever on u, v or the results. *)
Theorem C53_primal_ignores_multiplier :
  forall (H K : ips) A B b opti_H opti_G (u : H) (v : K) mu mu' n,
  let s := admm_after A B b opti_H opti_G n (admm_init u v mu) in
  let s' := admm_after A B b opti_H opti_G n (admm_init u v mu') in
  ad_u_new s = ad_u_new s' /\ ad_v_new s = ad_v_new s' /\
  forall metric period, admm_iterate A B b opti_H opti_G None metric false period n (admm_init u v mu)
                      = admm_iterate A B b opti_H opti_G None metric false period n (admm_init u v mu').
Proof.
  intros H K A B b opti_H opti_G u v mu mu' n s s'.
  assert (I : ad_u_new s = ad_u_new s' /\ ad_v_new s = ad_v_new s' /\ ad_u_old s = ad_u_old s' /\ ad_v_old s = ad_v_old s').
  { unfold s, s'. clear s s'. induction n as [|n (I1 & I2 & I3 & I4)]; [cbn; auto|].
    unfold admm_after in *. cbn [Nat.iter nat_rect]. unfold admm_update at 1 3 5 7 9 11 13 15. cbn.
    unfold Nat.iter in I3, I4. rewrite I3, I4. auto. }
  destruct I as (I1 & I2 & _). split; [exact I1|]. split; [exact I2|]. intros metric period. unfold admm_iterate.
  destruct (run_plain Model_SetUp.ADMM (admm_update A B b opti_H opti_G) None metric false period n (mk_alg (admm_init u v mu) [] false) eq_refl eq_refl eq_refl) as (a & tr & E & D).
  destruct (run_plain Model_SetUp.ADMM (admm_update A B b opti_H opti_G) None metric false period n (mk_alg (admm_init u v mu') [] false) eq_refl eq_refl eq_refl) as (a' & tr' & E' & D').
  rewrite E, E'. cbn [bind fst]. rewrite D, D'. cbn [data]. fold (admm_after A B b opti_H opti_G n). 
  unfold s, s', admm_after in I1, I2. rewrite I1, I2. reflexivity.
Qed.
Print Assumptions C53_primal_ignores_multiplier.

(** Even with optimizers that solve the documented subproblems exactly, the primal iterates can stay
    for ever at a point that violates the constraint: H = G = 0, A = B = identity, b = 1. *)
Definition solves_subproblem {X H : ips} (tau : R) (F : X -> R) (A : X -> H) (opt : X -> H -> X) : Prop :=
  forall init y, minimises everywhere (fun u => F u + tau / 2 * nsq (A u - y)%v) (opt init y).

Theorem C53_solution_refuted :
  exists (A B : R_ips -> R_ips) (b : R_ips) opti_H opti_G (u v : R_ips),
  (forall tau, 0 < tau -> solves_subproblem tau (fun _ => 0) A opti_H /\ solves_subproblem tau (fun _ => 0) B opti_G) /\
  forall mu n, let s := admm_after A B b opti_H opti_G n (admm_init u v mu) in
    ad_u_new s = u /\ ad_v_new s = v /\ norm (A (ad_u_new s) + B (ad_v_new s) - b)%v = 1 /\ ad_mu_new s = mu + INR n.
Proof.
  exists (fun x => x), (fun x => x), 1, (fun _ y => y), (fun _ y => y), 1, 1. split.
  - intros tau Ht. split; intros init y; split; try exact I; intros z _; rewrite vsub_self; unfold nsq at 1; rewrite inner_0_l;
    pose proof (nsq_pos (H := R_ips) (vsub z y)); nra.
  - intros mu n. cbn zeta.
    assert (I : admm_after (H := R_ips) (K := R_ips) (fun x => x) (fun x => x) 1 (fun _ y => y) (fun _ y => y) n (admm_init (H := R_ips) (K := R_ips) 1 1 mu)
      = @mk_admm R_ips R_ips 1 1 1 1 (mu + INR n) (mu + INR n)).
    { induction n as [|n IH].
      - cbn. rewrite Rplus_0_r. reflexivity.
      - change (admm_update (H := R_ips) (K := R_ips) (fun x => x) (fun x => x) 1 (fun _ y => y) (fun _ y => y)
          (admm_after (H := R_ips) (K := R_ips) (fun x => x) (fun x => x) 1 (fun _ y => y) (fun _ y => y) n (admm_init (H := R_ips) (K := R_ips) 1 1 mu))
          = @mk_admm R_ips R_ips 1 1 1 1 (mu + INR (S n)) (mu + INR (S n))).
        rewrite IH, S_INR. unfold admm_update. cbn. f_equal; ring. }
    rewrite I. cbn [ad_u_new ad_v_new ad_mu_new]. split; [reflexivity|]. split; [reflexivity|]. split; [|reflexivity].
    unfold norm. cbn. replace ((1 + 1 + -1 * 1) * (1 + 1 + -1 * 1)) with 1 by ring. apply sqrt_1.
Qed.
Print Assumptions C53_solution_refuted.

Example C53_example : ad_u_new (admm_update (H := R_ips) (K := R_ips) (fun x => x) (fun x => x) 1 (fun _ y => y) (fun _ y => y)
   (admm_init (H := R_ips) (K := R_ips) 3 5 0)) = 7.
Proof. cbn. ring. Qed.

(** * C54 *)

(** FastADMM ignores the user's v and tau: it starts from b and uses tau = 1. *)
Theorem C54_initial_point_and_tau_ignored :
  forall (H : ips) (b u v v' mu : H) has_cost alpha eta tau tau',
  fadmm_init b u v mu has_cost alpha eta tau = fadmm_init b u v' mu has_cost alpha eta tau' /\
  fa_v_new (fadmm_init b u v mu has_cost alpha eta tau) = b /\ fa_tau (fadmm_init b u v mu has_cost alpha eta tau) = 1.
Proof. intros. split; [reflexivity|]. split; reflexivity. Qed.
Print Assumptions C54_initial_point_and_tau_ignored.
Theorem C54_initial_point_and_tau_refuted :
  exists (b u v mu : R_ips) tau, fa_v_new (fadmm_init b u v mu false 1 (999 / 1000) tau) <> v /\ fa_tau (fadmm_init b u v mu false 1 (999 / 1000) tau) <> tau.
Proof. exists 0, 0, 7, 0, 3. cbn. split; lra. Qed.
Print Assumptions C54_initial_point_and_tau_refuted.

(** For every eta > 0 it never restarts: every update extrapolates, with a constant factor. *)
Theorem C54_never_restarts :
  forall (H : ips) A B (b : H) opti_H opti_G u v mu alpha eta tau n s s', 0 < eta ->
  fadmm_after A B b opti_H opti_G n (fadmm_init b u v mu false alpha eta tau) = Ok s ->
  fadmm_update A B b opti_H opti_G s = Ok s' ->
  let beta := sqrt (1 + 4 * alpha ^ 2) / alpha in
  fa_v_hat s' = (fa_v_new s' + beta * (fa_v_new s' - fa_v_new s))%v /\
  fa_mu_hat s' = (fa_mu_new s' + beta * (fa_mu_new s' - fa_mu_new s))%v.
Proof.
  intros H A B b opti_H opti_G u v mu alpha eta tau n s s' He En.
  assert (I : fa_c_old s = PInf /\ fa_eta s = eta /\ fa_alpha_old s = alpha /\ fa_has_cost s = false /\
              fa_v_old s = fa_v_new s /\ fa_mu_old s = fa_mu_new s).
  { revert s En. induction n as [|n IH]; intros s; cbn [fadmm_after].
    - intros Q. injection Q as <-. cbn. auto 10.
    - destruct (fadmm_after A B b opti_H opti_G n _) as [s1|]; cbn [bind]; [|discriminate].
      destruct (IH s1 eq_refl) as (I1 & I2 & I3 & I4 & I5 & I6). unfold fadmm_update. rewrite I4.
      destruct (lt_scaled _ _ _); intros Q; injection Q as <-; cbn; auto 10. }
  destruct I as (I1 & I2 & I3 & I4 & I5 & I6). unfold fadmm_update. rewrite I1, I2, I3, I4. cbn [lt_scaled].
  destruct (Rlt_dec 0 eta); [|contradiction]. intros Q. injection Q as <-. cbn. rewrite I5, I6.
  replace (1 + sqrt (1 + 4 * (alpha * (alpha * 1))) - 1) with (sqrt (1 + 4 * (alpha * (alpha * 1)))) by ring. auto.
Qed.
Print Assumptions C54_never_restarts.

(** The whole run without cost functions: the points are given by one recursion with a constant
    extrapolation factor, and iterate returns the last u and v. *)
Theorem C54_run :
  forall (H : ips) A B (b : H) opti_H opti_G u0 v0 mu0 alpha eta tau, 0 < eta ->
  exists u v mu v_hat mu_hat : nat -> H,
  (u 0%nat = u0 /\ v 0%nat = b /\ mu 0%nat = mu0 /\ v_hat 0%nat = b /\ mu_hat 0%nat = mu0) /\
  (forall n, let beta := sqrt (1 + 4 * alpha ^ 2) / alpha in
    u (S n) = opti_H (u n) (B (v_hat n) + u n - b)%v /\
    v (S n) = opti_G (v_hat n) (A (u (S n)) + u n - b)%v /\
    mu (S n) = (mu_hat n + (A (u (S n)) + B (v (S n)) - b))%v /\
    v_hat (S n) = (v (S n) + beta * (v (S n) - v n))%v /\
    mu_hat (S n) = (mu (S n) + beta * (mu (S n) - mu n))%v) /\
  forall metric period n,
    fadmm_iterate A B b opti_H opti_G metric false period n (fadmm_init b u0 v0 mu0 false alpha eta tau) = Ok (u n, v n).
Proof.
  intros H A B b opti_H opti_G u0 v0 mu0 alpha eta tau He.
  set (s0 := fadmm_init b u0 v0 mu0 false alpha eta tau).
  set (st n := match fadmm_after A B b opti_H opti_G n s0 with Ok s => s | Err _ => s0 end).
  assert (I : forall n, fadmm_after A B b opti_H opti_G n s0 = Ok (st n) /\ fa_c_old (st n) = PInf /\ fa_eta (st n) = eta /\
     fa_alpha_old (st n) = alpha /\ fa_has_cost (st n) = false /\ fa_u_old (st n) = fa_u_new (st n) /\
     fa_v_old (st n) = fa_v_new (st n) /\ fa_mu_old (st n) = fa_mu_new (st n) /\
     fadmm_update A B b opti_H opti_G (st n) = Ok (st (S n))).
  { assert (Q : forall s, fa_has_cost s = false -> exists s', fadmm_update A B b opti_H opti_G s = Ok s').
    { intros s E. unfold fadmm_update. rewrite E. eexists. reflexivity. }
    assert (J : forall n, fadmm_after A B b opti_H opti_G n s0 = Ok (st n) /\ fa_c_old (st n) = PInf /\ fa_eta (st n) = eta /\
     fa_alpha_old (st n) = alpha /\ fa_has_cost (st n) = false /\ fa_u_old (st n) = fa_u_new (st n) /\
     fa_v_old (st n) = fa_v_new (st n) /\ fa_mu_old (st n) = fa_mu_new (st n)).
    { induction n as [|n (J1 & J2 & J3 & J4 & J5 & J6)]; [cbn; auto 10|].
      destruct (Q _ J5) as [s' E]. unfold st at 1 2 3 4 5 6 7 8 9 10 11. cbn [fadmm_after]. rewrite J1. cbn [bind]. rewrite E. cbn iota.
      split; [reflexivity|]. unfold fadmm_update in E. rewrite J5 in E.
      destruct (lt_scaled _ _ _) in E; injection E as <-; cbn; auto 10. }
    intros n. destruct (J n) as (J1 & J2 & J3 & J4 & J5 & J6). destruct (J (S n)) as (K & _). repeat split; try tauto.
    cbn [fadmm_after] in K. rewrite J1 in K. exact K. }
  exists (fun n => fa_u_new (st n)), (fun n => fa_v_new (st n)), (fun n => fa_mu_new (st n)), (fun n => fa_v_hat (st n)), (fun n => fa_mu_hat (st n)).
  split; [cbn; auto 10|]. split.
  - intros n beta. destruct (I n) as (_ & I2 & I3 & I4 & I5 & I6 & I7 & I8 & E). unfold fadmm_update in E. rewrite I2, I3, I4, I5 in E.
    cbn [lt_scaled] in E. destruct (Rlt_dec 0 eta); [|contradiction]. injection E as E. rewrite <- E. cbn. rewrite I6, I7, I8.
    replace (1 + sqrt (1 + 4 * (alpha * (alpha * 1))) - 1) with (sqrt (1 + 4 * (alpha * (alpha * 1)))) by ring. auto 10.
  - intros metric period n. unfold fadmm_iterate, run_alg. set (mx := n) at 1. clearbody mx.
    assert (L : forall (k m i : nat) tr, exists tr',
      iterations_from (fun (_ : nat) (a : alg_state fadmm) => do d <- fadmm_update A B b opti_H opti_G (data a); Ok (mk_alg d (flags a) (conv a)))
        conv (alg_metrics metric) false period mx k i (mk_alg (st m) [] false) tr = Ok (mk_alg (st (m + k)%nat) [] false, tr')).
    { induction k as [|k IH]; intros m i tr; [rewrite Nat.add_0_r; cbn; eauto|]. cbn [iterations_from]. cbn [data].
      destruct (I m) as (_ & _ & _ & _ & _ & _ & _ & _ & E). rewrite E. cbn [bind flags conv]. unfold metrics_step at 1. cbn [bind conv].
      rewrite Nat.add_succ_r. apply (IH (S m)). }
    destruct (L n 0%nat 0%nat []) as [tr' E]. change (st 0%nat) with s0 in E. rewrite E. reflexivity.
Qed.
Print Assumptions C54_run.

(** A run in which the combined residual does not decrease at all (it is 1 at every update). *)
Theorem C54_restart_refuted :
  exists (A B : R_ips -> R_ips) b opti_H opti_G u v mu s1 s2,
  let s0 := fadmm_init (H := R_ips) b u v mu false 1 (999 / 1000) 1 in
  fadmm_after A B b opti_H opti_G 1 s0 = Ok s1 /\ fadmm_after A B b opti_H opti_G 2 s0 = Ok s2 /\
  fa_c_new s1 = Fin 1 /\ fa_c_new s2 = Fin 1 /\ fa_mu_hat s2 <> fa_mu_new s1 /\ fa_alpha_new s2 <> 1.
Proof.
  exists (fun x => x), (fun x => x), 0, (fun i _ => i), (fun i _ => i), 1, 0, 0.
  eexists. eexists. cbn zeta. unfold fadmm_init. cbn [fadmm_after bind]. unfold fadmm_update at 1 3. cbn.
  destruct (Rlt_dec 0 (999 / 1000)); [|lra].
  split; [reflexivity|]. unfold fadmm_update. cbn. destruct (Rlt_dec 0 (999 / 1000)); [|lra]. split; [reflexivity|].
  cbn [fa_c_new fa_mu_hat fa_mu_new fa_alpha_new].
  assert (S5 : 2 < sqrt (1 + 4 * (1 * (1 * 1)))).
  { rewrite <- (sqrt_square 2) at 1 by lra. apply sqrt_lt_1; lra. }
  set (q := sqrt (1 + 4 * (1 * (1 * 1)))) in *.
  split; [|split; [|split]].
  - f_equal. unfold norm. cbn.
    match goal with |- sqrt ?a + 1 * sqrt ?c = 1 => replace a with 1 by ring; replace c with 0 by ring end.
    rewrite sqrt_1, sqrt_0. ring.
  - f_equal. unfold norm. cbn.
    match goal with |- sqrt ?a + 1 * sqrt ?c = 1 => replace a with 1 by (field; lra); replace c with 0 by (field; lra) end.
    rewrite sqrt_1, sqrt_0. ring.
  - unfold Rdiv. rewrite Rinv_1. nra.
  - lra.
Qed.
Print Assumptions C54_restart_refuted.

Example C54_example : exists s, fadmm_after (H := R_ips) (fun x => x) (fun x => x) 0 (fun i _ => i) (fun i _ => i) 1
    (fadmm_init (H := R_ips) 0 1 7 0 false 1 (999 / 1000) 3) = Ok s /\ fa_u_new s = 1.
Proof.
  eexists. unfold fadmm_init. cbn [fadmm_after bind]. unfold fadmm_update. cbn. destruct (Rlt_dec 0 (999 / 1000)); [|lra].
  split; [reflexivity|]. reflexivity.
Qed.

(** * C55 *)

(** C55 is false: with cost functions the first update raises AttributeError. *)
Theorem C55_cost_funcs_always_raise :
  forall (H : ips) A B (b : H) opti_H opti_G u v mu alpha eta tau metric hm period n,
  fadmm_iterate A B b opti_H opti_G metric hm period (S n) (fadmm_init b u v mu true alpha eta tau) = Err AttributeError.
Proof. intros. reflexivity. Qed.
Print Assumptions C55_cost_funcs_always_raise.
Theorem C55_cost_funcs_refuted :
  exists (A B : R_ips -> R_ips) b opti_H opti_G u v mu,
  fadmm_iterate A B b opti_H opti_G (fun _ _ => []) false None 1 (fadmm_init b u v mu true 1 (999 / 1000) 1) = Err AttributeError /\
  exists r, fadmm_iterate A B b opti_H opti_G (fun _ _ => []) false None 1 (fadmm_init b u v mu false 1 (999 / 1000) 1) = Ok r.
Proof.
  exists (fun x => x), (fun x => x), 0, (fun i _ => i), (fun i _ => i), 1, 7, 0. split; [apply C55_cost_funcs_always_raise|].
  unfold fadmm_iterate, run_alg, fadmm_init. cbn [iterations_from]. unfold fadmm_update. cbn.
  destruct (Rlt_dec 0 (999 / 1000)); [|lra]. eexists. reflexivity.
Qed.
Print Assumptions C55_cost_funcs_refuted.

(** Without cost functions it can be iterated. *)
Theorem C55_without_cost_funcs :
  forall (H : ips) A B (b : H) opti_H opti_G u v mu alpha eta tau metric period n,
  exists r, fadmm_iterate A B b opti_H opti_G metric false period n (fadmm_init b u v mu false alpha eta tau) = Ok r.
Proof.
  intros H A B b opti_H opti_G u v mu alpha eta tau metric period n. unfold fadmm_iterate, run_alg.
  set (a := mk_alg _ _ _). assert (Ha : fa_has_cost (data a) = false) by reflexivity.
  assert (Hc : conv a = false) by reflexivity. clearbody a. set (mx := n) at 1. clearbody mx.
  generalize 0%nat (@nil event). revert a Ha Hc. induction n as [|n IH]; intros a Ha Hc i tr.
  - cbn. eauto.
  - cbn [iterations_from]. unfold fadmm_update at 1. rewrite Ha. cbn [bind]. unfold metrics_step at 1. cbn [bind conv].
    rewrite Hc. apply IH; [|reflexivity]. cbn [data]. destruct (lt_scaled _ _ _); reflexivity.
Qed.
Print Assumptions C55_without_cost_funcs.

Example C55_example : fadmm_iterate (H := R_ips) (fun x => x) (fun x => x) 0 (fun i _ => i) (fun i _ => i)
  (fun _ _ => []) false None 1 (fadmm_init (H := R_ips) 0 1 7 0 false 1 (999 / 1000) 3) = Ok (1, 0).
Proof.
  unfold fadmm_iterate, run_alg, fadmm_init. cbn [iterations_from]. unfold fadmm_update. cbn.
  destruct (Rlt_dec 0 (999 / 1000)); [|lra]. reflexivity.
Qed.

(** * C56 *)

(** What keyword arguments mean: the value given for a name, the default otherwise. *)
Fixpoint given (name : string) (kwargs : list (string * cval)) (default : cval) : cval :=
  match kwargs with
  | [] => default
  | (k, v) :: l => if String.eqb k name then v else given name l default
  end.
Definition honours (kwargs : list (string * cval)) (o : cost_options) : Prop :=
  o_initial_cost o = given "initial_cost" kwargs (VFloat (10 ^ 6)) /\
  o_tolerance o = given "tolerance" kwargs (VFloat (/ 10 ^ 4)) /\
  o_cost_interval o = given "cost_interval" kwargs (VInt 1) /\
  o_test_range o = given "test_range" kwargs (VInt 4).

(** C56 is false: the values of the options are never used; the first option name becomes the
    initial cost, the second the tolerance, and so on. *)
Theorem C56_options_lost :
  (forall kwargs kwargs', map fst kwargs = map fst kwargs' -> admm_cost_init kwargs = admm_cost_init kwargs') /\
  (forall name v rest o, admm_cost_init ((name, v) :: rest) = Ok o ->
     o_initial_cost o = VStr name /\
     match rest with (name2, _) :: _ => o_tolerance o = VStr name2 | [] => o_tolerance o = VFloat (/ 10 ^ 4) end) /\
  (forall r, r <> / 10 ^ 4 -> exists o, admm_cost_init [("tolerance", VFloat r)] = Ok o /\ ~ honours [("tolerance", VFloat r)] o) /\
  (exists o, admm_cost_init [] = Ok o /\ honours [] o).
Proof.
  split; [|split; [|split]].
  - intros k k' E. unfold admm_cost_init. f_equal. revert k' E. induction k as [|[a va] k IH]; intros [|[b vb] k'] E; try discriminate; [reflexivity|].
    cbn in E. injection E as -> E. cbn. f_equal. apply IH, E.
  - intros name v rest o. unfold admm_cost_init, cost_parent_positional. destruct (Nat.leb _ _); [|discriminate].
    intros Q. injection Q as <-. split; [reflexivity|]. destruct rest as [|[n2 v2] rest]; reflexivity.
  - intros r Hr. eexists. split; [reflexivity|]. intros (_ & T & _). apply Hr. cbn -[pow] in T. injection T as T. rewrite <- T. reflexivity.
  - eexists. split; [reflexivity|]. repeat split.
Qed.
Print Assumptions C56_options_lost.
(** Any six names are accepted, known or not; a seventh is an error. *)
Theorem C56_number_of_options :
  forall kwargs : list (string * cval), ((length kwargs <= 6)%nat -> exists o, admm_cost_init kwargs = Ok o) /\
    ((6 < length kwargs)%nat -> admm_cost_init kwargs = Err TypeError).
Proof.
  intros kwargs. unfold admm_cost_init, cost_parent_positional. rewrite map_length.
  destruct (Nat.leb_spec (length kwargs) 6); split; intros; try lia; [eexists; reflexivity|reflexivity].
Qed.
Print Assumptions C56_number_of_options.
Theorem C56_options_refuted : exists kwargs o, admm_cost_init kwargs = Ok o /\ ~ honours kwargs o.
Proof.
  destruct C56_options_lost as (_ & _ & H & _). destruct (H 0) as (o & E & N); [|eauto].
  apply Rlt_not_eq, Rinv_0_lt_compat, pow_lt. lra.
Qed.
Print Assumptions C56_options_refuted.

(** The cost is f(u) + g(v) + tau ||Au+Bv-b||, with the norm and not its square; it is the
    documented one exactly when the residual norm is 0 or 1 (or tau is 0). *)
Theorem C56_cost_value :
  forall (H K : ips) f g A B (b : H) tau u (v : K),
  let r := norm (A u + B v - b)%v in
  admm_calc_cost f g A B b tau u v = f u + g v + tau * r /\
  (admm_calc_cost f g A B b tau u v = f u + g v + tau * (r * r) <-> tau = 0 \/ r = 0 \/ r = 1).
Proof.
  intros H K f g A B b tau u v r. unfold admm_calc_cost. fold r. split; [reflexivity|]. split.
  - intros E. assert (Q : tau * (r * (r - 1)) = 0) by lra. apply Rmult_integral in Q. destruct Q as [Q|Q]; [auto|].
    apply Rmult_integral in Q. destruct Q; [auto|]. right. right. lra.
  - intros [->|[->| ->]]; ring.
Qed.
Print Assumptions C56_cost_value.

Theorem C56_squared_norm_refuted :
  exists (f g : R_ips -> R) (A B : R_ips -> R_ips) (b : R_ips) tau u v,
  admm_calc_cost f g A B b tau u v <> f u + g v + tau * nsq (A u + B v - b)%v.
Proof.
  exists (fun _ => 0), (fun _ => 0), (fun x => x), (fun x => x), 0, 1, 1, 1. unfold admm_calc_cost, norm, nsq. cbn.
  replace ((1 + 1 + -1 * 0) * (1 + 1 + -1 * 0)) with (2 * 2) by ring. rewrite sqrt_square by lra. lra.
Qed.
Print Assumptions C56_squared_norm_refuted.

Example C56_example : exists o, admm_cost_init [("tolerance", VFloat 0); ("test_range", VInt 2)] = Ok o /\
  o_initial_cost o = VStr "tolerance" /\ o_tolerance o = VStr "test_range" /\ o_test_range o = VInt 4.
Proof. eexists. split; [reflexivity|]. auto. Qed.

(** * C47 *)
Theorem C47_iterate_zero_admm :
  forall (H K : ips) A B (b : H) opti_H opti_G (u : H) (v : K) mu cost metric hm period,
  admm_iterate A B b opti_H opti_G cost metric hm period 0 (admm_init u v mu) = Ok (u, v).
Proof. intros. reflexivity. Qed.
Print Assumptions C47_iterate_zero_admm.
