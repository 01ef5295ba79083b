(** Theorems of C142: where ADMM and FastADMM can settle, and what FastADMM's constant extrapolation does. *)
From Coq Require Import String.
From Verif Require Import NPReal Py IPS Model_SetUp Spec_Opt Proof_Smooth Model_FB Proof_FB2 Proof_Inst Model_ADMM Prop_ADMM Spec_Sym Proof_Sym Spec_Constrained.
From Coq Require Import List Lia.
Import ListNotations.
Local Open Scope R_scope.

(** The optimality condition of a subproblem. *)
Lemma subproblem {X H : ips} tau D (F : X -> R) (A : X -> H) c u : 0 < tau -> convex_on D F -> linear_between A ->
  minimises D (fun u => F u + tau / 2 * nsq (A u - c)%v) u <-> minimises D (fun z => F z + inner (tau * (A u - c))%v (A z)) u.
Proof.
  intros Ht C L. split.
  - intros [Du M]. split; [exact Du|]. intros z Dz.
    apply Rnot_lt_le. intros Hlt.
    set (d := F u + inner (tau * (A u - c))%v (A u) - (F z + inner (tau * (A u - c))%v (A z))) in *.
    assert (Hd : 0 < d) by (unfold d; lra).
    set (q := tau / 2 * nsq (A z - A u)%v). assert (Hq : 0 <= q) by (unfold q; pose proof (nsq_pos (A z - A u)%v); apply Rmult_le_pos; lra).
    set (t := Rmin 1 (d / (2 * (q + 1)))).
    assert (Ht0 : 0 < t). { unfold t. apply Rmin_glb_lt; [lra|]. apply Rdiv_lt_0_compat; lra. }
    assert (Ht1 : t <= 1) by apply Rmin_l.
    assert (Htq : 2 * (t * (q + 1)) <= d).
    { apply Rle_trans with (2 * (d / (2 * (q + 1)) * (q + 1))); [apply Rmult_le_compat_l; [lra|]; apply Rmult_le_compat_r; [lra|apply Rmin_r]|]. right. field. lra. }
    destruct (C u z t Du Dz ltac:(lra)) as [Dt Gt]. specialize (M _ Dt). cbv beta in M.
    assert (E : tau / 2 * nsq (A ((1 - t) * u + t * z) - c)%v = tau / 2 * nsq (A u - c)%v + t * (inner (tau * (A u - c))%v (A z) - inner (tau * (A u - c))%v (A u)) + t * t * q).
    { unfold q. rewrite (lin_add A L), !(lin_scal A L). iexpand. rewrite (inner_sym H (A z) (A u)), (inner_sym H (A z) c), (inner_sym H (A u) c). field. }
    rewrite E in M. unfold d in *. nra.
  - intros [Du M]. split; [exact Du|]. intros z Dz. specialize (M z Dz). cbv beta in M.
    assert (E : tau / 2 * nsq (A z - c)%v = tau / 2 * nsq (A u - c)%v + (inner (tau * (A u - c))%v (A z) - inner (tau * (A u - c))%v (A u)) + tau / 2 * nsq (A z - A u)%v).
    { iexpand. rewrite (inner_sym H (A z) (A u)), (inner_sym H (A z) c), (inner_sym H (A u) c). field. }
    rewrite E. pose proof (nsq_pos (A z - A u)%v). assert (0 <= tau / 2 * nsq (A z - A u)%v) by (apply Rmult_le_pos; lra). lra.
Qed.

(** A point with a multiplier solves the problem with its own value of the constraint. *)
Lemma multiplier_solves {X Y H : ips} D E (F : X -> R) (G : Y -> R) (A : X -> H) (B : Y -> H) u v lam :
  multiplier D E F G A B u v lam -> constrained_solution D E F G A B (A u + B v)%v u v.
Proof.
  intros [[Du Mu] [Ev Mv]]. split; [auto|]. intros z w Dz Ew Eq. specialize (Mu z Dz). specialize (Mv w Ew). cbv beta in Mu, Mv.
  assert (Q : inner lam (A z) + inner lam (B w) = inner lam (A u) + inner lam (B v)).
  { rewrite !(inner_sym H lam), <- !inner_add_l, Eq. reflexivity. }
  lra.
Qed.

Lemma update_of {H K : ips} A B b oH oG (u : H) (v : K) mu :
  admm_update A B b oH oG (admm_init u v mu) = (let u' := oH u (B v + u - b)%v in let v' := oG v (A u' + u - b)%v in admm_init u' v' (mu + (A u' + B v' - b))%v).
Proof. reflexivity. Qed.

(** [C142] Optimizers that solve the steps of the augmented Lagrangian: a pair (u, v) that an update leaves unchanged
    solves the problem in which b is replaced by the value the pair happens to give to the constraint; u itself,
    plus the residual, takes the place of the multiplier. Conversely such pairs are left unchanged. *)
Theorem C142_unchanged_pairs :
  forall (H K : ips) A B b oH oG tau D E F G (u : H) (v : K) mu, 0 < tau -> convex_on D F -> convex_on E G -> linear_between A -> linear_between B ->
  exact_optimizer tau (-1) D F A oH -> exact_optimizer tau (-1) E G B oG ->
  let s := admm_update A B b oH oG (admm_init u v mu) in let lam := (tau * (A u + B v - b + u))%v in
  (ad_u_new s = u /\ ad_v_new s = v -> multiplier D E F G A B u v lam /\ constrained_solution D E F G A B (A u + B v)%v u v) /\
  (warm_start tau (-1) D F A oH -> warm_start tau (-1) E G B oG -> multiplier D E F G A B u v lam -> ad_u_new s = u /\ ad_v_new s = v).
Proof.
  intros H K A B b oH oG tau D E F G u v mu Ht CF CG LA LB XH XG s lam. unfold s. rewrite update_of. cbn [ad_u_new ad_v_new admm_init].
  assert (EA : (tau * (A u - (-1) * (B v + u - b)))%v = lam) by (unfold lam; vring).
  assert (EB : (tau * (B v - (-1) * (A u + u - b)))%v = lam) by (unfold lam; vring).
  split.
  - intros [Eu Ev]. rewrite Eu in Ev.
    assert (M : multiplier D E F G A B u v lam).
    { split.
      - pose proof (XH u (B v + u - b)%v) as P. rewrite Eu in P. apply (subproblem tau D F A _ u Ht CF LA) in P. rewrite EA in P. exact P.
      - pose proof (XG v (A u + u - b)%v) as P. rewrite Ev in P. apply (subproblem tau E G B _ v Ht CG LB) in P. rewrite EB in P. exact P. }
    split; [exact M|exact (multiplier_solves D E F G A B u v lam M)].
  - intros WH WG [Mu Mv].
    assert (Eu : oH u (B v + u - b)%v = u) by (apply WH, (subproblem tau D F A _ u Ht CF LA); rewrite EA; exact Mu).
    rewrite Eu. split; [reflexivity|]. apply WG, (subproblem tau E G B _ v Ht CG LB). rewrite EB. exact Mv.
Qed.
Print Assumptions C142_unchanged_pairs.

(** [C142] When the whole state is left unchanged, (u, v) solves the stated problem, and tau * u is a multiplier: ADMM can
    only settle at solutions whose multiplier is a multiple of the solution. *)
Theorem C142_unchanged_states_solve :
  forall (H K : ips) A B b oH oG tau D E F G (u : H) (v : K) mu, 0 < tau -> convex_on D F -> convex_on E G -> linear_between A -> linear_between B ->
  exact_optimizer tau (-1) D F A oH -> exact_optimizer tau (-1) E G B oG ->
  admm_update A B b oH oG (admm_init u v mu) = admm_init u v mu ->
  constrained_solution D E F G A B b u v /\ multiplier D E F G A B u v (tau * u)%v.
Proof.
  intros H K A B b oH oG tau D E F G u v mu Ht CF CG LA LB XH XG Fx.
  pose proof (C53_fixed_points_satisfy_constraint H K A B b oH oG u v mu Fx) as Fe.
  destruct (proj1 (C142_unchanged_pairs H K A B b oH oG tau D E F G u v mu Ht CF CG LA LB XH XG)) as [M So]; [rewrite Fx; split; reflexivity|].
  rewrite Fe in *. split; [exact So|]. replace (tau * u)%v with (tau * (b - b + u))%v by vring. exact M.
Qed.
Print Assumptions C142_unchanged_states_solve.

(** [C142] With A the identity, u then minimises F + tau/2 |u|^2: neither G nor B nor b has a say. This holds
    for the problems of the argument's documentation as well. *)
Theorem C142_unchanged_states_are_regularised :
  forall (H K : ips) B b oH oG tau sgn D F (u : H) (v : K) mu, 0 < tau -> convex_on D F -> sgn = 1 \/ sgn = -1 ->
  exact_optimizer tau sgn D F (fun x => x) oH ->
  admm_update (fun x => x) B b oH oG (admm_init u v mu) = admm_init u v mu ->
  minimises D (fun z => F z + tau / 2 * nsq z) u.
Proof.
  intros H K B b oH oG tau sgn D F u v mu Ht CF Sg XH Fx.
  assert (L : linear_between (fun x : H => x)) by (split; reflexivity).
  pose proof (C53_fixed_points_satisfy_constraint H K (fun x => x) B b oH oG u v mu Fx) as Fe. cbv beta in Fe.
  assert (Eu : oH u (B v + u - b)%v = u) by (rewrite update_of in Fx; exact (f_equal (@ad_u_new H K) Fx)).
  pose proof (XH u (B v + u - b)%v) as P. rewrite Eu in P. apply (subproblem tau D F (fun x => x) _ u Ht CF L) in P.
  assert (Q : minimises D (fun z => F z + tau / 2 * nsq (z - vzero)%v) u).
  { apply (subproblem tau D F (fun x => x) vzero u Ht CF L). replace (tau * (u - vzero))%v with (tau * (u - sgn * (B v + u - b)))%v; [exact P|].
    rewrite <- Fe. destruct Sg as [-> | ->]; vring. }
  destruct Q as [Du Q]. split; [exact Du|]. intros z Dz. specialize (Q z Dz). cbv beta in Q.
  replace (u - vzero)%v with u in Q by vring. replace (z - vzero)%v with z in Q by vring. exact Q.
Qed.
Print Assumptions C142_unchanged_states_are_regularised.

(** [C142] FastADMM settles at the same points. *)
Theorem C142_fast_unchanged_states_solve :
  forall (H : ips) A B (b : H) oH oG tau D E F G s, 0 < tau -> convex_on D F -> convex_on E G -> linear_between A -> linear_between B ->
  exact_optimizer tau (-1) D F A oH -> exact_optimizer tau (-1) E G B oG ->
  fadmm_update A B b oH oG s = Ok s ->
  constrained_solution D E F G A B b (fa_u_new s) (fa_v_new s) /\ multiplier D E F G A B (fa_u_new s) (fa_v_new s) (tau * fa_u_new s)%v.
Proof.
  intros H A B b oH oG tau D E F G s Ht CF CG LA LB XH XG Fx.
  assert (Z : exists u v mu, admm_update A B b oH oG (admm_init u v mu) = admm_init u v mu /\ fa_u_new s = u /\ fa_v_new s = v).
  { unfold fadmm_update in Fx. destruct (fa_has_cost s); [discriminate|]. injection Fx as Fx.
    set (u' := oH (fa_u_old s) (B (fa_v_hat s) + fa_u_old s - b)%v) in *. set (v' := oG (fa_v_hat s) (A u' + fa_u_old s - b)%v) in *.
    set (m' := (fa_mu_hat s + (A u' + B v' - b))%v) in *.
    assert (Eu : fa_u_old s = u' /\ fa_u_new s = u' /\ fa_v_new s = v' /\ fa_v_hat s = v' /\ fa_mu_hat s = m').
    { destruct (lt_scaled _ _ _) in Fx.
      - assert (Ev : fa_v_old s = v') by (rewrite <- Fx; reflexivity). assert (Em : fa_mu_old s = m') by (rewrite <- Fx; reflexivity).
        rewrite Ev, Em in Fx. clearbody u' v' m'.
        repeat split; rewrite <- Fx; try reflexivity; cbn [fa_v_hat fa_mu_hat]; vring.
      - clearbody u' v' m'. repeat split; rewrite <- Fx; reflexivity. }
    destruct Eu as (E1 & E2 & E3 & E4 & E5). exists u', v', m'. split; [|split; assumption].
    rewrite update_of. cbv zeta.
    assert (Q1 : oH u' (B v' + u' - b)%v = u') by (unfold u' at 3; rewrite E1, E4; reflexivity).
    rewrite Q1. assert (Q2 : oG v' (A u' + u' - b)%v = v') by (unfold v' at 2; rewrite E1, E4; reflexivity).
    rewrite Q2. f_equal. unfold m' at 2. rewrite E5. reflexivity. }
  destruct Z as (u & v & mu & Fa & -> & ->).
  exact (C142_unchanged_states_solve H H A B b oH oG tau D E F G u v mu Ht CF CG LA LB XH XG Fa).
Qed.
Print Assumptions C142_fast_unchanged_states_solve.

Lemma admm_stays {H K : ips} A B b oH oG (s : @admm H K) n : admm_update A B b oH oG s = s -> admm_after A B b oH oG n s = s.
Proof. intros Fx. induction n as [|n IH]; [reflexivity|]. change (admm_update A B b oH oG (admm_after A B b oH oG n s) = s). rewrite IH. exact Fx. Qed.

Lemma half_sq_min c (z : R) : 0 <= (z - c) * (z - c). Proof. apply (Rle_0_sqr (z - c)). Qed.

(** [C142] With optimizers that solve the problems written in the documentation of the argument, ADMM can stay for ever at a
    feasible point that is not the solution: min (u-2)^2/2 + (v-5)^2/2 subject to u + v = 3. *)
Theorem C142_documented_subproblems_refuted :
  exists (A B : R_ips -> R_ips) (b : R_ips) oH oG F G (u v : R_ips),
  linear_between A /\ linear_between B /\ convex_on everywhere F /\ convex_on everywhere G /\
  exact_optimizer 1 1 everywhere F A oH /\ exact_optimizer 1 1 everywhere G B oG /\
  (forall mu n, let s := admm_after A B b oH oG n (admm_init u v mu) in ad_u_new s = u /\ ad_v_new s = v /\ ad_mu_new s = mu) /\
  (A u + B v)%v = b /\ ~ constrained_solution everywhere everywhere F G A B b u v.
Proof.
  exists (fun x => x), (fun x => x), 3, (fun _ y => (2 + y) / 2), (fun _ y => (5 + y) / 2), (fun u => (u - 2) * (u - 2) / 2), (fun u => (u - 5) * (u - 5) / 2), 1, 2.
  assert (Cq : forall c, convex_on (H := R_ips) everywhere (fun u => (u - c) * (u - c) / 2)).
  { intros c x y t _ _ Ht. split; [exact I|]. cbn.
    replace ((1 - t) * ((x - c) * (x - c) / 2) + t * ((y - c) * (y - c) / 2)) with (((1 - t) * x + t * y - c) * ((1 - t) * x + t * y - c) / 2 + t * (1 - t) * ((x - y) * (x - y)) / 2) by field.
    assert (0 <= t * (1 - t) * ((x - y) * (x - y))) by (apply Rmult_le_pos; [apply Rmult_le_pos; lra|apply (Rle_0_sqr (x - y))]). lra. }
  assert (Xq : forall c, exact_optimizer (X := R_ips) (H := R_ips) 1 1 everywhere (fun u => (u - c) * (u - c) / 2) (fun x => x) (fun _ y => (c + y) / 2)).
  { intros c i y. split; [exact I|]. intros z _. cbn.
    match goal with |- ?a <= ?b => replace b with (a + (z - (c + y) / 2) * (z - (c + y) / 2)) by field end. pose proof (half_sq_min ((c + y) / 2) z). lra. }
  split; [split; reflexivity|]. split; [split; reflexivity|]. split; [apply Cq|]. split; [apply Cq|]. split; [apply Xq|]. split; [apply Xq|].
  split; [|split; [cbn; ring|]].
  - intros mu n s.
    assert (Fx : forall mu, admm_update (H := R_ips) (K := R_ips) (fun x => x) (fun x => x) 3 (fun _ y => (2 + y) / 2) (fun _ y => (5 + y) / 2) (admm_init (H := R_ips) (K := R_ips) 1 2 mu) = admm_init (H := R_ips) (K := R_ips) 1 2 mu).
    { intros m. unfold admm_update, admm_init. cbn. f_equal; field. }
    assert (Es : s = admm_init (H := R_ips) (K := R_ips) 1 2 mu).
    { apply admm_stays, Fx. }
    rewrite Es. repeat split.
  - intros [_ M]. specialize (M 0 3 I I). cbn in M. assert (Q : 0 + 3 = 3) by ring. specialize (M Q). lra.
Qed.
Print Assumptions C142_documented_subproblems_refuted.

Lemma geometric_0 (s : nat -> R) l C r : 0 <= r < 1 -> (forall n, Rabs (s n - l) <= C * r ^ n) -> Un_cv s l.
Proof.
  intros Hr B eps He.
  assert (C0 : 0 <= C) by (pose proof (B 0%nat) as Q; rewrite Rmult_1_r in Q; pose proof (Rabs_pos (s 0%nat - l)); lra).
  destruct (pow_lt_1_zero r ltac:(rewrite Rabs_pos_eq by lra; lra) (eps / (C + 1)) ltac:(apply Rdiv_lt_0_compat; lra)) as [N HN].
  exists N. intros n Hn. unfold R_dist. apply Rle_lt_trans with (C * r ^ n); [apply B|].
  specialize (HN n Hn). rewrite Rabs_pos_eq in HN by (apply pow_le; lra).
  assert (P : 0 <= r ^ n) by (apply pow_le; lra).
  apply Rle_lt_trans with ((C + 1) * r ^ n); [nra|]. apply Rlt_le_trans with ((C + 1) * (eps / (C + 1))); [apply Rmult_lt_compat_l; lra|]. right. field. lra.
Qed.

(** [C142] Optimizers that solve the steps of the augmented Lagrangian do not help: for min (u-3)^2/2 subject to u = v the estimates
    converge, from every starting point, but to u = 3, v = 6, which violates the constraint. *)
Theorem C142_limit_is_feasible_refuted :
  exists (A B : R_ips -> R_ips) (b : R_ips) oH oG F G (u v : R_ips),
  linear_between A /\ linear_between B /\ convex_on everywhere F /\ convex_on everywhere G /\
  exact_optimizer 1 (-1) everywhere F A oH /\ exact_optimizer 1 (-1) everywhere G B oG /\
  constrained_solution everywhere everywhere F G A B b 3 3 /\
  (forall u0 v0 mu, let s n := admm_after A B b oH oG n (admm_init u0 v0 mu) in Un_cv (fun n => ad_u_new (s n)) u /\ Un_cv (fun n => ad_v_new (s n)) v) /\
  norm (A u + B v - b)%v = 3.
Proof.
  exists (fun x => x), (fun x => - x), 0, (fun _ y => (3 - y) / 2), (fun _ y => y), (fun u => (u - 3) * (u - 3) / 2), (fun _ => 0), 3, 6.
  split; [split; reflexivity|]. split; [split; intros; cbn; ring|].
  split. { intros x y t _ _ Ht. split; [exact I|]. cbn.
    replace ((1 - t) * ((x - 3) * (x - 3) / 2) + t * ((y - 3) * (y - 3) / 2)) with (((1 - t) * x + t * y - 3) * ((1 - t) * x + t * y - 3) / 2 + t * (1 - t) * ((x - y) * (x - y)) / 2) by field.
    assert (0 <= t * (1 - t) * ((x - y) * (x - y))) by (apply Rmult_le_pos; [apply Rmult_le_pos; lra|apply (Rle_0_sqr (x - y))]). lra. }
  split. { intros x y t _ _ Ht. split; [exact I|]. lra. }
  split. { intros i y. split; [exact I|]. intros z _. cbn. match goal with |- ?a <= ?b => replace b with (a + (z - (3 - y) / 2) * (z - (3 - y) / 2)) by field end. pose proof (half_sq_min ((3 - y) / 2) z). lra. }
  split. { intros i y. split; [exact I|]. intros z _. cbn. match goal with |- ?a <= ?b => replace b with (a + (z - y) * (z - y) / 2) by field end. pose proof (half_sq_min y z). lra. }
  split. { split; [split; [exact I|split; [exact I|cbn; ring]]|]. intros z w _ _ _. pose proof (half_sq_min 3 z). cbn. lra. }
  split; [|unfold norm; cbn; replace ((3 + - (6) + -1 * 0) * (3 + - (6) + -1 * 0)) with (3 * 3) by ring; apply sqrt_square; lra].
  intros u0 v0 mu s.
  set (x n := ad_u_new (s n) - 3). set (y n := ad_v_new (s n) - ad_u_new (s n) - 3).
  assert (St : forall n, ad_u_old (s n) = ad_u_new (s n) /\ ad_v_old (s n) = ad_v_new (s n)) by (intros [|n]; split; reflexivity).
  assert (Nx : forall n, x (S n) = y n / 2 /\ y (S n) = x n).
  { intros n. unfold x, y. destruct (St n) as [E1 E2].
    assert (U : ad_u_new (s (S n)) = (3 - (- ad_v_old (s n) + ad_u_old (s n) + -1 * 0)) / 2) by reflexivity.
    assert (V : ad_v_new (s (S n)) = ad_u_new (s (S n)) + ad_u_old (s n) + -1 * 0) by reflexivity.
    rewrite V, U, E1, E2. cbn. split; field. }
  set (C := Rabs (x 0%nat) + Rabs (y 0%nat)).
  assert (Bd : forall n, Rabs (x n) <= C * (3 / 4) ^ n /\ Rabs (y n) <= 4 / 3 * C * (3 / 4) ^ n).
  { induction n as [|n [I1 I2]].
    - unfold C. pose proof (Rabs_pos (x 0%nat)). pose proof (Rabs_pos (y 0%nat)). cbn [pow]. lra.
    - destruct (Nx n) as [-> ->]. cbn [pow]. unfold Rdiv at 1. rewrite Rabs_mult, (Rabs_pos_eq (/ 2)) by lra.
      assert (0 <= C * (3 / 4) ^ n) by (pose proof (Rabs_pos (x n)); lra). lra. }
  split.
  - apply (geometric_0 _ _ C (3 / 4) ltac:(lra)). intros n. apply (Bd n).
  - apply (geometric_0 _ _ (7 / 3 * C) (3 / 4) ltac:(lra)). intros n. destruct (Bd n) as [B1 B2].
    replace (ad_v_new (s n) - 6) with (x n + y n) by (unfold x, y; ring). pose proof (Rabs_triang (x n) (y n)). lra.
Qed.
Print Assumptions C142_limit_is_feasible_refuted.

(** The problem min u^2/40 + g v^2/2 subject to u = v, g = (15 sqrt 5 - 32)/62; its solution is 0. *)
Definition fast_p : R := 20 / 21.
Definition fast_q : R := 62 / 15 * (sqrt 5 - 2).
Definition fast_g : R := / fast_q - 1.

Lemma sqrt5 : sqrt 5 * sqrt 5 = 5 /\ 2236 / 1000 < sqrt 5 < 2237 / 1000.
Proof.
  assert (E : sqrt 5 * sqrt 5 = 5) by (apply sqrt_sqrt; lra). split; [exact E|]. pose proof (sqrt_pos 5) as P.
  split; apply Rnot_le_lt; intros Q; nra.
Qed.
Lemma fast_q_bounds : 97 / 100 < fast_q < 98 / 100.
Proof. unfold fast_q. pose proof sqrt5. lra. Qed.
Lemma fast_g_pos : 0 < fast_g.
Proof. unfold fast_g. pose proof fast_q_bounds. assert (1 < / fast_q) by (rewrite <- Rinv_1 at 1; apply Rinv_lt_contravar; lra). lra. Qed.

Lemma quad_convex c : 0 <= c -> convex_on (H := R_ips) everywhere (fun u => c * (u * u) / 2).
Proof.
  intros Hc x y t _ _ Ht. split; [exact I|]. cbn.
  replace ((1 - t) * (c * (x * x) / 2) + t * (c * (y * y) / 2)) with (c * (((1 - t) * x + t * y) * ((1 - t) * x + t * y)) / 2 + c * (t * (1 - t) * ((x - y) * (x - y))) / 2) by field.
  assert (0 <= c * (t * (1 - t) * ((x - y) * (x - y)))) by (apply Rmult_le_pos; [exact Hc|]; apply Rmult_le_pos; [apply Rmult_le_pos; lra|apply (Rle_0_sqr (x - y))]). lra.
Qed.

(** [C142] On this strongly convex problem, with exact optimizers and from the same point, ADMM converges to the solution and
    FastADMM with its default settings diverges. *)
Theorem C142_fast_admm_converges_refuted :
  exists (A B : R_ips -> R_ips) (b : R_ips) oH oG F G (u0 : R_ips),
  linear_between A /\ linear_between B /\ convex_on everywhere F /\ convex_on everywhere G /\
  exact_optimizer 1 (-1) everywhere F A oH /\ exact_optimizer 1 (-1) everywhere G B oG /\
  constrained_solution everywhere everywhere F G A B b 0 0 /\
  (forall mu, let s n := admm_after A B b oH oG n (admm_init u0 b mu) in Un_cv (fun n => ad_u_new (s n)) 0 /\ Un_cv (fun n => ad_v_new (s n)) 0) /\
  (forall v0 mu tau metric period M, exists n u v,
     fadmm_iterate A B b oH oG metric false period n (fadmm_init b u0 v0 mu false 1 (999 / 1000) tau) = Ok (u, v) /\ M < Rabs u + Rabs v).
Proof.
  pose proof fast_q_bounds as Hq. pose proof fast_g_pos as Hg.
  exists (fun x => x), (fun x => - x), 0, (fun _ y => - (fast_p * y)), (fun _ y => fast_q * y), (fun u => / 20 * (u * u) / 2), (fun v => fast_g * (v * v) / 2), 15.
  split; [split; reflexivity|]. split; [split; intros; cbn; ring|].
  split; [apply quad_convex; lra|]. split; [apply quad_convex; lra|].
  split. { intros i y. split; [exact I|]. intros z _. cbn. unfold fast_p.
    match goal with |- ?a <= ?b => replace b with (a + 21 / 40 * ((z - - (20 / 21 * y)) * (z - - (20 / 21 * y)))) by field end.
    pose proof (half_sq_min (- (20 / 21 * y)) z). lra. }
  split. { intros i y. split; [exact I|]. intros z _. cbn. unfold fast_g.
    match goal with |- ?a <= ?b => replace b with (a + / fast_q / 2 * ((z - fast_q * y) * (z - fast_q * y))) by (field; lra) end.
    pose proof (half_sq_min (fast_q * y) z) as P. assert (0 < / fast_q) by (apply Rinv_0_lt_compat; lra).
    assert (0 <= / fast_q / 2 * ((z - fast_q * y) * (z - fast_q * y))) by (apply Rmult_le_pos; lra). lra. }
  split. { split; [split; [exact I|split; [exact I|cbn; ring]]|]. intros z w _ _ _. pose proof (Rle_0_sqr z) as P1. pose proof (Rle_0_sqr w) as P2. unfold Rsqr in P1, P2.
    cbv beta. assert (0 <= fast_g * (w * w)) by (apply Rmult_le_pos; lra). lra. }
  split.
  - intros mu s. set (x n := (ad_u_new (s n) : R)). set (d n := (ad_v_new (s n) : R) - fast_q * ad_u_new (s n)).
    assert (St : forall n, ad_u_old (s n) = ad_u_new (s n) /\ ad_v_old (s n) = ad_v_new (s n)) by (intros [|n]; split; reflexivity).
    assert (Nx : forall n, x (S n) = fast_p * (d n - (1 - fast_q) * x n) /\ d (S n) = fast_q * x n).
    { intros n. unfold x, d. destruct (St n) as [E1 E2].
      assert (U : ad_u_new (s (S n)) = - (fast_p * (- ad_v_old (s n) + ad_u_old (s n) + -1 * 0))) by reflexivity.
      assert (V : ad_v_new (s (S n)) = fast_q * (ad_u_new (s (S n)) + ad_u_old (s n) + -1 * 0)) by reflexivity.
      rewrite V, U, E1, E2. cbn. split; ring. }
    assert (Bd : forall n, Rabs (x n) <= 15 * (49 / 50) ^ n /\ Rabs (d n) <= 50 / 49 * 15 * fast_q * (49 / 50) ^ n).
    { induction n as [|n [I1 I2]].
      - unfold x, d. cbn. rewrite (Rabs_pos_eq 15) by lra. replace (0 - fast_q * 15) with (- (fast_q * 15)) by ring. rewrite Rabs_Ropp, Rabs_pos_eq by lra. lra.
      - destruct (Nx n) as [-> ->]. cbn [pow]. set (r := (49 / 50) ^ n) in *.
        assert (P : 0 <= r) by (apply pow_le; lra).
        rewrite !Rabs_mult, (Rabs_pos_eq fast_q), (Rabs_pos_eq fast_p) by (unfold fast_p; lra).
        split; [|replace (50 / 49 * 15 * fast_q * (49 / 50 * r)) with (fast_q * (15 * r)) by field; apply Rmult_le_compat_l; lra].
        assert (T : Rabs (d n - (1 - fast_q) * x n) <= Rabs (d n) + (1 - fast_q) * Rabs (x n)).
        { unfold Rminus at 1. eapply Rle_trans; [apply Rabs_triang|]. rewrite Rabs_Ropp, Rabs_mult, (Rabs_pos_eq (1 - fast_q)) by lra. lra. }
        assert (T2 : (1 - fast_q) * Rabs (x n) <= (1 - fast_q) * (15 * r)) by (apply Rmult_le_compat_l; lra).
        apply Rle_trans with (fast_p * (50 / 49 * 15 * r)).
        + apply Rmult_le_compat_l; [unfold fast_p; lra|]. eapply Rle_trans; [exact T|]. eapply Rle_trans; [apply Rplus_le_compat; [exact I2|exact T2]|]. nra.
        + unfold fast_p. lra. }
    assert (Cx : forall n, Rabs (x n) <= 40 * (49 / 50) ^ n) by (intros n; destruct (Bd n); assert (0 <= (49 / 50) ^ n) by (apply pow_le; lra); lra).
    split; [apply (geometric_0 _ _ 40 (49 / 50) ltac:(lra)); intros n; rewrite Rminus_0_r; apply Cx|].
    apply (geometric_0 _ _ 40 (49 / 50) ltac:(lra)). intros n. destruct (Bd n) as [B1 B2]. assert (P : 0 <= (49 / 50) ^ n) by (apply pow_le; lra).
    replace (ad_v_new (s n) - 0) with (d n + fast_q * x n) by (unfold d, x; ring). eapply Rle_trans; [apply Rabs_triang|].
    rewrite Rabs_mult, (Rabs_pos_eq fast_q) by lra. set (r := (49 / 50) ^ n) in *. pose proof (Rabs_pos (x n)). nra.
  - intros v0 mu tau metric period M.
    destruct (C54_run R_ips (fun x => x) (fun x => - x) 0 (fun _ y => - (fast_p * y)) (fun _ y => fast_q * y) 15 v0 mu 1 (999 / 1000) tau ltac:(lra))
      as (u & v & m & vh & mh & (U0 & V0 & _ & H0 & _) & Nx & Run).
    set (l n := (u n : R) / 15 - sqrt 5 * v n + 2 * vh n).
    assert (L : forall n, l n = 2 ^ n).
    { induction n as [|n IH].
      - unfold l. rewrite U0, V0, H0. cbn. field.
      - cbn [pow]. rewrite <- IH. unfold l. destruct (Nx n) as (Eu & Ev & _ & Eh & _).
        replace (sqrt (1 + 4 * 1 ^ 2) / 1) with (sqrt 5) in Eh by (replace (1 + 4 * 1 ^ 2) with 5 by ring; field).
        rewrite Eh, Ev, Eu. cbn. unfold fast_p, fast_q. destruct sqrt5 as [S5 _]. set (t := sqrt 5) in *. 
        match goal with |- ?a = ?b => assert (Z : a - b = (t * t - 5) * (62 / 15 * (20 / 21 * (vh n : R) + u n / 21))) by field end. rewrite S5 in Z. lra. }
    assert (Ex : exists n, 100 * M < 2 ^ n).
    { destruct (Pow_x_infinity 2 ltac:(rewrite Rabs_pos_eq; lra) (100 * Rabs M + 1)) as [N HN]. exists N. specialize (HN N (Nat.le_refl N)).
      rewrite Rabs_pos_eq in HN by (apply pow_le; lra). pose proof (Rle_abs M). lra. }
    destruct Ex as [n Hn].
    assert (Bad : ~ (Rabs (u (S n)) + Rabs (v (S n)) <= M /\ Rabs (u n) + Rabs (v n) <= M)).
    { intros [B1 B2]. pose proof (L (S n)) as Ln. unfold l in Ln. destruct (Nx n) as (_ & _ & _ & Eh & _).
      replace (sqrt (1 + 4 * 1 ^ 2) / 1) with (sqrt 5) in Eh by (replace (1 + 4 * 1 ^ 2) with 5 by ring; field).
      rewrite Eh in Ln. cbn in Ln. destruct sqrt5 as [_ S5]. 
      pose proof (Rle_abs (u (S n))). pose proof (Rabs_pos (u (S n))). pose proof (Rabs_pos (u n)).
      assert (Q1 : Rabs (v (S n)) <= M) by lra. assert (Q2 : Rabs (v n) <= M) by lra.
      pose proof (Rle_abs (v (S n))). pose proof (Rle_abs (- v (S n))) as Q3. rewrite Rabs_Ropp in Q3.
      pose proof (Rle_abs (v n)). pose proof (Rle_abs (- v n)) as Q4. rewrite Rabs_Ropp in Q4.
      set (t := sqrt 5) in *. cbn [pow] in Hn. set (P := 2 ^ n) in *.
      assert (M0 : 0 <= M) by (pose proof (Rabs_pos (v n)); lra).
      assert (K1 : t * v (S n) <= 3 * M) by nra. assert (K2 : - (t * v n) <= 3 * M) by nra. lra. }
    destruct (Rlt_dec M (Rabs (u (S n)) + Rabs (v (S n)))) as [Y|N1]; [exists (S n), (u (S n)), (v (S n)); split; [apply Run|exact Y]|].
    destruct (Rlt_dec M (Rabs (u n) + Rabs (v n))) as [Y|N2]; [exists n, (u n), (v n); split; [apply Run|exact Y]|]. exfalso. apply Bad. split; apply Rnot_lt_le; assumption.
Qed.
Print Assumptions C142_fast_admm_converges_refuted.

(** min (u-2)^2/2 + (v-3)^2/2 subject to u + v = 3 is one of the problems whose multiplier, 1, equals u: ADMM stays at the
    solution (1, 2), and moves u from (0, 0) to 5/2. *)
Example C142_example :
  let up := admm_update (H := R_ips) (K := R_ips) (fun x => x) (fun x => x) 3 (fun _ y => (2 - y) / 2) (fun _ y => (3 - y) / 2) in
  up (admm_init (H := R_ips) (K := R_ips) 1 2 7) = admm_init (H := R_ips) (K := R_ips) 1 2 7 /\
  ad_u_new (up (admm_init (H := R_ips) (K := R_ips) 0 0 7)) = 5 / 2 /\
  multiplier (X := R_ips) (Y := R_ips) (H := R_ips) everywhere everywhere (fun u => (u - 2) * (u - 2) / 2) (fun v => (v - 3) * (v - 3) / 2) (fun x => x) (fun x => x) 1 2 1.
Proof.
  split; [|split].
  - unfold admm_update, admm_init. cbn. f_equal; field.
  - cbn. field.
  - split; split; try exact I; intros z _; cbn.
    + match goal with |- ?a <= ?b => replace b with (a + (z - 1) * (z - 1) / 2) by field end. pose proof (half_sq_min 1 z). lra.
    + match goal with |- ?a <= ?b => replace b with (a + (z - 2) * (z - 2) / 2) by field end. pose proof (half_sq_min 2 z). lra.
Qed.
