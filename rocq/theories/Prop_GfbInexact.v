(** Theorems about GenForwardBackward when only a minimiser is known to exist, and about the operators
    a user passes to it, C137. *)
From Coq Require Import String.
From Verif Require Import NPReal Py IPS Model_SetUp Spec_Opt Proof_Smooth Spec_Lim Proof_Lim Proof_Iter Proof_Inexact
  Model_FB Proof_FB2 Proof_Iter3 Prop_Lim Model_Linear Proof_Linear Model_Signal Model_Prox Spec_Prox Proof_Prox
  Proof_Dual Spec_Lasso Prop_Inexact Spec_Dual Prop_Dual Spec_Gfb Proof_GfbInexact.
From Coq Require Import List Lia.
Import ListNotations.
Local Open Scope string_scope.
Local Open Scope R_scope.

Lemma split_proper {H : ips} l1 (t : term H) l2 : Forall proper_term (l1 ++ t :: l2) -> proper_term t /\ Forall proper_term (l1 ++ l2).
Proof. intros P. apply Forall_app in P. destruct P as [P1 P2]. inversion P2; subst. split; [assumption|]. apply Forall_app. auto. Qed.

(** If all penalties but one are finite everywhere with Lipschitz values, every minimiser of
    f + g_1 + ... + g_n satisfies the optimality condition. *)
Theorem C137_minimisers_are_optimal :
  forall (H : ips) (ts : list (term H)) (f : H -> R) grad M x,
  finite_dimensional H -> 0 <= M -> smooth_convex M f grad -> Forall proper_term ts -> all_but_one finite_term ts ->
  minimises (common_domain ts) (fun z => f z + sum_of_terms ts z) x -> optimal_point ts grad x.
Proof.
  intros H ts f grad M x FD HM Sf P (l1 & t & l2 & -> & F1 & F2) [Dx Mx]. destruct (split_proper _ _ _ P) as [P0 Pr].
  apply move_optimal. apply (first_optimal f grad M FD HM Sf t (l1 ++ l2) x P0 Pr); [apply Forall_app; auto|].
  split; [apply move_domain, Dx|]. intros z Dz. rewrite <- !move_sum. apply Mx, move_domain, Dz.
Qed.
Print Assumptions C137_minimisers_are_optimal.

(** If moreover the objective is coercive there is one. *)
Theorem C137_solution_exists_if_coercive :
  forall (H : ips) (ts : list (term H)) (f : H -> R) grad M a,
  finite_dimensional H -> 0 <= M -> smooth_convex M f grad -> Forall proper_term ts -> all_but_one finite_term ts ->
  common_domain ts a -> coercive_on (common_domain ts) (fun z => f z + sum_of_terms ts z) ->
  exists x, optimal_point ts grad x.
Proof.
  intros H ts f grad M a FD HM Sf P (l1 & t & l2 & -> & F1 & F2) Da Co. destruct (split_proper _ _ _ P) as [P0 Pr].
  destruct (first_exists f grad M FD HM Sf t (l1 ++ l2) a P0 Pr) as (x & Op).
  - apply Forall_app; auto.
  - apply move_domain in Da. inversion Da; assumption.
  - intros b. destruct (Co b) as (r & Q). exists r. intros x Dx Hx. apply Q; [apply move_domain, Dx|]. rewrite move_sum. exact Hx.
  - exists x. apply move_optimal, Op.
Qed.
Print Assumptions C137_solution_exists_if_coercive.

(** So GenForwardBackward converges to a minimiser as soon as there is one. *)
Theorem C137_converges_to_a_minimiser :
  forall (H : ips) (ts : list (term H)) (f : H -> R) grad M (x0 : H) gamma gp lam w s0,
  finite_dimensional H -> 0 <= M -> smooth_convex M f grad -> Forall proper_term ts -> all_but_one finite_term ts ->
  0 < gamma -> 0 < lam -> lam + gamma * M / 2 < 2 ->
  (exists x, minimises (common_domain ts) (fun z => f z + sum_of_terms ts z) x) ->
  gfb_init (map t_prox ts) x0 (Some gamma) gp lam None None w = Ok s0 -> Forall (fun w => 0 < w) (g_weights s0) ->
  exists xs, minimises (common_domain ts) (fun z => f z + sum_of_terms ts z) xs /\
    converges (fun k => g_x_old (gfb_after grad (map t_prox ts) k s0)) xs.
Proof.
  intros H ts f grad M x0 gamma gp lam w s0 FD HM Sf P F Hg Hl Hs (x & Mx) E W.
  apply (C121_iterates_converge H ts f grad M x0 gamma gp lam w s0); try assumption. exists x. eapply C137_minimisers_are_optimal; eassumption.
Qed.
Print Assumptions C137_converges_to_a_minimiser.

(** Operators that are off by at most del (proximity operators) and gam (gradient): after k updates the
    estimate is off by at most k lambda (del + gamma gam). No solution is needed. *)
Theorem C137_inexact_operators :
  forall (H : ips) (ts : list (term H)) (f : H -> R) grad M grad' proxs (x0 : H) gamma gp lam w s0 del gam,
  0 <= M -> smooth_convex M f grad -> Forall proper_term ts ->
  0 < gamma -> 0 <= lam -> lam + gamma * M / 2 <= 2 ->
  (forall u, norm (grad' u - grad u)%v <= gam) ->
  Forall2 (fun t (p : H -> R -> H) => forall u c, 0 < c -> norm (p u c - t_prox t u c)%v <= del) ts proxs ->
  gfb_init proxs x0 (Some gamma) gp lam None None w = Ok s0 -> Forall (fun w => 0 < w) (g_weights s0) ->
  gfb_init (map t_prox ts) x0 (Some gamma) gp lam None None w = Ok s0 /\
  forall k, norm (g_x_old (gfb_after grad' proxs k s0) - g_x_old (gfb_after grad (map t_prox ts) k s0))%v <= INR k * (lam * (del + gamma * gam)).
Proof.
  intros H ts f grad M grad' proxs x0 gamma gp lam w s0 del gam HM Sf P Hg Hl Hs Cg Cp E W.
  assert (Lp : length proxs = length ts) by (clear - Cp; induction Cp; cbn; congruence).
  assert (E' : gfb_init (map t_prox ts) x0 (Some gamma) gp lam None None w = Ok s0) by (unfold gfb_init in *; rewrite map_length, <- Lp; exact E).
  split; [exact E'|].
  destruct (gfb_facts grad' proxs x0 gamma gp lam w s0 Hg E) as (Lw & Sw & _ & Q').
  destruct (gfb_facts grad (map t_prox ts) x0 gamma gp lam w s0 Hg E') as (_ & _ & _ & Q). rewrite Lp in Lw.
  assert (Hd : 0 <= del + gamma * gam).
  { destruct Cp as [|t p ts' ps C1 C2]; [destruct (g_weights s0); [cbn in Sw; lra|discriminate]|].
    specialize (C1 x0 1 ltac:(lra)). specialize (Cg x0). pose proof (norm_pos (p x0 1 - t_prox t x0 1)%v). pose proof (norm_pos (grad' x0 - grad x0)%v). nra. }
  intros k. destruct (Q' k) as (Ex' & _). destruct (Q k) as (Ex & _). rewrite Ex, Ex'.
  apply (runs_close gamma Hg f grad M lam ts (g_weights s0) HM Sf P Lw W Sw Hl Hs grad' proxs gam del Cg Cp
    (fun k => g_z (gfb_after grad (map t_prox ts) k s0)) (fun k => g_z (gfb_after grad' proxs k s0))).
  - destruct (Q 0%nat) as (_ & L & _). rewrite map_length in L. exact L.
  - reflexivity.
  - intros j. destruct (Q j) as (_ & L & S). rewrite map_length in L. rewrite S. apply next'_exact; assumption.
  - intros j. apply Q'.
  - exact Hd.
Qed.
Print Assumptions C137_inexact_operators.

(** If the auxiliary points z converge, the estimates converge to a point that satisfies the
    optimality condition. *)
Theorem C137_limits_are_optimal :
  forall (H : ips) (ts : list (term H)) (f : H -> R) grad M (x0 : H) gamma gp lam w s0 zs,
  smooth_convex M f grad -> Forall proper_term ts -> 0 < gamma -> lam <> 0 ->
  gfb_init (map t_prox ts) x0 (Some gamma) gp lam None None w = Ok s0 -> Forall (fun w => 0 < w) (g_weights s0) ->
  length zs = length ts ->
  (forall i, (i < length ts)%nat -> converges (fun k => nth i (g_z (gfb_after grad (map t_prox ts) k s0)) vzero) (nth i zs vzero)) ->
  optimal_point ts grad (weighted_sum (g_weights s0) zs).
Proof.
  intros H ts f grad M x0 gamma gp lam w s0 zs Sf P Hg Hl E W Ls C.
  destruct (gfb_facts grad (map t_prox ts) x0 gamma gp lam w s0 Hg E) as (Lw & Sw & _ & Q). rewrite map_length in Lw.
  apply (fixed_optimal gamma grad ts (g_weights s0) zs Hg P Lw W Sw).
  apply (points_limit gamma f grad M lam ts (g_weights s0) (fun k => g_z (gfb_after grad (map t_prox ts) k s0)) zs); try assumption.
  - intros k. destruct (Q k) as (_ & L & _). rewrite map_length in L. exact L.
  - intros k. destruct (Q k) as (_ & L & S). rewrite map_length in L. rewrite S. apply next'_exact; assumption.
Qed.
Print Assumptions C137_limits_are_optimal.

(** With two constraint sets a minimiser is not enough: for the disc and the half-plane that touch in
    one point, that point is the minimiser of x_1, the optimality condition has no solution and,
    whatever the start and the parameters, the points z do not converge. *)
Theorem C137_two_constraints_refuted :
  exists (H : ips) (ts : list (term H)) (f : H -> R) grad xs,
  finite_dimensional H /\ smooth_convex 0 f grad /\ length ts = 2%nat /\ Forall proper_term ts /\
  minimises (common_domain ts) (fun z => f z + sum_of_terms ts z) xs /\
  (forall x, ~ optimal_point ts grad x) /\
  (forall x0 gamma gp lam w s0, 0 < gamma -> lam <> 0 -> gfb_init (map t_prox ts) x0 (Some gamma) gp lam None None w = Ok s0 ->
     Forall (fun w => 0 < w) (g_weights s0) ->
     ~ exists z1 z2, converges (fun k => nth 0 (g_z (gfb_after grad (map t_prox ts) k s0)) vzero) z1 /\
                     converges (fun k => nth 1 (g_z (gfb_after grad (map t_prox ts) k s0)) vzero) z2).
Proof.
  set (ts := [mk_term disc (fun _ => 0) disc_proj; mk_term below (fun _ => 0) (below_proj tt)]).
  exists plane, ts, (fun x => fst x), (fun _ => (1, 0)), (0, 0).
  split; [apply fd_prod; apply fd_R|]. split; [exact slope_smooth|]. split; [reflexivity|].
  assert (P : Forall proper_term ts).
  { constructor; [split; [exact disc_convex|exact disc_prox]|]. constructor; [split; [exact below_convex|exact below_prox]|constructor]. }
  split; [exact P|].
  assert (Touch : forall x, disc x -> below x -> x = (0, 0)).
  { intros [a b] Dx Ex. unfold disc, below, nsq in *. cbn in *. assert (b = 0) by nra. subst b. assert (a = 0) by nra. subst a. reflexivity. }
  split.
  { split; [constructor; [unfold disc, nsq; cbn; lra|constructor; [unfold below; cbn; lra|constructor]]|].
    intros z Dz. inversion Dz as [|? ? D1 Dz']; subst. inversion Dz' as [|? ? D2 _]; subst. rewrite (Touch z D1 D2). cbn. lra. }
  assert (No : forall x, ~ optimal_point ts (fun _ => (1, 0) : plane) x).
  { intros x (qs & Fq & Eq). inversion Fq as [|? p ? qs1 [Dx SX] Fq1]; subst. inversion Fq1 as [|? q ? qs2 [Ex SY] Fq2]; subst. inversion Fq2; subst. cbn [t_dom t_val] in *.
    assert (E0 := Touch x Dx Ex). subst x. destruct p as [p1 p2]. destruct q as [y1 y2]. cbn in Eq. injection Eq as Eq1 Eq2.
    cbn in SX, SY.
    assert (Y1 : y1 = 0).
    { pose proof (SY (1, 0) ltac:(unfold below; cbn; lra)) as Q1. pose proof (SY (-1, 0) ltac:(unfold below; cbn; lra)) as Q2. cbn in Q1, Q2. lra. }
    assert (p1 = -1) by lra. assert (p2 = - y2) by lra. subst y1 p1 p2.
    assert (Near : forall t, 0 < t < 1 -> - t + t * t * y2 >= 0).
    { intros t Hq. assert (Dt : disc (- t, t * t)).
      { unfold disc, nsq. cbn. assert (0 < t * t < 1) by nra. nra. } pose proof (SX _ Dt) as Q. cbn in Q. lra. }
    destruct (Rle_lt_dec y2 1) as [L|L].
    - specialize (Near (1 / 2) ltac:(lra)). lra.
    - assert (Q : 0 < / (2 * y2) < 1).
      { split; [apply Rinv_0_lt_compat; lra|]. rewrite <- Rinv_1. apply Rinv_lt_contravar; lra. }
      specialize (Near _ Q). replace (- / (2 * y2) + / (2 * y2) * / (2 * y2) * y2) with (- / (4 * y2)) in Near by (field; lra).
      assert (0 < / (4 * y2)) by (apply Rinv_0_lt_compat; lra). lra. }
  split; [exact No|].
  intros x0 gamma gp lam w s0 Hg Hl E W (z1 & z2 & C1 & C2). apply (No (weighted_sum (g_weights s0) [z1; z2])).
  apply (C137_limits_are_optimal plane ts (fun x => fst x) (fun _ => (1, 0)) 0 x0 gamma gp lam w s0 [z1; z2]); try assumption; [exact slope_smooth|reflexivity|].
  intros [|[|i]] Hi; [exact C1|exact C2|cbn in Hi; lia].
Qed.
Print Assumptions C137_two_constraints_refuted.

(** * Positivity and SparseThreshold *)

Lemma lasso_terms {n} {K : ips} (A : Rn n -> K) y ws Lw x :
  grad_basic_cost A y x + sum_of_terms [mk_term nonneg_vec (fun _ => 0) (fun x _ => pos_op n x); mk_term everywhere (l1 n ws) (shrink_op n ws Lw)] x
  = lasso A y ws x.
Proof. unfold sum_of_terms, lasso, grad_basic_cost, l1. cbn [map rsum fold_right t_val]. rewrite <- (norm_sq (A x - y)%v), (norm_sub_sym y (A x)). field. Qed.

(** With positive weights the non-negative LASSO has a solution, whatever A. *)
Theorem C137_nonneg_lasso_has_a_solution :
  forall n (K : ips) (A : Rn n -> K) A' y ws M, adjoint A A' -> bounded_sq M A -> 0 <= M -> length ws = n -> Forall (fun w => 0 < w) ws ->
  exists xs, minimises nonneg_vec (lasso A y ws) xs.
Proof.
  intros n K A A' y ws M AA Hb HM Lw Pw.
  apply (C135_recovery_problem_has_a_solution n n K A A' y (fun x => x) (fun x => x) ws M 1 1); try assumption; try lra.
  - intros u v. reflexivity.
  - intros u. lra.
  - intros x. pose proof (nsq_pos (A x)). lra.
Qed.
Print Assumptions C137_nonneg_lasso_has_a_solution.

(** GenForwardBackward with GradBasic and the proximity operators Positivity and SparseThreshold as
    coded (the rounding inside thresh included): from any start the estimates come within any e > 0 of
    a minimiser of 1/2 |A x - y|^2 + sum w_i |x_i| over x >= 0, up to lambda sqrt(n) 1e-15 per update;
    this is what iterate returns as x_final. *)
Theorem C137_nonneg_lasso_run :
  forall n (K : ips) (A : Rn n -> K) A' y weights ws M (positivity sparse : Rn n -> R -> Rn n) (x0 : Rn n) gamma gp lam w s0,
  adjoint A A' -> bounded_sq M A -> 0 <= M -> per_element weights n ws -> nonneg ws ->
  (forall z c, Model_Signal.positive (PosArr (NumArr (proj1_sig z))) = Ok (RArr (NumArr (proj1_sig (positivity z c))))) ->
  (forall z c, sparse_op weights "soft" (proj1_sig z) c = Ok (proj1_sig (sparse z c))) ->
  0 < gamma -> 0 < lam -> lam + gamma * M / 2 < 2 ->
  (exists z, minimises nonneg_vec (lasso A y ws) z) ->
  gfb_init [positivity; sparse] x0 (Some gamma) gp lam None None w = Ok s0 -> Forall (fun w => 0 < w) (g_weights s0) ->
  exists xs, minimises nonneg_vec (lasso A y ws) xs /\
    forall e, 0 < e -> exists N, forall k metric period, (N <= k)%nat ->
      exists x, gfb_iterate (grad_basic A A' y) [positivity; sparse] None metric false period k s0 = Ok x /\
        norm (x - xs)%v < e + INR k * (lam * (sqrt (INR n) * / 10 ^ 15)).
Proof.
  intros n K A A' y weights ws M positivity sparse x0 gamma gp lam w s0 AA HbA HM Pe Nw Hpos Hsp Hg Hl Hs (z & Dz & Mz) E W.
  assert (Lw : length ws = n) by (eapply per_element_length; exact Pe). pose proof (ls_smooth A A' y M AA HM HbA) as Sm.
  set (ts := [mk_term nonneg_vec (fun _ : Rn n => 0) (fun x _ => pos_op n x); mk_term everywhere (l1 n ws) (shrink_op n ws Lw)]).
  assert (P : Forall proper_term ts).
  { constructor; [split; [apply nonneg_vec_convex|apply pos_op_prox]|]. constructor; [split; [apply l1_convex|apply l1_prox]; assumption|constructor]. }
  assert (F : all_but_one finite_term ts).
  { exists [], (mk_term nonneg_vec (fun _ : Rn n => 0) (fun x _ => pos_op n x)), [mk_term everywhere (l1 n ws) (shrink_op n ws Lw)].
    split; [reflexivity|]. split; constructor; [|constructor]. split; [intros x; exact I|]. exists (rsum ws). split; [apply rsum_nonneg, Nw|apply l1_lipschitz; assumption]. }
  assert (Dm : forall x, common_domain ts x <-> nonneg_vec x).
  { intros x. split; [intros Q; inversion Q; assumption|]. intros Q. constructor; [exact Q|]. constructor; [exact I|constructor]. }
  destruct (C137_inexact_operators (Rn n) ts (grad_basic_cost A y) (grad_basic A A' y) M (grad_basic A A' y) [positivity; sparse] x0 gamma gp lam w s0 (sqrt (INR n) * / 10 ^ 15) 0
    HM Sm P Hg ltac:(lra) ltac:(lra)) as (E' & Cl); try assumption.
  - intros u. rewrite vsub_self, norm_0. lra.
  - assert (P0 : 0 <= sqrt (INR n) * / 10 ^ 15) by (apply Rmult_le_pos; [apply sqrt_pos|left; apply Rinv_0_lt_compat, pow10_pos]).
    constructor; [|constructor; [|constructor]]; intros u c Hc; cbn [t_prox].
    + replace (positivity u c) with (pos_op n u); [rewrite vsub_self, norm_0; exact P0|]. apply Rvec_eq. specialize (Hpos u c). cbn in Hpos. injection Hpos as Hpos. exact Hpos.
    + apply (coded_close n weights ws sparse Lw Pe Nw Hsp). exact Hc.
  - destruct (C137_converges_to_a_minimiser (Rn n) ts (grad_basic_cost A y) (grad_basic A A' y) M x0 gamma gp lam w s0 (fd_Rn n) HM Sm P F Hg Hl Hs) as (xs & [Dx Mx] & C); try assumption.
    + exists z. split; [apply Dm, Dz|]. intros u Du. unfold ts. rewrite !lasso_terms. apply Mz, Dm, Du.
    + exists xs. split; [split; [apply Dm, Dx|]; intros u Du; specialize (Mx u (proj2 (Dm u) Du)); unfold ts in Mx; rewrite !lasso_terms in Mx; exact Mx|].
      intros e He. destruct (C e He) as (N & Q). exists (S N). intros k metric period Hk. eexists. split; [apply C121_run_returns_estimate; lia|].
      specialize (Q k ltac:(lia)). specialize (Cl k). rewrite Rmult_0_r, Rplus_0_r in Cl.
      set (x' := g_x_old (gfb_after (grad_basic A A' y) [positivity; sparse] k s0)) in *.
      set (x1 := g_x_old (gfb_after (grad_basic A A' y) (map t_prox ts) k s0)) in *.
      replace (x' - xs)%v with ((x' - x1) + (x1 - xs))%v by vring. apply Rle_lt_trans with (1 := norm_triangle _ _). lra.
Qed.
Print Assumptions C137_nonneg_lasso_run.

(** Two samples, y = (3, -2), weights 1, default weights of the two operators, gamma = lambda = 1: the
    problem is solved only by (2, 0), and the estimates of every run end up within 1/1000 of it, up to
    2e-15 per update. *)
Example C137_example : forall (positivity sparse : Rn 2 -> R -> Rn 2) (x0 : Rn 2) gp,
  (forall z c, Model_Signal.positive (PosArr (NumArr (proj1_sig z))) = Ok (RArr (NumArr (proj1_sig (positivity z c))))) ->
  (forall z c, sparse_op (TScalar 1) "soft" (proj1_sig z) c = Ok (proj1_sig (sparse z c))) ->
  exists s0, gfb_init [positivity; sparse] x0 (Some 1) gp 1 None None None = Ok s0 /\
  exists N, forall k metric period, (N <= k)%nat ->
    exists x, gfb_iterate (grad_basic (fun x => x) (fun x => x) (vec2 3 (-2))) [positivity; sparse] None metric false period k s0 = Ok x /\
      norm (x - vec2 2 0)%v < / 1000 + INR k * (2 * / 10 ^ 15).
Proof.
  intros positivity sparse x0 gp Hp Hd.
  assert (E : gfb_init [positivity; sparse] x0 (Some 1) gp 1 None None None = Ok (mk_gfb x0 None [x0; x0] [1 / 2; 1 / 2] 1 1 0 None None)).
  { unfold gfb_init, gfb_weights. cbn [List.length Nat.eqb negb repeat rsum fold_right INR]. replace (1 / (1 + 1)) with (1 / 2) by lra.
    destruct (Req_EM_T _ 1) as [_|N]; [|exfalso; apply N; lra]. cbn [bind]. rewrite step_or_pos by lra. reflexivity. }
  eexists. split; [exact E|].
  assert (Id : adjoint (fun x : Rn 2 => x) (fun x => x)) by (intros u v; reflexivity).
  assert (Ib : bounded_sq 1 (fun x : Rn 2 => x)) by (intros u; lra).
  assert (Sol : minimises nonneg_vec (lasso (fun x : Rn 2 => x) (vec2 3 (-2)) [1; 1]) (vec2 2 0)).
  { split; [repeat constructor; lra|]. intros z Nz. destruct (vec2_split z) as (a & b & ->). inversion Nz as [|? ? Na Nz']; subst. inversion Nz' as [|? ? Nb _]; subst.
    unfold lasso, weighted_l1, nsq. cbn. unfold Rvec_dot, dot. cbn.
    rewrite (Rabs_right 2), Rabs_R0, (Rabs_right a), (Rabs_right b) by lra. pose proof (Rle_0_sqr (a - 2)). pose proof (Rle_0_sqr b). unfold Rsqr in *. lra. }
  destruct (C137_nonneg_lasso_run 2 (Rn 2) (fun x => x) (fun x => x) (vec2 3 (-2)) (TScalar 1) [1; 1] 1 positivity sparse x0 1 gp 1 None _ Id Ib ltac:(lra)
    (pe_scalar 1 2) ltac:(repeat constructor; lra) Hp Hd ltac:(lra) ltac:(lra) ltac:(lra) (ex_intro _ _ Sol) E) as (xs & Mx & Q).
  - repeat constructor; lra.
  - assert (Ex : xs = vec2 2 0).
    { destruct Mx as [Nx Mx]. destruct Sol as [Ns _]. specialize (Mx _ Ns). destruct (vec2_split xs) as (a & b & ->). inversion Nx as [|? ? Na Nx']; subst. inversion Nx' as [|? ? Nb _]; subst.
      unfold lasso, weighted_l1, nsq in Mx. cbn in Mx. unfold Rvec_dot, dot in Mx. cbn in Mx.
      rewrite (Rabs_right 2), Rabs_R0, (Rabs_right a), (Rabs_right b) in Mx by lra.
      pose proof (Rle_0_sqr (a - 2)). pose proof (Rle_0_sqr b). unfold Rsqr in *. assert (b = 0) by nra. subst b. assert ((a - 2) * (a - 2) = 0) by lra.
      assert (a = 2) by nra. subst a. reflexivity. }
    subst xs. destruct (Q (/ 1000) ltac:(lra)) as (N & QN). exists N. intros k metric period Hk. destruct (QN k metric period Hk) as (x & Ex & B). exists x. split; [exact Ex|].
    apply Rlt_le_trans with (1 := B). apply Rplus_le_compat_l. apply Rmult_le_compat_l; [apply pos_INR|]. rewrite Rmult_1_l.
    apply Rmult_le_compat_r; [left; apply Rinv_0_lt_compat, pow10_pos|]. cbn [INR]. rewrite <- (sqrt_square 2) by lra. apply sqrt_le_1_alt. lra.
Qed.
Print Assumptions C137_example.
