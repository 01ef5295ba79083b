(** Theorems about Condat when only the primal problem is known to have a solution, and about the
    operators a user passes to it, C135. *)
From Coq Require Import String.
From Verif Require Import NPReal Py IPS Model_SetUp Spec_Opt Proof_Smooth Spec_Lim Proof_Lim Proof_Iter Proof_Inexact
  Model_FB Model_PD Proof_PD Proof_Iter2 Prop_Lim Model_Linear Proof_Linear Model_Signal Model_Prox Spec_Prox Proof_Prox
  Proof_Dual Proof_CondatInexact Spec_Lasso Prop_Inexact Spec_Dual.
From Coq Require Import List Lia.
Import ListNotations.
Local Open Scope string_scope.
Local Open Scope R_scope.

(** A minimiser of f + g + h o L has a dual solution if the values of h are Lipschitz. *)
Theorem C135_dual_solution_exists :
  forall (H K : ips) (D : H -> Prop) (f g : H -> R) (h : K -> R) grad proxg proxh lop ladj M B G xs,
  finite_dimensional K -> adjoint lop ladj -> bounded_sq B lop -> 0 <= B -> smooth_convex M f grad -> 0 <= M ->
  convex_on D g -> prox_operator D g proxg -> convex_on everywhere h -> prox_operator everywhere h proxh ->
  0 <= G -> lipschitz_values G h ->
  minimises D (composite f g h lop) xs ->
  exists ys, primal_dual_solution D everywhere grad g h lop ladj xs ys.
Proof.
  intros H K D f g h grad proxg proxh lop ladj M B G xs FK A Hb HB Sf HM Cg Pg Ch Ph HG Lh Mx.
  exact (dual_exists D f g h grad proxg proxh lop ladj M B G FK A Hb HB HM Sf Cg Ch Pg Ph HG Lh xs Mx).
Qed.
Print Assumptions C135_dual_solution_exists.

(** If moreover the objective is coercive both exist. *)
Theorem C135_solution_exists_if_coercive :
  forall (H K : ips) (D : H -> Prop) (f g : H -> R) (h : K -> R) grad proxg proxh lop ladj M B G a,
  finite_dimensional H -> finite_dimensional K -> adjoint lop ladj -> bounded_sq B lop -> 0 <= B -> smooth_convex M f grad -> 0 <= M ->
  convex_on D g -> prox_operator D g proxg -> convex_on everywhere h -> prox_operator everywhere h proxh ->
  0 <= G -> lipschitz_values G h -> D a -> coercive_on D (composite f g h lop) ->
  exists xs ys, primal_dual_solution D everywhere grad g h lop ladj xs ys /\ minimises D (composite f g h lop) xs.
Proof.
  intros H K D f g h grad proxg proxh lop ladj M B G a FH FK A Hb HB Sf HM Cg Pg Ch Ph HG Lh Da Co.
  destruct (coercive_solution D f g h grad proxg proxh lop ladj M B G FH FK A Hb HB HM Sf Cg Ch Pg Ph HG Lh a Da Co) as (xs & ys & So).
  exists xs, ys. split; [exact So|].
  destruct (solution_minimises grad lop ladj D everywhere f h A g xs ys (proj1 Sf) (proj1 (proj2 Sf)) So) as [[Dx _] Mn].
  split; [exact Dx|]. intros z Dz. apply Mn. split; [exact Dz|exact I].
Qed.
Print Assumptions C135_solution_exists_if_coercive.

Lemma prox_rescale {H : ips} D (g : H -> R) prox tau : 0 < tau -> prox_operator D g prox ->
  prox_operator D (fun z => g z / tau) (fun y c => prox y (c / tau)).
Proof.
  intros Ht Pg y c Hc. destruct (Pg y (c / tau) ltac:(apply Rdiv_lt_0_compat; lra)) as [Dp Q]. split; [exact Dp|]. intros z Dz. specialize (Q z Dz).
  replace (c * (g (prox y (c / tau)) / tau)) with (c / tau * g (prox y (c / tau))) by (field; lra).
  replace (c * (g z / tau)) with (c / tau * g z) by (field; lra). exact Q.
Qed.
Lemma convex_rescale {H : ips} D (g : H -> R) tau : 0 < tau -> convex_on D g -> convex_on D (fun z => g z / tau).
Proof.
  intros Ht Cg x y t Dx Dy Hq. destruct (Cg x y t Dx Dy Hq) as [Dm Q]. split; [exact Dm|]. unfold Rdiv.
  apply (Rmult_le_compat_r (/ tau)) in Q; [|left; apply Rinv_0_lt_compat, Ht]. lra.
Qed.

(** Condat's iterates converge to a minimiser as soon as there is one. *)
Theorem C135_converges_to_a_minimiser :
  forall (H K : ips) (W : Type) (D : H -> Prop) (f g : H -> R) (h : K -> R) M B G
    grad prox (prox_dual : W -> K -> R -> K) lop ladj reweight (x0 : H) (y0 : K) w tau0 rho sigma tau,
  finite_dimensional H -> finite_dimensional K ->
  adjoint lop ladj -> bounded_sq B lop -> 0 <= B -> 0 <= M -> smooth_convex M f grad ->
  convex_on D g -> convex_on everywhere h -> prox_operator D g prox -> prox_operator everywhere h (prox_dual w) ->
  0 <= G -> lipschitz_values G h ->
  0 < tau -> 0 < sigma -> sigma * B < / tau -> 0 < rho < 2 - M / 2 / (/ tau - sigma * B) ->
  let s0 := condat_init x0 y0 w (Some tau) rho sigma tau0 None None None in
  let F := composite f (fun z => g z / tau) h lop in
  (exists z, minimises D F z) ->
  exists xs, minimises D F xs /\
    converges (fun k => c_x (condat_after grad prox prox_dual lop ladj k s0)) xs /\
    (forall e, 0 < e -> exists N, forall k metric period, (N <= k)%nat ->
       exists x y, condat_iterate grad prox prox_dual lop ladj reweight None metric false period None k s0 = Ok (x, y) /\ norm (x - xs)%v < e).
Proof.
  intros H K W D f g h M B G grad prox prox_dual lop ladj reweight x0 y0 w tau0 rho sigma tau FH FK A Hb HB HM Sf Cg Ch Pg Ph HG Lh Ht Hs Hk Hr s0 F (z & Mz).
  destruct (C135_dual_solution_exists H K D f (fun z => g z / tau) h grad (fun y c => prox y (c / tau)) (prox_dual w) lop ladj M B G z FK A Hb HB Sf HM
    (convex_rescale D g tau Ht Cg) (prox_rescale D g prox tau Ht Pg) Ch Ph HG Lh Mz) as (yz & So).
  destruct (C120_iterates_converge H K W D everywhere f g h M B grad prox prox_dual lop ladj reweight x0 y0 w tau0 rho sigma tau FH FK A Hb HB HM Sf Cg Ch Pg Ph Ht Hs Hk Hr
    (ex_intro _ z (ex_intro _ yz So))) as (xs & ys & _ & [[Dx _] Mx] & C1 & _ & C3).
  exists xs. split; [split; [exact Dx|]; intros u Du; apply Mx; split; [exact Du|exact I]|]. split; [exact C1|].
  intros e He. destruct (C3 e He) as (N & Q). exists N. intros k metric period Hn. destruct (Q k metric period Hn) as (x & y & E & E1 & _). exists x, y. auto.
Qed.
Print Assumptions C135_converges_to_a_minimiser.

(** Operators that are off by at most gam, del and del2: after k updates the run is within k times a
    constant times the errors of the run with the exact operators, the constant depending on the
    parameters and on the norm of L only. *)
Theorem C135_inexact_operators :
  forall (H K : ips) (W : Type) (D : H -> Prop) (E : K -> Prop) (f g : H -> R) (h : K -> R) M B
    grad prox (prox_dual : W -> K -> R -> K) grad' prox' (prox_dual' : W -> K -> R -> K) lop ladj (x0 : H) (y0 : K) w tau0 rho sigma tau gam del del2,
  adjoint lop ladj -> bounded_sq B lop -> 0 <= B -> 0 <= M -> smooth_convex M f grad ->
  convex_on D g -> convex_on E h -> prox_operator D g prox -> prox_operator E h (prox_dual w) ->
  0 < tau -> 0 < sigma -> 0 <= rho -> sigma * B < / tau -> M / 2 <= (2 - rho) * (/ tau - sigma * B) ->
  (forall z, norm (grad' z - grad z)%v <= gam) -> (forall z, norm (prox' z 1 - prox z 1)%v <= del) ->
  (forall z, norm (prox_dual' w z (1 / sigma) - prox_dual w z (1 / sigma))%v <= del2) ->
  let s0 := condat_init x0 y0 w (Some tau) rho sigma tau0 None None None in
  let s k := condat_after grad prox prox_dual lop ladj k s0 in
  let s' k := condat_after grad' prox' prox_dual' lop ladj k s0 in
  let err := rho * sqrt (/ tau + / sigma + B + 1) * ((1 + 2 * sigma * sqrt B) * (del + tau * gam) + sigma * del2) in
  forall k, norm (c_x (s' k) - c_x (s k))%v <= INR k * err / sqrt (/ tau - sigma * B) /\
            norm (c_y (s' k) - c_y (s k))%v <= INR k * err / sqrt (/ sigma - tau * B).
Proof.
  intros H K W D E f g h M B grad prox prox_dual grad' prox' prox_dual' lop ladj x0 y0 w tau0 rho sigma tau gam del del2 A Hb HB HM Sf Cg Ch Pg Ph Ht Hs Hr Hk Hstep
    Eg Ep Eq s0 s s' err k.
  assert (P0 : params w rho sigma tau s0).
  { split; [reflexivity|]. split; [reflexivity|]. split; [|reflexivity]. unfold s0. cbn. destruct (Req_EM_T tau 0); [lra|reflexivity]. }
  pose proof (runs_close D E f g h M B grad prox prox_dual lop ladj w rho sigma tau A Hb HB HM Sf Cg Ch Pg Ph Ht Hs Hr Hk Hstep grad' prox' prox_dual' gam del del2 Eg Ep Eq
    s0 eq_refl eq_refl eq_refl P0 k) as Q.
  fold (s' k) (s k) in Q. rewrite pd_sub in Q. cbn [fst snd] in Q.
  assert (Hk' : tau * B < / sigma).
  { apply Rmult_lt_reg_l with sigma; [exact Hs|]. rewrite Rinv_r by lra. pose proof (Rmult_lt_compat_l tau _ _ Ht Hk) as X. rewrite Rinv_r in X by lra. lra. }
  replace (INR k * (rho * (sqrt (/ tau + / sigma + B + 1) * (del + tau * gam + (sigma * del2 + 2 * sigma * sqrt B * (del + tau * gam)))))) with (INR k * err) in Q by (unfold err; ring).
  split.
  - apply Rle_trans with (1 := pd_norm_x lop ladj B tau sigma A Hb HB Ht Hs Hk _ (c_y (s' k) - c_y (s k))%v). unfold Rdiv. apply Rmult_le_compat_r; [|exact Q].
    left. apply Rinv_0_lt_compat, sqrt_lt_R0. lra.
  - apply Rle_trans with (1 := pd_norm_y lop ladj B tau sigma A Hb HB Ht Hs Hk (c_x (s' k) - c_x (s k))%v _ Hk'). unfold Rdiv. apply Rmult_le_compat_r; [|exact Q].
    left. apply Rinv_0_lt_compat, sqrt_lt_R0. lra.
Qed.
Print Assumptions C135_inexact_operators.

(** * Limits of runs *)

(** If the iterates converge their limits solve the optimality conditions. *)
Theorem C135_limits_are_solutions :
  forall (H K : ips) (W : Type) (D : H -> Prop) (E : K -> Prop) (f g : H -> R) (h : K -> R) M B
    grad prox (prox_dual : W -> K -> R -> K) lop ladj (x0 : H) (y0 : K) w tau0 rho sigma tau,
  adjoint lop ladj -> bounded_sq B lop -> 0 <= B -> smooth_convex M f grad ->
  convex_on D g -> convex_on E h -> prox_operator D g prox -> prox_operator E h (prox_dual w) ->
  0 < tau -> 0 < sigma -> rho <> 0 ->
  let s0 := condat_init x0 y0 w (Some tau) rho sigma tau0 None None None in
  forall xs ys, converges (fun k => c_x (condat_after grad prox prox_dual lop ladj k s0)) xs ->
    converges (fun k => c_y (condat_after grad prox prox_dual lop ladj k s0)) ys ->
    primal_dual_solution D E grad (fun z => g z / tau) h lop ladj xs ys.
Proof.
  intros H K W D E f g h M B grad prox prox_dual lop ladj x0 y0 w tau0 rho sigma tau A Hb HB Sf Cg Ch Pg Ph Ht Hs Hr s0 xs ys Cx Cy.
  assert (P0 : params w rho sigma tau s0).
  { split; [reflexivity|]. split; [reflexivity|]. split; [|reflexivity]. unfold s0. cbn. destruct (Req_EM_T tau 0); [lra|reflexivity]. }
  pose proof (params_update lop ladj w rho sigma tau grad prox prox_dual s0 eq_refl eq_refl eq_refl P0) as P.
  set (T := C_map grad prox prox_dual lop ladj w rho sigma tau).
  set (u := fun k => (c_x (condat_after grad prox prox_dual lop ladj k s0), c_y (condat_after grad prox prox_dual lop ladj k s0)) : prod_ips H K).
  assert (Cu : converges u (xs, ys)) by (apply converges_pair; assumption).
  assert (Ct : converges (fun k => T (u k)) (T (xs, ys))).
  { apply (C_map_continuous D E f g h M B grad prox prox_dual lop ladj w rho sigma tau A Hb HB Sf Cg Ch Pg Ph Hs u (xs, ys) Cu). }
  assert (St : forall k, u (S k) = (rho * T (u k) + (1 - rho) * u k)%v).
  { intros k. unfold u at 1. rewrite !after_S, update_x, update_y. destruct (P k) as (Q1 & Q2 & Q3 & Q4).
    rewrite (cprox_map grad prox prox_dual lop ladj w rho sigma tau _ (P k)), Q1. reflexivity. }
  assert (Fx : (rho * T (xs, ys) + (1 - rho) * ((xs, ys) : prod_ips H K))%v = (xs, ys)).
  { apply (converges_unique (fun k => u (S k))).
    - apply converges_ext with (fun k => (rho * T (u k) + (1 - rho) * u k)%v); [intros k; symmetry; apply St|].
      apply converges_add; apply converges_scal; assumption.
    - apply (converges_sub u _ S); [intros k; lia|exact Cu]. }
  apply relax_fixed in Fx; [|exact Hr].
  apply (C_map_fixed D E g h grad prox prox_dual lop ladj w rho sigma tau Cg Ch Pg Ph Ht Hs). exact Fx.
Qed.
Print Assumptions C135_limits_are_solutions.

(** * Two constraint sets that touch *)

Definition plane : ips := prod_ips R_ips R_ips.
Definition centre : plane := (0, 1).
(** The disc of radius 1 around (0, 1) and the projection onto it. *)
Definition disc (x : plane) : Prop := nsq (x - centre)%v <= 1.
Definition disc_proj (x : plane) (c : R) : plane :=
  if Rle_dec (norm (x - centre)%v) 1 then x else (centre + / norm (x - centre) * (x - centre))%v.
(** The lower half-plane and the projection onto it. *)
Definition below (x : plane) : Prop := snd x <= 0.
Definition below_proj (_ : unit) (x : plane) (c : R) : plane := (fst x, Rmin (snd x) 0).

Lemma disc_prox : prox_operator disc (fun _ => 0) disc_proj.
Proof.
  intros x c _. apply prox_vi_is_prox. unfold disc_proj. set (u := (x - centre)%v). destruct (Rle_dec (norm u) 1) as [Q|Q].
  - split; [unfold disc; fold u; rewrite <- norm_sq; pose proof (norm_pos u); nra|]. intros z _. rewrite vsub_self, inner_0_l. lra.
  - assert (Pr : 1 < norm u) by lra. set (r := norm u) in *. assert (E : nsq u = r * r) by (unfold r; rewrite norm_sq; reflexivity).
    split.
    + unfold disc. replace (centre + / r * u - centre)%v with (/ r * u)%v by vring. rewrite nsq_scal, E. right. field. lra.
    + intros z Dz. unfold disc in Dz. replace (x - (centre + / r * u))%v with ((1 - / r) * u)%v by (unfold u; vring).
      replace (z - (centre + / r * u))%v with ((z - centre) - / r * u)%v by vring. set (v := (z - centre)%v) in *.
      rewrite inner_scal_l, inner_sub_r, inner_scal_r. fold (nsq u). rewrite E.
      pose proof (cauchy_schwarz_norm u v) as C. fold r in C. assert (Nv : norm v <= 1).
      { unfold norm. fold (nsq v). rewrite <- sqrt_1. apply sqrt_le_1_alt. exact Dz. }
      assert (Ir : 0 < 1 - / r).
      { assert (/ r < 1) by (rewrite <- Rinv_1; apply Rinv_lt_contravar; lra). lra. }
      replace (/ r * (r * r)) with r by (field; lra). assert (inner u v <= r) by nra. nra.
Qed.
Lemma disc_convex : convex_on disc (fun _ => 0).
Proof.
  intros x y t Dx Dy Ht. split; [|lra]. unfold disc in *.
  replace ((1 - t) * x + t * y - centre)%v with ((1 - t) * (x - centre) + t * (y - centre))%v by vring.
  set (u := (x - centre)%v) in *. set (v := (y - centre)%v) in *.
  assert (E : nsq ((1 - t) * u + t * v)%v = (1 - t) * nsq u + t * nsq v - t * (1 - t) * nsq (u - v)%v) by (iexpand; rewrite (inner_sym _ v u); ring).
  rewrite E. pose proof (nsq_pos (u - v)%v). assert (0 <= t * (1 - t) * nsq (u - v)%v) by (repeat apply Rmult_le_pos; lra). nra.
Qed.
Lemma below_prox : prox_operator below (fun _ => 0) (below_proj tt).
Proof.
  intros [a b] c _. apply prox_vi_is_prox. split; [apply Rmin_r|]. intros [a' b'] Dz. unfold below in Dz. cbn in *.
  unfold Rmin. destruct (Rle_dec b 0); nra.
Qed.
Lemma below_convex : convex_on below (fun _ => 0).
Proof. intros [a b] [a' b'] t Dx Dy Ht. unfold below in *. cbn in *. split; [nra|lra]. Qed.
Lemma slope_smooth : smooth_convex (H := plane) 0 (fun x => fst x) (fun _ => (1, 0)).
Proof.
  split; [|split].
  - intros x y t _ _ Ht. split; [exact I|]. cbn. lra.
  - intros x v e He. exists (mkposreal 1 ltac:(lra)). intros t Ht _. cbn.
    match goal with |- Rabs ?z < e => replace z with 0 by (field; exact Ht) end. rewrite Rabs_R0. exact He.
  - intros x y. rewrite vsub_self, norm_0. lra.
Qed.

(** The sets touch in (0, 0), which is therefore the minimiser of x_1; there is no dual solution, and
    whatever the start and the parameters the pair of iterates of Condat does not converge. *)
Theorem C135_touching_constraints_refuted :
  exists (H : ips) (D E : H -> Prop) (f : H -> R) grad prox (prox_dual : unit -> H -> R -> H) xs,
  finite_dimensional H /\ smooth_convex 0 f grad /\ convex_on D (fun _ => 0) /\ convex_on E (fun _ => 0) /\
  prox_operator D (fun _ => 0) prox /\ prox_operator E (fun _ => 0) (prox_dual tt) /\
  minimises (fun x => D x /\ E x) f xs /\
  (forall x y tau, 0 < tau -> ~ primal_dual_solution D E grad (fun _ => 0 / tau) (fun _ => 0) (fun x => x) (fun y => y) x y) /\
  (forall x0 y0 tau0 rho sigma tau, 0 < tau -> 0 < sigma -> rho <> 0 ->
     let s0 := condat_init x0 y0 tt (Some tau) rho sigma tau0 None None None in
     ~ exists x y, converges (fun k => c_x (condat_after grad prox prox_dual (fun x => x) (fun y => y) k s0)) x /\
                   converges (fun k => c_y (condat_after grad prox prox_dual (fun x => x) (fun y => y) k s0)) y).
Proof.
  exists plane, disc, below, (fun x => fst x), (fun _ => (1, 0)), disc_proj, below_proj, (0, 0).
  split; [apply fd_prod; apply fd_R|]. split; [exact slope_smooth|]. split; [exact disc_convex|]. split; [exact below_convex|].
  split; [exact disc_prox|]. split; [exact below_prox|].
  assert (Touch : forall x, disc x -> below x -> x = (0, 0)).
  { intros [a b] Dx Ex. unfold disc, below, nsq in *. cbn in *. assert (b = 0) by nra. subst b. assert (a = 0) by nra. subst a. reflexivity. }
  split.
  { split; [split; [unfold disc, nsq; cbn; lra|unfold below; cbn; lra]|]. intros z [Dz Ez]. rewrite (Touch z Dz Ez). lra. }
  assert (No : forall x y tau, 0 < tau -> ~ primal_dual_solution disc below (fun _ => (1, 0) : plane) (fun _ => 0 / tau) (fun _ => 0) (fun x => x) (fun y => y) x y).
  { intros x [y1 y2] tau Ht [[Dx SX] [Ex SY]]. assert (E0 := Touch x Dx Ex). subst x. cbn in SY.
    assert (Y1 : y1 = 0).
    { pose proof (SY (1, 0) ltac:(unfold below; cbn; lra)) as Q1. pose proof (SY (-1, 0) ltac:(unfold below; cbn; lra)) as Q2. cbn in Q1, Q2. lra. }
    subst y1.
    (* points of the disc near (0, 0) to the left *)
    assert (Near : forall t, 0 < t < 1 -> - t + t * t * y2 >= 0).
    { intros t Hq. assert (Dt : disc (- t, t * t)).
      { unfold disc, nsq. cbn. assert (0 < t * t < 1) by nra. nra. } pose proof (SX _ Dt) as Q. cbn in Q. unfold Rdiv in Q. lra. }
    destruct (Rle_lt_dec y2 1) as [L|L].
    - specialize (Near (1 / 2) ltac:(lra)). lra.
    - assert (Q : 0 < / (2 * y2) < 1).
      { split; [apply Rinv_0_lt_compat; lra|]. rewrite <- Rinv_1. apply Rinv_lt_contravar; lra. }
      specialize (Near _ Q). replace (- / (2 * y2) + / (2 * y2) * / (2 * y2) * y2) with (- / (4 * y2)) in Near by (field; lra).
      assert (0 < / (4 * y2)) by (apply Rinv_0_lt_compat; lra). lra. }
  split; [exact No|].
  intros x0 y0 tau0 rho sigma tau Ht Hs Hr s0 (x & y & Cx & Cy).
  apply (No x y tau Ht).
  apply (C135_limits_are_solutions plane plane unit disc below (fun x => fst x) (fun _ => 0) (fun _ => 0) 0 1 (fun _ => (1, 0)) disc_proj below_proj
    (fun x => x) (fun y => y) x0 y0 tt tau0 rho sigma tau); try assumption.
  - intros u v. reflexivity.
  - intros u. lra.
  - lra.
  - exact slope_smooth.
  - exact disc_convex.
  - exact below_convex.
  - exact disc_prox.
  - exact below_prox.
Qed.
Print Assumptions C135_touching_constraints_refuted.

(** * Non-negative sparse recovery *)

Section Analysis.
Variables n p : nat.

Definition pos_op (x : Rn n) : Rn n := exist _ (map pos_thresh (proj1_sig x)) (eq_trans (map_length _ _) (proj2_sig x)).

Lemma pos_op_prox : prox_operator nonneg_vec (fun _ => 0) (fun (x : Rn n) _ => pos_op x).
Proof.
  intros x c _. destruct (pos_projection (proj1_sig x)) as (N & _ & _ & _ & Q). split; [exact N|]. intros z Nz.
  specialize (Q (proj1_sig z) ltac:(rewrite (proj2_sig z), (proj2_sig x); reflexivity) Nz).
  change (map pos_thresh (proj1_sig x)) with (proj1_sig (pos_op x)) in Q. rewrite !sqdist_nsq in Q. pose proof (nsq_pos (pos_op x - z)%v). lra.
Qed.
Lemma nonneg_vec_convex : convex_on nonneg_vec (fun _ : Rn n => 0).
Proof.
  intros [x Lx] [y Ly] t Nx Ny Ht. split; [|lra]. unfold nonneg_vec, nonneg in *. cbn in *. clear Lx Ly. revert y Ny.
  induction Nx as [|a x Ha Nx IH]; intros y Ny; [constructor|]. inversion Ny as [|b y' Hb Ny']; subst; [constructor|].
  cbn. constructor; [nra|]. apply IH. exact Ny'.
Qed.

Lemma coord_le_norm (u : Rn p) : Forall (fun a => Rabs a <= norm u) (proj1_sig u).
Proof.
  destruct u as [u Lu]. unfold norm. cbn [inner Rn proj1_sig]. unfold Rvec_dot, dot. cbn [proj1_sig]. clear Lu.
  assert (P : forall l, 0 <= rsum (map2 Rmult l l)) by (induction l as [|a l IH]; cbn; [lra|unfold rsum in IH; nra]).
  assert (G : forall l, Forall (fun a => a * a <= rsum (map2 Rmult l l)) l).
  { induction l as [|a l IH]; [constructor|]. specialize (P l). cbn. unfold rsum in *. constructor; [lra|].
    eapply Forall_impl; [|exact IH]. cbn. intros b Hb. nra. }
  eapply Forall_impl; [|apply G]. cbn. intros a Ha. rewrite <- sqrt_Rsqr_abs. apply sqrt_le_1_alt. exact Ha.
Qed.

Lemma l1_lipschitz ws : length ws = p -> nonneg ws -> lipschitz_values (rsum ws) (l1 p ws).
Proof.
  intros Lw Nw u v. pose proof (coord_le_norm (u - v)%v) as Q. revert Q. generalize (norm (u - v)%v). intros m Q.
  destruct u as [u Lu], v as [v Lv]. unfold l1, vsub in *. cbn in *. unfold weighted_l1. clear - Lw Nw Lu Lv Q. revert u v p Lw Lu Lv Q.
  induction ws as [|w ws IH]; intros [|a u] [|b v] q Lw Lu Lv Q; cbn in *; subst; try discriminate; try lra.
  inversion Nw as [|? ? N1 N2]; subst. inversion Q as [|? ? Q1 Q2]; subst. specialize (IH N2 u v (length ws) eq_refl ltac:(lia) ltac:(lia) Q2).
  unfold rsum in *. pose proof (Rabs_triang_inv a b) as T. replace (a + -1 * b) with (a - b) in Q1 by ring.
  assert (w * (Rabs a - Rabs b) <= w * m) by (apply Rmult_le_compat_l; lra). lra.
Qed.
End Analysis.

Lemma rsum_nonneg ws : nonneg ws -> 0 <= rsum ws.
Proof. induction 1 as [|w ws Hw _ IH]; cbn; [lra|]. unfold rsum in IH. lra. Qed.

Lemma analysis_composite {n p} {K : ips} (A : Rn n -> K) y (L : Rn n -> Rn p) ws tau x : tau <> 0 ->
  composite (grad_basic_cost A y) (fun _ => 0 / tau) (l1 p ws) L x = sparse_analysis A y L ws x.
Proof.
  intros Ht. unfold composite, sparse_analysis, grad_basic_cost, l1. rewrite <- (norm_sq (A x - y)%v), (norm_sub_sym y (A x)). field. exact Ht.
Qed.

(** If no direction is ignored by both A and L the problem has a solution. *)
Theorem C135_recovery_problem_has_a_solution :
  forall n p (K : ips) (A : Rn n -> K) A' y (L : Rn n -> Rn p) L' ws M B c,
  adjoint A A' -> bounded_sq M A -> 0 <= M -> adjoint L L' -> bounded_sq B L -> 0 <= B ->
  length ws = p -> Forall (fun w => 0 < w) ws -> 0 < c -> (forall x, c * nsq x <= nsq (A x) + nsq (L x)) ->
  exists xs, minimises nonneg_vec (sparse_analysis A y L ws) xs.
Proof.
  intros n p K A A' y L L' ws M B c AA HbA HM AL HbL HB Lw Pw Hc Inj. pose proof (positive_nonneg ws Pw) as Nw.
  destruct (least_weight ws Pw) as (w0 & P0 & Q0).
  destruct (C135_solution_exists_if_coercive (Rn n) (Rn p) nonneg_vec (grad_basic_cost A y) (fun _ => 0 / 1) (l1 p ws) (grad_basic A A' y)
    (fun x _ => pos_op n x) (shrink_op p ws Lw) L L' M B (rsum ws) vzero (fd_Rn n) (fd_Rn p) AL HbL HB (ls_smooth A A' y M AA HM HbA) HM) as (xs & ys & _ & Mx).
  - apply convex_rescale; [lra|apply nonneg_vec_convex].
  - apply (prox_rescale nonneg_vec (fun _ => 0) (fun (x : Rn n) _ => pos_op n x) 1); [lra|apply pos_op_prox].
  - apply l1_convex; assumption.
  - apply l1_prox; assumption.
  - apply rsum_nonneg, Nw.
  - apply l1_lipschitz; assumption.
  - unfold nonneg_vec, nonneg. cbn. apply Forall_forall. intros a Ia. apply repeat_spec in Ia. lra.
  - intros b. set (m := norm y + 1 + 2 * Rabs b). set (q := Rabs b / w0).
    exists (sqrt ((m * m + q * q) / c)). intros x _ Hx. rewrite analysis_composite in Hx by lra. unfold sparse_analysis in Hx.
    pose proof (l1_bound p ws Lw w0 (L x) (Rlt_le _ _ P0) Q0) as B1. unfold l1 in B1. pose proof (nsq_pos (A x - y)%v) as B2.
    pose proof (norm_pos (L x)) as P1. pose proof (norm_pos (A x - y)%v) as P2. pose proof (Rle_abs b) as Hb'. pose proof (Rabs_pos b) as Pb.
    assert (B3 : norm (L x) <= q).
    { unfold q. apply Rmult_le_reg_l with w0; [exact P0|]. replace (w0 * (Rabs b / w0)) with (Rabs b) by (field; lra). lra. }
    assert (B0 : 0 <= weighted_l1 ws (proj1_sig (L x))) by (apply Rle_trans with (2 := B1); apply Rmult_le_pos; lra).
    assert (B4 : norm (A x) <= m).
    { replace (A x) with ((A x - y) + y)%v by vring. apply Rle_trans with (1 := norm_triangle _ _).
      rewrite <- norm_sq in Hx. set (d := norm (A x - y)%v) in *. assert (d * d <= 2 * Rabs b) by lra.
      assert (d <= 1 + 2 * Rabs b) by (destruct (Rle_lt_dec d 1); [lra|nra]). unfold m. lra. }
    specialize (Inj x). rewrite <- (norm_sq (A x)), <- (norm_sq (L x)) in Inj. pose proof (norm_pos (A x)).
    unfold norm at 1. fold (nsq x). apply sqrt_le_1_alt. apply Rmult_le_reg_l with c; [exact Hc|].
    replace (c * ((m * m + q * q) / c)) with (m * m + q * q) by (field; lra). nra.
  - exists xs. eapply minimises_ext; [|exact Mx]. intros z. apply analysis_composite. lra.
Qed.
Print Assumptions C135_recovery_problem_has_a_solution.

(** Condat with GradBasic, Positivity, the analysis operator L and SparseThreshold as coded (the
    rounding inside thresh included): from any start the estimates come within any e > 0 of a
    minimiser of 1/2 |A x - y|^2 + sum w_i |(L x)_i| over x >= 0, up to a constant times 1e-15 per
    update; this is what iterate returns as x_final. *)
Theorem C135_recovery_run :
  forall n p (K : ips) (A : Rn n -> K) A' y (L : Rn n -> Rn p) L' weights ws M B (prox : Rn n -> R -> Rn n) (prox_dual : thr -> Rn p -> R -> Rn p) reweight
    (x0 : Rn n) (y0 : Rn p) tau0 rho sigma tau,
  adjoint A A' -> bounded_sq M A -> 0 <= M -> adjoint L L' -> bounded_sq B L -> 0 <= B ->
  per_element weights p ws -> nonneg ws ->
  (forall z c, Model_Signal.positive (PosArr (NumArr (proj1_sig z))) = Ok (RArr (NumArr (proj1_sig (prox z c))))) ->
  (forall w z c, sparse_op w "soft" (proj1_sig z) c = Ok (proj1_sig (prox_dual w z c))) ->
  0 < tau -> 0 < sigma -> sigma * B < / tau -> 0 < rho < 2 - M / 2 / (/ tau - sigma * B) ->
  (exists z, minimises nonneg_vec (sparse_analysis A y L ws) z) ->
  let s0 := condat_init x0 y0 weights (Some tau) rho sigma tau0 None None None in
  exists xs, minimises nonneg_vec (sparse_analysis A y L ws) xs /\
    forall e, 0 < e -> exists N, forall k metric period, (N <= k)%nat ->
      exists x v, condat_iterate (grad_basic A A' y) prox prox_dual L L' reweight None metric false period None k s0 = Ok (x, v) /\
        norm (x - xs)%v < e + INR k * (rho * sigma * sqrt ((/ tau + / sigma + B + 1) / (/ tau - sigma * B)) * (sqrt (INR p) * / 10 ^ 15)).
Proof.
  intros n p K A A' y L L' weights ws M B prox prox_dual reweight x0 y0 tau0 rho sigma tau AA HbA HM AL HbL HB Pe Nw Hpos Hsp Ht Hs Hk Hr (z & Mz) s0.
  assert (Lw : length ws = p) by (eapply per_element_length; exact Pe). pose proof (ls_smooth A A' y M AA HM HbA) as Sm.
  assert (Pk : 0 < / tau - sigma * B) by lra.
  assert (Hstep : M / 2 <= (2 - rho) * (/ tau - sigma * B)).
  { destruct Hr as [_ Hr]. set (q := / tau - sigma * B) in *. assert (X : M / 2 / q < 2 - rho) by lra. apply Rmult_lt_compat_r with (r := q) in X; [|exact Pk].
    replace (M / 2 / q * q) with (M / 2) in X by (field; lra). lra. }
  destruct (C135_converges_to_a_minimiser (Rn n) (Rn p) thr nonneg_vec (grad_basic_cost A y) (fun _ => 0) (l1 p ws) M B (rsum ws)
    (grad_basic A A' y) (fun x _ => pos_op n x) (fun _ => shrink_op p ws Lw) L L' reweight x0 y0 weights tau0 rho sigma tau
    (fd_Rn n) (fd_Rn p) AL HbL HB HM Sm (nonneg_vec_convex n) (l1_convex p ws Lw Nw) (pos_op_prox n) (l1_prox p ws Lw Nw)
    (rsum_nonneg ws Nw) (l1_lipschitz p ws Lw Nw) Ht Hs Hk Hr) as (xs & Mx & C & _).
  - exists z. eapply minimises_ext; [|exact Mz]. intros u. symmetry. apply analysis_composite. lra.
  - exists xs. split; [eapply minimises_ext; [|exact Mx]; intros u; apply analysis_composite; lra|].
    intros e He. destruct (C e He) as (N & Q). exists (S N). intros k metric period Hn. do 2 eexists. split; [apply iterate_plain; lia|].
    specialize (Q k ltac:(lia)). fold s0 in Q.
    assert (Ep : forall u : Rn n, norm (prox u 1 - pos_op n u)%v <= 0).
    { intros u. replace (prox u 1) with (pos_op n u); [rewrite vsub_self, norm_0; lra|]. apply Rvec_eq. specialize (Hpos u 1). cbn in Hpos. injection Hpos as Hpos. exact Hpos. }
    pose proof (C135_inexact_operators (Rn n) (Rn p) thr nonneg_vec everywhere (grad_basic_cost A y) (fun _ => 0) (l1 p ws) M B
      (grad_basic A A' y) (fun x _ => pos_op n x) (fun _ => shrink_op p ws Lw) (grad_basic A A' y) prox prox_dual L L' x0 y0 weights tau0 rho sigma tau 0 0 (sqrt (INR p) * / 10 ^ 15)
      AL HbL HB HM Sm (nonneg_vec_convex n) (l1_convex p ws Lw Nw) (pos_op_prox n) (l1_prox p ws Lw Nw) Ht Hs ltac:(lra) Hk Hstep) as Cl.
    destruct Cl with (k := k) as [Cx _].
    + intros u. rewrite vsub_self, norm_0. lra.
    + exact Ep.
    + intros u. apply (coded_close p weights ws (prox_dual weights) Lw Pe Nw (Hsp weights)). apply Rdiv_lt_0_compat; lra.
    + fold s0 in Cx. set (x' := c_x (condat_after (grad_basic A A' y) prox prox_dual L L' k s0)) in *.
      set (x1 := c_x (condat_after (grad_basic A A' y) (fun x _ => pos_op n x) (fun _ => shrink_op p ws Lw) L L' k s0)) in *.
      replace (x' - xs)%v with ((x' - x1) + (x1 - xs))%v by vring. apply Rle_lt_trans with (1 := norm_triangle _ _).
      set (d := sqrt (INR p) * / 10 ^ 15) in *.
      assert (E : INR k * (rho * sqrt (/ tau + / sigma + B + 1) * ((1 + 2 * sigma * sqrt B) * (0 + tau * 0) + sigma * d)) / sqrt (/ tau - sigma * B)
        = INR k * (rho * sigma * sqrt ((/ tau + / sigma + B + 1) / (/ tau - sigma * B)) * d)).
      { rewrite sqrt_div_alt by exact Pk. assert (sqrt (/ tau - sigma * B) <> 0) by (apply Rgt_not_eq, sqrt_lt_R0, Pk). field. assumption. }
      rewrite E in Cx. lra.
Qed.
Print Assumptions C135_recovery_run.

(** Two samples, y = (3, -2), penalty |x_1 - x_2| and x >= 0, Condat with tau = 1/4, sigma = 1, rho = 1:
    the problem is solved only by (2, 0), and the estimates of every run end up within 1/1000 of it,
    up to 10 * 1e-15 per update. *)
Definition vec2 (a b : R) : Rn 2 := exist _ [a; b] eq_refl.
Definition difference (x : Rn 2) : Rn 1 := exist _ [nth 0 (proj1_sig x) 0 - nth 1 (proj1_sig x) 0] eq_refl.
Definition difference_adj (u : Rn 1) : Rn 2 := vec2 (nth 0 (proj1_sig u) 0) (- nth 0 (proj1_sig u) 0).

Lemma vec2_split (x : Rn 2) : exists a b, x = vec2 a b.
Proof. destruct x as [[|a [|b [|c l]]] E]; try discriminate. exists a, b. apply Rvec_eq. reflexivity. Qed.
Lemma difference_adjoint : adjoint difference difference_adj.
Proof.
  intros x u. destruct (vec2_split x) as (a & b & ->). destruct u as [[|c [|d l]] E]; try discriminate. unfold difference, difference_adj. cbn. unfold Rvec_dot, dot. cbn. ring.
Qed.
Lemma difference_bound : bounded_sq 2 difference.
Proof.
  intros x. destruct (vec2_split x) as (a & b & ->). unfold nsq. cbn. unfold Rvec_dot, dot. cbn. pose proof (Rle_0_sqr (a + b)) as Q. unfold Rsqr in Q. lra.
Qed.

Example C135_example : forall (prox : Rn 2 -> R -> Rn 2) (prox_dual : thr -> Rn 1 -> R -> Rn 1) reweight (x0 : Rn 2) (y0 : Rn 1) tau0,
  (forall z c, Model_Signal.positive (PosArr (NumArr (proj1_sig z))) = Ok (RArr (NumArr (proj1_sig (prox z c))))) ->
  (forall w z c, sparse_op w "soft" (proj1_sig z) c = Ok (proj1_sig (prox_dual w z c))) ->
  let s0 := condat_init x0 y0 (TScalar 1) (Some (/ 4)) 1 1 tau0 None None None in
  exists N, forall k metric period, (N <= k)%nat ->
    exists x v, condat_iterate (grad_basic (fun x => x) (fun x => x) (vec2 3 (-2))) prox prox_dual difference difference_adj reweight None metric false period None k s0 = Ok (x, v) /\
      norm (x - vec2 2 0)%v < / 1000 + INR k * (10 * / 10 ^ 15).
Proof.
  intros prox prox_dual reweight x0 y0 tau0 Hp Hd s0.
  assert (Id : adjoint (fun x : Rn 2 => x) (fun x => x)) by (intros u v; reflexivity).
  assert (Ib : bounded_sq 1 (fun x : Rn 2 => x)) by (intros u; lra).
  assert (Sol : minimises nonneg_vec (sparse_analysis (fun x : Rn 2 => x) (vec2 3 (-2)) difference [1]) (vec2 2 0)).
  { split; [repeat constructor; lra|]. intros z Nz. destruct (vec2_split z) as (a & b & ->). inversion Nz as [|? ? Na Nz']; subst. inversion Nz' as [|? ? Nb _]; subst.
    unfold sparse_analysis, weighted_l1, nsq. cbn. unfold Rvec_dot, dot. cbn.
    replace (2 - 0) with 2 by ring. rewrite (Rabs_right 2) by lra. pose proof (Rle_abs (a - b)). pose proof (Rle_0_sqr (a - 2)). pose proof (Rle_0_sqr b). unfold Rsqr in *. match goal with |- ?l <= ?r => assert (l = 13 / 2 - 2) by lra end. lra. }
  destruct (C135_recovery_run 2 1 (Rn 2) (fun x => x) (fun x => x) (vec2 3 (-2)) difference difference_adj (TScalar 1) [1] 1 2 prox prox_dual reweight x0 y0 tau0 1 1 (/ 4)
    Id Ib ltac:(lra) difference_adjoint difference_bound ltac:(lra)) as (xs & Mx & Q); try assumption; try lra.
  - apply (pe_scalar 1 1).
  - repeat constructor; lra.
  - exists (vec2 2 0). exact Sol.
  - assert (E : xs = vec2 2 0).
    { destruct Mx as [Nx Mx]. destruct Sol as [Ns _]. specialize (Mx _ Ns). destruct (vec2_split xs) as (a & b & ->). inversion Nx as [|? ? Na Nx']; subst. inversion Nx' as [|? ? Nb _]; subst.
      unfold sparse_analysis, weighted_l1, nsq in Mx. cbn in Mx. unfold Rvec_dot, dot in Mx. cbn in Mx.
      replace (2 - 0) with 2 in Mx by ring. rewrite (Rabs_right 2) in Mx by lra. pose proof (Rle_abs (a - b)).
      pose proof (Rle_0_sqr (a - 2)). pose proof (Rle_0_sqr b). unfold Rsqr in *. assert (b = 0) by lra. subst b. assert ((a - 2) * (a - 2) = 0) by lra.
      assert (a = 2) by nra. subst a. reflexivity. }
    subst xs. destruct (Q (/ 1000) ltac:(lra)) as (N & QN). exists N. intros k metric period Hk. destruct (QN k metric period Hk) as (x & v & Ex & B). exists x, v. split; [exact Ex|].
    apply Rlt_le_trans with (1 := B). apply Rplus_le_compat_l. apply Rmult_le_compat_l; [apply pos_INR|].
    cbn [INR]. rewrite sqrt_1. replace (1 * / 10 ^ 15) with (/ 10 ^ 15) by ring. apply Rmult_le_compat_r; [left; apply Rinv_0_lt_compat, pow_lt; lra|].
    rewrite Rmult_1_l, Rmult_1_l. replace ((/ / 4 + / 1 + 2 + 1) / (/ / 4 - 1 * 2)) with 4 by field. replace 4 with (2 * 2) by ring. rewrite sqrt_square by lra. lra.
Qed.
Print Assumptions C135_example.
