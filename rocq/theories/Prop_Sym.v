(** Theorems of C141: changing the units of the unknown, the units of the objective, the origin, or the
    basis (rotation, reordering, orthonormal transform) of a problem changes the estimates of the
    proximal algorithms accordingly, restarts and accelerations included. *)
From Coq Require Import String.
From Verif Require Import NPReal Py IPS Model_SetUp Model_FB Model_PD Spec_Opt Proof_Smooth Proof_FB2 Proof_Inst Spec_Sym Proof_Sym.
From Coq Require Import List Lia.
Import ListNotations.
Local Open Scope R_scope.

(** [C141] The operators of the changed problem. If the objective is q times the old one, seen in the new
    variable, its gradient is the carried one, step sizes being divided by q / r^2. *)
Theorem C141_gradient_of_the_changed_problem :
  forall (H K : ips) (V : H -> K) o r q f df f' df', similarity r V -> is_gradient f df -> is_gradient f' df' ->
  (forall x, f' (moved V o x) = q * f x) -> carries_gradient (q / r ^ 2) V o df df'.
Proof.
  intros H K V o r q f df f' df' Sim G G' E x. pose proof (sim_r2 V r Sim) as R2. destruct Sim as (Hr & L & In & Su).
  assert (A : forall h, inner (df' (moved V o x)) (V h) = q * inner (df x) h).
  { intros h. apply (uniqueness_limite (fun t => f' (moved V o x + t * V h)%v) 0); [apply G'|].
    assert (D := derivable_pt_lim_scal (fun t => f (x + t * h)%v) q 0 _ (G x h)).
    intros eps He. destruct (D eps He) as [d Hd]. exists d. intros t Ht Hs. specialize (Hd t Ht Hs). unfold mult_real_fct in Hd.
    assert (M : forall t, f' (moved V o x + t * V h)%v = q * f (x + t * h)%v).
    { intros u. rewrite <- E. f_equal. unfold moved. rewrite (lin_add V L), (lin_scal V L). vring. }
    rewrite !M. exact Hd. }
  apply nsq_sub_0. set (e := (df' (moved V o x) - q / r ^ 2 * V (df x))%v).
  destruct (Su e) as (h & Eh). unfold nsq. rewrite Eh at 2. unfold e, vsub. rewrite inner_add_l, !inner_scal_l, A, In. field. lra.
Qed.
Print Assumptions C141_gradient_of_the_changed_problem.

(** [C141] Likewise the proximity operator, for a convex penalty. *)
Theorem C141_prox_of_the_changed_problem :
  forall (H K : ips) (V : H -> K) o r q (D : H -> Prop) g (D' : K -> Prop) g' prox prox', similarity r V -> 0 < q ->
  convex_on D g -> prox_operator D g prox -> prox_operator D' g' prox' ->
  (forall x, D' (moved V o x) <-> D x) -> (forall x, g' (moved V o x) = q * g x) -> carries_prox (q / r ^ 2) V o prox prox'.
Proof.
  intros H K V o r q D g D' g' prox prox' Sim Hq C P P' ED EG y t Ht. pose proof (sim_r2 V r Sim) as R2. assert (Sim' := Sim). destruct Sim' as (Hr & L & In & Su).
  assert (Ik : 0 < t / (q / r ^ 2)) by (apply Rmult_lt_0_compat; [exact Ht|apply Rinv_0_lt_compat, Rmult_lt_0_compat; [exact Hq|apply Rinv_0_lt_compat, R2]]).
  assert (C' : convex_on D (fun z => t * g z)) by (apply convex_scal; [lra|exact C]).
  destruct (P' (moved V o y) (t / (q / r ^ 2)) Ik) as [Dp Mp]. set (p := prox' (moved V o y) (t / (q / r ^ 2))) in *.
  destruct (Su (p - o)%v) as (x & Ex). assert (Ep : p = moved V o x) by (unfold moved; rewrite <- Ex; vring). rewrite Ep in *. f_equal.
  apply (prox_vi_unique D (fun z => t * g z) y); [|apply is_prox_vi; [exact C'|apply P, Ht]]. apply is_prox_vi; [exact C'|].
  split; [apply ED, Dp|]. intros z Dz. specialize (Mp (moved V o z) (proj2 (ED z) Dz)). rewrite !EG, !(moved_sub V o r Sim) in Mp. unfold nsq in *. rewrite !In in Mp.
  apply Rmult_le_reg_l with (r ^ 2); [exact R2|].
  replace (t / (q / r ^ 2) * (q * g x)) with (r ^ 2 * (t * g x)) in Mp by (field; lra).
  replace (t / (q / r ^ 2) * (q * g z)) with (r ^ 2 * (t * g z)) in Mp by (field; lra). lra.
Qed.
Print Assumptions C141_prox_of_the_changed_problem.

Lemma step_or_scaled k ss b : 0 < k -> step_or (option_map (fun v => v / k) ss) (b / k) = step_or ss b / k.
Proof.
  intros Hk. destruct ss as [v|]; [|reflexivity]. cbn. destruct (Req_EM_T v 0) as [->|N], (Req_EM_T _ 0) as [E|E]; try reflexivity.
  - exfalso. apply E. unfold Rdiv. ring.
  - exfalso. apply N. apply Rmult_eq_reg_r with (/ k); [|apply Rinv_neq_0_compat; lra]. rewrite Rmult_0_l. exact E.
Qed.

(** The arguments for the changed problem: step sizes, and min_beta, divided by k. *)
Definition args_for (k : R) (a : fista_args) : fista_args :=
  mk_fargs (a_strategy a) (option_map (fun v => v / k) (a_min_beta a)) (a_s a) (a_xi a) (a_acd a) (a_p a) (a_q a) (a_r a).
Definition lambda_for (k : R) (l : lambda_arg) : lambda_arg := match l with LFista a => LFista (args_for k a) | LCall f => LCall f end.

Lemma fista_init_for k r a f : 0 < k -> fista_init a = Ok f -> fista_init (args_for k a) = Ok (fista_to r k f).
Proof.
  intros Hk. unfold fista_init, args_for. cbn [a_acd a_strategy a_min_beta a_s a_xi a_p a_q a_r].
  assert (Hm : exists m, (match a_acd a with None => Ok (Regular (a_p a) (a_q a) (a_r a)) | Some acd => if Rgt_dec acd 2 then Ok (CD acd 0) else Err ValueError end) = m) by eauto.
  destruct Hm as [m ->]. destruct m as [m|]; cbn [bind]; [|intros Q; discriminate Q].
  assert (Hb : exists b, (match a_strategy a with None => true | Some s => existsb (String.eqb s) strategy_names end) = b) by eauto.
  destruct Hb as [b ->]. destruct b; [|intros Q; discriminate Q].
  assert (E : check_restart_params m (a_strategy a) (option_map (fun v => v / k) (a_min_beta a)) (a_s a) (a_xi a) = check_restart_params m (a_strategy a) (a_min_beta a) (a_s a) (a_xi a)).
  { unfold check_restart_params. destruct (a_strategy a); [|reflexivity]. destruct (a_min_beta a); reflexivity. }
  rewrite E. destruct (check_restart_params m (a_strategy a) (a_min_beta a) (a_s a) (a_xi a)) as [u|e]; cbn [bind]; intros Q. 2: { discriminate Q. } injection Q as <-. unfold fista_to. cbn. f_equal. f_equal.
  destruct (a_min_beta a); cbn; [reflexivity|]. unfold Rdiv. ring.
Qed.

(** [C141] ForwardBackward, with any restart strategy, FISTA variant or user-supplied parameters. *)
Theorem C141_forward_backward :
  forall (H K : ips) (V : H -> K) o r k grad grad' prox prox', similarity r V -> 0 < k -> carries_gradient k V o grad grad' -> carries_prox k V o prox prox' ->
  forall x0 step_size beta lam bu lu s, fb_init x0 step_size beta lam bu lu = Ok s -> (forall n, 0 < fb_beta (fb_after grad prox n s)) ->
  exists s', fb_init (moved V o x0) (option_map (fun v => v / k) step_size) (beta / k) lam (conj_update k bu) (lambda_for k lu) = Ok s' /\
  (forall n, fb_x_old (fb_after grad' prox' n s') = moved V o (fb_x_old (fb_after grad prox n s)) /\
             fb_z_old (fb_after grad' prox' n s') = moved V o (fb_z_old (fb_after grad prox n s)) /\
             fb_beta (fb_after grad' prox' n s') = fb_beta (fb_after grad prox n s) / k /\
             fb_lambda (fb_after grad' prox' n s') = fb_lambda (fb_after grad prox n s)) /\
  forall n metric metric' period, (0 < n)%nat -> exists z,
    fb_iterate grad prox None metric false period n s = Ok z /\ fb_iterate grad' prox' None metric' false period n s' = Ok (moved V o z).
Proof.
  intros H K V o r k grad grad' prox prox' Sim Hk Gr Pr x0 ss beta lam bu lu s Init Pb. exists (fb_to V o r k s). split; [|split].
  - unfold fb_init in *. destruct lu as [a|lu].
    + cbn [lambda_for]. destruct (fista_init a) as [f|] eqn:E; cbn [bind] in Init; [|discriminate]. rewrite (fista_init_for k r a f Hk E). cbn [bind].
      injection Init as <-. unfold fb_to. cbn. rewrite step_or_scaled by exact Hk. reflexivity.
    + cbn [bind lambda_for] in *. injection Init as <-. unfold fb_to. cbn. rewrite step_or_scaled by exact Hk. reflexivity.
  - intros n. rewrite (fb_run_to V o r k Sim Hk grad grad' Gr prox prox' Pr n s Pb). repeat split.
  - intros n metric metric' period Hn. exists (fb_z_old (fb_after grad prox n s)). rewrite !fb_iterate_plain by exact Hn. split; [reflexivity|].
    rewrite (fb_run_to V o r k Sim Hk grad grad' Gr prox prox' Pr n s Pb). reflexivity.
Qed.
Print Assumptions C141_forward_backward.

(** [C141] POGM. The estimate after n updates is po_x. *)
Theorem C141_pogm :
  forall (H K : ips) (V : H -> K) o r k grad grad' prox prox', similarity r V -> 0 < k -> carries_gradient k V o grad grad' -> carries_prox k V o prox prox' ->
  forall u x y z step_size beta sigma_bar s, pogm_init grad u x y z step_size beta sigma_bar = Ok s -> 0 < step_or step_size beta ->
  exists s', pogm_init grad' (moved V o u) (moved V o x) (moved V o y) (moved V o z) (option_map (fun v => v / k) step_size) (beta / k) sigma_bar = Ok s' /\
  forall n, po_x (pogm_after grad' prox' n s') = moved V o (po_x (pogm_after grad prox n s)) /\
            po_t (pogm_after grad' prox' n s') = po_t (pogm_after grad prox n s) /\
            po_x_new (pogm_after grad' prox' n s') = option_map (moved V o) (po_x_new (pogm_after grad prox n s)).
Proof.
  intros H K V o r k grad grad' prox prox' Sim Hk Gr Pr u x y z ss beta sb s Init Pb.
  exists (with_xi 1 (pogm_to V o k s)).
  assert (Ss : s = mk_pogm u x y z (grad x) 1 1 1 (step_or ss beta) sb None /\ 0 <= sb).
  { unfold pogm_init in Init. destruct (Rlt_dec sb 0); [discriminate|]. destruct (Rgt_dec sb 1); [discriminate|]. injection Init as <-. split; [reflexivity|lra]. }
  destruct Ss as [Es Sb]. split.
  - unfold pogm_init in *. destruct (Rlt_dec sb 0); [discriminate|]. destruct (Rgt_dec sb 1); [discriminate|]. rewrite Gr, step_or_scaled by exact Hk. rewrite Es. reflexivity.
  - intros [|n]; [rewrite Es; cbn; repeat split|].
    rewrite (pogm_run_to V o r k Sim Hk grad grad' Gr prox prox' Pr n s 1); [repeat split| |left; rewrite Es; reflexivity].
    rewrite Es. unfold pogm_range. cbn. repeat split; lra.
Qed.
Print Assumptions C141_pogm.

(** [C141] GenForwardBackward, weights positive. *)
Theorem C141_gen_forward_backward :
  forall (H K : ips) (V : H -> K) o r k grad grad' proxs proxs', similarity r V -> 0 < k -> carries_gradient k V o grad grad' -> Forall2 (carries_prox k V o) proxs proxs' ->
  forall x0 step_size gamma lam gu lu ws s, gfb_init proxs x0 step_size gamma lam gu lu ws = Ok s -> Forall (Rlt 0) (g_weights s) ->
  (forall n, 0 < g_gamma (gfb_after grad proxs n s)) ->
  exists s', gfb_init proxs' (moved V o x0) (option_map (fun v => v / k) step_size) (gamma / k) lam (conj_update k gu) lu ws = Ok s' /\
  forall n, g_x_old (gfb_after grad' proxs' n s') = moved V o (g_x_old (gfb_after grad proxs n s)) /\
            g_z (gfb_after grad' proxs' n s') = map (moved V o) (g_z (gfb_after grad proxs n s)) /\
            g_x_new (gfb_after grad' proxs' n s') = option_map (moved V o) (g_x_new (gfb_after grad proxs n s)).
Proof.
  intros H K V o r k grad grad' proxs proxs' Sim Hk Gr Pr x0 ss gamma lam gu lu ws s Init Wp Pg.
  assert (Ln : List.length proxs' = List.length proxs) by (clear - Pr; induction Pr; [reflexivity|cbn; congruence]).
  exists (gfb_to V o k s). unfold gfb_init in *. rewrite Ln. destruct (gfb_weights (List.length proxs) ws) as [w|] eqn:E; cbn [bind] in *; [|discriminate].
  injection Init as Es. split.
  - rewrite <- Es. unfold gfb_to. cbn. rewrite step_or_scaled by exact Hk. f_equal. f_equal. 
    generalize (List.length proxs). intros m. induction m as [|m IH]; [reflexivity|]. cbn. f_equal. exact IH.
  - assert (Sz : gfb_sizes proxs s).
    { unfold gfb_sizes. split; [|split; [|split; [|exact Wp]]]; rewrite <- Es; cbn [g_z g_weights]; unfold gfb_weights in E;
      match type of E with context [negb (Nat.eqb ?a ?b)] => destruct (Nat.eqb_spec a b) as [Q|Q] end; cbn [negb] in E; try discriminate;
      destruct (Req_EM_T _ 1) as [Q1|]; try discriminate; injection E as <-; [rewrite repeat_length; symmetry; exact Q|exact Q|exact Q1]. }
    intros n. rewrite (gfb_run_to V o r k Sim Hk grad grad' Gr proxs proxs' Pr n s Sz Pg). repeat split.
Qed.
Print Assumptions C141_gen_forward_backward.

(** [C141] Condat: any invertible or other linear changes V of the primal and U of the dual variable that
    the operators respect. *)
Theorem C141_condat :
  forall (H H' K K' : ips) W (V : H -> H') (U : K -> K') grad prox (prox_dual : W -> K -> R -> K) lop ladj grad' prox' (prox_dual' : W -> K' -> R -> K') lop' ladj',
  linear_between V -> linear_between U ->
  (forall x, grad' (V x) = V (grad x)) -> (forall x t, prox' (V x) t = V (prox x t)) -> (forall w y t, prox_dual' w (U y) t = U (prox_dual w y t)) ->
  (forall x, lop' (V x) = U (lop x)) -> (forall y, ladj' (U y) = V (ladj y)) ->
  forall x y w step_size rho sigma tau ru su tu n,
  let s := condat_after grad prox prox_dual lop ladj n (condat_init x y w step_size rho sigma tau ru su tu) in
  let s' := condat_after grad' prox' prox_dual' lop' ladj' n (condat_init (V x) (U y) w step_size rho sigma tau ru su tu) in
  c_x s' = V (c_x s) /\ c_y s' = U (c_y s) /\ c_new s' = option_map (fun p => (V (fst p), U (snd p))) (c_new s).
Proof.
  intros H H' K K' W V U grad prox pd lop ladj grad' prox' pd' lop' ladj' LV LU Gr Pr Pd Lo La x y w ss rho sigma tau ru su tu n s s'.
  assert (E : s' = condat_to V U s).
  { unfold s', s. rewrite <- (condat_run_to V U LV LU grad prox pd lop ladj grad' prox' pd' lop' ladj' Gr Pr Pd Lo La). reflexivity. }
  rewrite E. repeat split.
Qed.
Print Assumptions C141_condat.

Section CondatUnits.
Context {H K : ips} {W : Type}.
Variables (grad grad' : H -> H) (prox : H -> R -> H) (prox_dual prox_dual' : W -> K -> R -> K) (lop : H -> K) (ladj : K -> H) (k : R).
Hypothesis Hk : 0 < k.
Hypothesis Gr : forall x, grad' x = (k * grad x)%v.
Hypothesis Pd : forall w y t, 0 < t -> prox_dual' w y (t / k) = prox_dual w y t.

Definition in_units (s : @condat H K W) : @condat H K W :=
  mk_condat (c_x s) (k * c_y s)%v (option_map (fun p => (fst p, (k * snd p)%v)) (c_new s)) (c_rho s) (k * c_sigma s) (c_tau s / k) (c_calls s) (c_w s)
    (c_rho_update s) (conj_update (/ k) (c_sigma_update s)) (conj_update k (c_tau_update s)).
Hypothesis La1 : forall c y, ladj (c * y)%v = (c * ladj y)%v.

Lemma condat_units_step s : 0 < c_sigma s ->
  condat_update grad' prox prox_dual' lop ladj (in_units s) = in_units (condat_update grad prox prox_dual lop ladj s).
Proof.
  intros Hs. unfold condat_update.
  assert (E : condat_prox grad' prox prox_dual' lop ladj (in_units s) = (fst (condat_prox grad prox prox_dual lop ladj s), (k * snd (condat_prox grad prox prox_dual lop ladj s))%v)).
  { unfold condat_prox. cbn [c_x c_y c_tau c_sigma c_w in_units fst snd].
    replace (c_x s - c_tau s / k * grad' (c_x s) - c_tau s / k * ladj (k * c_y s))%v with (c_x s - c_tau s * grad (c_x s) - c_tau s * ladj (c_y s))%v
      by (rewrite Gr, La1; vfield; lra).
    set (xp := prox _ _). f_equal.
    replace (/ (k * c_sigma s) * (k * c_y s + k * c_sigma s * lop (2 * xp - c_x s)))%v with (/ c_sigma s * (c_y s + c_sigma s * lop (2 * xp - c_x s)))%v by (vfield; lra).
    replace (1 / (k * c_sigma s)) with (1 / c_sigma s / k) by (field; lra).
    rewrite Pd by (unfold Rdiv; rewrite Rmult_1_l; apply Rinv_0_lt_compat, Hs). vring. }
  rewrite E. destruct (condat_prox grad prox prox_dual lop ladj s) as [xp yp]. cbn [fst snd]. unfold in_units. cbn. f_equal.
  - vring.
  - f_equal. f_equal. vring.
  - destruct (c_sigma_update s); cbn; [|reflexivity]. replace (k * c_sigma s * / k) with (c_sigma s) by (field; lra). field. lra.
  - destruct (c_tau_update s); cbn; [|reflexivity]. replace (c_tau s / k * k) with (c_tau s) by (field; lra). reflexivity.
Qed.
Lemma condat_units_run n s : (forall j, 0 < c_sigma (condat_after grad prox prox_dual lop ladj j s)) ->
  condat_after grad' prox prox_dual' lop ladj n (in_units s) = in_units (condat_after grad prox prox_dual lop ladj n s).
Proof. intros P. induction n as [|n IH]; [reflexivity|]. change (condat_update grad' prox prox_dual' lop ladj (condat_after grad' prox prox_dual' lop ladj n (in_units s)) = in_units (condat_update grad prox prox_dual lop ladj (condat_after grad prox prox_dual lop ladj n s))). rewrite IH. apply condat_units_step, P. Qed.
End CondatUnits.

(** [C141] Condat and the units of the objective: multiplying the data term and the sparsity penalty by k, with
    tau / k and k * sigma, keeps the estimates and multiplies the dual variable by k, when the primal
    proximity operator is a projection or the identity, the same for the changed objective. *)
Theorem C141_condat_units_of_the_objective :
  forall (H K : ips) W (grad grad' : H -> H) prox (prox_dual prox_dual' : W -> K -> R -> K) lop ladj k, 0 < k ->
  (forall x, grad' x = (k * grad x)%v) -> (forall w y t, 0 < t -> prox_dual' w y (t / k) = prox_dual w y t) ->
  (forall c y, ladj (c * y)%v = (c * ladj y)%v) ->
  forall x y w step_size rho sigma tau ru su tu, let s := condat_init x y w step_size rho sigma tau ru su tu in
  (forall n, 0 < c_sigma (condat_after grad prox prox_dual lop ladj n s)) ->
  forall n, let a := condat_after grad prox prox_dual lop ladj n s in
  let b := condat_after grad' prox prox_dual' lop ladj n
             (condat_init x (k * y)%v w (option_map (fun v => v / k) step_size) rho (k * sigma) (tau / k) ru (conj_update (/ k) su) (conj_update k tu)) in
  c_x b = c_x a /\ c_y b = (k * c_y a)%v.
Proof.
  intros H K W grad grad' prox pd pd' lop ladj k Hk Gr Pd La x y w ss rho sigma tau ru su tu s P n a b.
  assert (E : b = in_units k a).
  { unfold a. rewrite <- (condat_units_run grad grad' prox pd pd' lop ladj k Hk Gr Pd La n s P). unfold b, s, in_units, condat_init. cbn. rewrite step_or_scaled by exact Hk. reflexivity. }
  rewrite E. split; reflexivity.
Qed.
Print Assumptions C141_condat_units_of_the_objective.

(** [C141] ... but not for a primal penalty whose proximity operator shrinks: Condat does not pass tau to it. Here the
    penalty is |x|, then 2 |x| with tau halved; there is no data term and no sparsity term. *)
Theorem C141_condat_units_of_a_primal_penalty_refuted :
  exists (prox prox' : R_ips -> R -> R_ips) (x0 : R_ips) tau k, 0 < tau /\ 0 < k /\
  prox_operator (H := R_ips) everywhere (fun z => Rabs z) prox /\ prox_operator (H := R_ips) everywhere (fun z => k * Rabs z) prox' /\
  carries_prox (H := R_ips) (K := R_ips) k (fun x => x) (vzero : R_ips) prox prox' /\
  let zero := fun _ : R_ips => (vzero : R_ips) in let pd := fun (_ : unit) (y : R_ips) (_ : R) => y in
  c_x (condat_after zero prox' pd zero zero 1 (condat_init x0 (vzero : R_ips) tt None 1 k (tau / k) None None None)) <>
  c_x (condat_after zero prox pd zero zero 1 (condat_init x0 (vzero : R_ips) tt None 1 1 tau None None None)).
Proof.
  exists softc, (fun y t => softc y (2 * t)), 3, 1, 2. split; [lra|]. split; [lra|]. split; [exact soft_prox_operator|]. split; [|split].
  - intros y t Ht. destruct (soft_prox_operator y (2 * t) ltac:(lra)) as [A B]. split; [exact I|]. intros z Dz. specialize (B z Dz). cbv beta in *.
    replace (t * (2 * Rabs (softc y (2 * t)))) with (2 * t * Rabs (softc y (2 * t))) by ring. replace (t * (2 * Rabs z)) with (2 * t * Rabs z) by ring. exact B.
  - intros y t Ht. unfold moved. cbn. rewrite !Rplus_0_r. f_equal. field.
  - cbn. unfold default_extra_factor. unfold softc.
    repeat match goal with |- context [Rle_dec ?a ?b] => destruct (Rle_dec a b) | |- context [Rlt_dec ?a ?b] => destruct (Rlt_dec a b) end; try lra.
Qed.
Print Assumptions C141_condat_units_of_a_primal_penalty_refuted.

(** Metres and centimetres: min (x - 3)^2 / 2 + |x| in metres, the same objective in centimetres. The step size 1
    becomes 10000, and the first estimate, 2 metres, becomes 200 centimetres; with the step size left at 1 it is 0.02. *)
Definition centi (x : R) : R := 100 * x.
Definition m_grad (x : R) : R := x - 3.
Definition cm_grad (u : R) : R := / 10000 * (u - 300).
Definition cm_prox (u t : R) : R := softc u (t / 100).
Definition first_estimate (s : res (@fb R_ips)) (grad : R_ips -> R_ips) (prox : R_ips -> R -> R_ips) : option R :=
  match s with Ok s => Some (fb_x_old (fb_after grad prox 1 s)) | Err _ => None end.

Example C141_example :
  similarity (H := R_ips) (K := R_ips) 100 centi /\
  carries_gradient (H := R_ips) (K := R_ips) (1 / 100 ^ 2) centi (vzero : R_ips) m_grad cm_grad /\
  carries_prox (H := R_ips) (K := R_ips) (1 / 100 ^ 2) centi (vzero : R_ips) softc cm_prox /\
  first_estimate (fb_init (0 : R_ips) None 1 1 None (LCall None)) m_grad softc = Some 2 /\
  first_estimate (fb_init (0 : R_ips) None 10000 1 None (LCall None)) cm_grad cm_prox = Some 200 /\
  first_estimate (fb_init (0 : R_ips) None 1 1 None (LCall None)) cm_grad cm_prox = Some (2 / 100).
Proof.
  split; [|split; [|split; [|split; [|split]]]].
  - split; [lra|]. split; [split; intros; unfold centi; cbn; ring|]. split; [intros; unfold centi; cbn; ring|]. intros y. exists (/ 100 * (y : R)). unfold centi. change ((y : R) = 100 * (/ 100 * y)). lra.
  - intros x. unfold moved, centi, m_grad, cm_grad. cbn. lra.
  - intros y t Ht. unfold moved, centi, m_grad, cm_prox, softc. cbn. 
    replace (t / (1 / (100 * (100 * 1))) / 100) with (100 * t) by field.
    repeat match goal with |- context [Rle_dec ?a ?b] => destruct (Rle_dec a b) end; lra.
  - cbn. f_equal. unfold m_grad, softc. repeat match goal with |- context [Rle_dec ?a ?b] => destruct (Rle_dec a b) end; lra.
  - cbn. f_equal. unfold cm_grad, cm_prox, softc. cbn. repeat match goal with |- context [Rle_dec ?a ?b] => destruct (Rle_dec a b) end; lra.
  - cbn. f_equal. unfold cm_grad, cm_prox, softc. cbn. repeat match goal with |- context [Rle_dec ?a ?b] => destruct (Rle_dec a b) end; lra.
Qed.
