(** Two runs of GenForwardBackward with the same parameters. *)
From Verif Require Import NPReal Py IPS Spec_Opt Proof_Smooth Spec_Lim Proof_Lim Proof_Iter Proof_Iter3 Model_SetUp Model_FB Proof_FB Proof_FB2 Proof_PD Prop_Lim.
From Coq Require Import List Lia.
Import ListNotations.
Local Open Scope R_scope.

Section GFB.
Context {H : ips}.
Implicit Types (zs es ps : list H).
Variable gamma : R.
Hypothesis Hg : 0 < gamma.
Definition diffs zs es : list H := map2 (fun a b => (a - b)%v) zs es.

Lemma diffs_length zs es n : length zs = n -> length es = n -> length (diffs zs es) = n.
Proof. intros. unfold diffs. apply map2_length; assumption. Qed.

Lemma summed_monotone2 ts ws zs zs' (x x' gx gx' : H) :
  length ws = length ts -> length zs = length ts -> length zs' = length ts ->
  Forall proper_term ts -> Forall (fun w => 0 < w) ws ->
  let es := diffs (errors x (prox_points gamma ts ws zs x gx)) (errors x' (prox_points gamma ts ws zs' x' gx')) in
  let dz := diffs zs zs' in
  let dx := (x - x')%v in let d := (gx - gx')%v in
  0 <= rsum ws * inner (dx - gamma * d)%v dx - inner (dx - gamma * d)%v (weighted_sum ws es) + inner (weighted_sum ws es) dx
       - wq ws es - inner (weighted_sum ws dz) dx + wip ws dz es.
Proof.
  revert ws zs zs'. induction ts as [|t ts IH]; intros [|w ws] [|z zs] [|z' zs'] L1 L2 L3 P W es dz dx d; cbn in L1, L2, L3; try discriminate.
  - cbn. rewrite !inner_0_l, !inner_0_r. unfold wq. cbn. lra.
  - inversion P as [|? ? [Pc Pp] Pr]; subst. inversion W as [|? ? Hw Wr]; subst.
    specialize (IH ws zs zs' ltac:(lia) ltac:(lia) ltac:(lia) Pr Wr). cbv zeta in IH. unfold diffs in IH.
    assert (Hc : 0 < gamma / w) by (apply Rdiv_lt_0_compat; assumption).
    pose proof (prox_vi_nonexpansive _ _ _ _ _ _ (prox_operator_vi _ _ _ Pc Pp (2 * x - z - gamma * gx)%v (gamma / w) Hc)
      (prox_operator_vi _ _ _ Pc Pp (2 * x' - z' - gamma * gx')%v (gamma / w) Hc)) as Q.
    unfold es, dz, diffs, prox_points, errors. cbn [combine map2 fst snd map weighted_sum].
    fold (prox_points gamma ts ws zs x gx). fold (errors x (prox_points gamma ts ws zs x gx)).
    fold (prox_points gamma ts ws zs' x' gx'). fold (errors x' (prox_points gamma ts ws zs' x' gx')).
    set (p := t_prox t (2 * x - z - gamma * gx)%v (gamma / w)) in *. set (p' := t_prox t (2 * x' - z' - gamma * gx')%v (gamma / w)) in *. clearbody p p'.
    set (es' := map2 _ (errors x _) (errors x' _)) in *. set (dz' := map2 (fun a b => (a - b)%v) zs zs') in *.
    fold dx in IH. fold d in IH. clearbody es' dz'. clear es dz.
    change (rsum (w :: ws)) with (w + rsum ws). unfold wq. cbn [wip]. fold (wq ws es').
    set (e := (x - p - (x' - p'))%v). set (a := (z - z')%v).
    assert (Q' : 0 <= inner (dx - a + e - gamma * d)%v (dx - e)%v).
    { replace (dx - e)%v with (p - p')%v by (unfold dx, e; vring).
      replace (dx - a + e - gamma * d)%v with ((2 * x - z - gamma * gx - (2 * x' - z' - gamma * gx')) - (p - p'))%v by (unfold dx, a, e, d; vring).
      rewrite inner_sub_l. unfold nsq in Q. lra. }
    clearbody e a dx d. clear Q. apply (Rmult_le_compat_l w) in Q'; [|lra]. rewrite Rmult_0_r in Q'.
    rewrite !inner_sub_l, !inner_add_l, ?inner_sub_l, !inner_add_r, ?inner_sub_r, ?inner_scal_l, ?inner_scal_r in *.
    rewrite (inner_sym H dx e) in *. set (I := inner e dx) in *. clearbody I.
    lra.
Qed.

Variables (f : H -> R) (grad : H -> H) (M lam : R) (ts : list (term H)) (ws : list R).
Hypothesis HM : 0 <= M.
Hypothesis Sf : smooth_convex M f grad.
Hypothesis Pt : Forall proper_term ts.
Hypothesis Lw : length ws = length ts.
Hypothesis Pw : Forall (fun w => 0 < w) ws.
Hypothesis Sw : rsum ws = 1.
Hypothesis Hl : 0 <= lam.
Hypothesis Hstep : lam + gamma * M / 2 <= 2.
Let n := length ts.
Notation nxt := (next gamma grad lam ts ws).
Notation resid := (residuals gamma grad ts ws).

Lemma diffs_step (zs zs' es es' : list H) : length zs = length zs' -> length es = length zs -> length es' = length zs ->
  diffs (map2 (fun z e => (z - lam * e)%v) zs es) (map2 (fun z e => (z - lam * e)%v) zs' es') = map2 (fun z e => (z - lam * e)%v) (diffs zs zs') (diffs es es').
Proof.
  unfold diffs. revert zs' es es'. induction zs as [|z zs IH]; intros [|z' zs'] [|e es] [|e' es'] L1 L2 L3; cbn in *; try discriminate; [reflexivity|].
  f_equal; [vring|]. apply IH; lia.
Qed.

Lemma gfb_two_points zs zs' : length zs = n -> length zs' = n ->
  wq ws (diffs (nxt zs) (nxt zs')) + lam * (2 - gamma * M / 2 - lam) * wq ws (diffs (resid zs) (resid zs')) <= wq ws (diffs zs zs').
Proof.
  intros L L'. pose proof (residuals_length gamma grad ts ws Lw zs L) as LR. pose proof (residuals_length gamma grad ts ws Lw zs' L') as LR'.
  pose proof (summed_monotone2 ts ws zs zs' (mean ws zs) (mean ws zs') (grad (mean ws zs)) (grad (mean ws zs')) Lw L L' Pt Pw) as Q.
  cbv zeta in Q. fold (points gamma grad ts ws zs) in Q. fold (points gamma grad ts ws zs') in Q. fold (resid zs) in Q. fold (resid zs') in Q.
  unfold diffs at 4 in Q. rewrite weighted_sum_sub in Q by (unfold n in *; congruence).
  fold (mean ws zs) (mean ws zs') in Q. rewrite Sw in Q.
  unfold next. rewrite diffs_step by (unfold n in *; congruence).
  pose proof (diffs_length _ _ n L L') as LD. pose proof (diffs_length _ _ n LR LR') as LE.
  rewrite wq_step by (unfold n in *; congruence).
  pose proof (jensen ws (diffs (resid zs) (resid zs')) ltac:(unfold n in *; congruence) Pw) as J. rewrite Sw, Rmult_1_l in J.
  set (dz := diffs zs zs') in *. set (es := diffs (resid zs) (resid zs')) in *. set (eb := weighted_sum ws es) in *.
  pose proof (gradient_cross M f grad (mean ws zs) (mean ws zs - eb)%v (mean ws zs') HM Sf) as G.
  set (dx := (mean ws zs - mean ws zs')%v) in *. set (d := (grad (mean ws zs) - grad (mean ws zs'))%v) in *.
  replace (mean ws zs - eb - mean ws zs)%v with ((-1) * eb)%v in G by vring.
  replace (mean ws zs - eb - mean ws zs')%v with (dx - eb)%v in G by (unfold dx; vring). rewrite nsq_scal in G.
  clearbody dz es dx d eb. rewrite !inner_sub_l, inner_scal_l, ?inner_scal_l in Q. rewrite inner_sub_r in G.
  rewrite (inner_sym H eb dx) in Q.
  set (W := wip ws dz es) in *. set (Q0 := wq ws es) in *. set (Z := wq ws dz). set (N := nsq eb) in *.
  set (a := inner d dx) in *. set (b := inner d eb) in *.
  assert (B1 : Q0 + gamma * (a - b) <= W) by lra.
  assert (B2 : gamma * (- (M / 4) * (-1 * -1 * N)) <= gamma * (a - b)) by (apply Rmult_le_compat_l; lra).
  assert (B3 : gamma * M / 4 * N <= gamma * M / 4 * Q0) by (apply Rmult_le_compat_l; [apply Rmult_le_pos; [nra|lra]|exact J]).
  assert (B4 : (1 - gamma * M / 4) * Q0 <= W) by lra.
  apply (Rmult_le_compat_l (2 * lam)) in B4; [|lra]. lra.
Qed.

Lemma gfb_apart zs zs' : length zs = n -> length zs' = n -> wq ws (diffs (nxt zs) (nxt zs')) <= wq ws (diffs zs zs').
Proof.
  intros L L'. pose proof (gfb_two_points zs zs' L L') as Q. pose proof (wq_pos ws (diffs (resid zs) (resid zs')) Pw) as P.
  assert (0 <= lam * (2 - gamma * M / 2 - lam) * wq ws (diffs (resid zs) (resid zs'))) by (apply Rmult_le_pos; [apply Rmult_le_pos; lra|exact P]). lra.
Qed.

Lemma mean_apart zs zs' : length zs = n -> length zs' = n -> nsq (mean ws zs - mean ws zs')%v <= wq ws (diffs zs zs').
Proof.
  intros L L'. pose proof (jensen ws (diffs zs zs') ltac:(rewrite (diffs_length zs zs' n L L'); symmetry; exact Lw) Pw) as J.
  rewrite Sw, Rmult_1_l in J. unfold diffs in J at 1. rewrite weighted_sum_sub in J by (unfold n in *; congruence). exact J.
Qed.

Lemma wq_same (x x' : H) : wq ws (diffs (repeat x n) (repeat x' n)) = nsq (x - x')%v.
Proof.
  transitivity (rsum ws * nsq (x - x')%v); [|rewrite Sw; ring].
  unfold n. rewrite <- Lw. clear. unfold wq, diffs. induction ws as [|w l IH]; [cbn; ring|].
  cbn [length repeat map2 wip]. rewrite IH. change (rsum (w :: l)) with (w + rsum l). unfold nsq. ring.
Qed.
End GFB.

(** The auxiliary variables of the object follow [next]. *)
Lemma gfb_steps {H : ips} (ts : list (term H)) grad (x0 : H) gamma gp lam w s0 : 0 < gamma ->
  gfb_init (map t_prox ts) x0 (Some gamma) gp lam None None w = Ok s0 ->
  let ws := g_weights s0 in let z k := g_z (gfb_after grad (map t_prox ts) k s0) in
  length ws = length ts /\ rsum ws = 1 /\ z 0%nat = repeat x0 (length ts) /\
  (forall k, length (z k) = length ts) /\
  (forall k, z (S k) = next gamma grad lam ts ws (z k)) /\
  (forall k, g_x_old (gfb_after grad (map t_prox ts) k s0) = mean ws (z k)).
Proof.
  intros Hg E ws z.
  pose proof (fun k => gfb_invariant grad (map t_prox ts) x0 (Some gamma) gp lam None None w s0 k E) as Inv.
  assert (Eg : g_gamma s0 = gamma /\ g_lambda s0 = lam /\ g_gamma_update s0 = None /\ g_lambda_update s0 = None /\ g_z s0 = repeat x0 (length ts)).
  { unfold gfb_init in E. destruct (gfb_weights _ w); cbn [bind] in E; [|discriminate]. rewrite step_or_pos in E by exact Hg. injection E as <-. cbn. rewrite ?map_length. auto 6. }
  destruct Eg as (G1 & G2 & G3 & G4 & G5).
  destruct (Inv 0%nat) as (_ & _ & Lw & Sw & L0). rewrite map_length in Lw, L0.
  split; [exact Lw|]. split; [exact Sw|]. split; [exact G5|].
  split; [intros k; destruct (Inv k) as (_ & _ & _ & _ & Lz); rewrite map_length in Lz; exact Lz|].
  split; [|intros k; destruct (Inv k) as (Ex & Ew & _); rewrite Ex, Ew; reflexivity].
  intros k. destruct (gfb_constant grad (map t_prox ts) s0 k G3 G4) as (K1 & K2 & K3 & _).
  destruct (Inv k) as (Ex & Ew & _ & _ & Lz). rewrite map_length in Lz. rewrite Ew in Ex. unfold z.
  change (gfb_after grad (map t_prox ts) (S k) s0) with (gfb_update grad (map t_prox ts) (gfb_after grad (map t_prox ts) k s0)).
  unfold gfb_update. cbn [g_z]. rewrite K1, K2, Ew, Ex, G1, G2. unfold next, residuals, errors, points, mean. fold ws.
  set (s := gfb_after grad (map t_prox ts) k s0) in *. set (xk := weighted_sum ws (g_z s)). set (gx := grad xk). clearbody xk gx.
  unfold prox_points. change (g_weights s0) with ws in Lw. revert Lw Lz. generalize (g_z s) ws ts. clear.
  intros l vs us. revert vs l. induction us as [|u us IH]; intros [|v vs] [|a l] L1 L2; cbn in L1, L2; try discriminate; [reflexivity|].
  cbn [map combine map2 fst snd]. f_equal; [vring|]. apply IH; lia.
Qed.

Lemma gfb_iterate_plain {H : ips} grad (proxs : list (H -> R -> H)) metric period n s : (0 < n)%nat ->
  gfb_iterate grad proxs None metric false period n s = Ok (g_x_old (gfb_after grad proxs n s)).
Proof.
  intros Hn. unfold gfb_iterate.
  destruct (run_plain GenForwardBackward (gfb_update grad proxs) None metric false period n (mk_alg s [] false) eq_refl eq_refl eq_refl) as (s' & tr' & E & D').
  rewrite E. cbn [bind fst]. rewrite D'. cbn [data]. destruct n as [|n]; [lia|]. reflexivity.
Qed.
