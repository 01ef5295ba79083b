(** Lemmas for C137: one step of GenForwardBackward does not separate two states, what errors in the
    operators do to a run, and the optimality condition when all penalties but one are Lipschitz. *)
From Verif Require Import NPReal Py IPS Spec_Opt Proof_Smooth Spec_Lim Proof_Lim Proof_Iter Model_SetUp Model_FB Proof_FB Proof_FB2 Proof_PD
  Proof_Iter3 Proof_Inexact Proof_Dual Spec_Dual Spec_Gfb.
From Coq Require Import List Lia.
Import ListNotations.
Local Open Scope R_scope.

Section Weighted.
Context {H : ips}.
Implicit Types (zs es : list H) (ws : list R).
Notation dif := (map2 (fun a b : H => (a - b)%v)).

(** The weighted length of a tuple, as a norm. *)
Fixpoint wt ws zs : pow_ips H (length ws) :=
  match ws with [] => tt | w :: ws' => (sqrt w * hd vzero zs, wt ws' (tl zs))%v end.
Definition wnorm ws zs : R := norm (wt ws zs).

Lemma wt_sq ws zs : length zs = length ws -> Forall (fun w => 0 < w) ws -> nsq (wt ws zs) = wq ws zs.
Proof.
  unfold wq. revert zs. induction ws as [|w ws IH]; intros [|z zs] L F; cbn in L; try discriminate; [reflexivity|].
  inversion F as [|? ? P F']; subst. specialize (IH zs ltac:(lia) F').
  change (nsq (wt (w :: ws) (z :: zs))) with (nsq (sqrt w * z)%v + nsq (wt ws zs)). rewrite IH, nsq_scal, sqrt_sqrt by lra. reflexivity.
Qed.
Lemma wnorm_sq ws zs : length zs = length ws -> Forall (fun w => 0 < w) ws -> wnorm ws zs * wnorm ws zs = wq ws zs.
Proof. intros L F. unfold wnorm. rewrite norm_sq. apply wt_sq; assumption. Qed.
Lemma wt_dif ws zs es : length zs = length ws -> length es = length ws -> wt ws (dif zs es) = (wt ws zs - wt ws es)%v.
Proof.
  revert zs es. induction ws as [|w ws IH]; intros [|z zs] [|e es] L1 L2; cbn in L1, L2; try discriminate; [reflexivity|].
  cbn [map2 wt hd tl]. rewrite IH by lia.
  change (wt ws zs - wt ws es)%v with (vadd (wt ws zs) (vscal (-1) (wt ws es))).
  match goal with |- ?l = ?r => change r with ((sqrt w * z - sqrt w * e)%v, (wt ws zs - wt ws es)%v) end.
  f_equal. vring.
Qed.
Lemma wnorm_triangle ws a b c : length a = length ws -> length b = length ws -> length c = length ws ->
  wnorm ws (dif a c) <= wnorm ws (dif a b) + wnorm ws (dif b c).
Proof.
  intros La Lb Lc. unfold wnorm. rewrite !wt_dif by assumption.
  replace (wt ws a - wt ws c)%v with ((wt ws a - wt ws b) + (wt ws b - wt ws c))%v by vring. apply norm_triangle.
Qed.
Lemma wq_bound ws zs c : length zs = length ws -> Forall (fun w => 0 < w) ws -> 0 <= c -> Forall (fun z => norm z <= c) zs ->
  wq ws zs <= rsum ws * (c * c).
Proof.
  intros L F Hc. unfold wq. revert zs L. induction F as [|w ws P F IH]; intros [|z zs] L B; cbn in L; try discriminate; [cbn; lra|].
  inversion B as [|? ? Bz B']; subst. specialize (IH zs ltac:(lia) B'). cbn [wip]. change (rsum (w :: ws)) with (w + rsum ws).
  fold (nsq z). rewrite <- norm_sq. pose proof (norm_pos z). assert (norm z * norm z <= c * c) by nra. nra.
Qed.
Lemma sq_le a b : 0 <= b -> a * a <= b * b -> a <= b.
Proof. intros Hb Q. destruct (Rle_lt_dec a b); [assumption|]. nra. Qed.
Lemma wnorm_bound ws zs c : length zs = length ws -> Forall (fun w => 0 < w) ws -> rsum ws = 1 -> 0 <= c -> Forall (fun z => norm z <= c) zs ->
  wnorm ws zs <= c.
Proof. intros L F E Hc B. apply sq_le; [exact Hc|]. rewrite wnorm_sq by assumption. pose proof (wq_bound ws zs c L F Hc B). rewrite E in H0. lra. Qed.
Lemma mean_bound ws zs : length zs = length ws -> Forall (fun w => 0 < w) ws -> rsum ws = 1 -> norm (weighted_sum ws zs) <= wnorm ws zs.
Proof.
  intros L F E. apply sq_le; [apply norm_pos|]. rewrite wnorm_sq, norm_sq by assumption. pose proof (jensen ws zs L F) as J. rewrite E in J. lra.
Qed.
End Weighted.

Section Pair.
Context {H : ips}.
Implicit Types (zs es : list H).
Notation dif := (map2 (fun a b : H => (a - b)%v)).
Variable gamma : R.
Hypothesis Hg : 0 < gamma.

Lemma pair_monotone (ts : list (term H)) ws zs zs' (x x' gx gx' : H) :
  length ws = length ts -> length zs = length ts -> length zs' = length ts ->
  Forall proper_term ts -> Forall (fun w => 0 < w) ws ->
  let es := dif (errors x (prox_points gamma ts ws zs x gx)) (errors x' (prox_points gamma ts ws zs' x' gx')) in
  let dz := dif zs zs' in
  let dx := (x - x')%v in let d := (gx - gx')%v in
  0 <= rsum ws * inner (dx - gamma * d)%v dx - inner (dx - gamma * d)%v (weighted_sum ws es) + inner (weighted_sum ws es) dx
       - wq ws es - inner (weighted_sum ws dz) dx + wip ws dz es.
Proof.
  revert ws zs zs'. induction ts as [|t ts IH]; intros [|w ws] [|z zs] [|z' zs'] L1 L2 L3 P W es dz dx d; cbn in L1, L2, L3; try discriminate.
  - cbn. rewrite !inner_0_l, !inner_0_r. unfold wq. cbn. lra.
  - inversion P as [|? ? [Pc Pp] Pr]; subst. inversion W as [|? ? Hw Wr]; subst.
    specialize (IH ws zs zs' ltac:(lia) ltac:(lia) ltac:(lia) Pr Wr). cbv zeta in IH.
    assert (Hc : 0 < gamma / w) by (apply Rdiv_lt_0_compat; assumption).
    pose proof (prox_vi_nonexpansive _ _ _ _ _ _ (prox_operator_vi _ _ _ Pc Pp (2 * x - z - gamma * gx)%v (gamma / w) Hc)
      (prox_operator_vi _ _ _ Pc Pp (2 * x' - z' - gamma * gx')%v (gamma / w) Hc)) as Q.
    unfold es, dz, prox_points, errors. cbn [combine map2 fst snd map weighted_sum].
    fold (prox_points gamma ts ws zs x gx) (prox_points gamma ts ws zs' x' gx').
    fold (errors x (prox_points gamma ts ws zs x gx)) (errors x' (prox_points gamma ts ws zs' x' gx')).
    set (p := t_prox t (2 * x - z - gamma * gx)%v (gamma / w)) in *. clearbody p.
    set (p' := t_prox t (2 * x' - z' - gamma * gx')%v (gamma / w)) in *. clearbody p'.
    set (es' := dif (errors x (prox_points gamma ts ws zs x gx)) (errors x' (prox_points gamma ts ws zs' x' gx'))) in *. set (dz' := dif zs zs') in *.
    fold dx in IH. fold d in IH. clearbody es' dz'. clear es dz.
    change (rsum (w :: ws)) with (w + rsum ws). unfold wq. cbn [wip]. fold (wq ws es').
    set (e := (x - p - (x' - p'))%v). set (a := (z - z')%v).
    assert (Q' : 0 <= inner (dx - a + e - gamma * d)%v (dx - e)%v).
    { replace (dx - e)%v with (p - p')%v by (unfold dx, e; vring).
      replace (dx - a + e - gamma * d)%v with ((2 * x - z - gamma * gx - (2 * x' - z' - gamma * gx')) - (p - p'))%v by (unfold dx, a, e, d; vring).
      rewrite inner_sub_l. unfold nsq in Q. lra. }
    clearbody e a dx d. clear Q. apply (Rmult_le_compat_l w) in Q'; [|lra]. rewrite Rmult_0_r in Q'.
    rewrite !inner_sub_l, !inner_add_l, ?inner_sub_l, !inner_add_r, ?inner_sub_r, ?inner_scal_l, ?inner_scal_r in *.
    rewrite (inner_sym H dx e) in *. set (I := inner e dx) in *. clearbody I.
    lra.
Qed.

Variables (f : H -> R) (grad : H -> H) (M lam : R) (ts : list (term H)) (ws : list R).
Hypothesis HM : 0 <= M.
Hypothesis Sf : smooth_convex M f grad.
Hypothesis Pt : Forall proper_term ts.
Hypothesis Lw : length ws = length ts.
Hypothesis Pw : Forall (fun w => 0 < w) ws.
Hypothesis Sw : rsum ws = 1.
Hypothesis Hl : 0 <= lam.
Hypothesis Hstep : lam + gamma * M / 2 <= 2.
Notation next := (next gamma grad lam ts ws).
Notation residuals := (residuals gamma grad ts ws).
Notation mean := (mean ws).

Lemma dif_step (zs zs' es es' : list H) : length zs' = length zs -> length es = length zs -> length es' = length zs ->
  dif (map2 (fun z e => (z - lam * e)%v) zs es) (map2 (fun z e => (z - lam * e)%v) zs' es')
  = map2 (fun z e => (z - lam * e)%v) (dif zs zs') (dif es es').
Proof.
  revert zs' es es'. induction zs as [|z zs IH]; intros [|z' zs'] [|e es] [|e' es'] L1 L2 L3; cbn in *; try discriminate; [reflexivity|].
  f_equal; [vring|]. apply IH; lia.
Qed.

(** Two states do not get further apart. *)
Lemma next_nonexp zs zs' : length zs = length ts -> length zs' = length ts -> wq ws (dif (next zs) (next zs')) <= wq ws (dif zs zs').
Proof.
  intros L L'. pose proof (residuals_length gamma grad ts ws Lw zs L) as LR. pose proof (residuals_length gamma grad ts ws Lw zs' L') as LR'.
  pose proof (pair_monotone ts ws zs zs' (mean zs) (mean zs') (grad (mean zs)) (grad (mean zs')) Lw L L' Pt Pw) as Q.
  cbv zeta in Q. fold (points gamma grad ts ws zs) (points gamma grad ts ws zs') in Q. fold (residuals zs) (residuals zs') in Q.
  rewrite (weighted_sum_sub ws zs zs') in Q by congruence.
  fold (mean zs) (mean zs') in Q. rewrite Sw in Q.
  unfold Proof_Iter3.next. rewrite dif_step by congruence.
  rewrite wq_step; [|rewrite (map2_length _ _ _ (length ts)); congruence|rewrite (map2_length _ _ _ (length ts)); congruence].
  pose proof (jensen ws (dif (residuals zs) (residuals zs')) ltac:(rewrite (map2_length _ _ _ (length ts)); congruence) Pw) as J. rewrite Sw, Rmult_1_l in J.
  pose proof (wq_pos ws (dif (residuals zs) (residuals zs')) Pw) as Qp.
  set (dz := dif zs zs') in *. set (es := dif (residuals zs) (residuals zs')) in *. set (eb := weighted_sum ws es) in *.
  pose proof (gradient_cross M f grad (mean zs) (mean zs - eb)%v (mean zs') HM Sf) as G.
  set (dx := (mean zs - mean zs')%v) in *. set (d := (grad (mean zs) - grad (mean zs'))%v) in *.
  replace (mean zs - eb - mean zs)%v with ((-1) * eb)%v in G by vring.
  replace (mean zs - eb - mean zs')%v with (dx - eb)%v in G by (unfold dx; vring). rewrite nsq_scal in G.
  clearbody dz es dx d eb. rewrite !inner_sub_l, inner_scal_l, ?inner_scal_l in Q. rewrite inner_sub_r in G.
  rewrite (inner_sym H eb dx) in Q.
  set (W := wip ws dz es) in *. set (Q0 := wq ws es) in *. set (Z := wq ws dz). set (N := nsq eb) in *.
  set (a := inner d dx) in *. set (b := inner d eb) in *.
  assert (B1 : Q0 + gamma * (a - b) <= W) by lra.
  assert (B2 : gamma * (- (M / 4) * (-1 * -1 * N)) <= gamma * (a - b)) by (apply Rmult_le_compat_l; lra).
  assert (B3 : gamma * M / 4 * N <= gamma * M / 4 * Q0) by (apply Rmult_le_compat_l; [apply Rmult_le_pos; [nra|lra]|exact J]).
  assert (B4 : (1 - gamma * M / 4) * Q0 <= W) by lra.
  apply (Rmult_le_compat_l (2 * lam)) in B4; [|lra].
  assert (0 <= lam * (2 - gamma * M / 2 - lam) * Q0) by (repeat apply Rmult_le_pos; lra). lra.
Qed.

Lemma next_nonexp_norm zs zs' : length zs = length ts -> length zs' = length ts -> wnorm ws (dif (next zs) (next zs')) <= wnorm ws (dif zs zs').
Proof.
  intros L L'. apply sq_le; [apply norm_pos|]. rewrite !wnorm_sq; try assumption.
  - apply next_nonexp; assumption.
  - rewrite (map2_length _ _ _ (length ts)); congruence.
  - rewrite (map2_length _ _ _ (length ts)); [congruence| |]; apply next_length; assumption.
Qed.

(** The same step with operators that are off by at most del and gam. *)
Variables (grad' : H -> H) (proxs : list (H -> R -> H)) (gam del : R).
Hypothesis Cg : forall u, norm (grad' u - grad u)%v <= gam.
Hypothesis Cp : Forall2 (fun t (p : H -> R -> H) => forall u c, 0 < c -> norm (p u c - t_prox t u c)%v <= del) ts proxs.
Definition next' zs : list H :=
  let x := mean zs in
  map2 (fun (pw : (H -> R -> H) * R) z => (z + lam * (fst pw (2 * x - z - gamma * grad' x)%v (gamma / snd pw) - x))%v) (combine proxs ws) zs.

Lemma next'_close zs : length zs = length ts -> Forall (fun z => norm z <= lam * (del + gamma * gam)) (dif (next zs) (next' zs)).
Proof.
  unfold Proof_Iter3.next, next', Proof_Iter3.residuals, points. set (x := mean zs). pose proof (Cg x) as Cx. set (gx := grad x) in *. set (gx' := grad' x) in *.
  clearbody x gx gx'. rename Cp into Cp0. clear - Cp0 Cx Lw Pw Pt Hg Hl. rename Cp0 into Cp. revert zs ws Lw Pw.
  revert Pt. induction Cp as [|t p ts' ps' C1 C2 IH]; intros Pt [|z zs] [|w vs] L1 W L2; cbn in L1, L2; try discriminate; [constructor|].
  inversion W as [|? ? Hw W']; subst. inversion Pt as [|? ? [Pc Pp] Pr]; subst. specialize (IH C2 Pr zs vs ltac:(lia) W' ltac:(lia)).
  unfold prox_points, errors. cbn [combine map2 fst snd map]. constructor; [|exact IH].
  assert (Hc : 0 < gamma / w) by (apply Rdiv_lt_0_compat; assumption).
  set (u := (2 * x - z - gamma * gx)%v). set (u' := (2 * x - z - gamma * gx')%v).
  replace (z - lam * (x - t_prox t u (gamma / w)) - (z + lam * (p u' (gamma / w) - x)))%v
    with ((- lam) * ((p u' (gamma / w) - t_prox t u' (gamma / w)) + (t_prox t u' (gamma / w) - t_prox t u (gamma / w))))%v by vring.
  rewrite norm_scal, Rabs_Ropp, (Rabs_pos_eq lam) by exact Hl. apply Rmult_le_compat_l; [exact Hl|].
  apply Rle_trans with (1 := norm_triangle _ _). apply Rplus_le_compat; [apply C1, Hc|].
  apply Rle_trans with (1 := prox_nonexp _ _ _ _ Hc Pc Pp u' u).
  replace (u' - u)%v with ((- gamma) * (gx' - gx))%v by (unfold u, u'; vring).
  rewrite norm_scal, Rabs_Ropp, (Rabs_pos_eq gamma) by lra. apply Rmult_le_compat_l; [lra|exact Cx].
Qed.

Lemma next'_length zs : length zs = length ts -> length (next' zs) = length ts.
Proof.
  intros L. assert (Lp : length proxs = length ts) by (pose proof Cp as Q; clear - Q; induction Q; cbn; congruence).
  unfold next'. apply map2_length; [rewrite combine_length; lia|exact L].
Qed.

Lemma runs_close (z z' : nat -> list H) : length (z 0%nat) = length ts -> z' 0%nat = z 0%nat -> (forall k, z (S k) = next (z k)) -> (forall k, z' (S k) = next' (z' k)) ->
  0 <= del + gamma * gam -> forall k, norm (mean (z' k) - mean (z k))%v <= INR k * (lam * (del + gamma * gam)).
Proof.
  intros L0 E0 St St' Hd.
  assert (Lz : forall k, length (z k) = length ts) by (intros k; induction k as [|k IH]; [exact L0|rewrite St; apply next_length; assumption]).
  assert (Lz' : forall k, length (z' k) = length ts) by (intros k; induction k as [|k IH]; [congruence|rewrite St'; apply next'_length, IH]).
  assert (B0 : 0 <= lam * (del + gamma * gam)) by (apply Rmult_le_pos; assumption).
  assert (G : forall k, wnorm ws (dif (z k) (z' k)) <= INR k * (lam * (del + gamma * gam))).
  { induction k as [|k IH].
    - cbn [INR]. rewrite E0. apply wnorm_bound; try assumption; [rewrite (map2_length _ _ _ (length ts)); congruence|lra|].
      generalize (z 0%nat). clear. induction l as [|a l IH]; cbn; constructor; [|exact IH]. rewrite vsub_self, norm_0. lra.
    - rewrite St, St', S_INR.
      pose proof (next_length gamma grad lam ts ws Lw (z k) (Lz k)) as N1. pose proof (next_length gamma grad lam ts ws Lw (z' k) (Lz' k)) as N2. pose proof (next'_length (z' k) (Lz' k)) as N3.
      apply Rle_trans with (1 := wnorm_triangle ws (next (z k)) (next (z' k)) (next' (z' k)) ltac:(congruence) ltac:(congruence) ltac:(congruence)).
      pose proof (next_nonexp_norm (z k) (z' k) (Lz k) (Lz' k)) as Q.
      assert (Q2 : wnorm ws (dif (next (z' k)) (next' (z' k))) <= lam * (del + gamma * gam)).
      { apply wnorm_bound; try assumption; [rewrite (map2_length _ _ _ (length ts)); congruence|]. apply next'_close, Lz'. }
      lra. }
  intros k. rewrite norm_sub_sym. unfold Proof_Iter3.mean. rewrite <- weighted_sum_sub by (rewrite ?Lz, ?Lz'; congruence).
  apply Rle_trans with (2 := G k). apply mean_bound; try assumption. rewrite (map2_length _ _ _ (length ts)); [congruence|apply Lz|apply Lz'].
Qed.
End Pair.

(** * The optimality condition *)
Section Optimal.
Context {H : ips}.

Fixpoint pval (ts : list (term H)) : pow_ips H (length ts) -> R :=
  match ts with [] => fun _ => 0 | t :: ts' => fun v => t_val t (fst v) + pval ts' (snd v) end.
Fixpoint pprox (ts : list (term H)) : pow_ips H (length ts) -> R -> pow_ips H (length ts) :=
  match ts with [] => fun v _ => v | t :: ts' => fun v c => (t_prox t (fst v) c, pprox ts' (snd v) c) end.
Fixpoint diag (n : nat) (x : H) : pow_ips H n := match n with O => tt | S n' => (x, diag n' x) end.
Fixpoint psum (n : nat) : pow_ips H n -> H := match n with O => fun _ => vzero | S n' => fun v => (fst v + psum n' (snd v))%v end.

Lemma diag_adjoint n : adjoint (diag n) (psum n).
Proof.
  intros x v. induction n as [|n IH]; [cbn; rewrite inner_0_r; reflexivity|]. destruct v as [a v].
  change (inner (diag (S n) x) (a, v)) with (inner x a + inner (diag n x) v). rewrite IH. cbn [psum fst snd]. rewrite inner_add_r. reflexivity.
Qed.
Lemma diag_bound n : bounded_sq (INR n) (diag n).
Proof.
  intros x. induction n as [|n IH]; [unfold nsq; cbn; lra|]. change (nsq (diag (S n) x)) with (nsq x + nsq (diag n x)). rewrite S_INR. lra.
Qed.
Lemma pval_diag ts x : pval ts (diag (length ts) x) = sum_of_terms ts x.
Proof. induction ts as [|t ts IH]; [reflexivity|]. cbn [length diag pval fst snd]. rewrite IH. reflexivity. Qed.

Lemma norm_fst {A B : ips} (a : A) (b : B) : norm a <= norm ((a, b) : prod_ips A B).
Proof. unfold norm. apply sqrt_le_1_alt. cbn. pose proof (inner_pos B b). lra. Qed.
Lemma norm_snd {A B : ips} (a : A) (b : B) : norm b <= norm ((a, b) : prod_ips A B).
Proof. unfold norm. apply sqrt_le_1_alt. cbn. pose proof (inner_pos A a). lra. Qed.

Lemma pval_convex ts : Forall finite_term ts -> Forall proper_term ts -> convex_on everywhere (pval ts).
Proof.
  intros F P. induction ts as [|t ts IH]; intros u v s _ _ Hs; (split; [exact I|]); [cbn; lra|].
  inversion F as [|? ? [D _] F']; subst. inversion P as [|? ? [C _] P']; subst.
  destruct (C (fst u) (fst v) s (D _) (D _) Hs) as [_ Q1]. destruct (IH F' P' (snd u) (snd v) s I I Hs) as [_ Q2].
  change (t_val t ((1 - s) * fst u + s * fst v)%v + pval ts ((1 - s) * snd u + s * snd v)%v
    <= (1 - s) * (t_val t (fst u) + pval ts (snd u)) + s * (t_val t (fst v) + pval ts (snd v))). refine (Rle_trans _ _ _ (Rplus_le_compat _ _ _ _ Q1 Q2) _). right. ring.
Qed.

Lemma pval_prox ts : Forall finite_term ts -> Forall proper_term ts -> prox_operator everywhere (pval ts) (pprox ts).
Proof.
  intros F P. induction ts as [|t ts IH]; intros u c Hc.
  - split; [exact I|]. intros z _. cbn. unfold nsq. cbn. lra.
  - inversion F as [|? ? [D _] F']; subst. inversion P as [|? ? [_ C] P']; subst.
    destruct (C (fst u) c Hc) as [_ Q1]. destruct (IH F' P' (snd u) c Hc) as [_ Q2]. split; [exact I|]. intros z _.
    specialize (Q1 (fst z) (D _)). specialize (Q2 (snd z) I).
    change (c * (t_val t (t_prox t (fst u) c) + pval ts (pprox ts (snd u) c)) + / 2 * (nsq (t_prox t (fst u) c - fst u)%v + nsq (pprox ts (snd u) c - snd u)%v)
      <= c * (t_val t (fst z) + pval ts (snd z)) + / 2 * (nsq (fst z - fst u)%v + nsq (snd z - snd u)%v)).
    assert (G : forall a b d a' b' d' e e' : R, c * a + / 2 * b <= c * a' + / 2 * b' -> c * d + / 2 * e <= c * d' + / 2 * e' ->
      c * (a + d) + / 2 * (b + e) <= c * (a' + d') + / 2 * (b' + e')) by (intros; lra).
    apply G; [exact Q1|exact Q2].
Qed.

Lemma pval_lipschitz ts : Forall finite_term ts -> exists G, 0 <= G /\ lipschitz_values G (pval ts).
Proof.
  induction 1 as [|t ts [_ (G1 & P1 & L1)] F (G2 & P2 & L2)]; [exists 0; split; [lra|]; intros u v; cbn; lra|].
  exists (G1 + G2). split; [lra|]. intros [a u] [b v]. specialize (L1 a b). specialize (L2 u v).
  change (t_val t a + pval ts u - (t_val t b + pval ts v) <= (G1 + G2) * norm (((a - b)%v, (u - v)%v) : prod_ips H (pow_ips H (length ts)))).
  set (n1 := norm (((a - b)%v, (u - v)%v) : prod_ips H (pow_ips H (length ts)))).
  assert (B1 : norm (a - b)%v <= n1) by apply (norm_fst (a - b)%v (u - v)%v).
  assert (B2 : norm (u - v)%v <= n1) by apply (norm_snd (a - b)%v (u - v)%v). nra.
Qed.

Lemma pval_subgradients ts x (y : pow_ips H (length ts)) : Forall finite_term ts -> subgradient everywhere (pval ts) (diag (length ts) x) y ->
  exists qs, Forall2 (fun t q => subgradient (t_dom t) (t_val t) x q) ts qs /\ sum_of_vectors qs = psum (length ts) y.
Proof.
  induction ts as [|t ts IH]; intros F [_ S]; [exists []; split; [constructor|reflexivity]|].
  inversion F as [|? ? [D _] F']; subst. destruct y as [a y]. cbn [length diag pval fst snd] in S.
  destruct (IH y F') as (qs & Fq & Eq).
  - split; [exact I|]. intros z _. specialize (S (x, z) I).
    change (t_val t x + pval ts (diag (length ts) x) + (inner a (x - x)%v + inner y (z - diag (length ts) x)%v) <= t_val t x + pval ts z) in S.
    rewrite vsub_self, inner_0_r in S. lra.
  - exists (a :: qs). split; [|cbn; rewrite Eq; reflexivity]. constructor; [|exact Fq]. split; [apply D|]. intros z _.
    specialize (S (z, diag (length ts) x) I).
    change (t_val t x + pval ts (diag (length ts) x) + (inner a (z - x)%v + inner y (diag (length ts) x - diag (length ts) x)%v) <= t_val t z + pval ts (diag (length ts) x)) in S.
    rewrite vsub_self, inner_0_r in S. lra.
Qed.

Variables (f : H -> R) (grad : H -> H) (M : R).
Hypothesis FD : finite_dimensional H.
Hypothesis HM : 0 <= M.
Hypothesis Sf : smooth_convex M f grad.

Lemma composite_sum t0 ts x : composite f (t_val t0) (pval ts) (diag (length ts)) x = f x + sum_of_terms (t0 :: ts) x.
Proof. unfold composite. rewrite pval_diag. change (sum_of_terms (t0 :: ts) x) with (t_val t0 x + sum_of_terms ts x). ring. Qed.
Lemma domain_first (t0 : term H) ts x : Forall finite_term ts -> (common_domain (t0 :: ts) x <-> t_dom t0 x).
Proof.
  intros F. split; [intros Q; inversion Q; assumption|]. intros D. constructor; [exact D|]. eapply Forall_impl; [|exact F]. intros t [Q _]. apply Q.
Qed.

Lemma solution_optimal t0 ts x y : Forall finite_term ts ->
  primal_dual_solution (t_dom t0) everywhere grad (t_val t0) (pval ts) (diag (length ts)) (psum (length ts)) x y -> optimal_point (t0 :: ts) grad x.
Proof.
  intros F [S1 S2]. destruct (pval_subgradients ts x y F S2) as (qs & Fq & Eq).
  exists (((-1) * (grad x + psum (length ts) y))%v :: qs). split; [constructor; assumption|]. cbn [sum_of_vectors]. rewrite Eq. vring.
Qed.

Lemma first_optimal t0 ts x : proper_term t0 -> Forall proper_term ts -> Forall finite_term ts ->
  minimises (common_domain (t0 :: ts)) (fun z => f z + sum_of_terms (t0 :: ts) z) x -> optimal_point (t0 :: ts) grad x.
Proof.
  intros [C0 P0] P F [Dx Mx]. destruct (pval_lipschitz ts F) as (G & PG & LG).
  destruct (dual_exists (t_dom t0) f (t_val t0) (pval ts) grad (t_prox t0) (pprox ts) (diag (length ts)) (psum (length ts)) M (INR (length ts)) G
    (fd_pow _ FD) (diag_adjoint _) (diag_bound _) (pos_INR _) HM Sf C0 (pval_convex ts F P) P0 (pval_prox ts F P) PG LG x) as (y & S).
  - split; [apply (domain_first t0 ts x F), Dx|]. intros z Dz.
    change (composite f (t_val t0) (pval ts) (diag (length ts)) x <= composite f (t_val t0) (pval ts) (diag (length ts)) z). rewrite !composite_sum. apply Mx, domain_first; assumption.
  - apply (solution_optimal t0 ts x y F S).
Qed.

Lemma first_exists (t0 : term H) ts a : proper_term t0 -> Forall proper_term ts -> Forall finite_term ts -> t_dom t0 a ->
  coercive_on (common_domain (t0 :: ts)) (fun z => f z + sum_of_terms (t0 :: ts) z) -> exists x, optimal_point (t0 :: ts) grad x.
Proof.
  intros [C0 P0] P F Da Co. destruct (pval_lipschitz ts F) as (G & PG & LG).
  destruct (coercive_solution (t_dom t0) f (t_val t0) (pval ts) grad (t_prox t0) (pprox ts) (diag (length ts)) (psum (length ts)) M (INR (length ts)) G
    FD (fd_pow _ FD) (diag_adjoint _) (diag_bound _) (pos_INR _) HM Sf C0 (pval_convex ts F P) P0 (pval_prox ts F P) PG LG a Da) as (x & y & S).
  - intros b. destruct (Co b) as (r & Q). exists r. intros x Dx Hx. apply Q; [apply domain_first; assumption|]. rewrite <- composite_sum. exact Hx.
  - exists x. apply (solution_optimal t0 ts x y F S).
Qed.

(** Any position in the list. *)
Lemma move_optimal l1 t0 l2 x : optimal_point (t0 :: l1 ++ l2) grad x -> optimal_point (l1 ++ t0 :: l2) grad x.
Proof.
  intros (qs & Fq & Eq). inversion Fq as [|? q0 ? qs' S0 Fq']; subst. apply Forall2_app_inv_l in Fq'. destruct Fq' as (q1 & q2 & F1 & F2 & ->).
  exists (q1 ++ q0 :: q2). split; [apply Forall2_app; [exact F1|constructor; assumption]|]. rewrite <- Eq. f_equal.
  clear. induction q1 as [|a q1 IH]; [reflexivity|]. cbn [app sum_of_vectors] in *. rewrite IH. vring.
Qed.
Lemma move_domain l1 (t0 : term H) l2 x : common_domain (l1 ++ t0 :: l2) x <-> common_domain (t0 :: l1 ++ l2) x.
Proof. unfold common_domain. rewrite Forall_app. split; [intros [A B]; inversion B; subst; constructor; [assumption|apply Forall_app; auto]|intros A; inversion A as [|? ? A1 A2]; subst; apply Forall_app in A2; destruct A2; split; [assumption|constructor; assumption]]. Qed.
Lemma move_sum l1 (t0 : term H) l2 x : sum_of_terms (l1 ++ t0 :: l2) x = sum_of_terms (t0 :: l1 ++ l2) x.
Proof.
  induction l1 as [|a l1 IH]; [reflexivity|]. cbn [app].
  change (t_val a x + sum_of_terms (l1 ++ t0 :: l2) x = t_val t0 x + (t_val a x + sum_of_terms (l1 ++ l2) x)). rewrite IH.
  change (sum_of_terms (t0 :: l1 ++ l2) x) with (t_val t0 x + sum_of_terms (l1 ++ l2) x). ring.
Qed.
End Optimal.

(** * Runs *)
Section Runs.
Context {H : ips}.
Implicit Types (zs : list H).

Lemma next'_exact gamma lam ws grad (ts : list (term H)) zs : length ws = length ts -> length zs = length ts ->
  next' gamma lam ws grad (map t_prox ts) zs = next gamma grad lam ts ws zs.
Proof.
  unfold next', next, residuals, errors, points, prox_points. set (x := mean ws zs). set (gx := grad x). clearbody x gx.
  revert ws zs. induction ts as [|u us IH]; intros [|v vs] [|a l] L1 L2; cbn in L1, L2; try discriminate; [reflexivity|].
  cbn [map combine map2 fst snd]. f_equal; [vring|]. apply IH; lia.
Qed.

Lemma gfb_facts grad proxs (x0 : H) gamma gp lam w s0 : 0 < gamma -> gfb_init proxs x0 (Some gamma) gp lam None None w = Ok s0 ->
  length (g_weights s0) = length proxs /\ rsum (g_weights s0) = 1 /\ g_z s0 = repeat x0 (length proxs) /\
  forall k, g_x_old (gfb_after grad proxs k s0) = mean (g_weights s0) (g_z (gfb_after grad proxs k s0)) /\
    length (g_z (gfb_after grad proxs k s0)) = length proxs /\
    g_z (gfb_after grad proxs (S k) s0) = next' gamma lam (g_weights s0) grad proxs (g_z (gfb_after grad proxs k s0)).
Proof.
  intros Hg E. pose proof (fun k => gfb_invariant grad proxs x0 (Some gamma) gp lam None None w s0 k E) as Inv.
  assert (Eg : g_gamma s0 = gamma /\ g_lambda s0 = lam /\ g_gamma_update s0 = None /\ g_lambda_update s0 = None /\ g_z s0 = repeat x0 (length proxs)).
  { unfold gfb_init in E. destruct (gfb_weights _ w); cbn [bind] in E; [|discriminate]. rewrite step_or_pos in E by exact Hg. injection E as <-. repeat split. }
  destruct Eg as (G1 & G2 & G3 & G4 & G5). destruct (Inv 0%nat) as (_ & _ & Lw & Sw & _). split; [exact Lw|]. split; [exact Sw|]. split; [exact G5|].
  assert (K : forall k, g_gamma (gfb_after grad proxs k s0) = gamma /\ g_lambda (gfb_after grad proxs k s0) = lam /\
     g_gamma_update (gfb_after grad proxs k s0) = None /\ g_lambda_update (gfb_after grad proxs k s0) = None).
  { induction k as [|k (I1 & I2 & I3 & I4)]; [cbn; auto|].
    change (gfb_after grad proxs (S k) s0) with (gfb_update grad proxs (gfb_after grad proxs k s0)). unfold gfb_update. cbn. rewrite I3, I4. cbn. auto. }
  intros k. destruct (Inv k) as (Ex & Ew & _ & _ & Lz). rewrite Ew in Ex. split; [exact Ex|]. split; [exact Lz|].
  destruct (K k) as (K1 & K2 & _). change (gfb_after grad proxs (S k) s0) with (gfb_update grad proxs (gfb_after grad proxs k s0)).
  unfold gfb_update. cbn [g_z]. rewrite K1, K2, Ew, Ex. reflexivity.
Qed.

(** At a fixed point the optimality condition holds. *)
Lemma fixed_optimal gamma grad (ts : list (term H)) ws zs : 0 < gamma -> Forall proper_term ts -> length ws = length ts -> Forall (fun w => 0 < w) ws -> rsum ws = 1 ->
  fixed gamma grad ts ws zs -> optimal_point ts grad (mean ws zs).
Proof.
  intros Hg Pt Lw Pw Sw [Lz Fx]. unfold points in Fx.
  exists (map2 (fun w z => (w / gamma * (mean ws zs - z - gamma * grad (mean ws zs)))%v) ws zs).
  assert (E : (mean ws zs - mean ws zs)%v = vzero) by apply vsub_self. unfold mean in E at 2.
  set (x := mean ws zs) in *. set (gx := grad x) in *. clearbody x gx. split.
  - clear E Sw. revert ws zs Lw Pw Lz Fx. induction Pt as [|t ts [Pc Pp] Pt IH]; intros [|w ws] [|z zs] Lw Pw Lz Fx; cbn in Lw, Lz; try discriminate; [constructor|].
    inversion Pw as [|? ? Hw Pw']; subst. unfold prox_points in Fx. cbn [combine map2 fst snd length repeat] in Fx. injection Fx as F1 F2.
    cbn [map2]. constructor; [|apply IH; try assumption; lia].
    assert (Hc : 0 < gamma / w) by (apply Rdiv_lt_0_compat; assumption).
    destruct (prox_operator_vi _ _ _ Pc Pp (2 * x - z - gamma * gx)%v (gamma / w) Hc) as [D V]. rewrite F1 in D, V. split; [exact D|]. intros u Du. specialize (V u Du).
    replace (2 * x - z - gamma * gx - x)%v with (x - z - gamma * gx)%v in V by vring. rewrite inner_scal_l.
    set (a := inner (x - z - gamma * gx)%v (u - x)%v) in *.
    apply (Rmult_le_compat_l (w / gamma)) in V; [|left; apply Rdiv_lt_0_compat; assumption].
    replace (w / gamma * (gamma / w * t_val t u)) with (t_val t u) in V by (field; lra).
    replace (w / gamma * (gamma / w * t_val t x + a)) with (t_val t x + w / gamma * a) in V by (field; lra).
    replace (w / gamma * (a + gamma / w * t_val t x)) with (t_val t x + w / gamma * a) in V by (field; lra). lra.
  - assert (G : forall vs rs, length rs = length vs -> sum_of_vectors (map2 (fun w z => (w / gamma * (x - z - gamma * gx))%v) vs rs)
      = (/ gamma * (rsum vs * (x - gamma * gx) - weighted_sum vs rs))%v).
    { clear. induction vs as [|v vs IH]; intros [|r rs] L; cbn in L; try discriminate; cbn [map2 sum_of_vectors weighted_sum]; [cbn; vring|].
      rewrite IH by lia. change (rsum (v :: vs)) with (v + rsum vs). unfold Rdiv. vring. }
    rewrite G by congruence. rewrite Sw.
    replace (1 * (x - gamma * gx) - weighted_sum ws zs)%v with ((x - weighted_sum ws zs) - gamma * gx)%v by vring. rewrite E. vfield. lra.
Qed.

Lemma converges_pk n (u : nat -> list H) (l : list H) : (forall k, length (u k) = n) -> length l = n ->
  (forall i, (i < n)%nat -> converges (fun k => nth i (u k) vzero) (nth i l vzero)) -> converges (fun k => pk n (u k)) (pk n l).
Proof.
  revert u l. induction n as [|n IH]; intros u l Lu Ll C; [apply (converges_const (H := unit_ips) tt)|].
  cbn [pk]. apply (converges_pair (A := H) (B := pow_ips H n) (fun k => hd vzero (u k)) (fun k => pk n (tl (u k)))).
  - specialize (C 0%nat ltac:(lia)). destruct l; [discriminate|]. apply converges_ext with (2 := C). intros k. specialize (Lu k). destruct (u k); [discriminate|reflexivity].
  - apply IH; [intros k; specialize (Lu k); destruct (u k); cbn in *; lia|destruct l; cbn in *; lia|].
    intros i Hi. specialize (C (S i) ltac:(lia)). destruct l; [discriminate|]. apply converges_ext with (2 := C). intros k. specialize (Lu k). destruct (u k); [discriminate|reflexivity].
Qed.

Lemma points_limit gamma (f : H -> R) grad M lam (ts : list (term H)) ws (z : nat -> list H) zs :
  0 < gamma -> smooth_convex M f grad -> Forall proper_term ts -> length ws = length ts -> Forall (fun w => 0 < w) ws -> rsum ws = 1 -> lam <> 0 ->
  length zs = length ts -> (forall k, length (z k) = length ts) -> (forall k, z (S k) = next gamma grad lam ts ws (z k)) ->
  (forall i, (i < length ts)%nat -> converges (fun k => nth i (z k) vzero) (nth i zs vzero)) ->
  fixed gamma grad ts ws zs.
Proof.
  intros Hg Sf Pt Lw Pw Sw Hl Ls Lz St C. pose proof (converges_pk (length ts) z zs Lz Ls C) as Cp.
  rewrite <- (up_pk (length ts) zs Ls). refine (proj1 (fixed_from_limit gamma Hg f grad M ts ws Sf Pt Lw Pw z (pk (length ts) zs) Lz Cp _)).
  destruct (wq_form (H := H) (length ts) ws Lw Pw) as (c & Hc & B).
  assert (Cd : converges (fun k => (pk (length ts) (z k) - pk (length ts) (z (S k)))%v) vzero).
  { replace vzero with (pk (length ts) zs - pk (length ts) zs)%v by apply vsub_self. apply converges_sub_v; [exact Cp|].
    apply (converges_sub (fun k => pk (length ts) (z k)) _ S); [intros k; lia|exact Cp]. }
  assert (E : forall k, map2 (fun a b => (a - b)%v) (z k) (z (S k)) = map (fun e => (lam * e)%v) (residuals gamma grad ts ws (z k))).
  { intros k. rewrite St. unfold next. pose proof (residuals_length gamma grad ts ws Lw (z k) (Lz k)) as LR. rewrite <- (Lz k) in LR. revert LR.
    generalize (residuals gamma grad ts ws (z k)). generalize (z k). clear. intros zs. induction zs as [|a zs IH]; intros [|e es] L; cbn in *; try discriminate; [reflexivity|].
    f_equal; [vring|]. apply IH. lia. }
  assert (Q : forall k, lam * lam * wq ws (residuals gamma grad ts ws (z k)) <= nsq (pk (length ts) (z k) - pk (length ts) (z (S k)))%v).
  { intros k. destruct (B (pk (length ts) (z k) - pk (length ts) (z (S k)))%v) as [_ B2]. rewrite up_sub, !up_pk, E, Sw in B2 by apply Lz.
    rewrite Rmult_1_l in B2. apply Rle_trans with (2 := B2). right. unfold wq. generalize (residuals gamma grad ts ws (z k)). clear. induction ws as [|w vs IH]; intros [|e es]; cbn; try ring.
    rewrite <- IH. iexpand. ring. }
  intros e He. assert (Pl : 0 < lam * lam) by nra. set (q := sqrt (lam * lam * e)). assert (Pq : 0 < q) by (apply sqrt_lt_R0, Rmult_lt_0_compat; assumption).
  destruct (Cd q Pq) as (N & QN). exists N. intros k Hk. specialize (QN k Hk). specialize (Q k). rewrite vsub_0_r in QN.
  rewrite <- norm_sq in Q. set (d := norm (pk (length ts) (z k) - pk (length ts) (z (S k)))%v) in *. pose proof (norm_pos (pk (length ts) (z k) - pk (length ts) (z (S k)))%v) as Pd. fold d in Pd.
  assert (q * q = lam * lam * e) by (unfold q; apply sqrt_sqrt; nra). assert (d * d < q * q) by nra.
  apply Rmult_lt_reg_l with (lam * lam); [exact Pl|]. lra.
Qed.
End Runs.
