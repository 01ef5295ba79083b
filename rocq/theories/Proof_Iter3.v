(** Convergence of the iterates of GenForwardBackward in finite-dimensional spaces. *)
From Verif Require Import NPReal Py IPS Spec_Opt Proof_Smooth Spec_Lim Proof_Lim Proof_Iter Model_SetUp Model_FB Proof_FB Proof_FB2 Proof_PD.
From Coq Require Import List Lia.
Import ListNotations.
Local Open Scope R_scope.

(** * n-tuples of vectors *)
Definition unit_ips : ips.
Proof.
  refine (mk_ips unit (fun _ _ => tt) (fun _ _ => tt) tt (fun _ _ => 0) _ _ _ _ _ _ _ _ _); intros; try lra.
  all: repeat match goal with x : unit |- _ => destruct x end; reflexivity.
Defined.
Fixpoint pow_ips (H : ips) (n : nat) : ips := match n with O => unit_ips | S n' => prod_ips H (pow_ips H n') end.

Section Pow.
Context {H : ips}.
Fixpoint pk (n : nat) (l : list H) : pow_ips H n :=
  match n with O => tt | S n' => (hd vzero l, pk n' (tl l)) end.
Fixpoint up (n : nat) : pow_ips H n -> list H :=
  match n with O => fun _ => [] | S n' => fun v => fst v :: up n' (snd v) end.

Lemma up_length n v : length (up n v) = n.
Proof. revert v. induction n as [|n IH]; intros v; cbn; [reflexivity|]. rewrite IH. reflexivity. Qed.
Lemma up_pk n l : length l = n -> up n (pk n l) = l.
Proof. revert l. induction n as [|n IH]; intros [|a l] L; cbn in *; try discriminate; [reflexivity|]. rewrite IH by lia. reflexivity. Qed.
Lemma up_sub n (v w : pow_ips H n) : up n (v - w)%v = map2 (fun a b => (a - b)%v) (up n v) (up n w).
Proof. revert v w. induction n as [|n IH]; intros v w; [reflexivity|]. destruct v as [a v], w as [b w]. cbn [up fst snd map2]. f_equal. apply IH. Qed.

Lemma fd_pow n : finite_dimensional H -> finite_dimensional (pow_ips H n).
Proof.
  intros F. induction n as [|n IH]; [exists []; intros []; reflexivity|]. cbn [pow_ips]. apply fd_prod; assumption.
Qed.

Lemma converges_pow n (u : nat -> pow_ips H n) l : converges u l ->
  forall i, converges (fun k => nth i (up n (u k)) vzero) (nth i (up n l) vzero).
Proof.
  revert u l. induction n as [|n IH]; intros u l C i.
  - cbn. destruct i; apply converges_const.
  - apply converges_prod in C. destruct C as [C1 C2]. destruct i as [|i]; cbn [up nth]; [exact C1|]. apply (IH (fun k => snd (u k)) (snd l) C2).
Qed.
End Pow.

Section GFBConv.
Context {H : ips}.
Implicit Types (zs es ps : list H) (ws : list R) (ts : list (term H)).

(** Weighted sums of products. *)
Fixpoint wip ws zs es : R := match ws, zs, es with w :: ws', z :: zs', e :: es' => w * inner z e + wip ws' zs' es' | _, _, _ => 0 end.
Definition wq ws zs : R := wip ws zs zs.

Lemma wq_pos ws zs : Forall (fun w => 0 < w) ws -> 0 <= wq ws zs.
Proof.
  unfold wq. revert zs. induction ws as [|w ws IH]; intros [|z zs] F; cbn; try lra. inversion F; subst.
  specialize (IH zs ltac:(assumption)). pose proof (inner_pos H z). nra.
Qed.

Lemma wq_step lam ws zs es : length zs = length ws -> length es = length ws ->
  wq ws (map2 (fun z e => (z - lam * e)%v) zs es) = wq ws zs - 2 * lam * wip ws zs es + lam * lam * wq ws es.
Proof.
  unfold wq. revert zs es. induction ws as [|w ws IH]; intros [|z zs] [|e es] L1 L2; cbn in *; try discriminate; [ring|].
  rewrite IH by lia. iexpand. rewrite (inner_sym H e z). ring.
Qed.

Lemma rsum_nonneg ws : Forall (fun w => 0 < w) ws -> 0 <= rsum ws.
Proof. induction 1 as [|w ws P F IH]; [cbn; lra|]. change (rsum (w :: ws)) with (w + rsum ws). lra. Qed.

Lemma jensen ws es : length es = length ws -> Forall (fun w => 0 < w) ws -> nsq (weighted_sum ws es) <= rsum ws * wq ws es.
Proof.
  unfold wq. revert es. induction ws as [|w ws IH]; intros [|e es] L F; cbn [weighted_sum wip]; try discriminate.
  - unfold nsq. rewrite inner_0_l. cbn. lra.
  - inversion F as [|? ? P F']; subst. cbn in L. specialize (IH es ltac:(lia) F'). pose proof (rsum_nonneg ws F') as W0.
    change (rsum (w :: ws)) with (w + rsum ws). pose proof (wq_pos ws es F') as Q0. unfold wq in Q0.
    set (S := weighted_sum ws es) in *. set (W := rsum ws) in *. set (Q := wip ws es es) in *.
    assert (E : nsq (w * e + S)%v = w * w * inner e e + 2 * w * inner e S + nsq S) by (iexpand; rewrite (inner_sym H S e); ring).
    rewrite E. assert (X : 2 * inner e S <= Q + W * inner e e).
    { pose proof (inner_pos H e) as Pe. destruct (Req_dec W 0) as [Z|N].
      - assert (S0 : S = vzero) by (apply nsq_0; pose proof (nsq_pos S); rewrite Z in IH; lra). rewrite S0, inner_0_r. nra.
      - pose proof (nsq_pos (W * e - S)%v) as P2. assert (E2 : nsq (W * e - S)%v = W * W * inner e e - 2 * W * inner e S + nsq S) by (iexpand; rewrite (inner_sym H S e); ring).
        rewrite E2 in P2. apply Rmult_le_reg_l with W; [lra|]. lra. }
    apply (Rmult_le_compat_l w) in X; [|lra]. nra.
Qed.

Lemma weighted_sum_sub ws zs es : length zs = length ws -> length es = length ws ->
  weighted_sum ws (map2 (fun a b => (a - b)%v) zs es) = (weighted_sum ws zs - weighted_sum ws es)%v.
Proof.
  revert zs es. induction ws as [|w ws IH]; intros [|z zs] [|e es] L1 L2; cbn in *; try discriminate; [vring|]. rewrite IH by lia. vring.
Qed.

Lemma wq_form n ws : length ws = n -> Forall (fun w => 0 < w) ws ->
  exists c, 0 < c /\ forall v : pow_ips H n, c * nsq v <= wq ws (up n v) <= rsum ws * nsq v.
Proof.
  intros L F. revert n L. induction F as [|w ws P F IH]; intros n L; subst n; cbn [length].
  - exists 1. split; [lra|]. intros v. unfold nsq, wq, rsum. cbn. lra.
  - destruct (IH _ eq_refl) as (c & Hc & B). exists (Rmin w c). split; [apply Rmin_glb_lt; assumption|]. intros [a v].
    change (nsq ((a, v) : pow_ips H (S (length ws)))) with (nsq a + nsq v). specialize (B v).
    change (wq (w :: ws) (up (S (length ws)) (a, v))) with (w * nsq a + wq ws (up (length ws) v)).
    change (rsum (w :: ws)) with (w + rsum ws). pose proof (rsum_nonneg ws F). pose proof (nsq_pos a). pose proof (nsq_pos v).
    pose proof (Rmin_l w c). pose proof (Rmin_r w c). nra.
Qed.

(** Each component is controlled. *)
Lemma wq_component ws zs i : length zs = length ws -> Forall (fun w => 0 < w) ws -> (i < length ws)%nat ->
  nth i ws 0 * nsq (nth i zs vzero) <= wq ws zs.
Proof.
  intros L F. revert zs i L. induction F as [|w ws P F IH]; intros [|z zs] i L Hi; cbn in L, Hi; try discriminate; try lia.
  change (wq (w :: ws) (z :: zs)) with (w * nsq z + wq ws zs). pose proof (wq_pos ws zs F). pose proof (nsq_pos z).
  destruct i as [|i]; cbn [nth]; [lra|]. specialize (IH zs i ltac:(lia) ltac:(lia)). nra.
Qed.

Variable gamma : R.
Hypothesis Hg : 0 < gamma.

(** The points computed by the proximity operators. *)
Definition prox_points ts ws zs (x gx : H) : list H :=
  map2 (fun (tw : term H * R) z => t_prox (fst tw) (2 * x - z - gamma * gx)%v (gamma / snd tw)) (combine ts ws) zs.

Lemma prox_points_length ts ws zs x gx : length ws = length ts -> length zs = length ts -> length (prox_points ts ws zs x gx) = length ts.
Proof. intros L1 L2. unfold prox_points. apply map2_length; [rewrite combine_length; lia|exact L2]. Qed.

Lemma prox_points_nth ts ws zs x gx i (t0 : term H) : length ws = length ts -> length zs = length ts -> (i < length ts)%nat ->
  nth i (prox_points ts ws zs x gx) vzero
  = t_prox (nth i ts t0) (2 * x - nth i zs vzero - gamma * gx)%v (gamma / nth i ws 0).
Proof.
  revert ws zs i. induction ts as [|t ts IH]; intros [|w ws] [|z zs] i L1 L2 Hi; cbn in L1, L2, Hi; try discriminate; try lia.
  destruct i as [|i]; [reflexivity|]. cbn [nth]. rewrite <- (IH ws zs i) by lia. reflexivity.
Qed.

Definition errors (x : H) ps : list H := map (fun p => (x - p)%v) ps.

(** Monotonicity of the subdifferentials, summed. *)
Lemma summed_monotone ts ws zs zs' (x x' gx gx' : H) :
  length ws = length ts -> length zs = length ts -> length zs' = length ts ->
  Forall proper_term ts -> Forall (fun w => 0 < w) ws ->
  prox_points ts ws zs' x' gx' = repeat x' (length ts) ->
  let es := errors x (prox_points ts ws zs x gx) in
  let dz := map2 (fun a b => (a - b)%v) zs zs' in
  let dx := (x - x')%v in let d := (gx - gx')%v in
  0 <= rsum ws * inner (dx - gamma * d)%v dx - inner (dx - gamma * d)%v (weighted_sum ws es) + inner (weighted_sum ws es) dx
       - wq ws es - inner (weighted_sum ws dz) dx + wip ws dz es.
Proof.
  revert ws zs zs'. induction ts as [|t ts IH]; intros [|w ws] [|z zs] [|z' zs'] L1 L2 L3 P W E es dz dx d; cbn in L1, L2, L3; try discriminate.
  - cbn. rewrite !inner_0_l, !inner_0_r. unfold wq. cbn. lra.
  - unfold prox_points in E. cbn [combine map2 fst snd repeat length] in E. injection E as E1 E2.
    inversion P as [|? ? [Pc Pp] Pr]; subst. inversion W as [|? ? Hw Wr]; subst.
    specialize (IH ws zs zs' ltac:(lia) ltac:(lia) ltac:(lia) Pr Wr E2). cbv zeta in IH.
    assert (Hc : 0 < gamma / w) by (apply Rdiv_lt_0_compat; assumption).
    pose proof (prox_vi_nonexpansive _ _ _ _ _ _ (prox_operator_vi _ _ _ Pc Pp (2 * x - z - gamma * gx)%v (gamma / w) Hc)
      (prox_operator_vi _ _ _ Pc Pp (2 * x' - z' - gamma * gx')%v (gamma / w) Hc)) as Q. rewrite E1 in Q.
    unfold es, dz, prox_points, errors. cbn [combine map2 fst snd map weighted_sum].
    fold (prox_points ts ws zs x gx). fold (errors x (prox_points ts ws zs x gx)).
    set (p := t_prox t (2 * x - z - gamma * gx)%v (gamma / w)) in *. clearbody p.
    set (es' := errors x (prox_points ts ws zs x gx)) in *. set (dz' := map2 (fun a b => (a - b)%v) zs zs') in *.
    fold dx in IH. fold d in IH. clearbody es' dz'. clear es dz.
    change (rsum (w :: ws)) with (w + rsum ws). unfold wq. cbn [wip]. fold (wq ws es').
    set (e := (x - p)%v). set (a := (z - z')%v).
    assert (Q' : 0 <= inner (dx - a + e - gamma * d)%v (dx - e)%v).
    { replace (dx - e)%v with (p - x')%v by (unfold dx, e; vring).
      replace (dx - a + e - gamma * d)%v with ((2 * x - z - gamma * gx - (2 * x' - z' - gamma * gx')) - (p - x'))%v by (unfold dx, a, e, d; vring).
      rewrite inner_sub_l. unfold nsq in Q. lra. }
    clearbody e a dx d. clear Q. apply (Rmult_le_compat_l w) in Q'; [|lra]. rewrite Rmult_0_r in Q'.
    rewrite !inner_sub_l, !inner_add_l, ?inner_sub_l, !inner_add_r, ?inner_sub_r, ?inner_scal_l, ?inner_scal_r in *.
    rewrite (inner_sym H dx e) in *. set (I := inner e dx) in *. clearbody I.
    lra.
Qed.

Variables (f : H -> R) (grad : H -> H) (M lam : R) (ts : list (term H)) (ws : list R).
Hypothesis HM : 0 <= M.
Hypothesis Sf : smooth_convex M f grad.
Hypothesis Pt : Forall proper_term ts.
Hypothesis Lw : length ws = length ts.
Hypothesis Pw : Forall (fun w => 0 < w) ws.
Hypothesis Sw : rsum ws = 1.
Hypothesis Hl : 0 < lam.
Hypothesis Hstep : lam + gamma * M / 2 < 2.
Let n := length ts.

Definition mean zs : H := weighted_sum ws zs.
Definition points zs : list H := prox_points ts ws zs (mean zs) (grad (mean zs)).
Definition residuals zs : list H := errors (mean zs) (points zs).
Definition fixed zs : Prop := length zs = n /\ points zs = repeat (mean zs) n.
Definition next zs : list H := map2 (fun z e => (z - lam * e)%v) zs (residuals zs).

Lemma residuals_length zs : length zs = n -> length (residuals zs) = n.
Proof. intros L. unfold residuals, errors, points. rewrite map_length. apply prox_points_length; [exact Lw|exact L]. Qed.
Lemma next_length zs : length zs = n -> length (next zs) = n.
Proof. intros L. unfold next. apply map2_length; [exact L|apply residuals_length, L]. Qed.

Lemma map2_sub_step (zs zs' es : list H) : length zs = length zs' -> length es = length zs ->
  map2 (fun a b => (a - b)%v) (map2 (fun z e => (z - lam * e)%v) zs es) zs' = map2 (fun z e => (z - lam * e)%v) (map2 (fun a b => (a - b)%v) zs zs') es.
Proof.
  revert zs' es. induction zs as [|z zs IH]; intros [|z' zs'] [|e es] L1 L2; cbn in *; try discriminate; [reflexivity|].
  f_equal; [vring|]. apply IH; lia.
Qed.

Lemma gfb_progress zs zs' : length zs = n -> fixed zs' ->
  wq ws (map2 (fun a b => (a - b)%v) (next zs) zs') + lam * (2 - gamma * M / 2 - lam) * wq ws (residuals zs)
  <= wq ws (map2 (fun a b => (a - b)%v) zs zs').
Proof.
  intros L [L' Fx]. pose proof (residuals_length zs L) as LR.
  pose proof (summed_monotone ts ws zs zs' (mean zs) (mean zs') (grad (mean zs)) (grad (mean zs')) Lw L L' Pt Pw Fx) as Q.
  cbv zeta in Q. fold (points zs) in Q. fold (residuals zs) in Q. rewrite weighted_sum_sub in Q by (unfold n in *; congruence).
  fold (mean zs) (mean zs') in Q. rewrite Sw in Q.
  unfold next. rewrite map2_sub_step by congruence.
  rewrite wq_step; [|rewrite (map2_length _ _ _ n); [unfold n; congruence|exact L|exact L']|unfold n in *; congruence].
  pose proof (jensen ws (residuals zs) ltac:(unfold n in *; congruence) Pw) as J. rewrite Sw, Rmult_1_l in J.
  pose proof (gradient_cross M f grad (mean zs) (mean zs - weighted_sum ws (residuals zs))%v (mean zs') HM Sf) as G.
  set (dz := map2 (fun a b => (a - b)%v) zs zs') in *. set (es := residuals zs) in *. set (eb := weighted_sum ws es) in *.
  set (dx := (mean zs - mean zs')%v) in *. set (d := (grad (mean zs) - grad (mean zs'))%v) in *.
  replace (mean zs - eb - mean zs)%v with ((-1) * eb)%v in G by vring.
  replace (mean zs - eb - mean zs')%v with (dx - eb)%v in G by (unfold dx; vring). rewrite nsq_scal in G.
  clearbody dz es dx d eb. rewrite !inner_sub_l, inner_scal_l, ?inner_scal_l in Q. rewrite inner_sub_r in G.
  rewrite (inner_sym H eb dx) in Q.
  set (W := wip ws dz es) in *. set (Q0 := wq ws es) in *. set (Z := wq ws dz). set (N := nsq eb) in *.
  set (a := inner d dx) in *. set (b := inner d eb) in *.
  assert (B1 : Q0 + gamma * (a - b) <= W) by lra.
  assert (B2 : gamma * (- (M / 4) * (-1 * -1 * N)) <= gamma * (a - b)) by (apply Rmult_le_compat_l; lra).
  assert (B3 : gamma * M / 4 * N <= gamma * M / 4 * Q0) by (apply Rmult_le_compat_l; [apply Rmult_le_pos; [nra|lra]|exact J]).
  assert (B4 : (1 - gamma * M / 4) * Q0 <= W) by lra.
  apply (Rmult_le_compat_l (2 * lam)) in B4; [|lra]. lra.
Qed.

Hypothesis FD : finite_dimensional H.

Lemma fixed_from_limit (u : nat -> list H) (v : pow_ips H n) : (forall k, length (u k) = n) ->
  converges (fun k => pk n (u k)) v -> (forall e, 0 < e -> exists N, forall k, (N <= k)%nat -> wq ws (residuals (u k)) < e) ->
  fixed (up n v) /\ converges (fun k => mean (u k)) (mean (up n v)).
Proof.
  intros Lu C V. pose proof (converges_pow n _ _ C) as Ci.
  assert (Cz : forall i, converges (fun k => nth i (u k) vzero) (nth i (up n v) vzero)).
  { intros i. apply converges_ext with (2 := Ci i). intros k. rewrite up_pk by apply Lu. reflexivity. }
  assert (Cm : converges (fun k => mean (u k)) (mean (up n v))).
  { unfold mean. clear - Cz Lu Lw. assert (Lv : length (up n v) = length ws) by (rewrite up_length; symmetry; exact Lw).
    assert (Lk : forall k, length (u k) = length ws) by (intros k; rewrite Lu; symmetry; exact Lw). clear Lu Lw.
    set (l := up n v) in *. clearbody l. revert u l Lv Lk Cz. induction ws as [|w ws' IH]; intros u l Lv Lk Cz.
    - apply converges_ext with (fun _ => vzero); [reflexivity|apply converges_const].
    - destruct l as [|z l]; [discriminate|]. cbn [weighted_sum].
      apply converges_ext with (fun k => (w * nth 0 (u k) vzero + weighted_sum ws' (tl (u k)))%v).
      { intros k. specialize (Lk k). destruct (u k); [discriminate|]. reflexivity. }
      apply converges_add; [apply converges_scal; apply (Cz 0%nat)|].
      apply IH; [cbn in Lv; lia|intros k; specialize (Lk k); destruct (u k); cbn in *; lia|].
      intros i. apply converges_ext with (2 := Cz (S i)). intros k. specialize (Lk k). destruct (u k); [discriminate|]. reflexivity. }
  split; [|exact Cm]. split; [apply up_length|].
  apply nth_ext with (d := vzero) (d' := vzero); [unfold points; rewrite prox_points_length, repeat_length; [reflexivity|exact Lw|apply up_length]|].
  intros i Hi. unfold points in Hi. rewrite prox_points_length in Hi by (try exact Lw; apply up_length).
  assert (T0 : exists t0 : term H, True) by (destruct ts; [cbn in Hi; lia|eauto]). destruct T0 as [t0 _].
  rewrite (nth_indep (repeat _ _) vzero (mean (up n v))) by (rewrite repeat_length; exact Hi). rewrite nth_repeat. unfold points. rewrite (prox_points_nth _ _ _ _ _ i t0) by (try exact Lw; try apply up_length; exact Hi).
  assert (Pwi : 0 < nth i ws 0) by (apply (proj1 (Forall_nth _ _) Pw); rewrite Lw; exact Hi).
  assert (Pti : proper_term (nth i ts t0)) by (apply (proj1 (Forall_nth _ _) Pt); exact Hi). destruct Pti as [Pc Pp].
  apply (converges_unique (fun k => nth i (points (u k)) vzero)).
  - apply converges_ext with (fun k => t_prox (nth i ts t0) (2 * mean (u k) - nth i (u k) vzero - gamma * grad (mean (u k)))%v (gamma / nth i ws 0)).
    { intros k. unfold points. symmetry. apply prox_points_nth; [exact Lw|apply Lu|exact Hi]. }
    apply (prox_continuous _ _ _ (gamma / nth i ws 0) ltac:(apply Rdiv_lt_0_compat; assumption) Pc Pp (fun k => (2 * mean (u k) - nth i (u k) vzero - gamma * grad (mean (u k)))%v)).
    apply converges_sub_v; [apply converges_sub_v|].
    + apply converges_scal. exact Cm.
    + apply Cz.
    + apply converges_scal. apply (lipschitz_continuous M grad (proj2 (proj2 Sf))). exact Cm.
  - apply converges_near with (fun k => mean (u k)); [|exact Cm].
    apply vanishing. intros e He. destruct (V (nth i ws 0 * e) ltac:(nra)) as (N & Q). exists N. intros k Hk. specialize (Q k Hk).
    pose proof (wq_component ws (residuals (u k)) i) as WC. rewrite residuals_length, Lw in WC by apply Lu. specialize (WC eq_refl Pw Hi).
    assert (E : nth i (residuals (u k)) vzero = (mean (u k) - nth i (points (u k)) vzero)%v).
    { unfold residuals, errors. rewrite (nth_indep _ vzero ((fun p => (mean (u k) - p)%v) vzero)).
      - rewrite (map_nth (fun p => (mean (u k) - p)%v)). reflexivity.
      - rewrite map_length. unfold points. rewrite prox_points_length; [exact Hi|exact Lw|apply Lu]. }
    rewrite E in WC. rewrite nsq_sub_sym. apply Rmult_lt_reg_l with (nth i ws 0); [exact Pwi|]. lra.
Qed.

Lemma gfb_converges (z : nat -> list H) : length (z 0%nat) = n -> (forall k, z (S k) = next (z k)) -> (exists zs, fixed zs) ->
  exists zs, fixed zs /\ converges (fun k => mean (z k)) (mean zs).
Proof.
  intros L0 St (zs & Fz). assert (Lz : forall k, length (z k) = n) by (intros k; induction k as [|k IH]; [exact L0|rewrite St; apply next_length, IH]).
  assert (Pd : 0 < lam * (2 - gamma * M / 2 - lam)) by nra.
  assert (V : forall e, 0 < e -> exists N, forall k, (N <= k)%nat -> wq ws (residuals (z k)) < e).
  { apply (residual_vanishes (fun k => wq ws (map2 (fun a b => (a - b)%v) (z k) zs)) _ (lam * (2 - gamma * M / 2 - lam)) Pd).
    - intros k. apply wq_pos, Pw.
    - intros k. apply wq_pos, Pw.
    - intros k. rewrite St. apply gfb_progress; [apply Lz|exact Fz]. }
  destruct (wq_form n ws Lw Pw) as (c & Hc & B).
  destruct (fejer_converges (fd_pow n FD) (fun k => pk n (z k)) (fun v => fixed (up n v)) (fun v => wq ws (up n v)) c (rsum ws)) as (v & Fv & C).
  - exact Hc.
  - exact B.
  - intros p Fp k. rewrite !up_sub, !up_pk by apply Lz. rewrite St. pose proof (gfb_progress (z k) (up n p) (Lz k) Fp) as Q.
    pose proof (wq_pos ws (residuals (z k)) Pw). assert (0 <= lam * (2 - gamma * M / 2 - lam) * wq ws (residuals (z k))) by (apply Rmult_le_pos; lra). lra.
  - exists (pk n zs). rewrite up_pk by apply Fz. exact Fz.
  - intros phi l I C. apply (fixed_from_limit (fun k => z (phi k)) l); [intros k; apply Lz|exact C|].
    intros e He. destruct (V e He) as (N & Q). exists N. intros k Hk. apply Q. pose proof (idx_ge phi I k). lia.
  - exists (up n v). split; [exact Fv|]. apply (fixed_from_limit z v Lz C V).
Qed.

(** Fixed points exist when the optimality condition has a solution, and their mean minimises. *)
Lemma fixed_exists x : optimal_point ts grad x -> exists zs, fixed zs.
Proof.
  intros (qs & Fq & Eq).
  exists (map2 (fun w q => (x - gamma * grad x - (gamma / w) * q)%v) ws qs).
  set (zs := map2 _ ws qs). assert (Lq : length qs = n) by (unfold n; clear - Fq; induction Fq; cbn; congruence).
  assert (Lz : length zs = n) by (apply map2_length; [exact Lw|exact Lq]).
  assert (Em : mean zs = x).
  { assert (G : forall vs rs, length rs = length vs -> Forall (fun w => 0 < w) vs ->
      weighted_sum vs (map2 (fun w q => (x - gamma * grad x - (gamma / w) * q)%v) vs rs) = (rsum vs * (x - gamma * grad x) - gamma * sum_of_vectors rs)%v).
    { clear. induction vs as [|v vs IH]; intros [|r rs] L F; cbn [map2 weighted_sum sum_of_vectors]; try discriminate; [cbn; vring|].
      inversion F; subst. rewrite IH by (cbn in L; try lia; assumption). change (rsum (v :: vs)) with (v + rsum vs). vfield. lra. }
    unfold mean, zs. rewrite G by (try assumption; unfold n in *; congruence). rewrite Sw.
    replace (1 * (x - gamma * grad x) - gamma * sum_of_vectors qs)%v with (x - gamma * (grad x + sum_of_vectors qs))%v by vring. rewrite Eq. vring. }
  split; [exact Lz|]. unfold points. rewrite Em. unfold zs, n.
  enough (G : forall ts' qs' vs, Forall2 (fun t q => subgradient (t_dom t) (t_val t) x q) ts' qs' -> length vs = length ts' ->
     Forall (fun w => 0 < w) vs -> Forall proper_term ts' ->
     prox_points ts' vs (map2 (fun w q => (x - gamma * grad x - (gamma / w) * q)%v) vs qs') x (grad x) = repeat x (length ts')) by (apply G; assumption).
  clear - Hg. intros ts' qs' vs Fq. revert vs. induction Fq as [|t q ts' qs' S Fq IH]; intros [|w vs] L W P; cbn in L; try discriminate; [reflexivity|].
  inversion W as [|? ? Hw W']; subst. inversion P as [|? ? [Pc Pp] P']; subst. unfold prox_points in *. cbn [combine map2 repeat length fst snd].
  f_equal; [|apply IH; [lia|exact W'|exact P']].
  assert (Hc : 0 < gamma / w) by (apply Rdiv_lt_0_compat; assumption).
  apply (prox_vi_unique (t_dom t) (fun z => gamma / w * t_val t z) (2 * x - (x - gamma * grad x - gamma / w * q) - gamma * grad x)%v).
  - apply (prox_operator_vi _ _ _ Pc Pp _ _ Hc).
  - destruct S as [Dx V]. split; [exact Dx|]. intros z Dz. specialize (V z Dz).
    replace (2 * x - (x - gamma * grad x - gamma / w * q) - gamma * grad x - x)%v with (gamma / w * q)%v by vring.
    rewrite inner_scal_l. apply (Rmult_le_compat_l (gamma / w)) in V; lra.
Qed.

Lemma fixed_minimises zs : fixed zs -> minimises (common_domain ts) (fun z => f z + sum_of_terms ts z) (mean zs).
Proof.
  intros [L Fx]. destruct Sf as (Cf & Gf & _).
  set (s := mk_gfb (mean zs) None zs ws gamma 1 0 None None).
  apply (gfb_fixed grad ts f s Cf Gf Pt Lw L Sw eq_refl Pw Hg ltac:(cbn; lra)).
  unfold gfb_update, s. cbn [g_z g_x_old g_weights g_gamma g_lambda].
  unfold points, prox_points in Fx. set (x := mean zs) in *. set (gx := grad x) in *.
  enough (G : forall ts' vs zs', length vs = length ts' -> length zs' = length ts' ->
     map2 (fun (tw : term H * R) z => t_prox (fst tw) (2 * x - z - gamma * gx)%v (gamma / snd tw)) (combine ts' vs) zs' = repeat x (length ts') ->
     map2 (fun (pw : (H -> R -> H) * R) z_i => (z_i + 1 * (fst pw (2 * x - z_i - gamma * gx)%v (gamma / snd pw) - x))%v) (combine (map t_prox ts') vs) zs' = zs')
    by (apply G; assumption).
  clear. induction ts' as [|t ts' IH]; intros [|w vs] [|z zs'] L1 L2 E; cbn in L1, L2; try discriminate; [reflexivity|].
  cbn [combine map2 repeat length fst snd map] in *. injection E as E1 E2. rewrite E1. f_equal; [vring|]. apply IH; [lia|lia|exact E2].
Qed.
End GFBConv.
