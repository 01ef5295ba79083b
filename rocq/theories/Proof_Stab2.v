(** Vanilla descent on strongly convex functions: the start is forgotten, gradient errors do not pile up. *)
From Verif Require Import NPReal Py IPS Model_SetUp Spec_Opt Proof_Smooth Spec_Prox Proof_Prox Proof_PD Spec_Lim Proof_Iter Spec_GD Model_GD Proof_GD Prop_GD Proof_Ada Spec_Regret Proof_Regret Proof_Stab.
From Coq Require Import List Lia FunctionalExtensionality.
Import ListNotations.
Local Open Scope R_scope.

Definition rate (mu M beta : R) : R := sqrt (1 - beta * mu * (2 - beta * M)).

Lemma norm_le_factor {H : ips} c (x y : H) : 0 <= c -> nsq x <= c * nsq y -> norm x <= sqrt c * norm y.
Proof. intros Hc Q. unfold norm at 2. rewrite <- sqrt_mult by (try exact Hc; apply nsq_pos). apply sqrt_le_1_alt. exact Q. Qed.

Lemma strong_step {H : ips} M mu (f : H -> R) df beta x y : 0 < M -> 0 <= mu <= M -> smooth_convex M f df -> strongly_convex mu f -> 0 <= beta -> beta * M <= 2 ->
  norm ((x - beta * df x) - (y - beta * df y))%v <= rate mu M beta * norm (x - y)%v.
Proof.
  intros HM Hmu S SC Hb HbM.
  assert (P : 0 <= 1 - beta * mu * (2 - beta * M)).
  { assert (beta * mu * (2 - beta * M) <= beta * M * (2 - beta * M)) by (apply Rmult_le_compat_r; [lra|]; apply Rmult_le_compat_l; lra).
    pose proof (Rle_0_sqr (1 - beta * M)) as Q. unfold Rsqr in Q. nra. }
  apply norm_le_factor; [exact P|]. pose proof (cocoercive M f df x y (Rlt_le _ _ HM) S) as Q.
  pose proof (strong_monotone f df M mu S SC x y) as SM.
  set (v := (df x - df y)%v) in *. set (d := (x - y)%v) in *.
  replace ((x - beta * df x) - (y - beta * df y))%v with (d - beta * v)%v by (unfold d, v; vring).
  assert (E : nsq (d - beta * v)%v = nsq d - 2 * beta * inner v d + beta * beta * nsq v) by (unfold nsq; iexpand; rewrite (inner_sym _ d v); ring).
  rewrite E. assert (B1 : beta * beta * nsq v <= beta * beta * (M * inner v d)) by (apply Rmult_le_compat_l; [apply Rmult_le_pos; exact Hb|exact Q]).
  assert (B2 : beta * (2 - beta * M) * (mu * nsq d) <= beta * (2 - beta * M) * inner v d) by (apply Rmult_le_compat_l; [apply Rmult_le_pos; lra|exact SM]).
  nra.
Qed.

Lemma strong_update {H : ips} D (h : H -> R) prox M mu (f : H -> R) df beta (b : bool) x y g : convex_on D h -> prox_operator D h prox ->
  0 < M -> 0 <= mu <= M -> smooth_convex M f df -> strongly_convex mu f -> 0 < beta -> beta * M <= 2 ->
  norm ((if b then prox (x - beta * df x)%v beta else (x - beta * df x)%v) - (if b then prox (y - beta * g)%v beta else (y - beta * g)%v))%v
  <= rate mu M beta * norm (x - y)%v + beta * norm (df y - g)%v.
Proof.
  intros Ch Ph HM Hmu S SC Hb HbM.
  assert (A : norm ((x - beta * df x) - (y - beta * g))%v <= rate mu M beta * norm (x - y)%v + beta * norm (df y - g)%v).
  { rewrite <- (norm_scal_pos beta (df y - g)%v) by lra.
    replace ((x - beta * df x) - (y - beta * g))%v with (((x - beta * df x) - (y - beta * df y)) + - beta * (df y - g))%v by vring.
    apply Rle_trans with (1 := norm_triangle _ _). apply Rplus_le_compat; [apply (strong_step M mu f); try assumption; lra|].
    apply norm_le_nsq. right. unfold nsq. iexpand. ring. }
  destruct b; [|exact A]. apply Rle_trans with (2 := A). apply (prox_apart D h); assumption.
Qed.

(** Constant eta, gradient errors at most delta. *)
Lemma strong_apart {I} (l : list I) (complete : forall i, In i l) D h prox M mu f grad grad' (x0 y0 : arr I) eta eps eps' ep s t delta :
  let H := fin_ips I l complete in
  convex_on (H := H) D h -> prox_operator (H := H) D h (fun y c => prox y (full c)) ->
  0 < M -> 0 <= mu <= M -> (forall k, smooth_convex (H := H) M (f k) (grad k)) -> (forall k, strongly_convex (H := H) mu (f k)) ->
  gd_init Vanilla x0 eta eps ep None = Ok s -> gd_init Vanilla y0 eta eps' ep None = Ok t -> 0 < eta -> eta * M <= 2 ->
  let x k := d_x_new (gd_after grad prox k s) in
  let y k := d_x_new (gd_after grad' prox k t) in
  (forall k, norm (H := H) (vsub (H := H) (grad k (y k)) (grad' k (y k))) <= delta) ->
  forall n, norm (H := H) (vsub (H := H) (x n) (y n)) <=
  rate mu M eta ^ n * norm (H := H) (vsub (H := H) x0 y0) + eta * delta * sum_below n (fun k => rate mu M eta ^ k).
Proof.
  intros H Ch Ph HM Hmu Sf SC Is It Pe Be x y Er n.
  assert (Ee : forall g (z0 : arr I) ez r, gd_init Vanilla z0 eta ez ep None = Ok r -> forall k, d_eta (gd_after g prox k r) = eta).
  { intros g z0 ez r Ir. induction k as [|k IH].
    - apply (st_eta I g prox _ _ _ _ _ _ Ir 0%nat).
    - destruct (st_eta I g prox _ _ _ _ _ _ Ir k) as [_ Q]. cbv beta zeta in Q. rewrite Q. exact IH. }
  assert (R0 : 0 <= rate mu M eta) by apply sqrt_pos. set (r := rate mu M eta) in *.
  assert (Sh : forall m, sum_below (S m) (fun k => r ^ k) = 1 + r * sum_below m (fun k => r ^ k)).
  { induction m as [|m IH]; [cbn; ring|]. cbn [sum_below]. cbn [sum_below] in IH. cbn [pow]. rewrite Rmult_plus_distr_l. lra. }
  induction n as [|n IH].
  - unfold x, y. rewrite (st_start I grad prox _ _ _ _ _ _ Is), (st_start I grad' prox _ _ _ _ _ _ It). cbn [pow sum_below gd_after]. subst H. match goal with |- ?a <= _ => set (q := a) end. lra.
  - rewrite Sh.
    pose proof (st_step I grad prox _ _ _ _ _ _ Is l complete n) as Sx. pose proof (st_step I grad' prox _ _ _ _ _ _ It l complete n) as Sy.
    cbv beta zeta in Sx, Sy. rewrite (Ee _ _ _ _ Is) in Sx. rewrite (Ee _ _ _ _ It) in Sy. fold (x (S n)) (x n) in Sx. fold (y (S n)) (y n) in Sy. rewrite Sx, Sy.
    pose proof (strong_update (H := H) D h (fun y c => prox y (full c)) M mu (f n) (grad n) eta (Nat.eqb (Nat.modulo n ep) 0) (x n) (y n) (grad' n (y n)) Ch Ph HM Hmu (Sf n) (SC n) Pe Be) as U.
    cbv beta in U. apply Rle_trans with (1 := U). clear U Sx Sy. fold r. specialize (Er n).
    apply (Rmult_le_compat_l r) in IH; [|exact R0]. apply (Rmult_le_compat_l eta) in Er; [|lra]. subst H. cbv beta in *. cbn [pow].
    match goal with |- r * ?a + eta * ?b <= _ => apply Rle_trans with (r * (r ^ n * norm (H := fin_ips I l complete) (vsub (H := fin_ips I l complete) x0 y0) + eta * delta * sum_below n (fun k => r ^ k)) + eta * delta) end.
    + apply Rplus_le_compat; [exact IH|exact Er].
    + right. ring.
Qed.
Lemma geometric r n : 0 <= r < 1 -> sum_below n (fun k => r ^ k) <= / (1 - r).
Proof.
  intros Hr. assert (G : (1 - r) * sum_below n (fun k => r ^ k) = 1 - r ^ n).
  { induction n as [|n IH]; [cbn; ring|]. cbn [sum_below pow]. rewrite Rmult_plus_distr_l, IH. ring. }
  apply Rmult_le_reg_l with (1 - r); [lra|]. rewrite G, Rinv_r by lra. pose proof (pow_le r n (proj1 Hr)). lra.
Qed.
Lemma rate_lt_1 mu M beta : 0 < mu <= M -> 0 < beta -> beta * M < 2 -> 0 <= rate mu M beta < 1.
Proof.
  intros Hmu Hb HbM. split; [apply sqrt_pos|]. rewrite <- sqrt_1. apply sqrt_lt_1_alt. split.
  - assert (beta * mu * (2 - beta * M) <= beta * M * (2 - beta * M)) by (apply Rmult_le_compat_r; [lra|]; apply Rmult_le_compat_l; lra).
    pose proof (Rle_0_sqr (1 - beta * M)) as Q. unfold Rsqr in Q. nra.
  - assert (0 < beta * mu * (2 - beta * M)) by (apply Rmult_lt_0_compat; [apply Rmult_lt_0_compat|]; lra). lra.
Qed.
