(** Lemmas for C135: one step of Condat does not separate two states, and what errors in the operators
    do to a run. *)
From Verif Require Import NPReal Py IPS Spec_Opt Proof_Smooth Spec_Lim Proof_Lim Proof_Iter Model_SetUp Model_FB Model_PD Proof_PD
  Proof_Iter2 Proof_Inexact Proof_Dual.
From Coq Require Import List Lia.
Import ListNotations.
Local Open Scope R_scope.

Section Metric2.
Context {H K : ips}.
Variables (L : H -> K) (L' : K -> H) (B tau sigma : R).
Hypothesis A : adjoint L L'.
Hypothesis Hb : bounded_sq B L.
Hypothesis HB : 0 <= B.
Hypothesis Ht : 0 < tau.
Hypothesis Hs : 0 < sigma.
Hypothesis Hk : sigma * B < / tau.

(** The pairs with the metric of the analysis. *)
Definition pd_inner (u v : H * K) : R :=
  inner (fst u) (fst v) / tau + inner (snd u) (snd v) / sigma - inner (L (fst u)) (snd v) - inner (L (fst v)) (snd u).
Definition pd_ips : ips.
Proof.
  refine (mk_ips (H * K) (fun x y => (vadd (fst x) (fst y), vadd (snd x) (snd y)))
    (fun a x => (vscal a (fst x), vscal a (snd x))) (vzero, vzero) pd_inner _ _ _ _ _ _ _ _ _).
  - intros x y. apply (vadd_comm (prod_ips H K)).
  - intros x y z. apply (vadd_assoc (prod_ips H K)).
  - intros x. apply (vadd_0 (prod_ips H K)).
  - intros x. apply (vadd_opp (prod_ips H K)).
  - intros x y. unfold pd_inner. rewrite (inner_sym H), (inner_sym K (snd x) (snd y)). ring.
  - intros x y z. unfold pd_inner. cbn [fst snd]. rewrite (adj_add L L' A), !inner_add_l, (inner_add_r (L (fst z))). field. split; lra.
  - intros a x z. unfold pd_inner. cbn [fst snd]. rewrite (adj_scal L L' A), !inner_scal_l, (inner_scal_r a (L (fst z))). field. split; lra.
  - intros [x y]. change (0 <= inner x x / tau + inner y y / sigma - inner (L x) y - inner (L x) y).
    destruct (pd_sq_elliptic L B tau sigma Hb HB Hs Hk) as (c & Pc & El). specialize (El x y). unfold pd_sq, nsq in El.
    pose proof (inner_pos H x). pose proof (inner_pos K y). nra.
  - intros [x y] E. change (inner x x / tau + inner y y / sigma - inner (L x) y - inner (L x) y = 0) in E.
    destruct (pd_sq_elliptic L B tau sigma Hb HB Hs Hk) as (c & Pc & El). specialize (El x y). unfold pd_sq, nsq in El.
    pose proof (inner_pos H x). pose proof (inner_pos K y). assert (Z : c * (inner x x + inner y y) <= 0) by lra.
    f_equal; apply inner_def; nra.
Defined.

Lemma pd_nsq (x : H) (y : K) : nsq ((x, y) : pd_ips) = pd_sq L tau sigma x y.
Proof. unfold nsq. cbn [inner pd_ips]. unfold pd_inner. cbn [fst snd]. unfold pd_sq, nsq. ring. Qed.

Lemma pd_sub (p q : H * K) : ((p : pd_ips) - q)%v = ((fst p - fst q)%v, (snd p - snd q)%v).
Proof. reflexivity. Qed.

Lemma pd_norm_upper (x : H) (y : K) : norm ((x, y) : pd_ips) <= sqrt (/ tau + / sigma + B + 1) * (norm x + norm y).
Proof.
  set (C := / tau + / sigma + B + 1).
  assert (PC : 0 <= C) by (unfold C; assert (0 < / tau) by (apply Rinv_0_lt_compat, Ht); assert (0 < / sigma) by (apply Rinv_0_lt_compat, Hs); lra).
  pose proof (norm_pos x). pose proof (norm_pos y).
  unfold norm at 1. fold (nsq ((x, y) : pd_ips)). rewrite pd_nsq. apply Rle_trans with (sqrt (C * ((norm x + norm y) * (norm x + norm y)))).
  - apply sqrt_le_1_alt. apply Rle_trans with (1 := pd_sq_upper L B tau sigma Hb HB Ht Hs x y). fold C. apply Rmult_le_compat_l; [exact PC|].
    rewrite <- !norm_sq. nra.
  - rewrite sqrt_mult by (try exact PC; nra). rewrite sqrt_square by lra. lra.
Qed.

Lemma pd_norm_x (x : H) (y : K) : norm x <= norm ((x, y) : pd_ips) * / sqrt (/ tau - sigma * B).
Proof.
  assert (Pk : 0 < / tau - sigma * B) by lra. pose proof (sqrt_lt_R0 _ Pk) as Ps. apply Rmult_le_reg_r with (sqrt (/ tau - sigma * B)); [exact Ps|].
  rewrite Rmult_assoc, Rinv_l, Rmult_1_r by lra. unfold norm. rewrite <- sqrt_mult by (try apply inner_pos; lra). apply sqrt_le_1_alt.
  change (inner ((x, y) : pd_ips) (x, y)) with (nsq ((x, y) : pd_ips)). rewrite pd_nsq. fold (nsq x). rewrite Rmult_comm.
  apply pd_sq_lower; assumption.
Qed.

Lemma pd_norm_y (x : H) (y : K) : tau * B < / sigma -> norm y <= norm ((x, y) : pd_ips) * / sqrt (/ sigma - tau * B).
Proof.
  intros Hk'. assert (Pk : 0 < / sigma - tau * B) by lra. pose proof (sqrt_lt_R0 _ Pk) as Ps. apply Rmult_le_reg_r with (sqrt (/ sigma - tau * B)); [exact Ps|].
  rewrite Rmult_assoc, Rinv_l, Rmult_1_r by lra. unfold norm. rewrite <- sqrt_mult by (try apply inner_pos; lra). apply sqrt_le_1_alt.
  change (inner ((x, y) : pd_ips) (x, y)) with (nsq ((x, y) : pd_ips)). rewrite pd_nsq. fold (nsq y). rewrite Rmult_comm.
  replace (pd_sq L tau sigma x y) with (pd_sq L' sigma tau y x); [apply pd_sq_lower; try assumption; apply (adjoint_bounded B L L' A Hb HB)|].
  unfold pd_sq. rewrite (A x y), (inner_sym H x). ring.
Qed.
End Metric2.

Section Pair.
Context {H K : ips} {W : Type}.
Variables (D : H -> Prop) (E : K -> Prop) (f g : H -> R) (h : K -> R) (M B : R).
Variables (grad : H -> H) (prox : H -> R -> H) (prox_dual : W -> K -> R -> K) (lop : H -> K) (ladj : K -> H) (w : W).
Variables (rho sigma tau : R).
Hypothesis A : adjoint lop ladj.
Hypothesis Hb : bounded_sq B lop.
Hypothesis HB : 0 <= B.
Hypothesis HM : 0 <= M.
Hypothesis Sf : smooth_convex M f grad.
Hypothesis Cg : convex_on D g.
Hypothesis Ch : convex_on E h.
Hypothesis Pg : prox_operator D g prox.
Hypothesis Ph : prox_operator E h (prox_dual w).
Hypothesis Ht : 0 < tau.
Hypothesis Hs : 0 < sigma.
Hypothesis Hr : 0 <= rho.
Hypothesis Hk : sigma * B < / tau.
Hypothesis Hstep : M / 2 <= (2 - rho) * (/ tau - sigma * B).
Notation cprox := (condat_prox grad prox prox_dual lop ladj).
Notation cupdate := (condat_update grad prox prox_dual lop ladj).
Notation cafter := (condat_after grad prox prox_dual lop ladj).
Notation params := (params w rho sigma tau).
Implicit Type s : @condat H K W.

Lemma pair_closer s s' : params s -> params s' ->
  pd_sq lop tau sigma (c_x (cupdate s) - c_x (cupdate s'))%v (c_y (cupdate s) - c_y (cupdate s'))%v
  <= pd_sq lop tau sigma (c_x s - c_x s')%v (c_y s - c_y s')%v.
Proof.
  intros (Q1 & Q2 & Q3 & Q4) (Q1' & Q2' & Q3' & Q4').
  pose proof (step_x grad prox prox_dual lop ladj D g Cg Pg s) as SX. pose proof (step_y grad prox prox_dual lop ladj E h Ch w Ph s) as SY.
  pose proof (step_x grad prox prox_dual lop ladj D g Cg Pg s') as SX'. pose proof (step_y grad prox prox_dual lop ladj E h Ch w Ph s') as SY'.
  rewrite Q3 in SX. rewrite Q2 in SY. rewrite Q3' in SX'. rewrite Q2' in SY'.
  specialize (SX Ht). specialize (SX' Ht). specialize (SY Hs Q4). specialize (SY' Hs Q4').
  rewrite !update_x, !update_y, Q1, Q1'.
  set (p := fst (cprox s)) in *. set (q := snd (cprox s)) in *. set (p' := fst (cprox s')) in *. set (q' := snd (cprox s')) in *.
  clearbody p q p' q'. set (x := c_x s) in *. set (y := c_y s) in *. set (x' := c_x s') in *. set (y' := c_y s') in *. clearbody x y x' y'.
  clear Q1 Q2 Q3 Q4 Q1' Q2' Q3' Q4'.
  pose proof (subgradient_mono _ _ _ _ _ _ SX SX') as M1. pose proof (subgradient_mono _ _ _ _ _ _ SY SY') as M2. rewrite (inner_sym K) in M2.
  set (dx := (x - x')%v). set (dy := (y - y')%v). set (ex := ((x - p) - (x' - p'))%v). set (ey := ((y - q) - (y' - q'))%v).
  set (d := (grad x - grad x')%v) in *.
  pose proof (gradient_cross M f grad x (x - ex)%v x' HM Sf) as M3. fold d in M3. clear SX SY SX' SY'.
  replace (x - ex - x)%v with ((-1) * ex)%v in M3 by vring. replace (x - ex - x')%v with (dx - ex)%v in M3 by (unfold dx; vring). rewrite nsq_scal in M3.
  assert (P1 : (p - p')%v = (dx - ex)%v) by (unfold dx, ex; vring).
  assert (P2 : (q - q')%v = (dy - ey)%v) by (unfold dy, ey; vring).
  replace (/ tau * (x - p) - grad x - ladj y - (/ tau * (x' - p') - grad x' - ladj y'))%v
    with (/ tau * ex - d - (ladj y - ladj y'))%v in M1 by (unfold d, ex; vring).
  rewrite P1, !inner_sub_l, inner_scal_l in M1.
  assert (R0 : inner (ladj y) (dx - ex)%v - inner (ladj y') (dx - ex)%v = inner (lop (dx - ex)%v) dy).
  { unfold dy. generalize (dx - ex)%v. intros v. rewrite inner_sub_r, !A, (inner_sym H (ladj y)), (inner_sym H (ladj y')). reflexivity. }
  replace (/ sigma * (y - q) + lop (2 * p - x) - (/ sigma * (y' - q') + lop (2 * p' - x')))%v with (/ sigma * ey + lop (dx - 2 * ex))%v in M2.
  2:{ replace (dx - 2 * ex)%v with ((2 * p - x) - (2 * p' - x'))%v by (unfold dx, ex; vring). rewrite (adj_sub lop ladj A). unfold ey.
      set (u := lop (2 * p - x)%v). set (v := lop (2 * p' - x')%v). vring. }
  rewrite P2, inner_add_l, inner_scal_l in M2.
  assert (R1 : (rho * p + (1 - rho) * x - (rho * p' + (1 - rho) * x'))%v = (dx - rho * ex)%v) by (unfold dx, ex; vring).
  assert (R2 : (rho * q + (1 - rho) * y - (rho * q' + (1 - rho) * y'))%v = (dy - rho * ey)%v) by (unfold dy, ey; vring).
  rewrite R1, R2. clear P1 P2 R1 R2.
  assert (M6 : 0 <= / tau * inner ex (dx - ex)%v + M / 4 * nsq ex - inner (lop (dx - ex)%v) dy
     + / sigma * inner ey (dy - ey)%v + inner (lop (dx - 2 * ex)%v) (dy - ey)%v) by lra.
  clear M1 M2 M3 R0. clearbody dx dy ex ey d.
  pose proof (pd_sq_lower lop B tau sigma ex ey Ht Hs Hb) as M7. pose proof (nsq_pos ex) as Pe.
  assert (M8 : M / 2 * nsq ex <= (2 - rho) * pd_sq lop tau sigma ex ey).
  { assert (Pr : 0 <= 2 - rho) by nra.
    apply Rle_trans with ((2 - rho) * (/ tau - sigma * B) * nsq ex); [apply Rmult_le_compat_r; assumption|].
    rewrite Rmult_assoc. apply Rmult_le_compat_l; assumption. }
  clear M7. unfold pd_sq in *. rewrite !(adj_sub lop ladj A), !(adj_scal lop ladj A) in *.
  set (Lx := lop dx) in *. set (Le := lop ex) in *. clearbody Lx Le.
  unfold nsq in *. unfold vsub in *.
  repeat rewrite ?inner_add_l, ?inner_add_r, ?inner_scal_l, ?inner_scal_r in *.
  rewrite (inner_sym H dx ex) in *. rewrite (inner_sym K dy ey) in *.
  set (a1 := inner ex ex) in *. set (a2 := inner ex dx) in *. set (b1 := inner ey ey) in *. set (b2 := inner ey dy) in *.
  set (l1 := inner Lx dy) in *. set (l2 := inner Lx ey) in *. set (l3 := inner Le dy) in *. set (l4 := inner Le ey) in *.
  unfold Rdiv in *. set (it := / tau) in *. set (is := / sigma) in *.
  clearbody a1 a2 b1 b2 l1 l2 l3 l4 it is.
  assert (G : a1 * it + b1 * is - 2 * l4 - M / 4 * a1 <= a2 * it + b2 * is - l2 - l3) by lra.
  apply (Rmult_le_compat_l (2 * rho)) in G; [|lra]. apply (Rmult_le_compat_l rho) in M8; [|lra]. lra.
Qed.

(** The operators that are actually run. *)
Variables (grad' : H -> H) (prox' : H -> R -> H) (prox_dual' : W -> K -> R -> K) (gam del del2 : R).
Hypothesis Eg : forall z, norm (grad' z - grad z)%v <= gam.
Hypothesis Ep : forall z, norm (prox' z default_extra_factor - prox z default_extra_factor)%v <= del.
Hypothesis Eq : forall z, norm (prox_dual' w z (1 / sigma) - prox_dual w z (1 / sigma))%v <= del2.
Notation cprox' := (condat_prox grad' prox' prox_dual' lop ladj).
Notation cupdate' := (condat_update grad' prox' prox_dual' lop ladj).
Notation cafter' := (condat_after grad' prox' prox_dual' lop ladj).
Let ex := del + tau * gam.
Let ey := sigma * del2 + 2 * sigma * sqrt B * ex.

Lemma close_x s : params s -> norm (fst (cprox' s) - fst (cprox s))%v <= ex.
Proof.
  intros (_ & _ & Q3 & _). cbn [condat_prox fst]. rewrite Q3.
  set (z' := (c_x s - tau * grad' (c_x s) - tau * ladj (c_y s))%v). set (z := (c_x s - tau * grad (c_x s) - tau * ladj (c_y s))%v).
  replace (prox' z' default_extra_factor - prox z default_extra_factor)%v
    with ((prox' z' default_extra_factor - prox z' default_extra_factor) + (prox z' default_extra_factor - prox z default_extra_factor))%v by vring.
  apply Rle_trans with (1 := norm_triangle _ _). apply Rplus_le_compat; [apply Ep|].
  apply Rle_trans with (1 := prox_nonexp D g prox default_extra_factor ltac:(unfold default_extra_factor; lra) Cg Pg _ _).
  replace (z' - z)%v with ((- tau) * (grad' (c_x s) - grad (c_x s)))%v by (unfold z, z'; vring).
  rewrite norm_scal, Rabs_Ropp, (Rabs_pos_eq tau) by lra. apply Rmult_le_compat_l; [lra|apply Eg].
Qed.

Lemma conj_nonexp u v : norm ((u - sigma * prox_dual w (/ sigma * u) (1 / sigma)) - (v - sigma * prox_dual w (/ sigma * v) (1 / sigma)))%v <= norm (u - v)%v.
Proof.
  assert (P1 : 0 < 1 / sigma) by (apply Rdiv_lt_0_compat; lra).
  pose proof (prox_vi_nonexpansive _ _ _ _ _ _ (prox_operator_vi E h (prox_dual w) Ch Ph (/ sigma * u)%v (1 / sigma) P1)
    (prox_operator_vi E h (prox_dual w) Ch Ph (/ sigma * v)%v (1 / sigma) P1)) as Q.
  set (p := prox_dual w (/ sigma * u)%v (1 / sigma)) in *. set (q := prox_dual w (/ sigma * v)%v (1 / sigma)) in *.
  replace (/ sigma * u - / sigma * v)%v with (/ sigma * (u - v))%v in Q by vring.
  replace (u - sigma * p - (v - sigma * q))%v with ((u - v) - sigma * (p - q))%v by vring.
  set (a := (u - v)%v) in *. set (b := (p - q)%v) in *. rewrite inner_scal_l in Q. apply norm_of_nsq.
  assert (X : nsq (a - sigma * b)%v = nsq a - 2 * sigma * inner a b + sigma * sigma * nsq b) by (iexpand; rewrite (inner_sym K b a); ring).
  rewrite X. apply (Rmult_le_compat_l (sigma * sigma)) in Q; [|nra].
  replace (sigma * sigma * (/ sigma * inner a b)) with (sigma * inner a b) in Q by (field; lra). pose proof (nsq_pos b). nra.
Qed.

Lemma close_y s : params s -> norm (snd (cprox' s) - snd (cprox s))%v <= ey.
Proof.
  intros P. pose proof (close_x s P) as CX. destruct P as (_ & Q2 & Q3 & Q4). cbn [condat_prox fst snd] in *. rewrite Q2, Q3, Q4 in *.
  set (p' := prox' _ _) in *. set (p := prox _ _) in *. clearbody p p'.
  set (u' := (c_y s + sigma * lop (2 * p' - c_x s))%v). set (u := (c_y s + sigma * lop (2 * p - c_x s))%v).
  assert (Du : norm (u' - u)%v <= 2 * sigma * sqrt B * ex).
  { replace (u' - u)%v with (sigma * (lop (2 * p' - c_x s) - lop (2 * p - c_x s)))%v by (unfold u, u'; vring).
    rewrite <- (adj_sub lop ladj A). replace (2 * p' - c_x s - (2 * p - c_x s))%v with (2 * (p' - p))%v by vring. rewrite (adj_scal lop ladj A).
    rewrite !norm_scal, (Rabs_pos_eq sigma), (Rabs_pos_eq 2) by lra. pose proof (norm_lop lop B Hb HB (p' - p)%v) as N.
    assert (X : sqrt B * norm (p' - p)%v <= sqrt B * ex) by (apply Rmult_le_compat_l; [apply sqrt_pos|exact CX]).
    replace (2 * sigma * sqrt B * ex) with (sigma * (2 * (sqrt B * ex))) by ring. apply Rmult_le_compat_l; lra. }
  pose proof (conj_nonexp u' u) as Cn. pose proof (Eq (/ sigma * u')%v) as X.
  set (r' := prox_dual' w (/ sigma * u')%v (1 / sigma)) in *. set (r1 := prox_dual w (/ sigma * u')%v (1 / sigma)) in *. set (r0 := prox_dual w (/ sigma * u)%v (1 / sigma)) in *.
  replace (u' - sigma * r' - (u - sigma * r0))%v with (((- sigma) * (r' - r1)) + ((u' - sigma * r1) - (u - sigma * r0)))%v by vring.
  apply Rle_trans with (1 := norm_triangle _ _). rewrite norm_scal, Rabs_Ropp, (Rabs_pos_eq sigma) by lra. unfold ey.
  apply Rplus_le_compat; [apply Rmult_le_compat_l; lra|lra].
Qed.

Let HP := pd_ips lop ladj B tau sigma A Hb HB Ht Hs Hk.
Lemma update_close s : params s ->
  norm (((c_x (cupdate' s), c_y (cupdate' s)) : HP) - (c_x (cupdate s), c_y (cupdate s)))%v <= rho * (sqrt (/ tau + / sigma + B + 1) * (ex + ey)).
Proof.
  intros P. unfold HP. rewrite pd_sub. cbn [fst snd]. pose proof (close_x s P) as CX. pose proof (close_y s P) as CY. destruct P as (Q1 & _).
  rewrite !update_x, !update_y, Q1.
  replace (rho * fst (cprox' s) + (1 - rho) * c_x s - (rho * fst (cprox s) + (1 - rho) * c_x s))%v with (rho * (fst (cprox' s) - fst (cprox s)))%v by vring.
  replace (rho * snd (cprox' s) + (1 - rho) * c_y s - (rho * snd (cprox s) + (1 - rho) * c_y s))%v with (rho * (snd (cprox' s) - snd (cprox s)))%v by vring.
  apply Rle_trans with (1 := pd_norm_upper lop ladj B tau sigma A Hb HB Ht Hs Hk _ _). rewrite !norm_scal, (Rabs_pos_eq rho) by lra.
  replace (rho * (sqrt (/ tau + / sigma + B + 1) * (ex + ey))) with (sqrt (/ tau + / sigma + B + 1) * (rho * (ex + ey))) by ring.
  apply Rmult_le_compat_l; [apply sqrt_pos|]. rewrite <- Rmult_plus_distr_l. apply Rmult_le_compat_l; lra.
Qed.

Lemma params_update gr pr pd s : c_rho_update s = None -> c_sigma_update s = None -> c_tau_update s = None -> params s ->
  forall n, params (condat_after gr pr pd lop ladj n s).
Proof.
  intros U1 U2 U3 (Q1 & Q2 & Q3 & Q4) n. destruct (constant_params gr pr pd lop ladj n s U1 U2 U3) as (R1 & R2 & R3 & R4 & _).
  split; [congruence|]. split; [congruence|]. split; [congruence|]. congruence.
Qed.

Lemma runs_close s : c_rho_update s = None -> c_sigma_update s = None -> c_tau_update s = None -> params s -> forall k,
  norm (((c_x (cafter' k s), c_y (cafter' k s)) : HP) - (c_x (cafter k s), c_y (cafter k s)))%v
  <= INR k * (rho * (sqrt (/ tau + / sigma + B + 1) * (ex + ey))).
Proof.
  intros U1 U2 U3 P. pose proof (params_update grad prox prox_dual s U1 U2 U3 P) as P1. pose proof (params_update grad' prox' prox_dual' s U1 U2 U3 P) as P2.
  induction k as [|k IH]; [cbn [Nat.iter condat_after]; change (condat_after grad' prox' prox_dual' lop ladj 0 s) with s; change (condat_after grad prox prox_dual lop ladj 0 s) with s; rewrite vsub_self, norm_0; cbn; lra|].
  rewrite !after_S, S_INR. specialize (P1 k). specialize (P2 k). set (s' := cafter' k s) in *. set (s1 := cafter k s) in *.
  pose proof (update_close s' P2) as C1. pose proof (pair_closer s' s1 P2 P1) as C2.
  set (u2 := (c_x (cupdate' s'), c_y (cupdate' s')) : HP) in *. set (u1 := (c_x (cupdate s'), c_y (cupdate s')) : HP) in *. set (u0 := (c_x (cupdate s1), c_y (cupdate s1)) : HP) in *.
  assert (C3 : norm (u1 - u0)%v <= norm (((c_x s', c_y s') : HP) - (c_x s1, c_y s1))%v).
  { apply norm_of_nsq. unfold u1, u0, HP. rewrite !pd_sub, !pd_nsq. exact C2. }
  replace (u2 - u0)%v with ((u2 - u1) + (u1 - u0))%v by vring. apply Rle_trans with (1 := norm_triangle _ _). lra.
Qed.
End Pair.
