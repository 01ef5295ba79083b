(** Convergence of the iterates of Condat in finite-dimensional spaces. *)
From Verif Require Import NPReal Py IPS Spec_Opt Proof_Smooth Spec_Lim Proof_Lim Proof_Iter Model_SetUp Model_FB Proof_FB2 Model_PD Proof_PD.
From Coq Require Import List Lia.
Import ListNotations.
Local Open Scope R_scope.

(** The metric is equivalent to the norm of the pair. *)
Section Metric.
Context {H K : ips}.
Variables (L : H -> K) (L' : K -> H) (B tau sigma : R).
Hypothesis A : adjoint L L'.
Hypothesis Hb : bounded_sq B L.
Hypothesis HB : 0 <= B.
Hypothesis Ht : 0 < tau.
Hypothesis Hs : 0 < sigma.

Lemma inner_young t x y : 0 < t -> 2 * inner (L x) y <= t * B * nsq x + / t * nsq y.
Proof.
  intros Pt. pose proof (nsq_pos (t * L x - y)%v) as P.
  assert (E : nsq (t * L x - y)%v = t * t * nsq (L x) - 2 * t * inner (L x) y + nsq y) by (iexpand; rewrite (inner_sym K y (L x)); ring).
  rewrite E in P. pose proof (Hb x) as Q. apply Rmult_le_reg_l with t; [exact Pt|].
  replace (t * (t * B * nsq x + / t * nsq y)) with (t * t * (B * nsq x) + nsq y) by (field; lra).
  assert (t * t * nsq (L x) <= t * t * (B * nsq x)) by (apply Rmult_le_compat_l; [nra|exact Q]). lra.
Qed.

Lemma pd_sq_upper x y : pd_sq L tau sigma x y <= (/ tau + / sigma + B + 1) * (nsq x + nsq y).
Proof.
  unfold pd_sq. pose proof (inner_young 1 x ((-1) * y)%v ltac:(lra)) as Y. rewrite inner_scal_r, nsq_scal, Rinv_1 in Y.
  assert (0 < / tau) by (apply Rinv_0_lt_compat, Ht). assert (0 < / sigma) by (apply Rinv_0_lt_compat, Hs).
  pose proof (nsq_pos x). pose proof (nsq_pos y). unfold Rdiv. nra.
Qed.

Lemma pd_sq_elliptic : sigma * B < / tau -> exists c, 0 < c /\ forall x y, c * (nsq x + nsq y) <= pd_sq L tau sigma x y.
Proof.
  intros Hk. set (k := / tau - sigma * B). assert (Pk : 0 < k) by (unfold k; lra).
  assert (Pb : 0 <= sigma * B) by (apply Rmult_le_pos; lra).
  set (e := k / (2 * (sigma * B + 1))). assert (Pe : 0 < e) by (apply Rdiv_lt_0_compat; lra).
  assert (He : sigma * B * e <= k / 2).
  { unfold e. apply Rmult_le_reg_r with (2 * (sigma * B + 1)); [lra|].
    replace (sigma * B * (k / (2 * (sigma * B + 1))) * (2 * (sigma * B + 1))) with (sigma * B * k) by (field; lra).
    replace (k / 2 * (2 * (sigma * B + 1))) with (sigma * B * k + k) by field. lra. }
  assert (Ps : 0 < / sigma) by (apply Rinv_0_lt_compat, Hs).
  set (d := / sigma * (e / (1 + e))). assert (Pd : 0 < d) by (apply Rmult_lt_0_compat; [exact Ps|apply Rdiv_lt_0_compat; lra]).
  exists (Rmin (k / 2) d). split; [apply Rmin_glb_lt; lra|]. intros x y.
  pose proof (inner_young (sigma * (1 + e)) x y ltac:(nra)) as Y.
  assert (E : / (sigma * (1 + e)) = / sigma - d) by (unfold d; field; split; lra). rewrite E in Y.
  pose proof (nsq_pos x) as Px. pose proof (nsq_pos y) as Py.
  pose proof (Rmin_l (k / 2) d) as M1. pose proof (Rmin_r (k / 2) d) as M2. set (m := Rmin (k / 2) d) in *. unfold pd_sq, Rdiv.
  set (a := nsq x) in *. set (b := nsq y) in *. set (l := inner (L x) y) in *. set (it := / tau) in *. set (is := / sigma) in *.
  assert (X1 : m * a <= k / 2 * a) by (apply Rmult_le_compat_r; assumption).
  assert (X2 : m * b <= d * b) by (apply Rmult_le_compat_r; assumption).
  assert (X3 : sigma * B * e * a <= k / 2 * a) by (apply Rmult_le_compat_r; assumption).
  assert (Ek : it = k + sigma * B) by (unfold k; lra). clearbody m a b l it is d e k. subst it. lra.
Qed.
End Metric.

Section CondatConv.
Context {H K : ips} {W : Type}.
Variables (D : H -> Prop) (E : K -> Prop) (f g : H -> R) (h : K -> R) (M B : R).
Variables (grad : H -> H) (prox : H -> R -> H) (prox_dual : W -> K -> R -> K) (lop : H -> K) (ladj : K -> H) (w : W).
Variables (rho sigma tau : R).
Hypothesis A : adjoint lop ladj.
Hypothesis Hb : bounded_sq B lop.
Hypothesis HB : 0 <= B.
Hypothesis HM : 0 <= M.
Hypothesis Sf : smooth_convex M f grad.
Hypothesis Cg : convex_on D g.
Hypothesis Ch : convex_on E h.
Hypothesis Pg : prox_operator D g prox.
Hypothesis Ph : prox_operator E h (prox_dual w).
Hypothesis Ht : 0 < tau.
Hypothesis Hs : 0 < sigma.
Hypothesis Hstep : M / 2 < (2 - rho) * (/ tau - sigma * B).
Hypothesis Hr : 0 < rho.
Hypothesis Hk : sigma * B < / tau.
Notation cprox := (condat_prox grad prox prox_dual lop ladj).
Notation cupdate := (condat_update grad prox prox_dual lop ladj).
Notation cafter := (condat_after grad prox prox_dual lop ladj).
Implicit Type s : @condat H K W.

Definition params s : Prop := c_rho s = rho /\ c_sigma s = sigma /\ c_tau s = tau /\ c_w s = w.
(** The operator whose fixed points are sought. *)
Definition C_map (p : prod_ips H K) : prod_ips H K :=
  cprox (mk_condat (fst p) (snd p) None rho sigma tau 0 w None None None).
Lemma cprox_map s : params s -> cprox s = C_map (c_x s, c_y s).
Proof. intros (E1 & E2 & E3 & E4). unfold C_map, condat_prox. cbn. rewrite E2, E3, E4. reflexivity. Qed.

Lemma C_map_continuous : seq_continuous C_map.
Proof.
  intros u l C. apply converges_prod in C. destruct C as [C1 C2].
  pose proof (bounded_sq_continuous B lop ladj A Hb HB) as KL.
  assert (A' : adjoint ladj lop) by (intros x y; rewrite inner_sym, <- A, inner_sym; reflexivity).
  pose proof (bounded_sq_continuous B ladj lop A' (adjoint_bounded B lop ladj A Hb HB) HB) as KA.
  unfold C_map, condat_prox. cbn [c_x c_y c_tau c_sigma c_w].
  assert (X : converges (fun n => prox (fst (u n) - tau * grad (fst (u n)) - tau * ladj (snd (u n)))%v default_extra_factor)
                (prox (fst l - tau * grad (fst l) - tau * ladj (snd l))%v default_extra_factor)).
  { apply (prox_continuous D g prox default_extra_factor ltac:(unfold default_extra_factor; lra) Cg Pg (fun n => (fst (u n) - tau * grad (fst (u n)) - tau * ladj (snd (u n)))%v)).
    apply converges_sub_v; [apply converges_sub_v; [exact C1|]|]; apply converges_scal.
    - apply (lipschitz_continuous M grad (proj2 (proj2 Sf))). exact C1.
    - apply KA. exact C2. }
  set (xs := fun n => prox (fst (u n) - tau * grad (fst (u n)) - tau * ladj (snd (u n)))%v default_extra_factor) in X.
  set (xl := prox (fst l - tau * grad (fst l) - tau * ladj (snd l))%v default_extra_factor) in *.
  assert (Y : converges (fun n => (snd (u n) + sigma * lop (2 * xs n - fst (u n)))%v) (snd l + sigma * lop (2 * xl - fst l))%v).
  { apply converges_add; [exact C2|]. apply converges_scal. apply KL. apply converges_sub_v; [apply converges_scal; exact X|exact C1]. }
  apply (converges_pair xs _ xl); [exact X|]. apply converges_sub_v; [exact Y|]. apply converges_scal.
  apply (prox_continuous E h (prox_dual w) (1 / sigma) ltac:(apply Rdiv_lt_0_compat; lra) Ch Ph (fun n => (/ sigma * (snd (u n) + sigma * lop (2 * xs n - fst (u n))))%v)).
  apply converges_scal. exact Y.
Qed.

Variable s0 : @condat H K W.
Hypothesis P0 : forall n, params (cafter n s0).
Let X n := c_x (cafter n s0).
Let Y n := c_y (cafter n s0).
Notation Sol := (primal_dual_solution D E grad (fun z => g z / tau) h lop ladj).

Lemma C_map_fixed x y : C_map (x, y) = (x, y) <-> Sol x y.
Proof.
  pose proof (fixed_iff grad prox prox_dual lop ladj D E g h Cg Ch Pg w Ph (mk_condat x y None rho sigma tau 0 w None None None)) as F.
  cbn [c_tau c_sigma c_w c_x c_y] in F. apply F; auto.
Qed.

Let kap := / tau - sigma * B.
Let del := rho * (2 - rho - M / (2 * kap)).
Lemma del_pos : 0 < del.
Proof.
  unfold del. apply Rmult_lt_0_compat; [exact Hr|]. assert (Pk : 0 < kap) by (unfold kap; lra).
  apply Rmult_lt_reg_r with kap; [exact Pk|]. rewrite Rmult_0_l.
  replace ((2 - rho - M / (2 * kap)) * kap) with ((2 - rho) * kap - M / 2) by (field; lra). unfold kap. lra.
Qed.

Lemma condat_progress xs ys n : Sol xs ys ->
  pd_sq lop tau sigma (X (S n) - xs)%v (Y (S n) - ys)%v
  + del * pd_sq lop tau sigma (X n - fst (C_map (X n, Y n)))%v (Y n - snd (C_map (X n, Y n)))%v
  <= pd_sq lop tau sigma (X n - xs)%v (Y n - ys)%v.
Proof.
  intros So. destruct (P0 n) as (E1 & E2 & E3 & E4). pose proof (cprox_map (cafter n s0) (P0 n)) as EC.
  pose proof (step_progress grad prox prox_dual lop ladj D E f g h A Cg Ch Pg w Ph (cafter n s0) M xs ys) as Q.
  rewrite E1, E2, E3, EC in Q. specialize (Q Ht Hs ltac:(lra) E4 HM Sf So).
  fold (X n) (Y n) in Q. rewrite <- after_S in Q. fold (X (S n)) (Y (S n)) in Q.
  set (ex := (X n - _)%v) in *. set (ey := (Y n - _)%v) in *.
  pose proof (pd_sq_lower lop B tau sigma ex ey Ht Hs Hb) as L. fold kap in L. assert (Pk : 0 < kap) by (unfold kap; lra).
  set (N := pd_sq lop tau sigma ex ey) in *.
  assert (Z : M / 2 * nsq ex <= M / (2 * kap) * N).
  { replace (M / (2 * kap) * N) with (M / 2 * / kap * N) by (field; lra).
    replace (M / 2 * nsq ex) with (M / 2 * / kap * (kap * nsq ex)) by (field; lra).
    apply Rmult_le_compat_l; [|exact L]. apply Rmult_le_pos; [lra|]. left. apply Rinv_0_lt_compat, Pk. }
  apply Rle_trans with (2 := Q). apply Rplus_le_compat_l. unfold del. rewrite Rmult_assoc. apply Rmult_le_compat_l; lra.
Qed.

Lemma pd_sq_nonneg x y : 0 <= pd_sq lop tau sigma x y.
Proof. apply Rle_trans with (2 := pd_sq_lower lop B tau sigma x y Ht Hs Hb). apply Rmult_le_pos; [lra|apply nsq_pos]. Qed.

Lemma condat_residual_sum xs ys : Sol xs ys -> forall n,
  del * rsum (map (fun k => pd_sq lop tau sigma (X k - fst (C_map (X k, Y k)))%v (Y k - snd (C_map (X k, Y k)))%v) (seq 0 n))
  <= pd_sq lop tau sigma (X 0%nat - xs)%v (Y 0%nat - ys)%v.
Proof.
  intros So n. apply (residual_sum (fun n => pd_sq lop tau sigma (X n - xs)%v (Y n - ys)%v)); [apply del_pos|intros k; apply pd_sq_nonneg|].
  intros k. apply condat_progress. exact So.
Qed.

Hypothesis FH : finite_dimensional H.
Hypothesis FK : finite_dimensional K.

Lemma condat_converges : (exists x y, Sol x y) -> exists x y, Sol x y /\ converges X x /\ converges Y y.
Proof.
  intros (xs & ys & So). destruct (pd_sq_elliptic lop B tau sigma Hb HB Hs Hk) as (c & Hc & El).
  set (U := fun n => (X n, Y n) : prod_ips H K).
  assert (Res : converges (fun n => (U n - C_map (U n))%v) vzero).
  { apply vanishing. apply (residual_vanishes (fun n => pd_sq lop tau sigma (X n - xs)%v (Y n - ys)%v) _ (del * c)).
    - apply Rmult_lt_0_compat; [apply del_pos|exact Hc].
    - intros n. apply pd_sq_nonneg.
    - intros n. apply nsq_pos.
    - intros n. pose proof (condat_progress xs ys n So) as Q. pose proof (El (X n - fst (C_map (X n, Y n)))%v (Y n - snd (C_map (X n, Y n)))%v) as L.
      apply (Rmult_le_compat_l del) in L; [|left; apply del_pos].
      assert (Eq : nsq (U n - C_map (U n))%v = nsq (X n - fst (C_map (X n, Y n)))%v + nsq (Y n - snd (C_map (X n, Y n)))%v).
      { unfold U. destruct (C_map (X n, Y n)) as [p q]. reflexivity. }
      rewrite Eq. lra. }
  destruct (fejer_converges (fd_prod H K FH FK) U (fun p => Sol (fst p) (snd p)) (fun v => pd_sq lop tau sigma (fst v) (snd v)) c (/ tau + / sigma + B + 1))
    as ([x y] & Sl & C).
  - exact Hc.
  - intros [x y]. cbn [fst snd]. change (nsq ((x, y) : prod_ips H K)) with (nsq x + nsq y). split; [apply El|apply pd_sq_upper; assumption].
  - intros [x y] Sl n. cbn [fst snd] in Sl |- *. pose proof (condat_progress x y n Sl) as Q. pose proof del_pos.
    pose proof (pd_sq_nonneg (X n - fst (C_map (X n, Y n)))%v (Y n - snd (C_map (X n, Y n)))%v).
    change (fst (U (S n) - (x, y) : prod_ips H K)%v) with (X (S n) - x)%v. change (snd (U (S n) - (x, y) : prod_ips H K)%v) with (Y (S n) - y)%v.
    change (fst (U n - (x, y) : prod_ips H K)%v) with (X n - x)%v. change (snd (U n - (x, y) : prod_ips H K)%v) with (Y n - y)%v. nra.
  - exists (xs, ys). exact So.
  - intros phi [x y] I C. cbn [fst snd]. apply C_map_fixed. apply (converges_unique (fun n => C_map (U (phi n)))).
    + apply C_map_continuous. exact C.
    + apply converges_near with (fun n => U (phi n)); [|exact C].
      apply converges_ext with (fun n => ((-1) * (U (phi n) - C_map (U (phi n))))%v); [intros n; vring|].
      replace (vzero : prod_ips H K) with ((-1) * vzero : prod_ips H K)%v by (apply vscal_zero). apply converges_scal.
      apply (converges_sub _ _ phi I Res).
  - apply converges_prod in C. destruct C as [C1 C2]. exists x, y. split; [exact Sl|]. split; assumption.
Qed.
End CondatConv.
