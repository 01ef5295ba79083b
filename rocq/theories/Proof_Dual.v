(** Lemmas for C135: contractions have fixed points; minimisers of f + g + h o L with h Lipschitz have
    dual solutions. *)
From Verif Require Import NPReal Py IPS Spec_Opt Proof_Smooth Proof_PD Spec_Lim Proof_Lim Proof_Iter Proof_Inexact.
From Coq Require Import List Lia ConstructiveEpsilon.
Import ListNotations.
Local Open Scope R_scope.

Lemma norm_sub_le {H : ips} (x y : H) : norm (x - y)%v <= norm x + norm y.
Proof. unfold vsub. apply Rle_trans with (1 := norm_triangle _ _). rewrite norm_scal. replace (Rabs (-1)) with 1 by (rewrite Rabs_left; lra). lra. Qed.

(** The residuals of the iterates of a contraction become small; the choice of the number of iterations
    is a function. *)
Lemma contraction_small {H : ips} (T : H -> H) r : 0 <= r < 1 ->
  (forall x y, norm (T x - T y)%v <= r * norm (x - y)%v) -> forall e, 0 < e -> {x | norm (T x - x)%v < e}.
Proof.
  intros Hr Ct e He. set (u := fun n => Nat.iter n T vzero). set (d := norm (T vzero)).
  assert (Pd : 0 <= d) by apply norm_pos.
  assert (U : forall n, u (S n) = T (u n)) by reflexivity.
  assert (St : forall n, norm (u (S n) - u n)%v <= r ^ n * d).
  { induction n as [|n IH]; [cbn; unfold d; rewrite vsub_0_r; lra|]. rewrite (U (S n)), (U n). apply Rle_trans with (1 := Ct _ _).
    rewrite <- U. cbn [pow]. rewrite Rmult_assoc. apply Rmult_le_compat_l; [lra|exact IH]. }
  destruct (constructive_indefinite_ground_description_nat (fun n => norm (u (S n) - u n)%v < e)) as (n & Hn).
  - intros n. apply Rlt_dec.
  - destruct (pow_lt_1_zero r ltac:(rewrite Rabs_pos_eq; lra) (e / (d + 1)) ltac:(apply Rdiv_lt_0_compat; lra)) as (N & Q).
    exists N. apply Rle_lt_trans with (1 := St _).
    specialize (Q N ltac:(lia)). rewrite Rabs_pos_eq in Q by (apply pow_le; lra).
    apply Rmult_lt_compat_r with (r := d + 1) in Q; [|lra]. replace (e / (d + 1) * (d + 1)) with e in Q by (field; lra).
    assert (0 <= r ^ N) by (apply pow_le; lra). nra.
  - exists (u n). exact Hn.
Qed.

(** Limits of subgradients are subgradients, for functions that have proximal points. *)
Lemma subgradient_prox {H : ips} D (g : H -> R) x p : subgradient D g x p -> prox_vi D (fun z => 1 * g z) (x + p)%v x.
Proof. intros [Dx Q]. split; [exact Dx|]. intros z Dz. rewrite !Rmult_1_l. replace (x + p - x)%v with p by vring. apply Q, Dz. Qed.

Lemma prox_subgradient {H : ips} D (g : H -> R) prox c y : 0 < c -> convex_on D g -> prox_operator D g prox ->
  subgradient D g (prox y c) (/ c * (y - prox y c))%v.
Proof.
  intros Hc Cg Pg. destruct (prox_operator_vi D g prox Cg Pg y c Hc) as [Dp V]. split; [exact Dp|]. intros z Dz. specialize (V z Dz).
  rewrite inner_scal_l. apply Rmult_le_reg_l with c; [exact Hc|].
  replace (c * (g (prox y c) + / c * inner (y - prox y c)%v (z - prox y c)%v)) with (c * g (prox y c) + inner (y - prox y c)%v (z - prox y c)%v) by (field; lra).
  exact V.
Qed.

Lemma subgradient_closed {H : ips} D (g : H -> R) prox (xs ps : nat -> H) x p : convex_on D g -> prox_operator D g prox ->
  (forall n, subgradient D g (xs n) (ps n)) -> converges xs x -> converges ps p -> subgradient D g x p.
Proof.
  intros Cg Pg S Cx Cp.
  assert (E : forall n, prox (xs n + ps n)%v 1 = xs n).
  { intros n. apply (prox_vi_unique D (fun z => 1 * g z) (xs n + ps n)%v); [apply (prox_operator_vi D g prox Cg Pg); lra|apply subgradient_prox, S]. }
  assert (F : prox (x + p)%v 1 = x).
  { apply (converges_unique (fun n => prox (xs n + ps n)%v 1)).
    - apply (prox_continuous D g prox 1 ltac:(lra) Cg Pg (fun n => (xs n + ps n)%v)). apply converges_add; assumption.
    - apply converges_ext with xs; [intros n; symmetry; apply E|exact Cx]. }
  pose proof (prox_subgradient D g prox 1 (x + p)%v ltac:(lra) Cg Pg) as Q. rewrite F in Q.
  replace (/ 1 * (x + p - x))%v with p in Q; [exact Q|]. rewrite Rinv_1. vring.
Qed.

Section Dual.
Context {H K : ips}.
Variables (D : H -> Prop) (f g : H -> R) (h : K -> R) (grad : H -> H) (proxg : H -> R -> H) (proxh : K -> R -> K).
Variables (lop : H -> K) (ladj : K -> H) (M B G : R).
Hypothesis FH : finite_dimensional H.
Hypothesis FK : finite_dimensional K.
Hypothesis A : adjoint lop ladj.
Hypothesis Hb : bounded_sq B lop.
Hypothesis HB : 0 <= B.
Hypothesis HM : 0 <= M.
Hypothesis Sf : smooth_convex M f grad.
Hypothesis Cg : convex_on D g.
Hypothesis Ch : convex_on everywhere h.
Hypothesis Pg : prox_operator D g proxg.
Hypothesis Ph : prox_operator everywhere h proxh.
Hypothesis HG : 0 <= G.
Hypothesis Lh : forall u v, h u - h v <= G * norm (u - v)%v.

Lemma norm_lop x : norm (lop x) <= sqrt B * norm x.
Proof. apply norm_scaled; [exact HB|apply Hb]. Qed.
Lemma norm_ladj y : norm (ladj y) <= sqrt B * norm y.
Proof. apply norm_scaled; [exact HB|]. apply (adjoint_bounded B lop ladj A Hb HB). Qed.

Lemma small_subgradient u y : subgradient everywhere h u y -> norm y <= G.
Proof.
  intros [_ S]. specialize (S (u + y)%v I). pose proof (Lh (u + y)%v u) as L. replace (u + y - u)%v with y in * by vring.
  fold (nsq y) in S. rewrite <- norm_sq in S. destruct (Rle_lt_dec (norm y) G) as [Q|Q]; [exact Q|].
  pose proof (norm_pos y). assert (G * norm y < norm y * norm y) by nra. lra.
Qed.

Section Smoothed.
Variables (mu eta : R) (a : H).
Hypothesis Hmu : 0 < mu.
Hypothesis Heta : 0 < eta <= 1.
Definition yop (u : K) : K := (/ mu * (u - proxh u mu))%v.
Definition Gop (x : H) : H := (grad x + ladj (yop (lop x)) + eta * (x - a))%v.

Lemma proxh_nonexp u v : norm (proxh u mu - proxh v mu)%v <= norm (u - v)%v.
Proof. apply (prox_nonexp everywhere h proxh mu Hmu Ch Ph). Qed.

Lemma yop_mono u v : 0 <= inner (yop u - yop v)%v (u - v)%v.
Proof.
  unfold yop. set (p := proxh u mu). set (q := proxh v mu).
  replace (/ mu * (u - p) - / mu * (v - q))%v with (/ mu * ((u - v) - (p - q)))%v by vring.
  rewrite inner_scal_l, inner_sub_l. assert (0 < / mu) by (apply Rinv_0_lt_compat, Hmu). apply Rmult_le_pos; [lra|].
  fold (nsq (u - v)%v). pose proof (cauchy_schwarz_norm (p - q)%v (u - v)%v) as C. pose proof (proxh_nonexp u v) as N. fold p q in N.
  rewrite <- norm_sq. pose proof (norm_pos (u - v)%v). nra.
Qed.
Lemma yop_lip u v : norm (yop u - yop v)%v <= 2 / mu * norm (u - v)%v.
Proof.
  unfold yop. pose proof (proxh_nonexp u v) as N. set (p := proxh u mu) in *. set (q := proxh v mu) in *.
  replace (/ mu * (u - p) - / mu * (v - q))%v with (/ mu * ((u - v) - (p - q)))%v by vring.
  assert (0 < / mu) by (apply Rinv_0_lt_compat, Hmu). rewrite norm_scal, Rabs_pos_eq by lra.
  pose proof (norm_sub_le (u - v)%v (p - q)%v). unfold Rdiv. rewrite (Rmult_comm 2), Rmult_assoc. apply Rmult_le_compat_l; lra.
Qed.

Lemma grad_mono x y : 0 <= inner (grad x - grad y)%v (x - y)%v.
Proof.
  pose proof (first_order f grad (proj1 Sf) (proj1 (proj2 Sf)) x y) as Q1. pose proof (first_order f grad (proj1 Sf) (proj1 (proj2 Sf)) y x) as Q2.
  replace (inner (grad x - grad y)%v (x - y)%v) with (- (inner (grad x) (y - x)%v + inner (grad y) (x - y)%v)) by (iexpand; ring). lra.
Qed.

Let Lam := M + sqrt B * (2 / mu) * sqrt B + 1.
Lemma Lam_1 : 1 <= Lam.
Proof.
  unfold Lam. assert (0 <= sqrt B) by apply sqrt_pos. assert (0 < 2 / mu) by (apply Rdiv_lt_0_compat; lra).
  assert (0 <= sqrt B * (2 / mu) * sqrt B) by (repeat apply Rmult_le_pos; lra). lra.
Qed.
Lemma Gop_lip x y : norm (Gop x - Gop y)%v <= Lam * norm (x - y)%v.
Proof.
  unfold Gop. replace (grad x + ladj (yop (lop x)) + eta * (x - a) - (grad y + ladj (yop (lop y)) + eta * (y - a)))%v
    with ((grad x - grad y) + (ladj (yop (lop x)) - ladj (yop (lop y))) + eta * (x - y))%v by vring.
  apply Rle_trans with (1 := norm_triangle _ _). pose proof (norm_triangle (grad x - grad y)%v (ladj (yop (lop x)) - ladj (yop (lop y)))%v) as T.
  pose proof (proj2 (proj2 Sf) x y) as L1.
  assert (A' : adjoint ladj lop) by (intros u v; rewrite inner_sym, <- A, inner_sym; reflexivity).
  assert (L2 : norm (ladj (yop (lop x)) - ladj (yop (lop y)))%v <= sqrt B * (2 / mu) * sqrt B * norm (x - y)%v).
  { rewrite <- (adj_sub ladj lop A'). apply Rle_trans with (1 := norm_ladj _). rewrite !Rmult_assoc. apply Rmult_le_compat_l; [apply sqrt_pos|].
    apply Rle_trans with (1 := yop_lip _ _). apply Rmult_le_compat_l; [left; apply Rdiv_lt_0_compat; lra|].
    rewrite <- (adj_sub lop ladj A). apply norm_lop. }
  rewrite (norm_scal eta), (Rabs_pos_eq eta) by lra. pose proof (norm_pos (x - y)%v). unfold Lam. nra.
Qed.
Lemma Gop_mono x y : eta * nsq (x - y)%v <= inner (Gop x - Gop y)%v (x - y)%v.
Proof.
  unfold Gop. replace (grad x + ladj (yop (lop x)) + eta * (x - a) - (grad y + ladj (yop (lop y)) + eta * (y - a)))%v
    with ((grad x - grad y) + (ladj (yop (lop x)) - ladj (yop (lop y))) + eta * (x - y))%v by vring.
  rewrite !inner_add_l, (inner_scal_l H eta). fold (nsq (x - y)%v). pose proof (grad_mono x y).
  assert (0 <= inner (ladj (yop (lop x)) - ladj (yop (lop y)))%v (x - y)%v).
  { assert (A' : adjoint ladj lop) by (intros u v; rewrite inner_sym, <- A, inner_sym; reflexivity).
    rewrite <- (adj_sub ladj lop A'), A', (adj_sub lop ladj A). apply yop_mono. }
  lra.
Qed.

(** The smoothed problem has solutions of any accuracy. *)
Lemma smoothed_solution eps : 0 < eps -> {xe : H * H | subgradient D g (fst xe) (snd xe - Gop (fst xe))%v /\ norm (snd xe) < eps}.
Proof.
  intros Heps. pose proof Gop_lip as GL. pose proof Lam_1 as L1. revert GL L1. generalize Lam. intros Lm GL L1.
  assert (PL : 0 < Lm * Lm) by nra. assert (Pil : 0 < / (Lm * Lm)) by (apply Rinv_0_lt_compat; exact PL).
  set (il := / (Lm * Lm)) in *. assert (Ei : il * (Lm * Lm) = 1) by (unfold il; apply Rinv_l, Rgt_not_eq; exact PL).
  assert (Hil : il <= 1) by nra. clearbody il. set (t := eta * il). assert (Pt : 0 < t) by (apply Rmult_lt_0_compat; lra).
  assert (Et : t * (Lm * Lm) = eta) by (unfold t; rewrite Rmult_assoc, Ei; ring). assert (Ht : t * eta <= 1) by (unfold t; nra).
  assert (Pe : 0 < t * eta) by (apply Rmult_lt_0_compat; lra). clearbody t.
  assert (Pi : 0 < / t + Lm) by (assert (0 < / t) by (apply Rinv_0_lt_compat, Pt); lra).
  destruct (contraction_small (fun x => proxg (x - t * Gop x)%v t) (sqrt (1 - t * eta))) with (e := eps / (/ t + Lm)) as (x & Ex).
  - split; [apply sqrt_pos|]. apply Rlt_le_trans with (sqrt 1); [|rewrite sqrt_1; lra]. apply sqrt_lt_1_alt. lra.
  - intros x y. apply Rle_trans with (1 := prox_nonexp D g proxg t Pt Cg Pg _ _). apply norm_scaled; [lra|].
    replace (x - t * Gop x - (y - t * Gop y))%v with ((x - y) - t * (Gop x - Gop y))%v by vring.
    pose proof (Gop_mono x y) as Q1. pose proof (GL x y) as Q2.
    set (d := (x - y)%v) in *. set (e := (Gop x - Gop y)%v) in *.
    assert (E : nsq (d - t * e)%v = nsq d - 2 * t * inner e d + t * t * nsq e) by (iexpand; rewrite (inner_sym H d e); ring).
    rewrite E.
    assert (Q3 : nsq e <= Lm * Lm * nsq d).
    { rewrite <- !norm_sq. replace (Lm * Lm * (norm d * norm d)) with ((Lm * norm d) * (Lm * norm d)) by ring.
      apply Rmult_le_compat; try apply norm_pos; exact Q2. }
    apply (Rmult_le_compat_l (t * t)) in Q3; [|nra]. replace (t * t * (Lm * Lm * nsq d)) with (t * (t * (Lm * Lm)) * nsq d) in Q3 by ring.
    rewrite Et in Q3. apply (Rmult_le_compat_l t) in Q1; [|lra]. lra.
  - apply Rdiv_lt_0_compat; assumption.
  - cbv beta in Ex. set (p := proxg (x - t * Gop x)%v t) in *. exists (p, ((/ t * (x - p)) - (Gop x - Gop p))%v). cbn [fst snd]. split.
    + pose proof (prox_subgradient D g proxg t (x - t * Gop x)%v Pt Cg Pg) as S. fold p in S.
      replace (/ t * (x - p) - (Gop x - Gop p) - Gop p)%v with (/ t * (x - t * Gop x - p))%v; [exact S|]. vfield. lra.
    + apply Rle_lt_trans with (1 := norm_sub_le _ _). rewrite norm_scal, Rabs_pos_eq by (left; apply Rinv_0_lt_compat, Pt).
      pose proof (GL x p) as Q. rewrite norm_sub_sym in Ex.
      apply Rmult_lt_compat_r with (r := / t + Lm) in Ex; [|exact Pi]. unfold Rdiv in Ex. rewrite Rmult_assoc, Rinv_l, Rmult_1_r in Ex by lra. lra.
Qed.
End Smoothed.

Notation F := (fun x => f x + g x + h (lop x)).

Lemma approximate_dual mu eta a : 0 < mu -> 0 < eta <= 1 -> D a -> {t : H * K * K * H | let '(x, z, y, e) := t in
  subgradient D g x (e - (grad x + ladj y + eta * (x - a)))%v /\ subgradient everywhere h z y /\
  z = (lop x - mu * y)%v /\ norm y <= G /\ norm e < eta * mu /\
  F x + eta * nsq (x - a)%v <= F a + G * G * mu + norm e * norm (x - a)%v}.
Proof.
  intros Hmu Heta Da. assert (Pm : 0 < eta * mu) by (apply Rmult_lt_0_compat; lra).
  destruct (smoothed_solution mu eta a Hmu Heta (eta * mu) Pm) as ((x & e) & S & Ne). cbn [fst snd] in *. set (y := yop mu (lop x)).
  exists (x, proxh (lop x) mu, y, e). split; [exact S|].
  pose proof (prox_subgradient everywhere h proxh mu (lop x) Hmu Ch Ph) as Sy. fold (yop mu (lop x)) in Sy. fold y in Sy. split; [exact Sy|].
  assert (Ez : proxh (lop x) mu = (lop x - mu * y)%v) by (unfold y, yop; vfield; lra). split; [exact Ez|].
  pose proof (small_subgradient _ _ Sy) as Ny. split; [exact Ny|]. split; [exact Ne|].
  destruct S as [Dx' S]. specialize (S a Da).
  destruct Sy as [_ Sy]. specialize (Sy (lop a) I). rewrite Ez in Sy.
  pose proof (first_order f grad (proj1 Sf) (proj1 (proj2 Sf)) x a) as F.
  pose proof (Lh (lop x) (lop x - mu * y)%v) as L. replace (lop x - (lop x - mu * y))%v with (mu * y)%v in L by vring.
  rewrite norm_scal, Rabs_pos_eq in L by lra. unfold Gop in S. fold y in S.
  rewrite inner_sub_l, !inner_add_l, inner_scal_l in S.
  assert (E1 : inner (x - a)%v (a - x)%v = - nsq (x - a)%v) by (iexpand; ring).
  assert (E2 : inner (ladj y) (a - x)%v = inner y (lop a - lop x)%v) by (rewrite (inner_sym H), <- A, (inner_sym K), (adj_sub lop ladj A); reflexivity).
  assert (E3 : inner y (lop a - (lop x - mu * y))%v = inner y (lop a - lop x)%v + mu * nsq y) by (iexpand; ring).
  rewrite E1, E2 in S. rewrite E3 in Sy. pose proof (nsq_pos y).
  assert (Q : G * (mu * norm y) <= G * G * mu) by (replace (G * G * mu) with (G * (mu * G)) by ring; apply Rmult_le_compat_l; [exact HG|]; apply Rmult_le_compat_l; lra).
  pose proof (cauchy_schwarz_norm ((-1) * e)%v (a - x)%v) as C. rewrite inner_scal_l, norm_scal, (norm_sub_sym a x) in C. replace (Rabs (-1)) with 1 in C by (rewrite Rabs_left; lra).
  assert (0 <= mu * nsq y) by (apply Rmult_le_pos; lra). lra.
Qed.

Lemma inv_succ_pos n : 0 < / (INR n + 1).
Proof. apply Rinv_0_lt_compat. pose proof (pos_INR n). lra. Qed.
Lemma inv_succ_1 n : / (INR n + 1) <= 1.
Proof. rewrite <- Rinv_1. apply Rinv_le_contravar; [lra|]. pose proof (pos_INR n). lra. Qed.
Lemma inv_succ_small c eps : 0 <= c -> 0 < eps -> exists N, forall n, (N <= n)%nat -> c * / (INR n + 1) < eps.
Proof.
  intros Hc He. destruct (archimed_cor1 (eps / (c + 1))) as (N & HN & PN); [apply Rdiv_lt_0_compat; lra|]. exists N. intros n Hn.
  assert (PN' : 0 < INR N) by (apply lt_0_INR; exact PN). assert (Hn' : INR N <= INR n) by (apply le_INR; exact Hn).
  assert (T : / (INR n + 1) <= / INR N) by (apply Rinv_le_contravar; lra).
  assert (T2 : / (INR n + 1) < eps / (c + 1)) by lra. pose proof (inv_succ_pos n) as Pn.
  apply Rle_lt_trans with ((c + 1) * / (INR n + 1)); [nra|]. apply Rmult_lt_compat_l with (r := c + 1) in T2; [|lra].
  replace ((c + 1) * (eps / (c + 1))) with eps in T2 by (field; lra). exact T2.
Qed.

(** A limit of solutions of the perturbed problems. *)
Lemma dual_limit (x e : nat -> H) (z y : nat -> K) (mu : nat -> R) xs :
  (forall n, subgradient D g (x n) (e n - (grad (x n) + ladj (y n)))%v) ->
  (forall n, subgradient everywhere h (z n) (y n)) -> (forall n, z n = (lop (x n) - mu n * y n)%v) ->
  converges x xs -> converges e vzero -> converges (fun n => (mu n * y n)%v) vzero -> (forall n, norm (y n) <= G) ->
  exists ys, primal_dual_solution D everywhere grad g h lop ladj xs ys.
Proof.
  intros Qx Qy Qz Cx Ce Cm Qb.
  destruct (bounded_subsequence FK y G Qb) as (phi & ys & Ip & Cy). exists ys.
  pose proof (bounded_sq_continuous B lop ladj A Hb HB) as KL.
  assert (A' : adjoint ladj lop) by (intros u v; rewrite inner_sym, <- A, inner_sym; reflexivity).
  pose proof (bounded_sq_continuous B ladj lop A' (adjoint_bounded B lop ladj A Hb HB) HB) as KA.
  pose proof (converges_sub _ _ phi Ip Cx) as Cx'. pose proof (converges_sub _ _ phi Ip Ce) as Ce'. pose proof (converges_sub _ _ phi Ip Cm) as Cm'.
  split.
  - apply (subgradient_closed D g proxg (fun n => x (phi n)) (fun n => (e (phi n) - (grad (x (phi n)) + ladj (y (phi n))))%v) xs _ Cg Pg).
    + intros n. apply Qx.
    + exact Cx'.
    + replace ((-1) * (grad xs + ladj ys))%v with (vzero - (grad xs + ladj ys))%v by vring.
      apply converges_sub_v; [exact Ce'|]. apply converges_add.
      * apply (lipschitz_continuous M grad (proj2 (proj2 Sf))). exact Cx'.
      * apply KA. exact Cy.
  - apply (subgradient_closed everywhere h proxh (fun n => z (phi n)) (fun n => y (phi n)) _ ys Ch Ph).
    + intros n. apply Qy.
    + apply converges_ext with (fun n => (lop (x (phi n)) - mu (phi n) * y (phi n))%v); [intros n; symmetry; apply Qz|].
      replace (lop xs) with (lop xs - vzero)%v by vring. apply converges_sub_v; [apply KL; exact Cx'|exact Cm'].
    + exact Cy.
Qed.

Lemma vanishing_by (V : ips) (u : nat -> V) c : 0 <= c -> (forall n, norm (u n) <= c * / (INR n + 1)) -> converges u vzero.
Proof.
  intros Hc Q eps He. destruct (inv_succ_small c eps Hc He) as (N & HN). exists N. intros n Hn. rewrite vsub_0_r.
  specialize (Q n). specialize (HN n Hn). lra.
Qed.

(** Every minimiser has a dual solution. *)
Lemma dual_exists xs : minimises D F xs -> exists ys, primal_dual_solution D everywhere grad g h lop ladj xs ys.
Proof.
  intros [Dx Mn]. set (q := fun n => proj1_sig (approximate_dual _ 1 xs (inv_succ_pos n) ltac:(lra) Dx)).
  assert (Q : forall n, let '(x, z, y, e) := q n in
     subgradient D g x (e - (grad x + ladj y + 1 * (x - xs)))%v /\ subgradient everywhere h z y /\
     z = (lop x - / (INR n + 1) * y)%v /\ norm y <= G /\ norm e < 1 * / (INR n + 1) /\
     F x + 1 * nsq (x - xs)%v <= F xs + G * G * / (INR n + 1) + norm e * norm (x - xs)%v).
  { intros n. exact (proj2_sig (approximate_dual _ 1 xs (inv_succ_pos n) ltac:(lra) Dx)). }
  clearbody q. set (x := fun n => fst (fst (fst (q n)))). set (z := fun n => snd (fst (fst (q n)))). set (y := fun n => snd (fst (q n))). set (e := fun n => snd (q n)).
  assert (Q' : forall n, subgradient D g (x n) (e n - (grad (x n) + ladj (y n) + 1 * (x n - xs)))%v /\ subgradient everywhere h (z n) (y n) /\
     z n = (lop (x n) - / (INR n + 1) * y n)%v /\ norm (y n) <= G /\ norm (e n) < 1 * / (INR n + 1) /\
     F (x n) + 1 * nsq (x n - xs)%v <= F xs + G * G * / (INR n + 1) + norm (e n) * norm (x n - xs)%v).
  { intros n. specialize (Q n). unfold x, z, y, e. destruct (q n) as (((? & ?) & ?) & ?). exact Q. }
  clear Q. clearbody x z y e.
  assert (Bx : forall n, nsq (x n - xs)%v <= (2 * (G * G) + 1) * / (INR n + 1)).
  { intros n. destruct (Q' n) as ([Dn _] & _ & _ & _ & Ne & Q). specialize (Mn (x n) Dn). pose proof (inv_succ_pos n) as P. pose proof (inv_succ_1 n) as P1.
    set (mu := / (INR n + 1)) in *. pose proof (norm_sq (x n - xs)%v) as N. pose proof (norm_pos (x n - xs)%v). pose proof (norm_pos (e n)).
    set (d := norm (x n - xs)%v) in *. set (m := nsq (x n - xs)%v) in *. assert (Pm : 0 <= m) by apply nsq_pos.
    assert (B1 : m <= G * G * mu + norm (e n) * d) by lra. assert (B2 : norm (e n) * d <= mu * d) by (apply Rmult_le_compat_r; lra).
    assert (B3 : mu * d <= mu * ((1 + m) / 2)) by (apply Rmult_le_compat_l; [lra|]; pose proof (Rle_0_sqr (d - 1)) as Sq; unfold Rsqr in Sq; rewrite <- N; lra).
    assert (mu * m <= m) by nra. lra. }
  assert (Cx : converges x xs).
  { apply converges_sq. intros eps He. destruct (inv_succ_small (2 * (G * G) + 1) eps ltac:(nra) He) as (N & HN). exists N. intros n Hn.
    specialize (HN n Hn). specialize (Bx n). lra. }
  apply (dual_limit x (fun n => (e n - (x n - xs))%v) z y (fun n => / (INR n + 1)) xs).
  - intros n. destruct (Q' n) as (S & _). replace (e n - (x n - xs) - (grad (x n) + ladj (y n)))%v with (e n - (grad (x n) + ladj (y n) + 1 * (x n - xs)))%v by vring. exact S.
  - intros n. apply Q'.
  - intros n. apply Q'.
  - exact Cx.
  - replace (vzero : H) with (vzero - (xs - xs) : H)%v by vring. apply converges_sub_v; [|apply converges_sub_v; [exact Cx|apply converges_const]].
    apply (vanishing_by H e 1); [lra|]. intros n. destruct (Q' n) as (_ & _ & _ & _ & Ne & _). lra.
  - apply (vanishing_by K _ G HG). intros n. rewrite norm_scal, Rabs_pos_eq by (left; apply inv_succ_pos). destruct (Q' n) as (_ & _ & _ & Ny & _).
    pose proof (inv_succ_pos n). nra.
  - intros n. apply Q'.
Qed.

(** If the sublevel sets of the objective are bounded there is a minimiser, with a dual solution. *)
Lemma coercive_solution a : D a -> (forall b, exists Bd, forall x, D x -> F x <= b -> norm x <= Bd) ->
  exists xs ys, primal_dual_solution D everywhere grad g h lop ladj xs ys.
Proof.
  intros Da Co. assert (Hn : forall n, 0 < / (INR n + 1) <= 1) by (intros n; split; [apply inv_succ_pos|apply inv_succ_1]).
  set (q := fun n => proj1_sig (approximate_dual _ _ a (inv_succ_pos n) (Hn n) Da)).
  assert (Q : forall n, let '(x, z, y, e) := q n in
     subgradient D g x (e - (grad x + ladj y + / (INR n + 1) * (x - a)))%v /\ subgradient everywhere h z y /\
     z = (lop x - / (INR n + 1) * y)%v /\ norm y <= G /\ norm e < / (INR n + 1) * / (INR n + 1) /\
     F x + / (INR n + 1) * nsq (x - a)%v <= F a + G * G * / (INR n + 1) + norm e * norm (x - a)%v).
  { intros n. exact (proj2_sig (approximate_dual _ _ a (inv_succ_pos n) (Hn n) Da)). }
  clearbody q. set (x := fun n => fst (fst (fst (q n)))). set (z := fun n => snd (fst (fst (q n)))). set (y := fun n => snd (fst (q n))). set (e := fun n => snd (q n)).
  assert (Q' : forall n, subgradient D g (x n) (e n - (grad (x n) + ladj (y n) + / (INR n + 1) * (x n - a)))%v /\ subgradient everywhere h (z n) (y n) /\
     z n = (lop (x n) - / (INR n + 1) * y n)%v /\ norm (y n) <= G /\ norm (e n) < / (INR n + 1) * / (INR n + 1) /\
     F (x n) + / (INR n + 1) * nsq (x n - a)%v <= F a + G * G * / (INR n + 1) + norm (e n) * norm (x n - a)%v).
  { intros n. specialize (Q n). unfold x, z, y, e. destruct (q n) as (((? & ?) & ?) & ?). exact Q. }
  clear Q. clearbody x z y e.
  destruct (Co (F a + G * G + 1)) as (Bd & HBd).
  assert (Bx : forall n, norm (x n) <= Bd).
  { intros n. destruct (Q' n) as ([Dn _] & _ & _ & _ & Ne & Q). apply HBd; [exact Dn|]. pose proof (inv_succ_pos n) as P. pose proof (inv_succ_1 n) as P1.
    set (mu := / (INR n + 1)) in *. pose proof (norm_sq (x n - a)%v) as N. pose proof (norm_pos (x n - a)%v). pose proof (norm_pos (e n)).
    set (d := norm (x n - a)%v) in *. set (m := nsq (x n - a)%v) in *.
    assert (B2 : norm (e n) * d <= mu * d) by (apply Rmult_le_compat_r; [assumption|nra]).
    assert (B3 : mu * d <= mu * (1 + m)) by (apply Rmult_le_compat_l; [lra|]; pose proof (Rle_0_sqr (d - 1)) as Sq; unfold Rsqr in Sq; rewrite <- N; lra).
    assert (B4 : G * G * mu <= G * G) by (assert (0 <= G * G) by nra; nra). lra. }
  destruct (bounded_subsequence FH x Bd Bx) as (phi & xs & Ip & Cx). exists xs.
  assert (Pb : 0 <= Bd) by (apply Rle_trans with (2 := Bx 0%nat), norm_pos).
  pose proof (norm_pos a) as Pa.
  apply (dual_limit (fun n => x (phi n)) (fun n => (e (phi n) - / (INR (phi n) + 1) * (x (phi n) - a))%v) (fun n => z (phi n)) (fun n => y (phi n)) (fun n => / (INR (phi n) + 1)) xs).
  - intros n. destruct (Q' (phi n)) as (S & _).
    replace (e (phi n) - / (INR (phi n) + 1) * (x (phi n) - a) - (grad (x (phi n)) + ladj (y (phi n))))%v with (e (phi n) - (grad (x (phi n)) + ladj (y (phi n)) + / (INR (phi n) + 1) * (x (phi n) - a)))%v by vring. exact S.
  - intros n. apply Q'.
  - intros n. apply Q'.
  - exact Cx.
  - apply (converges_sub (fun n => (e n - / (INR n + 1) * (x n - a))%v) _ phi Ip). apply (vanishing_by H _ (1 + Bd + norm a)); [lra|].
    intros n. apply Rle_trans with (1 := norm_sub_le _ _). rewrite norm_scal, Rabs_pos_eq by (left; apply inv_succ_pos).
    destruct (Q' n) as (_ & _ & _ & _ & Ne & _). pose proof (norm_sub_le (x n) a). specialize (Bx n). pose proof (inv_succ_pos n). pose proof (inv_succ_1 n).
    set (mu := / (INR n + 1)) in *. assert (mu * norm (x n - a)%v <= mu * (Bd + norm a)) by (apply Rmult_le_compat_l; lra). nra.
  - apply (converges_sub (fun n => (/ (INR n + 1) * y n)%v) _ phi Ip).
    apply (vanishing_by K _ G HG). intros n. rewrite norm_scal, Rabs_pos_eq by (left; apply inv_succ_pos). destruct (Q' n) as (_ & _ & _ & Ny & _).
    pose proof (inv_succ_pos n). nra.
  - intros n. apply Q'.
Qed.
End Dual.
