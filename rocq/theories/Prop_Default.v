(** C133: how fast ForwardBackward with the default FISTA parameters is. *)
From Coq Require Import String.
From Verif Require Import NPReal Py IPS Model_SetUp Spec_Opt Proof_Smooth Spec_Lim Proof_Lim Proof_Iter Model_FB Proof_FB Proof_FB2 Proof_Inst Proof_Accel Proof_Default.
From Coq Require Import List Lia Rpower.
Import ListNotations.
Local Open Scope R_scope.

Section Run.
Context {H : ips}.
Variables (D : H -> Prop) (f g : H -> R) (grad : H -> H) (prox : H -> R -> H) (beta : R).
Hypothesis Hb : 0 < beta.
Hypothesis Sf : smooth_convex (/ beta) f grad.
Hypothesis Cg : convex_on D g.
Hypothesis Pg : prox_operator D g prox.
Variables (x0 z : H).
Let s0 := mk_fb x0 x0 None beta 1 (RFista (no_restart (Regular 1 1 4) 1 1 0 0 0)) 0.
Let X n := fb_x_old (fb_after grad prox n s0).
Let Z n := fb_z_old (fb_after grad prox n s0).
Let F u := f u + g u.
Hypothesis Mz : minimises D F z.

Lemma def_t n : f_t_now (snd (lambdas n (no_restart (Regular 1 1 4) 1 1 0 0 0))) = tau 1 1 4 n.
Proof. destruct (regular_state 1 1 4 0 0 0 n) as [tp E]. rewrite E. reflexivity. Qed.
Lemma def_x k : pg_step D F beta (Z (S k)) (X (S (S k))).
Proof. apply (X_step grad prox D f g beta Hb Sf Cg Pg x0 _ (Regular 1 1 4) 0 0 0 eq_refl (S k)). Qed.
Lemma def_y k : Z (S (S k)) = (X (S (S k)) + ((tau 1 1 4 k - 1) / tau 1 1 4 (S k)) * (X (S (S k)) - X (S k)))%v.
Proof. unfold Z, X, s0. rewrite (Z_SS grad prox beta x0 _ (Regular 1 1 4) 0 0 0 eq_refl k), !def_t. reflexivity. Qed.
Lemma def_0 : D (X 1%nat).
Proof. apply (X_in grad prox D f g beta Hb Sf Cg Pg x0 _ (Regular 1 1 4) 0 0 0 eq_refl). Qed.
Lemma def_z1 : Z 1%nat = X 1%nat.
Proof. apply (Z_1 grad prox beta x0 _ (Regular 1 1 4) 0 0 0 eq_refl). Qed.
Lemma def_F : convex_on D F.
Proof. apply convex_sum; [apply Sf|exact Cg]. Qed.

Lemma def_start : nsq (X 1%nat - z)%v <= nsq (x0 - z)%v.
Proof.
  destruct (X_step grad prox D f g beta Hb Sf Cg Pg x0 _ (Regular 1 1 4) 0 0 0 eq_refl 0) as [Dx V]. specialize (V z (proj1 Mz)).
  fold s0 in Dx, V. fold (X 1%nat) in Dx, V. change (fb_z_old (fb_after grad prox 0 s0)) with x0 in V.
  pose proof (proj2 Mz _ Dx) as M.
  assert (I : 0 < / (2 * beta)) by (apply Rinv_0_lt_compat; lra). unfold F in M. apply Rnot_lt_le. intros L. nra.
Qed.

Let gap k := F (X (S (S k))) - F z.
Lemma def_gap_pos k : 0 <= gap k.
Proof. unfold gap. pose proof (proj2 Mz _ (proj1 (def_x k))). lra. Qed.

Lemma def_linear k : gap k <= nsq (x0 - z)%v / (beta * (INR k + 1)).
Proof.
  pose proof (default_first_rate D F beta Hb def_F (fun k => X (S k)) (fun k => Z (S k)) (tau 1 1 4) def_x def_y def_0 def_z1 eq_refl default_step z Mz k) as Q.
  cbv beta in Q. fold (gap k) in Q. pose proof def_start as S0. destruct (default_step k) as [T _]. pose proof (pos_INR k) as Pk. pose proof (def_gap_pos k) as Pw.
  apply Rmult_le_reg_r with (beta * (INR k + 1)); [apply Rmult_lt_0_compat; lra|].
  unfold Rdiv. rewrite Rmult_assoc, Rinv_l, Rmult_1_r by (apply Rgt_not_eq, Rmult_lt_0_compat; lra).
  apply Rle_trans with (beta * tau 1 1 4 k * gap k); [|lra].
  rewrite (Rmult_comm (gap k)). apply Rmult_le_compat_r; [exact Pw|]. apply Rmult_le_compat_l; lra.
Qed.

Lemma def_cubed k : (beta * gap k) ^ 3 * (INR k + 1) ^ 4 <= (40 / 9 * nsq (x0 - z)%v) ^ 3.
Proof.
  pose proof (default_second_rate D F beta Hb def_F (fun k => X (S k)) (fun k => Z (S k)) (tau 1 1 4) def_x def_y def_0 def_z1 eq_refl default_step z Mz k) as Q.
  cbv beta in Q. fold (gap k) in Q. pose proof def_start as S0. destruct (default_step k) as [T _]. pose proof (pos_INR k) as Pk. pose proof (def_gap_pos k) as Pw.
  pose proof (nsq_pos (X 1%nat - z)%v) as PN.
  apply Rle_trans with ((beta * gap k) ^ 3 * tau 1 1 4 k ^ 4).
  - apply Rmult_le_compat_l; [apply pow_le, Rmult_le_pos; lra|]. apply pow_incr. lra.
  - apply Rle_trans with (1 := Q). apply cube_le; lra.
Qed.

Lemma Rpower_cube a : 0 < a -> Rpower a (- (4 / 3)) ^ 3 * a ^ 4 = 1.
Proof.
  intros Ha. rewrite <- !Rpower_pow by (try exact Ha; apply exp_pos). rewrite Rpower_mult, <- Rpower_plus.
  replace (- (4 / 3) * INR 3 + INR 4) with 0 by (cbn [INR]; field). apply Rpower_O. exact Ha.
Qed.
Lemma def_rate k : gap k <= 40 / 9 * nsq (x0 - z)%v / beta * Rpower (INR k + 1) (- (4 / 3)).
Proof.
  pose proof (def_cubed k) as Q. pose proof (pos_INR k) as Pk. pose proof (def_gap_pos k) as Pw. pose proof (nsq_pos (x0 - z)%v) as PN.
  set (N := nsq (x0 - z)%v) in *. set (a := INR k + 1) in *. assert (Ha : 0 < a) by (unfold a; lra).
  pose proof (Rpower_cube a Ha) as Pc. assert (Pr : 0 < Rpower a (- (4 / 3))) by apply exp_pos. set (r := Rpower a (- (4 / 3))) in *.
  assert (A4 : 0 < a ^ 4) by (apply pow_lt; exact Ha).
  assert (C : (beta * gap k) ^ 3 <= (40 / 9 * N * r) ^ 3).
  { apply Rmult_le_reg_r with (a ^ 4); [exact A4|]. apply Rle_trans with (1 := Q).
    right. replace ((40 / 9 * N * r) ^ 3 * a ^ 4) with ((40 / 9 * N) ^ 3 * (r ^ 3 * a ^ 4)) by ring. rewrite Pc. ring. }
  apply Rmult_le_reg_l with beta; [exact Hb|]. replace (beta * (40 / 9 * N / beta * r)) with (40 / 9 * N * r) by (field; lra).
  apply Rnot_lt_le. intros L. assert (0 <= 40 / 9 * N * r) by (apply Rmult_le_pos; lra).
  assert ((40 / 9 * N * r) ^ 3 < (beta * gap k) ^ 3); [|lra].
  set (p := beta * gap k) in *. set (q := 40 / 9 * N * r) in *. clearbody p q.
  assert (0 < (p - q) * (p * p + p * q + q * q)) by (apply Rmult_lt_0_compat; [lra|nra]). lra.
Qed.

Lemma def_values_cv : Un_cv (fun k => F (X k) - F z) 0.
Proof.
  intros e He. set (C := nsq (x0 - z)%v / (beta * e)). assert (PC : 0 <= C).
  { apply Rmult_le_pos; [apply nsq_pos|]. apply Rlt_le, Rinv_0_lt_compat, Rmult_lt_0_compat; lra. }
  exists (S (S (Z.to_nat (up C)))). intros [|[|n]] Hn; [lia|lia|]. unfold R_dist. rewrite Rminus_0_r. fold (gap n).
  pose proof (def_gap_pos n). rewrite Rabs_right by lra. apply Rle_lt_trans with (1 := def_linear n).
  destruct (archimed C) as [U _]. assert (L : INR (Z.to_nat (up C)) <= INR n) by (apply le_INR; lia).
  rewrite INR_IZR_INZ, Z2Nat.id in L by (apply le_IZR; lra). pose proof (pos_INR n).
  assert (Lt : C < INR n + 1) by lra.
  assert (Pb : 0 < beta * (INR n + 1)) by (apply Rmult_lt_0_compat; lra).
  apply Rmult_lt_reg_r with (beta * (INR n + 1)); [exact Pb|].
  unfold Rdiv. rewrite Rmult_assoc, Rinv_l, Rmult_1_r by lra.
  apply (Rmult_lt_compat_r (beta * e)) in Lt; [|apply Rmult_lt_0_compat; lra].
  replace (C * (beta * e)) with (nsq (x0 - z)%v) in Lt by (unfold C; field; split; lra). lra.
Qed.

(** A strongly convex f. *)
Lemma strong_gap mu : strongly_convex mu f -> forall v, D v -> mu / 2 * nsq (v - z)%v <= F v - F z.
Proof.
  intros Cf v Dv. set (q := mu / 2 * nsq (v - z)%v).
  assert (K : forall s, 0 < s <= 1 -> (1 - s) * q <= F v - F z).
  { intros s Hs. destruct (Cg z v s (proj1 Mz) Dv ltac:(lra)) as [Dc G]. destruct (Cf z v s I I ltac:(lra)) as [_ G2]. cbv beta in G2.
    pose proof (proj2 Mz _ Dc) as M. set (c := ((1 - s) * z + s * v)%v) in *.
    assert (En : nsq c = (1 - s) * nsq z + s * nsq v - s * (1 - s) * nsq (v - z)%v).
    { unfold c. iexpand. rewrite (inner_sym H v z). ring. }
    rewrite En in G2. fold (F c) in M. assert (s * ((1 - s) * q) <= s * (F v - F z)); [|apply Rmult_le_reg_l with s; lra].
    unfold q, F in *. lra. }
  apply Rnot_lt_le. intros L. pose proof (K 1 ltac:(lra)) as P.
  assert (Pq : 0 < q) by lra. set (d := q - (F v - F z)) in *. 
  assert (Hs : 0 < d / (2 * q) <= 1).
  { unfold d. split; [apply Rdiv_lt_0_compat; lra|]. apply Rmult_le_reg_r with (2 * q); [lra|]. unfold Rdiv. rewrite Rmult_assoc, Rinv_l by lra. lra. }
  pose proof (K _ Hs) as B. replace ((1 - d / (2 * q)) * q) with (q - d / 2) in B by (field; lra). unfold d in *. lra.
Qed.
Lemma def_strong mu : 0 < mu -> strongly_convex mu f -> converges X z.
Proof.
  intros Hm Cf e He. destruct (def_values_cv (mu / 2 * (e * e))) as (N & Q); [apply Rmult_lt_0_compat; [lra|apply Rmult_lt_0_compat; lra]|].
  exists (S N). intros n Hn. specialize (Q n ltac:(lia)). unfold R_dist in Q. rewrite Rminus_0_r in Q.
  destruct n as [|n]; [lia|]. pose proof (strong_gap mu Cf (X (S n)) (X_in grad prox D f g beta Hb Sf Cg Pg x0 _ (Regular 1 1 4) 0 0 0 eq_refl n)) as S1.
  pose proof (Rle_abs (F (X (S n)) - F z)). rewrite <- norm_sq in S1. pose proof (norm_pos (X (S n) - z)%v).
  apply Rnot_le_lt. intros L. assert (e * e <= norm (X (S n) - z)%v * norm (X (S n) - z)%v) by (apply Rmult_le_compat; lra).
  assert (mu / 2 * (e * e) <= mu / 2 * (norm (X (S n) - z)%v * norm (X (S n) - z)%v)) by (apply Rmult_le_compat_l; lra). lra.
Qed.
Lemma def_strong_z mu : 0 < mu -> strongly_convex mu f -> converges Z z.
Proof.
  intros Hm Cf e He. destruct (def_strong mu Hm Cf (e / 3) ltac:(lra)) as (N & Q). exists (S (S N)). intros [|[|n]] Hn; [lia|lia|].
  pose proof (Q (S (S n)) ltac:(lia)) as Q1. pose proof (Q (S n) ltac:(lia)) as Q2. rewrite def_y.
  destruct (default_step n) as (T1 & [T2 _] & _). pose proof (pos_INR n). set (l := (tau 1 1 4 n - 1) / tau 1 1 4 (S n)).
  assert (Hl : 0 <= l <= 1).
  { unfold l. split; [apply Rmult_le_pos; [lra|apply Rlt_le, Rinv_0_lt_compat; lra]|].
    apply Rmult_le_reg_r with (tau 1 1 4 (S n)); [lra|]. unfold Rdiv. rewrite Rmult_assoc, Rinv_l by lra. lra. }
  clearbody l. set (a := X (S (S n))) in *. set (b := X (S n)) in *.
  replace (a + l * (a - b) - z)%v with ((1 + l) * (a - z) + (- l) * (b - z))%v by vring.
  apply Rle_lt_trans with (1 := norm_triangle _ _). rewrite !norm_scal, (Rabs_right (1 + l)), (Rabs_left1 (- l)) by lra.
  pose proof (norm_pos (a - z)%v). pose proof (norm_pos (b - z)%v). nra.
Qed.
End Run.

(** * C133 *)

(** With a step 1/L the objective converges to its minimum like k^(-4/3); the rate 2|x0-z|^2/(beta k^2)
    fails (C43). *)
Theorem C133_default_rate :
  forall (H : ips) (D : H -> Prop) (f g : H -> R) grad prox beta bp x0 s0 z,
  0 < beta -> smooth_convex (/ beta) f grad -> convex_on D g -> prox_operator D g prox ->
  fb_init x0 (Some beta) bp 1 None (LFista default_fista_args) = Ok s0 ->
  let F u := f u + g u in minimises D F z ->
  forall k, F (fb_x_old (fb_after grad prox (k + 2) s0)) - F z <= 40 / 9 * nsq (x0 - z)%v / beta * Rpower (INR k + 1) (- (4 / 3)).
Proof.
  intros H D f g grad prox beta bp x0 s0 z Hb Sf Cg Pg E F M k.
  unfold fb_init, default_fista_args in E. rewrite fista_init_regular in E. cbn [bind] in E. rewrite step_or_pos in E by exact Hb. injection E as <-.
  rewrite Nat.add_comm. apply (def_rate D f g grad prox beta Hb Sf Cg Pg x0 z M).
Qed.
Print Assumptions C133_default_rate.

(** A slower rate with a smaller constant, better during the first iterations. *)
Theorem C133_default_early_rate :
  forall (H : ips) (D : H -> Prop) (f g : H -> R) grad prox beta bp x0 s0 z,
  0 < beta -> smooth_convex (/ beta) f grad -> convex_on D g -> prox_operator D g prox ->
  fb_init x0 (Some beta) bp 1 None (LFista default_fista_args) = Ok s0 ->
  let F u := f u + g u in minimises D F z ->
  forall k, F (fb_x_old (fb_after grad prox (k + 2) s0)) - F z <= nsq (x0 - z)%v / (beta * (INR k + 1)).
Proof.
  intros H D f g grad prox beta bp x0 s0 z Hb Sf Cg Pg E F M k.
  unfold fb_init, default_fista_args in E. rewrite fista_init_regular in E. cbn [bind] in E. rewrite step_or_pos in E by exact Hb. injection E as <-.
  rewrite Nat.add_comm. apply (def_linear D f g grad prox beta Hb Sf Cg Pg x0 z M).
Qed.
Print Assumptions C133_default_early_rate.

(** When f is strongly convex the estimates converge to the minimiser, and so does what iterate() returns. *)
Theorem C133_default_converges :
  forall (H : ips) (D : H -> Prop) (f g : H -> R) grad prox beta bp x0 s0 z mu,
  0 < beta -> smooth_convex (/ beta) f grad -> 0 < mu -> strongly_convex mu f -> convex_on D g -> prox_operator D g prox ->
  fb_init x0 (Some beta) bp 1 None (LFista default_fista_args) = Ok s0 ->
  minimises D (fun u => f u + g u) z ->
  converges (fun k => fb_x_old (fb_after grad prox k s0)) z /\
  (forall k, nsq (fb_x_old (fb_after grad prox (k + 2) s0) - z)%v <= 80 / 9 * nsq (x0 - z)%v / (mu * beta) * Rpower (INR k + 1) (- (4 / 3))) /\
  (forall e, 0 < e -> exists N, forall k metric period, (N <= k)%nat ->
     exists x, fb_iterate grad prox None metric false period k s0 = Ok x /\ norm (x - z)%v < e).
Proof.
  intros H D f g grad prox beta bp x0 s0 z mu Hb Sf Hm Cf Cg Pg E M.
  pose proof (C133_default_rate H D f g grad prox beta bp x0 s0 z Hb Sf Cg Pg E M) as Rt. cbv zeta in Rt.
  unfold fb_init, default_fista_args in E. rewrite fista_init_regular in E. cbn [bind] in E. rewrite step_or_pos in E by exact Hb. injection E as <-.
  split; [apply (def_strong D f g grad prox beta Hb Sf Cg Pg x0 z M mu Hm Cf)|]. split.
  - intros k. specialize (Rt k). set (x := fb_x_old _) in *.
    assert (Dx : D x).
    { unfold x. rewrite Nat.add_comm. apply (X_in grad prox D f g beta Hb Sf Cg Pg x0 _ (Regular 1 1 4) 0 0 0 eq_refl). }
    pose proof (strong_gap D f g Cg z M mu Cf x Dx) as S1. cbv beta in S1. set (r := Rpower _ _) in *.
    apply Rmult_le_reg_l with (mu / 2); [lra|]. 
    replace (mu / 2 * (80 / 9 * nsq (x0 - z)%v / (mu * beta) * r)) with (40 / 9 * nsq (x0 - z)%v / beta * r) by (field; lra). lra.
  - intros e He. destruct (def_strong_z D f g grad prox beta Hb Sf Cg Pg x0 z M mu Hm Cf e He) as (N & Q).
    exists (S N). intros k metric period Hk. eexists. split; [apply fb_iterate_plain; lia|]. apply Q. lia.
Qed.
Print Assumptions C133_default_converges.

(** (x - 3)^2 / 2 + |x| from 10 with a step 1/2: the first three estimates, and the limit 2. *)
Example C133_example : exists s0 : fb (H := R_ips),
  fb_init (H := R_ips) 10 (Some (/ 2)) 1 1 None (LFista default_fista_args) = Ok s0 /\
  map (fun k => fb_x_old (fb_after (H := R_ips) (fun x => x - 3)%R softc k s0)) [1; 2; 3]%nat = [6; 4; 3] /\
  converges (H := R_ips) (fun k => fb_x_old (fb_after (H := R_ips) (fun x => x - 3)%R softc k s0)) 2.
Proof.
  exists (@mk_fb R_ips 10 10 None (/ 2) 1 (RFista (no_restart (Regular 1 1 4) 1 1 0 0 0)) 0).
  assert (E0 : fb_init (H := R_ips) 10 (Some (/ 2)) 1 1 None (LFista default_fista_args)
     = Ok (@mk_fb R_ips 10 10 None (/ 2) 1 (RFista (no_restart (Regular 1 1 4) 1 1 0 0 0)) 0)).
  { unfold fb_init, default_fista_args. rewrite fista_init_regular. cbn [bind]. rewrite step_or_pos by lra. reflexivity. }
  split; [exact E0|]. split.
  - set (s0 := mk_fb _ _ _ _ _ _ _). set (gr := fun x : R_ips => (x - 3)%R).
    assert (B : forall n, fb_beta (fb_after (H := R_ips) gr softc n s0) = / 2).
    { intros n. apply (fb_fista_state (H := R_ips) gr softc 10 (/ 2) 1 _ (Regular 1 1 4) 0 0 0 eq_refl n). }
    assert (St : forall n v, fb_z_old (fb_after (H := R_ips) gr softc n s0) = v -> 0 < v ->
       fb_x_old (fb_after (H := R_ips) gr softc (S n) s0) = (v + 2) / 2).
    { intros n v Ev Hv. change (fb_after (H := R_ips) gr softc (S n) s0) with (fb_update (H := R_ips) gr softc (fb_after (H := R_ips) gr softc n s0)).
      rewrite fb_update_x, B, Ev. unfold fb_map, gr. cbn. unfold softc. repeat (destruct (Rle_dec _ _); try lra). }
    assert (X1 : fb_x_old (fb_after (H := R_ips) gr softc 1 s0) = 6) by (rewrite (St 0%nat 10 eq_refl) by lra; lra).
    assert (Z1 : fb_z_old (fb_after (H := R_ips) gr softc 1 s0) = 6).
    { rewrite <- X1. apply (Z_1 (H := R_ips) gr softc (/ 2) 10 _ (Regular 1 1 4) 0 0 0 eq_refl). }
    assert (X2 : fb_x_old (fb_after (H := R_ips) gr softc 2 s0) = 4) by (rewrite (St 1%nat 6 Z1) by lra; lra).
    assert (Z2 : fb_z_old (fb_after (H := R_ips) gr softc 2 s0) = 4).
    { pose proof (Z_SS (H := R_ips) gr softc (/ 2) 10 _ (Regular 1 1 4) 0 0 0 eq_refl 0) as Q. fold s0 in Q. rewrite Q, X1, X2, !def_t. cbn [tau]. cbn. lra. }
    assert (X3 : fb_x_old (fb_after (H := R_ips) gr softc 3 s0) = 3) by (rewrite (St 2%nat 4 Z2) by lra; lra).
    cbn [map]. rewrite X1, X2, X3. reflexivity.
  - destruct (quad_smooth 3) as (Q1 & Q2 & Q3).
    refine (proj1 (C133_default_converges R_ips everywhere (fun x => (x - 3) * (x - 3) / 2) (fun z => Rabs z) (fun x => x - 3)%R softc (/ 2) 1 10 _ 2 1 _ _ _ _ abs_convex soft_prox_operator E0 _)); [lra| |lra| |].
    + rewrite Rinv_inv. split; [exact Q1|]. split; [exact Q2|]. intros u v. pose proof (Q3 u v) as P. pose proof (norm_pos (H := R_ips) (u - v)%v). lra.
    + intros u v s _ _ _. split; [exact I|]. cbv beta. unfold nsq. cbn. nra.
    + split; [exact I|]. intros u _. rewrite (Rabs_right 2) by lra. pose proof (Rle_abs u). pose proof (Rle_0_sqr (u - 2)%R) as Q. unfold Rsqr in Q. cbn in u. lra.
Qed.
