(** Theorems of C148: ForwardBackward with FISTA when the gradients are inexact. *)
From Coq Require Import String.
From Verif Require Import NPReal Py IPS Model_SetUp Spec_Opt Proof_Smooth Spec_GD Model_FB Proof_FB Proof_FB2 Proof_Inst Proof_Stab Proof_Lim Proof_Ada Prop_Lim Proof_FistaInexact Proof_FistaInexact2.
From Coq Require Import List Lia.
Import ListNotations.
Local Open Scope R_scope.

(** The sequence t of FISTA with parameters p_lazy, q_lazy and r_lazy = 4. *)
Definition t_sequence (p q : R) (t : nat -> R) : Prop :=
  t 0%nat = 1 /\ forall k, t (S k) = p + sqrt (4 * t k ^ 2 + q) / 2.

(** [C148] f has gradient df, but the run sees grad'. y k is the point where the gradient is asked for by update k,
    err k its error. The objective is within (|x0 - z| + 2 beta (err 0 + sum of t_j err(j+1)))^2 / (2 beta t_k^2)
    of the minimum after k+2 updates. *)
Theorem C148_inexact_gradients :
  forall (H : ips) (D : H -> Prop) (f g : H -> R) df grad' prox beta bp x0 s0 p q z t,
  0 < beta -> smooth_convex (/ beta) f df -> convex_on D g -> prox_operator D g prox ->
  0 < p <= / 2 -> 0 <= q <= (2 - 2 * p) ^ 2 ->
  fb_init x0 (Some beta) bp 1 None (LFista (mk_fargs None None None None None p q 4)) = Ok s0 -> t_sequence p q t ->
  let F u := f u + g u in minimises D F z ->
  let y k := fb_z_old (fb_after grad' prox k s0) in
  let err k := norm (grad' (y k) - df (y k))%v in
  forall k, F (fb_x_old (fb_after grad' prox (k + 2) s0)) - F z <=
  (norm (x0 - z)%v + 2 * beta * (err 0%nat + sum_below (S k) (fun j => t j * err (S j)))) ^ 2 / (2 * beta * t k ^ 2).
Proof.
  intros H D f g df grad' prox beta bp x0 s0 p q z t Hb Sf Cg Pg Hp Hq E [t0 tS] F M y err k.
  unfold fb_init in E. rewrite fista_init_regular in E. cbn [bind] in E. rewrite step_or_pos in E by exact Hb. injection E as <-.
  set (f0 := no_restart (Regular p q 4) 1 1 0 0 0) in *. rewrite Nat.add_comm. set (s0 := mk_fb _ _ _ _ _ _ _) in *.
  assert (Tt : forall n, t n = tau p q 4 n).
  { induction n as [|n IH]; [exact t0|]. rewrite tS, IH. cbn [tau]. unfold Rdiv. reflexivity. }
  assert (Et : forall n, f_t_now (snd (lambdas n f0)) = t n).
  { intros n. rewrite Tt. destruct (regular_state p q 4 0 0 0 n) as [tp E]. unfold f0. rewrite E. reflexivity. }
  pose proof (rate_error D F beta Hb (fun n => fb_x_old (fb_after grad' prox n s0)) y (fun n => (grad' (y n) - df (y n))%v) t) as Q.
  apply Q; clear Q.
  - intros n. change (fb_after grad' prox (S n) s0) with (fb_update grad' prox (fb_after grad' prox n s0)). rewrite fb_update_x.
    destruct (fb_fista_state grad' prox x0 beta 1 f0 (Regular p q 4) 0 0 0 eq_refl n) as (_ & Eb & _). fold s0 in Eb. rewrite Eb. fold (y n).
    apply (inexact_ineq D f g df grad' prox beta (y n) Hb Sf Cg Pg).
  - apply (Z_1 grad' prox beta x0 f0 (Regular p q 4) 0 0 0 eq_refl).
  - intros n. pose proof (Z_SS grad' prox beta x0 f0 (Regular p q 4) 0 0 0 eq_refl n) as Q. cbv beta in Q. rewrite !Et in Q. exact Q.
  - apply convex_sum; [apply Sf|exact Cg].
  - exact t0.
  - intros n. rewrite !Tt. split; [|apply tau_4_cond; assumption].
    pose proof (tau_4_ge p q (S n) ltac:(lra) ltac:(lra)). pose proof (pos_INR (S n)). nra.
  - exact M.
Qed.
Print Assumptions C148_inexact_gradients.

(** [C148] Errors that decrease fast enough keep the accelerated rate. *)
Theorem C148_rate_kept :
  forall (H : ips) (D : H -> Prop) (f g : H -> R) df grad' prox beta bp x0 s0 p q z t B,
  0 < beta -> smooth_convex (/ beta) f df -> convex_on D g -> prox_operator D g prox ->
  0 < p <= / 2 -> 0 <= q <= (2 - 2 * p) ^ 2 ->
  fb_init x0 (Some beta) bp 1 None (LFista (mk_fargs None None None None None p q 4)) = Ok s0 -> t_sequence p q t ->
  let F u := f u + g u in minimises D F z ->
  let y k := fb_z_old (fb_after grad' prox k s0) in
  let err k := norm (grad' (y k) - df (y k))%v in
  (forall n, err 0%nat + sum_below n (fun j => t j * err (S j)) <= B) ->
  forall k, F (fb_x_old (fb_after grad' prox (k + 2) s0)) - F z <= (norm (x0 - z)%v + 2 * beta * B) ^ 2 / (2 * beta * (1 + INR k * p) ^ 2).
Proof.
  intros H D f g df grad' prox beta bp x0 s0 p q z t B Hb Sf Cg Pg Hp Hq E Ts F M y err HB k.
  pose proof (C148_inexact_gradients H D f g df grad' prox beta bp x0 s0 p q z t Hb Sf Cg Pg Hp Hq E Ts M k) as Q. cbv zeta in Q.
  apply Rle_trans with (1 := Q). clear Q. fold y. specialize (HB (S k)).
  destruct Ts as [t0 tS]. assert (Tt : forall n, t n = tau p q 4 n).
  { induction n as [|n IH]; [exact t0|]. rewrite tS, IH. cbn [tau]. unfold Rdiv. reflexivity. }
  assert (Tp : forall n, 0 <= t n).
  { intros n. rewrite Tt. pose proof (tau_4_ge p q n ltac:(lra) ltac:(lra)). pose proof (pos_INR n). nra. }
  assert (S0 : forall n, 0 <= sum_below n (fun j => t j * err (S j))).
  { induction n as [|n IH]; cbn [sum_below]; [lra|]. assert (0 <= t n * err (S n)) by (apply Rmult_le_pos; [apply Tp|apply norm_pos]). lra. }
  set (A := err 0%nat + sum_below (S k) (fun j => t j * err (S j))) in *. change (norm (grad' (y 0%nat) - df (y 0%nat))%v + sum_below (S k) (fun j => t j * norm (grad' (y (S j)) - df (y (S j)))%v)) with A.
  assert (A0 : 0 <= A). { unfold A. pose proof (S0 (S k)). assert (0 <= err 0%nat) by apply norm_pos. lra. }
  pose proof (norm_pos (x0 - z)%v) as N0. pose proof (pos_INR k) as Pk.
  pose proof (tau_4_ge p q k ltac:(lra) ltac:(lra)) as Tk. rewrite <- Tt in Tk.
  set (w := 1 + INR k * p) in *. assert (Hw : 1 <= w) by (unfold w; pose proof (Rmult_le_pos _ _ Pk (Rlt_le _ _ (proj1 Hp))); lra).
  assert (K : forall a, 1 <= a -> 0 < 2 * beta * a ^ 2) by (intros a Ha; apply Rmult_lt_0_compat; [lra|apply pow_lt; lra]).
  unfold Rdiv. apply Rmult_le_compat.
  - apply pow2_ge_0.
  - left. apply Rinv_0_lt_compat, K. lra.
  - apply pow_incr. split; [apply Rplus_le_le_0_compat; [exact N0|apply Rmult_le_pos; [lra|exact A0]]|]. apply Rplus_le_compat_l. apply Rmult_le_compat_l; [lra|exact HB].
  - apply Rinv_le_contravar; [apply K, Hw|]. apply Rmult_le_compat_l; [lra|]. apply pow_incr. lra.
Qed.
Print Assumptions C148_rate_kept.

(** [C148] Without acceleration: the accumulated excess of the objective over n updates, hence the excess of the best
    of the estimates 1, ..., n+1, with the errors not weighted. *)
Theorem C148_without_acceleration :
  forall (H : ips) (D : H -> Prop) (f g : H -> R) df grad' prox beta bp x0 s0 z,
  0 < beta -> smooth_convex (/ beta) f df -> convex_on D g -> prox_operator D g prox ->
  fb_init x0 (Some beta) bp 1 None (LCall None) = Ok s0 ->
  let F u := f u + g u in minimises D F z ->
  let x k := fb_x_old (fb_after grad' prox k s0) in
  let err k := norm (grad' (x k) - df (x k))%v in
  (forall n, sum_below n (fun k => F (x (S k)) - F z) <= (norm (x0 - z)%v + 2 * beta * sum_below n err) ^ 2 / (2 * beta)) /\
  forall n, exists k, (1 <= k <= S n)%nat /\ F (x k) - F z <= (norm (x0 - z)%v + 2 * beta * sum_below (S n) err) ^ 2 / (2 * beta * INR (S n)).
Proof.
  intros H D f g df grad' prox beta bp x0 s0 z Hb Sf Cg Pg E F M x err.
  destruct (fixed_recurrences grad' prox x0 beta bp 1 s0 Hb E) as (E1 & E2 & RX & RZ).
  assert (XS : forall k, x (S k) = fb_map grad' prox beta (x k)).
  { intros k. unfold x. rewrite RX. f_equal. destruct k as [|k]; [rewrite E1, E2; reflexivity|]. rewrite RZ. vring. }
  assert (St : forall n, ie_step D F beta (grad' (x n) - df (x n))%v (x n) (x (S n))).
  { intros n. rewrite XS. apply (inexact_ineq D f g df grad' prox beta (x n) Hb Sf Cg Pg). }
  assert (Gap : forall n, 0 <= F (x (S n)) - F z) by (intros n; pose proof (proj2 M _ (proj1 (St n))); lra).
  set (A := fun n => 2 * beta * sum_below n (fun k => F (x (S k)) - F z) + nsq (x n - z)%v).
  assert (S0 : forall n, 0 <= sum_below n (fun k => F (x (S k)) - F z)).
  { induction n as [|n IH]; cbn [sum_below]; [lra|]. pose proof (Gap n). lra. }
  assert (A0 : forall n, nsq (x n - z)%v <= A n).
  { intros n. unfold A. assert (0 <= 2 * beta * sum_below n (fun k => F (x (S k)) - F z)); [apply Rmult_le_pos; [lra|apply S0]|lra]. }
  assert (Ap : forall n, 0 <= A n) by (intros n; apply Rle_trans with (2 := A0 n); apply nsq_pos).
  assert (Bd : forall n, sqrt (A n) <= norm (x0 - z)%v + 2 * beta * sum_below n err).
  { induction n as [|n IH].
    - cbn [sum_below]. unfold A. cbn [sum_below]. unfold x. rewrite E1. replace (2 * beta * 0 + nsq (x0 - z)%v) with (nsq (x0 - z)%v) by ring. unfold norm, nsq. lra.
    - cbn [sum_below]. assert (sqrt (A (S n)) <= sqrt (A n) + 2 * beta * err n); [|lra].
      apply root_step with (norm (x (S n) - z)%v); [apply sqrt_pos|apply sqrt_pos|apply Rmult_le_pos; [lra|apply norm_pos]|apply sqrt_le_1_alt; apply A0|].
      rewrite !sqrt_sqrt by apply Ap. pose proof (plain_error D F beta Hb x x (fun n => (grad' (x n) - df (x n))%v) St n z M) as Q. cbv beta in Q. fold (err n) in Q.
      unfold A. cbn [sum_below]. lra. }
  assert (Tot : forall n, sum_below n (fun k => F (x (S k)) - F z) <= (norm (x0 - z)%v + 2 * beta * sum_below n err) ^ 2 / (2 * beta)).
  { intros n. apply Rmult_le_reg_l with (2 * beta); [lra|].
    replace (2 * beta * ((norm (x0 - z)%v + 2 * beta * sum_below n err) ^ 2 / (2 * beta))) with ((norm (x0 - z)%v + 2 * beta * sum_below n err) * (norm (x0 - z)%v + 2 * beta * sum_below n err)) by (field; lra).
    apply Rle_trans with (A n); [unfold A; pose proof (nsq_pos (x n - z)%v); lra|]. rewrite <- (sqrt_sqrt (A n)) by apply Ap. pose proof (sqrt_pos (A n)). apply Rmult_le_compat; auto. }
  split; [exact Tot|]. intros n. destruct (smallest n _ _ (Tot (S n))) as (k & Hk & Q). exists (S k). split; [lia|].
  apply Rle_trans with (1 := Q). right. assert (0 < INR (S n)) by (apply lt_0_INR; lia). field. split; lra.
Qed.
Print Assumptions C148_without_acceleration.

(** [C148] Chambolle-Dossal parameters, any a_cd > 2: the errors of the first three updates count once, that of update j+3
    with weight (j + a)/a. *)
Theorem C148_chambolle_dossal :
  forall (H : ips) (D : H -> Prop) (f g : H -> R) df grad' prox beta bp x0 s0 a p q r z,
  0 < beta -> smooth_convex (/ beta) f df -> convex_on D g -> prox_operator D g prox -> 2 < a ->
  fb_init x0 (Some beta) bp 1 None (LFista (mk_fargs None None None None (Some a) p q r)) = Ok s0 ->
  let F u := f u + g u in minimises D F z ->
  let y k := fb_z_old (fb_after grad' prox k s0) in
  let err k := norm (grad' (y k) - df (y k))%v in
  forall k, F (fb_x_old (fb_after grad' prox (k + 4) s0)) - F z <=
  a ^ 2 * (norm (x0 - z)%v + 2 * beta * (err 0%nat + err 1%nat + err 2%nat + sum_below (S k) (fun j => (INR j + a) / a * err (j + 3)%nat))) ^ 2
  / (2 * beta * (INR k + a) ^ 2).
Proof.
  intros H D f g df grad' prox beta bp x0 s0 a p q r z Hb Sf Cg Pg Ha E F M y err k.
  unfold fb_init in E. rewrite fista_init_cd in E by exact Ha. cbn [bind] in E. rewrite step_or_pos in E by exact Hb. injection E as <-.
  set (f0 := no_restart (CD a 0) 1 1 0 0 0) in *. set (s0 := mk_fb _ _ _ _ _ _ _) in *.
  set (x := fun n => fb_x_old (fb_after grad' prox n s0)).
  assert (Et : forall n, f_t_now (snd (lambdas n f0)) = tau_cd a n).
  { intros n. destruct (cd_state a 0 0 0 n) as [tp E]. unfold f0. rewrite E. reflexivity. }
  assert (St : forall n, ie_step D F beta (grad' (y n) - df (y n))%v (y n) (x (S n))).
  { intros n. unfold x. change (fb_after grad' prox (S n) s0) with (fb_update grad' prox (fb_after grad' prox n s0)). rewrite fb_update_x.
    destruct (fb_fista_state grad' prox x0 beta 1 f0 (CD a 0) 0 0 0 eq_refl n) as (_ & Eb & _). fold s0 in Eb. rewrite Eb. fold (y n).
    apply (inexact_ineq D f g df grad' prox beta (y n) Hb Sf Cg Pg). }
  assert (Y1 : y 1%nat = x 1%nat) by (apply (Z_1 grad' prox beta x0 f0 (CD a 0) 0 0 0 eq_refl)).
  assert (YS : forall n, y (S (S n)) = (x (S (S n)) + ((tau_cd a n - 1) / tau_cd a (S n)) * (x (S (S n)) - x (S n)))%v).
  { intros n. pose proof (Z_SS grad' prox beta x0 f0 (CD a 0) 0 0 0 eq_refl n) as Q. cbv beta in Q. rewrite !Et in Q. exact Q. }
  assert (Y2 : y 2%nat = x 2%nat).
  { rewrite YS. cbn [tau_cd]. replace ((1 - 1) / ((INR 0 + a - 1) / a)) with 0 by (cbn; field; lra). vring. }
  assert (B1 : norm (x 1%nat - z)%v <= norm (x0 - z)%v + 2 * beta * err 0%nat) by (apply (closer_error D F beta _ (y 0%nat) (x 1%nat) z Hb (St 0%nat) M)).
  assert (B2 : norm (x 2%nat - z)%v <= norm (x 1%nat - z)%v + 2 * beta * err 1%nat).
  { pose proof (closer_error D F beta _ (y 1%nat) (x 2%nat) z Hb (St 1%nat) M) as Q. fold (err 1%nat) in Q. rewrite Y1 in Q at 1. exact Q. }
  assert (B3 : norm (x 3%nat - z)%v <= norm (x 2%nat - z)%v + 2 * beta * err 2%nat).
  { pose proof (closer_error D F beta _ (y 2%nat) (x 3%nat) z Hb (St 2%nat) M) as Q. fold (err 2%nat) in Q. rewrite Y2 in Q at 1. exact Q. }
  assert (Y3 : norm (y 3%nat - z)%v <= norm (x0 - z)%v + 2 * beta * (err 0%nat + err 1%nat + err 2%nat)).
  { rewrite YS. assert (Ec : (tau_cd a 1 - 1) / tau_cd a 2 = - / a) by (cbn; field; lra). rewrite Ec.
    set (c := / a). assert (Hc1 : 0 < c < 1).
    { unfold c. split; [apply Rinv_0_lt_compat; lra|]. rewrite <- Rinv_1. apply Rinv_lt_contravar; lra. }
    replace (x 3%nat + - c * (x 3%nat - x 2%nat) - z)%v with ((1 - c) * (x 3%nat - z) + c * (x 2%nat - z))%v by vring.
    apply Rle_trans with (1 := norm_triangle _ _). rewrite !norm_scal_pos by lra.
    assert (P2 : 0 <= 2 * beta * err 2%nat) by (apply Rmult_le_pos; [lra|apply norm_pos]).
    apply Rle_trans with ((1 - c) * (norm (x 2%nat - z)%v + 2 * beta * err 2%nat) + c * (norm (x 2%nat - z)%v + 2 * beta * err 2%nat)); [|lra].
    apply Rplus_le_compat; apply Rmult_le_compat_l; lra. }
  assert (Tv : forall j, tau_cd a (j + 2) = (INR j + a) / a).
  { intros j. replace (j + 2)%nat with (S (S j)) by lia. cbn [tau_cd]. rewrite S_INR. f_equal. ring. }
  pose proof (rate_from D F beta Hb (fun n => x (n + 2)%nat) (fun n => y (n + 2)%nat) (fun n => (grad' (y (n + 2)%nat) - df (y (n + 2)%nat))%v) (fun n => tau_cd a (n + 2))
    (fun n => St (n + 2)%nat) ) as Q.
  specialize (Q ltac:(intros n; apply (YS (n + 2)%nat)) ltac:(apply convex_sum; [apply Sf|exact Cg])).
  specialize (Q ltac:(cbv beta; rewrite Tv; cbn; field; lra)).
  specialize (Q ltac:(intros n; split; [apply (tau_cd_cond a (S n + 2)); [exact Ha|lia]|apply (tau_cd_cond a (n + 2)); [exact Ha|lia]])).
  specialize (Q z _ M Y3 k). cbv beta in Q. change (fb_x_old (fb_after grad' prox (k + 4) s0)) with (x (k + 4)%nat).
  replace (k + 4)%nat with (S (S k) + 2)%nat by lia. apply Rle_trans with (1 := Q). right. rewrite Tv.
  assert (Es : sum_below (S k) (fun j => tau_cd a (j + 2) * norm (grad' (y (S j + 2)%nat) - df (y (S j + 2)%nat))%v) = sum_below (S k) (fun j => (INR j + a) / a * err (j + 3)%nat)).
  { generalize (S k). induction n as [|n IH]; [reflexivity|]. cbn [sum_below]. rewrite IH, Tv. unfold err. replace (S n + 2)%nat with (n + 3)%nat by lia. reflexivity. }
  rewrite Es. pose proof (pos_INR k). set (S1 := sum_below _ _). replace (norm (x0 - z)%v + 2 * beta * (err 0%nat + err 1%nat + err 2%nat) + 2 * beta * S1) with (norm (x0 - z)%v + 2 * beta * (err 0%nat + err 1%nat + err 2%nat + S1)) by ring.
  field. repeat split; lra.
Qed.
Print Assumptions C148_chambolle_dossal.

(** [C148] Without acceleration, a gradient error of at most gam moves the estimate after k updates by at most
    k beta gam (C122). With the default FISTA parameters that is not true. *)
Theorem C148_unaccelerated_bound_refuted :
  exists (f g : R_ips -> R) df grad' prox beta gam x0 s0 k,
    0 < beta /\ smooth_convex (/ beta) f df /\ convex_on everywhere g /\ prox_operator everywhere g prox /\
    (forall y, norm (grad' y - df y)%v <= gam) /\
    fb_init x0 (Some beta) beta 1 None (LFista default_fista_args) = Ok s0 /\
    norm (fb_x_old (fb_after grad' prox k s0) - fb_x_old (fb_after df prox k s0))%v > INR k * (beta * gam).
Proof.
  set (f0 := no_restart (Regular 1 1 4) 1 1 0 0 0).
  exists (fun _ => 0), (fun _ => 0), (fun _ => 0), (fun _ => 1), (fun y _ => y), 1, 1, 0, (mk_fb (H := R_ips) 0 0 None 1 1 (RFista f0) 0), 4%nat.
  split; [lra|]. split; [apply zero_smooth; rewrite Rinv_1; lra|]. split; [exact zero_convex|]. split; [exact zero_prox_operator|].
  split. { intros y. unfold vsub. cbn [vadd vscal R_ips]. rewrite norm_R. replace (1 + -1 * 0) with 1 by ring. rewrite Rabs_R1. lra. }
  split; [unfold fb_init; cbn; destruct (Req_EM_T 1 0); [lra|]; reflexivity|].
  assert (G : forall (c : R) (t0 t1 t2 : R) (X Z : nat -> R), t0 = 1 -> X 0%nat = 0 -> Z 0%nat = 0 -> (forall n, X (S n) = Z n - c) -> Z 1%nat = X 1%nat ->
    Z 2%nat = X 2%nat + (t0 - 1) / t1 * (X 2%nat - X 1%nat) -> Z 3%nat = X 3%nat + (t1 - 1) / t2 * (X 3%nat - X 2%nat) -> X 4%nat = - c * (4 + (t1 - 1) / t2)).
  { intros c t0 t1 t2 X Z -> X0 Z0 XS Z1 Z2 Z3. pose proof (XS 0%nat) as A. pose proof (XS 1%nat) as B. pose proof (XS 2%nat) as C. rewrite XS, Z3, C, Z2, B, Z1, A, Z0.
    unfold Rdiv. rewrite Rminus_eq_0. ring. }
  assert (V : forall c, fb_x_old (fb_after (H := R_ips) (fun _ => c) (fun y _ => y) 4 (mk_fb (H := R_ips) 0 0 None 1 1 (RFista f0) 0))
    = - c * (4 + (f_t_now (snd (lambdas 1 f0)) - 1) / f_t_now (snd (lambdas 2 f0)))).
  { intros c. set (s0 := mk_fb (H := R_ips) 0 0 None 1 1 (RFista f0) 0).
    apply (G c (f_t_now (snd (lambdas 0 f0))) (f_t_now (snd (lambdas 1 f0))) (f_t_now (snd (lambdas 2 f0)))
      (fun n => fb_x_old (fb_after (H := R_ips) (fun _ => c) (fun y _ => y) n s0)) (fun n => fb_z_old (fb_after (H := R_ips) (fun _ => c) (fun y _ => y) n s0))); try reflexivity.
    - intros n. cbv beta. change (fb_after (H := R_ips) (fun _ => c) (fun y _ => y) (S n) s0) with (fb_update (H := R_ips) (fun _ => c) (fun y _ => y) (fb_after (H := R_ips) (fun _ => c) (fun y _ => y) n s0)).
      rewrite fb_update_x. destruct (fb_fista_state (H := R_ips) (fun _ => c) (fun y _ => y) 0 1 1 f0 (Regular 1 1 4) 0 0 0 eq_refl n) as (_ & Eb & _). fold s0 in Eb. rewrite Eb.
      unfold fb_map, vsub. cbn [vadd vscal R_ips]. ring.
    - apply (Z_1 (H := R_ips) (fun _ => c) (fun y _ => y) 1 0 f0 (Regular 1 1 4) 0 0 0 eq_refl).
    - pose proof (Z_SS (H := R_ips) (fun _ => c) (fun y _ => y) 1 0 f0 (Regular 1 1 4) 0 0 0 eq_refl 0%nat) as Q. cbv beta in Q. fold s0 in Q. rewrite Q. unfold vsub. cbn [vadd vscal R_ips]. ring.
    - pose proof (Z_SS (H := R_ips) (fun _ => c) (fun y _ => y) 1 0 f0 (Regular 1 1 4) 0 0 0 eq_refl 1%nat) as Q. cbv beta in Q. fold s0 in Q. rewrite Q. unfold vsub. cbn [vadd vscal R_ips]. ring. }
  rewrite !V. unfold vsub. cbn [vadd vscal R_ips]. rewrite norm_R.
  assert (Et : forall n, f_t_now (snd (lambdas n f0)) = tau 1 1 4 n).
  { intros n. destruct (regular_state 1 1 4 0 0 0 n) as [tp E]. unfold f0. rewrite E. reflexivity. }
  rewrite !Et. pose proof (tau_4_ge 1 1 1 ltac:(lra) ltac:(lra)) as T1. pose proof (tau_4_ge 1 1 2 ltac:(lra) ltac:(lra)) as T2. cbn [INR] in T1, T2.
  set (w := (tau 1 1 4 1 - 1) / tau 1 1 4 2). assert (Pw : 0 < w) by (apply Rdiv_lt_0_compat; lra).
  replace (- (1) * (4 + w) + -1 * (- 0 * (4 + w))) with (- (4 + w)) by ring. rewrite Rabs_Ropp, Rabs_pos_eq by lra. cbn [INR]. lra.
Qed.
Print Assumptions C148_unaccelerated_bound_refuted.

(** Example: (x - 3)^2/2 + |x| with minimiser 2, parameters 1/2, 1, 4, and a gradient that is always 1/10 too large.
    The first estimate from 0 is 19/10. *)
Example C148_example :
  exists s0 t, fb_init (H := R_ips) 0 (Some 1) 1 1 None (LFista (mk_fargs None None None None None (/ 2) 1 4)) = Ok s0 /\ t_sequence (/ 2) 1 t /\
  minimises (H := R_ips) everywhere (fun u => (u - 3) * (u - 3) / 2 + Rabs u) 2 /\
  let x k := fb_x_old (fb_after (H := R_ips) (fun y => y - 3 + / 10)%R softc k s0) in
  x 1%nat = 19 / 10 /\
  forall k, (x (k + 2)%nat - 3) * (x (k + 2)%nat - 3) / 2 + Rabs (x (k + 2)%nat) - 5 / 2 <= (2 + 2 * (/ 10 + sum_below (S k) (fun j => t j / 10))) ^ 2 / (2 * t k ^ 2).
Proof.
  assert (E : fb_init (H := R_ips) 0 (Some 1) 1 1 None (LFista (mk_fargs None None None None None (/ 2) 1 4)) = Ok (mk_fb (H := R_ips) 0 0 None 1 1 (RFista (no_restart (Regular (/ 2) 1 4) 1 1 0 0 0)) 0)).
  { unfold fb_init. cbn. destruct (Req_EM_T 1 0); [lra|]. reflexivity. }
  eexists. exists (tau (/ 2) 1 4). split; [exact E|].
  assert (Ts : t_sequence (/ 2) 1 (tau (/ 2) 1 4)) by (split; [reflexivity|intros k; reflexivity]). split; [exact Ts|].
  assert (M : minimises (H := R_ips) everywhere (fun u => (u - 3) * (u - 3) / 2 + Rabs u) 2).
  { split; [exact I|]. intros u _. rewrite (Rabs_pos_eq 2) by lra. pose proof (Rle_abs u). pose proof (Rle_0_sqr (u - 2)) as Q. unfold Rsqr in Q. lra. }
  split; [exact M|]. intros x. split.
  - change (x 1%nat) with (softc (0 + -1 * (1 * (0 - 3 + / 10))) 1). unfold softc.
    destruct (Rle_dec _ _); [lra|]. destruct (Rle_dec _ _); lra.
  - intros k.
    pose proof (C148_inexact_gradients R_ips everywhere (fun u => (u - 3) * (u - 3) / 2) (fun u => Rabs u) (fun y => y - 3)%R (fun y => y - 3 + / 10)%R softc 1 1 0 _ (/ 2) 1 2 _
      Rlt_0_1 ltac:(rewrite Rinv_1; apply quad_smooth) abs_convex soft_prox_operator ltac:(lra) ltac:(lra) E Ts M k) as Q. cbv beta zeta in Q. fold (x (k + 2)%nat) in Q.
    assert (N : forall a : R, norm (H := R_ips) (vsub (H := R_ips) (a - 3 + / 10)%R (a - 3)%R) = / 10).
    { intros a. unfold vsub. cbn [vadd vscal R_ips]. rewrite norm_R. replace (a - 3 + / 10 + -1 * (a - 3)) with (/ 10) by ring. apply Rabs_pos_eq. lra. }
    assert (S10 : forall (v : nat -> R) n, sum_below n (fun j => tau (/ 2) 1 4 j * norm (H := R_ips) (vsub (H := R_ips) (v j - 3 + / 10)%R (v j - 3)%R)) = sum_below n (fun j => tau (/ 2) 1 4 j / 10)).
    { intros v n. induction n as [|n IH]; [reflexivity|]. cbn [sum_below]. rewrite IH, N. reflexivity. }
    rewrite N in Q.
    rewrite (S10 (fun j => fb_z_old (fb_after (H := R_ips) (fun y => y - 3 + / 10)%R softc (S j) (mk_fb (H := R_ips) 0 0 None 1 1 (RFista (no_restart (Regular (/ 2) 1 4) 1 1 0 0 0)) 0)))) in Q.
    assert (N2 : norm (H := R_ips) (vsub (H := R_ips) 0 2) = 2).
    { unfold vsub. cbn [vadd vscal R_ips]. rewrite norm_R. replace (0 + -1 * 2) with (- (2)) by ring. rewrite Rabs_Ropp. apply Rabs_pos_eq. lra. }
    rewrite N2, (Rabs_pos_eq 2) in Q by lra. rewrite !Rmult_1_r in Q.
    replace ((2 - 3) * (2 - 3) / 2 + 2) with (5 / 2) in Q by field. exact Q.
Qed.
