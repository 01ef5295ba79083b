(** C132: ForwardBackward with FISTA parameters that grow slowly enough. *)
From Coq Require Import String.
From Verif Require Import NPReal Py IPS Model_SetUp Spec_Opt Proof_Smooth Spec_Lim Proof_Lim Proof_Iter Model_FB Proof_FB Proof_FB2 Proof_Inst Proof_Accel.
From Coq Require Import List Lia.
Import ListNotations.
Local Open Scope R_scope.

(** Sequences of ForwardBackward with FISTA and without restart, from the index n0 on. *)
Section Run.
Context {H : ips}.
Variables (D : H -> Prop) (f g : H -> R) (grad : H -> H) (prox : H -> R -> H) (beta : R).
Hypothesis Hb : 0 < beta.
Hypothesis Sf : smooth_convex (/ beta) f grad.
Hypothesis Cg : convex_on D g.
Hypothesis Pg : prox_operator D g prox.
Variables (x0 : H) (f0 : fista) (m : fmode) (mb sg xi : R).
Hypothesis Ef : f0 = no_restart m 1 1 mb sg xi.
Variables (n0 : nat) (c : R).
Let s0 := mk_fb x0 x0 None beta 1 (RFista f0) 0.
Let X n := fb_x_old (fb_after grad prox n s0).
Let Z n := fb_z_old (fb_after grad prox n s0).
Let t n := f_t_now (snd (lambdas n f0)).
Let F u := f u + g u.
Hypothesis Hc : 0 < c <= 1.
Hypothesis T1 : forall n, (n0 <= n)%nat -> 1 <= t n.
Hypothesis Tm : forall n, (n0 <= n)%nat -> t n <= t (S n).
Hypothesis Tc : forall n, (n0 <= n)%nat -> t (S n) * t (S n) - t n * t n <= (1 - c) * t (S n).

Let x k := X (S (n0 + k)).
Let y k := Z (S (n0 + k)).
Let u k := t (n0 + k)%nat.
Lemma run_x k : pg_step D F beta (y k) (x (S k)).
Proof. unfold x, y. rewrite Nat.add_succ_r. apply (X_step grad prox D f g beta Hb Sf Cg Pg x0 f0 m mb sg xi Ef (S (n0 + k))). Qed.
Lemma run_y k : y (S k) = (x (S k) + ((u k - 1) / u (S k)) * (x (S k) - x k))%v.
Proof. unfold x, y, u. rewrite !Nat.add_succ_r. apply (Z_SS grad prox beta x0 f0 m mb sg xi Ef (n0 + k)). Qed.
Lemma run_0 : D (x 0%nat).
Proof. apply (X_in grad prox D f g beta Hb Sf Cg Pg x0 f0 m mb sg xi Ef). Qed.
Lemma run_1 k : 1 <= u k. Proof. apply T1. lia. Qed.
Lemma run_m k : u k <= u (S k). Proof. unfold u. rewrite Nat.add_succ_r. apply Tm. lia. Qed.
Lemma run_c k : u (S k) * u (S k) - u k * u k <= (1 - c) * u (S k).
Proof. unfold u. rewrite Nat.add_succ_r. apply Tc. lia. Qed.
Lemma run_F : convex_on D F.
Proof. apply convex_sum; [apply Sf|exact Cg]. Qed.

Lemma run_limit : finite_dimensional H -> (exists z, minimises D F z) ->
  exists l, minimises D F l /\ converges X l /\ converges Z l.
Proof.
  intros FD (z & Mz).
  destruct (accel_converges D F beta Hb run_F x y u c run_x run_y run_0 Hc run_1 run_m run_c (fb_map grad prox beta)) with (z := z)
    as (l & Ml & C1 & C2).
  - apply (T_continuous D f g grad prox (/ beta) beta Hb Sf Cg Pg).
  - intros k. unfold x, y, X, Z. rewrite Nat.add_succ_r. change (fb_after grad prox (S (S (n0 + k))) s0) with (fb_update grad prox (fb_after grad prox (S (n0 + k)) s0)).
    rewrite fb_update_x. destruct (fb_fista_state grad prox x0 beta 1 f0 m mb sg xi Ef (S (n0 + k))) as (_ & E & _). fold s0 in E. rewrite E. reflexivity.
  - intros p. apply (fb_map_fixed_iff D f g grad prox beta p Hb (proj1 Sf) (proj1 (proj2 Sf)) Cg Pg).
  - exact FD.
  - exact Mz.
  - exists l. split; [exact Ml|].
    assert (Sh : forall v : nat -> H, converges (fun k => v (S (n0 + k))) l -> converges v l).
    { intros v C e He. destruct (C e He) as (N & Q). exists (S (n0 + N)). intros n Hn. specialize (Q (n - S n0)%nat ltac:(lia)).
      replace (S (n0 + (n - S n0))) with n in Q by lia. exact Q. }
    split; apply Sh; assumption.
Qed.

(** k^2 (F(x_k) - F(z)) and k |x_{k+1} - x_k| vanish as soon as t_k grows linearly. *)
Lemma run_little_o z d : minimises D F z -> 0 < d -> (forall n, (n0 <= n)%nat -> d * INR n <= t n) ->
  Un_cv (fun k => INR k ^ 2 * (F (X k) - F z)) 0 /\ Un_cv (fun k => INR k * norm (X (S k) - X k)%v) 0.
Proof.
  intros Mz Hd Ht. pose proof (A_vanishes D F beta Hb run_F x y u c run_x run_y run_0 Hc run_1 run_m run_c z Mz) as A. cbv zeta beta in A.
  assert (Lin : forall n, (S n0 <= n)%nat -> d * INR n <= d + t (pred n)).
  { intros [|n] Hn; [lia|]. cbn [pred]. specialize (Ht n ltac:(lia)). rewrite S_INR. lra. }
  assert (Wp : forall k, 0 <= F (X (S k)) - F z).
  { intros k. pose proof (proj2 Mz _ (X_in grad prox D f g beta Hb Sf Cg Pg x0 f0 m mb sg xi Ef k)) as Q. fold s0 in Q. fold (X (S k)) in Q. lra. }
  assert (Key : forall e, 0 < e -> exists N, forall n, (N <= n)%nat ->
            t n * t n * nsq (X (S (S n)) - X (S n))%v < e /\ t n * t n * (F (X (S (S n))) - F z) < e).
  { intros e He. destruct (A (Rmin e (2 * beta * e))) as (N & Q); [apply Rmin_pos; [lra|apply Rmult_lt_0_compat; lra]|].
    exists (n0 + N)%nat. intros n Hn. specialize (Q (n - n0)%nat ltac:(lia)). unfold R_dist, u, x in Q. rewrite Rminus_0_r, !Nat.add_succ_r in Q.
    replace (n0 + (n - n0))%nat with n in Q by lia. pose proof (Rle_abs (t n * t n * nsq (X (S (S n)) - X (S n))%v + 2 * beta * (t n * t n) * (F (X (S (S n))) - F z))) as Ab.
    pose proof (Rmin_l e (2 * beta * e)). pose proof (Rmin_r e (2 * beta * e)).
    pose proof (nsq_pos (X (S (S n)) - X (S n))%v) as P1. pose proof (Wp (S n)) as P2.
    assert (P3 : 0 <= t n * t n) by nra. pose proof (Rmult_le_pos _ _ P3 P1). pose proof (Rmult_le_pos _ _ P3 P2) as P4.
    assert (0 <= 2 * beta * (t n * t n) * (F (X (S (S n))) - F z)) by (rewrite Rmult_assoc; apply Rmult_le_pos; lra).
    split; [lra|]. apply Rmult_lt_reg_l with (2 * beta); [lra|]. rewrite <- Rmult_assoc. lra. }
  assert (Up : forall n, (n0 <= n)%nat -> INR (S (S n)) <= 3 / Rmin d 1 * t n).
  { intros n Hn. pose proof (T1 n Hn) as H1. pose proof (Ht n Hn) as H2. assert (Dm : 0 < Rmin d 1) by (apply Rmin_pos; lra).
    pose proof (Rmin_l d 1) as M1. pose proof (Rmin_r d 1) as M2. rewrite !S_INR. pose proof (pos_INR n) as Pn.
    apply Rmult_le_reg_l with (Rmin d 1); [exact Dm|].
    replace (Rmin d 1 * (3 / Rmin d 1 * t n)) with (3 * t n) by (field; lra).
    assert (Rmin d 1 * INR n <= d * INR n) by (apply Rmult_le_compat_r; lra). lra. }
  set (K := 3 / Rmin d 1) in *. assert (HK : 0 < K) by (unfold K; apply Rdiv_lt_0_compat; [lra|apply Rmin_pos; lra]).
  split; intros e He.
  - destruct (Key (e / (K * K))) as (N & Q); [apply Rdiv_lt_0_compat; [lra|apply Rmult_lt_0_compat; lra]|].
    exists (S (S (n0 + N))). intros n Hn. destruct n as [|[|n]]; [lia|lia|]. destruct (Q n ltac:(lia)) as [_ Q2].
    unfold R_dist. rewrite Rminus_0_r. pose proof (Wp (S n)) as W. pose proof (pos_INR (S (S n))) as Pn. specialize (Up n ltac:(lia)).
    rewrite Rabs_right by (apply Rle_ge, Rmult_le_pos; [apply pow_le; lra|exact W]).
    apply Rle_lt_trans with (K * K * (t n * t n * (F (X (S (S n))) - F z))).
    + rewrite <- !Rmult_assoc. apply Rmult_le_compat_r; [exact W|]. pose proof (T1 n ltac:(lia)).
      replace (K * K * t n * t n) with ((K * t n) ^ 2) by ring. apply pow_incr. lra.
    + apply Rmult_lt_compat_l with (r := K * K) in Q2; [|apply Rmult_lt_0_compat; lra].
      replace (K * K * (e / (K * K))) with e in Q2 by (field; lra). exact Q2.
  - destruct (Key (e * e / (K * K))) as (N & Q); [apply Rdiv_lt_0_compat; apply Rmult_lt_0_compat; lra|].
    exists (S (n0 + N)). intros n Hn. destruct n as [|n]; [lia|]. destruct (Q n ltac:(lia)) as [Q1 _].
    unfold R_dist. rewrite Rminus_0_r. pose proof (norm_pos (X (S (S n)) - X (S n))%v) as W. pose proof (pos_INR (S n)) as Pn.
    specialize (Up n ltac:(lia)). rewrite S_INR in Up. pose proof (T1 n ltac:(lia)) as H1.
    rewrite Rabs_right by (apply Rle_ge, Rmult_le_pos; assumption).
    set (a := norm (X (S (S n)) - X (S n))%v) in *. rewrite <- norm_sq in Q1. fold a in Q1.
    apply Rle_lt_trans with (K * t n * a); [apply Rmult_le_compat_r; lra|].
    apply Rmult_lt_compat_l with (r := K * K) in Q1; [|apply Rmult_lt_0_compat; lra].
    replace (K * K * (e * e / (K * K))) with (e * e) in Q1 by (field; lra).
    assert (0 <= K * t n * a) by (apply Rmult_le_pos; [apply Rmult_le_pos; lra|exact W]).
    apply Rnot_le_lt. intros G. assert (e * e <= (K * t n * a) * (K * t n * a)) by (apply Rmult_le_compat; lra). lra.
Qed.
End Run.

(** The parameters of the Chambolle-Dossal mode. *)
Lemma cd_t a n : f_t_now (snd (lambdas n (no_restart (CD a 0) 1 1 0 0 0))) = tau_cd a n.
Proof. destruct (cd_state a 0 0 0 n) as [tp E]. rewrite E. reflexivity. Qed.
Lemma cd_value a n : (1 <= n)%nat -> tau_cd a n = (INR n + a - 2) / a.
Proof. intros Hn. destruct n as [|n]; [lia|]. cbn [tau_cd]. rewrite S_INR. f_equal. ring. Qed.
Lemma cd_slow a n : 2 < a -> (2 <= n)%nat ->
  1 <= tau_cd a n /\ tau_cd a n <= tau_cd a (S n) /\
  tau_cd a (S n) * tau_cd a (S n) - tau_cd a n * tau_cd a n <= (1 - (1 - 2 / a)) * tau_cd a (S n) /\ / a * INR n <= tau_cd a n.
Proof.
  intros Ha Hn. split; [apply (tau_cd_cond a n Ha Hn)|]. rewrite !cd_value by lia. rewrite S_INR.
  assert (Ia : 0 < / a) by (apply Rinv_0_lt_compat; lra). unfold Rdiv. set (j := / a) in *. set (v := INR n) in *.
  split; [nra|]. split; [|assert (0 <= (a - 2) * j) by (apply Rmult_le_pos; lra); lra].
  replace ((v + 1 + a - 2) * j * ((v + 1 + a - 2) * j) - (v + a - 2) * j * ((v + a - 2) * j))
    with (2 * j * ((v + 1 + a - 2) * j) - j * j) by ring. nra.
Qed.

(** and of the regular mode with p_lazy below one half. *)
Lemma lazy_t p q n : f_t_now (snd (lambdas n (no_restart (Regular p q 4) 1 1 0 0 0))) = tau p q 4 n.
Proof. destruct (regular_state p q 4 0 0 0 n) as [tp E]. rewrite E. reflexivity. Qed.
Lemma lazy_slow p q : 0 < p < / 2 -> 0 <= q -> exists n0, forall n, (n0 <= n)%nat ->
  1 <= tau p q 4 n /\ tau p q 4 n <= tau p q 4 (S n) /\
  tau p q 4 (S n) * tau p q 4 (S n) - tau p q 4 n * tau p q 4 n <= (1 - (/ 2 - p)) * tau p q 4 (S n) /\ p * INR n <= tau p q 4 n.
Proof.
  intros Hp Hq. assert (Un : exists n0, q / 4 <= (/ 2 - p) * (p * INR n0)).
  { set (C := q / 4 / ((/ 2 - p) * p)). assert (P : 0 < (/ 2 - p) * p) by (apply Rmult_lt_0_compat; lra).
    exists (Z.to_nat (up (Rabs C))). destruct (archimed (Rabs C)) as [U _]. pose proof (Rle_abs C). pose proof (Rabs_pos C).
    rewrite INR_IZR_INZ, Z2Nat.id by (apply le_IZR; lra).
    apply Rle_trans with ((/ 2 - p) * p * C); [unfold C; right; field; lra|]. rewrite <- Rmult_assoc. apply Rmult_le_compat_l; lra. }
  destruct Un as (n0 & Hn0). exists n0. intros n Hn.
  pose proof (tau_4_ge p q n ltac:(lra) Hq) as P0. pose proof (tau_4_ge p q (S n) ltac:(lra) Hq) as P1. rewrite S_INR in P1.
  assert (In : INR n0 <= INR n) by (apply le_INR; exact Hn). pose proof (pos_INR n) as Pn.
  assert (Pp : 0 <= INR n * p) by (apply Rmult_le_pos; lra).
  split; [lra|].
  assert (Sq : sqrt (4 * tau p q 4 n ^ 2 + q) * sqrt (4 * tau p q 4 n ^ 2 + q) = 4 * tau p q 4 n ^ 2 + q) by (apply sqrt_sqrt; nra).
  assert (Sp : 2 * tau p q 4 n <= sqrt (4 * tau p q 4 n ^ 2 + q)).
  { rewrite <- (sqrt_Rsqr (2 * tau p q 4 n)) at 1 by lra. apply sqrt_le_1_alt. unfold Rsqr. nra. }
  assert (E : tau p q 4 (S n) = p + sqrt (4 * tau p q 4 n ^ 2 + q) * / 2) by reflexivity.
  set (s := sqrt (4 * tau p q 4 n ^ 2 + q)) in *. set (t := tau p q 4 n) in *. set (t' := tau p q 4 (S n)) in *. clearbody s t t'.
  split; [lra|]. split; [|lra].
  assert (Es : s = 2 * (t' - p)) by lra. subst s.
  assert (D2 : t' * t' - t * t = 2 * p * t' - p * p + q / 4) by nra.
  assert (Q1 : q / 4 <= (/ 2 - p) * t').
  { apply Rle_trans with (1 := Hn0). apply Rmult_le_compat_l; [lra|]. nra. }
  nra.
Qed.

(** * C132 *)

(** Chambolle-Dossal: with a step 1/L and a_cd > 2 the estimates converge to a minimiser as soon as there
    is one, and so does what iterate() returns. *)
Theorem C132_chambolle_dossal_converges :
  forall (H : ips) (D : H -> Prop) (f g : H -> R) grad prox beta bp x0 s0 a p q r,
  finite_dimensional H -> 0 < beta -> smooth_convex (/ beta) f grad -> convex_on D g -> prox_operator D g prox -> 2 < a ->
  fb_init x0 (Some beta) bp 1 None (LFista (mk_fargs None None None None (Some a) p q r)) = Ok s0 ->
  (exists z, minimises D (fun u => f u + g u) z) ->
  exists xs, minimises D (fun u => f u + g u) xs /\
    converges (fun k => fb_x_old (fb_after grad prox k s0)) xs /\
    (forall e, 0 < e -> exists N, forall k metric period, (N <= k)%nat ->
       exists x, fb_iterate grad prox None metric false period k s0 = Ok x /\ norm (x - xs)%v < e).
Proof.
  intros H D f g grad prox beta bp x0 s0 a p q r FD Hb Sf Cg Pg Ha E Mn.
  unfold fb_init in E. rewrite fista_init_cd in E by exact Ha. cbn [bind] in E. rewrite step_or_pos in E by exact Hb. injection E as <-.
  assert (Hc : 0 < 1 - 2 / a <= 1).
  { assert (0 < / a) by (apply Rinv_0_lt_compat; lra). assert (2 * / a < 1) by (apply Rmult_lt_reg_r with a; [lra|]; rewrite Rmult_assoc, Rinv_l by lra; lra). unfold Rdiv. lra. }
  destruct (run_limit D f g grad prox beta Hb Sf Cg Pg x0 _ (CD a 0) 0 0 0 eq_refl 2 (1 - 2 / a) Hc) as (l & Ml & C1 & C2);
    [intros n Hn; rewrite !cd_t; apply (cd_slow a n Ha Hn)..|exact FD|exact Mn|].
  exists l. split; [exact Ml|]. split; [exact C1|].
  intros e He. destruct (C2 e He) as (N & Q). exists (S N). intros k metric period Hk. eexists.
  split; [apply fb_iterate_plain; lia|]. apply Q. lia.
Qed.
Print Assumptions C132_chambolle_dossal_converges.

(** In any space, and faster than the known rate 1/k^2 (C43): k^2 (F(x_k) - min F) and k |x_{k+1} - x_k|
    tend to 0. *)
Theorem C132_chambolle_dossal_little_o :
  forall (H : ips) (D : H -> Prop) (f g : H -> R) grad prox beta bp x0 s0 a p q r z,
  0 < beta -> smooth_convex (/ beta) f grad -> convex_on D g -> prox_operator D g prox -> 2 < a ->
  fb_init x0 (Some beta) bp 1 None (LFista (mk_fargs None None None None (Some a) p q r)) = Ok s0 ->
  let F u := f u + g u in minimises D F z ->
  let x k := fb_x_old (fb_after grad prox k s0) in
  Un_cv (fun k => INR k ^ 2 * (F (x k) - F z)) 0 /\ Un_cv (fun k => INR k * norm (x (S k) - x k)%v) 0.
Proof.
  intros H D f g grad prox beta bp x0 s0 a p q r z Hb Sf Cg Pg Ha E F Mz x. unfold x. clear x.
  unfold fb_init in E. rewrite fista_init_cd in E by exact Ha. cbn [bind] in E. rewrite step_or_pos in E by exact Hb. injection E as <-.
  assert (Hc : 0 < 1 - 2 / a <= 1).
  { assert (0 < / a) by (apply Rinv_0_lt_compat; lra). assert (2 * / a < 1) by (apply Rmult_lt_reg_r with a; [lra|]; rewrite Rmult_assoc, Rinv_l by lra; lra). unfold Rdiv. lra. }
  apply (run_little_o D f g grad prox beta Hb Sf Cg Pg x0 _ (CD a 0) 0 0 0 eq_refl 2 (1 - 2 / a) Hc) with (d := / a);
    [intros n Hn; rewrite !cd_t; apply (cd_slow a n Ha Hn)..|exact Mz|apply Rinv_0_lt_compat; lra|].
  intros n Hn. rewrite !cd_t. apply (cd_slow a n Ha Hn).
Qed.
Print Assumptions C132_chambolle_dossal_little_o.

(** The same for the Fista-Mod parameters with p_lazy below one half. *)
Theorem C132_lazy_converges :
  forall (H : ips) (D : H -> Prop) (f g : H -> R) grad prox beta bp x0 s0 p q,
  finite_dimensional H -> 0 < beta -> smooth_convex (/ beta) f grad -> convex_on D g -> prox_operator D g prox ->
  0 < p < / 2 -> 0 <= q ->
  fb_init x0 (Some beta) bp 1 None (LFista (mk_fargs None None None None None p q 4)) = Ok s0 ->
  (exists z, minimises D (fun u => f u + g u) z) ->
  exists xs, minimises D (fun u => f u + g u) xs /\
    converges (fun k => fb_x_old (fb_after grad prox k s0)) xs /\
    (forall e, 0 < e -> exists N, forall k metric period, (N <= k)%nat ->
       exists x, fb_iterate grad prox None metric false period k s0 = Ok x /\ norm (x - xs)%v < e).
Proof.
  intros H D f g grad prox beta bp x0 s0 p q FD Hb Sf Cg Pg Hp Hq E Mn.
  unfold fb_init in E. rewrite fista_init_regular in E. cbn [bind] in E. rewrite step_or_pos in E by exact Hb. injection E as <-.
  destruct (lazy_slow p q Hp Hq) as (n0 & Sl).
  destruct (run_limit D f g grad prox beta Hb Sf Cg Pg x0 _ (Regular p q 4) 0 0 0 eq_refl n0 (/ 2 - p) ltac:(lra)) as (l & Ml & C1 & C2);
    [intros n Hn; rewrite !lazy_t; apply (Sl n Hn)..|exact FD|exact Mn|].
  exists l. split; [exact Ml|]. split; [exact C1|].
  intros e He. destruct (C2 e He) as (N & Q). exists (S N). intros k metric period Hk. eexists.
  split; [apply fb_iterate_plain; lia|]. apply Q. lia.
Qed.
Print Assumptions C132_lazy_converges.

Theorem C132_lazy_little_o :
  forall (H : ips) (D : H -> Prop) (f g : H -> R) grad prox beta bp x0 s0 p q z,
  0 < beta -> smooth_convex (/ beta) f grad -> convex_on D g -> prox_operator D g prox ->
  0 < p < / 2 -> 0 <= q ->
  fb_init x0 (Some beta) bp 1 None (LFista (mk_fargs None None None None None p q 4)) = Ok s0 ->
  let F u := f u + g u in minimises D F z ->
  let x k := fb_x_old (fb_after grad prox k s0) in
  Un_cv (fun k => INR k ^ 2 * (F (x k) - F z)) 0 /\ Un_cv (fun k => INR k * norm (x (S k) - x k)%v) 0.
Proof.
  intros H D f g grad prox beta bp x0 s0 p q z Hb Sf Cg Pg Hp Hq E F Mz x. unfold x. clear x.
  unfold fb_init in E. rewrite fista_init_regular in E. cbn [bind] in E. rewrite step_or_pos in E by exact Hb. injection E as <-.
  destruct (lazy_slow p q Hp Hq) as (n0 & Sl).
  apply (run_little_o D f g grad prox beta Hb Sf Cg Pg x0 _ (Regular p q 4) 0 0 0 eq_refl n0 (/ 2 - p) ltac:(lra)) with (d := p);
    [intros n Hn; rewrite !lazy_t; apply (Sl n Hn)..|exact Mz|lra|].
  intros n Hn. rewrite !lazy_t. apply (Sl n Hn).
Qed.
Print Assumptions C132_lazy_little_o.

(** On |x| from 10 with a step 1 and a_cd = 3: the first four estimates, and the limit. *)
Example C132_example : exists s0 : fb (H := R_ips),
  fb_init (H := R_ips) 10 (Some 1) 1 1 None (LFista (mk_fargs None None None None (Some 3) 1 1 4)) = Ok s0 /\
  map (fun k => fb_x_old (fb_after (H := R_ips) (fun _ => 0) softc k s0)) [1; 2; 3; 4]%nat = [9; 8; 7; 19 / 3] /\
  converges (H := R_ips) (fun k => fb_x_old (fb_after (H := R_ips) (fun _ => 0) softc k s0)) 0.
Proof.
  exists (@mk_fb R_ips 10 10 None 1 1 (RFista (no_restart (CD 3 0) 1 1 0 0 0)) 0).
  assert (E0 : fb_init (H := R_ips) 10 (Some 1) 1 1 None (LFista (mk_fargs None None None None (Some 3) 1 1 4))
     = Ok (@mk_fb R_ips 10 10 None 1 1 (RFista (no_restart (CD 3 0) 1 1 0 0 0)) 0)).
  { unfold fb_init. rewrite fista_init_cd by lra. cbn [bind]. rewrite step_or_pos by lra. reflexivity. }
  split; [exact E0|]. split.
  - set (s0 := mk_fb _ _ _ _ _ _ _).
    assert (B : forall n, fb_beta (fb_after (H := R_ips) (fun _ => 0) softc n s0) = 1).
    { intros n. apply (fb_fista_state (H := R_ips) (fun _ => 0) softc 10 1 1 _ (CD 3 0) 0 0 0 eq_refl n). }
    assert (Z0 : fb_z_old s0 = 10) by reflexivity.
    assert (St : forall n v, fb_z_old (fb_after (H := R_ips) (fun _ => 0) softc n s0) = v -> 1 < v ->
       fb_x_old (fb_after (H := R_ips) (fun _ => 0) softc (S n) s0) = v - 1).
    { intros n v Ev Hv. change (fb_after (H := R_ips) (fun _ => 0) softc (S n) s0) with (fb_update (H := R_ips) (fun _ => 0) softc (fb_after (H := R_ips) (fun _ => 0) softc n s0)).
      rewrite fb_update_x, B, Ev. unfold fb_map. cbn. unfold softc. repeat (destruct (Rle_dec _ _); try lra). }
    assert (X1 : fb_x_old (fb_after (H := R_ips) (fun _ => 0) softc 1 s0) = 9) by (rewrite (St 0%nat 10 Z0) by lra; lra).
    assert (Z1 : fb_z_old (fb_after (H := R_ips) (fun _ => 0) softc 1 s0) = 9).
    { rewrite <- X1. apply (Z_1 (H := R_ips) (fun _ => 0) softc 1 10 _ (CD 3 0) 0 0 0 eq_refl). }
    assert (X2 : fb_x_old (fb_after (H := R_ips) (fun _ => 0) softc 2 s0) = 8) by (rewrite (St 1%nat 9 Z1) by lra; lra).
    assert (Z2 : fb_z_old (fb_after (H := R_ips) (fun _ => 0) softc 2 s0) = 8).
    { pose proof (Z_SS (H := R_ips) (fun _ => 0) softc 1 10 _ (CD 3 0) 0 0 0 eq_refl 0) as Q. fold s0 in Q. rewrite Q, X1, X2, !cd_t. cbn. lra. }
    assert (X3 : fb_x_old (fb_after (H := R_ips) (fun _ => 0) softc 3 s0) = 7) by (rewrite (St 2%nat 8 Z2) by lra; lra).
    assert (Z3 : fb_z_old (fb_after (H := R_ips) (fun _ => 0) softc 3 s0) = 22 / 3).
    { pose proof (Z_SS (H := R_ips) (fun _ => 0) softc 1 10 _ (CD 3 0) 0 0 0 eq_refl 1) as Q. fold s0 in Q. rewrite Q, X2, X3, !cd_t. cbn. field. }
    assert (X4 : fb_x_old (fb_after (H := R_ips) (fun _ => 0) softc 4 s0) = 19 / 3) by (rewrite (St 3%nat (22 / 3) Z3) by lra; lra).
    cbn [map]. rewrite X1, X2, X3, X4. reflexivity.
  - destruct (C132_chambolle_dossal_converges R_ips everywhere (fun _ => 0) (fun z => Rabs z) (fun _ => 0) softc 1 1 10 _ 3 1 1 4
      fd_R ltac:(lra) (zero_smooth (/ 1) ltac:(rewrite Rinv_1; lra)) abs_convex soft_prox_operator ltac:(lra) E0) as (l & Ml & C & _).
    + exists 0. split; [exact I|]. intros u _. rewrite Rabs_R0. pose proof (Rabs_pos u). lra.
    + assert (El : l = 0); [|rewrite El in C; exact C]. destruct Ml as [_ Ml]. specialize (Ml 0 I). cbv beta in Ml. rewrite Rabs_R0 in Ml.
      destruct (Req_dec l 0) as [e|n]; [exact e|]. apply Rabs_pos_lt in n. lra.
Qed.
