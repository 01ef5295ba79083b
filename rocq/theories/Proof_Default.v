(** Accelerated proximal gradient sequences with the default parameters of FISTA, which grow too fast
    for the rate 1/k^2: the objective still decays like k^(-4/3). *)
From Verif Require Import NPReal Py IPS Spec_Opt Proof_Smooth Proof_FB Proof_Accel.
From Coq Require Import Lia.
Local Open Scope R_scope.

(** * The parameters *)
Lemma default_step n : let t := tau 1 1 4 n in let t' := tau 1 1 4 (S n) in
  1 + INR n <= t /\ t + 1 <= t' <= t + 9 / 8 /\ t' * t' = t * t + 2 * t' - 3 / 4.
Proof.
  intros t t'. pose proof (tau_4_ge 1 1 n ltac:(lra) ltac:(lra)) as P. fold t in P. rewrite Rmult_1_r in P.
  pose proof (tau_default_identity n) as I. fold t t' in I. pose proof (pos_INR n) as Pn.
  assert (E : t' = 1 + sqrt (4 * t ^ 2 + 1) * / 2) by reflexivity.
  pose proof (sqrt_pos (4 * t ^ 2 + 1)) as Sp. set (s := sqrt (4 * t ^ 2 + 1)) in *.
  assert (S2 : s * s = 4 * t ^ 2 + 1) by (apply sqrt_sqrt; nra). clearbody s t'. clearbody t.
  repeat split; [exact P| | |lra].
  - assert (2 * t <= s) by (apply Rnot_lt_le; intros L; nra). lra.
  - assert (s <= 2 * t + / 4) by (apply Rnot_lt_le; intros L; nra). lra.
Qed.

(** * One step, with a general weight lam of the distance to z *)
Section Step.
Context {H : ips}.
Variables (D : H -> Prop) (F : H -> R) (beta : R).
Hypothesis Hb : 0 < beta.
Hypothesis CF : convex_on D F.

Lemma weighted_step lam xk xk1 y xn t t' z :
  D xk -> 0 < lam <= t' -> D z -> y = (xk + ((t - 1) / t') * (xk - xk1))%v -> pg_step D F beta y xn ->
  2 * beta * (t' * t') * (F xn - F z) + nsq (lam * (xk - z) + t' * (xn - xk))%v
  <= 2 * beta * (t' * t' - lam * t') * (F xk - F z) + nsq (lam * (xk - z) + (t - 1) * (xk - xk1))%v.
Proof.
  intros Dk Ht Dz Ey [Dn V].
  assert (Hi : 0 <= lam / t' <= 1).
  { split; [apply Rmult_le_pos; [lra|apply Rlt_le, Rinv_0_lt_compat; lra]|].
    apply Rmult_le_reg_r with t'; [lra|]. unfold Rdiv. rewrite Rmult_assoc, Rinv_l by lra. lra. }
  destruct (CF xk z (lam / t') Dk Dz Hi) as [Dc Fc].
  set (c := ((1 - lam / t') * xk + lam / t' * z)%v) in *. specialize (V c Dc).
  assert (E1 : t' * t' * nsq (y - c)%v = nsq (lam * (xk - z) + (t - 1) * (xk - xk1))%v).
  { rewrite <- nsq_scal. f_equal. subst y. unfold c. vfield. lra. }
  assert (E2 : t' * t' * nsq (xn - c)%v = nsq (lam * (xk - z) + t' * (xn - xk))%v).
  { rewrite <- nsq_scal. f_equal. unfold c. vfield. lra. }
  rewrite <- E1, <- E2.
  assert (V' : F xn - F z <= (1 - lam / t') * (F xk - F z) + / (2 * beta) * (nsq (y - c)%v - nsq (xn - c)%v)) by lra.
  assert (Hm : 0 < 2 * beta * (t' * t')) by (apply Rmult_lt_0_compat; [lra|apply Rmult_lt_0_compat; lra]).
  apply (Rmult_le_compat_l (2 * beta * (t' * t'))) in V'; [|lra].
  replace (2 * beta * (t' * t') * ((1 - lam / t') * (F xk - F z) + / (2 * beta) * (nsq (y - c)%v - nsq (xn - c)%v)))
    with (2 * beta * (t' * t' - lam * t') * (F xk - F z) + t' * t' * (nsq (y - c)%v - nsq (xn - c)%v)) in V' by (field; lra).
  lra.
Qed.

(** * The sequences *)
Variables (x y : nat -> H) (t : nat -> R).
Hypothesis Hx : forall k, pg_step D F beta (y k) (x (S k)).
Hypothesis Hy : forall k, y (S k) = (x (S k) + ((t k - 1) / t (S k)) * (x (S k) - x k))%v.
Hypothesis D0 : D (x 0%nat).
Hypothesis Hy0 : y 0%nat = x 0%nat.
Hypothesis T0 : t 0%nat = 1.
Hypothesis Tn : forall k, 1 + INR k <= t k /\ t k + 1 <= t (S k) <= t k + 9 / 8 /\ t (S k) * t (S k) = t k * t k + 2 * t (S k) - 3 / 4.
Variable z : H.
Hypothesis Mz : minimises D F z.
Let w k := F (x k) - F z.
Let N0 := nsq (x 0%nat - z)%v.

Lemma d_in k : D (x k). Proof. destruct k; [exact D0|apply Hx]. Qed.
Lemma d_w k : 0 <= w k. Proof. unfold w. pose proof (proj2 Mz _ (d_in k)). lra. Qed.
Lemma d_t1 k : 1 <= t k. Proof. destruct (Tn k) as [P _]. pose proof (pos_INR k). lra. Qed.
Lemma d_first : 2 * beta * w 1%nat + nsq (x 1%nat - z)%v <= N0.
Proof.
  destruct (Hx 0) as [_ V]. specialize (V z (proj1 Mz)). rewrite Hy0 in V. fold N0 in V. unfold w.
  apply (Rmult_le_compat_l (2 * beta)) in V; [|lra].
  replace (2 * beta * (F z + / (2 * beta) * (N0 - nsq (x 1%nat - z)%v))) with (2 * beta * F z + (N0 - nsq (x 1%nat - z)%v)) in V by (field; lra). lra.
Qed.

(** 1/k, with a small constant. *)
Lemma default_first_rate k : beta * t k * w (S k) <= N0.
Proof.
  set (E := fun k => 2 * beta * (t k * t k) * w (S k) + nsq (x k + t k * (x (S k) - x k) - z)%v).
  assert (G : forall k, E k <= 2 * (t k - / 2) * N0).
  { clear k. induction k as [|k IH].
    - unfold E. rewrite T0. replace (x 0%nat + 1 * (x 1%nat - x 0%nat) - z)%v with (x 1%nat - z)%v by vring. pose proof d_first. lra.
    - unfold E. pose proof (accel_slack D F beta Hb CF (x (S k)) (x k) (y (S k)) (x (S (S k))) (t k) (t (S k)) z (d_in _) (d_t1 _) (proj1 Mz) (Hy k) (Hx (S k))) as A.
      fold (w (S k)) (w (S (S k))) in A. apply Rle_trans with (1 := A). clear A.
      destruct (Tn k) as (_ & [Tl _] & Te). pose proof (d_t1 k) as T1. pose proof (d_w (S k)) as W.
      unfold E in IH. set (V := nsq (x k + t k * (x (S k) - x k) - z)%v) in *.
      assert (PV : 0 <= V) by (unfold V; apply nsq_pos). assert (PN : 0 <= N0) by (unfold N0; apply nsq_pos). set (a := t k) in *. set (b := t (S k)) in *. set (q := w (S k)) in *.
      clearbody V a b q N0. 
      assert (P1 : 0 <= 2 * beta * q) by (apply Rmult_le_pos; lra).
      (* multiply by a^2 *)
      apply Rmult_le_reg_l with (a * a); [nra|].
      assert (Q1 : a * a * (2 * beta * (b * b - b) * q + V) <= (a * a + b - 3 / 4) * (2 * beta * (a * a) * q + V)).
      { replace (b * b - b) with (a * a + b - 3 / 4) by lra. assert (0 <= (b - 3 / 4) * V) by (apply Rmult_le_pos; lra). lra. }
      apply Rle_trans with (1 := Q1).
      apply Rle_trans with ((a * a + b - 3 / 4) * (2 * (a - / 2) * N0)); [apply Rmult_le_compat_l; [nra|exact IH]|].
      assert (Q2 : (a * a + b - 3 / 4) * (a - / 2) <= a * a * (b - / 2)) by nra.
      apply (Rmult_le_compat_r (2 * N0)) in Q2; lra. }
  specialize (G k). unfold E in G. pose proof (nsq_pos (x k + t k * (x (S k) - x k) - z)%v). pose proof (d_t1 k) as T1.
  assert (PN : 0 <= N0) by (unfold N0; apply nsq_pos).
  apply Rmult_le_reg_l with (2 * t k); [lra|]. nra.
Qed.

(** k^(-4/3) *)
Let u k := (x k - z)%v.
Let G k := 2 * beta * (t k * t k) * w (S k) + nsq ((4 / 3) * u k + t k * (x (S k) - x k))%v + 4 / 9 * nsq (u k).

Lemma G_step k : 9 * (t k * t k) * G (S k) <= (9 * (t k * t k) + 6 * t k + 10) * G k.
Proof.
  destruct (Tn k) as (_ & [Tl Tu] & Te). pose proof (d_t1 k) as T1. pose proof (d_w (S k)) as W.
  pose proof (weighted_step (4 / 3) (x (S k)) (x k) (y (S k)) (x (S (S k))) (t k) (t (S k)) z (d_in _) ltac:(lra) (proj1 Mz) (Hy k) (Hx (S k))) as A.
  fold (w (S k)) (w (S (S k))) in A. unfold G. fold (u (S k)) in A. set (d := (x (S k) - x k)%v) in *.
  assert (Eu : u (S k) = (u k + d)%v) by (unfold u, d; vring).
  set (V1 := nsq ((4 / 3) * u (S k) + t (S k) * (x (S (S k)) - x (S k)))%v) in *.
  set (W1 := w (S (S k))) in *. clearbody V1 W1. rewrite Eu in *. clear Eu.
  set (a := nsq (u k)). set (b := inner (u k) d). set (e := nsq d).
  assert (EV : nsq ((4 / 3) * u k + t k * d)%v = 16 / 9 * a + 8 / 3 * t k * b + t k * t k * e).
  { unfold a, b, e. iexpand. rewrite (inner_sym H d (u k)). field. }
  assert (EA : nsq ((4 / 3) * (u k + d) + (t k - 1) * d)%v = 16 / 9 * a + 8 / 3 * (t k + / 3) * b + (t k + / 3) * (t k + / 3) * e).
  { unfold a, b, e. iexpand. rewrite (inner_sym H d (u k)). field. }
  assert (Eh : nsq (u k + d)%v = a + 2 * b + e).
  { unfold a, b, e. iexpand. rewrite (inner_sym H d (u k)). ring. }
  assert (PV : 0 <= 16 / 9 * a + 8 / 3 * t k * b + t k * t k * e) by (rewrite <- EV; apply nsq_pos).
  assert (PV2 : 0 <= 4 * (16 / 9 * a) + 8 / 3 * t k * (2 * b) + t k * t k * e).
  { pose proof (nsq_pos ((8 / 3) * u k + t k * d)%v) as P. replace (nsq ((8 / 3) * u k + t k * d)%v) with (4 * (16 / 9 * a) + 8 / 3 * t k * (2 * b) + t k * t k * e) in P; [exact P|].
    unfold a, b, e. iexpand. rewrite (inner_sym H d (u k)). field. }
  rewrite EV, Eh. rewrite EA in A. pose proof (nsq_pos (u k)) as Pa. fold a in Pa.
  set (p := t k) in *. set (p' := t (S k)) in *. set (q := w (S k)) in *. clearbody a b e p p' q. clear EV EA Eh.
  assert (Q1 : 2 * beta * (p' * p' - 4 / 3 * p') * q <= 2 * beta * (p * p + 2 / 3 * p) * q).
  { apply Rmult_le_compat_r; [exact W|]. apply Rmult_le_compat_l; lra. }
  set (B := 2 * beta * q). assert (PB : 0 <= B) by (unfold B; apply Rmult_le_pos; lra).
  replace (2 * beta * (p * p) * q) with (p * p * B) by (unfold B; ring).
  apply Rle_trans with (9 * (p * p) * ((p * p + 2 / 3 * p) * B + (16 / 9 * a + 8 / 3 * (p + / 3) * b + (p + / 3) * (p + / 3) * e) + 4 / 9 * (a + 2 * b + e))).
  { apply Rmult_le_compat_l; [nra|]. unfold B. lra. }
  (* what remains: 10 p^2 B, and a quadratic form in (a, b, e) *)
  assert (R1 : 0 <= 10 * (p * p) * B) by (apply Rmult_le_pos; [nra|exact PB]).
  assert (Pp : 1 <= p * p) by nra.
  assert (R2 : 0 <= (p - 1) * a * 40 / 3).
  { unfold Rdiv. apply Rmult_le_pos; [apply Rmult_le_pos; [apply Rmult_le_pos|]|]; lra. }
  (* (5/9) e <= (10/9) V/p^2 + (160/81) a/p^2 *)
  assert (R3 : p * p * e <= 2 * (16 / 9 * a + 8 / 3 * p * b + p * p * e) + 32 / 9 * a).
  { lra. }
  nra.
Qed.

(** t^2 (t/(t+1))^6 *)
Lemma weight_step s : 1 <= s -> (9 * (s * s) + 6 * s + 10) ^ 3 * (s ^ 2 * (s + 2) ^ 6) <= 729 * (s + 1) ^ 14.
Proof.
  intros Hs. set (r := s - 1). assert (Hr : 0 <= r) by (unfold r; lra). replace s with (1 + r) by (unfold r; ring).
  apply Rminus_le.
  replace ((9 * ((1 + r) * (1 + r)) + 6 * (1 + r) + 10) ^ 3 * ((1 + r) ^ 2 * (1 + r + 2) ^ 6) - 729 * (1 + r + 1) ^ 14)
    with (- (553311 + 5240052 * r + 20772369 * r ^ 2 + 46685592 * r ^ 3 + 67493979 * r ^ 4 + 66978396 * r ^ 5 + 47177477 * r ^ 6
      + 23894224 * r ^ 7 + 8665325 * r ^ 8 + 2198700 * r ^ 9 + 370899 * r ^ 10 + 37368 * r ^ 11 + 1701 * r ^ 12)) by ring.
  pose proof (fun n => pow_le r n Hr) as P.
  pose proof (P 2%nat). pose proof (P 3%nat). pose proof (P 4%nat). pose proof (P 5%nat). pose proof (P 6%nat). pose proof (P 7%nat).
  pose proof (P 8%nat). pose proof (P 9%nat). pose proof (P 10%nat). pose proof (P 11%nat). pose proof (P 12%nat). lra.
Qed.

Lemma G_first : G 0%nat <= 20 / 9 * N0.
Proof.
  unfold G. rewrite T0. pose proof d_first as P. fold (u 0%nat) in *. fold (u 1%nat) in P.
  assert (E : ((4 / 3) * u 0 + 1 * (x 1 - x 0))%v = ((1 / 3) * u 0 + u 1)%v) by (unfold u; vfield).
  rewrite E. assert (Q : nsq ((1 / 3) * u 0 + u 1)%v <= 4 / 9 * nsq (u 0%nat) + 4 / 3 * nsq (u 1%nat)).
  { assert (Q : 0 <= nsq (u 0 - u 1)%v) by apply nsq_pos. revert Q. iexpand. rewrite (inner_sym H (u 1%nat) (u 0%nat)). intros Q. lra. }
  assert (EN : nsq (u 0%nat) = N0) by reflexivity. pose proof (d_w 1). pose proof (nsq_pos (u 1%nat)) as PN.
  assert (0 <= beta * w 1%nat) by (apply Rmult_le_pos; [lra|assumption]). lra.
Qed.

Lemma cube_le a b : 0 <= a -> a <= b -> a ^ 3 <= b ^ 3.
Proof. intros. apply pow_incr. lra. Qed.

Lemma G_pos k : 0 <= G k.
Proof.
  unfold G. pose proof (nsq_pos ((4 / 3) * u k + t k * (x (S k) - x k))%v). pose proof (nsq_pos (u k)).
  assert (0 <= 2 * beta * (t k * t k) * w (S k)); [|lra]. apply Rmult_le_pos; [|apply d_w]. pose proof (d_t1 k). apply Rmult_le_pos; nra.
Qed.

Lemma G_cube k : G k ^ 3 * (t k + 1) ^ 6 <= 64 * t k ^ 8 * G 0%nat ^ 3.
Proof.
  induction k as [|k IH]; [rewrite T0; right; ring|].
  pose proof (d_t1 k) as T1. destruct (Tn k) as (_ & [Tl _] & _). pose proof (G_pos k) as P. pose proof (G_pos (S k)) as P'. pose proof (G_pos 0) as P0.
  pose proof (G_step k) as Q. apply cube_le in Q; [|apply Rmult_le_pos; [nra|exact P']]. rewrite !Rpow_mult_distr in Q.
  pose proof (weight_step (t k) T1) as W. set (a := t k) in *. set (b := t (S k)) in *. set (g := G k ^ 3) in *. set (g' := G (S k) ^ 3) in *. set (g0 := G 0%nat ^ 3) in *.
  assert (Pg : 0 <= g) by (apply pow_le; exact P). assert (Pg' : 0 <= g') by (apply pow_le; exact P'). assert (Pg0 : 0 <= g0) by (apply pow_le; exact P0).
  clearbody a b g g' g0. set (r := (9 * (a * a) + 6 * a + 10) ^ 3) in *.
  assert (Pr : 0 <= r) by (apply pow_le; nra).
  (* at a + 1 first *)
  assert (M : g' * (a + 2) ^ 6 <= 64 * (a + 1) ^ 8 * g0).
  { assert (Pa : 0 < a) by lra. assert (A6 : 0 < a ^ 6) by (apply pow_lt; lra). assert (A7 : 0 < (a + 1) ^ 6) by (apply pow_lt; lra).
    assert (A8 : 0 <= (a + 2) ^ 6) by (apply pow_le; lra).
    apply Rmult_le_reg_l with (729 * a ^ 6 * (a + 1) ^ 6); [apply Rmult_lt_0_compat; lra|].
    apply Rle_trans with (r * g * ((a + 2) ^ 6 * (a + 1) ^ 6)).
    { replace (729 * a ^ 6 * (a + 1) ^ 6 * (g' * (a + 2) ^ 6)) with (9 ^ 3 * (a ^ 3 * a ^ 3) * g' * ((a + 2) ^ 6 * (a + 1) ^ 6)) by ring.
      apply Rmult_le_compat_r; [apply Rmult_le_pos; lra|exact Q]. }
    apply Rle_trans with (r * (a + 2) ^ 6 * (64 * a ^ 8 * g0)).
    { replace (r * g * ((a + 2) ^ 6 * (a + 1) ^ 6)) with (r * (a + 2) ^ 6 * (g * (a + 1) ^ 6)) by ring.
      apply Rmult_le_compat_l; [apply Rmult_le_pos; lra|exact IH]. }
    apply (Rmult_le_compat_r (64 * a ^ 6 * g0)) in W; [|apply Rmult_le_pos; lra]. 
    replace (r * (a + 2) ^ 6 * (64 * a ^ 8 * g0)) with (r * (a ^ 2 * (a + 2) ^ 6) * (64 * a ^ 6 * g0)) by ring.
    apply Rle_trans with (1 := W). right. ring. }
  (* the weight increases *)
  assert (B6 : 0 < (a + 2) ^ 6) by (apply pow_lt; lra).
  apply Rmult_le_reg_l with ((a + 2) ^ 6); [exact B6|].
  apply Rle_trans with (64 * (a + 1) ^ 8 * g0 * (b + 1) ^ 6).
  { replace ((a + 2) ^ 6 * (g' * (b + 1) ^ 6)) with (g' * (a + 2) ^ 6 * (b + 1) ^ 6) by ring. apply Rmult_le_compat_r; [apply pow_le; lra|exact M]. }
  assert (C : ((a + 1) * (b + 1)) ^ 6 <= ((a + 2) * b) ^ 6) by (apply pow_incr; split; nra).
  assert (C2 : (a + 1) ^ 2 <= b ^ 2) by (apply pow_incr; lra).
  assert (C3 : ((a + 1) * (b + 1)) ^ 6 * (a + 1) ^ 2 <= ((a + 2) * b) ^ 6 * b ^ 2).
  { apply Rmult_le_compat; [apply pow_le; nra|apply pow_le; lra|exact C|exact C2]. }
  apply (Rmult_le_compat_r (64 * g0)) in C3; [|lra]. rewrite !Rpow_mult_distr in C3.
  replace (64 * (a + 1) ^ 8 * g0 * (b + 1) ^ 6) with ((a + 1) ^ 6 * (b + 1) ^ 6 * (a + 1) ^ 2 * (64 * g0)) by ring.
  apply Rle_trans with (1 := C3). right. ring.
Qed.

Lemma default_second_rate k : (beta * w (S k)) ^ 3 * t k ^ 4 <= (40 / 9 * N0) ^ 3.
Proof.
  pose proof (d_t1 k) as T1. pose proof (G_cube k) as Q. pose proof G_first as Q0. apply cube_le in Q0; [|apply G_pos].
  assert (L : 2 * t k ^ 2 * (beta * w (S k)) <= G k).
  { unfold G. pose proof (nsq_pos ((4 / 3) * u k + t k * (x (S k) - x k))%v). pose proof (nsq_pos (u k)). lra. }
  assert (Pw : 0 <= beta * w (S k)) by (apply Rmult_le_pos; [lra|apply d_w]).
  apply cube_le in L; [|apply Rmult_le_pos; [nra|exact Pw]].
  set (a := t k) in *. set (v := beta * w (S k)) in *. clearbody a v.
  assert (A6 : 0 < a ^ 6) by (apply pow_lt; lra). assert (A8 : 0 < a ^ 8) by (apply pow_lt; lra).
  assert (I : a ^ 6 <= (a + 1) ^ 6) by (apply pow_incr; lra).
  assert (Pg : 0 <= G k ^ 3) by (apply pow_le, G_pos).
  apply Rmult_le_reg_l with (8 * a ^ 8); [lra|].
  apply Rle_trans with (G k ^ 3 * (a + 1) ^ 6).
  - apply Rle_trans with ((2 * a ^ 2 * v) ^ 3 * a ^ 6); [right; ring|]. apply Rmult_le_compat; [apply pow_le; nra|lra|exact L|exact I].
  - apply Rle_trans with (1 := Q). apply Rle_trans with (64 * a ^ 8 * (20 / 9 * N0) ^ 3); [apply Rmult_le_compat_l; lra|]. right. field.
Qed.
End Step.
