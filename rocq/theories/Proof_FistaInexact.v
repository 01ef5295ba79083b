(** ForwardBackward with FISTA and inexact gradients. *)
From Coq Require Import String.
From Verif Require Import NPReal Py IPS Model_SetUp Spec_Opt Proof_Smooth Spec_GD Model_FB Proof_FB Proof_FB2 Proof_Stab.
From Coq Require Import List Lia.
Import ListNotations.
Local Open Scope R_scope.

(** A proximal gradient step with the gradient off by e. *)
Definition ie_step {H : ips} (D : H -> Prop) (F : H -> R) (beta : R) (e y T : H) : Prop :=
  D T /\ forall z, D z -> F T <= F z + / (2 * beta) * (nsq (y - z)%v - nsq (T - z)%v) + inner e (z - T)%v.

Lemma inexact_ineq {H : ips} D (f g : H -> R) df g' prox beta y :
  0 < beta -> smooth_convex (/ beta) f df -> convex_on D g -> prox_operator D g prox ->
  ie_step D (fun z => f z + g z) beta (g' y - df y)%v y (fb_map g' prox beta y).
Proof.
  intros Hb (Cf & Gf & Lf) Cg P. split; [apply (fb_map_in D g); assumption|]. intros z Dz. set (T := fb_map g' prox beta y).
  pose proof (Proof_Smooth.descent f df (/ beta) Gf Lf y T) as D1.
  pose proof (first_order f df Cf Gf y z) as D2.
  destruct (prox_operator_vi D g prox Cg P (y - beta * g' y)%v beta Hb) as [_ V]. specialize (V z Dz).
  fold (fb_map g' prox beta y) in V. fold T in V.
  assert (D3 : g T + / beta * inner (y - beta * g' y - T)%v (z - T)%v <= g z).
  { apply Rmult_le_reg_l with beta; [exact Hb|]. rewrite Rmult_plus_distr_l, <- Rmult_assoc, Rinv_r by lra. lra. }
  assert (E : / beta * inner (y - beta * g' y - T)%v (z - T)%v
     = inner (df y) (T - z)%v - inner (g' y - df y)%v (z - T)%v + / (2 * beta) * (nsq (y - T)%v + nsq (T - z)%v - nsq (y - z)%v)).
  { iexpand. rewrite (inner_sym H z y), (inner_sym H T y), (inner_sym H z T). field. lra. }
  rewrite E in D3. clear E V.
  assert (E2 : inner (df y) (T - y)%v = inner (df y) (T - z)%v + inner (df y) (z - y)%v) by (iexpand; ring).
  rewrite E2, (nsq_sub_sym T y) in D1.
  replace (/ beta / 2) with (/ (2 * beta)) in D1 by (field; lra). lra.
Qed.

Section Steps.
Context {H : ips}.
Variables (D : H -> Prop) (F : H -> R) (beta : R).
Hypothesis Hb : 0 < beta.

Lemma accel_error xk xk1 y xn e t t' z :
  convex_on D F -> D xk -> 1 <= t' -> t' * t' - t' <= t * t -> F z <= F xk -> D z ->
  y = (xk + ((t - 1) / t') * (xk - xk1))%v -> ie_step D F beta e y xn ->
  2 * beta * (t' * t') * (F xn - F z) + nsq (xk + t' * (xn - xk) - z)%v
  <= 2 * beta * (t * t) * (F xk - F z) + nsq (xk1 + t * (xk - xk1) - z)%v + 2 * beta * t' * norm e * norm (xk + t' * (xn - xk) - z)%v.
Proof.
  intros C Dk Ht Hq Hz Dz Ey [Dn V].
  assert (Hi : 0 < / t' <= 1).
  { split; [apply Rinv_0_lt_compat; lra|]. rewrite <- Rinv_1. apply Rinv_le_contravar; lra. }
  destruct (C xk z (/ t') Dk Dz ltac:(lra)) as [Dc Fc].
  set (c := ((1 - / t') * xk + / t' * z)%v) in *. specialize (V c Dc).
  assert (E1 : t' * t' * nsq (y - c)%v = nsq (xk1 + t * (xk - xk1) - z)%v).
  { rewrite <- nsq_scal. f_equal. subst y. unfold c. vfield. lra. }
  set (u := (xk + t' * (xn - xk) - z)%v) in *.
  assert (E2 : t' * t' * nsq (xn - c)%v = nsq u).
  { rewrite <- nsq_scal. f_equal. unfold c, u. vfield. lra. }
  assert (E3 : t' * inner e (c - xn)%v = - inner e u).
  { rewrite <- inner_scal_r. replace (t' * (c - xn))%v with (-1 * u)%v by (unfold c, u; vfield; lra). rewrite inner_scal_r. ring. }
  rewrite <- E1, <- E2.
  assert (V' : F xn - F z <= (1 - / t') * (F xk - F z) + / (2 * beta) * (nsq (y - c)%v - nsq (xn - c)%v) + inner e (c - xn)%v) by lra.
  assert (Hm : 0 < 2 * beta * (t' * t')) by (apply Rmult_lt_0_compat; [lra|apply Rmult_lt_0_compat; lra]).
  apply (Rmult_le_compat_l (2 * beta * (t' * t'))) in V'; [|lra].
  replace (2 * beta * (t' * t') * ((1 - / t') * (F xk - F z) + / (2 * beta) * (nsq (y - c)%v - nsq (xn - c)%v) + inner e (c - xn)%v))
    with (2 * beta * (t' * t' - t') * (F xk - F z) + t' * t' * (nsq (y - c)%v - nsq (xn - c)%v) + 2 * beta * t' * (t' * inner e (c - xn)%v)) in V' by (field; lra).
  rewrite E3 in V'.
  assert (2 * beta * (t' * t' - t') * (F xk - F z) <= 2 * beta * (t * t) * (F xk - F z)).
  { apply Rmult_le_compat_r; [lra|]. apply Rmult_le_compat_l; lra. }
  assert (2 * beta * t' * - inner e u <= 2 * beta * t' * (norm e * norm u)).
  { apply Rmult_le_compat_l; [apply Rmult_le_pos; lra|]. pose proof (cauchy_schwarz_norm (-1 * e)%v u) as CS. rewrite inner_scal_l in CS.
    assert (N : norm (-1 * e)%v = norm e) by (apply Rle_antisym; apply norm_le_nsq; right; unfold nsq; iexpand; ring). rewrite N in CS. lra. }
  lra.
Qed.

(** b^2 <= a^2 + c v with v <= b gives b <= a + c. *)
Lemma root_step a b c v : 0 <= a -> 0 <= b -> 0 <= c -> v <= b -> b * b <= a * a + c * v -> b <= a + c.
Proof.
  intros Ha Hb' Hc Hv Q. apply Rnot_lt_le. intros L. assert (c * v <= c * b) by (apply Rmult_le_compat_l; assumption).
  assert (b * (b - c) <= a * a) by lra. assert (a * a < b * (b - c)).
  { apply Rle_lt_trans with (b * a); [apply Rmult_le_compat_r; lra|]. apply Rmult_lt_compat_l; lra. } lra.
Qed.

Variables (X Z e : nat -> H) (t : nat -> R).
Hypothesis St : forall n, ie_step D F beta (e n) (Z n) (X (S n)).
Hypothesis Z1 : Z 1%nat = X 1%nat.
Hypothesis ZS : forall n, Z (S (S n)) = (X (S (S n)) + ((t n - 1) / t (S n)) * (X (S (S n)) - X (S n)))%v.
Hypothesis CF : convex_on D F.
Hypothesis T0 : t 0%nat = 1.
Hypothesis TS : forall n, 1 <= t (S n) /\ t (S n) * t (S n) - t (S n) <= t n * t n.

Let E z n := 2 * beta * (t n * t n) * (F (X (S (S n))) - F z) + nsq (X (S n) + t n * (X (S (S n)) - X (S n)) - z)%v.

Lemma plain_error n z : minimises D F z -> 2 * beta * (F (X (S n)) - F z) + nsq (X (S n) - z)%v <= nsq (Z n - z)%v + 2 * beta * norm (e n) * norm (X (S n) - z)%v.
Proof.
  intros [Dz M]. destruct (St n) as [_ V]. specialize (V z Dz). apply (Rmult_le_compat_l (2 * beta)) in V; [|lra].
  replace (2 * beta * (F z + / (2 * beta) * (nsq (Z n - z)%v - nsq (X (S n) - z)%v) + inner (e n) (z - X (S n))%v))
    with (2 * beta * F z + (nsq (Z n - z)%v - nsq (X (S n) - z)%v) + 2 * beta * inner (e n) (z - X (S n))%v) in V by (field; lra).
  pose proof (cauchy_schwarz_norm (e n) (z - X (S n))%v) as CS.
  assert (N : norm (z - X (S n))%v = norm (X (S n) - z)%v) by (apply Rle_antisym; apply norm_le_nsq; right; apply nsq_sub_sym).
  rewrite N in CS. apply (Rmult_le_compat_l (2 * beta)) in CS; [|lra]. lra.
Qed.

Lemma energy_error z : minimises D F z -> forall n,
  0 <= E z n /\ sqrt (E z n) <= norm (Z 0%nat - z)%v + 2 * beta * (norm (e 0%nat) + sum_below (S n) (fun j => t j * norm (e (S j)))).
Proof.
  intros M. assert (T1 : forall n, 1 <= t n) by (intros [|n]; [rewrite T0; lra|apply TS]).
  assert (Gap : forall n, 0 <= F (X (S n)) - F z) by (intros n; pose proof (proj2 M _ (proj1 (St n))); lra).
  assert (En : forall n, nsq (X (S n) + t n * (X (S (S n)) - X (S n)) - z)%v <= E z n).
  { intros n. unfold E. assert (0 <= 2 * beta * (t n * t n) * (F (X (S (S n))) - F z)); [|lra].
    apply Rmult_le_pos; [|apply Gap]. apply Rmult_le_pos; [lra|]. pose proof (T1 n). apply Rmult_le_pos; lra. }
  assert (E0 : forall n, 0 <= E z n) by (intros n; apply Rle_trans with (2 := En n); apply nsq_pos).
  assert (Nu : forall n, norm (X (S n) + t n * (X (S (S n)) - X (S n)) - z)%v <= sqrt (E z n)) by (intros n; apply sqrt_le_1_alt; apply En).
  assert (Sq : forall n, sqrt (E z n) * sqrt (E z n) = E z n) by (intros n; apply sqrt_sqrt, E0).
  assert (Np : forall n, 0 <= norm (e n)) by (intros; apply norm_pos).
  intros n. split; [apply E0|]. induction n as [|n IH].
  - cbn [sum_below]. rewrite T0.
    assert (A1 : norm (X 1%nat - z)%v <= norm (Z 0%nat - z)%v + 2 * beta * norm (e 0%nat)).
    { apply root_step with (norm (X 1%nat - z)%v); try apply norm_pos; [apply Rmult_le_pos; [lra|apply Np]|apply Rle_refl|].
      rewrite !norm_sq. pose proof (plain_error 0 z M) as Q. assert (0 <= 2 * beta * (F (X 1%nat) - F z)) by (apply Rmult_le_pos; [lra|apply (Gap 0%nat)]). lra. }
    assert (Eu : E z 0%nat = 2 * beta * (F (X 2%nat) - F z) + nsq (X 2%nat - z)%v).
    { unfold E. rewrite T0. replace (X 1%nat + 1 * (X 2%nat - X 1%nat) - z)%v with (X 2%nat - z)%v by vring. ring. }
    assert (A2 : sqrt (E z 0%nat) <= norm (X 1%nat - z)%v + 2 * beta * norm (e 1%nat)).
    { apply root_step with (norm (X 2%nat - z)%v); [apply norm_pos|apply sqrt_pos|apply Rmult_le_pos; [lra|apply Np]| |].
      - pose proof (Nu 0%nat) as Q. rewrite T0 in Q. replace (X 1%nat + 1 * (X 2%nat - X 1%nat) - z)%v with (X 2%nat - z)%v in Q by vring. exact Q.
      - rewrite Sq, norm_sq, Eu. pose proof (plain_error 1 z M) as Q. rewrite Z1 in Q. exact Q. }
    lra.
  - set (c := 2 * beta * t (S n) * norm (e (S (S n)))).
    assert (Hc : 0 <= c) by (unfold c; pose proof (T1 (S n)); apply Rmult_le_pos; [apply Rmult_le_pos; lra|apply Np]).
    assert (A : sqrt (E z (S n)) <= sqrt (E z n) + c).
    { apply root_step with (norm (X (S (S n)) + t (S n) * (X (S (S (S n))) - X (S (S n))) - z)%v); [apply sqrt_pos|apply sqrt_pos|exact Hc|apply Nu|].
      rewrite !Sq. unfold c, E. destruct (TS n) as [H1 H2].
      apply (accel_error (X (S (S n))) (X (S n)) (Z (S (S n))) (X (S (S (S n)))) (e (S (S n))) (t n) (t (S n)) z CF (proj1 (St (S n))) H1 H2); [pose proof (Gap (S n)); lra|apply M|apply ZS|apply St]. }
    cbn [sum_below]. cbn [sum_below] in IH. unfold c in A. lra.
Qed.

Lemma rate_error z : minimises D F z -> forall n, F (X (S (S n))) - F z <=
  (norm (Z 0%nat - z)%v + 2 * beta * (norm (e 0%nat) + sum_below (S n) (fun j => t j * norm (e (S j))))) ^ 2 / (2 * beta * t n ^ 2).
Proof.
  intros M n. destruct (energy_error z M n) as [P Q]. set (B := norm (Z 0%nat - z)%v + _) in *.
  assert (T1 : 1 <= t n) by (destruct n as [|n]; [rewrite T0; lra|apply TS]).
  assert (Q2 : E z n <= B ^ 2).
  { rewrite <- (sqrt_sqrt (E z n) P). pose proof (sqrt_pos (E z n)). replace (B ^ 2) with (B * B) by ring. apply Rmult_le_compat; assumption. }
  unfold E in Q2. pose proof (nsq_pos (X (S n) + t n * (X (S (S n)) - X (S n)) - z)%v) as N.
  assert (Pd : 0 < 2 * beta * t n ^ 2) by (apply Rmult_lt_0_compat; [lra|apply pow_lt; lra]).
  apply Rmult_le_reg_l with (2 * beta * t n ^ 2); [exact Pd|].
  replace (2 * beta * t n ^ 2 * (B ^ 2 / (2 * beta * t n ^ 2))) with (B ^ 2) by (field; split; lra).
  replace (2 * beta * t n ^ 2) with (2 * beta * (t n * t n)) by ring. lra.
Qed.
End Steps.
