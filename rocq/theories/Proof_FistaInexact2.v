(** Accelerated steps with errors, from any bound on the second extrapolated point. *)
From Coq Require Import String.
From Verif Require Import NPReal Py IPS Model_SetUp Spec_Opt Proof_Smooth Spec_GD Model_FB Proof_FB Proof_FB2 Proof_Stab Proof_FistaInexact.
From Coq Require Import List Lia.
Import ListNotations.
Local Open Scope R_scope.

Section Gen.
Context {H : ips}.
Variables (D : H -> Prop) (F : H -> R) (beta : R).
Hypothesis Hb : 0 < beta.
Variables (X Z e : nat -> H) (t : nat -> R).
Hypothesis St : forall n, ie_step D F beta (e n) (Z n) (X (S n)).
Hypothesis ZS : forall n, Z (S (S n)) = (X (S (S n)) + ((t n - 1) / t (S n)) * (X (S (S n)) - X (S n)))%v.
Hypothesis CF : convex_on D F.
Hypothesis T0 : t 0%nat = 1.
Hypothesis TS : forall n, 1 <= t (S n) /\ t (S n) * t (S n) - t (S n) <= t n * t n.
Variables (z : H) (C : R).
Hypothesis M : minimises D F z.
Hypothesis Z1 : norm (Z 1%nat - z)%v <= C.
Let E n := 2 * beta * (t n * t n) * (F (X (S (S n))) - F z) + nsq (X (S n) + t n * (X (S (S n)) - X (S n)) - z)%v.

Lemma rate_from n : F (X (S (S n))) - F z <= (C + 2 * beta * sum_below (S n) (fun j => t j * norm (e (S j)))) ^ 2 / (2 * beta * t n ^ 2).
Proof.
  assert (T1 : forall n, 1 <= t n) by (intros [|m]; [rewrite T0; lra|apply TS]).
  assert (Gap : forall n, 0 <= F (X (S n)) - F z) by (intros m; pose proof (proj2 M _ (proj1 (St m))); lra).
  assert (En : forall n, nsq (X (S n) + t n * (X (S (S n)) - X (S n)) - z)%v <= E n).
  { intros m. unfold E. assert (0 <= 2 * beta * (t m * t m) * (F (X (S (S m))) - F z)); [|lra].
    apply Rmult_le_pos; [|apply Gap]. apply Rmult_le_pos; [lra|]. pose proof (T1 m). apply Rmult_le_pos; lra. }
  assert (E0 : forall n, 0 <= E n) by (intros m; apply Rle_trans with (2 := En m); apply nsq_pos).
  assert (Nu : forall n, norm (X (S n) + t n * (X (S (S n)) - X (S n)) - z)%v <= sqrt (E n)) by (intros m; apply sqrt_le_1_alt; apply En).
  assert (Sq : forall n, sqrt (E n) * sqrt (E n) = E n) by (intros m; apply sqrt_sqrt, E0).
  assert (Np : forall n, 0 <= norm (e n)) by (intros; apply norm_pos).
  assert (Q : sqrt (E n) <= C + 2 * beta * sum_below (S n) (fun j => t j * norm (e (S j)))).
  { induction n as [|m IH].
    - cbn [sum_below]. rewrite T0.
      assert (Eu : E 0%nat = 2 * beta * (F (X 2%nat) - F z) + nsq (X 2%nat - z)%v).
      { unfold E. rewrite T0. replace (X 1%nat + 1 * (X 2%nat - X 1%nat) - z)%v with (X 2%nat - z)%v by vring. ring. }
      assert (A2 : sqrt (E 0%nat) <= norm (Z 1%nat - z)%v + 2 * beta * norm (e 1%nat)).
      { apply root_step with (norm (X 2%nat - z)%v); [apply norm_pos|apply sqrt_pos|apply Rmult_le_pos; [lra|apply Np]| |].
        - pose proof (Nu 0%nat) as Q. rewrite T0 in Q. replace (X 1%nat + 1 * (X 2%nat - X 1%nat) - z)%v with (X 2%nat - z)%v in Q by vring. exact Q.
        - rewrite Sq, norm_sq, Eu. apply (plain_error D F beta Hb X Z e St 1 z M). }
      lra.
    - set (c := 2 * beta * t (S m) * norm (e (S (S m)))).
      assert (Hc : 0 <= c) by (unfold c; pose proof (T1 (S m)); apply Rmult_le_pos; [apply Rmult_le_pos; lra|apply Np]).
      assert (A : sqrt (E (S m)) <= sqrt (E m) + c).
      { apply root_step with (norm (X (S (S m)) + t (S m) * (X (S (S (S m))) - X (S (S m))) - z)%v); [apply sqrt_pos|apply sqrt_pos|exact Hc|apply Nu|].
        rewrite !Sq. unfold c, E. destruct (TS m) as [H1 H2].
        apply (accel_error D F beta Hb (X (S (S m))) (X (S m)) (Z (S (S m))) (X (S (S (S m)))) (e (S (S m))) (t m) (t (S m)) z CF (proj1 (St (S m))) H1 H2); [pose proof (Gap (S m)); lra|apply M|apply ZS|apply St]. }
      cbn [sum_below]. cbn [sum_below] in IH. unfold c in A. lra. }
  set (B := C + _) in *. specialize (T1 n).
  assert (Q2 : E n <= B ^ 2).
  { rewrite <- (sqrt_sqrt (E n) (E0 n)). pose proof (sqrt_pos (E n)). replace (B ^ 2) with (B * B) by ring. apply Rmult_le_compat; assumption. }
  unfold E in Q2. pose proof (nsq_pos (X (S n) + t n * (X (S (S n)) - X (S n)) - z)%v) as N.
  assert (Pd : 0 < 2 * beta * t n ^ 2) by (apply Rmult_lt_0_compat; [lra|apply pow_lt; lra]).
  apply Rmult_le_reg_l with (2 * beta * t n ^ 2); [exact Pd|].
  replace (2 * beta * t n ^ 2 * (B ^ 2 / (2 * beta * t n ^ 2))) with (B ^ 2) by (field; split; lra).
  replace (2 * beta * t n ^ 2) with (2 * beta * (t n * t n)) by ring. lra.
Qed.
End Gen.

Lemma closer_error {H : ips} D (F : H -> R) beta e y x z : 0 < beta -> ie_step D F beta e y x -> minimises D F z ->
  norm (x - z)%v <= norm (y - z)%v + 2 * beta * norm e.
Proof.
  intros Hb S M. pose proof (plain_error D F beta Hb (fun _ => x) (fun _ => y) (fun _ => e) (fun _ => S) 0%nat z M) as Q. cbv beta in Q.
  apply root_step with (norm (x - z)%v); try apply norm_pos; [apply Rmult_le_pos; [lra|apply norm_pos]|apply Rle_refl|].
  rewrite !norm_sq. assert (0 <= 2 * beta * (F x - F z)) by (apply Rmult_le_pos; [lra|]; pose proof (proj2 M _ (proj1 S)); lra). lra.
Qed.
