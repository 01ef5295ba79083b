(** More theorems of C147: strongly convex functions. *)
From Verif Require Import NPReal Py IPS Model_SetUp Spec_Opt Proof_Smooth Spec_Prox Proof_Prox Spec_Lim Spec_GD Model_GD Proof_GD Prop_GD Proof_Ada Spec_Regret Proof_Regret Proof_Stab Proof_Stab2 Prop_Stab.
From Coq Require Import List Lia FunctionalExtensionality.
Import ListNotations.
Local Open Scope R_scope.

(** [C147] If the functions are also mu-strongly convex and eta is constant, below 2/M, the difference of
    the starts is divided by a fixed factor at every update, and gradient errors of at most delta leave
    a distance of at most eta delta / (1 - rho) in the long run, rho^2 = 1 - eta mu (2 - eta M). *)
Theorem C147_strongly_convex :
  forall I (l : list I) (complete : forall i, In i l) D h prox M mu f grad grad' (x0 y0 : arr I) eta eps eps' ep s t delta,
  let H := fin_ips I l complete in
  convex_on (H := H) D h -> prox_operator (H := H) D h (fun y c => prox y (full c)) ->
  0 < mu <= M -> (forall k, smooth_convex (H := H) M (f k) (grad k)) -> (forall k, strongly_convex (H := H) mu (f k)) ->
  gd_init Vanilla x0 eta eps ep None = Ok s -> gd_init Vanilla y0 eta eps' ep None = Ok t -> 0 < eta -> eta * M < 2 ->
  let y k := d_x_new (gd_after grad' prox k t) in
  (forall k, norm (H := H) (vsub (H := H) (grad k (y k)) (grad' k (y k))) <= delta) ->
  let rho := sqrt (1 - eta * mu * (2 - eta * M)) in
  0 <= rho < 1 /\
  forall n, norm (H := H) (vsub (H := H) (d_x_new (gd_after grad prox n s)) (y n)) <=
  rho ^ n * norm (H := H) (vsub (H := H) x0 y0) + eta * delta / (1 - rho).
Proof.
  intros I l complete D h prox M mu f grad grad' x0 y0 eta eps eps' ep s t delta H Ch Ph Hmu Sf SC Is It Pe Be y Er rho.
  assert (Rr : 0 <= rho < 1) by (apply rate_lt_1; assumption). split; [exact Rr|]. intros n.
  assert (D0 : 0 <= delta) by (apply Rle_trans with (2 := Er 0%nat); apply norm_pos).
  pose proof (strong_apart l complete D h prox M mu f grad grad' x0 y0 eta eps eps' ep s t delta Ch Ph ltac:(lra) ltac:(lra) Sf SC Is It Pe ltac:(lra) Er n) as Q.
  cbv beta zeta in Q. apply Rle_trans with (1 := Q). apply Rplus_le_compat_l. unfold Rdiv.
  apply Rmult_le_compat_l; [apply Rmult_le_pos; lra|]. apply (geometric rho n Rr).
Qed.
Print Assumptions C147_strongly_convex.

(** [C147] One strongly convex objective f, a penalty h applied at every update, gradients wrong by at most
    delta: the estimates come within eta delta / (1 - rho) of the minimiser z of f + h, at a geometric rate. *)
Theorem C147_noisy_gradients_near_minimiser :
  forall I (l : list I) (complete : forall i, In i l) D h prox M mu f df grad' (y0 z : arr I) eta eps t delta,
  let H := fin_ips I l complete in
  convex_on (H := H) D h -> prox_operator (H := H) D h (fun y c => prox y (full c)) ->
  0 < mu <= M -> smooth_convex (H := H) M f df -> strongly_convex (H := H) mu f -> minimises (H := H) D (fun y => f y + h y) z ->
  gd_init Vanilla y0 eta eps 1 None = Ok t -> 0 < eta -> eta * M < 2 ->
  let y k := d_x_new (gd_after grad' prox k t) in
  (forall k, norm (H := H) (vsub (H := H) (df (y k)) (grad' k (y k))) <= delta) ->
  let rho := sqrt (1 - eta * mu * (2 - eta * M)) in
  forall n, norm (H := H) (vsub (H := H) z (y n)) <= rho ^ n * norm (H := H) (vsub (H := H) z y0) + eta * delta / (1 - rho).
Proof.
  intros I l complete D h prox M mu f df grad' y0 z eta eps t delta H Ch Ph Hmu Sf SC Mz It Pe Be y Er rho n.
  destruct (gd_init Vanilla z eta eps 1 None) as [s|] eqn:Is; [|discriminate].
  assert (Fx : forall k, d_x_new (gd_after (fun _ => df) prox k s) = z).
  { assert (Fz : fb_map (H := H) df (fun y c => prox y (full c)) eta z = z).
    { apply (proj2 (fb_map_fixed_iff (H := H) D f h df (fun y c => prox y (full c)) eta z Pe (proj1 Sf) (proj1 (proj2 Sf)) Ch Ph)). exact Mz. }
    assert (Ee : forall k, d_eta (gd_after (fun _ => df) prox k s) = eta).
    { intros k. rewrite eta_const by (rewrite (st_init I (fun _ => df) prox _ _ _ _ _ _ Is); reflexivity). rewrite (st_init I (fun _ => df) prox _ _ _ _ _ _ Is). reflexivity. }
    induction k as [|k IH]; [apply (st_start I (fun _ => df) prox _ _ _ _ _ _ Is)|].
    pose proof (st_step I (fun _ => df) prox _ _ _ _ _ _ Is l complete k) as S1. cbv beta zeta in S1.
    rewrite Nat.mod_1_r in S1. cbn [Nat.eqb] in S1. rewrite S1, Ee, IH. exact Fz. }
  destruct (C147_strongly_convex I l complete D h prox M mu (fun _ => f) (fun _ => df) grad' z y0 eta eps eps 1 s t delta Ch Ph Hmu (fun _ => Sf) (fun _ => SC) Is It Pe Be Er) as [_ Q].
  specialize (Q n). cbv beta zeta in Q. rewrite Fx in Q. exact Q.
Qed.
Print Assumptions C147_noisy_gradients_near_minimiser.

(** Example: f(x) = x^2/2, eta = 1, gradients wrong by a constant 1/10: the estimates stay 1/10 from the minimiser,
    which is the bound (rho = 0). *)
Example C147_noise_example :
  exists t, gd_init Vanilla (full 4 : arr unit) 1 0 1 None = Ok t /\
  let y k := d_x_new (gd_after (fun (_ : nat) (u : arr unit) (_ : unit) => u tt + / 10) (fun y _ => y) k t) in
  sqrt (1 - 1 * 1 * (2 - 1 * 1)) = 0 /\ (forall k, norm (H := U) (vsub (H := U) (full 0) (y (S k))) = / 10) /\ 1 * / 10 / (1 - 0) = / 10.
Proof.
  eexists. split; [reflexivity|]. intros y. split; [|split].
  - replace (1 - 1 * 1 * (2 - 1 * 1)) with 0 by ring. apply sqrt_0.
  - intros k.
    pose proof (st_step unit (fun (_ : nat) (u : arr unit) (_ : unit) => u tt + / 10) (fun y _ => y) (full 4) 1 0 1 None _ eq_refl [tt] unit_complete k) as S1.
    cbv beta zeta in S1. rewrite Nat.mod_1_r in S1. cbn [Nat.eqb] in S1. rewrite eta_const in S1 by reflexivity. cbn [d_eta] in S1.
    fold (y (S k)) in S1. fold (y k) in S1. rewrite S1. rewrite U_norm. cbn. unfold full.
    match goal with |- Rabs ?a = _ => replace a with (/ 10) by ring end. apply Rabs_pos_eq. lra.
  - field.
Qed.
