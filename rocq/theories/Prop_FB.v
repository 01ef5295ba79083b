(** Property theorems C39-C50: opt/algorithms/forward_backward.py. *)
From Coq Require Import String SpecFloat.
From Verif Require Import NPReal Py IPS Model_SetUp Spec_Opt Proof_Smooth Model_FB Proof_FB Proof_FB2 Proof_Inst Proof_FBNum.
From Coq Require Import List Lia.
Import ListNotations.
Local Open Scope string_scope.
Local Open Scope R_scope.

(** C39. [lambdas k f] makes k calls of update_lambda. *)
Theorem C39_default_relaxation_range :
  forall f, fista_init default_fista_args = Ok f ->
  forall k, INR k + 1 <= f_t_now (snd (lambdas k f)) /\
    forall n, (k < n)%nat -> 1 <= nth k (fst (lambdas n f)) 0 < 2.
Proof.
  intros f E. unfold default_fista_args in E. rewrite fista_init_regular in E. injection E as <-. intros k. split.
  - destruct (regular_state 1 1 4 0 0 0 k) as [tp Q]. rewrite Q. cbn [f_t_now no_restart].
    pose proof (tau_4_ge 1 1 k ltac:(lra) ltac:(lra)). lra.
  - intros n Hn. rewrite (regular_lambda_value 1 1 4 n k 0 0 0 Hn).
    apply regular_lambda_range; lra.
Qed.
Print Assumptions C39_default_relaxation_range.

(** The identity t_{k+1}^2 - t_{k+1} = t_k^2 is false with the default parameters, at every k; the
    left side is larger by t_{k+1} - 3/4. *)
Theorem C39_identity_defect :
  forall f, fista_init default_fista_args = Ok f ->
  forall k, let t j := f_t_now (snd (lambdas j f)) in
    t (S k) * t (S k) - t (S k) = t k * t k + t (S k) - 3 / 4 /\
    t (S k) * t (S k) - t (S k) > t k * t k.
Proof.
  intros f E k t. unfold default_fista_args in E. rewrite fista_init_regular in E. injection E as <-.
  assert (Et : forall j, t j = tau 1 1 4 j).
  { intros j. unfold t. destruct (regular_state 1 1 4 0 0 0 j) as [tp Q]. rewrite Q. reflexivity. }
  rewrite !Et. pose proof (tau_default_identity k) as I. split; [exact I|].
  pose proof (tau_4_ge 1 1 (S k) ltac:(lra) ltac:(lra)). pose proof (pos_INR (S k)). lra.
Qed.
Print Assumptions C39_identity_defect.
Theorem C39_identity_refuted :
  exists f k, fista_init default_fista_args = Ok f /\
  let t j := f_t_now (snd (lambdas j f)) in t (S k) * t (S k) - t (S k) <> t k * t k.
Proof.
  eexists. exists 0%nat. split; [reflexivity|]. cbv zeta.
  match goal with |- context [lambdas _ ?f] => destruct (C39_identity_defect f eq_refl 0) as [_ H] end. apply Rgt_not_eq, H.
Qed.
Print Assumptions C39_identity_refuted.

(** It holds with p_lazy = 1/2. *)
Theorem C39_identity_for_half :
  forall f, fista_init (mk_fargs None None None None None (/ 2) 1 4) = Ok f ->
  forall k, let t j := f_t_now (snd (lambdas j f)) in t (S k) * t (S k) - t (S k) = t k * t k.
Proof.
  intros f E k t. rewrite fista_init_regular in E. injection E as <-.
  assert (Et : forall j, t j = tau (/ 2) 1 4 j).
  { intros j. unfold t. destruct (regular_state (/ 2) 1 4 0 0 0 j) as [tp Q]. rewrite Q. reflexivity. }
  rewrite !Et. apply tau_half_identity.
Qed.
Print Assumptions C39_identity_for_half.

Example C39_example :
  exists f, fista_init default_fista_args = Ok f /\ nth 0 (fst (lambdas 2 f)) 0 = 1 /\ 1 < nth 1 (fst (lambdas 2 f)) 0.
Proof.
  eexists. split; [reflexivity|]. cbn. split; [unfold Rdiv; lra|].
  assert (S1 : 1 < sqrt (4 * (1 * (1 * 1)) + 1)).
  { rewrite <- sqrt_1 at 1. apply sqrt_lt_1_alt. lra. }
  set (s := sqrt (4 * (1 * (1 * 1)) + 1)) in *. set (t := sqrt _). assert (0 <= t) by apply sqrt_pos.
  assert (0 < (1 + s * / 2 - 1) / (1 + t * / 2)) by (apply Rdiv_lt_0_compat; lra). lra.
Qed.

(** C40 is false for every a_cd: the second value is below 1. *)
Theorem C40_cd_second_lambda :
  forall a, 2 < a -> forall p q r f, fista_init (mk_fargs None None None None (Some a) p q r) = Ok f ->
  nth 1 (fst (lambdas 2 f)) 0 = 1 - / a /\ 1 - / a < 1.
Proof.
  intros a Ha p q r f E. rewrite (fista_init_cd a p q r Ha) in E. injection E as <-.
  rewrite cd_lambda_value by lia. rewrite cd_lambda_1 by exact Ha. split; [reflexivity|].
  pose proof (Rinv_0_lt_compat a ltac:(lra)). lra.
Qed.
Print Assumptions C40_cd_second_lambda.
Theorem C40_cd_never_under_relaxes_refuted :
  exists a f, 2 < a /\ fista_init (mk_fargs None None None None (Some a) 1 1 4) = Ok f /\ nth 1 (fst (lambdas 2 f)) 0 < 1.
Proof.
  exists 3. eexists. split; [lra|]. split; [apply fista_init_cd; lra|].
  match goal with |- nth 1 (fst (lambdas 2 ?f)) 0 < 1 => destruct (C40_cd_second_lambda 3 ltac:(lra) 1 1 4 f) as [H1 H2] end; [apply fista_init_cd; lra|].
  rewrite H1. exact H2.
Qed.
Print Assumptions C40_cd_never_under_relaxes_refuted.

(** It is the only one. *)
Theorem C40_all_other_values_in_range :
  forall a, 2 < a -> forall p q r f, fista_init (mk_fargs None None None None (Some a) p q r) = Ok f ->
  forall n k, (k < n)%nat -> k <> 1%nat -> 1 <= nth k (fst (lambdas n f)) 0 < 2.
Proof.
  intros a Ha p q r f E n k Hk Nk. rewrite (fista_init_cd a p q r Ha) in E. injection E as <-.
  rewrite cd_lambda_value by exact Hk. apply cd_lambda_other; assumption.
Qed.
Print Assumptions C40_all_other_values_in_range.

Example C40_example :
  exists f, fista_init (mk_fargs None None None None (Some 3) 1 1 4) = Ok f /\ nth 1 (fst (lambdas 4 f)) 0 = 2 / 3 /\
    nth 3 (fst (lambdas 4 f)) 0 = 6 / 5.
Proof.
  eexists. split; [apply fista_init_cd; lra|]. rewrite !cd_lambda_value by lia. cbn. split; field.
Qed.

(** C41. What the constructor accepts. *)
Definition fista_accepts (a : fista_args) : Prop :=
  (forall c, a_acd a = Some c -> 2 < c) /\
  forall name, a_strategy a = Some name ->
    In name ["adaptive"; "adaptive-i"; "adaptive-1"; "adaptive-ii"; "adaptive-2"; "greedy"] /\
    a_acd a = None /\ (exists xi, a_xi a = Some xi /\ xi < 1) /\
    (name = "greedy" -> (exists b, a_min_beta a = Some b) /\ exists s, a_s a = Some s /\ 1 < s).

Lemma known_strategy name : existsb (String.eqb name) strategy_names = true <-> In name strategy_names.
Proof.
  rewrite existsb_exists. split.
  - intros (x & Hx & E). apply String.eqb_eq in E. congruence.
  - intros Hn. exists name. split; [exact Hn|]. apply String.eqb_refl.
Qed.

Lemma fista_outcome a :
  (fista_accepts a /\ exists f, fista_init a = Ok f) \/
  (~ fista_accepts a /\ (exists c, a_acd a = Some c /\ ~ 2 < c) /\ fista_init a = Err ValueError) \/
  (~ fista_accepts a /\ (forall c, a_acd a = Some c -> 2 < c) /\
    ((exists name, a_strategy a = Some name /\ ~ In name strategy_names /\ fista_init a = Err TypeError) \/
     (exists name, a_strategy a = Some name /\ In name strategy_names /\ fista_init a = Err ValueError))).
Proof.
  destruct a as [st mb s xi acd p q r]. unfold fista_accepts, fista_init. cbn [a_strategy a_min_beta a_s a_xi a_acd a_p a_q a_r].
  destruct acd as [c|].
  - destruct (Rgt_dec c 2) as [G|G]; cbn [bind].
    + destruct st as [nm|].
      * right. right. split; [intros [_ Q]; destruct (Q nm eq_refl) as (_ & Q' & _); discriminate|].
        split; [intros c' E; injection E as <-; lra|]. destruct (existsb (String.eqb nm) strategy_names) eqn:K.
        -- right. exists nm. split; [reflexivity|]. split; [apply known_strategy; exact K|reflexivity].
        -- left. exists nm. split; [reflexivity|]. split; [|reflexivity]. intros Q. apply known_strategy in Q. congruence.
      * left. split; [split; [intros c' E; injection E as <-; lra|discriminate]|]. cbn. eexists. reflexivity.
    + right. left. split; [intros [Q _]; specialize (Q c eq_refl); lra|]. split; [exists c; split; [reflexivity|lra]|reflexivity].
  - cbn [bind]. destruct st as [nm|].
    2:{ left. split; [split; discriminate|]. cbn. eexists. reflexivity. }
    destruct (existsb (String.eqb nm) strategy_names) eqn:K.
    2:{ right. right. assert (Nk : ~ In nm strategy_names) by (intros Q; apply known_strategy in Q; congruence).
        split; [intros [_ Q]; destruct (Q nm eq_refl) as (Q' & _); apply Nk; exact Q'|]. split; [discriminate|]. left. exists nm. auto. }
    apply known_strategy in K. unfold check_restart_params. cbn [is_regular negb].
    destruct (String.eqb_spec nm "greedy") as [->|Ng]; cbn [andb].
    + destruct mb as [b|]; [destruct s as [s|]; [destruct (Rle_dec s 1)|]|];
        try (right; right; split; [intros [_ Q]; destruct (Q _ eq_refl) as (_ & _ & _ & Q4); destruct (Q4 eq_refl) as [[b' B] [s' [S1 S2]]]; try discriminate; injection S1 as <-; lra|];
             split; [discriminate|]; right; eexists; split; [reflexivity|]; split; [exact K|reflexivity]).
      destruct xi as [xi|].
      2:{ right; right. split; [intros [_ Q]; destruct (Q _ eq_refl) as (_ & _ & [xi [X _]] & _); discriminate|]. split; [discriminate|]. right; eexists; split; [reflexivity|]; split; [exact K|reflexivity]. }
      destruct (Rge_dec xi 1).
      * right; right. split; [intros [_ Q]; destruct (Q _ eq_refl) as (_ & _ & [xi' [X X']] & _); injection X as <-; lra|]. split; [discriminate|]. right; eexists; split; [reflexivity|]; split; [exact K|reflexivity].
      * left. split; [|eexists; reflexivity]. split; [discriminate|]. intros nm E. injection E as <-. split; [exact K|]. split; [reflexivity|].
        split; [exists xi; split; [reflexivity|lra]|]. intros _. split; [exists b; reflexivity|exists s; split; [reflexivity|lra]].
    + destruct xi as [xi|].
      2:{ right; right. split; [intros [_ Q]; destruct (Q _ eq_refl) as (_ & _ & [xi [X _]] & _); discriminate|]. split; [discriminate|]. right; eexists; split; [reflexivity|]; split; [exact K|reflexivity]. }
      destruct (Rge_dec xi 1).
      * right; right. split; [intros [_ Q]; destruct (Q _ eq_refl) as (_ & _ & [xi' [X X']] & _); injection X as <-; lra|]. split; [discriminate|]. right; eexists; split; [reflexivity|]; split; [exact K|reflexivity].
      * left. split; [|eexists; reflexivity]. split; [discriminate|]. intros nm' E. injection E as <-. split; [exact K|]. split; [reflexivity|].
        split; [exists xi; split; [reflexivity|lra]|]. intros ->. contradiction.
Qed.

Theorem C41_constructor_accepts_exactly :
  forall a, (exists f, fista_init a = Ok f) <-> fista_accepts a.
Proof.
  intros a. destruct (fista_outcome a) as [[A [f E]]|[(A & _ & E)|(A & _ & [(nm & _ & _ & E)|(nm & _ & _ & E)])]]; rewrite E; split; intros Q; try contradiction; try (destruct Q; discriminate); eauto.
Qed.
Print Assumptions C41_constructor_accepts_exactly.

Theorem C41_rejections :
  forall a, ~ fista_accepts a ->
  fista_init a = Err ValueError \/
  (fista_init a = Err TypeError /\ exists name, a_strategy a = Some name /\ ~ In name strategy_names).
Proof.
  intros a N. destruct (fista_outcome a) as [[A _]|[(_ & _ & E)|(_ & _ & [(nm & E1 & E2 & E)|(nm & _ & _ & E)])]]; auto; [contradiction|].
  right. split; [exact E|]. exists nm. auto.
Qed.
Print Assumptions C41_rejections.

(** Refuted: an unknown strategy raises TypeError, whatever it is; the documented range xi > 1 is
    rejected and values outside it are accepted. *)
Theorem C41_invalid_settings :
  (forall name, ~ In name strategy_names -> forall mb s xi p q r,
     fista_init (mk_fargs (Some name) mb s xi None p q r) = Err TypeError) /\
  (forall name xi mb s p q r, In name strategy_names -> 1 < xi ->
     fista_init (mk_fargs (Some name) mb s (Some xi) None p q r) = Err ValueError) /\
  (forall name xi mb s p q r, In name strategy_names -> name <> "greedy" -> xi < 1 ->
     exists f, fista_init (mk_fargs (Some name) mb s (Some xi) None p q r) = Ok f).
Proof.
  split; [|split].
  - intros name Nk mb s xi p q r. unfold fista_init. cbn [a_acd a_strategy bind].
    destruct (existsb _ _) eqn:K; [apply known_strategy in K; contradiction|reflexivity].
  - intros name xi mb s p q r K Hx. apply known_strategy in K. unfold fista_init. cbn [a_acd a_strategy a_min_beta a_s a_xi bind]. rewrite K.
    unfold check_restart_params. cbn [is_regular negb]. destruct (_ && _)%bool; [reflexivity|]. destruct (Rge_dec xi 1); [reflexivity|lra].
  - intros name xi mb s p q r K Ng Hx. apply C41_constructor_accepts_exactly. split; [discriminate|]. cbn. intros nm E. injection E as <-.
    split; [exact K|]. split; [reflexivity|]. split; [eauto|]. intros; contradiction.
Qed.
Print Assumptions C41_invalid_settings.
(** The documented ValueError and the documented range of xi. *)
Theorem C41_invalid_settings_refuted :
  (exists name, ~ In name strategy_names /\ fista_init (mk_fargs (Some name) None None (Some (1 / 2)) None 1 1 4) = Err TypeError) /\
  (exists name xi, In name strategy_names /\ 1 < xi /\ fista_init (mk_fargs (Some name) None None (Some xi) None 1 1 4) = Err ValueError) /\
  (exists name xi f, In name strategy_names /\ xi < 1 /\ fista_init (mk_fargs (Some name) None None (Some xi) None 1 1 4) = Ok f).
Proof.
  destruct C41_invalid_settings as (A & B & C). assert (I : In "adaptive" strategy_names) by (cbn; tauto). split; [|split].
  - exists "nope". split; [cbn; intuition discriminate|]. apply A. cbn; intuition discriminate.
  - exists "adaptive", 2. split; [exact I|]. split; [lra|]. apply B; [exact I|lra].
  - exists "adaptive", (1 / 2). destruct (C "adaptive" (1 / 2) None None 1 1 4 I ltac:(discriminate) ltac:(lra)) as (f & E). exists f. split; [exact I|]. split; [lra|exact E].
Qed.
Print Assumptions C41_invalid_settings_refuted.

Example C41_example :
  (exists f, fista_init (mk_fargs (Some "greedy") (Some 1) (Some 1.1) (Some 0.96) None 1 1 4) = Ok f) /\
  fista_init (mk_fargs (Some "nope") None None (Some 0.96) None 1 1 4) = Err TypeError /\
  fista_init (mk_fargs None None None None (Some 2) 1 1 4) = Err ValueError.
Proof.
  split; [|split; [reflexivity|]].
  - apply C41_constructor_accepts_exactly. split; [discriminate|]. cbn. intros nm E. injection E as <-. split; [tauto|]. split; [reflexivity|].
    split; [eexists; split; [reflexivity|lra]|]. intros _. split; [eauto|]. eexists. split; [reflexivity|lra].
  - unfold fista_init. cbn [a_acd]. destruct (Rgt_dec 2 2); [lra|reflexivity].
Qed.

(** C42. [x k] is the k-th iterate; x_final is the same point. *)
Theorem C42_ista_monotone_and_rate :
  forall (H : ips) (D : H -> Prop) (f g : H -> R) grad prox beta bp x0 s0,
  0 < beta -> smooth_convex (/ beta) f grad -> convex_on D g -> prox_operator D g prox ->
  fb_init x0 (Some beta) bp 1 None (LCall None) = Ok s0 ->
  let F z := f z + g z in
  let x k := fb_x_old (fb_after grad prox k s0) in
  (forall k, (1 <= k)%nat -> F (x (S k)) <= F (x k)) /\ (D x0 -> F (x 1%nat) <= F x0) /\
  (forall z, D z -> forall k, (1 <= k)%nat -> F (x k) - F z <= nsq (x0 - z)%v / (2 * beta * INR k)) /\
  (forall k metric period, (1 <= k)%nat -> fb_iterate grad prox None metric false period k s0 = Ok (x k)).
Proof.
  intros H D f g grad prox beta bp x0 s0 Hb Sf Cg Pg E F x. cbn in E. destruct (Req_EM_T beta 0) as [?|_]; [lra|]. injection E as <-.
  destruct (fb_ista grad prox D f g beta Hb Sf Cg Pg x0) as (A & B & C). cbv zeta in A, B, C.
  split; [|split; [exact B|split]].
  - intros [|k] Hk; [lia|]. apply A.
  - intros z Dz [|k] Hk; [lia|]. apply C. exact Dz.
  - intros k metric period Hk. rewrite fb_iterate_plain by lia. f_equal.
    apply (proj1 (ista_steps grad prox beta x0 k)).
Qed.
Print Assumptions C42_ista_monotone_and_rate.

Example C42_example : exists s0, fb_init (H := R_ips) 3 (Some 1) 1 1 None (LCall None) = Ok s0 /\
  fb_x_old (fb_after (H := R_ips) (fun _ => 0) softc 2 s0) = 1 /\
  Rabs (fb_x_old (fb_after (H := R_ips) (fun _ => 0) softc 2 s0)) - Rabs 0 <= nsq (H := R_ips) (3 - 0)%R / (2 * 1 * INR 2).
Proof.
  exists (@mk_fb R_ips 3 3 None 1 1 (RUser None None) 0). split; [unfold fb_init; cbn; destruct (Req_EM_T 1 0); [lra|]; reflexivity|].
  assert (E : fb_x_old (fb_after (H := R_ips) (fun _ => 0) softc 2 (@mk_fb R_ips 3 3 None 1 1 (RUser None None) 0)) = 1).
  { unfold fb_after. cbn. unfold softc. cbn. repeat (destruct (Rle_dec _ _); try lra). }
  rewrite E. split; [reflexivity|]. rewrite Rabs_R1, Rabs_R0. unfold nsq. cbn. lra.
Qed.

(** C43 is false: f = 0, g = |.|, step 1, x_0 = 578 and k = 74. *)
Definition s578 : fb (H := R_ips) := @mk_fb R_ips 578 578 None 1 1 (RFista (no_restart (Regular 1 1 4) 1 1 0 0 0)) 0.
Definition x578 (n : nat) : R := fb_x_old (fb_after (H := R_ips) (fun _ => 0) softc n s578).

Lemma x578_start : x578 2 = 576 /\ x578 1 = 577.
Proof. unfold x578, s578, fb_after. cbn. unfold softc. cbn. split; repeat (destruct (Rle_dec _ _); try lra). Qed.

Lemma x578_step n : x578 (S (S (S n))) = soft1 (x578 (S (S n)) + (tau 1 1 4 n - 1) / tau 1 1 4 (S n) * (x578 (S (S n)) - x578 (S n))).
Proof.
  pose proof (Z_SS (H := R_ips) (fun _ => 0) softc 1 578 _ (Regular 1 1 4) 0 0 0 eq_refl n) as Zn. cbv zeta beta in Zn.
  destruct (regular_state 1 1 4 0 0 0 n) as [tp E1]. destruct (regular_state 1 1 4 0 0 0 (S n)) as [tp2 E2]. rewrite E1, E2 in Zn. clear E1 E2.
  destruct (fb_fista_state (H := R_ips) (fun _ => 0) softc 578 1 1 _ (Regular 1 1 4) 0 0 0 eq_refl (S (S n))) as (_ & B & _).
  fold s578 in Zn, B. unfold x578. rewrite (fb_after_S (H := R_ips) (fun _ => 0) softc (S (S n)) s578), fb_update_x, B.
  unfold fb_map. rewrite Zn. cbn [f_t_now no_restart].
  set (a := fb_x_old (fb_after _ _ (S (S n)) s578)). set (b := fb_x_old (fb_after _ _ (S n) s578)). clearbody a b.
  set (t := tau 1 1 4 n). set (t' := tau 1 1 4 (S n)). clearbody t t'. clear.
  unfold soft1, softc. cbn.
  replace (a + (t - 1) / t' * (a + -1 * b) + -1 * (1 * 0)) with (a + (t - 1) / t' * (a - b)) by ring. reflexivity.
Qed.

Lemma x578_run n : (tau 1 1 4 n, x578 (S (S n)), x578 (S n)) = Nat.iter n rstep (1, 576, 577).
Proof.
  induction n as [|n IH].
  - destruct x578_start as [E1 E2]. rewrite E1, E2. reflexivity.
  - change (Nat.iter (S n) rstep (1, 576, 577)) with (rstep (Nat.iter n rstep (1, 576, 577))). rewrite <- IH. unfold rstep.
    rewrite x578_step. reflexivity.
Qed.

Lemma x578_75 n : n = 73%nat -> x578 (S (S n)) < -119.
Proof.
  intros En. pose proof run_73 as Q. rewrite <- En in Q. rewrite <- x578_run in Q. cbn [fst snd] in Q. exact Q.
Qed.

Lemma x578_late k : k = 74%nat ->
  0 + Rabs (fb_x_old (fb_after (H := R_ips) (fun _ => 0) softc (k + 1) s578)) - (0 + Rabs 0)
  > 2 * nsq (vsub (H := R_ips) 578%R 0%R) / (1 * (INR k + 1) ^ 2).
Proof.
  intros Ek. fold (x578 (k + 1)).
  assert (Q : x578 (k + 1) < -119).
  { replace (k + 1)%nat with (S (S (k - 1))) by lia. apply x578_75. lia. }
  set (x := x578 (k + 1)) in *. clearbody x. rewrite (Rabs_left x) by lra. rewrite Rabs_R0.
  assert (E : INR k = 74) by (rewrite Ek, INR_IZR_INZ; reflexivity). rewrite E. unfold nsq. cbn. lra.
Qed.

Theorem C43_default_fista_rate_refuted :
  exists (f g : R_ips -> R) grad prox beta x0 z s0 k,
    0 < beta /\ smooth_convex (/ beta) f grad /\ convex_on everywhere g /\ prox_operator everywhere g prox /\
    minimises everywhere (fun u => f u + g u) z /\
    fb_init x0 (Some beta) beta 1 None (LFista default_fista_args) = Ok s0 /\
    let F u := f u + g u in
    F (fb_x_old (fb_after grad prox (k + 1) s0)) - F z > 2 * nsq (x0 - z)%v / (beta * (INR k + 1) ^ 2).
Proof.
  exists (fun _ => 0), (fun z => Rabs z), (fun _ => 0), softc, 1, 578, 0, s578, 74%nat.
  split; [lra|]. split; [apply zero_smooth; rewrite Rinv_1; lra|]. split; [exact abs_convex|]. split; [exact soft_prox_operator|].
  split; [split; [exact I|]; intros u _; rewrite Rabs_R0; pose proof (Rabs_pos u); lra|].
  split; [unfold fb_init; cbn; destruct (Req_EM_T 1 0); [lra|]; reflexivity|]. cbv zeta beta.
  exact (x578_late 74 eq_refl).
Qed.
Print Assumptions C43_default_fista_rate_refuted.

(** The rate holds for the Fista-Mod parameters with p_lazy <= 1/2; for p_lazy = 1/2 it is the claimed bound. *)
Theorem C43_rate_for_lazy_parameters :
  forall (H : ips) (D : H -> Prop) (f g : H -> R) grad prox beta bp x0 s0 p q z,
  0 < beta -> smooth_convex (/ beta) f grad -> convex_on D g -> prox_operator D g prox ->
  0 < p <= / 2 -> 0 <= q <= (2 - 2 * p) ^ 2 ->
  fb_init x0 (Some beta) bp 1 None (LFista (mk_fargs None None None None None p q 4)) = Ok s0 ->
  let F u := f u + g u in minimises D F z ->
  forall k, F (fb_x_old (fb_after grad prox (k + 2) s0)) - F z <= nsq (x0 - z)%v / (2 * beta * (1 + INR k * p) ^ 2).
Proof.
  intros H D f g grad prox beta bp x0 s0 p q z Hb Sf Cg Pg Hp Hq E F M k.
  unfold fb_init in E. rewrite fista_init_regular in E. cbn [bind] in E. rewrite step_or_pos in E by exact Hb. injection E as <-.
  rewrite Nat.add_comm. apply (fista_rate_regular grad prox D f g beta Hb Sf Cg Pg p q x0 z Hp Hq M).
Qed.
Print Assumptions C43_rate_for_lazy_parameters.

Theorem C43_rate_for_half :
  forall (H : ips) (D : H -> Prop) (f g : H -> R) grad prox beta bp x0 s0 z,
  0 < beta -> smooth_convex (/ beta) f grad -> convex_on D g -> prox_operator D g prox ->
  fb_init x0 (Some beta) bp 1 None (LFista (mk_fargs None None None None None (/ 2) 1 4)) = Ok s0 ->
  let F u := f u + g u in minimises D F z ->
  forall k, F (fb_x_old (fb_after grad prox (k + 1) s0)) - F z <= 2 * nsq (x0 - z)%v / (beta * (INR k + 1) ^ 2).
Proof.
  intros H D f g grad prox beta bp x0 s0 z Hb Sf Cg Pg E F M [|k].
  - unfold fb_init in E. rewrite fista_init_regular in E. cbn [bind] in E. rewrite step_or_pos in E by exact Hb. injection E as <-.
    set (s0 := mk_fb _ _ _ _ _ _ _). change (0 + 1)%nat with 1%nat. change (fb_after grad prox 1 s0) with (fb_update grad prox s0).
    rewrite fb_update_x. destruct (T_step grad prox D f g beta Hb Sf Cg Pg x0) as [DT V]. specialize (V z (proj1 M)).
    change (fb_beta s0) with beta. change (fb_z_old s0) with x0.
    pose proof (nsq_pos (fb_map grad prox beta x0 - z)%v). pose proof (nsq_pos (x0 - z)%v).
    set (a := nsq (x0 - z)%v) in *. set (b := nsq _) in *. cbn [INR].
    assert (I : 0 < / beta) by (apply Rinv_0_lt_compat; lra).
    replace (/ (2 * beta)) with (/ beta / 2) in V by (field; lra).
    replace (2 * a / (beta * (0 + 1) ^ 2)) with (2 * a * / beta) by (field; lra). fold (F (fb_map grad prox beta x0)) (F z) in *. nra.
  - replace (S k + 1)%nat with (k + 2)%nat by lia.
    pose proof (C43_rate_for_lazy_parameters H D f g grad prox beta bp x0 s0 (/ 2) 1 z Hb Sf Cg Pg ltac:(lra) ltac:(lra) E M k) as Q.
    fold F in Q. rewrite S_INR. pose proof (pos_INR k).
    replace (2 * nsq (x0 - z)%v / (beta * (INR k + 1 + 1) ^ 2)) with (nsq (x0 - z)%v / (2 * beta * (1 + INR k * / 2) ^ 2)); [exact Q|].
    field. repeat split; lra.
Qed.
Print Assumptions C43_rate_for_half.

Theorem C43_rate_for_chambolle_dossal :
  forall (H : ips) (D : H -> Prop) (f g : H -> R) grad prox beta bp x0 s0 a p q r z,
  0 < beta -> smooth_convex (/ beta) f grad -> convex_on D g -> prox_operator D g prox -> 2 < a ->
  fb_init x0 (Some beta) bp 1 None (LFista (mk_fargs None None None None (Some a) p q r)) = Ok s0 ->
  let F u := f u + g u in minimises D F z ->
  forall k, F (fb_x_old (fb_after grad prox (k + 4) s0)) - F z <= a ^ 2 * nsq (x0 - z)%v / (2 * beta * (INR k + a) ^ 2).
Proof.
  intros H D f g grad prox beta bp x0 s0 a p q r z Hb Sf Cg Pg Ha E F M k.
  unfold fb_init in E. rewrite fista_init_cd in E by exact Ha. cbn [bind] in E. rewrite step_or_pos in E by exact Hb. injection E as <-.
  replace (k + 4)%nat with (S (S (k + 2))) by lia.
  pose proof (fista_rate_cd grad prox D f g beta Hb Sf Cg Pg a x0 z Ha M (k + 2) ltac:(lia)) as Q.
  rewrite plus_INR in Q. replace (INR k + INR 2 + a - 2) with (INR k + a) in Q by (cbn; ring). exact Q.
Qed.
Print Assumptions C43_rate_for_chambolle_dossal.

(** With the default parameters F(x_k) + |x_k - x_{k-1}|^2/(2 beta) never increases; in particular
    F(x_k) <= F(x_0) for feasible x_0. *)
Theorem C43_default_energy_decreases :
  forall (H : ips) (D : H -> Prop) (f g : H -> R) grad prox beta bp x0 s0,
  0 < beta -> smooth_convex (/ beta) f grad -> convex_on D g -> prox_operator D g prox ->
  fb_init x0 (Some beta) bp 1 None (LFista default_fista_args) = Ok s0 ->
  let F u := f u + g u in
  let x k := fb_x_old (fb_after grad prox k s0) in
  let E k := F (x k) + / (2 * beta) * nsq (x k - x (k - 1)%nat)%v in
  (forall k, (1 <= k)%nat -> E (S k) <= E k) /\ (D x0 -> forall k, F (x k) <= F x0).
Proof.
  intros H D f g grad prox beta bp x0 s0 Hb Sf Cg Pg Ei F x E.
  unfold fb_init, default_fista_args in Ei. rewrite fista_init_regular in Ei. cbn [bind] in Ei. rewrite step_or_pos in Ei by exact Hb. injection Ei as <-.
  assert (S1 : forall k, (1 <= k)%nat -> E (S k) <= E k).
  { intros [|k] Hk; [lia|]. unfold E, x. replace (S (S k) - 1)%nat with (S k) by lia. replace (S k - 1)%nat with k by lia.
    apply (fista_energy_regular grad prox D f g beta Hb Sf Cg Pg 1 1 x0 k); lra. }
  split; [exact S1|]. intros D0.
  assert (ib : 0 < / (2 * beta)) by (apply Rinv_0_lt_compat; lra).
  assert (E1 : E 1%nat <= F x0).
  { unfold E. cbn [Nat.sub]. change (x 0%nat) with x0. unfold x. set (s0 := mk_fb _ _ _ _ _ _ _). change (fb_after grad prox 1 s0) with (fb_update grad prox s0).
    rewrite fb_update_x. destruct (T_step grad prox D f g beta Hb Sf Cg Pg x0) as [DT V]. specialize (V x0 D0).
    rewrite vsub_self in V. change (fb_beta s0) with beta. change (fb_z_old s0) with x0. unfold nsq at 1 in V. rewrite inner_0_l in V. unfold F. lra. }
  assert (Ek : forall k, E (S k) <= F x0).
  { induction k as [|k IH]; [exact E1|]. apply Rle_trans with (E (S k)); [apply S1; lia|exact IH]. }
  intros [|k]; [apply Rle_refl|]. apply Rle_trans with (E (S k)); [|apply Ek]. unfold E.
  pose proof (nsq_pos (x (S k) - x (S k - 1)%nat)%v) as Q. apply Rlt_le in ib. pose proof (Rmult_le_pos _ _ ib Q). lra.
Qed.
Print Assumptions C43_default_energy_decreases.

Example C43_example : exists s0, fb_init (H := R_ips) 10 (Some 1) 1 1 None (LFista (mk_fargs None None None None None (/ 2) 1 4)) = Ok s0 /\
  fb_x_old (fb_after (H := R_ips) (fun _ => 0) softc 2 s0) = 8 /\
  Rabs 8 - Rabs 0 <= 2 * nsq (H := R_ips) (10 - 0)%R / (1 * (INR 1 + 1) ^ 2).
Proof.
  exists (@mk_fb R_ips 10 10 None 1 1 (RFista (no_restart (Regular (/ 2) 1 4) 1 1 0 0 0)) 0). split; [unfold fb_init; cbn; destruct (Req_EM_T 1 0); [lra|]; reflexivity|].
  split.
  - unfold fb_after. cbn. unfold softc. cbn. repeat (destruct (Rle_dec _ _); try lra).
  - rewrite Rabs_R0, Rabs_right by lra. unfold nsq. cbn. lra.
Qed.

(** C44. A state with x = z = x, whatever the relaxation rule. *)
Theorem C44_fixed_points_are_minimisers :
  forall (H : ips) (D : H -> Prop) (f g : H -> R) grad prox (s : fb) (x : H),
  0 < fb_beta s -> convex f -> is_gradient f grad -> convex_on D g -> prox_operator D g prox ->
  fb_x_old s = x -> fb_z_old s = x ->
  ((fb_x_old (fb_update grad prox s) = x /\ fb_z_old (fb_update grad prox s) = x)
   <-> minimises D (fun z => f z + g z) x).
Proof. intros H D f g grad prox s x. apply fb_fixed_iff. Qed.
Print Assumptions C44_fixed_points_are_minimisers.

(** Hence a run started at a minimiser returns it, with any relaxation or restart rule that keeps
    the step positive; with a fixed step that is always so. *)
Theorem C44_run_from_minimiser_stays :
  forall (H : ips) (D : H -> Prop) (f g : H -> R) grad prox x beta bp lp bu lu s0,
  0 < beta -> convex f -> is_gradient f grad -> convex_on D g -> prox_operator D g prox ->
  minimises D (fun z => f z + g z) x ->
  fb_init x (Some beta) bp lp bu lu = Ok s0 ->
  (forall n, 0 < fb_beta (fb_after grad prox n s0)) ->
  forall cost metric hm period n z, fb_iterate grad prox cost metric hm period n s0 = Ok z -> z = x.
Proof.
  intros H D f g grad prox x beta bp lp bu lu s0 Hb Cf Gf Cg Pg M Ei Hp cost metric hm period n z E.
  destruct (fb_init_new x _ _ _ _ _ _ Ei) as (N0 & X0 & Z0 & _).
  destruct (fb_iterate_ok grad prox cost metric hm period n s0 z N0 E) as (N & _ & ->).
  assert (I : fb_x_old (fb_after grad prox N s0) = x /\ fb_z_old (fb_after grad prox N s0) = x); [|apply I].
  clear E. induction N as [|N [I1 I2]]; [split; assumption|].
  change (fb_after grad prox (S N) s0) with (fb_update grad prox (fb_after grad prox N s0)).
  apply (fb_fixed_iff grad prox D f g (fb_after grad prox N s0) x); auto.
Qed.
Print Assumptions C44_run_from_minimiser_stays.

Example C44_example : forall s : fb (H := R_ips), fb_beta s = 1 -> fb_x_old s = 0 -> fb_z_old s = 0 ->
  fb_x_old (fb_update (H := R_ips) (fun _ => 0) softc s) = 0.
Proof.
  intros s B X Z. apply (C44_fixed_points_are_minimisers R_ips everywhere (fun _ => 0) (fun z => Rabs z) (fun _ => 0) softc s 0); auto.
  - rewrite B. lra.
  - apply (zero_smooth 0). lra.
  - apply (zero_smooth 0). lra.
  - exact abs_convex.
  - exact soft_prox_operator.
  - split; [exact I|]. intros z _. rewrite Rabs_R0. pose proof (Rabs_pos z). lra.
Qed.

(** C45 is false: projection onto [0, oo), gradient 1 (f x = x), x_0 = 5/2, step 1, three iterations. *)
Theorem C45_x_final_feasible_refuted :
  exists (prox : R_ips -> R -> R_ips) (x0 : R_ips) s0 z,
    (forall y c, 0 <= prox y c) /\ 0 <= x0 /\
    fb_init x0 (Some 1) 1 1 None (LFista default_fista_args) = Ok s0 /\
    fb_iterate (H := R_ips) (fun _ => 1) prox None (fun _ _ => []) false None 3 s0 = Ok z /\ z < 0.
Proof.
  set (prox := fun (y : R) (_ : R) => Rmax y 0).
  exists prox, (5 / 2).
  exists (@mk_fb R_ips (5 / 2) (5 / 2) None 1 1 (RFista (no_restart (Regular 1 1 4) 1 1 0 0 0)) 0).
  set (s0 := mk_fb _ _ _ _ _ _ _).
  exists (fb_z_old (fb_after (H := R_ips) (fun _ => 1) prox 3 s0)).
  split; [intros y c; apply Rmax_r|]. split; [lra|]. split; [unfold fb_init; cbn; destruct (Req_EM_T 1 0); [lra|]; reflexivity|].
  split; [apply (fb_iterate_plain (H := R_ips)); lia|].
  assert (X : forall n z, fb_z_old (fb_after (H := R_ips) (fun _ => 1) prox n s0) = z -> fb_x_old (fb_after (H := R_ips) (fun _ => 1) prox (S n) s0) = Rmax (z - 1) 0).
  { intros n z E. change (fb_after (H := R_ips) (fun _ => 1) prox (S n) s0) with (fb_update (H := R_ips) (fun _ => 1) prox (fb_after (H := R_ips) (fun _ => 1) prox n s0)).
    rewrite fb_update_x, E. destruct (fb_fista_state (H := R_ips) (fun _ => 1) prox (5 / 2) 1 1 _ (Regular 1 1 4) 0 0 0 eq_refl n) as (_ & B & _).
    fold s0 in B. rewrite B. unfold fb_map, prox. cbn. f_equal. ring. }
  pose proof (X 0%nat (5 / 2) eq_refl) as X1. rewrite Rmax_left in X1 by lra.
  pose proof (Z_1 (H := R_ips) (fun _ => 1) prox 1 (5 / 2) _ (Regular 1 1 4) 0 0 0 eq_refl) as Z1. cbv zeta beta in Z1. fold s0 in Z1. rewrite X1 in Z1.
  pose proof (X 1%nat _ Z1) as X2. rewrite Rmax_left in X2 by lra.
  pose proof (Z_SS (H := R_ips) (fun _ => 1) prox 1 (5 / 2) _ (Regular 1 1 4) 0 0 0 eq_refl 0) as Z2. cbv zeta beta in Z2. fold s0 in Z2. rewrite X2, X1 in Z2.
  destruct (regular_state 1 1 4 0 0 0 0) as [tp0 E0]. destruct (regular_state 1 1 4 0 0 0 1) as [tp1 E1]. rewrite E0, E1 in Z2.
  cbn [f_t_now no_restart] in Z2. change (tau 1 1 4 0) with 1 in Z2. assert (Z2' : fb_z_old (fb_after (H := R_ips) (fun _ => 1) prox 2 s0) = 1 / 2).
  { rewrite Z2. cbn. set (t := _ + _ * / 2). replace ((1 - 1) / t) with 0 by (unfold Rdiv; ring). lra. }
  pose proof (X 2%nat _ Z2') as X3. rewrite Rmax_right in X3 by lra.
  pose proof (Z_SS (H := R_ips) (fun _ => 1) prox 1 (5 / 2) _ (Regular 1 1 4) 0 0 0 eq_refl 1) as Z3. cbv zeta beta in Z3. fold s0 in Z3. rewrite X3, X2 in Z3.
  destruct (regular_state 1 1 4 0 0 0 2) as [tp2 E2]. rewrite E1, E2 in Z3.
  cbn [f_t_now no_restart] in Z3. rewrite Z3. clear Z3.
  pose proof (tau_4_ge 1 1 1 ltac:(lra) ltac:(lra)) as T1. pose proof (tau_4_ge 1 1 2 ltac:(lra) ltac:(lra)) as T2. cbn [INR] in T1, T2.
  set (t1 := tau 1 1 4 1) in *. set (t2 := tau 1 1 4 2) in *. clearbody t1 t2.
  assert (P : 0 < (t1 - 1) / t2) by (apply Rdiv_lt_0_compat; lra). cbn. lra.
Qed.
Print Assumptions C45_x_final_feasible_refuted.

(** The points produced by the prox do lie in C; so does x_final without acceleration, and with
    relaxation parameters in [0,1] for convex C. *)
Theorem C45_prox_points_feasible :
  forall (H : ips) (C : H -> Prop) grad prox (s : fb) n, (forall y c, C (prox y c)) ->
  C (fb_x_old (fb_after grad prox (S n) s)).
Proof. intros H C grad prox s n P. apply fb_x_feasible. exact P. Qed.
Print Assumptions C45_prox_points_feasible.

Theorem C45_unaccelerated_x_final_feasible :
  forall (H : ips) (C : H -> Prop) grad prox x0 ss bp s0, (forall y c, C (prox y c)) ->
  fb_init x0 ss bp 1 None (LCall None) = Ok s0 ->
  forall cost metric hm period n z, fb_iterate grad prox cost metric hm period n s0 = Ok z -> C z.
Proof.
  intros H C grad prox x0 ss bp s0 P Ei cost metric hm period n z E.
  destruct (fb_init_new x0 _ _ _ _ _ _ Ei) as (N0 & _).
  destruct (fb_iterate_ok grad prox cost metric hm period n s0 z N0 E) as (N & HN & ->).
  unfold fb_init in Ei. cbn [bind] in Ei. injection Ei as <-. destruct N as [|N]; [lia|]. apply fb_z_ista. exact P.
Qed.
Print Assumptions C45_unaccelerated_x_final_feasible.

Theorem C45_under_relaxed_x_final_feasible :
  forall (H : ips) (C : H -> Prop) grad prox x0 ss bp lp bu lu s0,
  (forall y c, C (prox y c)) -> (forall x y t, C x -> C y -> 0 <= t <= 1 -> C (x + t * (y - x))%v) -> C x0 ->
  fb_init x0 ss bp lp bu lu = Ok s0 -> (forall k, 0 <= fb_lambda (fb_after grad prox k s0) <= 1) ->
  forall cost metric hm period n z, fb_iterate grad prox cost metric hm period n s0 = Ok z -> C z.
Proof.
  intros H C grad prox x0 ss bp lp bu lu s0 P Cv C0 Ei L cost metric hm period n z E.
  destruct (fb_init_new x0 _ _ _ _ _ _ Ei) as (N0 & X0 & Z0 & _).
  destruct (fb_iterate_ok grad prox cost metric hm period n s0 z N0 E) as (N & HN & ->).
  apply (fb_z_feasible grad prox C N s0); auto; congruence.
Qed.
Print Assumptions C45_under_relaxed_x_final_feasible.

Example C45_example : exists s0 z, fb_init (H := R_ips) (5 / 2) (Some 1) 1 1 None (LCall None) = Ok s0 /\
  fb_iterate (H := R_ips) (fun _ => 1) (fun y _ => Rmax y 0) None (fun _ _ => []) false None 3 s0 = Ok z /\ z = 0.
Proof.
  exists (@mk_fb R_ips (5 / 2) (5 / 2) None 1 1 (RUser None None) 0). eexists. split; [unfold fb_init; cbn; destruct (Req_EM_T 1 0); [lra|]; reflexivity|].
  split; [apply (fb_iterate_plain (H := R_ips)); lia|]. unfold fb_after. cbn.
  repeat (match goal with |- context [Rmax ?a 0] => first [rewrite (Rmax_left a 0) by lra|rewrite (Rmax_right a 0) by lra] end). lra.
Qed.

(** C46 is false with the default lambda_update="fista": the user's beta_update is dropped. *)
Theorem C46_beta_update_used_refuted :
  exists (bu : nat -> R -> R) s0, fb_init (H := R_ips) 1 (Some 1) 1 1 (Some bu) (LFista default_fista_args) = Ok s0 /\
  forall grad prox n, fb_beta (fb_after grad prox n s0) = 1 /\ bu n 1 = / 2.
Proof.
  exists (fun _ b => b / 2). exists (@mk_fb R_ips 1 1 None 1 1 (RFista (no_restart (Regular 1 1 4) 1 1 0 0 0)) 0). split; [unfold fb_init; cbn; destruct (Req_EM_T 1 0); [lra|]; reflexivity|].
  intros grad prox n. split; [|lra].
  rewrite (fista_beta_constant grad prox _ n (no_restart (Regular 1 1 4) 1 1 0 0 0)); [reflexivity|reflexivity|discriminate|reflexivity].
Qed.
Print Assumptions C46_beta_update_used_refuted.

(** In general: with any FISTA settings but the greedy strategy the step never changes. *)
Theorem C46_fista_step_constant :
  forall (H : ips) grad prox (x0 : H) ss bp lp bu a s0, fb_init x0 ss bp lp bu (LFista a) = Ok s0 ->
  a_strategy a <> Some "greedy" -> forall n, fb_beta (fb_after grad prox n s0) = fb_beta s0.
Proof.
  intros H grad prox x0 ss bp lp bu a s0 Ei Ng n. destruct (fb_init_new x0 _ _ _ _ _ _ Ei) as (_ & _ & _ & _ & _ & _ & f & Ef & R).
  unfold fista_init in Ef. destruct (match a_acd a with None => _ | Some _ => _ end) as [m|]; cbn [bind] in Ef; [|discriminate].
  destruct (match a_strategy a with None => _ | Some _ => _ end); [|discriminate].
  destruct (check_restart_params _ _ _ _ _); cbn [bind] in Ef; [|discriminate]. injection Ef as <-.
  apply (fista_beta_constant grad prox s0 n _ R); [exact Ng|reflexivity].
Qed.
Print Assumptions C46_fista_step_constant.

Theorem C46_beta_update_used_without_fista :
  forall (H : ips) grad prox (x0 : H) ss bp lp bu lu s0, fb_init x0 ss bp lp (Some bu) (LCall lu) = Ok s0 ->
  forall n, fb_beta (fb_after grad prox (S n) s0) = bu n (fb_beta (fb_after grad prox n s0)).
Proof.
  intros H grad prox x0 ss bp lp bu lu s0 Ei n. destruct (fb_init_new x0 _ _ _ _ _ _ Ei) as (_ & _ & _ & _ & _ & C0 & R).
  destruct (fb_user_beta grad prox n s0 _ _ R) as [E _]. rewrite E, C0. reflexivity.
Qed.
Print Assumptions C46_beta_update_used_without_fista.

Example C46_example : exists s0, fb_init (H := R_ips) 1 (Some 1) 1 1 (Some (fun _ b => b / 2)) (LCall None) = Ok s0 /\
  fb_beta (fb_after (H := R_ips) (fun x => x) (fun y _ => y) 2 s0) = / 4.
Proof. exists (@mk_fb R_ips 1 1 None 1 1 (RUser (Some (fun _ b => b / 2)) None) 0). split; [unfold fb_init; cbn; destruct (Req_EM_T 1 0); [lra|]; reflexivity|]. cbn. lra. Qed.

(** C47 is false for these three algorithms: x_final is read from an attribute created by the first
    update. *)
Theorem C47_iterate_zero_raises_forward_backward :
  forall (H : ips) grad prox (x0 : H) ss bp lp bu lu s0, fb_init x0 ss bp lp bu lu = Ok s0 ->
  forall cost metric hm period, fb_iterate grad prox cost metric hm period 0 s0 = Err AttributeError.
Proof. intros. apply fb_iterate_0. eapply fb_init_new. eassumption. Qed.
Print Assumptions C47_iterate_zero_raises_forward_backward.

Theorem C47_iterate_zero_raises_gen_forward_backward :
  forall (H : ips) grad proxs (x0 : H) ss gp lp gu lu w s0, gfb_init proxs x0 ss gp lp gu lu w = Ok s0 ->
  forall cost metric hm period, gfb_iterate grad proxs cost metric hm period 0 s0 = Err AttributeError.
Proof.
  intros H grad proxs x0 ss gp lp gu lu w s0 E cost metric hm period. apply gfb_iterate_0.
  unfold gfb_init in E. destruct (gfb_weights _ _); cbn [bind] in E; [|discriminate]. injection E as <-. reflexivity.
Qed.
Print Assumptions C47_iterate_zero_raises_gen_forward_backward.

Theorem C47_iterate_zero_raises_pogm :
  forall (H : ips) grad prox (u x y z : H) ss bp sb s0, pogm_init grad u x y z ss bp sb = Ok s0 ->
  forall cost metric hm period, pogm_iterate grad prox cost metric hm period 0 s0 = Err AttributeError.
Proof. intros. apply pogm_iterate_0. eapply pogm_init_ok. eassumption. Qed.
Print Assumptions C47_iterate_zero_raises_pogm.
Theorem C47_iterate_zero_refuted :
  exists s0 s1, fb_init (H := R_ips) 7 (Some 1) 1 1 None (LFista default_fista_args) = Ok s0 /\
    pogm_init (H := R_ips) (fun _ => 0) 0 7 0 0 (Some 1) 1 1 = Ok s1 /\
    fb_iterate (H := R_ips) (fun _ => 0) (fun y _ => y) None (fun _ _ => []) false None 0 s0 = Err AttributeError /\
    pogm_iterate (H := R_ips) (fun _ => 0) (fun y _ => y) None (fun _ _ => []) false None 0 s1 = Err AttributeError.
Proof.
  assert (E0 : exists s0, fb_init (H := R_ips) 7 (Some 1) 1 1 None (LFista default_fista_args) = Ok s0).
  { eexists. unfold fb_init; cbn; destruct (Req_EM_T 1 0); [lra|]; reflexivity. }
  assert (E1 : exists s1, pogm_init (H := R_ips) (fun _ => 0) 0 7 0 0 (Some 1) 1 1 = Ok s1).
  { unfold pogm_init. destruct (Rlt_dec 1 0); [lra|]. destruct (Rgt_dec 1 1); [lra|]. eauto. }
  destruct E0 as (s0 & E0), E1 as (s1 & E1). exists s0, s1. split; [exact E0|]. split; [exact E1|].
  split; [eapply C47_iterate_zero_raises_forward_backward, E0|eapply C47_iterate_zero_raises_pogm, E1].
Qed.
Print Assumptions C47_iterate_zero_refuted.

Example C47_example : exists s0, fb_init (H := R_ips) 7 (Some 1) 1 1 None (LFista default_fista_args) = Ok s0 /\
  exists s1, pogm_init (H := R_ips) (fun _ => 0) 0 7 0 0 (Some 1) 1 1 = Ok s1.
Proof.
  eexists. split; [unfold fb_init; cbn; destruct (Req_EM_T 1 0); [lra|]; reflexivity|].
  unfold pogm_init. destruct (Rlt_dec 1 0); [lra|]. destruct (Rgt_dec 1 1); [lra|]. eauto.
Qed.

(** C48 *)
Theorem C48_estimate_is_weighted_mean :
  forall (H : ips) grad proxs (x0 : H) ss gp lp gu lu w s0, gfb_init proxs x0 ss gp lp gu lu w = Ok s0 ->
  forall n, let s := gfb_after grad proxs n s0 in
    g_x_old s = weighted_sum (g_weights s) (g_z s) /\ g_weights s = g_weights s0 /\ rsum (g_weights s) = 1 /\
    List.length (g_weights s) = List.length proxs /\ List.length (g_z s) = List.length proxs.
Proof.
  intros H grad proxs x0 ss gp lp gu lu w s0 E n s. destruct (gfb_invariant grad _ _ _ _ _ _ _ _ _ n E) as (A & B & C & D & F).
  fold s in A, B, F. rewrite <- B in C, D. auto.
Qed.
Print Assumptions C48_estimate_is_weighted_mean.

Theorem C48_fixed_points_minimise :
  forall (H : ips) (ts : list (term H)) (f : H -> R) grad (x0 : H) ss gp lp gu lu w s0,
  convex f -> is_gradient f grad -> Forall proper_term ts ->
  gfb_init (map t_prox ts) x0 ss gp lp gu lu w = Ok s0 -> Forall (fun w => 0 < w) (g_weights s0) ->
  forall n, let s := gfb_after grad (map t_prox ts) n s0 in
    0 < g_gamma s -> g_lambda s <> 0 ->
    g_z (gfb_update grad (map t_prox ts) s) = g_z s ->
    minimises (common_domain ts) (fun z => f z + sum_of_terms ts z) (g_x_old s).
Proof.
  intros H ts f grad x0 ss gp lp gu lu w s0 Cf Gf P E W n s Hg Hl Fx.
  destruct (gfb_invariant grad _ _ _ _ _ _ _ _ _ n E) as (A & B & C & D & F). fold s in A, B, F. rewrite map_length in C, F. rewrite <- B in C, D, W.
  apply (gfb_fixed grad ts f s); auto.
Qed.
Print Assumptions C48_fixed_points_minimise.

Theorem C48_single_operator_is_forward_backward :
  forall (H : ips) grad prox (x0 : H) gamma gp w s0, 0 < gamma ->
  gfb_init [prox] x0 (Some gamma) gp 1 None None w = Ok s0 ->
  forall n s1, fb_init x0 (Some gamma) gamma 1 None (LCall None) = Ok s1 ->
  g_x_old (gfb_after grad [prox] n s0) = fb_x_old (fb_after grad prox n s1).
Proof.
  intros H grad prox x0 gamma gp w s0 Hg E n s1 E1.
  unfold gfb_init in E. destruct (gfb_weights _ w) as [ws|] eqn:Ew; cbn [bind] in E; [|discriminate].
  rewrite step_or_pos in E by exact Hg. injection E as <-. apply gfb_weights_ok in Ew. destruct Ew as [L S1].
  destruct ws as [|w1 [|]]; try discriminate L. assert (w1 = 1) by (cbn in S1; lra). subst w1.
  unfold fb_init in E1. cbn [bind] in E1. rewrite step_or_pos in E1 by exact Hg. injection E1 as <-.
  set (s0 := mk_gfb _ _ _ _ _ _ _ _ _). set (s1 := mk_fb _ _ _ _ _ _ _).
  assert (I : let s := gfb_after grad [prox] n s0 in g_x_old s = fb_x_old (fb_after grad prox n s1) /\
     g_z s = [g_x_old s] /\ g_weights s = [1] /\ g_lambda s = 1 /\ g_gamma s = gamma /\ g_gamma_update s = None /\ g_lambda_update s = None); [|apply I].
  induction n as [|n (I1 & I2 & I3 & I4 & I5 & I6 & I7)]; [cbn; repeat split|].
  change (gfb_after grad [prox] (S n) s0) with (gfb_update grad [prox] (gfb_after grad [prox] n s0)). cbv zeta.
  destruct (gfb_single grad prox (gfb_after grad [prox] n s0) _ eq_refl I2 I3 I4) as [G1 G2].
  rewrite G2, G1. rewrite I5, I1.
  destruct (ista_steps grad prox gamma x0 n) as [_ Q]. fold s1 in Q. rewrite Q.
  split; [reflexivity|]. split; [reflexivity|]. unfold gfb_update. cbn [g_weights g_lambda g_gamma g_gamma_update g_lambda_update]. rewrite I6, I7. cbn [apply_update]. auto.
Qed.
Print Assumptions C48_single_operator_is_forward_backward.

(** Two operators |.|/... with weights 1/2: the estimate is the mean of the auxiliary variables. *)
Example C48_example : exists s0, gfb_init (H := R_ips) [softc; softc] 4 (Some 1) 1 1 None None (Some [/ 4; 3 / 4]) = Ok s0 /\
  g_z (gfb_after (H := R_ips) (fun _ => 0) [softc; softc] 1 s0) = [0; 8 / 3] /\
  g_x_old (gfb_after (H := R_ips) (fun _ => 0) [softc; softc] 1 s0) = 2.
Proof.
  eexists. split.
  - unfold gfb_init, gfb_weights. cbn [List.length Nat.eqb negb rsum fold_right]. destruct (Req_EM_T _ 1) as [_|N]; [|exfalso; apply N; lra].
    cbn [bind step_or]. destruct (Req_EM_T 1 0); [lra|]. reflexivity.
  - unfold gfb_after. cbn. unfold softc.
    split; repeat (destruct (Rle_dec _ _); try lra). all: try (f_equal; [lra|f_equal; lra]). all: lra.
Qed.

(** C49 is false in binary64: six (or seven) times 1/6 (1/7) does not add up to 1.0. *)
Theorem C49_default_weights_binary64 :
  gfb_weights_b64 6 = Err ValueError /\ gfb_weights_b64 7 = Err ValueError /\
  forall n, (1 <= n <= 5)%nat -> exists ws, gfb_weights_b64 n = Ok ws.
Proof.
  split; [vm_compute; reflexivity|]. split; [vm_compute; reflexivity|]. intros n Hn.
  assert (C : n = 1%nat \/ n = 2%nat \/ n = 3%nat \/ n = 4%nat \/ n = 5%nat) by lia.
  destruct C as [->|[->|[->|[->| ->]]]]; vm_compute; eexists; reflexivity.
Qed.
Print Assumptions C49_default_weights_binary64.
Theorem C49_default_weights_accepted_refuted : exists n, (1 <= n)%nat /\ gfb_weights_b64 n = Err ValueError.
Proof. exists 6%nat. split; [lia|]. apply C49_default_weights_binary64. Qed.
Print Assumptions C49_default_weights_accepted_refuted.

(** In exact arithmetic the default weights are accepted for every number of operators. *)
Theorem C49_default_weights_accepted_exactly :
  forall n, (1 <= n)%nat -> gfb_weights n None = Ok (repeat (1 / INR n) n).
Proof.
  intros n Hn. unfold gfb_weights. rewrite repeat_length, Nat.eqb_refl. cbn [negb].
  assert (E : forall m c, rsum (repeat c m) = INR m * c).
  { induction m as [|m IH]; intros c; [cbn; ring|]. cbn [repeat]. change (rsum (c :: repeat c m)) with (c + rsum (repeat c m)). rewrite IH, S_INR. ring. }
  rewrite E. destruct (Req_EM_T _ 1) as [_|N]; [reflexivity|]. exfalso. apply N. field. apply not_0_INR. lia.
Qed.
Print Assumptions C49_default_weights_accepted_exactly.

Example C49_example : gfb_weights 2 None = Ok [1 / INR 2; 1 / INR 2] /\ gfb_weights 2 (Some [1]) = Err ValueError.
Proof. split; [apply C49_default_weights_accepted_exactly; lia|reflexivity]. Qed.

(** C50 *)
Theorem C50_x_final_is_prox_output :
  forall (H : ips) grad prox (u x y z : H) ss bp sb s0, pogm_init grad u x y z ss bp sb = Ok s0 -> 0 < po_beta s0 ->
  forall cost metric hm period n xf, pogm_iterate grad prox cost metric hm period n s0 = Ok xf ->
  exists v c, 0 < c /\ xf = prox v c.
Proof.
  intros H grad prox u x y z ss bp sb s0 E Hb cost metric hm period n xf Ei.
  destruct (pogm_init_ok grad _ _ _ _ _ _ _ _ E) as (Ok0 & Sb & _ & _ & N0 & _).
  destruct (pogm_iterate_ok grad prox cost metric hm period n s0 xf N0 Ei) as (N & HN & ->). destruct N as [|N]; [lia|].
  destruct (pogm_after_ok grad prox s0 N Hb Sb Ok0) as (O1 & O2 & O3 & _).
  change (pogm_after grad prox (S N) s0) with (pogm_update grad prox (pogm_after grad prox N s0)).
  destruct (pogm_update_shape grad prox (pogm_after grad prox N s0)) as (P1 & _ & _ & P4 & _); [rewrite O2; exact Hb|rewrite O3; exact Sb|exact O1|].
  eexists. eexists. split; [|exact P4]. apply P1.
Qed.
Print Assumptions C50_x_final_is_prox_output.

Theorem C50_momentum_parameters_in_range :
  forall (H : ips) grad prox (u x y z : H) ss bp sb s0, pogm_init grad u x y z ss bp sb = Ok s0 -> 0 < po_beta s0 ->
  forall n, let s := pogm_after grad prox n s0 in
    1 <= po_t s /\ 0 <= po_sigma s <= 1 /\ 0 < po_xi s /\ (0 < sb -> 0 < po_sigma s).
Proof.
  intros H grad prox u x y z ss bp sb s0 E Hb n.
  destruct (pogm_init_ok grad _ _ _ _ _ _ _ _ E) as (Ok0 & Sb & _ & _ & _ & Sg & _).
  destruct (pogm_after_ok grad prox s0 n Hb Sb Ok0) as ((A1 & A2 & A3) & _ & _ & A4). cbv zeta.
  assert (Eb : po_sigma_bar s0 = sb).
  { unfold pogm_init in E. destruct (Rlt_dec sb 0); [discriminate|]. destruct (Rgt_dec sb 1); [discriminate|]. injection E as <-. reflexivity. }
  split; [exact A1|]. split; [exact A2|]. split; [exact A3|]. intros Hs. apply A4; [rewrite Eb; exact Hs|rewrite Sg; lra].
Qed.
Print Assumptions C50_momentum_parameters_in_range.

(** POGM stays at a minimiser, and its first update fixes only minimisers. *)
Theorem C50_minimisers_are_fixed :
  forall (H : ips) (D : H -> Prop) (f g : H -> R) grad prox (u x y z : H) ss bp sb s0,
  convex f -> is_gradient f grad -> convex_on D g -> prox_operator D g prox ->
  pogm_init grad u x y z ss bp sb = Ok s0 -> 0 < po_beta s0 ->
  (po_x (pogm_after grad prox 1 s0) = x <-> minimises D (fun v => f v + g v) x) /\
  (minimises D (fun v => f v + g v) x -> forall n, po_x (pogm_after grad prox n s0) = x).
Proof.
  intros H D f g grad prox u x y z ss bp sb s0 Cf Gf Cg Pg E Hb.
  destruct (pogm_init_ok grad _ _ _ _ _ _ _ _ E) as (Ok0 & Sb & _ & Ex & _ & _ & Et & _). rewrite <- Ex. split.
  - apply (pogm_first_fixed grad prox D f g s0); assumption.
  - intros M n. apply (pogm_minimiser grad prox D f g s0 n); assumption.
Qed.
Print Assumptions C50_minimisers_are_fixed.

(** The composite gradient of step n: y_new moves from x along it, y_(n+1) = x_n - beta q, with the
    gradient at the initial point before the first update. *)
Definition composite_gradient {H : ips} (grad : H -> H) prox (s0 : @pogm H) (n : nat) : H :=
  match n with
  | O => grad (po_x s0)
  | S m => (/ po_beta s0 * (po_x (pogm_after grad prox m s0) - po_y (pogm_after grad prox n s0)))%v
  end.

Lemma pogm_update_gradient {H : ips} (grad : H -> H) prox s : let s' := pogm_update grad prox s in
  po_y s' = ((- po_beta s) * (/ po_xi s' * (po_z s' - po_x s') + grad (po_x s)) + po_x s)%v /\
  po_g s' = (/ po_xi s' * (po_z s' - po_x s') + grad (po_x s))%v.
Proof.
  cbv zeta. unfold pogm_update. cbv zeta.
  repeat match goal with |- context [Rlt_dec ?u ?v] => destruct (Rlt_dec u v) end; cbn; split; reflexivity.
Qed.

(** It is the gradient of f at the old point plus a subgradient of g at the new point. *)
Theorem C50_composite_gradient :
  forall (H : ips) (D : H -> Prop) (g : H -> R) grad prox (u x y z : H) ss bp sb s0,
  convex_on D g -> prox_operator D g prox ->
  pogm_init grad u x y z ss bp sb = Ok s0 -> 0 < po_beta s0 ->
  forall n, subgradient D g (po_x (pogm_after grad prox (S n) s0))
    (composite_gradient grad prox s0 (S n) - grad (po_x (pogm_after grad prox n s0)))%v.
Proof.
  intros H D g grad prox u x y z ss bp sb s0 Cg Pg E Hb n.
  destruct (pogm_init_ok grad _ _ _ _ _ _ _ _ E) as (Ok0 & Sb & _).
  destruct (pogm_after_ok grad prox s0 n Hb Sb Ok0) as (O1 & O2 & O3 & _). cbn [composite_gradient].
  change (pogm_after grad prox (S n) s0) with (pogm_update grad prox (pogm_after grad prox n s0)).
  set (s := pogm_after grad prox n s0) in *.
  destruct (pogm_update_shape grad prox s) as (P1 & _ & _ & P4 & _); [rewrite O2; exact Hb|rewrite O3; exact Sb|exact O1|].
  destruct P1 as (_ & _ & Px).
  pose proof (prox_operator_vi D g prox Cg Pg (po_z (pogm_update grad prox s)) _ Px) as [Dx V]. rewrite <- P4 in Dx, V.
  assert (Q : (/ po_beta s0 * (po_x s - po_y (pogm_update grad prox s)) - grad (po_x s))%v
     = (/ po_xi (pogm_update grad prox s) * (po_z (pogm_update grad prox s) - po_x (pogm_update grad prox s)))%v).
  { rewrite <- O2. clear V P4 Dx Px. assert (Hs : po_beta s <> 0) by (rewrite O2; lra). clearbody s.
    destruct (pogm_update_gradient grad prox s) as [-> _]. generalize (/ po_xi (pogm_update grad prox s)). intros r. vfield. exact Hs. }
  rewrite Q. split; [exact Dx|]. intros w Dw. specialize (V w Dw). rewrite inner_scal_l.
  set (xi := po_xi (pogm_update grad prox s)) in *. clearbody xi.
  apply (Rmult_le_reg_l xi); [exact Px|]. rewrite Rmult_plus_distr_l, <- Rmult_assoc, Rinv_r, Rmult_1_l by lra. lra.
Qed.
Print Assumptions C50_composite_gradient.

(** The restart rule: the momentum is reset exactly when the composite gradient makes an acute angle
    with the last move, and sigma shrinks exactly when two successive gradients disagree. *)
Theorem C50_restart_rule :
  forall (H : ips) grad prox (u x y z : H) ss bp sb s0,
  pogm_init grad u x y z ss bp sb = Ok s0 -> 0 < po_beta s0 ->
  forall n, let s := pogm_after grad prox n s0 in let s' := pogm_after grad prox (S n) s0 in
  let q := composite_gradient grad prox s0 in
  (0 < inner (q (S n)) (po_y s' - po_y s)%v -> po_t s' = 1 /\ po_sigma s' = 1) /\
  (inner (q (S n)) (po_y s' - po_y s)%v <= 0 ->
     po_t s' = (1 + sqrt (1 + 4 * po_t s ^ 2)) / 2 /\
     (inner (q (S n)) (q n) < 0 -> po_sigma s' = po_sigma s * sb) /\
     (0 <= inner (q (S n)) (q n) -> po_sigma s' = po_sigma s)).
Proof.
  intros H grad prox u x y z ss bp sb s0 E Hb n s s' q.
  destruct (pogm_init_ok grad _ _ _ _ _ _ _ _ E) as (Ok0 & Sb & _).
  assert (Eb : po_sigma_bar s0 = sb).
  { unfold pogm_init in E. destruct (Rlt_dec sb 0); [discriminate|]. destruct (Rgt_dec sb 1); [discriminate|]. injection E as <-. reflexivity. }
  assert (Qg : forall m, q m = po_g (pogm_after grad prox m s0)).
  { intros [|m].
    - unfold q. cbn [composite_gradient]. unfold pogm_init in E. destruct (Rlt_dec sb 0); [discriminate|]. destruct (Rgt_dec sb 1); [discriminate|]. injection E as <-. reflexivity.
    - destruct (pogm_after_ok grad prox s0 m Hb Sb Ok0) as (_ & O2 & _). unfold q. cbn [composite_gradient].
      change (pogm_after grad prox (S m) s0) with (pogm_update grad prox (pogm_after grad prox m s0)). rewrite <- O2.
      set (r := pogm_after grad prox m s0) in *. assert (po_beta r <> 0) by (rewrite O2; lra). clearbody r.
      destruct (pogm_update_gradient grad prox r) as [-> ->]. generalize (/ po_xi (pogm_update grad prox r)). intros c. vfield. assumption. }
  rewrite !Qg. fold s s'. destruct (pogm_after_ok grad prox s0 n Hb Sb Ok0) as (_ & _ & O3 & _). fold s in O3.
  assert (Es : s' = pogm_update grad prox s) by reflexivity. clearbody s s'. subst s'. rewrite <- Eb, <- O3.
  unfold pogm_update. cbv zeta.
  match goal with |- context [Rlt_dec ?a 0] => destruct (Rlt_dec a 0) as [L|L] end; rewrite inner_scal_l in L.
  - cbn [po_t po_sigma po_y po_g]. split; [intros _; split; reflexivity|]. intros; lra.
  - match goal with |- context [Rlt_dec ?a 0] => destruct (Rlt_dec a 0) as [M|M] end; cbn [po_t po_sigma po_y po_g];
    (split; [intros; lra|]); intros _; (split; [field|]); split; intros; try reflexivity; lra.
Qed.
Print Assumptions C50_restart_rule.

(** sigma_bar = 0 makes sigma 0: the open bound of the claim needs sigma_bar > 0. *)
Example C50_example : exists s0, pogm_init (H := R_ips) (fun _ => 0) 0 7 0 0 (Some 1) 1 (/ 2) = Ok s0 /\
  po_x (pogm_after (H := R_ips) (fun _ => 0) (fun y c => Rmax y 0) 1 s0) = 7.
Proof.
  eexists. split; [unfold pogm_init; destruct (Rlt_dec (/ 2) 0); [lra|]; destruct (Rgt_dec (/ 2) 1); [lra|]; cbn [step_or]; destruct (Req_EM_T 1 0); [lra|]; reflexivity|].
  unfold pogm_after. cbn [Nat.iter nat_rect]. unfold pogm_update.
  repeat match goal with |- context [Rlt_dec ?a ?b] => destruct (Rlt_dec a b) end; cbn; rewrite Rmax_left; try lra; unfold Rdiv; lra.
Qed.
