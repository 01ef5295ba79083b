(** Proofs for C125. *)
From Coq Require Import String.
From Verif Require Import NPReal Py IPS Model_SetUp Model_FB Spec_Restart Proof_FB.
From Coq Require Import List Lia.
Import ListNotations.
Local Open Scope string_scope.
Local Open Scope R_scope.

Lemma count_total (P : nat -> Prop) (dec : forall n, {P n} + {~ P n}) n : exists k, count P n k.
Proof.
  induction n as [|n [k IH]]; [exists 0%nat; constructor|].
  destruct (dec n); [exists (S k)|exists k]; constructor; assumption.
Qed.
Lemma count_fun (P : nat -> Prop) n k k' : count P n k -> count P n k' -> k = k'.
Proof.
  intros A. revert k'. induction A; intros k' B; inversion B; subst; auto; try contradiction.
Qed.
Lemma count_le (P : nat -> Prop) n k : count P n k -> (k <= n)%nat.
Proof. induction 1; lia. Qed.

Section Run.
Context {H : ips}.
Variable grad : H -> H.
Variable prox : H -> R -> H.

(** What one update does, with the FISTA methods spelled out. *)
Lemma fista_step s f : fb_the_rule s = RFista f ->
  let x' := prox (fb_z_old s - fb_beta s * grad (fb_z_old s))%v (fb_beta s) in
  let '(f1, r) := is_restart f (fb_z_old s) x' (fb_x_old s) in
  let '(f2, l) := update_lambda f1 in
  let s' := fb_update grad prox s in
  fb_x_old s' = x' /\ fb_z_old s' = (if r : bool then x' else (fb_x_old s + fb_lambda s * (x' - fb_x_old s))%v) /\
  fb_beta s' = update_beta f1 (fb_beta s) /\ fb_lambda s' = l /\ fb_the_rule s' = RFista f2.
Proof.
  intros E x'. unfold fb_update. rewrite E. fold x'. destruct (is_restart f _ _ _) as [f1 r].
  destruct (update_lambda f1) as [f2 l]. cbn. repeat split; reflexivity.
Qed.

Variables (x0 : H) (step : option R) (bp lp : R) (bu : option (nat -> R -> R)) (a : fista_args) (s0 : @fb H).
Hypothesis E0 : fb_init x0 step bp lp bu (LFista a) = Ok s0.
Let x n := fb_x_old (fb_after grad prox n s0).
Let z n := fb_z_old (fb_after grad prox n s0).
Let beta n := fb_beta (fb_after grad prox n s0).
Let lam n := fb_lambda (fb_after grad prox n s0).

Lemma after_S n : fb_after grad prox (S n) s0 = fb_update grad prox (fb_after grad prox n s0).
Proof. reflexivity. Qed.

Lemma init_parts : exists f, fista_init a = Ok f /\ fb_the_rule s0 = RFista f /\ fb_x_old s0 = x0 /\ fb_z_old s0 = x0 /\
  fb_beta s0 = step_or step bp /\ fb_lambda s0 = lp.
Proof.
  pose proof E0 as E. unfold fb_init in E. destruct (fista_init a) as [f|e] eqn:F; cbn in E; [|discriminate].
  injection E as <-. exists f. cbn. repeat split; reflexivity.
Qed.

Lemma init_fista f : fista_init a = Ok f -> f_strategy f = a_strategy a /\ f_t_now f = 1 /\ f_delta0 f = None /\ f_safeguard f = false /\
  f_min_beta f = or0 (a_min_beta a) /\ f_s f = or0 (a_s a) /\ f_xi f = or0 (a_xi a) /\
  (a_strategy a <> None -> f_mode f = Regular (a_p a) (a_q a) (a_r a)).
Proof.
  unfold fista_init. intros E.
  destruct (a_acd a) as [acd|].
  - destruct (Rgt_dec acd 2); cbn [bind] in E; [|discriminate].
    destruct (match a_strategy a with None => true | Some s => existsb (String.eqb s) strategy_names end); [|discriminate].
    destruct (check_restart_params _ _ _ _ _) eqn:C in E; cbn in E; [|discriminate]. injection E as <-. cbn. repeat split; auto.
    intros N. exfalso. unfold check_restart_params in C. destruct (a_strategy a); [|contradiction]. cbn in C. discriminate C.
  - cbn [bind] in E. destruct (match a_strategy a with None => true | Some s => existsb (String.eqb s) strategy_names end); [|discriminate].
    destruct (check_restart_params _ _ _ _ _) eqn:C in E; cbn in E; [|discriminate]. injection E as <-. cbn. repeat split; auto.
Qed.

(** The rule is a FISTA object with the settings of the constructor, in every state. *)
Definition same_settings (f : fista) : Prop :=
  f_strategy f = a_strategy a /\ f_min_beta f = or0 (a_min_beta a) /\ f_s f = or0 (a_s a) /\ f_xi f = or0 (a_xi a).

Lemma rule_after n : exists f, fb_the_rule (fb_after grad prox n s0) = RFista f /\ same_settings f.
Proof.
  induction n as [|n [f [F St]]].
  - destruct init_parts as [f [I [J _]]]. exists f. split; [exact J|].
    destruct (init_fista f I) as (A1 & _ & _ & _ & A2 & A3 & A4 & _). repeat split; assumption.
  - rewrite after_S. pose proof (fista_step _ f F) as T. cbv zeta in T.
    destruct (is_restart f _ _ _) as [f1 r] eqn:Q. destruct (update_lambda f1) as [f2 l] eqn:U.
    destruct T as (_ & _ & _ & _ & T). exists f2. split; [exact T|].
    assert (S1 : same_settings f1).
    { unfold is_restart in Q. destruct St as (S1 & S2 & S3 & S4). unfold same_settings.
      destruct (f_strategy f) eqn:FS; [|injection Q as <- _; rewrite FS; auto].
      repeat match type of Q with context [if ?b then _ else _] => destruct b end;
        try destruct (f_delta0 _); injection Q as <- _; cbn; rewrite ?FS; auto. }
    unfold update_lambda in U. destruct S1 as (S1 & S2 & S3 & S4). unfold same_settings.
    destruct (match f_strategy f1 with Some _ => _ | None => _ end); [injection U as <- _; auto|].
    destruct (f_mode f1); injection U as <- _; cbn; auto.
Qed.

Lemma restart_bool f n : fb_the_rule (fb_after grad prox n s0) = RFista f -> f_strategy f <> None ->
  snd (is_restart f (z n) (x (S n)) (x n)) = true <-> turns_back x z n.
Proof.
  intros F N. unfold is_restart, turns_back. destruct (f_strategy f); [|contradiction]. cbn [snd].
  destruct (Rge_dec _ _) as [G|G]; split; intros; try lra; try reflexivity; try discriminate.
Qed.

Lemma x_S n : x (S n) = prox (z n - beta n * grad (z n))%v (beta n).
Proof. unfold x. rewrite after_S. apply fb_update_x. Qed.

Lemma run_ok : a_strategy a <> None -> restarted_run grad prox x0 beta lam x z.
Proof.
  intros N. destruct init_parts as (f0 & _ & _ & X & Z & _). constructor; try assumption.
  - exact x_S.
  - intros n T. destruct (rule_after n) as [f [F St]].
    pose proof (proj2 (restart_bool f n F ltac:(rewrite (proj1 St); exact N)) T) as R.
    pose proof (fista_step _ f F) as Q. cbv zeta in Q. rewrite x_S in R. fold (z n) (beta n) (x n) in Q.
    destruct (is_restart f _ _ _) as [f1 r]. cbn [snd] in R. subst r. destruct (update_lambda f1).
    destruct Q as (Q1 & Q2 & _). rewrite x_S. exact Q2.
  - intros n T. destruct (rule_after n) as [f [F St]].
    pose proof (proj1 (restart_bool f n F ltac:(rewrite (proj1 St); exact N))) as R.
    pose proof (fista_step _ f F) as Q. cbv zeta in Q. rewrite x_S in R. fold (z n) (beta n) (x n) (lam n) in Q.
    destruct (is_restart f _ _ _) as [f1 r]. cbn [snd] in R. destruct r; [exfalso; apply T, R; reflexivity|]. destruct (update_lambda f1).
    destruct Q as (Q1 & Q2 & _). rewrite x_S. exact Q2.
Qed.

Lemma plain_ok : a_strategy a = None -> plain_run grad prox x0 beta lam x z.
Proof.
  intros N. destruct init_parts as (f0 & _ & _ & X & Z & _). constructor; try assumption.
  - exact x_S.
  - intros n. destruct (rule_after n) as [f [F St]].
    pose proof (fista_step _ f F) as Q. cbv zeta in Q. fold (z n) (beta n) (x n) (lam n) in Q.
    unfold is_restart in Q. rewrite (proj1 St), N in Q. destruct (update_lambda f).
    destruct Q as (Q1 & Q2 & _). rewrite x_S. exact Q2.
Qed.

Definition turns_dec n : {turns_back x z n} + {~ turns_back x z n}.
Proof. unfold turns_back. apply Rle_dec. Defined.

(** * Adaptive strategies *)

Definition is_ii (name : string) : bool := (String.eqb name "adaptive-ii" || String.eqb name "adaptive-2")%bool.

Section Adaptive.
Variable name : string.
Hypothesis Sname : a_strategy a = Some name.
Hypothesis Pname : String.prefix "adaptive" name = true.

Lemma not_greedy : String.eqb name "greedy" = false.
Proof. destruct (String.eqb_spec name "greedy") as [->|]; [discriminate Pname|reflexivity]. Qed.

Let t n := match fb_the_rule (fb_after grad prox n s0) with RFista f => f_t_now f | _ => 0 end.

(** The state of the FISTA object after n updates. *)
Lemma adaptive_state n k : count (turns_back x z) n k ->
  exists f, fb_the_rule (fb_after grad prox n s0) = RFista f /\ same_settings f /\
    f_mode f = Regular (a_p a) (a_q a) (a_r a * or0 (a_xi a) ^ k) /\ f_safeguard f = false.
Proof.
  revert k. induction n as [|n IH]; intros k C.
  - inversion C; subst. destruct init_parts as [f [I [J _]]]. exists f. split; [exact J|].
    destruct (init_fista f I) as (A1 & _ & _ & A5 & A2 & A3 & A4 & A6). split; [repeat split; assumption|].
    split; [|exact A5]. rewrite A6 by congruence. cbn. rewrite Rmult_1_r. reflexivity.
  - destruct (count_total _ turns_dec n) as [k0 C0]. destruct (IH k0 C0) as (f & F & St & M & G).
    destruct (rule_after (S n)) as (f' & F' & S'). exists f'. split; [exact F'|]. split; [exact S'|].
    pose proof (restart_bool f n F ltac:(rewrite (proj1 St); congruence)) as R.
    pose proof (fista_step _ f F) as Q. cbv zeta in Q. rewrite x_S in R. fold (z n) (beta n) (x n) (lam n) in Q.
    unfold is_restart in R, Q. rewrite (proj1 St), Sname, Pname, not_greedy in R, Q. rewrite !Bool.andb_true_r in R, Q.
    cbn [snd] in R.
    set (c := if Rge_dec _ _ then true else false) in *.
    assert (K : k = if c then S k0 else k0).
    { apply (count_fun _ _ _ _ C). destruct c.
      - apply count_yes; [exact C0|]. apply R. reflexivity.
      - apply count_no; [exact C0|]. intros T. apply R in T. discriminate. }
    destruct St as (S1 & S2 & S3 & S4). rewrite after_S in F'.
    destruct c; cbn [andb] in Q; fold (is_ii name) in Q; [destruct (is_ii name)|];
      unfold update_lambda in Q; cbn [f_strategy f_mode f_t_now scale_r set_t_now] in Q; rewrite S1, Sname, not_greedy, M in Q;
      destruct Q as (_ & _ & _ & _ & Q); rewrite Q in F'; injection F' as <-; cbn; rewrite K, ?S4, G; split; auto; cbn [pow]; f_equal; ring.
Qed.

Lemma adaptive_ok : adaptive_momentum (a_p a) (a_q a) (a_r a) (or0 (a_xi a)) (is_ii name = true) x z t lam.
Proof.
  assert (M : forall n k, count (turns_back x z) (S n) k ->
    let t' := if (if turns_dec n then is_ii name else false) then 1 else t n in
    t (S n) = a_p a + sqrt (a_r a * or0 (a_xi a) ^ k * t' ^ 2 + a_q a) / 2 /\ lam (S n) = 1 + (t' - 1) / t (S n)).
  { intros n k C t'.
    destruct (count_total _ turns_dec n) as [k0 C0]. destruct (adaptive_state n k0 C0) as (f & F & St & M & G).
    destruct (adaptive_state (S n) k C) as (f' & F' & S' & M' & G').
    pose proof (restart_bool f n F ltac:(rewrite (proj1 St); congruence)) as R.
    pose proof (fista_step _ f F) as Q. cbv zeta in Q. rewrite x_S in R. fold (z n) (beta n) (x n) (lam n) in Q.
    unfold is_restart in R, Q. rewrite (proj1 St), Sname, Pname, not_greedy in R, Q. rewrite !Bool.andb_true_r in R, Q.
    cbn [snd] in R.
    set (c := if Rge_dec _ _ then true else false) in *.
    destruct St as (S1 & S2 & S3 & S4). unfold lam.
    assert (Tn : t n = f_t_now f) by (unfold t; rewrite F; reflexivity).
    assert (TSn : t (S n) = f_t_now f') by (unfold t; rewrite F'; reflexivity).
    rewrite TSn. rewrite after_S in F' |- *.
    assert (Et : t' = if (c && is_ii name)%bool then 1 else f_t_now f).
    { unfold t'. rewrite Tn. destruct (turns_dec n) as [T|T]; destruct c; try reflexivity.
      - apply R in T. discriminate.
      - exfalso. apply T, R. reflexivity. }
    rewrite Et. clear Et t' Tn TSn.
    destruct c; cbn [andb] in Q; fold (is_ii name) in Q; [destruct (is_ii name)|]; cbn [andb];
      unfold update_lambda in Q; cbn [f_strategy f_mode f_t_now scale_r set_t_now] in Q; rewrite S1, Sname, not_greedy, M in Q;
      destruct Q as (_ & _ & _ & Ql & Q); rewrite Q in F'; injection F' as <-; cbn in M' |- *; injection M' as M'; rewrite Ql, <- M';
      split; try reflexivity; try (unfold Rdiv; reflexivity). }
  constructor.
  - unfold t. destruct init_parts as (f0 & I & J & _). change (fb_after grad prox 0 s0) with s0. rewrite J.
    apply (init_fista f0 I).
  - intros n k N C. destruct (M n k C) as [M1 M2]. destruct (turns_dec n) as [T|T]; [|split; assumption].
    destruct (is_ii name) eqn:I; [exfalso; apply N; split; [reflexivity|exact T]|split; assumption].
  - intros n k I T C. destruct (M n k C) as [M1 M2]. destruct (turns_dec n) as [T'|T']; [|contradiction].
    rewrite I in M1, M2. rewrite M1, M2. split; [do 3 f_equal; ring|]. unfold Rdiv. ring.
Qed.

(** The step size does not change. *)
Lemma adaptive_beta n : beta n = step_or step bp.
Proof.
  induction n as [|n IH]; [destruct init_parts as (f0 & I); apply I|].
  destruct (count_total _ turns_dec n) as [k0 C0]. destruct (adaptive_state n k0 C0) as (f & F & St & M & G).
  destruct St as (S1 & S2 & S3 & S4).
  pose proof (fista_step _ f F) as Q. cbv zeta in Q. unfold is_restart in Q. rewrite S1, Sname, not_greedy in Q.
  fold (z n) (beta n) (x n) in Q. unfold beta at 1. rewrite after_S.
  repeat match type of Q with context [if ?b then _ else f] => destruct b end;
  repeat match type of Q with context [if ?b then set_t_now _ _ else _] => destruct b end;
  destruct (update_lambda _) in Q; destruct Q as (_ & _ & Q & _); rewrite Q; unfold update_beta; cbn; rewrite G; exact IH.
Qed.
End Adaptive.

(** * Greedy strategy *)

Section Greedy.
Hypothesis Sname : a_strategy a = Some "greedy".
Let s := or0 (a_s a).
Let xi := or0 (a_xi a).
Let mb := or0 (a_min_beta a).

Lemma greedy_state n : exists f, fb_the_rule (fb_after grad prox n s0) = RFista f /\ same_settings f /\
  match n with
  | O => f_delta0 f = None /\ f_safeguard f = false
  | S m => f_delta0 f = Some (s * norm (x 1%nat - x 0%nat)%v) /\ (f_safeguard f = true <-> too_long s x m) /\ lam n = 2 /\
      beta n = update_beta f (beta m)
  end.
Proof.
  induction n as [|n (f & F & St & D)].
  - destruct init_parts as [f [I [J _]]]. exists f. split; [exact J|].
    destruct (init_fista f I) as (A1 & _ & A6 & A5 & A2 & A3 & A4 & _). repeat split; assumption.
  - destruct (rule_after (S n)) as (f' & F' & S'). exists f'. split; [exact F'|]. split; [exact S'|].
    pose proof (fista_step _ f F) as Q. cbv zeta in Q. fold (z n) (beta n) (x n) (lam n) in Q. rewrite <- x_S in Q.
    unfold is_restart in Q. rewrite (proj1 St), Sname in Q. cbn [String.prefix] in Q.
    change (String.eqb "greedy" "adaptive-ii") with false in Q. change (String.eqb "greedy" "adaptive-2") with false in Q.
    change (String.eqb "greedy" "greedy") with true in Q. cbn [orb] in Q. rewrite !Bool.andb_false_r in Q.
    unfold lam, beta. rewrite after_S in *. destruct St as (S1 & S2 & S3 & S4). unfold update_lambda in Q.
    change (String.prefix "adaptive" "greedy") with false in Q. rewrite ?Bool.andb_false_r in Q.
    destruct n as [|m].
    + destruct D as [D1 D2]. rewrite D1 in Q. cbn [f_strategy set_greedy] in Q. rewrite S1, Sname in Q.
      change (String.eqb "greedy" "greedy") with true in Q. cbn iota in Q.
      destruct Q as (_ & _ & Qb & Ql & Q). rewrite Q in F'. injection F' as <-. cbn [f_delta0 f_safeguard set_greedy].
      split; [rewrite S3; reflexivity|]. rewrite D2 in Qb |- *. split; [split; [discriminate|intros []]|]. split; [exact Ql|exact Qb].
    + destruct D as [D1 _]. rewrite D1 in Q. cbn [f_strategy set_greedy] in Q. rewrite S1, Sname in Q.
      change (String.eqb "greedy" "greedy") with true in Q. cbn iota in Q.
      destruct Q as (_ & _ & Qb & Ql & Q). rewrite Q in F'. injection F' as <-. cbn [f_delta0 f_safeguard set_greedy].
      split; [reflexivity|]. split; [|split; [exact Ql|exact Qb]]. unfold too_long.
      destruct (Rge_dec _ _); split; intros; try lra; try reflexivity; try discriminate.
Qed.

Lemma greedy_lambda n : lam (S n) = 2.
Proof. destruct (greedy_state (S n)) as (f & _ & _ & _ & _ & L & _). exact L. Qed.

Lemma greedy_ok : greedy_steps s xi mb (step_or step bp) x beta.
Proof.
  constructor.
  - destruct init_parts as (f0 & I). apply I.
  - intros n T. destruct (greedy_state (S n)) as (f & _ & (_ & S2 & _ & S4) & _ & G & _ & B). rewrite B. unfold update_beta.
    rewrite (proj2 G T), S2, S4. fold xi mb. unfold Rmax. destruct (Rle_dec _ _); split; intros; lra.
  - intros n T. destruct (greedy_state (S n)) as (f & _ & _ & _ & G & _ & B). rewrite B. unfold update_beta.
    destruct (f_safeguard f); [exfalso; apply T, G; reflexivity|reflexivity].
Qed.
End Greedy.
End Run.

(** * Consequences of the specification *)

Lemma sqrt_add_le u v : 0 <= u -> 0 <= v -> sqrt (u * u + v) <= u + sqrt v.
Proof.
  intros Hu Hv. pose proof (sqrt_pos v). apply Rsqr_incr_0_var; [|lra]. rewrite Rsqr_sqrt by nra.
  unfold Rsqr. pose proof (sqrt_sqrt v Hv). nra.
Qed.

Lemma sqrt_lip u v q : 0 <= u -> 0 <= v -> 0 <= q -> u <= v -> sqrt (v * v + q) - sqrt (u * u + q) <= v - u.
Proof.
  intros Hu Hv Hq Huv.
  assert (A : sqrt (u * u + q) >= u).
  { pose proof (sqrt_le_1 (u * u) (u * u + q) ltac:(nra) ltac:(nra) ltac:(lra)) as P. rewrite sqrt_square in P by lra. lra. }
  cut (sqrt (v * v + q) <= sqrt (u * u + q) + (v - u)); [lra|].
  apply Rsqr_incr_0_var; [|lra]. rewrite Rsqr_sqrt by nra. unfold Rsqr.
  pose proof (sqrt_sqrt (u * u + q) ltac:(nra)). nra.
Qed.

(** The recursion of t with a factor below 4 is a contraction. *)
Section Contraction.
Variables (p q c : R) (t : nat -> R) (N : nat).
Hypothesis Hp : 0 < p.
Hypothesis Hq : 0 <= q.
Hypothesis Hc : 0 <= c < 1.
Hypothesis HtN : 0 <= t N.
Hypothesis Ht : forall n, (N <= n)%nat -> t (S n) = p + sqrt (4 * (c * c) * t n ^ 2 + q) / 2.

Lemma t_form n : (N <= n)%nat -> t (S n) = p + sqrt (2 * c * t n * (2 * c * t n) + q) / 2.
Proof. intros L. rewrite (Ht n L). do 3 f_equal. ring. Qed.

Lemma t_nonneg n : (N <= n)%nat -> 0 <= t n.
Proof.
  intros L. destruct (Nat.eq_dec n N) as [->|D]; [exact HtN|]. destruct n as [|n]; [lia|]. rewrite (t_form n) by lia.
  pose proof (sqrt_pos (2 * c * t n * (2 * c * t n) + q)). lra.
Qed.

Lemma t_S_pos n : (N <= n)%nat -> p <= t (S n).
Proof. intros L. rewrite (t_form n L). pose proof (sqrt_pos (2 * c * t n * (2 * c * t n) + q)). lra. Qed.

Lemma t_bounded : exists T, 0 < T /\ forall n, (N <= n)%nat -> t n <= T.
Proof.
  set (B := (p + sqrt q / 2) / (1 - c)). exists (Rmax (t N) B). pose proof (sqrt_pos q) as Hs.
  assert (HB : 0 < B) by (apply Rdiv_lt_0_compat; lra).
  split; [pose proof (Rmax_r (t N) B); lra|]. intros n L.
  induction n as [|n IH]; [replace N with 0%nat by lia; apply Rmax_l|].
  destruct (Nat.eq_dec (S n) N) as [->|D]; [apply Rmax_l|]. specialize (IH ltac:(lia)). rewrite (t_form n) by lia.
  pose proof (t_nonneg n ltac:(lia)) as Hn. pose proof (sqrt_add_le (2 * c * t n) q ltac:(nra) Hq) as Q.
  set (M := Rmax (t N) B) in *. assert (HM : B <= M) by apply Rmax_r.
  assert (p + sqrt q / 2 <= (1 - c) * M).
  { replace (p + sqrt q / 2) with ((1 - c) * B) by (unfold B; field; lra). apply Rmult_le_compat_l; lra. }
  nra.
Qed.

Lemma t_step n : (N <= n)%nat -> Rabs (t (S (S n)) - t (S n)) <= c * Rabs (t (S n) - t n).
Proof.
  intros L. rewrite (t_form (S n)) by lia. pose proof (t_nonneg n L) as H1. pose proof (t_nonneg (S n) ltac:(lia)) as H2.
  rewrite (t_form n L) at 3. remember (t (S n)) as v eqn:Ev. remember (t n) as u eqn:Eu. clear Ev Eu.
  replace (p + sqrt (2 * c * v * (2 * c * v) + q) / 2 - (p + sqrt (2 * c * u * (2 * c * u) + q) / 2)) with
    ((sqrt (2 * c * v * (2 * c * v) + q) - sqrt (2 * c * u * (2 * c * u) + q)) / 2) by field.
  destruct (Rle_dec u v) as [D|D].
  - pose proof (sqrt_lip (2 * c * u) (2 * c * v) q ltac:(nra) ltac:(nra) Hq ltac:(nra)) as Q.
    pose proof (sqrt_le_1 (2 * c * u * (2 * c * u) + q) (2 * c * v * (2 * c * v) + q) ltac:(nra) ltac:(nra)) as M.
    assert (2 * c * u * (2 * c * u) <= 2 * c * v * (2 * c * v)) by (apply Rmult_le_compat; nra).
    specialize (M ltac:(lra)). rewrite !Rabs_pos_eq by lra. lra.
  - pose proof (sqrt_lip (2 * c * v) (2 * c * u) q ltac:(nra) ltac:(nra) Hq ltac:(nra)) as Q.
    pose proof (sqrt_le_1 (2 * c * v * (2 * c * v) + q) (2 * c * u * (2 * c * u) + q) ltac:(nra) ltac:(nra)) as M.
    assert (2 * c * v * (2 * c * v) <= 2 * c * u * (2 * c * u)) by (apply Rmult_le_compat; nra).
    specialize (M ltac:(lra)). rewrite (Rabs_left1 (v - u)) by lra. rewrite Rabs_left1 by lra. lra.
Qed.

Lemma t_cauchy k : Rabs (t (S (N + k)) - t (N + k)%nat) <= c ^ k * Rabs (t (S N) - t N).
Proof.
  induction k as [|k IH]; [rewrite Nat.add_0_r; cbn; lra|]. rewrite Nat.add_succ_r.
  pose proof (t_step (N + k) ltac:(lia)) as Q. cbn [pow]. rewrite Rmult_assoc.
  apply (Rle_trans _ _ _ Q). apply Rmult_le_compat_l; lra.
Qed.

Lemma relaxation_capped : exists M b, b < 2 /\ forall n, (M <= n)%nat -> 1 + (t n - 1) / t (S n) <= b.
Proof.
  destruct t_bounded as (T & HT & B).
  assert (D : exists K, forall k, (K <= k)%nat -> c ^ k * Rabs (t (S N) - t N) < / 2).
  { set (A := Rabs (t (S N) - t N)). assert (HA : 0 <= A) by apply Rabs_pos.
    destruct (pow_lt_1_zero c ltac:(rewrite Rabs_pos_eq; lra) (/ 2 / (A + 1)) ltac:(apply Rdiv_lt_0_compat; lra)) as [K HK].
    exists K. intros k L. specialize (HK k L). rewrite Rabs_pos_eq in HK by (apply pow_le; lra).
    assert (c ^ k * (A + 1) < / 2).
    { apply (Rmult_lt_compat_r (A + 1)) in HK; [|lra]. replace (/ 2 / (A + 1) * (A + 1)) with (/ 2) in HK by (field; lra). exact HK. }
    pose proof (pow_le c k ltac:(lra)). nra. }
  destruct D as [K HK]. exists (N + K)%nat, (2 - / (2 * T)). split; [pose proof (Rinv_0_lt_compat (2 * T) ltac:(lra)); lra|].
  intros n L. set (k := (n - N)%nat). assert (En : n = (N + k)%nat) by (unfold k; lia).
  pose proof (HK k ltac:(unfold k; lia)) as Q1. pose proof (t_cauchy k) as Q2. rewrite <- En in Q2.
  pose proof (t_S_pos n ltac:(lia)) as P1. pose proof (B (S n) ltac:(lia)) as P2.
  assert (Q3 : t n - t (S n) < / 2). { pose proof (Rle_abs (- (t (S n) - t n))) as Z. rewrite Rabs_Ropp in Z. lra. }
  assert (Q4 : (t n - 1) / t (S n) <= 1 - / (2 * t (S n))).
  { apply (Rmult_le_reg_r (t (S n))); [lra|]. replace ((t n - 1) / t (S n) * t (S n)) with (t n - 1) by (field; lra).
    replace ((1 - / (2 * t (S n))) * t (S n)) with (t (S n) - / 2) by (field; lra). lra. }
  assert (Q5 : / (2 * T) <= / (2 * t (S n))) by (apply Rinv_le_contravar; lra). lra.
Qed.
End Contraction.

Section Consequences.
Context {H : ips}.
Variables (x z : nat -> H) (t lam : nat -> R) (p q r xi : R) (reset : Prop).
Hypothesis A : adaptive_momentum p q r xi reset x z t lam.

Lemma turns_dec' n : {turns_back x z n} + {~ turns_back x z n}.
Proof. apply Rle_dec. Defined.

Lemma momentum_nonneg : 0 < p -> forall n, 0 < t n.
Proof.
  intros Hp n. destruct n as [|n]; [rewrite (am_t0 _ _ _ _ _ _ _ _ _ A); lra|].
  destruct (count_total _ turns_dec' (S n)) as [k C].
  destruct (Rlt_dec 0 (t (S n))) as [P|P]; [exact P|].
  destruct (am_keep _ _ _ _ _ _ _ _ _ A n k) as [-> _]; [|exact C|pose proof (sqrt_pos (r * xi ^ k * t n ^ 2 + q)); lra].
  intros [R T]. apply P. destruct (am_reset _ _ _ _ _ _ _ _ _ A n k R T C) as [-> _]. pose proof (sqrt_pos (r * xi ^ k + q)). lra.
Qed.

(** After the last restart, if there has been one, the relaxation stays away from 2. *)
Lemma capped N k : 0 < p -> 0 <= q -> 0 <= r <= 4 -> 0 <= xi < 1 -> (1 <= k)%nat -> (forall n, (N <= n)%nat -> count (turns_back x z) n k) ->
  exists M b, b < 2 /\ forall n, (M <= n)%nat -> lam n <= b.
Proof.
  intros Hp Hq Hr Hxi Hk C.
  assert (NT : forall n, (N <= n)%nat -> ~ turns_back x z n).
  { intros n L T. pose proof (C n L) as C1. pose proof (C (S n) ltac:(lia)) as C2.
    pose proof (count_fun _ _ _ _ C2 (count_yes _ _ _ C1 T)). lia. }
  assert (Hk1 : 0 <= xi ^ k < 1).
  { split; [apply pow_le; lra|]. destruct k as [|k']; [lia|]. cbn [pow]. pose proof (pow_le xi k' ltac:(lra)).
    pose proof (pow_incr xi 1 k' ltac:(lra)) as P. rewrite pow1 in P. nra. }
  set (rho := r * xi ^ k). assert (Hrho : 0 <= rho < 4) by (unfold rho; nra).
  set (c := sqrt (rho / 4)). assert (Hcc : c * c = rho / 4) by (apply sqrt_sqrt; lra).
  assert (Hc : 0 <= c < 1). { pose proof (sqrt_pos (rho / 4)) as P. fold c in P. split; [lra|]. nra. }
  assert (Rec : forall n, (N <= n)%nat -> t (S n) = p + sqrt (4 * (c * c) * t n ^ 2 + q) / 2).
  { intros n L. destruct (am_keep _ _ _ _ _ _ _ _ _ A n k) as [E _]; [intros [_ T]; exact (NT n L T)|apply C; lia|].
    rewrite E, Hcc. do 3 f_equal. unfold rho. field. }
  destruct (relaxation_capped p q c t N Hp Hq Hc (Rlt_le _ _ (momentum_nonneg Hp N)) Rec) as (M & b & Hb & B).
  exists (S (Nat.max M N)), b. split; [exact Hb|]. intros n L. destruct n as [|n]; [lia|].
  destruct (am_keep _ _ _ _ _ _ _ _ _ A n k) as [_ E]; [intros [_ T]; apply (NT n); [lia|exact T]|apply C; lia|].
  rewrite E. apply B. lia.
Qed.

(** Before the first restart t grows, so a late first restart over-relaxes. *)
Lemma over_relaxed n : ~ reset -> 0 < p <= 1 -> 0 <= q <= 1 -> r = 4 -> 0 <= xi < 1 ->
  (forall m, (m < n)%nat -> ~ turns_back x z m) -> turns_back x z n -> 5 / 2 < (1 + INR n * p) * (1 - sqrt xi) -> 2 < lam (S n).
Proof.
  intros NR Hp Hq Hr Hxi NT T L.
  assert (C0 : forall m, (m <= n)%nat -> count (turns_back x z) m 0).
  { induction m as [|m IH]; intros Lm; [constructor|]. apply count_no; [apply IH; lia|apply NT; lia]. }
  assert (G : forall m, (m <= n)%nat -> 1 + INR m * p <= t m).
  { induction m as [|m IH]; intros Lm; [rewrite (am_t0 _ _ _ _ _ _ _ _ _ A); cbn; lra|].
    destruct (am_keep _ _ _ _ _ _ _ _ _ A m 0) as [E _]; [tauto|apply C0; lia|]. specialize (IH ltac:(lia)).
    rewrite E, S_INR. cbn [pow]. rewrite Hr. pose proof (pos_INR m).
    replace (4 * 1 * (t m * (t m * 1)) + q) with ((2 * t m) * (2 * t m) + q) by ring.
    pose proof (sqrt_le_1 ((2 * t m) * (2 * t m)) ((2 * t m) * (2 * t m) + q) ltac:(nra) ltac:(nra) ltac:(lra)) as P.
    rewrite sqrt_square in P by nra. lra. }
  specialize (G n ltac:(lia)).
  destruct (am_keep _ _ _ _ _ _ _ _ _ A n 1) as [E1 E2]; [tauto|apply count_yes; [apply C0; lia|exact T]|].
  rewrite E2. pose proof (pos_INR n).
  assert (Hs : 0 <= sqrt xi) by apply sqrt_pos. pose proof (sqrt_sqrt xi ltac:(lra)) as Hss.
  assert (U : t (S n) <= 3 / 2 + sqrt xi * t n).
  { rewrite E1, Hr. replace (4 * xi ^ 1 * t n ^ 2 + q) with ((2 * sqrt xi * t n) * (2 * sqrt xi * t n) + q).
    - assert (Htn : 0 <= t n) by nra.
      pose proof (sqrt_add_le (2 * sqrt xi * t n) q ltac:(apply Rmult_le_pos; lra) ltac:(lra)) as P.
      assert (sqrt q <= 1). { pose proof (sqrt_le_1 q 1 ltac:(lra) ltac:(lra) ltac:(lra)) as W. rewrite sqrt_1 in W. exact W. } lra.
    - replace (xi ^ 1) with (sqrt xi * sqrt xi) by (rewrite Hss; ring). ring. }
  assert (Pt : 0 < t (S n)). { rewrite E1. pose proof (sqrt_pos (r * xi ^ 1 * t n ^ 2 + q)). lra. }
  assert (S1 : 0 < 1 - sqrt xi) by nra.
  assert (t (S n) < t n - 1) by nra.
  assert (1 < (t n - 1) / t (S n)); [|lra]. apply (Rmult_lt_reg_r (t (S n))); [exact Pt|].
  replace ((t n - 1) / t (S n) * t (S n)) with (t n - 1) by (field; lra). lra.
Qed.
End Consequences.

(** Greedy step sizes. *)
Lemma greedy_closed_form {H : ips} s xi mb b0 (x : nat -> H) beta : greedy_steps s xi mb b0 x beta -> 0 <= xi <= 1 -> 0 <= mb <= b0 ->
  forall n k, count (too_long s x) n k -> beta n = Rmax (b0 * xi ^ k) mb.
Proof.
  intros G Hxi Hb. induction n as [|n IH]; intros k C; inversion C; subst.
  - rewrite (gs_0 _ _ _ _ _ _ G). cbn. rewrite Rmult_1_r, Rmax_left by lra. reflexivity.
  - match goal with C0 : count _ n ?j |- _ => specialize (IH j C0); pose proof (pow_le xi j (proj1 Hxi)) as P; set (y := xi ^ j) in * end.
    cbn [pow]. fold y. destruct (gs_long _ _ _ _ _ _ G n ltac:(assumption)) as [G1 G2].
    destruct (Rle_dec mb (beta n * xi)) as [D|D].
    + rewrite G1 by exact D. rewrite IH in D |- *. unfold Rmax in *. destruct (Rle_dec (b0 * y) mb), (Rle_dec (b0 * (xi * y)) mb); nra.
    + rewrite G2 by lra. rewrite IH in D. unfold Rmax in *. destruct (Rle_dec (b0 * y) mb), (Rle_dec (b0 * (xi * y)) mb); nra.
  - rewrite (gs_short _ _ _ _ _ _ G n) by assumption. apply IH. assumption.
Qed.

Lemma too_long_dec {H : ips} s (x : nat -> H) n : {too_long s x n} + {~ too_long s x n}.
Proof. destruct n; cbn; [right; tauto|apply Rle_dec]. Defined.

(** The equations determine the run. *)
Section Unique.
Context {H : ips}.
Variables (grad : H -> H) (prox : H -> R -> H) (x0 : H) (b : R) (p q r xi : R) (reset : Prop).
Variables (x z x' z' : nat -> H) (t lam t' lam' : nat -> R) (beta beta' : nat -> R).
Hypothesis R1 : restarted_run grad prox x0 beta lam x z.
Hypothesis R2 : restarted_run grad prox x0 beta' lam' x' z'.
Hypothesis A1 : adaptive_momentum p q r xi reset x z t lam.
Hypothesis A2 : adaptive_momentum p q r xi reset x' z' t' lam'.
Hypothesis B1 : forall n, beta n = b.
Hypothesis B2 : forall n, beta' n = b.
Hypothesis L0 : lam 0%nat = lam' 0%nat.
Hypothesis rdec : {reset} + {~ reset}.

Lemma unique n : (x n = x' n /\ z n = z' n /\ lam n = lam' n /\ t n = t' n) /\ forall k, count (turns_back x z) n k -> count (turns_back x' z') n k.
Proof.
  induction n as [|n ((Ex & Ez & El & Et) & Ec)].
  - split; [|intros k C; inversion C; constructor].
    rewrite (rr_x0 _ _ _ _ _ _ _ R1), (rr_x0 _ _ _ _ _ _ _ R2), (rr_z0 _ _ _ _ _ _ _ R1), (rr_z0 _ _ _ _ _ _ _ R2),
      (am_t0 _ _ _ _ _ _ _ _ _ A1), (am_t0 _ _ _ _ _ _ _ _ _ A2). auto.
  - assert (Ex1 : x (S n) = x' (S n)).
    { rewrite (rr_step _ _ _ _ _ _ _ R1), (rr_step _ _ _ _ _ _ _ R2), B1, B2, Ez. reflexivity. }
    assert (Tb : turns_back x z n <-> turns_back x' z' n) by (unfold turns_back; rewrite Ex, Ez, Ex1; tauto).
    assert (Ec1 : forall k, count (turns_back x z) (S n) k -> count (turns_back x' z') (S n) k).
    { intros k C. inversion C; subst; [apply count_yes|apply count_no]; try apply Ec; try assumption; tauto. }
    split; [|exact Ec1]. split; [exact Ex1|]. destruct (count_total _ (turns_dec' x z) (S n)) as [k C].
    assert (Ez1 : z (S n) = z' (S n)).
    { destruct (turns_dec' x z n) as [T|T].
      - rewrite (rr_restart _ _ _ _ _ _ _ R1 n T), (rr_restart _ _ _ _ _ _ _ R2 n (proj1 Tb T)). exact Ex1.
      - rewrite (rr_momentum _ _ _ _ _ _ _ R1 n T), (rr_momentum _ _ _ _ _ _ _ R2 n ltac:(tauto)). rewrite Ex, Ex1, El. reflexivity. }
    split; [exact Ez1|].
    assert (D : {reset /\ turns_back x z n} + {~ (reset /\ turns_back x z n)}) by (destruct rdec, (turns_dec' x z n); tauto).
    destruct D as [[R T]|N].
    + destruct (am_reset _ _ _ _ _ _ _ _ _ A1 n k R T C) as [-> ->].
      destruct (am_reset _ _ _ _ _ _ _ _ _ A2 n k R (proj1 Tb T) (Ec1 k C)) as [-> ->]. auto.
    + destruct (am_keep _ _ _ _ _ _ _ _ _ A1 n k N C) as [E1 E2].
      destruct (am_keep _ _ _ _ _ _ _ _ _ A2 n k ltac:(tauto) (Ec1 k C)) as [E3 E4].
      assert (t (S n) = t' (S n)) by (rewrite E1, E3, Et; reflexivity). split; [|assumption]. rewrite E2, E4, Et. congruence.
Qed.
End Unique.
