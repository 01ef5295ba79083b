(** Property theorems C125: restart strategies of ForwardBackward with lambda_update="fista".
    [xs n], [zs n], [bs n] and [ls n] are the attributes _x_old, _z_old, _beta and _lambda after n
    updates. *)
From Coq Require Import String.
From Verif Require Import NPReal Py IPS Model_SetUp Spec_Opt Model_FB Spec_Restart Proof_FB Proof_Restart.
From Coq Require Import List Lia.
Import ListNotations.
Local Open Scope string_scope.
Local Open Scope R_scope.

Section Sequences.
Context {H : ips}.
Variables (grad : H -> H) (prox : H -> R -> H) (s : @fb H).
Definition xs (n : nat) : H := fb_x_old (fb_after grad prox n s).
Definition zs (n : nat) : H := fb_z_old (fb_after grad prox n s).
Definition bs (n : nat) : R := fb_beta (fb_after grad prox n s).
Definition ls (n : nat) : R := fb_lambda (fb_after grad prox n s).
End Sequences.

(** With a strategy the momentum is dropped after exactly the steps that turn back; without one
    never. *)
Theorem C125_restart_rule :
  forall {H : ips} grad prox (x0 : H) step bp lp bu a s name, a_strategy a = Some name ->
  fb_init x0 step bp lp bu (LFista a) = Ok s ->
  restarted_run grad prox x0 (bs grad prox s) (ls grad prox s) (xs grad prox s) (zs grad prox s) /\ ls grad prox s 0 = lp.
Proof.
  intros H grad prox x0 step bp lp bu a s name N E. split.
  - apply (run_ok grad prox x0 step bp lp bu a s E). congruence.
  - destruct (init_parts grad prox x0 step bp lp bu a s E) as (f & P). apply P.
Qed.
Print Assumptions C125_restart_rule.

Theorem C125_no_strategy_no_restart :
  forall {H : ips} grad prox (x0 : H) step bp lp bu a s, a_strategy a = None ->
  fb_init x0 step bp lp bu (LFista a) = Ok s ->
  plain_run grad prox x0 (bs grad prox s) (ls grad prox s) (xs grad prox s) (zs grad prox s).
Proof. intros H grad prox x0 step bp lp bu a s N E. apply (plain_ok grad prox x0 step bp lp bu a s E N). Qed.
Print Assumptions C125_no_strategy_no_restart.

Lemma strategy_xi a f : fista_init a = Ok f -> a_strategy a <> None -> exists xi, a_xi a = Some xi /\ xi < 1.
Proof.
  unfold fista_init. intros E N.
  destruct (match a_acd a with None => _ | Some _ => _ end) as [m|]; cbn [bind] in E; [|discriminate].
  destruct (match a_strategy a with None => true | Some s => existsb (String.eqb s) strategy_names end); [|discriminate].
  destruct (check_restart_params _ _ _ _ _) eqn:C in E; cbn in E; [|discriminate]. unfold check_restart_params in C.
  destruct (a_strategy a); [|contradiction]. destruct (negb _); [discriminate|]. destruct (andb _ _); [discriminate|].
  destruct (a_xi a) as [xi|]; [|discriminate]. destruct (Rge_dec xi 1); [discriminate|]. exists xi. split; [reflexivity|lra].
Qed.

(** The adaptive strategies: every restart multiplies r by xi_restart, the step size never changes,
    and the second variant also starts the sequence t afresh. *)
Theorem C125_adaptive :
  forall {H : ips} grad prox (x0 : H) step bp lp bu a s name, a_strategy a = Some name -> name <> "greedy" ->
  fb_init x0 step bp lp bu (LFista a) = Ok s ->
  exists xi t, a_xi a = Some xi /\ xi < 1 /\
    adaptive_momentum (a_p a) (a_q a) (a_r a) xi (name = "adaptive-ii" \/ name = "adaptive-2")
      (xs grad prox s) (zs grad prox s) t (ls grad prox s) /\
    forall n, bs grad prox s n = bs grad prox s 0.
Proof.
  intros H grad prox x0 step bp lp bu a s name N G E.
  destruct (init_parts grad prox x0 step bp lp bu a s E) as (f & F & _).
  destruct (strategy_xi a f F ltac:(congruence)) as (xi & X & Hx). exists xi.
  assert (Pn : String.prefix "adaptive" name = true).
  { pose proof F as F'. unfold fista_init in F'. destruct (match a_acd a with None => _ | Some _ => _ end) as [m|]; cbn [bind] in F'; [|discriminate].
    rewrite N in F'. destruct (existsb (String.eqb name) strategy_names) eqn:I; [|discriminate].
    apply existsb_exists in I. destruct I as (nm & I & Q). apply String.eqb_eq in Q. subst nm.
    cbn in I. destruct I as [<-|[<-|[<-|[<-|[<-|[<-|[]]]]]]]; try reflexivity. contradiction. }
  pose proof (adaptive_ok grad prox x0 step bp lp bu a s E name N Pn) as A. rewrite X in A. cbn [or0] in A.
  exists (fun n => match fb_the_rule (fb_after grad prox n s) with RFista f => f_t_now f | _ => 0 end).
  split; [exact X|]. split; [exact Hx|]. split.
  - assert (I : is_ii name = true <-> name = "adaptive-ii" \/ name = "adaptive-2").
    { unfold is_ii. rewrite Bool.orb_true_iff, !String.eqb_eq. tauto. }
    destruct A as [A1 A2 A3]. constructor; [exact A1| |].
    + intros n k NT C. apply A2; [|exact C]. intros [Q T]. apply NT. split; [apply I, Q|exact T].
    + intros n k Q T C. apply A3; [apply I, Q|exact T|exact C].
  - intros n. unfold bs. rewrite (adaptive_beta grad prox x0 step bp lp bu a s E name N Pn n).
    symmetry. apply (adaptive_beta grad prox x0 step bp lp bu a s E name N Pn 0).
Qed.
Print Assumptions C125_adaptive.

(** With "adaptive-ii" or "adaptive-2" the step after a restart is not extrapolated either. *)
Theorem C125_adaptive_ii_two_plain_steps :
  forall {H : ips} grad prox (x0 : H) step bp lp bu a s name, a_strategy a = Some name -> In name ["adaptive-ii"; "adaptive-2"] ->
  fb_init x0 step bp lp bu (LFista a) = Ok s ->
  forall n, turns_back (xs grad prox s) (zs grad prox s) n ->
  zs grad prox s (S n) = xs grad prox s (S n) /\ zs grad prox s (S (S n)) = xs grad prox s (S (S n)).
Proof.
  intros H grad prox x0 step bp lp bu a s name N I E n T.
  destruct (C125_restart_rule grad prox x0 step bp lp bu a s name N E) as [R _].
  destruct (C125_adaptive grad prox x0 step bp lp bu a s name N ltac:(intros ->; cbn in I; intuition discriminate) E) as (xi & t & _ & _ & A & _).
  split; [apply (rr_restart _ _ _ _ _ _ _ R n T)|].
  destruct (turns_dec' (xs grad prox s) (zs grad prox s) (S n)) as [T'|T']; [apply (rr_restart _ _ _ _ _ _ _ R _ T')|].
  rewrite (rr_momentum _ _ _ _ _ _ _ R _ T').
  destruct (count_total _ (turns_dec' (xs grad prox s) (zs grad prox s)) (S n)) as [k C].
  destruct (am_reset _ _ _ _ _ _ _ _ _ A n k ltac:(cbn in I; intuition) T C) as [_ ->]. vring.
Qed.
Print Assumptions C125_adaptive_ii_two_plain_steps.

(** "adaptive", "adaptive-i" and "adaptive-1" are the same strategy, and so are "adaptive-ii" and
    "adaptive-2". *)
Definition with_name (a : fista_args) (name : string) : fista_args :=
  mk_fargs (Some name) (a_min_beta a) (a_s a) (a_xi a) (a_acd a) (a_p a) (a_q a) (a_r a).
Theorem C125_synonyms :
  forall {H : ips} grad prox (x0 : H) step bp lp bu a name name' s s',
  (In name ["adaptive"; "adaptive-i"; "adaptive-1"] /\ In name' ["adaptive"; "adaptive-i"; "adaptive-1"]) \/
  (In name ["adaptive-ii"; "adaptive-2"] /\ In name' ["adaptive-ii"; "adaptive-2"]) ->
  fb_init x0 step bp lp bu (LFista (with_name a name)) = Ok s ->
  fb_init x0 step bp lp bu (LFista (with_name a name')) = Ok s' ->
  forall n, xs grad prox s n = xs grad prox s' n /\ zs grad prox s n = zs grad prox s' n /\ ls grad prox s n = ls grad prox s' n.
Proof.
  intros H grad prox x0 step bp lp bu a name name' s s' I E E' n.
  destruct (C125_restart_rule grad prox x0 step bp lp bu (with_name a name) s name eq_refl E) as [R L].
  destruct (C125_restart_rule grad prox x0 step bp lp bu (with_name a name') s' name' eq_refl E') as [R' L'].
  destruct (C125_adaptive grad prox x0 step bp lp bu (with_name a name) s name eq_refl ltac:(intros ->; cbn in I; intuition discriminate) E) as (xi & t & X & _ & A & B).
  destruct (C125_adaptive grad prox x0 step bp lp bu (with_name a name') s' name' eq_refl ltac:(intros ->; cbn in I; intuition discriminate) E') as (xi' & t' & X' & _ & A' & B').
  cbn [with_name a_xi a_p a_q a_r] in *. rewrite X in X'. injection X' as <-.
  assert (Q : (name = "adaptive-ii" \/ name = "adaptive-2") <-> (name' = "adaptive-ii" \/ name' = "adaptive-2")).
  { cbn in I. destruct I as [[I1 I2]|[I1 I2]].
    - split; intros [->| ->]; exfalso; intuition discriminate.
    - intuition. }
  assert (A2 : adaptive_momentum (a_p a) (a_q a) (a_r a) xi (name = "adaptive-ii" \/ name = "adaptive-2") (xs grad prox s') (zs grad prox s') t' (ls grad prox s')).
  { destruct A' as [A1 A2 A3]. constructor; [exact A1| |].
    - intros m k NT C. apply A2; [tauto|exact C].
    - intros m k Q' T C. apply A3; [tauto|exact T|exact C]. }
  assert (B2 : forall m, bs grad prox s' m = bs grad prox s 0).
  { intros m. rewrite B'. destruct (init_parts (fun u => u) (fun u _ => u) _ _ _ _ _ _ _ E) as (f & P). destruct (init_parts (fun u => u) (fun u _ => u) _ _ _ _ _ _ _ E') as (f' & P').
    unfold bs. change (fb_after grad prox 0 ?u) with u. destruct P as (_ & _ & _ & _ & -> & _), P' as (_ & _ & _ & _ & -> & _). reflexivity. }
  assert (D : {name = "adaptive-ii" \/ name = "adaptive-2"} + {~ (name = "adaptive-ii" \/ name = "adaptive-2")}).
  { destruct (string_dec name "adaptive-ii"), (string_dec name "adaptive-2"); tauto. }
  destruct (unique grad prox x0 _ _ _ _ xi _ _ _ _ _ _ _ _ _ _ _ R R' A A2 B B2 ltac:(congruence) D n) as [(U1 & U2 & U3 & _) _]. auto.
Qed.
Print Assumptions C125_synonyms.

(** Adaptive strategies trade acceleration for stability: if the run restarts at least once, but
    only finitely often, the relaxation parameter stays away from 2 from some update on (without
    restarts it tends to 2). *)
Theorem C125_adaptive_momentum_is_capped :
  forall {H : ips} grad prox (x0 : H) step bp lp bu a s name, a_strategy a = Some name -> name <> "greedy" ->
  fb_init x0 step bp lp bu (LFista a) = Ok s ->
  0 < a_p a -> 0 <= a_q a -> 0 <= a_r a <= 4 -> (forall xi, a_xi a = Some xi -> 0 <= xi) ->
  forall N k, (1 <= k)%nat -> (forall n, (N <= n)%nat -> count (turns_back (xs grad prox s) (zs grad prox s)) n k) ->
  exists M b, b < 2 /\ forall n, (M <= n)%nat -> ls grad prox s n <= b.
Proof.
  intros H grad prox x0 step bp lp bu a s name N G E Hp Hq Hr Hxi n0 k Hk C.
  destruct (C125_adaptive grad prox x0 step bp lp bu a s name N G E) as (xi & t & X & Hx & A & _).
  apply (capped _ _ _ _ _ _ _ _ _ A n0 k Hp Hq Hr (conj (Hxi xi X) Hx) Hk C).
Qed.
Print Assumptions C125_adaptive_momentum_is_capped.

(** A first restart that comes late makes the next step of the first variant over-relaxed: the
    relaxation parameter exceeds 2. *)
Theorem C125_adaptive_over_relaxes :
  forall {H : ips} grad prox (x0 : H) step bp lp bu a s name xi, a_strategy a = Some name -> In name ["adaptive"; "adaptive-i"; "adaptive-1"] ->
  fb_init x0 step bp lp bu (LFista a) = Ok s ->
  a_p a = 1 -> a_q a = 1 -> a_r a = 4 -> a_xi a = Some xi -> 0 <= xi ->
  forall n, (forall m, (m < n)%nat -> ~ turns_back (xs grad prox s) (zs grad prox s) m) -> turns_back (xs grad prox s) (zs grad prox s) n ->
  5 / 2 < (1 + INR n) * (1 - sqrt xi) -> 2 < ls grad prox s (S n).
Proof.
  intros H grad prox x0 step bp lp bu a s name xi N I E Hp Hq Hr X Hxi n NT T L.
  destruct (C125_adaptive grad prox x0 step bp lp bu a s name N ltac:(intros ->; cbn in I; intuition discriminate) E) as (xi' & t & X' & Hx & A & _).
  rewrite X in X'. injection X' as <-. rewrite Hp, Hq, Hr in A.
  apply (over_relaxed _ _ _ _ _ _ _ _ _ A n); try lra; try assumption.
  cbn in I. intuition; subst; discriminate.
Qed.
Print Assumptions C125_adaptive_over_relaxes.

(** A run in which this happens: the linear objective -x on the half line x <= 2, from 0 with unit
    steps and xi_restart = 1/100. *)
Definition ex_grad : R_ips -> R_ips := fun _ => (-1)%R.
Definition ex_prox : R_ips -> R -> R_ips := fun y _ => Rmin y 2.
Lemma ex_init name mb sg xi step x : In name strategy_names -> xi < 1 -> (name = "greedy" -> exists m g, mb = Some m /\ sg = Some g /\ 1 < g) ->
  exists s, fb_init (H := R_ips) x (Some step) 1 1 None (LFista (mk_fargs (Some name) mb sg (Some xi) None 1 1 4)) = Ok s.
Proof.
  intros I Hx Hg. unfold fb_init, fista_init. cbn [a_acd a_strategy a_xi a_min_beta a_s bind].
  assert (Ex : existsb (String.eqb name) strategy_names = true).
  { apply existsb_exists. exists name. split; [exact I|apply String.eqb_refl]. }
  rewrite Ex. unfold check_restart_params. cbn [is_regular negb].
  destruct (String.eqb_spec name "greedy") as [Eg|Eg].
  - destruct (Hg Eg) as (m & g & -> & -> & G). destruct (Rle_dec g 1); [lra|]. cbn [andb]. destruct (Rge_dec xi 1); [lra|]. cbn. eexists. reflexivity.
  - cbn [andb]. destruct (Rge_dec xi 1); [lra|]. cbn. eexists. reflexivity.
Qed.

Definition ex_args : fista_args := mk_fargs (Some "adaptive") None None (Some (/ 100)) None 1 1 4.
Lemma ex_run s : fb_init (H := R_ips) 0 (Some 1) 1 1 None (LFista ex_args) = Ok s ->
  let x := xs ex_grad ex_prox s in let z := zs ex_grad ex_prox s in
  (x 0%nat = 0 /\ x 1%nat = 1 /\ x 2%nat = 2 /\ x 3%nat = 2) /\
  ~ turns_back x z 0 /\ ~ turns_back x z 1 /\ turns_back x z 2.
Proof.
  intros E x z.
  destruct (C125_restart_rule ex_grad ex_prox _ _ _ _ _ ex_args s "adaptive" eq_refl E) as [R L0].
  destruct (C125_adaptive ex_grad ex_prox _ _ _ _ _ ex_args s "adaptive" eq_refl ltac:(discriminate) E) as (xi & t & X & _ & A & B).
  assert (B0 : bs ex_grad ex_prox s 0 = 1).
  { destruct (init_parts (fun u => u) (fun u _ => u) _ _ _ _ _ _ _ E) as (f & _ & _ & _ & _ & P & _). unfold bs. change (fb_after ex_grad ex_prox 0 s) with s.
    rewrite P. unfold step_or. destruct (Req_EM_T 1 0); lra. }
  fold x in R, A. fold z in R, A. set (lam := ls ex_grad ex_prox s) in *. set (be := bs ex_grad ex_prox s) in *.
  assert (St : forall n, x (S n) = Rmin (z n + 1) 2).
  { intros n. rewrite (rr_step _ _ _ _ _ _ _ R n), B, B0. unfold ex_prox, ex_grad. f_equal. cbn. ring. }
  pose proof (rr_x0 _ _ _ _ _ _ _ R) as X0. pose proof (rr_z0 _ _ _ _ _ _ _ R) as Z0.
  assert (X1 : x 1%nat = 1). { rewrite St, Z0. unfold Rmin. destruct (Rle_dec _ _); lra. }
  assert (T0 : ~ turns_back x z 0). { unfold turns_back. rewrite X0, Z0, X1. cbn. lra. }
  assert (Z1 : z 1%nat = 1). { rewrite (rr_momentum _ _ _ _ _ _ _ R 0%nat T0), X0, X1, L0. cbn. lra. }
  assert (X2 : x 2%nat = 2). { rewrite St, Z1. unfold Rmin. destruct (Rle_dec _ _); lra. }
  assert (T1 : ~ turns_back x z 1). { unfold turns_back. rewrite X1, Z1, X2. cbn. lra. }
  assert (L1 : lam 1%nat = 1).
  { destruct (am_keep _ _ _ _ _ _ _ _ _ A 0%nat 0%nat) as [_ E2]; [tauto|apply count_no; [constructor|exact T0]|].
    rewrite E2, (am_t0 _ _ _ _ _ _ _ _ _ A). unfold Rdiv. ring. }
  assert (Z2 : z 2%nat = 2). { rewrite (rr_momentum _ _ _ _ _ _ _ R 1%nat T1), X1, X2, L1. cbn. lra. }
  assert (X3 : x 3%nat = 2). { rewrite St, Z2. unfold Rmin. destruct (Rle_dec _ _); lra. }
  assert (T2 : turns_back x z 2). { unfold turns_back. rewrite X2, Z2, X3. cbn. lra. }
  repeat split; assumption.
Qed.

Theorem C125_relaxation_below_2_refuted :
  exists (grad : R_ips -> R_ips) prox (x0 : R_ips) step a s,
    a_strategy a = Some "adaptive" /\ a_p a = 1 /\ a_q a = 1 /\ a_r a = 4 /\
    fb_init x0 (Some step) 1 1 None (LFista a) = Ok s /\
    exists n, ~ ls grad prox s n < 2.
Proof.
  destruct (ex_init "adaptive" None None (/ 100) 1 0) as [s E]; [cbn; tauto|lra|discriminate|].
  exists ex_grad, ex_prox, 0, 1, ex_args, s.
  do 4 (split; [reflexivity|]). split; [exact E|]. exists 3%nat. apply Rle_not_lt, Rlt_le.
  destruct (ex_run s E) as (_ & T0 & T1 & T2).
  apply (C125_adaptive_over_relaxes ex_grad ex_prox _ _ _ _ _ ex_args s "adaptive" (/ 100) eq_refl ltac:(cbn; tauto) E eq_refl eq_refl eq_refl eq_refl ltac:(lra) 2%nat).
  - intros m Lm. destruct m as [|[|m]]; [exact T0|exact T1|lia].
  - exact T2.
  - assert (Sq : sqrt (/ 100) = / 10). { replace (/ 100) with (/ 10 * / 10) by lra. apply sqrt_square. lra. }
    rewrite Sq. cbn. lra.
Qed.
Print Assumptions C125_relaxation_below_2_refuted.

(** The greedy strategy: relaxation 2 after the first update; the step size is shortened exactly
    after the steps, other than the first, that are at least s_greedy times as long as the first. *)
Theorem C125_greedy :
  forall {H : ips} grad prox (x0 : H) step bp lp bu a s, a_strategy a = Some "greedy" ->
  fb_init x0 step bp lp bu (LFista a) = Ok s ->
  exists g xi mb, a_s a = Some g /\ 1 < g /\ a_xi a = Some xi /\ xi < 1 /\ a_min_beta a = Some mb /\
    (forall n, ls grad prox s (S n) = 2) /\
    greedy_steps g xi mb (bs grad prox s 0) (xs grad prox s) (bs grad prox s).
Proof.
  intros H grad prox x0 step bp lp bu a s N E.
  destruct (init_parts grad prox x0 step bp lp bu a s E) as (f & F & _ & _ & _ & P & _).
  destruct (strategy_xi a f F ltac:(congruence)) as (xi & X & Hx).
  assert (Q : exists g mb, a_s a = Some g /\ 1 < g /\ a_min_beta a = Some mb).
  { unfold fista_init in F. destruct (match a_acd a with None => _ | Some _ => _ end) as [m|]; cbn [bind] in F; [|discriminate].
    rewrite N in F. destruct (existsb _ _); [|discriminate]. unfold check_restart_params in F. cbn [bind] in F. destruct (negb _); [discriminate|].
    change (String.eqb "greedy" "greedy") with true in F. cbn [andb] in F.
    destruct (a_min_beta a) as [mb|]; [|discriminate]. destruct (a_s a) as [g|]; [|discriminate].
    destruct (Rle_dec g 1); [discriminate|]. exists g, mb. repeat split. lra. }
  destruct Q as (g & mb & Sg & Hg & Mb). exists g, xi, mb. do 5 (split; [assumption|]). split.
  - intros n. apply (greedy_lambda grad prox x0 step bp lp bu a s E N n).
  - pose proof (greedy_ok grad prox x0 step bp lp bu a s E N) as G. rewrite Sg, X, Mb in G. cbn [or0] in G.
    unfold bs at 1. change (fb_after grad prox 0 s) with s. rewrite P. exact G.
Qed.
Print Assumptions C125_greedy.

(** If min_beta does not exceed the initial step size, the step sizes never leave the interval
    between them, and depend only on the number of safeguarded steps. *)
Theorem C125_greedy_step_sizes :
  forall {H : ips} grad prox (x0 : H) step bp lp bu a s g xi mb, a_strategy a = Some "greedy" ->
  a_s a = Some g -> a_xi a = Some xi -> a_min_beta a = Some mb -> 0 <= xi ->
  fb_init x0 step bp lp bu (LFista a) = Ok s -> 0 <= mb <= bs grad prox s 0 ->
  forall n, mb <= bs grad prox s n <= bs grad prox s 0 /\
    forall k, count (too_long g (xs grad prox s)) n k -> bs grad prox s n = Rmax (bs grad prox s 0 * xi ^ k) mb.
Proof.
  intros H grad prox x0 step bp lp bu a s g xi mb N Sg X Mb Hxi E Hb n.
  destruct (C125_greedy grad prox x0 step bp lp bu a s N E) as (g' & xi' & mb' & Sg' & _ & X' & Hx & Mb' & _ & G).
  rewrite Sg in Sg'. rewrite X in X'. rewrite Mb in Mb'. injection Sg' as <-. injection X' as <-. injection Mb' as <-.
  pose proof (greedy_closed_form g xi mb _ _ _ G ltac:(lra) Hb) as C. split; [|apply C].
  destruct (count_total _ (too_long_dec g (xs grad prox s)) n) as [k K]. rewrite (C n k K).
  pose proof (Rmax_r (bs grad prox s 0 * xi ^ k) mb) as U. split; [exact U|]. apply Rmax_lub; [|lra].
  pose proof (pow_incr xi 1 k ltac:(lra)) as P. rewrite pow1 in P. pose proof (pow_le xi k Hxi). nra.
Qed.
Print Assumptions C125_greedy_step_sizes.

(** A min_beta above the initial step size is accepted, and safeguarding then lengthens the steps. *)
Theorem C125_greedy_never_lengthens_refuted :
  exists (grad : R_ips -> R_ips) prox (x0 : R_ips) a s, a_strategy a = Some "greedy" /\
    fb_init x0 (Some 1) 1 1 None (LFista a) = Ok s /\
    exists n, bs grad prox s 0 < bs grad prox s n.
Proof.
  destruct (ex_init "greedy" (Some 3) (Some 2) (/ 2) 1 0) as [s E]; [cbn; tauto|lra|intros _; exists 3, 2; repeat split; lra|].
  exists (fun x => x), (fun y _ => y), 0, (mk_fargs (Some "greedy") (Some 3) (Some 2) (Some (/ 2)) None 1 1 4), s.
  split; [reflexivity|]. split; [exact E|]. exists 2%nat.
  set (a := mk_fargs _ _ _ _ _ _ _ _) in *. set (grad := fun x : R_ips => x). set (prox := fun (y : R_ips) (_ : R) => y).
  destruct (C125_restart_rule grad prox _ _ _ _ _ a s "greedy" eq_refl E) as [R L0].
  destruct (C125_greedy grad prox _ _ _ _ _ a s eq_refl E) as (g & xi & mb & Sg & _ & X & _ & Mb & L & G).
  injection Sg as <-. injection X as <-. injection Mb as <-.
  assert (B0 : bs grad prox s 0 = 1).
  { destruct (init_parts (fun u => u) (fun u _ => u) _ _ _ _ _ _ _ E) as (f & _ & _ & _ & _ & P & _). unfold bs. change (fb_after grad prox 0 s) with s.
    rewrite P. unfold step_or. destruct (Req_EM_T 1 0); lra. }
  set (x := xs grad prox s) in *. set (z := zs grad prox s) in *. set (lam := ls grad prox s) in *. set (be := bs grad prox s) in *.
  pose proof (rr_x0 _ _ _ _ _ _ _ R) as X0. pose proof (rr_z0 _ _ _ _ _ _ _ R) as Z0.
  assert (St : forall n, x (S n) = z n - be n * z n).
  { intros n. rewrite (rr_step _ _ _ _ _ _ _ R n). unfold prox, grad. cbn. ring. }
  assert (X1 : x 1%nat = 0). { rewrite St, Z0. lra. }
  assert (Z1 : z 1%nat = 0).
  { destruct (turns_dec' x z 0) as [T|T]; [rewrite (rr_restart _ _ _ _ _ _ _ R 0%nat T); exact X1|].
    rewrite (rr_momentum _ _ _ _ _ _ _ R 0%nat T), X0, X1, L0. cbn. lra. }
  assert (X2 : x 2%nat = 0). { rewrite St, Z1. lra. }
  assert (B1 : be 1%nat = 1). { rewrite (gs_short _ _ _ _ _ _ G 0%nat); [exact B0|cbn; tauto]. }
  assert (N0 : norm (H := R_ips) (vsub (H := R_ips) 0 0) = 0). { unfold norm, nsq. cbn. replace ((0 + -1 * 0) * (0 + -1 * 0)) with 0 by ring. apply sqrt_0. }
  destruct (gs_long _ _ _ _ _ _ G 1%nat) as [_ G2].
  { change (2 * norm (x 1%nat - x 0%nat)%v <= norm (x 2%nat - x 1%nat)%v). rewrite X0, X1, X2, N0. lra. }
  rewrite B0, G2; [lra|rewrite B1; lra].
Qed.
Print Assumptions C125_greedy_never_lengthens_refuted.

(** The run of the counterexample: 0, 1, 2 and then 2 again, where the momentum is dropped. *)
Example C125_example :
  exists s, fb_init (H := R_ips) 0 (Some 1) 1 1 None (LFista ex_args) = Ok s /\
    let x := xs ex_grad ex_prox s in let z := zs ex_grad ex_prox s in
    (x 0%nat = 0 /\ x 1%nat = 1 /\ x 2%nat = 2 /\ x 3%nat = 2) /\
    ~ turns_back x z 0 /\ ~ turns_back x z 1 /\ turns_back x z 2.
Proof.
  destruct (ex_init "adaptive" None None (/ 100) 1 0) as [s E]; [cbn; tauto|lra|discriminate|]. exists s. split; [exact E|].
  apply ex_run. exact E.
Qed.
