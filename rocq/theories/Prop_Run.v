(** Theorems about calling iterate again: C110. *)
From Verif Require Import NPReal Py Model_SetUp Model_Cost Model_Run IPS Model_FB Model_GD.
From Coq Require Import List Lia FunctionalExtensionality.
Import ListNotations.
Local Open Scope nat_scope.

(** The state a run ends in (or its exception), without the trace of events. *)
Definition final {S_} (r : res (S_ * list event)) : res S_ := do p <- r; Ok (fst p).

Section Gen.
Variable S_ : Type.
Variable update met : nat -> S_ -> res S_.
Variable cv : S_ -> bool.
Variable hm : bool.
Variable period : option Z.
Notation itf := (iterations_from update cv met hm period).

Lemma metrics_final mx mx' i s tr tr' :
  final (metrics_step cv met hm period mx i s tr) = final (metrics_step cv met hm period mx' i s tr').
Proof.
  unfold metrics_step. destruct hm; [|reflexivity]. destruct period as [m|]; [|reflexivity].
  destruct (Z.eqb m 0); [reflexivity|]. cbn [tuple_truth]. destruct (met i s); reflexivity.
Qed.

(** The final state depends neither on max_iter (other than as a count) nor on the trace so far. *)
Lemma itf_final mx mx' : forall n i s tr tr', final (itf mx n i s tr) = final (itf mx' n i s tr').
Proof.
  induction n as [|n IH]; intros i s tr tr'; [reflexivity|]. cbn [iterations_from].
  destruct (update i s) as [s1|e]; [|reflexivity]. cbn [bind].
  pose proof (metrics_final mx mx' i s1 (tr ++ [EUpdate i]) (tr' ++ [EUpdate i])) as M.
  destruct (metrics_step cv met hm period mx i s1 _) as [[s2 t2]|e], (metrics_step cv met hm period mx' i s1 _) as [[s2' t2']|e'];
    cbn in M; try discriminate M; injection M as <-; cbn [bind]; [|reflexivity].
  destruct (cv s2); [reflexivity|apply IH].
Qed.

Lemma itf_app mx : forall a b i s tr, 0 < a ->
  itf mx (a + b) i s tr = do p <- itf mx a i s tr; if cv (fst p) then Ok p else itf mx b (i + a) (fst p) (snd p).
Proof.
  induction a as [|a IH]; intros b i s tr L; [lia|]. cbn [Nat.add iterations_from].
  destruct (update i s) as [s1|e]; [|reflexivity]. cbn [bind].
  destruct (metrics_step cv met hm period mx i s1 _) as [[s2 t2]|e]; [|reflexivity]. cbn [bind].
  destruct (cv s2) eqn:C; [cbn [bind fst]; rewrite C; reflexivity|].
  destruct a as [|a].
  - cbn [Nat.add iterations_from bind fst snd]. rewrite C. replace (i + 1) with (S i) by lia. reflexivity.
  - rewrite IH by lia. replace (i + S (S a)) with (S i + S a) by lia. reflexivity.
Qed.

Lemma metrics_shift n mx i s tr : (forall i s, met (n + i) s = met i s) ->
  final (metrics_step cv met hm period mx (n + i) s tr) = final (metrics_step cv met hm period mx i s tr).
Proof.
  intros Hm. unfold metrics_step. destruct hm; [|reflexivity]. destruct period as [m|]; [|reflexivity].
  destruct (Z.eqb m 0); [reflexivity|]. cbn [tuple_truth]. rewrite Hm. destruct (met i s); reflexivity.
Qed.
Lemma itf_shift n mx : (forall i s, update (n + i) s = update i s) -> (forall i s, met (n + i) s = met i s) ->
  forall m i s tr, final (itf mx m (n + i) s tr) = final (itf mx m i s tr).
Proof.
  intros Hu Hm. induction m as [|m IH]; intros i s tr; [reflexivity|]. cbn [iterations_from]. rewrite Hu.
  destruct (update i s) as [s1|e]; [|reflexivity]. cbn [bind].
  pose proof (metrics_final mx mx (n + i) s1 (tr ++ [EUpdate (n + i)]) (tr ++ [EUpdate i])) as M.
  rewrite (metrics_shift n mx i s1 (tr ++ [EUpdate i]) Hm) in M.
  destruct (metrics_step cv met hm period mx (n + i) s1 _) as [[s2 t2]|e], (metrics_step cv met hm period mx i s1 _) as [[s2' t2']|e'];
    cbn in M; try discriminate M; injection M as <-; cbn [bind]; [|reflexivity].
  destruct (cv s2); [reflexivity|]. replace (S (n + i)) with (n + S i) by lia.
  rewrite (itf_final mx mx m (n + S i) s2 t2 t2'). apply IH.
Qed.
End Gen.

(** [C110] Calling iterate(n) and then iterate(m) leaves the object in the state that iterate(n + m) would have, provided the first
    call did not stop at convergence and one iteration does the same work with index i and with index n + i. Exceptions included. *)
Theorem C110_resume : forall S_ (update met : nat -> S_ -> res S_) cv hm period n m s s1 tr1,
  (forall i t, update (n + i) t = update i t) -> (forall i t, met (n + i) t = met i t) ->
  run_alg update cv met hm period n s = Ok (s1, tr1) -> cv s1 = false ->
  final (run_alg update cv met hm period (n + m) s) = final (run_alg update cv met hm period m s1).
Proof.
  intros S_ update met cv hm period n m s s1 tr1 Hu Hm E C. unfold run_alg in *.
  destruct n as [|n].
  - cbn in E. injection E as <- <-. reflexivity.
  - rewrite itf_app by lia. pose proof (itf_final S_ update met cv hm period (S n + m) (S n) (S n) 0 s [] []) as F. rewrite E in F.
    destruct (iterations_from update cv met hm period (S n + m) (S n) 0 s []) as [[s1' t1']|e]; cbn in F; [|discriminate].
    injection F as ->. cbn [bind fst snd]. rewrite C.
    rewrite (itf_final _ update met cv hm period (S n + m) m m (0 + S n) s1 t1' []). cbn [Nat.add].
    pose proof (itf_shift _ update met cv hm period (S n) m Hu Hm m 0 s1 []) as G. rewrite Nat.add_0_r in G. exact G.
Qed.
Print Assumptions C110_resume.

(** [C110] If the first call did stop at convergence, a longer first call would have stopped there too; but calling iterate again does
    not see that: it performs at least one more update. *)
Theorem C110_after_convergence : forall S_ (update met : nat -> S_ -> res S_) cv hm period n m s s1 tr1,
  0 < n -> run_alg update cv met hm period n s = Ok (s1, tr1) -> cv s1 = true ->
  final (run_alg update cv met hm period (n + m) s) = Ok s1 /\
  (forall s2 tr2, run_alg update cv met hm period (S m) s1 = Ok (s2, tr2) ->
     exists t, tr2 = EUpdate 0 :: t).
Proof.
  intros S_ update met cv hm period n m s s1 tr1 L E C. unfold run_alg in *. split.
  - rewrite itf_app by exact L. pose proof (itf_final S_ update met cv hm period (n + m) n n 0 s [] []) as F. rewrite E in F.
    destruct (iterations_from update cv met hm period (n + m) n 0 s []) as [[s1' t1']|e]; cbn in F; [|discriminate].
    injection F as ->. cbn [bind fst snd]. rewrite C. reflexivity.
  - intros s2 tr2 H. cbn [iterations_from] in H. destruct (update 0 s1) as [u|e]; [|discriminate]. cbn [bind] in H.
    assert (P : forall mx k i st tr st' tr', iterations_from update cv met hm period mx k i st tr = Ok (st', tr') -> exists t, tr' = tr ++ t).
    { clear. intros mx. induction k as [|k IH]; intros i st tr st' tr' H.
      - cbn in H. injection H as <- <-. exists []. rewrite app_nil_r. reflexivity.
      - cbn [iterations_from] in H. destruct (update i st) as [u|e]; [|discriminate]. cbn [bind] in H.
        unfold metrics_step in H.
        assert (G : forall a b, (if cv a then Ok (a, b) else iterations_from update cv met hm period mx k (S i) a b) = Ok (st', tr') -> exists t, tr' = b ++ t).
        { intros a b X. destruct (cv a); [injection X as <- <-; exists []; rewrite app_nil_r; reflexivity|eapply IH; eauto]. }
        destruct hm; [destruct period as [p|]|]; [destruct (Z.eqb p 0); [discriminate|]; cbn [tuple_truth] in H; destruct (met i u); [|discriminate]| |];
          cbn [bind] in H; apply G in H; destruct H as (t & ->); rewrite <- ?app_assoc; eexists; reflexivity. }
    unfold metrics_step in H.
    assert (G : forall a b, (if cv a then Ok (a, b) else iterations_from update cv met hm period (S m) m 1 a b) = Ok (s2, tr2) -> exists t, tr2 = b ++ t).
    { intros a b X. destruct (cv a); [injection X as <- <-; exists []; rewrite app_nil_r; reflexivity|eapply P; eauto]. }
    destruct hm; [destruct period as [p|]|]; [destruct (Z.eqb p 0); [discriminate|]; cbn [tuple_truth] in H; destruct (met 0 u); [|discriminate]| |];
      cbn [bind app] in H; apply G in H; destruct H as (t & ->); cbn [app]; eexists; reflexivity.
Qed.
Print Assumptions C110_after_convergence.

(** [C110] For every class whose update does not use the iteration index — ForwardBackward, GenForwardBackward, POGM, Condat, ADMM and
    FastADMM — with its cost object and its metrics, in any state (in particular after earlier calls). *)
Theorem C110_index_free_classes : forall D k (step : D -> D) F cfg metric hm period n m a a1 tr1,
  iterate k (fun _ => step) F cfg metric hm period n a = Ok (a1, tr1) -> conv a1 = false ->
  final (iterate k (fun _ => step) F cfg metric hm period (n + m) a) = final (iterate k (fun _ => step) F cfg metric hm period m a1).
Proof. intros D k step F cfg metric hm period n m a a1 tr1 E C. unfold iterate in *. eapply C110_resume; eauto. Qed.
Print Assumptions C110_index_free_classes.

(** [C110] For the gradient descent classes (SAGA included) it holds when the first call does whole epochs and there is no eta_update. *)
Theorem C110_gradient_descent : forall I (grad : nat -> arr I -> arr I) prox c x eta eps e s F cfg metric hm period q m a1 tr1,
  gd_init c x eta eps (S e) None = Ok s ->
  iterate GradientDescent (gd_step grad prox) F cfg metric hm period (q * S e) (mk_alg (s, cost_init 1000000) [] false) = Ok (a1, tr1) ->
  conv a1 = false ->
  final (iterate GradientDescent (gd_step grad prox) F cfg metric hm period (q * S e + m) (mk_alg (s, cost_init 1000000) [] false)) =
  final (iterate GradientDescent (gd_step grad prox) F cfg metric hm period m a1).
Proof.
  intros I grad prox c x eta eps e s F cfg metric hm period q m a1 tr1 E0 E C.
  (* replace the update by one that fixes the constant attributes, which every reachable state has *)
  set (inv := fun a : alg_state (gd I * cost_st) => d_epoch_size (fst (data a)) = S e /\ d_eta_update (fst (data a)) = None).
  set (upd := update_with_cost GradientDescent (gd_step grad prox) F cfg) in *.
  set (met := @alg_metrics (gd I * cost_st) (fun _ d => metric (fst d))) in *.
  assert (Iu : forall i a a', inv a -> upd i a = Ok a' -> inv a').
  { intros i a a' [H1 H2]. unfold upd, update_with_cost.
    assert (G : d_epoch_size (gd_step grad prox i (fst (data a))) = S e /\ d_eta_update (gd_step grad prox i (fst (data a))) = None).
    { unfold gd_step. destruct (update_dir _ _ _) as [[d1 b1] m1]. destruct (update_speed _ _) as [p1 q1]. cbn [d_epoch_size d_eta_update]. auto. }
    destruct (any_convergence_flag (flags a)).
    - intros X. injection X as <-. exact G.
    - destruct (get_cost _ _ _) as [c' r]. destruct r as [v|]; cbn [bind]; [|discriminate]. intros X. injection X as <-. exact G. }
  assert (Im : forall i a a', inv a -> met i a = Ok a' -> inv a').
  { intros i a a' H X. unfold met, alg_metrics in X. injection X as <-. exact H. }
  assert (Sh : forall i a, inv a -> upd (q * S e + i) a = upd i a).
  { intros i a [H1 H2]. unfold upd, update_with_cost.
    assert (G : gd_step grad prox (q * S e + i) (fst (data a)) = gd_step grad prox i (fst (data a))).
    { unfold gd_step, update_dir. rewrite H1, H2. replace (q * S e + i) with (i + q * S e) by lia. rewrite Nat.mod_add by discriminate. reflexivity. }
    rewrite G. reflexivity. }
  assert (I0 : inv (mk_alg (s, cost_init 1000000) [] false)).
  { unfold gd_init in E0. destruct (match c with Adam _ _ => _ | _ => _ end); [|discriminate]. injection E0 as <-. split; reflexivity. }
  unfold iterate in *. fold upd met in E |- *. unfold run_alg in *.
  assert (K : forall mx k i st tr st' tr', inv st -> iterations_from upd conv met hm period mx k i st tr = Ok (st', tr') -> inv st').
  { intros mx. induction k as [|k IH]; intros i st tr st' tr' HI H.
    - cbn in H. injection H as <- <-. exact HI.
    - cbn [iterations_from] in H. destruct (upd i st) as [u|] eqn:Eu; [|discriminate]. cbn [bind] in H. apply (Iu i st u HI) in Eu.
      assert (G : forall a b, inv a -> (if conv a then Ok (a, b) else iterations_from upd conv met hm period mx k (S i) a b) = Ok (st', tr') -> inv st').
      { intros a b Ha X. destruct (conv a); [injection X as <- <-; exact Ha|eapply IH; eauto]. }
      unfold metrics_step in H.
      destruct hm; [destruct period as [p|]|]; [destruct (Z.eqb p 0); [discriminate|]; cbn [tuple_truth] in H; destruct (met i u) as [u'|] eqn:Em; [|discriminate]; apply (Im i u u' Eu) in Em| |];
        cbn [bind] in H; eapply G; eauto. }
  assert (SH : forall mx k i st tr, inv st -> final (iterations_from upd conv met hm period mx k (q * S e + i) st tr) = final (iterations_from upd conv met hm period mx k i st tr)).
  { intros mx. induction k as [|k IH]; intros i st tr HI; [reflexivity|]. cbn [iterations_from]. rewrite (Sh i st HI).
    destruct (upd i st) as [s1|] eqn:Eu; [|reflexivity]. cbn [bind]. apply (Iu i st s1 HI) in Eu.
    unfold metrics_step.
    destruct hm; [destruct period as [p|]|]; [destruct (Z.eqb p 0); [reflexivity|]; cbn [tuple_truth]; change (met (q * S e + i) s1) with (met i s1); destruct (met i s1) as [u'|] eqn:Em; [|reflexivity]; apply (Im i s1 u' Eu) in Em| |];
      cbn [bind].
    - destruct (conv u'); [reflexivity|]. replace (S (q * S e + i)) with (q * S e + S i) by lia.
      rewrite (itf_final _ upd met conv _ _ mx mx k (q * S e + S i) u' _ ((tr ++ [EUpdate i]) ++ [EMetrics i])). apply IH. exact Em.
    - destruct (conv s1); [reflexivity|]. replace (S (q * S e + i)) with (q * S e + S i) by lia.
      rewrite (itf_final _ upd met conv _ _ mx mx k (q * S e + S i) s1 _ (tr ++ [EUpdate i])). apply IH. exact Eu.
    - destruct (conv s1); [reflexivity|]. replace (S (q * S e + i)) with (q * S e + S i) by lia.
      rewrite (itf_final _ upd met conv _ _ mx mx k (q * S e + S i) s1 _ (tr ++ [EUpdate i])). apply IH. exact Eu. }
  destruct (Nat.eq_dec q 0) as [->|Q].
  - cbn in E. injection E as <- <-. reflexivity.
  - rewrite itf_app by lia.
    pose proof (itf_final _ upd met conv hm period (q * S e + m) (q * S e) (q * S e) 0 (mk_alg (s, cost_init 1000000) [] false) [] []) as Ff. rewrite E in Ff.
    assert (Ia : inv a1) by (eapply K; eauto).
    destruct (iterations_from upd conv met hm period (q * S e + m) (q * S e) 0 _ []) as [[s1' t1']|er]; cbn in Ff; [|discriminate].
    injection Ff as ->. cbn [bind fst snd]. rewrite C.
    rewrite (itf_final _ upd met conv hm period (q * S e + m) m m (0 + q * S e) a1 t1' []). cbn [Nat.add].
    specialize (SH m m 0 a1 [] Ia). rewrite Nat.add_0_r in SH. exact SH.
Qed.
Print Assumptions C110_gradient_descent.

(** The data after i updates of one call. *)
Fixpoint updated {D} (step : nat -> D -> D) (i : nat) (d : D) : D :=
  match i with 0 => d | S j => step j (updated step j d) end.
Definition is_update (e : event) : bool := match e with EUpdate _ => true | EMetrics _ => false end.

(** [C110] After a stop by an early-stopping metric (a set flag), calling iterate again makes exactly one update and stops again; in
    every class but GenForwardBackward (see C17). *)
Theorem C110_stopped_run : forall D k (step : nat -> D -> D) F cfg metric hm period n a a2 tr2,
  k <> GenForwardBackward -> any_convergence_flag (flags a) = true ->
  iterate k step F cfg metric hm period (S n) a = Ok (a2, tr2) ->
  conv a2 = true /\ fst (data a2) = step 0 (fst (data a)) /\ filter is_update tr2 = [EUpdate 0].
Proof.
  intros D k step F cfg metric hm period n a a2 tr2 Hk Hf E. unfold iterate, run_alg in E. cbn [iterations_from] in E.
  assert (U : forall b, update_with_cost k step F cfg 0 a = Ok b -> conv b = true /\ fst (data b) = step 0 (fst (data a))).
  { intros b. unfold update_with_cost. rewrite Hf. destruct k; try congruence; try (intros X; injection X as <-; auto).
    destruct (get_cost cfg (snd (data a)) _) as [c' [v|e]]; cbn [bind]; intros X; [injection X as <-; auto|discriminate]. }
  destruct (update_with_cost k step F cfg 0 a) as [b|e]; [|discriminate]. destruct (U b eq_refl) as [U1 U2]. cbn [bind] in E.
  unfold metrics_step, alg_metrics, tuple_truth in E. destruct hm; [destruct period as [m|]; [destruct (m =? 0)%Z; [discriminate|]|]|];
    cbn [bind app conv] in E; rewrite U1 in E; injection E as <- <-; cbn; auto.
Qed.
Print Assumptions C110_stopped_run.

(** [C110] Without metrics and with cost_interval=1 every update, in this call as in earlier ones, appends the cost of the point it
    has just computed; the run makes at most max_iter updates. *)
Theorem C110_cost_history : forall D k (step : nat -> D -> D) F cfg metric period n a a2 tr2,
  cost_interval cfg = Some 1%Z -> flags a = [] ->
  iterate k step F cfg metric false period n a = Ok (a2, tr2) ->
  exists m, m <= n /\ tr2 = map EUpdate (seq 0 m) /\ fst (data a2) = updated step m (fst (data a)) /\
    cost_list (snd (data a2)) = cost_list (snd (data a)) ++ map (fun i => F (updated step (S i) (fst (data a)))) (seq 0 m).
Proof.
  intros D k step F cfg metric period n a a2 tr2 Hc Hf E. unfold iterate, run_alg in E.
  enough (G : forall mx r i b tr, i + r = n -> flags b = [] -> fst (data b) = updated step i (fst (data a)) ->
    cost_list (snd (data b)) = cost_list (snd (data a)) ++ map (fun i => F (updated step (S i) (fst (data a)))) (seq 0 i) ->
    tr = map EUpdate (seq 0 i) ->
    iterations_from (update_with_cost k step F cfg) conv (alg_metrics (fun _ d => metric (fst d))) false period mx r i b tr = Ok (a2, tr2) ->
    exists m, m <= n /\ tr2 = map EUpdate (seq 0 m) /\ fst (data a2) = updated step m (fst (data a)) /\
    cost_list (snd (data a2)) = cost_list (snd (data a)) ++ map (fun i => F (updated step (S i) (fst (data a)))) (seq 0 m)).
  { apply (G n n 0 a []); try reflexivity; try assumption. cbn. rewrite app_nil_r. reflexivity. }
  clear E. intros mx. induction r as [|r IH]; intros i b tr Hr H1 H2 H3 H4 E.
  - cbn in E. injection E as <- <-. exists i. split; [lia|auto].
  - cbn [iterations_from] in E.
    assert (U : forall b', update_with_cost k step F cfg i b = Ok b' -> flags b' = [] /\ fst (data b') = updated step (S i) (fst (data a)) /\
      cost_list (snd (data b')) = cost_list (snd (data b)) ++ [F (updated step (S i) (fst (data a)))]).
    { intros b'. unfold update_with_cost. rewrite H1, H2. cbn [any_convergence_flag existsb].
      unfold get_cost. rewrite Hc, Z.mod_1_r. cbn [Z.eqb].
      set (s1 := mk_cost_st _ _ _ _). assert (L : cost_list (fst (check_cost cfg s1)) = cost_list s1).
      { unfold check_cost. repeat match goal with |- context[if ?b then _ else _] => destruct b end; reflexivity. }
      destruct (check_cost cfg s1) as [s2 v]. cbn [fst] in L.
      destruct k; cbn [bind]; intros X; injection X as <-; cbn [flags data fst snd cost_list]; rewrite L; repeat split; assumption. }
    destruct (update_with_cost k step F cfg i b) as [b'|e]; [|discriminate]. destruct (U b' eq_refl) as (U1 & U2 & U3). cbn [bind metrics_step] in E.
    assert (T : tr ++ [EUpdate i] = map EUpdate (seq 0 (S i))) by (rewrite seq_S, map_app, H4; reflexivity).
    assert (CL : cost_list (snd (data b')) = cost_list (snd (data a)) ++ map (fun i => F (updated step (S i) (fst (data a)))) (seq 0 (S i))).
    { rewrite U3, H3, seq_S, map_app, app_assoc. reflexivity. }
    destruct (conv b').
    + injection E as <- <-. exists (S i). split; [lia|]. auto.
    + apply (IH (S i) b' (tr ++ [EUpdate i])); auto. lia.
Qed.
Print Assumptions C110_cost_history.

(** A cost object that never evaluates its cost. *)
Definition no_cost : cost_cfg := mk_cost_cfg (1 / 10000) None 4.
Definition point (r : R) : arr unit := fun _ => r.
(** VanillaGenericGradOpt with a zero gradient, a proximity operator that halves its argument, epoch_size=2, started at 4. *)
Definition halving : gd unit := mk_gd Vanilla (point 4) (point 4) (full 0) (full 1) 1 0 2 None 1 1 (fun _ => full 0) 0.
Definition gd_run (n : nat) (a : alg_state (gd unit * cost_st)) :=
  iterate GradientDescent (gd_step (fun _ _ => point 0) (fun x _ i => (x i / 2)%R)) (fun _ => 0%R) no_cost (fun _ => []) false None n a.
Definition start (s : gd unit) : alg_state (gd unit * cost_st) := mk_alg (s, cost_init 1000000) [] false.

(** [C110, refuted] In general iterate(n) then iterate(m) is not iterate(n + m): the index restarts at 0, so with epoch_size=2 the
    proximity operator is applied at the first iteration of each call. Here iterate(2) returns 2 and iterate(1) twice returns 1. *)
Theorem C110_partial_epoch_refuted : exists s a1 tr1 a2 b,
  gd_init Vanilla (point 4) 1 (1 / 1000000) 2 None = Ok s /\
  gd_run 1 (start s) = Ok (a1, tr1) /\ conv a1 = false /\ final (gd_run 1 a1) = Ok a2 /\ final (gd_run 2 (start s)) = Ok b /\
  d_x_new (fst (data a2)) tt = 1%R /\ d_x_new (fst (data b)) tt = 2%R.
Proof.
  exists halving. do 4 eexists. split; [reflexivity|]. split; [reflexivity|]. split; [reflexivity|]. split; [reflexivity|]. split; [reflexivity|].
  cbn. unfold point, full. split; field_simplify; try lra; rewrite ?sqrt_1; try lra.
Qed.
Print Assumptions C110_partial_epoch_refuted.

(** [C110, refuted] The indices recorded with the metric values increase: they restart with every call. *)
Theorem C110_metric_index_refuted : exists (a a1 a2 : alg_state (nat * cost_st)) tr1 tr2,
  iterate ForwardBackward (fun _ => S) (fun _ => 0%R) no_cost (fun _ => [false]) true (Some 1%Z) 2 a = Ok (a1, tr1) /\
  iterate ForwardBackward (fun _ => S) (fun _ => 0%R) no_cost (fun _ => [false]) true (Some 1%Z) 2 a1 = Ok (a2, tr2) /\
  tr1 ++ tr2 = [EUpdate 0; EMetrics 0; EUpdate 1; EMetrics 1; EUpdate 0; EMetrics 0; EUpdate 1; EMetrics 1].
Proof. exists (mk_alg (0, cost_init 1000000) [] false). do 4 eexists. split; [reflexivity|]. split; reflexivity. Qed.
Print Assumptions C110_metric_index_refuted.

(** A run of 3 + 2 iterations of a counter, and one that has converged being started again. *)
Example C110_example :
  final (iterate POGM (fun _ => S) (fun _ => 0%R) no_cost (fun _ => []) false None 5 (mk_alg (0, cost_init 1000000) [] false)) =
    Ok (mk_alg (5, mk_cost_st 1000000 [] 6 []) [] false) /\
  final (iterate POGM (fun _ => S) (fun _ => 0%R) no_cost (fun _ => []) false None 2 (mk_alg (3, mk_cost_st 1000000 [] 4 []) [] false)) =
    Ok (mk_alg (5, mk_cost_st 1000000 [] 6 []) [] false) /\
  final (iterate POGM (fun _ => S) (fun _ => 0%R) no_cost (fun _ => [true]) true (Some 1%Z) 9 (mk_alg (0, cost_init 1000000) [] false)) =
    Ok (mk_alg (2, mk_cost_st 1000000 [] 2 []) [true] true) /\
  final (iterate POGM (fun _ => S) (fun _ => 0%R) no_cost (fun _ => [true]) true (Some 1%Z) 9 (mk_alg (2, mk_cost_st 1000000 [] 2 []) [true] true)) =
    Ok (mk_alg (3, mk_cost_st 1000000 [] 2 []) [true] true).
Proof. repeat split. Qed.
(** Two updates of a counter whose cost is its value, then another one. *)
Example C110_history_example :
  let cfg := mk_cost_cfg (1 / 10000) (Some 1%Z) 4 in
  exists a1 tr1 a2 tr2, iterate ADMM (fun _ => S) INR cfg (fun _ => []) false None 2 (mk_alg (0, cost_init 1000000) [] false) = Ok (a1, tr1) /\
    iterate ADMM (fun _ => S) INR cfg (fun _ => []) false None 1 a1 = Ok (a2, tr2) /\ cost_list (snd (data a2)) = [INR 1; INR 2; INR 3].
Proof.
  intros cfg. set (f := INR). clearbody f.
  exists (mk_alg (2, mk_cost_st (f 2) [f 1; f 2] 3 [f 1; f 2]) [] false), [EUpdate 0; EUpdate 1],
    (mk_alg (3, mk_cost_st (f 3) [f 1; f 2; f 3] 4 [f 1; f 2; f 3]) [] false), [EUpdate 0].
  split; [reflexivity|]. split; reflexivity.
Qed.
