(** Property theorems C128: the progress bar and the message of a run. *)
From Verif Require Import Py Model_SetUp Model_Progress Spec_Progress.
Local Open Scope nat_scope.

Lemma updates_app l l' : updates (l ++ l') = updates l + updates l'.
Proof. induction l as [|[] l IH]; cbn; congruence. Qed.
Lemma messages_app l l' : messages (l ++ l') = messages l + messages l'.
Proof. induction l as [|[] l IH]; cbn; congruence. Qed.
Lemma calls_app l l' : calls (l ++ l') = calls l ++ calls l'.
Proof. induction l as [|[] l IH]; cbn; congruence. Qed.

Lemma truth_active b : bar_truth b = Ok true <-> active b.
Proof.
  split.
  - destruct b as [[t|] i c d]; cbn; intros E.
    + destruct t; [discriminate|]. constructor. lia.
    + destruct i as [[]|]; try discriminate. constructor.
  - intros A. destruct A; cbn; [|reflexivity]. destruct t; [lia|reflexivity].
Qed.
Lemma truth_usable b : (exists t, bar_truth b = Ok t) <-> usable b.
Proof.
  split.
  - intros [t E]. destruct b as [[?|] [?|] ? ?]; cbn in E; try discriminate; constructor.
  - intros U. destruct U; cbn; eauto.
Qed.
Lemma truth_update b : bar_truth (bar_update b) = bar_truth b.
Proof. destruct b as [[]]; reflexivity. Qed.

Section Loop.
Context {S_ : Type}.
Variables (update : nat -> S_ -> res S_) (converge : S_ -> bool) (compute_metrics : nat -> S_ -> res S_).
Variables (has_metrics : bool) (period : option Z) (verbose progress : bool).
Notation iters := (iterations_pb update converge compute_metrics has_metrics period verbose).
Notation run := (run_alg_pb update converge compute_metrics has_metrics period verbose progress).
Notation macts := (metrics_acts compute_metrics has_metrics period).
Notation plain := (run_alg update converge compute_metrics has_metrics period).

Lemma macts_counts mx idx s : updates (fst (macts mx idx s)) = 0 /\ messages (fst (macts mx idx s)) = 0.
Proof. unfold metrics_acts. destruct has_metrics, period as [m|]; cbn; auto. destruct (m =? 0)%Z; cbn; auto. Qed.

(** The loop without a bar is the loop of Model_SetUp. *)
Lemma iters_none mx n : forall idx s tr tr0, calls tr = tr0 ->
  let o := iters mx n idx s None tr in
  o_bar o = None /\
  match iterations_from update converge compute_metrics has_metrics period mx n idx s tr0 with
  | Ok (s', ev) => o_res o = Ok s' /\ calls (o_acts o) = ev
  | Err e => o_res o = Err e
  end.
Proof.
  induction n as [|n IH]; intros idx s tr tr0 E; cbn [iterations_pb iterations_from]; [cbn; auto|].
  destruct (update idx s) as [s1|e]; cbn [bind]; [|cbn; auto].
  unfold metrics_acts, metrics_step. cbn [tuple_truth].
  assert (Eu : calls (tr ++ [AUpdate idx]) = tr0 ++ [EUpdate idx]) by (rewrite calls_app, E; reflexivity).
  destruct has_metrics, period as [m|]; cbn [bind].
  - destruct (m =? 0)%Z; cbn [bind]; [cbn; auto|]. destruct (compute_metrics idx s1) as [s2|e]; cbn [bind]; [|cbn; auto].
    assert (Em : calls ((tr ++ [AUpdate idx]) ++ [AMetrics idx]) = (tr0 ++ [EUpdate idx]) ++ [EMetrics idx]) by (rewrite calls_app, Eu; reflexivity).
    destruct (converge s2); [|cbn [tick]; apply IH, Em].
    cbn. split; [reflexivity|]. split; [reflexivity|].
    destruct verbose; rewrite calls_app, Eu; reflexivity.
  - destruct (converge s1); [|cbn [tick]; rewrite app_nil_r; apply IH, Eu].
    cbn. split; [reflexivity|]. split; [reflexivity|]. destruct verbose; rewrite calls_app, Eu; cbn; rewrite ?app_nil_r; reflexivity.
  - destruct (converge s1); [|cbn [tick]; rewrite app_nil_r; apply IH, Eu].
    cbn. split; [reflexivity|]. split; [reflexivity|]. destruct verbose; rewrite calls_app, Eu; cbn; rewrite ?app_nil_r; reflexivity.
  - destruct (converge s1); [|cbn [tick]; rewrite app_nil_r; apply IH, Eu].
    cbn. split; [reflexivity|]. split; [reflexivity|]. destruct verbose; rewrite calls_app, Eu; cbn; rewrite ?app_nil_r; reflexivity.
Qed.

(** An active bar changes nothing else, and counts. *)
Lemma iters_some mx n : forall idx s b tr, bar_truth b = Ok true ->
  let o := iters mx n idx s (Some b) tr in let o0 := iters mx n idx s None tr in
  o_acts o = o_acts o0 /\ o_res o = o_res o0 /\
  exists k b', o_bar o = Some b' /\ advanced b k b' /\ bar_steps converge n (updates (o_acts o) - updates tr) k (o_res o) /\ updates tr <= updates (o_acts o).
Proof.
  induction n as [|n IH]; intros idx s b tr T; cbn [iterations_pb].
  - cbn. split; [reflexivity|]. split; [reflexivity|]. exists 0, b. split; [reflexivity|].
    split; [unfold advanced; auto|]. split; [|lia]. right. repeat split; lia.
  - pose proof (updates_app tr [AUpdate idx]) as U1. cbn in U1.
    assert (Stop : forall b0 l r, updates l = 0 -> (match r with Err _ => True | Ok s' => converge s' = true end) ->
      o_acts (mk_out ((tr ++ [AUpdate idx]) ++ l) (Some b0) r) = o_acts (mk_out ((tr ++ [AUpdate idx]) ++ l) None r) /\
      o_res (mk_out ((tr ++ [AUpdate idx]) ++ l) (Some b0) r) = o_res (mk_out ((tr ++ [AUpdate idx]) ++ l) None r) /\
      exists k b', Some b0 = Some b' /\ advanced b0 k b' /\
        bar_steps converge (S n) (updates ((tr ++ [AUpdate idx]) ++ l) - updates tr) k r /\ updates tr <= updates ((tr ++ [AUpdate idx]) ++ l)).
    { intros b0 l r L C. split; [reflexivity|]. split; [reflexivity|]. exists 0, b0. split; [reflexivity|].
      split; [unfold advanced; auto|]. rewrite updates_app, U1, L. split; [|lia]. destruct r; cbn; [left|]; split || idtac; try exact C; lia. }
    destruct (update idx s) as [s1|e].
    2: { specialize (Stop b [] (Err e) eq_refl I). rewrite app_nil_r in Stop. exact Stop. }
    destruct (macts_counts mx idx s1) as [Mu _].
    destruct (macts mx idx s1) as [ma r] eqn:Em. cbn [fst] in Mu. destruct r as [s2|e].
    2: { apply (Stop b ma (Err e) Mu I). }
    destruct (converge s2) eqn:C.
    + specialize (Stop b (ma ++ (if verbose then [AConverged] else [])) (Ok s2)). rewrite updates_app, Mu in Stop.
      destruct verbose; apply Stop; auto.
    + assert (Tk : tick (Some b) = Ok (Some (bar_update b))) by (unfold tick; rewrite T; reflexivity). rewrite Tk. change (tick None) with (@Ok (option bar) None). cbv iota beta zeta.
      specialize (IH (S idx) s2 (bar_update b) ((tr ++ [AUpdate idx]) ++ ma)). rewrite truth_update in IH. specialize (IH T).
      cbv zeta in IH. destruct IH as (A1 & A2 & k & b' & A3 & A4 & A5 & A6).
      split; [exact A1|]. split; [exact A2|]. exists (S k), b'. split; [exact A3|].
      rewrite updates_app, U1, Mu in A5, A6.
      split; [destruct A4 as (B1 & B2 & B3 & B4); unfold advanced; cbn in *; repeat split; [assumption..|lia]|].
      split; [|lia].
      match type of A2 with o_res ?o = _ => assert (E0 : n = 0 -> o_res o = Ok s2) by (intros ->; reflexivity); destruct (o_res o) as [s'|] end; cbn in A5 |- *; [|lia].
      destruct A5 as [[A5 A7]|(A5 & A7 & A8)]; [left; split; [lia|exact A7]|]. right. split; [lia|]. split; [lia|].
      intros _. destruct (Nat.eq_dec n 0) as [Z|Z]; [|apply A8; lia]. specialize (E0 Z). injection E0 as ->. exact C.
Qed.

Lemma iters_messages mx n : forall idx s b tr,
  let o := iters mx n idx s b tr in
  messages (o_acts o) - messages tr = (if verbose then match o_res o with Ok s' => if andb (Nat.ltb 0 n) (converge s') then 1 else 0 | Err _ => 0 end else 0)
  /\ messages tr <= messages (o_acts o).
Proof.
  induction n as [|n IH]; intros idx s b tr; cbn [iterations_pb].
  - cbn. destruct verbose; lia.
  - pose proof (messages_app tr [AUpdate idx]) as U1. cbn in U1.
    destruct (update idx s) as [s1|e]; [|cbn; rewrite U1; destruct verbose; lia].
    destruct (macts_counts mx idx s1) as [_ Mu].
    destruct (macts mx idx s1) as [ma r] eqn:Em. cbn [fst] in Mu. destruct r as [s2|e]; [|cbn; rewrite messages_app, U1, Mu; destruct verbose; lia].
    destruct (converge s2) eqn:C.
    + cbn. rewrite !messages_app, Mu, C. cbn. destruct verbose; cbn; lia.
    + destruct (tick b) as [b'|e]; [|cbn; rewrite messages_app, U1, Mu; destruct verbose; lia].
      specialize (IH (S idx) s2 b' ((tr ++ [AUpdate idx]) ++ ma)). cbv zeta in IH. rewrite messages_app, U1, Mu in IH.
      cbv zeta. destruct IH as [I1 I2]. split; [|lia]. rewrite !Nat.add_0_r in I1. rewrite I1. destruct verbose; [|reflexivity].
      destruct n; [cbn; rewrite C; reflexivity|]. reflexivity.
Qed.

(** The run itself, whatever bar is shown. *)
Lemma run_shape mx pb s : match pb with None => True | Some b => usable b end ->
  let o0 := iters mx mx 0 s None [] in let '(own, o) := run mx pb s in
  o_acts o = o_acts o0 /\ o_res o = o_res o0 /\
  match pb with
  | None => o_bar o = None /\ (progress = false -> own = None) /\
      (progress = true -> exists k, own = Some (mk_bar (Some mx) None k true) /\ bar_steps converge mx (updates (o_acts o)) k (o_res o))
  | Some b => own = None /\ exists b', o_bar o = Some b' /\ (~ active b -> b' = b) /\
      (active b -> exists k, advanced b k b' /\ bar_steps converge mx (updates (o_acts o)) k (o_res o))
  end.
Proof.
  intros U o0. unfold run_alg_pb. destruct pb as [b|].
  - apply truth_usable in U. destruct U as [t T]. replace (match progress with true | _ => _ end) with
      (match bar_truth b with
       | Ok true => (@None bar, iters mx mx 0 s (Some b) [])
       | Ok false => let o := iters mx mx 0 s None [] in (None, mk_out (o_acts o) (Some b) (o_res o))
       | Err e => (None, mk_out [] (Some b) (Err e)) end) by (destruct progress; reflexivity).
    rewrite T. destruct t.
    + destruct (iters_some mx mx 0 s b [] T) as (A1 & A2 & k & b' & A3 & A4 & A5 & _). cbn [updates] in A5. rewrite Nat.sub_0_r in A5.
      split; [exact A1|]. split; [exact A2|]. split; [reflexivity|]. exists b'. split; [exact A3|].
      split; [intros N; exfalso; apply N, truth_active, T|]. intros _. exists k. auto.
    + cbn. split; [reflexivity|]. split; [reflexivity|]. split; [reflexivity|]. exists b. split; [reflexivity|]. split; [reflexivity|].
      intros A. apply truth_active in A. congruence.
  - destruct progress.
    + destruct mx as [|mx].
      * cbn. repeat split; try discriminate. intros _. exists 0. split; [reflexivity|]. right. repeat split. lia.
      * destruct (iters_some (S mx) (S mx) 0 s (mk_bar (Some (S mx)) None 0 false) [] eq_refl) as (A1 & A2 & k & b' & A3 & A4 & A5 & _).
        cbn [updates] in A5. rewrite Nat.sub_0_r in A5. cbv zeta. cbn [o_acts o_res o_bar].
        split; [exact A1|]. split; [exact A2|]. split; [reflexivity|]. split; [discriminate|]. intros _. exists k.
        rewrite A3. destruct A4 as (B1 & B2 & B3 & B4). destruct b' as [b1 b2 b3 b4]. cbn in B1, B2, B3, B4. subst. split; [reflexivity|exact A5].
    + split; [reflexivity|]. split; [reflexivity|]. split; [apply (proj1 (iters_none mx mx 0 s [] [] eq_refl))|]. split; [reflexivity|discriminate].
Qed.
End Loop.

(** C128. Showing a bar, the algorithm's or the user's, does not change the run: same result or
    exception, same calls in the same order. *)
Theorem C128_run_unaffected :
  forall S_ (update : nat -> S_ -> res S_) converge compute_metrics has_metrics period verbose progress max_iter progbar s,
  (forall b, progbar = Some b -> usable b) ->
  let o := snd (run_alg_pb update converge compute_metrics has_metrics period verbose progress max_iter progbar s) in
  match run_alg update converge compute_metrics has_metrics period max_iter s with
  | Ok (s', events) => o_res o = Ok s' /\ calls (o_acts o) = events
  | Err e => o_res o = Err e
  end.
Proof.
  intros S_ u c m hm p v pr mx pb s U. cbv zeta.
  assert (U' : match pb with None => True | Some b => usable b end) by (destruct pb; auto).
  pose proof (run_shape u c m hm p v pr mx pb s U') as H. cbv zeta in H. destruct (run_alg_pb u c m hm p v pr mx pb s) as [own o].
  destruct H as (A & B & _). cbn [snd]. rewrite A, B.
  pose proof (iters_none u c m hm p v mx mx 0 s [] [] eq_refl) as [_ N]. exact N.
Qed.
Print Assumptions C128_run_unaffected.

(** The bar shown by default: of length max_iter, closed whatever happens, one step per update
    except for a last update that raises or after which the run has converged. *)
Theorem C128_own_bar :
  forall S_ (update : nat -> S_ -> res S_) converge compute_metrics has_metrics period verbose max_iter s,
  let '(own, o) := run_alg_pb update converge compute_metrics has_metrics period verbose true max_iter None s in
  exists k, own = Some (mk_bar (Some max_iter) None k true) /\ bar_steps converge max_iter (updates (o_acts o)) k (o_res o).
Proof.
  intros S_ u c m hm p v mx s. pose proof (run_shape u c m hm p v true mx None s I) as H. cbv zeta in H.
  destruct (run_alg_pb u c m hm p v true mx None s) as [own o]. destruct H as (_ & _ & _ & _ & H). apply H. reflexivity.
Qed.
Print Assumptions C128_own_bar.

(** The user's bar: no other is opened, it is not closed, it is advanced by the same rule if it is
    true (a positive total, or a true iterable and no total), and left alone otherwise. *)
Theorem C128_user_bar :
  forall S_ (update : nat -> S_ -> res S_) converge compute_metrics has_metrics period verbose progress max_iter b s, usable b ->
  let '(own, o) := run_alg_pb update converge compute_metrics has_metrics period verbose progress max_iter (Some b) s in
  own = None /\ exists b', o_bar o = Some b' /\ (~ active b -> b' = b) /\
    (active b -> exists k, advanced b k b' /\ bar_steps converge max_iter (updates (o_acts o)) k (o_res o)).
Proof.
  intros S_ u c m hm p v pr mx b s U. pose proof (run_shape u c m hm p v pr mx (Some b) s U) as H. cbv zeta in H.
  destruct (run_alg_pb u c m hm p v pr mx (Some b) s) as [own o]. apply H.
Qed.
Print Assumptions C128_user_bar.

(** Without any bar. *)
Theorem C128_no_bar :
  forall S_ (update : nat -> S_ -> res S_) converge compute_metrics has_metrics period verbose max_iter s,
  fst (run_alg_pb update converge compute_metrics has_metrics period verbose false max_iter None s) = None.
Proof. reflexivity. Qed.
Print Assumptions C128_no_bar.

(** A user's bar without total and iterable is not accepted: no update is made. *)
Theorem C128_unusable_bar :
  forall S_ (update : nat -> S_ -> res S_) converge compute_metrics has_metrics period verbose progress max_iter b s, ~ usable b ->
  run_alg_pb update converge compute_metrics has_metrics period verbose progress max_iter (Some b) s
  = (None, mk_out [] (Some b) (Err TypeError)).
Proof.
  intros S_ u c m hm p v pr mx b s N. unfold run_alg_pb.
  assert (T : bar_truth b = Err TypeError). { destruct b as [[t|] [i|] n d]; try reflexivity; exfalso; apply N; constructor. }
  destruct pr; rewrite T; reflexivity.
Qed.
Print Assumptions C128_unusable_bar.
Theorem C128_any_bar_refuted :
  exists (b : bar) (update : nat -> nat -> res nat) s s',
    run_alg update (fun _ => false) (fun _ s => Ok s) false None 1 s = Ok (s', [EUpdate 0]) /\
    o_res (snd (run_alg_pb update (fun _ => false) (fun _ s => Ok s) false None false true 1 (Some b) s)) = Err TypeError.
Proof. exists (mk_bar None None 0 false), (fun _ s => Ok s), 0, 0. split; reflexivity. Qed.
Print Assumptions C128_any_bar_refuted.

(** "The bar counts the updates" is false: a run that converges in its last update has made all
    its updates, and the bar has not reached its end. *)
Theorem C128_counts_updates_refuted :
  exists (update : nat -> bool -> res bool) s k,
    let '(own, o) := run_alg_pb update (fun s => s) (fun _ s => Ok s) false None false true 3 None s in
    o_res o = Ok true /\ updates (o_acts o) = 3 /\ own = Some (mk_bar (Some 3) None k true) /\ k < 3.
Proof. exists (fun i _ => Ok (Nat.eqb i 2)), false, 2. cbn. repeat split. lia. Qed.
Print Assumptions C128_counts_updates_refuted.

(** "Converged!" is printed once if verbose is set and the run ends by convergence, and otherwise
    not at all. *)
Theorem C128_message :
  forall S_ (update : nat -> S_ -> res S_) converge compute_metrics has_metrics period verbose progress max_iter progbar s,
  (forall b, progbar = Some b -> usable b) ->
  let o := snd (run_alg_pb update converge compute_metrics has_metrics period verbose progress max_iter progbar s) in
  (verbose = true -> 0 < max_iter -> (exists s', o_res o = Ok s' /\ converge s' = true) -> messages (o_acts o) = 1) /\
  (verbose = false \/ max_iter = 0 \/ (exists e, o_res o = Err e) \/ (exists s', o_res o = Ok s' /\ converge s' = false) -> messages (o_acts o) = 0).
Proof.
  intros S_ u c m hm p v pr mx pb s U. cbv zeta.
  assert (U' : match pb with None => True | Some b => usable b end) by (destruct pb; auto).
  pose proof (run_shape u c m hm p v pr mx pb s U') as H. cbv zeta in H. destruct (run_alg_pb u c m hm p v pr mx pb s) as [own o].
  destruct H as (A & B & _). cbn [snd]. rewrite A, B.
  pose proof (iters_messages u c m hm p v mx mx 0 s None []) as [M _]. cbn [messages] in M. rewrite Nat.sub_0_r in M. rewrite M. split.
  - intros -> Hm (s' & -> & ->). destruct mx; [lia|]. reflexivity.
  - intros [-> | [-> | [(e & ->) | (s' & -> & C)]]]; [reflexivity| |destruct v; reflexivity|].
    + destruct v; [|reflexivity]. cbn [Nat.ltb Nat.leb andb]. destruct (o_res _); reflexivity.
    + rewrite C, andb_false_r. destruct v; reflexivity.
Qed.
Print Assumptions C128_message.

(** * Condat with reweighting *)
Section Reweighted.
Context {S_ : Type}.
Variables (update : nat -> S_ -> res S_) (converge : S_ -> bool) (compute_metrics : nat -> S_ -> res S_).
Variables (has_metrics : bool) (period : option Z) (verbose : bool).
Notation iters := (iterations_pb update converge compute_metrics has_metrics period verbose).
Notation run := (run_alg_pb update converge compute_metrics has_metrics period verbose).
Notation runs := (reweightings_pb update converge compute_metrics has_metrics period verbose).
Definition pb_usable (pb : option bar) : Prop := match pb with None => True | Some b => usable b end.

Lemma advanced_usable b k b' : advanced b k b' -> usable b -> usable b'.
Proof. intros (A & B & _) U. destruct b' as [t i c d]. cbn in A, B. subst. destruct U; constructor. Qed.
Lemma advanced_active b k b' : advanced b k b' -> active b -> active b'.
Proof. intros (A & B & _) U. destruct b' as [t i c d]. cbn in A, B. subst. destruct U; constructor; assumption. Qed.
Lemma active_usable b : active b -> usable b.
Proof. intros A. destruct A; constructor. Qed.
Lemma active_dec b : active b \/ ~ active b.
Proof. destruct (bar_truth b) as [[]|] eqn:T; [left; apply truth_active, T|right; intros A; apply truth_active in A; congruence..]. Qed.

Lemma run_usable progress mx pb s : pb_usable pb -> pb_usable (o_bar (snd (run progress mx pb s))).
Proof.
  intros U. pose proof (run_shape update converge compute_metrics has_metrics period verbose progress mx pb s U) as H. cbv zeta in H.
  destruct (run progress mx pb s) as [own o]. cbn [snd]. destruct H as (_ & _ & H). destruct pb as [b|].
  - destruct H as (_ & b' & -> & N & A). cbn. destruct (active_dec b) as [Ab|Ab]; [|rewrite (N Ab); exact U].
    destruct (A Ab) as (k & K & _). exact (advanced_usable _ _ _ K U).
  - destruct H as (-> & _). exact I.
Qed.
Lemma run_same progress mx pb s : pb_usable pb ->
  o_acts (snd (run progress mx pb s)) = o_acts (snd (run false mx None s)) /\
  o_res (snd (run progress mx pb s)) = o_res (snd (run false mx None s)).
Proof.
  intros U. pose proof (run_shape update converge compute_metrics has_metrics period verbose progress mx pb s U) as H. cbv zeta in H.
  destruct (run progress mx pb s) as [own o]. destruct H as (A & B & _). cbn. auto.
Qed.

Lemma runs_same rw mx : forall k progress progress' pb pb' s tr, pb_usable pb -> pb_usable pb' ->
  o_acts (snd (runs progress rw k mx pb s tr)) = o_acts (snd (runs progress' rw k mx pb' s tr)) /\
  o_res (snd (runs progress rw k mx pb s tr)) = o_res (snd (runs progress' rw k mx pb' s tr)).
Proof.
  assert (R : forall pb, pb_usable pb -> exists pb', match pb with None => Ok None | Some b => do t <- bar_truth b; Ok (Some (if t : bool then bar_reset mx b else b)) end = Ok pb' /\ pb_usable pb').
  { intros pb U. destruct pb as [b|]; [|exists None; split; [reflexivity|exact I]]. destruct (proj2 (truth_usable b) U) as [t T]. rewrite T. cbn [bind].
    eexists. split; [reflexivity|]. destruct t; cbn; [constructor|exact U]. }
  induction k as [|k IH]; intros pr pr' pb pb' s tr U U'; [split; reflexivity|]. cbn [reweightings_pb].
  destruct (rw s) as [s1|e]; [|split; reflexivity].
  destruct (R pb U) as (q & -> & Uq). destruct (R pb' U') as (q' & -> & Uq').
  destruct (run_same pr mx q s1 Uq) as [A B]. pose proof (run_usable pr mx q s1 Uq) as U2.
  destruct (run_same pr' mx q' s1 Uq') as [A' B']. pose proof (run_usable pr' mx q' s1 Uq') as U3.
  destruct (run pr mx q s1) as [own o]. destruct (run pr' mx q' s1) as [own' o']. cbn [snd] in *. rewrite A, B, A', B'.
  destruct (o_res (snd (run false mx None s1))) as [s2|e]; [|split; reflexivity].
  destruct (IH pr pr' (o_bar o) (o_bar o') s2 (tr ++ o_acts (snd (run false mx None s1))) U2 U3) as [I1 I2].
  destruct (runs pr rw k mx (o_bar o) s2 _). destruct (runs pr' rw k mx (o_bar o') s2 _). cbn in *. auto.
Qed.

(** All updates from index [idx] on have larger indices. *)
Definition starts_at (l : list act) : Prop := exists rest, l = AUpdate 0 :: rest /\ ~ In (AUpdate 0) rest.
Lemma iters_acts mx n : forall idx s b tr, exists l, o_acts (iters mx n idx s b tr) = tr ++ l /\
  (0 < n -> exists rest, l = AUpdate idx :: rest /\ forall i, In (AUpdate i) rest -> idx < i) /\ (n = 0 -> l = []).
Proof.
  induction n as [|n IH]; intros idx s b tr; cbn [iterations_pb].
  - exists []. cbn. rewrite app_nil_r. repeat split; lia.
  - assert (Mm : forall s1 i, In (AUpdate i) (fst (metrics_acts compute_metrics has_metrics period mx idx s1)) -> False).
    { intros s1 i. unfold metrics_acts. destruct has_metrics, period as [m|]; cbn; auto. destruct (m =? 0)%Z; cbn; [auto|]. intros [E|[]]. discriminate. }
    assert (Fin : forall ma : list act, (forall i, In (AUpdate i) ma -> False) -> forall o r, exists l, o_acts (mk_out ((tr ++ [AUpdate idx]) ++ ma) o r : outcome S_) = tr ++ l /\
      (0 < S n -> exists rest, l = AUpdate idx :: rest /\ forall i, In (AUpdate i) rest -> idx < i) /\ (S n = 0 -> l = [])).
    { intros ma M o r. exists (AUpdate idx :: ma). cbn. rewrite <- app_assoc. split; [reflexivity|]. split; [|lia].
      intros _. exists ma. split; [reflexivity|]. intros i Hi. destruct (M i Hi). }
    destruct (update idx s) as [s1|e].
    2: { specialize (Fin [] ltac:(cbn; auto) b (Err e)). rewrite app_nil_r in Fin. exact Fin. }
    specialize (Mm s1). destruct (metrics_acts _ _ _ mx idx s1) as [ma r]. cbn [fst] in Mm. destruct r as [s2|e]; [|apply Fin, Mm].
    destruct (converge s2).
    { apply Fin. intros i Hi. apply in_app_or in Hi. destruct Hi as [Hi|Hi]; [exact (Mm i Hi)|]. destruct verbose; cbn in Hi; [destruct Hi as [Hi|[]]; discriminate|exact Hi]. }
    destruct (tick b) as [b'|e]; [|apply Fin, Mm].
    destruct (IH (S idx) s2 b' ((tr ++ [AUpdate idx]) ++ ma)) as (l & E & L1 & L2).
    exists (AUpdate idx :: ma ++ l). split; [rewrite E, <- !app_assoc; reflexivity|]. split; [|lia]. intros _. eexists. split; [reflexivity|].
    intros i Hi. apply in_app_or in Hi. destruct Hi as [Hi|Hi]; [destruct (Mm i Hi)|].
    destruct n as [|n]; [rewrite (L2 eq_refl) in Hi; destruct Hi|]. destruct (L1 ltac:(lia)) as (rest & -> & Lr).
    destruct Hi as [Hi|Hi]; [injection Hi as <-; lia|]. specialize (Lr i Hi). lia.
Qed.

(** The bar after a number of reweightings: of the last run only. *)
Lemma runs_bar rw mx progress : 0 < mx -> forall k b s tr s',
  active b -> 0 < k -> o_res (snd (runs progress rw k mx (Some b) s tr)) = Ok s' ->
  exists before last b', o_acts (snd (runs progress rw k mx (Some b) s tr)) = before ++ last /\ starts_at last /\
    o_bar (snd (runs progress rw k mx (Some b) s tr)) = Some b' /\ b_total b' = Some mx /\ b_closed b' = b_closed b /\
    bar_steps converge mx (updates last) (b_count b') (Ok s').
Proof.
  intros Hmx. induction k as [|k IH]; intros b s tr s' A Hk E; [lia|]. cbn [reweightings_pb] in *. destruct (rw s) as [s1|e]; [|discriminate].
  pose proof (proj2 (truth_active b) A) as T. rewrite T in *. cbn [bind] in *.
  assert (A1 : active (bar_reset mx b)) by (constructor; exact Hmx).
  pose proof (run_shape update converge compute_metrics has_metrics period verbose progress mx (Some (bar_reset mx b)) s1 (active_usable _ A1)) as H. cbv zeta in H.
  destruct (run progress mx (Some (bar_reset mx b)) s1) as [own o].
  destruct H as (HA & HB & _ & b1 & Eb & _ & Hact). destruct (Hact A1) as (c & Adv & St).
  destruct (o_res o) as [s2|e] eqn:Er; [|discriminate].
  destruct k as [|k].
  - cbn in E |- *. injection E as <-. rewrite Eb.
    exists tr, (o_acts o), b1. split; [reflexivity|]. split.
    { rewrite HA. destruct (iters_acts mx mx 0 s1 None []) as (l & El & L & _). rewrite El. cbn. destruct (L Hmx) as (rest & -> & Lr).
      exists rest. split; [reflexivity|]. intros Hi. specialize (Lr 0 Hi). lia. }
    split; [reflexivity|]. destruct Adv as (V1 & V2 & V3 & V4). cbn in V1, V2, V3, V4. rewrite V1, V3, V4. auto.
  - rewrite Eb in *. specialize (IH b1 s2 (tr ++ o_acts o) s' (advanced_active _ _ _ Adv A1) ltac:(lia)).
    destruct (runs progress rw (S k) mx (Some b1) s2 (tr ++ o_acts o)) as [owns o']. cbn [snd] in *. destruct (IH E) as (be & la & b' & I1 & I2 & I3 & I4 & I5 & I6).
    exists be, la, b'. repeat split; try assumption. rewrite I5. apply Adv.
Qed.

Lemma runs_own rw mx : forall k s tr s', o_res (snd (runs true rw k mx None s tr)) = Ok s' ->
  length (fst (runs true rw k mx None s tr)) = k /\
  Forall (fun own => exists c, own = Some (mk_bar (Some mx) None c true)) (fst (runs true rw k mx None s tr)).
Proof.
  induction k as [|k IH]; intros s tr s' E; [split; [reflexivity|constructor]|]. cbn [reweightings_pb] in *. destruct (rw s) as [s1|e]; [|discriminate].
  pose proof (run_shape update converge compute_metrics has_metrics period verbose true mx None s1 I) as H. cbv zeta in H.
  destruct (run true mx None s1) as [own o]. destruct H as (HA & HB & Eb & _ & H). destruct (H eq_refl) as (c & Eo & St).
  destruct (o_res o) as [s2|e] eqn:Er; [|discriminate]. rewrite Eb in *. specialize (IH s2 (tr ++ o_acts o) s').
  destruct (runs true rw k mx None s2 (tr ++ o_acts o)) as [owns o']. cbn in E, IH |- *. destruct (IH E) as [I1 I2]. split; [congruence|].
  constructor; [|exact I2]. exists c. exact Eo.
Qed.
End Reweighted.

(** Condat.iterate with reweighting: a bar does not change the runs; the user's bar is reset before
    each run, so that at the end it shows the last one (since the last update number 0); without a
    user's bar one is opened for each run. *)
Theorem C128_condat_unaffected :
  forall S_ (update : nat -> S_ -> res S_) converge compute_metrics has_metrics period verbose progress reweight k max_iter progbar s,
  (forall b, progbar = Some b -> usable b) ->
  let runs p pb := snd (condat_runs_pb update converge compute_metrics has_metrics period verbose p reweight k max_iter pb s) in
  o_acts (runs progress progbar) = o_acts (runs false None) /\ o_res (runs progress progbar) = o_res (runs false None).
Proof.
  intros S_ u c m hm p v pr rw k mx pb s U runs. unfold runs, condat_runs_pb.
  assert (U' : pb_usable pb) by (destruct pb; cbn; auto).
  destruct (run_same u c m hm p v pr mx pb s U') as [A B]. pose proof (run_usable u c m hm p v pr mx pb s U') as U2.
  pose proof (run_usable u c m hm p v false mx None s I) as U3.
  destruct (run_alg_pb u c m hm p v pr mx pb s) as [own o]. destruct (run_alg_pb u c m hm p v false mx None s) as [own0 o0]. cbn [snd] in *. rewrite A, B.
  destruct (o_res o0) as [s1|e] eqn:E; [|cbn; rewrite A, B; auto]. destruct rw as [rw|]; [|cbn; rewrite A, B; auto].
  destruct (runs_same u c m hm p v rw mx k pr false (o_bar o) (o_bar o0) s1 (o_acts o0) U2 U3) as [I1 I2].
  destruct (reweightings_pb u c m hm p v pr rw k mx (o_bar o) s1 (o_acts o0)), (reweightings_pb u c m hm p v false rw k mx (o_bar o0) s1 (o_acts o0)). cbn in *. auto.
Qed.
Print Assumptions C128_condat_unaffected.

Theorem C128_condat_bar :
  forall S_ (update : nat -> S_ -> res S_) converge compute_metrics has_metrics period verbose progress rw k max_iter b s s', active b -> 0 < max_iter -> 0 < k ->
  let o := snd (condat_runs_pb update converge compute_metrics has_metrics period verbose progress (Some rw) k max_iter (Some b) s) in
  o_res o = Ok s' ->
  exists before last b', o_acts o = before ++ last /\ starts_at last /\
    o_bar o = Some b' /\ b_total b' = Some max_iter /\ b_closed b' = b_closed b /\ bar_steps converge max_iter (updates last) (b_count b') (Ok s').
Proof.
  intros S_ u c m hm p v pr rw k mx b s s' A Hm Hk o E. unfold o, condat_runs_pb in *.
  pose proof (run_shape u c m hm p v pr mx (Some b) s (active_usable _ A)) as H. cbv zeta in H.
  destruct (run_alg_pb u c m hm p v pr mx (Some b) s) as [own o1]. destruct H as (HA & HB & _ & b1 & Eb & _ & Hact). destruct (Hact A) as (n & Adv & _).
  destruct (o_res o1) as [s1|e] eqn:Er; [|cbn in E; congruence]. rewrite Eb in *.
  pose proof (runs_bar u c m hm p v rw mx pr Hm k b1 s1 (o_acts o1) s' (advanced_active _ _ _ Adv A) Hk) as R.
  destruct (reweightings_pb u c m hm p v pr rw k mx (Some b1) s1 (o_acts o1)) as [owns o']. cbn [snd] in *.
  destruct (R E) as (be & la & b' & I1 & I2 & I3 & I4 & I5 & I6). exists be, la, b'. repeat split; try assumption. rewrite I5. apply Adv.
Qed.
Print Assumptions C128_condat_bar.

Theorem C128_condat_own_bars :
  forall S_ (update : nat -> S_ -> res S_) converge compute_metrics has_metrics period verbose rw k max_iter s s',
  let '(owns, o) := condat_runs_pb update converge compute_metrics has_metrics period verbose true (Some rw) k max_iter None s in
  o_res o = Ok s' -> length owns = k + 1 /\ Forall (fun own => exists c, own = Some (mk_bar (Some max_iter) None c true)) owns.
Proof.
  intros S_ u c m hm p v rw k mx s s'. unfold condat_runs_pb.
  pose proof (run_shape u c m hm p v true mx None s I) as H. cbv zeta in H.
  destruct (run_alg_pb u c m hm p v true mx None s) as [own o1]. destruct H as (HA & HB & Eb & _ & H). destruct (H eq_refl) as (n & Eo & _).
  destruct (o_res o1) as [s1|e] eqn:Er; [|intros E; congruence]. rewrite Eb.
  pose proof (runs_own u c m hm p v rw mx k s1 (o_acts o1) s') as R.
  destruct (reweightings_pb u c m hm p v true rw k mx None s1 (o_acts o1)) as [owns o']. cbn [fst snd] in R. intros E. destruct (R E) as [R1 R2].
  split; [cbn; lia|]. constructor; [exists n; exact Eo|exact R2].
Qed.
Print Assumptions C128_condat_own_bars.

(** A run of 5 updates that converges in the third, with a bar of length 5: two steps are shown; a
    user's bar that had counted 7 and has no total but an iterable shows 9 and stays open. *)
Example C128_example :
  let update (i : nat) (_ : bool) := Ok (Nat.eqb i 2) in
  let run pb := run_alg_pb update (fun s => s) (fun _ s => Ok s) false None true true 5 pb false in
  run None = (Some (mk_bar (Some 5) None 2 true), mk_out [AUpdate 0; AUpdate 1; AUpdate 2; AConverged] None (Ok true)) /\
  run (Some (mk_bar None (Some true) 7 false)) = (None, mk_out [AUpdate 0; AUpdate 1; AUpdate 2; AConverged] (Some (mk_bar None (Some true) 9 false)) (Ok true)).
Proof. split; reflexivity. Qed.
