From Verif Require Import Py Model_SetUp.
Local Open Scope nat_scope.

Section L.
Variable S_ : Type.
Variable upd met : nat -> S_ -> S_.
Variable cv : S_ -> bool.
Variable hm : bool.
Variable period : option Z.
Hypothesis period_nz : period <> Some 0%Z.

(** Are metrics evaluated at all? *)
Definition active : bool := (hm && match period with Some _ => true | None => false end)%bool.

(** One whole iteration, as plain functions. *)
Definition iter1 (idx : nat) (s : S_) : S_ :=
  if active then met idx (upd idx s) else upd idx s.

(** State after the iterations 0..k-1. *)
Fixpoint after (s : S_) (k : nat) : S_ :=
  match k with 0 => s | S k' => iter1 k' (after s k') end.

Definition one_iteration_events (i : nat) : list event :=
  if active then [EUpdate i; EMetrics i] else [EUpdate i].

Notation itf := (iterations_from (fun i s => Ok (upd i s)) cv (fun i s => Ok (met i s)) hm period).

Lemma step_eq mx i s tr :
  metrics_step cv (fun i s => Ok (met i s)) hm period mx i (upd i s) (tr ++ [EUpdate i])
  = Ok (iter1 i s, tr ++ one_iteration_events i).
Proof.
  unfold metrics_step, iter1, one_iteration_events, active.
  destruct hm; [|reflexivity]. destruct period as [m|]; [|reflexivity]. cbn [andb].
  destruct (Z.eqb_spec m 0) as [E|E]; [subst; congruence|].
  cbn [tuple_truth bind]. rewrite <- app_assoc. reflexivity.
Qed.

Lemma iterations_spec s0 mx : forall n i tr,
  exists N, N <= n /\
    itf mx n i (after s0 i) tr
      = Ok (after s0 (i + N), tr ++ flat_map one_iteration_events (seq i N)) /\
    (forall j, i < j < i + N -> cv (after s0 j) = false) /\
    (N = n \/ (0 < N /\ cv (after s0 (i + N)) = true)).
Proof.
  induction n as [|n IH]; intros i tr.
  - exists 0. cbn. rewrite Nat.add_0_r, app_nil_r. repeat split; auto. intros; lia.
  - cbn [iterations_from]. cbn [bind]. rewrite step_eq. cbn [bind].
    change (iter1 i (after s0 i)) with (after s0 (S i)).
    destruct (cv (after s0 (S i))) eqn:C.
    + exists 1. replace (i + 1) with (S i) by lia. cbn [seq flat_map]. rewrite app_nil_r.
      repeat split; try lia; auto.
    + destruct (IH (S i) (tr ++ one_iteration_events i)) as (N & L & E & F & D).
      exists (S N). split; [lia|]. rewrite E. replace (i + S N) with (S i + N) by lia. split.
      * cbn [seq flat_map]. rewrite <- app_assoc. reflexivity.
      * split.
        { intros j Hj. destruct (Nat.eq_dec j (S i)) as [->|Hne]; [exact C|]. apply F. lia. }
        { destruct D as [->|[D1 D2]]; [left; reflexivity|right; split; [lia|exact D2]]. }
Qed.

Lemma run_spec s0 n :
  exists N, N <= n /\
    run_alg (fun i s => Ok (upd i s)) cv (fun i s => Ok (met i s)) hm period n s0
      = Ok (after s0 N, flat_map one_iteration_events (seq 0 N)) /\
    (forall j, 0 < j < N -> cv (after s0 j) = false) /\
    (N = n \/ (0 < N /\ cv (after s0 N) = true)).
Proof. destruct (iterations_spec s0 n n 0 []) as (N & H). exists N. exact H. Qed.
End L.

Definition updates (tr : list event) : list nat :=
  flat_map (fun e => match e with EUpdate i => [i] | EMetrics _ => [] end) tr.
Definition metric_calls (tr : list event) : list nat :=
  flat_map (fun e => match e with EUpdate _ => [] | EMetrics i => [i] end) tr.

Lemma updates_events hm p l : updates (flat_map (one_iteration_events hm p) l) = l.
Proof.
  induction l as [|i l IH]; [reflexivity|]. cbn [flat_map]. unfold updates in *.
  rewrite flat_map_app, IH. unfold one_iteration_events. destruct (active hm p); reflexivity.
Qed.

Lemma metric_calls_events hm p l :
  metric_calls (flat_map (one_iteration_events hm p) l) = if active hm p then l else [].
Proof.
  induction l as [|i l IH]; [destruct (active hm p); reflexivity|]. cbn [flat_map]. unfold metric_calls in *.
  rewrite flat_map_app, IH. unfold one_iteration_events. destruct (active hm p); reflexivity.
Qed.

(** ** C17 *)
Section A.
Variable D : Type.
Variable step : nat -> D -> D.
Variable metric : nat -> D -> list bool.

Fixpoint data_after (d : D) (k : nat) : D :=
  match k with 0 => d | S k' => step k' (data_after d k') end.

Definition alg_upd cls cost idx s : alg_state D :=
  match alg_update cls step cost idx s with Ok s' => s' | Err _ => s end.
Definition alg_met idx s : alg_state D :=
  match alg_metrics metric idx s with Ok s' => s' | Err _ => s end.

Lemma after_data cls cost hm p s k :
  data (after _ (alg_upd cls cost) alg_met hm p s k) = data_after (data s) k.
Proof.
  induction k as [|k IH]; [reflexivity|]. cbn [after data_after]. unfold iter1.
  assert (E : forall s, data (alg_upd cls cost k s) = step k (data s)).
  { intros s'. unfold alg_upd, alg_update, end_of_update. destruct cost; reflexivity. }
  assert (EM : forall s, data (alg_met k s) = data s) by reflexivity.
  destruct (active hm p); rewrite ?EM, E, IH; reflexivity.
Qed.

Lemma flag_stops cls c hm p s0 i n :
  cls <> GenForwardBackward -> active hm p = true -> p <> Some 0%Z ->
  In true (metric i (data_after (data s0) (S i))) ->
  match run_alg (alg_update cls step (Some c)) conv (alg_metrics metric) hm p n s0 with
  | Ok (s, tr) => length (updates tr) <= i + 2
  | Err _ => False
  end.
Proof.
  intros Hc Ha Hp Hf.
  destruct (run_spec _ (alg_upd cls (Some c)) alg_met conv hm p Hp s0 n) as (N & L & E & F & _).
  change (fun (i : nat) (s : alg_state D) => Ok (alg_upd cls (Some c) i s)) with (alg_update cls step (Some c)) in E.
  change (fun (i : nat) (s : alg_state D) => Ok (alg_met i s)) with (alg_metrics metric) in E.
  rewrite E, updates_events, seq_length.
  destruct (Nat.le_gt_cases N (i + 2)) as [|G]; [assumption|]. exfalso.
  assert (C : conv (after _ (alg_upd cls (Some c)) alg_met hm p s0 (S (S i))) = false) by (apply F; lia).
  cbn [after] in C. unfold iter1 in C. rewrite Ha in C.
  set (s1 := after _ _ _ _ _ s0 i) in C.
  change (conv (alg_upd cls (Some c) (S i) (alg_met i (alg_upd cls (Some c) i s1))) = false) in C.
  assert (Fl : flags (alg_met i (alg_upd cls (Some c) i s1)) = metric i (data_after (data s0) (S i))).
  { cbn. f_equal. unfold s1. rewrite after_data. reflexivity. }
  unfold alg_upd at 1 in C. unfold alg_update, end_of_update in C. rewrite Fl in C. cbn [conv] in C.
  assert (X : any_convergence_flag (metric i (data_after (data s0) (S i))) = true).
  { unfold any_convergence_flag. apply existsb_exists. exists true. auto. }
  rewrite X in C. destruct cls; cbn in C; congruence.
Qed.

(** Without a cost function nothing sets [converge]: all iterations are made. *)
Lemma no_cost_never_stops cls hm p s0 n :
  p <> Some 0%Z -> conv s0 = false ->
  match run_alg (alg_update cls step None) conv (alg_metrics metric) hm p n s0 with
  | Ok (s, tr) => length (updates tr) = n
  | Err _ => False
  end.
Proof.
  intros Hp H0.
  destruct (run_spec _ (alg_upd cls None) alg_met conv hm p Hp s0 n) as (N & L & E & _ & Dd).
  change (fun (i : nat) (s : alg_state D) => Ok (alg_upd cls None i s)) with (alg_update cls step None) in E.
  change (fun (i : nat) (s : alg_state D) => Ok (alg_met i s)) with (alg_metrics metric) in E.
  rewrite E, updates_events, seq_length.
  destruct Dd as [->|[_ C]]; [reflexivity|]. exfalso.
  assert (G : forall k, conv (after _ (alg_upd cls None) alg_met hm p s0 k) = false); [|rewrite G in C; discriminate].
  induction k as [|k IH]; [exact H0|]. cbn [after]. unfold iter1. destruct (active hm p); cbn; exact IH.
Qed.

(** GenForwardBackward: the flags are irrelevant. *)
Lemma genfb_ignores_flags c hm p s0 n :
  p <> Some 0%Z -> (forall i d, c i d = false) ->
  match run_alg (alg_update GenForwardBackward step (Some c)) conv (alg_metrics metric) hm p n s0 with
  | Ok (s, tr) => length (updates tr) = n
  | Err _ => False
  end.
Proof.
  intros Hp Hc.
  destruct (run_spec _ (alg_upd GenForwardBackward (Some c)) alg_met conv hm p Hp s0 n) as (N & L & E & _ & Dd).
  change (fun (i : nat) (s : alg_state D) => Ok (alg_upd GenForwardBackward (Some c) i s)) with (alg_update GenForwardBackward step (Some c)) in E.
  change (fun (i : nat) (s : alg_state D) => Ok (alg_met i s)) with (alg_metrics metric) in E.
  rewrite E, updates_events, seq_length.
  destruct Dd as [->|[Hpos C]]; [reflexivity|]. exfalso.
  destruct N as [|k]; [lia|]. cbn [after] in C. unfold iter1 in C.
  destruct (active hm p); cbn in C; rewrite Hc in C; discriminate.
Qed.
End A.
