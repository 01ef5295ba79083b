(** Property theorems C08-C17: base/types.py, base/observable.py, opt/algorithms/base.py. *)
From Verif Require Import NPReal Py Model_Types Proof_Types Model_Observable Spec_Observable
  Proof_Observable Model_SetUp Proof_SetUp.
From Coq Require Import FunctionalExtensionality.
Local Open Scope R_scope.

(** C08. [value] is the list of (real, imaginary) parts an object stands for. *)
Theorem C08_check_float_preserves_value :
  forall v, match check_float v with
  | Ok v' => holds_floats v' /\ (is_real v -> value v' = value v)
  | Err e => e = TypeError /\ v = PyObj
  end.
Proof. exact check_float_spec. Qed.
Print Assumptions C08_check_float_preserves_value.

Theorem C08_check_int_truncates_towards_zero :
  forall v, match check_int v with
  | Ok v' => holds_ints v' /\
      (is_real v -> exists lz lr, value v' = Some (map (fun z => (IZR z, 0)) lz) /\ value v = Some lr /\
         Forall2 (fun z c => is_truncation z (fst c)) lz lr)
  | Err e => e = TypeError /\ v = PyObj
  end.
Proof. exact check_int_spec. Qed.
Print Assumptions C08_check_int_truncates_towards_zero.

Theorem C08_checks_idempotent :
  forall v v', (check_float v = Ok v' -> check_float v' = Ok v') /\
               (check_int v = Ok v' -> check_int v' = Ok v').
Proof. intros v v'. split; [apply check_float_idem|apply check_int_idem]. Qed.
Print Assumptions C08_checks_idempotent.

(** The restriction to real inputs is needed: the imaginary part of a complex array is dropped. *)
Theorem C08_complex_imaginary_part_lost :
  exists v v', check_float v = Ok v' /\ value v' <> value v.
Proof. exact check_float_drops_imaginary. Qed.
Print Assumptions C08_complex_imaginary_part_lost.

Example C08_example :
  check_float (PyList [NInt 2; NFloat (-1/2)]) = Ok (ArrFloat [2; -1/2]) /\
  check_float PyObj = Err TypeError /\ check_int (ArrBool [true]) = Ok (ArrInt [1%Z]) /\
  is_truncation (-2) (-5/2).
Proof.
  repeat split; try reflexivity; rewrite ?Rabs_left by lra; try lra.
Qed.

Local Open Scope nat_scope.

(** C09 *)
Theorem C09_observers_unique_and_ordered :
  forall sigs h s, In s sigs ->
  exists L, observers (add_history (obsv_init sigs) h) s = Some L /\
            distinct_in_first_order (registered_for s h) L.
Proof. intros sigs h s Hs. exact (proj2 (proj2 (proj2 (add_history_inv sigs h))) s Hs). Qed.
Print Assumptions C09_observers_unique_and_ordered.

Theorem C09_unknown_signal_rejected :
  forall sigs h s ob, ~ In s sigs ->
  add_observer (add_history (obsv_init sigs) h) s ob = Err ValueError /\
  add_history (obsv_init sigs) (h ++ [(s, ob)]) = add_history (obsv_init sigs) h.
Proof.
  intros sigs h s ob Hs. destruct (add_history_inv sigs h) as (A & _).
  assert (E : add_observer (add_history (obsv_init sigs) h) s ob = Err ValueError)
    by (apply add_unknown; rewrite A; exact Hs).
  split; [exact E|]. unfold add_history in *. rewrite fold_left_app. cbn [fold_left fst snd].
  rewrite E. reflexivity.
Qed.
Print Assumptions C09_unknown_signal_rejected.

Example C09_example :
  observers (add_history (obsv_init [7; 8]) [(7, 3); (8, 1); (7, 5); (9, 4); (7, 3); (7, 2)]) 7 = Some [3; 5; 2].
Proof. reflexivity. Qed.

(** C10 is false: remove_observer calls a method that does not exist. *)
Theorem C10_remove_observer_removes_refuted :
  exists sigs h s ob, In s sigs /\ In (s, ob) h /\
    remove_observer (add_history (obsv_init sigs) h) s ob = Err AttributeError.
Proof. exists [0], [(0, 1)], 0, 1. cbn. auto. Qed.
Print Assumptions C10_remove_observer_removes_refuted.

Theorem C10_remove_observer_always_raises :
  forall o sig ob, remove_observer o sig ob = Err AttributeError.
Proof. exact remove_observer_fails. Qed.
Print Assumptions C10_remove_observer_always_raises.

(** C11. [beh log ob] is what observer [ob] does when called with everything called so far in
    [log]; [quiet] allows nested notifications and registrations on other signals. The last
    conjunct says the observable accepts notifications again. *)
Theorem C11_notify_calls_each_once_in_order :
  forall (K : Type) (beh : list (call K) -> nat -> list (action K)) sigs h sig kw log L fuel,
  let o := add_history (obsv_init sigs) h in
  observers o sig = Some L ->
  (forall lg ob, Forall (quiet K sig sigs) (beh lg ob)) ->
  length L + 2 <= fuel ->
  exists o', notify beh fuel o log sig kw = (o', log ++ map (fun ob => (ob, sig, kw)) L, Ok RNone) /\
    locked o' = false /\ observers o' sig = Some L.
Proof.
  intros K beh sigs h sig kw log L fuel o Ho Hq Hf.
  pose proof (add_history_inv sigs h) as Inv. fold o in Inv.
  apply notify_quiet; [apply Inv|eapply add_inv_wf; exact Inv|exact Ho| |exact Hf].
  destruct Inv as (A & _). rewrite A. exact Hq.
Qed.
Print Assumptions C11_notify_calls_each_once_in_order.

Theorem C11_nested_notification_dropped :
  forall (K : Type) (beh : list (call K) -> nat -> list (action K)) fuel o log sig kw,
  locked o = true -> notify beh (S fuel) o log sig kw = (o, log, Ok RFalse).
Proof. exact notify_locked. Qed.
Print Assumptions C11_nested_notification_dropped.

(** Observer 3 notifies the same signal from inside; observer 5 notifies an unknown signal. *)
Example C11_example :
  snd (fst (notify (fun _ ob => if ob =? 3 then [ANotify 7 true] else [ANotify 99 true]) 10
    (add_history (obsv_init [7]) [(7, 3); (7, 5); (7, 3)]) [] 7 false))
  = [(3, 7, false); (5, 7, false)].
Proof. reflexivity. Qed.

(** C12 is false: the lock is not released when an observer raises. *)
Theorem C12_exception_keeps_notifications_refuted :
  exists (beh : list (call unit) -> nat -> list (action unit)) sigs h sig o' log',
    notify beh 10 (add_history (obsv_init sigs) h) [] sig tt = (o', log', Err ValueError) /\
    observers o' sig <> Some [] /\
    forall f hist, later unit beh (S f) hist o' log' = (o', log').
Proof.
  exists (fun lg ob => [ARaise ValueError]), [0], [(0, 1); (0, 2)], 0.
  eexists _, _. split; [reflexivity|]. split; [discriminate|].
  intros f hist. apply locked_forever. reflexivity.
Qed.
Print Assumptions C12_exception_keeps_notifications_refuted.

(** ... whatever raised and whatever is notified later: nobody is ever called again. *)
Theorem C12_exception_disables_all_later_notifications :
  forall (K : Type) (beh : list (call K) -> nat -> list (action K)) sigs h sig kw log fuel o' log' e,
  notify beh fuel (add_history (obsv_init sigs) h) log sig kw = (o', log', Err e) ->
  e <> NotModelled ->
  forall f hist, later K beh (S f) hist o' log' = (o', log').
Proof.
  intros K beh sigs h sig kw log fuel o' log' e H He f hist. apply locked_forever.
  eapply notify_exception_locks; [|exact H|exact He]. eapply add_inv_wf. apply add_history_inv.
Qed.
Print Assumptions C12_exception_disables_all_later_notifications.

(** Merely notifying an unknown signal has the same effect. *)
Theorem C12_unknown_signal_disables_all_later_notifications :
  forall (K : Type) (beh : list (call K) -> nat -> list (action K)) sigs h sig kw log fuel,
  ~ In sig sigs ->
  exists o', notify beh (S fuel) (add_history (obsv_init sigs) h) log sig kw = (o', log, Err KeyError) /\
    forall f hist, later K beh (S f) hist o' log = (o', log).
Proof.
  intros K beh sigs h sig kw log fuel Hs. destruct (add_history_inv sigs h) as (_ & L & N & _).
  eexists. split.
  - rewrite notify_S, L, (N sig Hs). reflexivity.
  - intros f hist. apply locked_forever. reflexivity.
Qed.
Print Assumptions C12_unknown_signal_disables_all_later_notifications.

(** An exception raised by an observer, or by its attempt to register another one for an unknown
    signal, ends the round: the observers before it have been called, those after it are not, and
    the exception reaches whoever notified. *)
Inductive raises {K} (sigs : list nat) : action K -> exn -> Prop :=
| raised e : raises sigs (ARaise e) e
| added_for_unknown_signal s ob : ~ In s sigs -> raises sigs (AAdd s ob) ValueError.

Lemma run_raises {K} (beh : list (call K) -> nat -> list (action K)) f sig a e acts rest o log :
  locked o = true -> wf o -> Forall (quiet K sig (allowed o)) acts -> raises (allowed o) a e ->
  exists o', run_actions (notify beh (S f)) (acts ++ a :: rest) o log = (o', log, Err e).
Proof.
  intros Hl Hw Hq Ha. revert o Hl Hw Hq Ha. induction acts as [|b acts IH]; intros o Hl Hw Hq Ha.
  - cbn [app run_actions]. destruct Ha as [e|s ob Hs]; [exists o; reflexivity|].
    unfold add_observer, is_allowed_signal. destruct (memb s (allowed o)) eqn:M; [apply memb_In in M; contradiction|]. exists o. reflexivity.
  - inversion Hq as [|? ? Q1 Q2]; subst. cbn [app run_actions]. destruct b as [s kw|s ob|e']; [| |contradiction].
    + rewrite notify_locked by exact Hl. apply IH; assumption.
    + destruct Q1 as [_ Hin]. unfold add_observer, is_allowed_signal.
      apply memb_In in Hin as Hm. rewrite Hm. cbn [bind]. unfold add_observer_priv.
      destruct (observers o s) as [l|] eqn:E; [|destruct (Hw s Hin E)].
      destruct (memb ob l); [apply IH; assumption|].
      apply IH; [exact Hl| |exact Q2|exact Ha].
      intros s' Hs'. cbn. unfold dict_set. destruct (Nat.eqb s' s); [discriminate|apply Hw; exact Hs'].
Qed.

Lemma loop_raises {K} (beh : list (call K) -> nat -> list (action K)) sig kw e l1 ob l2 : forall l0 f o log,
  (length l1 <= f)%nat -> locked o = true -> wf o -> observers o sig = Some (l0 ++ l1 ++ ob :: l2) ->
  (forall lg b, In b l1 -> Forall (quiet K sig (allowed o)) (beh lg b)) ->
  (forall lg, exists acts a rest, beh lg ob = acts ++ a :: rest /\ Forall (quiet K sig (allowed o)) acts /\ raises (allowed o) a e) ->
  exists o', notify_loop beh (S (S f)) (length l0) o log sig kw = (o', log ++ map (fun b => (b, sig, kw)) (l1 ++ [ob]), Err e).
Proof.
  induction l1 as [|b l1 IH]; intros l0 f o log Hf Hl Hw Ho Hq Hr; rewrite notify_loop_S, Ho.
  - rewrite nth_error_app2, Nat.sub_diag by lia. cbn [app nth_error map].
    destruct (Hr (log ++ [(ob, sig, kw)])) as (acts & a & rest & -> & Q & R).
    destruct (run_raises beh f sig a e acts rest o (log ++ [(ob, sig, kw)]) Hl Hw Q R) as [o' ->]. exists o'. reflexivity.
  - rewrite nth_error_app2, Nat.sub_diag by lia. cbn [app nth_error].
    destruct f as [|f]; [cbn in Hf; lia|].
    destruct (run_quiet K beh (S f) sig (beh (log ++ [(b, sig, kw)]) b) o (log ++ [(b, sig, kw)]) Hl Hw (Hq _ _ (or_introl eq_refl)))
      as (o1 & -> & P1 & P2 & P3 & P4).
    destruct (IH (l0 ++ [b]) f o1 (log ++ [(b, sig, kw)])) as [o' E].
    + cbn in Hf. lia.
    + exact P1.
    + exact P2.
    + rewrite P4, Ho, <- !app_assoc. reflexivity.
    + rewrite P3. intros lg c Hc. apply Hq. right. exact Hc.
    + rewrite P3. exact Hr.
    + exists o'. rewrite app_length, Nat.add_1_r in E. rewrite E. cbn [map]. rewrite <- app_assoc. reflexivity.
Qed.

Theorem C12_exception_ends_the_round :
  forall (K : Type) (beh : list (call K) -> nat -> list (action K)) sigs h sig kw log L1 ob L2 e fuel,
  let o := add_history (obsv_init sigs) h in
  observers o sig = Some (L1 ++ ob :: L2) ->
  (forall lg b, In b L1 -> Forall (quiet K sig sigs) (beh lg b)) ->
  (forall lg, exists acts a rest, beh lg ob = acts ++ a :: rest /\ Forall (quiet K sig sigs) acts /\ raises sigs a e) ->
  (length L1 + 3 <= fuel)%nat ->
  exists o', notify beh fuel o log sig kw = (o', log ++ map (fun b => (b, sig, kw)) (L1 ++ [ob]), Err e).
Proof.
  intros K beh sigs h sig kw log L1 ob L2 e fuel o Ho Hq Hr Hf.
  pose proof (add_history_inv sigs h) as Inv. fold o in Inv. pose proof (add_inv_wf _ _ _ Inv) as Hw.
  destruct Inv as (A & L & _). destruct fuel as [|[|[|f]]]; try lia. rewrite notify_S, L, Ho.
  rewrite <- A in Hq, Hr. apply (loop_raises beh sig kw e L1 ob L2 [] f (set_lock true o) log); try assumption; [lia|reflexivity].
Qed.
Print Assumptions C12_exception_ends_the_round.

Example C12_example :
  later unit (fun _ ob => if ob =? 1 then [ARaise ValueError] else []) 5 [(0, tt)]
    (set_lock true (add_history (obsv_init [0]) [(0, 2)])) []
  = (set_lock true (add_history (obsv_init [0]) [(0, 2)]), []).
Proof. reflexivity. Qed.

Local Open Scope R_scope.

(** C13: every notification calls the metric function once, with the mapped attributes and the
    constants as keyword arguments, provided the attributes exist (AttributeError otherwise). *)
Lemma find_app {A} (f : A -> bool) l l' : find f (l ++ l') = match find f l with Some x => Some x | None => find f l' end.
Proof. induction l as [|a l IH]; cbn; [reflexivity|]. destruct (f a); [reflexivity|exact IH]. Qed.
Lemma build_kwargs_ok {V} mp (s : sigobj V) : attributes_present mp (sig_attr s) -> forall kw,
  exists kw', build_kwargs mp s kw = Ok kw' /\ forall k,
    kw' k = match find (fun p => match snd p with Some t => Nat.eqb t k | None => false end) (rev mp) with
            | Some p => sig_attr s (fst p) | None => kw k end.
Proof.
  induction mp as [|[key [t|]] mp IH]; intros A kw; cbn [build_kwargs].
  - exists kw. split; reflexivity.
  - destruct (sig_attr s key) as [v|] eqn:E; [|exfalso; apply (A key t); [left; reflexivity|exact E]].
    destruct (IH (fun k t' Hin => A k t' (or_intror Hin)) (dict_set kw t v)) as (kw' & E' & Q).
    exists kw'. split; [exact E'|]. intros k. rewrite Q. cbn [rev]. rewrite find_app.
    destruct (find _ (rev mp)); [reflexivity|]. cbn. unfold dict_set. rewrite (Nat.eqb_sym t k). destruct (Nat.eqb k t); [symmetry; exact E|reflexivity].
  - destruct (IH (fun k t' Hin => A k t' (or_intror Hin)) kw) as (kw' & E' & Q). exists kw'. split; [exact E'|].
    intros k. rewrite Q. cbn [rev]. rewrite find_app. destruct (find _ (rev mp)); reflexivity.
Qed.
Lemma constants_ok {V} (cst : list (nat * V)) : forall kw k,
  fold_left (fun d kv => dict_set d (fst kv) (snd kv)) cst kw k
  = match find (fun p => Nat.eqb (fst p) k) (rev cst) with Some p => Some (snd p) | None => kw k end.
Proof.
  induction cst as [|[n v] cst IH]; intros kw k; cbn [fold_left rev]; [reflexivity|]. rewrite IH, find_app.
  destruct (find _ (rev cst)); [reflexivity|]. cbn. unfold dict_set. rewrite (Nat.eqb_sym n k). destruct (Nat.eqb k n); reflexivity.
Qed.
Lemma metric_value_spec {V} (c : mcfg V) s : attributes_present (mapping c) (sig_attr s) ->
  metric_value V c s = metric c (keyword_value (mapping c) (cst_kwargs c) (sig_attr s)).
Proof.
  intros A. unfold metric_value. destruct (build_kwargs_ok (mapping c) s A (fun _ => None)) as (kw & E & Q). rewrite E. cbn [bind].
  f_equal. apply functional_extensionality. intros k. rewrite constants_ok, Q. reflexivity.
Qed.
Theorem C13_missing_attribute :
  forall (V : Type) (c : mcfg V) m s d, ~ attributes_present (mapping c) (sig_attr s) ->
  mobs_call c m s d = (m, Err AttributeError).
Proof.
  intros V c m s d N. unfold mobs_call. assert (G : forall mp kw, ~ attributes_present mp (sig_attr s) -> build_kwargs mp s kw = Err AttributeError).
  { induction mp as [|[key [t|]] mp IH]; intros kw Nm; cbn [build_kwargs].
    - exfalso. apply Nm. intros k t [].
    - destruct (sig_attr s key) as [v|] eqn:E; [|reflexivity]. apply IH. intros A. apply Nm.
      intros k t' [Q|Q]; [injection Q as <- <-; congruence|apply (A k t' Q)].
    - apply IH. intros A. apply Nm. intros k t' [Q|Q]; [discriminate|apply (A k t' Q)]. }
  rewrite G by exact N. reflexivity.
Qed.
Print Assumptions C13_missing_attribute.

Theorem C13_series_aligned :
  forall (V : Type) (c : mcfg V) (h : list (sigobj V * R)) (vals : list R),
  Forall2 (fun e v => sig_idx (fst e) <> None /\ attributes_present (mapping c) (sig_attr (fst e)) /\
                      metric c (keyword_value (mapping c) (cst_kwargs c) (sig_attr (fst e))) = Ok v) h vals ->
  let r := retrieve_metrics (mobs_run c h mobs_init) in
  map Some (r_index r) = map (fun e => sig_idx (fst e)) h /\ r_values r = vals /\
  length (r_time r) = length h /\
  (forall k e e0, nth_error h k = Some e -> nth_error h 0 = Some e0 ->
     nth_error (r_time r) k = Some (snd e - snd e0)).
Proof.
  intros V c h vals F. apply aligned. induction F as [|e v h vals (Hi & Ha & Hv) F IH]; constructor; [|exact IH].
  split; [exact Hi|]. rewrite metric_value_spec; assumption.
Qed.
Print Assumptions C13_series_aligned.

Theorem C13_times_start_at_zero_and_grow :
  forall (V : Type) (c : mcfg V) (h : list (sigobj V * R)) (vals : list R) e0 h',
  Forall2 (fun e v => sig_idx (fst e) <> None /\ attributes_present (mapping c) (sig_attr (fst e)) /\
                      metric c (keyword_value (mapping c) (cst_kwargs c) (sig_attr (fst e))) = Ok v) h vals ->
  h = e0 :: h' -> nondecreasing (map snd h) ->
  let r := retrieve_metrics (mobs_run c h mobs_init) in
  nth_error (r_time r) 0 = Some 0 /\ nondecreasing (r_time r).
Proof.
  intros V c h vals e0 h' F. apply times_start_and_grow with (vals := vals). clear -F.
  induction F as [|e v h vals (Hi & Ha & Hv) F IH]; constructor; [|exact IH].
  split; [exact Hi|]. rewrite metric_value_spec; assumption.
Qed.
Print Assumptions C13_times_start_at_zero_and_grow.

(** ... but not when it raises. *)
Theorem C13_series_aligned_when_metric_raises_refuted :
  exists (c : mcfg nat) h, let r := retrieve_metrics (mobs_run c h mobs_init) in
    length (r_index r) <> length (r_values r).
Proof. exact misaligned_on_raise. Qed.
Print Assumptions C13_series_aligned_when_metric_raises_refuted.

Theorem C13_misalignment_counts_raises :
  forall (V : Type) (c : mcfg V) h,
  Forall (fun e => sig_idx (fst e) <> None /\ attributes_present (mapping c) (sig_attr (fst e))) h ->
  let raises e := negb (is_ok (metric c (keyword_value (mapping c) (cst_kwargs c) (sig_attr (fst e))))) in
  let r := retrieve_metrics (mobs_run c h mobs_init) in
  length (r_index r) = length h /\ length (r_time r) = length h /\
  (length (r_values r) + length (filter raises h) = length h)%nat.
Proof.
  intros V c h F. cbv zeta. 
  assert (F' : Forall (fun e => sig_idx (fst e) <> None /\ is_ok (build_kwargs (mapping c) (fst e) (fun _ => None)) = true) h).
  { eapply Forall_impl; [|exact F]. intros e [Hi Ha]. split; [exact Hi|].
    destruct (build_kwargs_ok (mapping c) (fst e) Ha (fun _ => None)) as (kw & E & _). rewrite E. reflexivity. }
  destruct (misaligned_by c h F') as (A & B & C). split; [exact A|]. split; [exact B|]. etransitivity; [|exact C]. do 2 f_equal.
  clear -F. induction F as [|e h [Hi Ha] F IH]; [reflexivity|]. cbn [filter]. unfold metric_raises. rewrite metric_value_spec by exact Ha.
  destruct (metric c _); cbn; rewrite IH; reflexivity.
Qed.
Print Assumptions C13_misalignment_counts_raises.

(** A metric reading the attribute 1 through the keyword 2. *)
Definition ex_mcfg : mcfg R :=
  mk_mcfg R (fun kw => match kw 2%nat with Some x => Ok (2 * x) | None => Err TypeError end)
    [(1%nat, Some 2%nat); (3%nat, None)] [] true 2 (1/10).
Definition ex_sig (i : nat) (x : R) : sigobj R :=
  mk_sigobj R (Some i) (fun k => if (k =? 1)%nat then Some x else None).

Example C13_example :
  let h := [(ex_sig 0 3, 10); (ex_sig 1 4, 12)] in
  Forall2 (fun e v => sig_idx (fst e) <> None /\ attributes_present (mapping ex_mcfg) (sig_attr (fst e)) /\
    metric ex_mcfg (keyword_value (mapping ex_mcfg) (cst_kwargs ex_mcfg) (sig_attr (fst e))) = Ok v) h [2 * 3; 2 * 4] /\
  r_index (retrieve_metrics (mobs_run ex_mcfg h mobs_init)) = [0; 1]%nat.
Proof.
  split; [repeat (constructor; [split; [discriminate|]; split; [intros key t [Q|[Q|[]]]; inversion Q; discriminate|reflexivity]|]); constructor|].
  destruct (aligned R ex_mcfg [(ex_sig 0 3, 10); (ex_sig 1 4, 12)] [2 * 3; 2 * 4]) as (E & _).
  - repeat constructor; discriminate.
  - cbn [map fst ex_sig sig_idx] in E. cbn zeta in *.
    destruct (r_index _) as [|a [|b [|? ?]]]; cbn in E; congruence.
Qed.

(** C14, for windows w = 2k. *)
Theorem C14_flag_is_windowed_change_test :
  forall (V : Type) (c : mcfg V) (h : list (sigobj V * R)) (vals : list R) k,
  early_stopping c = true -> wind c = (2 * Z.of_nat k)%Z -> (0 < k)%nat ->
  Forall2 (fun e v => sig_idx (fst e) <> None /\ attributes_present (mapping c) (sig_attr (fst e)) /\
                      metric c (keyword_value (mapping c) (cst_kwargs c) (sig_attr (fst e))) = Ok v) h vals ->
  let flag := converge_flag (mobs_run c h mobs_init) in
  ((length vals < 2 * k)%nat -> flag = false) /\
  ((2 * k <= length vals)%nat -> (flag = true <-> windowed_change_below k (eps c) vals)).
Proof.
  intros V c h vals k He Hw Hk F. apply flag_after_history; [exact He|exact Hw|exact Hk|]. clear -F.
  induction F as [|e v h vals (Hi & Ha & Hv) F IH]; constructor; [|exact IH].
  split; [exact Hi|]. rewrite metric_value_spec; assumption.
Qed.
Print Assumptions C14_flag_is_windowed_change_test.

Example C14_example :
  converge_flag (mobs_run ex_mcfg [(ex_sig 0 3, 0); (ex_sig 1 3, 1)] mobs_init) = true.
Proof.
  destruct (flag_after_history R ex_mcfg [(ex_sig 0 3, 0); (ex_sig 1 3, 1)] [2 * 3; 2 * 3] 1) as [_ H];
    try reflexivity; [lia|repeat constructor; discriminate|].
  apply H; [cbn; lia|]. exists [], [2 * 3], [2 * 3]. repeat split; try reflexivity.
  - unfold average; cbn. lra.
  - unfold average; cbn. rewrite Rminus_diag_eq, Rabs_R0 by reflexivity. rewrite Rabs_right; lra.
Qed.

Local Open Scope nat_scope.

(** C15: exactly N updates, with indices 0..N-1, where N is max_iter or the first converged
    iteration. [after s0 k] is the state after k iterations. *)
Theorem C15_stops_at_convergence_or_max_iter :
  forall (S_ : Type) (upd met : nat -> S_ -> S_) (cv : S_ -> bool) hm period,
  period <> Some 0%Z -> forall s0 n,
  exists N tr, N <= n /\
    run_alg (fun i s => Ok (upd i s)) cv (fun i s => Ok (met i s)) hm period n s0
      = Ok (after S_ upd met hm period s0 N, tr) /\
    updates tr = seq 0 N /\
    (forall j, 0 < j < N -> cv (after S_ upd met hm period s0 j) = false) /\
    (N = n \/ (0 < N /\ cv (after S_ upd met hm period s0 N) = true)).
Proof.
  intros S_ upd met cv hm period Hp s0 n.
  destruct (run_spec S_ upd met cv hm period Hp s0 n) as (N & L & E & F & D).
  exists N, (flat_map (one_iteration_events hm period) (seq 0 N)).
  rewrite updates_events. auto.
Qed.
Print Assumptions C15_stops_at_convergence_or_max_iter.

(** A counter that converges when it reaches 3. *)
Example C15_example :
  match run_alg (fun _ s => Ok (s + 1)) (fun s => s =? 3) (fun _ s => Ok s) true (Some 5%Z) 10 0 with
  | Ok (s, tr) => s = 3 /\ updates tr = [0; 1; 2]
  | Err _ => False end.
Proof. vm_compute. auto. Qed.

(** C16 is false: the condition is a one-element tuple, hence always true. *)
Theorem C16_metrics_only_on_period_refuted :
  exists (m : Z) n, (1 < m)%Z /\
    match run_alg (fun _ s => Ok s) (fun _ : unit => false) (fun _ s => Ok s) true (Some m) n tt with
    | Ok (_, tr) => exists i, In i (metric_calls tr) /\ (Z.of_nat i mod m <> 0)%Z /\ S i <> n
    | Err _ => False end.
Proof. exists 5%Z, 3. split; [lia|]. cbn. exists 1. split; [auto|]. split; [discriminate|lia]. Qed.
Print Assumptions C16_metrics_only_on_period_refuted.

(** ... metrics are evaluated on every iteration performed, whatever the period. *)
Theorem C16_metrics_on_every_iteration :
  forall (S_ : Type) (upd met : nat -> S_ -> S_) (cv : S_ -> bool) m, m <> 0%Z -> forall s0 n,
  exists s tr, run_alg (fun i s => Ok (upd i s)) cv (fun i s => Ok (met i s)) true (Some m) n s0 = Ok (s, tr) /\
    metric_calls tr = updates tr.
Proof.
  intros S_ upd met cv m Hm s0 n.
  destruct (run_spec S_ upd met cv true (Some m) ltac:(congruence) s0 n) as (N & L & E & _).
  eexists _, _. split; [exact E|]. rewrite updates_events, metric_calls_events. reflexivity.
Qed.
Print Assumptions C16_metrics_on_every_iteration.

Theorem C16_period_zero_raises :
  forall (S_ : Type) (upd met : nat -> S_ -> S_) (cv : S_ -> bool) s0 n,
  run_alg (fun i s => Ok (upd i s)) cv (fun i s => Ok (met i s)) true (Some 0%Z) (S n) s0 = Err ZeroDivisionError.
Proof. reflexivity. Qed.
Print Assumptions C16_period_zero_raises.

Example C16_example :
  match run_alg (fun _ s => Ok (s + 1)) (fun s => s =? 4) (fun _ s => Ok s) true (Some 5%Z) 10 0 with
  | Ok (_, tr) => metric_calls tr = [0; 1; 2; 3]
  | Err _ => False end.
Proof. reflexivity. Qed.

(** C17: [metric i d] are the convergence flags after the metric evaluation of iteration i. *)
Theorem C17_early_stopping_stops :
  forall (D : Type) (step : nat -> D -> D) (metric : nat -> D -> list bool) cls c p s0 i n,
  cls <> GenForwardBackward -> p <> 0%Z ->
  In true (metric i (data_after D step (data s0) (S i))) ->
  match run_alg (alg_update cls step (Some c)) conv (alg_metrics metric) true (Some p) n s0 with
  | Ok (s, tr) => length (updates tr) <= i + 2
  | Err _ => False
  end.
Proof.
  intros. apply flag_stops; auto; congruence.
Qed.
Print Assumptions C17_early_stopping_stops.

(** False for GenForwardBackward, which never looks at the flags. *)
Theorem C17_early_stopping_GenForwardBackward_refuted :
  exists (D : Type) (step : nat -> D -> D) (metric : nat -> D -> list bool) c p s0 i n,
  p <> 0%Z /\ In true (metric i (data_after D step (data s0) (S i))) /\
  match run_alg (alg_update GenForwardBackward step (Some c)) conv (alg_metrics metric) true (Some p) n s0 with
  | Ok (s, tr) => i + 2 < length (updates tr)
  | Err _ => False
  end.
Proof.
  exists unit, (fun _ d => d), (fun _ _ => [true]), (fun _ _ => false), 5%Z, (mk_alg tt [] false), 0, 150.
  split; [lia|]. split; [left; reflexivity|]. vm_compute. lia.
Qed.
Print Assumptions C17_early_stopping_GenForwardBackward_refuted.

Theorem C17_GenForwardBackward_ignores_flags :
  forall (D : Type) (step : nat -> D -> D) (metric : nat -> D -> list bool) c hm p s0 n,
  p <> Some 0%Z -> (forall i d, c i d = false) ->
  match run_alg (alg_update GenForwardBackward step (Some c)) conv (alg_metrics metric) hm p n s0 with
  | Ok (s, tr) => length (updates tr) = n
  | Err _ => False
  end.
Proof. exact genfb_ignores_flags. Qed.
Print Assumptions C17_GenForwardBackward_ignores_flags.

(** Without a cost function no class stops early, whatever the flags. *)
Theorem C17_no_cost_never_stops :
  forall (D : Type) (step : nat -> D -> D) (metric : nat -> D -> list bool) cls hm p s0 n,
  p <> Some 0%Z -> conv s0 = false ->
  match run_alg (alg_update cls step None) conv (alg_metrics metric) hm p n s0 with
  | Ok (s, tr) => length (updates tr) = n
  | Err _ => False
  end.
Proof. exact no_cost_never_stops. Qed.
Print Assumptions C17_no_cost_never_stops.

Example C17_example :
  match run_alg (alg_update POGM (fun _ d => d + 1) (Some (fun _ _ => false))) conv
    (alg_metrics (fun _ d => [false; 3 <=? d])) true (Some 1%Z) 20 (mk_alg 0 [false; false] false) with
  | Ok (s, tr) => length (updates tr) = 4
  | Err _ => False end.
Proof. reflexivity. Qed.
