From Verif Require Import NPReal Py Model_Observable Spec_Observable.
Open Scope nat_scope.

Lemma memb_In x l : memb x l = true <-> In x l.
Proof.
  unfold memb. rewrite existsb_exists. split.
  - intros (y & Hy & E). apply Nat.eqb_eq in E. subst. exact Hy.
  - intros H. exists x. split; [exact H|apply Nat.eqb_refl].
Qed.

Lemma memb_false x l : memb x l = false <-> ~ In x l.
Proof. rewrite <- memb_In. destruct (memb x l); split; congruence. Qed.

(** * add_observer histories (C09) *)

(** Each call either succeeds or raises; a raise is handled by the caller and, as proved by
    [add_unknown], leaves the object unchanged. *)
Definition add_history (o : obsv) (h : list (nat * nat)) : obsv :=
  fold_left (fun o p => match add_observer o (fst p) (snd p) with Ok o' => o' | Err _ => o end) h o.

Lemma init_observers sigs s :
  observers (obsv_init sigs) s = if memb s sigs then Some [] else None.
Proof.
  unfold obsv_init. cbn [observers].
  assert (G : forall l d, fold_left (fun d s => dict_set d s (@nil nat)) l d s
     = if memb s l then Some [] else d s).
  { induction l as [|x l IH]; intros d; cbn [fold_left]; [reflexivity|].
    rewrite IH. unfold dict_set. cbn [memb existsb].
    fold (memb s l). destruct (memb s l); [rewrite Bool.orb_true_r; reflexivity|].
    rewrite Bool.orb_false_r. destruct (Nat.eqb s x); reflexivity. }
  rewrite G. reflexivity.
Qed.

Lemma add_unknown o sig ob : ~ In sig (allowed o) -> add_observer o sig ob = Err ValueError.
Proof. intros H. unfold add_observer, is_allowed_signal. apply memb_false in H. rewrite H. reflexivity. Qed.

Lemma dio_nil : distinct_in_first_order [] [].
Proof.
  split; [constructor|]. split; [tauto|]. intros [|i] j a b _ H; discriminate.
Qed.

Lemma dio_dup H L x : distinct_in_first_order H L -> In x L -> distinct_in_first_order (H ++ [x]) L.
Proof.
  intros (N & I & O) Hx. split; [exact N|]. split.
  - intros o. rewrite in_app_iff. cbn. split; [intros; left; apply I; assumption|].
    intros [?|[<-|[]]]; [apply I; assumption|exact Hx].
  - intros i j a b L1 Ha Hb. destruct (O i j a b L1 Ha Hb) as (k & K1 & K2).
    exists k. assert (k < length H) by (apply nth_error_Some; congruence).
    split; [rewrite nth_error_app1 by assumption; exact K1|].
    rewrite firstn_app. replace (S k - length H) with 0 by lia. cbn [firstn]. rewrite app_nil_r. exact K2.
Qed.

Lemma dio_new H L x : distinct_in_first_order H L -> ~ In x L -> distinct_in_first_order (H ++ [x]) (L ++ [x]).
Proof.
  intros (N & I & O) Hx. split; [|split].
  - apply (NoDup_Add (a := x) (l := L)); [|split; assumption].
    rewrite <- (app_nil_r L) at 1. apply Add_app.
  - intros o. rewrite !in_app_iff, I. tauto.
  - intros i j a b L1 Ha Hb.
    assert (Hi : i < length L).
    { assert (j < length (L ++ [x])) by (apply nth_error_Some; congruence).
      rewrite app_length in *. cbn in *. lia. }
    rewrite nth_error_app1 in Ha by exact Hi.
    destruct (Nat.lt_ge_cases j (length L)) as [Hj|Hj].
    + rewrite nth_error_app1 in Hb by exact Hj.
      destruct (O i j a b L1 Ha Hb) as (k & K1 & K2).
      assert (k < length H) by (apply nth_error_Some; congruence).
      exists k. split; [rewrite nth_error_app1 by assumption; exact K1|].
      rewrite firstn_app. replace (S k - length H) with 0 by lia. cbn [firstn]. rewrite app_nil_r. exact K2.
    + rewrite nth_error_app2 in Hb by exact Hj.
      assert (b = x). { destruct (j - length L) as [|m]; cbn in Hb; [congruence|destruct m; discriminate]. }
      subst b.
      assert (HaH : In a H) by (apply I; eapply nth_error_In; exact Ha).
      apply In_nth_error in HaH. destruct HaH as [k Hk].
      assert (k < length H) by (apply nth_error_Some; congruence).
      exists k. split; [rewrite nth_error_app1 by assumption; exact Hk|].
      rewrite firstn_app. replace (S k - length H) with 0 by lia. cbn [firstn]. rewrite app_nil_r.
      intros Hin. apply Hx. apply I. rewrite <- (firstn_skipn (S k) H). apply in_app_iff. left; exact Hin.
Qed.

Definition add_inv (sigs : list nat) (h : list (nat * nat)) (o : obsv) : Prop :=
  allowed o = sigs /\ locked o = false /\
  (forall s, ~ In s sigs -> observers o s = None) /\
  forall s, In s sigs -> exists L, observers o s = Some L /\
    distinct_in_first_order (registered_for s h) L.

Lemma registered_for_snoc s h p :
  registered_for s (h ++ [p]) = registered_for s h ++ (if Nat.eqb (fst p) s then [snd p] else []).
Proof.
  unfold registered_for. rewrite filter_app, map_app. cbn.
  destruct (Nat.eqb (fst p) s); reflexivity.
Qed.

Lemma add_inv_step sigs h o p :
  add_inv sigs h o ->
  add_inv sigs (h ++ [p]) (match add_observer o (fst p) (snd p) with Ok o' => o' | Err _ => o end).
Proof.
  intros (A & Lk & N & I). destruct p as [sg ob]. cbn [fst snd].
  destruct (in_dec Nat.eq_dec sg sigs) as [Hs|Hs].
  2:{ rewrite add_unknown by (rewrite A; exact Hs).
      split; [exact A|]. split; [exact Lk|]. split; [exact N|].
      intros s Hin. destruct (I s Hin) as (L & E1 & E2). exists L. split; [exact E1|].
      rewrite registered_for_snoc. cbn [fst snd]. destruct (Nat.eqb_spec sg s); [subst; contradiction|].
      rewrite app_nil_r. exact E2. }
  unfold add_observer, is_allowed_signal. rewrite A. apply memb_In in Hs as Hs'. rewrite Hs'. cbn [bind].
  unfold add_observer_priv. destruct (I sg Hs) as (L & E1 & E2). rewrite E1.
  destruct (memb ob L) eqn:M.
  - apply memb_In in M. split; [exact A|]. split; [exact Lk|]. split; [exact N|].
    intros s Hin. rewrite registered_for_snoc. cbn [fst snd].
    destruct (Nat.eqb_spec sg s) as [->|Hne].
    + exists L. split; [exact E1|]. apply dio_dup; assumption.
    + rewrite app_nil_r. apply I. exact Hin.
  - apply memb_false in M. split; [exact A|]. split; [exact Lk|]. cbn [observers]. split.
    + intros s Hin. unfold dict_set. destruct (Nat.eqb_spec s sg); [subst; contradiction|apply N; exact Hin].
    + intros s Hin. rewrite registered_for_snoc. cbn [fst snd]. unfold dict_set.
      destruct (Nat.eqb_spec s sg) as [->|Hne].
      * rewrite Nat.eqb_refl. exists (L ++ [ob]). split; [reflexivity|]. apply dio_new; assumption.
      * destruct (Nat.eqb_spec sg s); [congruence|]. rewrite app_nil_r. apply I. exact Hin.
Qed.

Lemma add_history_inv sigs h : add_inv sigs h (add_history (obsv_init sigs) h).
Proof.
  induction h as [|p h IH] using rev_ind.
  - split; [reflexivity|]. split; [reflexivity|]. cbn [add_history fold_left]. split.
    + intros s Hs. rewrite init_observers. apply memb_false in Hs. rewrite Hs. reflexivity.
    + intros s Hs. rewrite init_observers. apply memb_In in Hs. rewrite Hs.
      exists []. split; [reflexivity|apply dio_nil].
  - unfold add_history. rewrite fold_left_app. cbn [fold_left]. apply add_inv_step. exact IH.
Qed.

(** * remove_observer (C10) *)
Lemma remove_observer_fails o sig ob : remove_observer o sig ob = Err AttributeError.
Proof. reflexivity. Qed.

(** * notify_observers (C11, C12) *)
Section N.
Variable K : Type.
Variable beh : list (call K) -> nat -> list (action K).
Notation notify := (notify beh).
Notation notify_loop := (notify_loop beh).

Lemma notify_S f o log sig kw : notify (S f) o log sig kw =
  if locked o then (o, log, Ok RFalse)
  else match observers o sig with
       | None => (set_lock true o, log, Err KeyError)
       | Some _ => notify_loop f 0 (set_lock true o) log sig kw
       end.
Proof. reflexivity. Qed.
Lemma notify_loop_S f i o log sig kw : notify_loop (S f) i o log sig kw =
  match observers o sig with
  | None => (o, log, Err KeyError)
  | Some l =>
      match nth_error l i with
      | None => (set_lock false o, log, Ok RNone)
      | Some ob =>
          match run_actions (notify f) (beh (log ++ [(ob, sig, kw)]) ob) o (log ++ [(ob, sig, kw)]) with
          | (o', log', Ok _) => notify_loop f (S i) o' log' sig kw
          | (o', log', Err e) => (o', log', Err e)
          end
      end
  end.
Proof. reflexivity. Qed.

Lemma notify_locked f o log s kw : locked o = true -> notify (S f) o log s kw = (o, log, Ok RFalse).
Proof. intros H. rewrite notify_S, H. reflexivity. Qed.

(** Actions that neither raise nor touch the observers of [sig]. *)
Definition quiet (sig : nat) (sigs : list nat) (a : action K) : Prop :=
  match a with
  | ANotify _ _ => True
  | AAdd s _ => s <> sig /\ In s sigs
  | ARaise _ => False
  end.

Definition wf (o : obsv) : Prop := forall s, In s (allowed o) -> observers o s <> None.

Lemma run_quiet f sig acts : forall o log,
  locked o = true -> wf o -> Forall (quiet sig (allowed o)) acts ->
  exists o', run_actions (notify (S f)) acts o log = (o', log, Ok tt) /\
    locked o' = true /\ wf o' /\ allowed o' = allowed o /\ observers o' sig = observers o sig.
Proof.
  induction acts as [|a acts IH]; intros o log Hl Hw Hq.
  - exists o. cbn. auto.
  - inversion Hq as [|? ? Q1 Q2]; subst. destruct a as [s kw|s ob|e]; cbn [run_actions]; [| |contradiction].
    + rewrite notify_locked by exact Hl. apply IH; assumption.
    + destruct Q1 as [Hne Hin]. unfold add_observer, is_allowed_signal.
      apply memb_In in Hin as Hm. rewrite Hm. cbn [bind]. unfold add_observer_priv.
      destruct (observers o s) as [l|] eqn:E; [|destruct (Hw s Hin E)].
      destruct (memb ob l).
      * apply IH; assumption.
      * set (o1 := mk_obsv _ _ _).
        destruct (IH o1 log) as (o' & E' & P1 & P2 & P3 & P4).
        { exact Hl. }
        { intros s' Hs'. cbn. unfold dict_set. destruct (Nat.eqb s' s); [discriminate|apply Hw; exact Hs']. }
        { exact Q2. }
        exists o'. split; [exact E'|]. split; [exact P1|]. split; [exact P2|]. split; [exact P3|].
        rewrite P4. cbn. unfold dict_set. destruct (Nat.eqb_spec sig s); [congruence|reflexivity].
Qed.

Lemma loop_quiet sig kw l : forall m i f o log,
  length l = i + m -> m <= f ->
  locked o = true -> wf o -> observers o sig = Some l ->
  (forall lg ob, Forall (quiet sig (allowed o)) (beh lg ob)) ->
  exists o', notify_loop (S f) i o log sig kw
     = (o', log ++ map (fun ob => (ob, sig, kw)) (skipn i l), Ok RNone) /\
    locked o' = false /\ wf o' /\ allowed o' = allowed o /\ observers o' sig = Some l.
Proof.
  induction m as [|m IH]; intros i f o log Hlen Hf Hl Hw Ho Hq; rewrite notify_loop_S, Ho.
  - rewrite (proj2 (nth_error_None l i)) by lia.
    exists (set_lock false o). rewrite skipn_all2 by lia. cbn [map]. rewrite app_nil_r. auto.
  - destruct (nth_error l i) as [ob|] eqn:E; [|apply nth_error_None in E; lia].
    destruct f as [|f]; [lia|].
    destruct (run_quiet f sig (beh (log ++ [(ob, sig, kw)]) ob) o (log ++ [(ob, sig, kw)]) Hl Hw (Hq _ _))
      as (o1 & R1 & P1 & P2 & P3 & P4).
    rewrite R1.
    destruct (IH (S i) f o1 (log ++ [(ob, sig, kw)])) as (o2 & R2 & S1 & S2 & S3 & S4); try lia; try assumption.
    { rewrite P4. exact Ho. }
    { rewrite P3. exact Hq. }
    exists o2. rewrite R2. split.
    + assert (ES : skipn i l = ob :: skipn (S i) l).
      { clear - E. revert i E. induction l as [|x l IHl]; intros [|i] E; try discriminate; cbn in *.
        - congruence.
        - apply IHl. exact E. }
      rewrite ES. cbn [map]. rewrite <- app_assoc. reflexivity.
    + rewrite S3. auto.
Qed.

Lemma notify_quiet o log sig kw l f :
  locked o = false -> wf o -> observers o sig = Some l ->
  (forall lg ob, Forall (quiet sig (allowed o)) (beh lg ob)) ->
  length l + 2 <= f ->
  exists o', notify f o log sig kw = (o', log ++ map (fun ob => (ob, sig, kw)) l, Ok RNone) /\
    locked o' = false /\ observers o' sig = Some l.
Proof.
  intros Hl Hw Ho Hq Hf. destruct f as [|[|f]]; try lia.
  rewrite notify_S, Hl, Ho.
  destruct (loop_quiet sig kw l (length l) 0 f (set_lock true o) log) as (o' & R & P & _ & _ & Q); try assumption; try lia; try reflexivity.
  exists o'. rewrite R. auto.
Qed.

(** A raising observer: the lock stays. *)
Lemma run_locked f acts : forall o log,
  locked o = true -> wf o -> 0 < f ->
  match run_actions (notify f) acts o log with
  | (o', log', r) => locked o' = true /\ wf o' /\ log' = log /\ allowed o' = allowed o
  end.
Proof.
  induction acts as [|a acts IH]; intros o log Hl Hw Hf; [cbn; auto|].
  destruct f as [|f]; [lia|].
  destruct a as [s kw|s ob|e]; cbn [run_actions]; [| |auto].
  - rewrite notify_locked by exact Hl. apply IH; assumption.
  - unfold add_observer, is_allowed_signal. destruct (memb s (allowed o)) eqn:M; cbn [bind]; [|auto].
    apply memb_In in M. unfold add_observer_priv.
    destruct (observers o s) as [l|] eqn:E; [|destruct (Hw s M E)].
    destruct (memb ob l).
    + apply IH; assumption.
    + set (o1 := mk_obsv _ _ _).
      assert (Hw1 : wf o1).
      { intros s' Hs'. cbn. unfold dict_set. destruct (Nat.eqb s' s); [discriminate|apply Hw; exact Hs']. }
      specialize (IH o1 log Hl Hw1 Hf). destruct (run_actions (notify (S f)) acts o1 log) as [[o' log'] r].
      destruct IH as (I1 & I2 & I3 & I4). rewrite I4. auto.
Qed.

Lemma loop_locked f : forall i o log sig kw,
  locked o = true -> wf o ->
  match notify_loop f i o log sig kw with
  | (o', log', Err e) => e <> NotModelled -> locked o' = true
  | (o', log', Ok r) => locked o' = false
  end.
Proof.
  induction f as [|f IH]; intros i o log sig kw Hl Hw.
  - cbn. congruence.
  - rewrite notify_loop_S. destruct (observers o sig) as [l|]; [|auto].
    destruct (nth_error l i) as [ob|]; [|reflexivity].
    destruct f as [|f].
    + destruct (run_actions (notify 0) (beh (log ++ [(ob, sig, kw)]) ob) o (log ++ [(ob, sig, kw)])) as [[o' log'] [u|e]] eqn:R.
      * cbn. congruence.
      * intros He. assert (G : forall acts o log, locked o = true -> wf o ->
          match run_actions (notify 0) acts o log with (o', _, _) => locked o' = true end).
        { clear. induction acts as [|a acts IHa]; intros o log Hl Hw; [exact Hl|].
          destruct a as [s k|s b|e]; cbn [run_actions]; [exact Hl| |exact Hl].
          unfold add_observer, is_allowed_signal. destruct (memb s (allowed o)) eqn:M; cbn [bind]; [|exact Hl].
          apply memb_In in M. unfold add_observer_priv.
          destruct (observers o s) as [l|] eqn:E; [|destruct (Hw s M E)].
          destruct (memb b l); [apply IHa; assumption|]. apply IHa; [exact Hl|].
          intros s' Hs'. cbn. unfold dict_set. destruct (Nat.eqb s' s); [discriminate|apply Hw; exact Hs']. }
        specialize (G (beh (log ++ [(ob, sig, kw)]) ob) o (log ++ [(ob, sig, kw)]) Hl Hw). rewrite R in G. exact G.
    + pose proof (run_locked (S f) (beh (log ++ [(ob, sig, kw)]) ob) o (log ++ [(ob, sig, kw)]) Hl Hw) as G.
      destruct (run_actions (notify (S f)) (beh (log ++ [(ob, sig, kw)]) ob) o (log ++ [(ob, sig, kw)])) as [[o' log'] [u|e]].
      * destruct G as (G1 & G2 & _ & _); [lia|]. apply IH; assumption.
      * destruct G as (G1 & _); [lia|]. auto.
Qed.

Lemma notify_exception_locks f o log sig kw o' log' e :
  wf o -> notify f o log sig kw = (o', log', Err e) -> e <> NotModelled -> locked o' = true.
Proof.
  intros Hw H He. destruct f as [|f]; [cbn in H; congruence|]. rewrite notify_S in H.
  destruct (locked o) eqn:L; [discriminate|].
  destruct (observers o sig) eqn:O; [|inversion H; reflexivity].
  pose proof (loop_locked f 0 (set_lock true o) log sig kw eq_refl Hw) as G.
  rewrite H in G. apply G. exact He.
Qed.

(** A history of later notifications, exceptions handled. *)
Definition later (f : nat) (h : list (nat * K)) (o : obsv) (log : list (call K)) : obsv * list (call K) :=
  fold_left (fun p e => let '(o', log', _) := notify f (fst p) (snd p) (fst e) (snd e) in (o', log')) h (o, log).

Lemma locked_forever f h o log :
  locked o = true -> later (S f) h o log = (o, log).
Proof.
  intros Hl. unfold later. induction h as [|[s kw] h IH]; [reflexivity|].
  cbn [fold_left fst snd]. rewrite notify_locked by exact Hl. exact IH.
Qed.
End N.

Lemma add_inv_wf sigs h o : add_inv sigs h o -> wf o.
Proof.
  intros (A & _ & _ & I) s Hs. rewrite A in Hs. destruct (I s Hs) as (L & E & _). congruence.
Qed.

(** * MetricObserver (C13, C14) *)
Open Scope R_scope.

Section M.
Variable V : Type.
Variable c : mcfg V.

(** The value the metric function returns for a notification, if the call gets that far. *)
Definition metric_value (s : sigobj V) : res R :=
  do kw <- build_kwargs (mapping c) s (fun _ => None);
  metric c (fold_left (fun d kv => dict_set d (fst kv) (snd kv)) (cst_kwargs c) kw).

Lemma is_converge_lists (m : mobs) :
  list_iters (is_converge c m) = list_iters m /\ list_dates (is_converge c m) = list_dates m /\
  list_values (is_converge c m) = list_values m.
Proof. unfold is_converge. destruct (_ <? _)%Z; auto. Qed.

Lemma mobs_call_ok m s d i v :
  sig_idx s = Some i -> metric_value s = Ok v ->
  let m' := fst (mobs_call c m s d) in
  list_iters m' = list_iters m ++ [i] /\ list_dates m' = list_dates m ++ [d] /\
  list_values m' = list_values m ++ [v] /\ snd (mobs_call c m s d) = Ok tt.
Proof.
  intros Hi Hv. unfold mobs_call. unfold metric_value in Hv.
  destruct (build_kwargs (mapping c) s (fun _ => None)) as [kw|e]; [|discriminate]. cbn [bind] in Hv.
  rewrite Hi, Hv. cbn [fst snd].
  destruct (early_stopping c); [|auto].
  match goal with |- context [is_converge c ?m] => destruct (is_converge_lists m) as (E1 & E2 & E3) end.
  rewrite E1, E2, E3. auto.
Qed.

Lemma mobs_run_ok h : forall m vals,
  Forall2 (fun e v => sig_idx (fst e) <> None /\ metric_value (fst e) = Ok v) h vals ->
  let m' := mobs_run c h m in
  list_iters m' = list_iters m ++ map (fun e => match sig_idx (fst e) with Some i => i | None => 0%nat end) h /\
  list_dates m' = list_dates m ++ map snd h /\
  list_values m' = list_values m ++ vals.
Proof.
  induction h as [|[s d] h IH]; intros m vals F; inversion F as [|? v ? vals' [Hi Hv] F']; subst.
  - cbn. rewrite !app_nil_r. auto.
  - cbn [fst] in *. destruct (sig_idx s) as [i|] eqn:E; [|congruence].
    destruct (mobs_call_ok m s d i v E Hv) as (C1 & C2 & C3 & _).
    destruct (IH (fst (mobs_call c m s d)) vals' F') as (R1 & R2 & R3).
    change (mobs_run c ((s, d) :: h) m) with (mobs_run c h (fst (mobs_call c m s d))).
    rewrite R1, R2, R3, C1, C2, C3. cbn [map fst snd]. rewrite E, <- !app_assoc. auto.
Qed.

Lemma aligned h vals :
  Forall2 (fun e v => sig_idx (fst e) <> None /\ metric_value (fst e) = Ok v) h vals ->
  let r := retrieve_metrics (mobs_run c h mobs_init) in
  map Some (r_index r) = map (fun e => sig_idx (fst e)) h /\ r_values r = vals /\
  length (r_time r) = length h /\
  (forall k e e0, nth_error h k = Some e -> nth_error h 0 = Some e0 ->
     nth_error (r_time r) k = Some (snd e - snd e0)).
Proof.
  intros F. destruct (mobs_run_ok h mobs_init vals F) as (E1 & E2 & E3).
  unfold retrieve_metrics. cbn [r_index r_values r_time]. rewrite E1, E2, E3. cbn [mobs_init list_iters list_dates list_values app].
  split.
  - rewrite map_map. apply map_ext_in. intros e He.
    clear - F He. induction F as [|? ? ? ? [Hi _] F IH]; [destruct He|].
    destruct He as [<-|He]; [|apply IH; exact He].
    destruct (sig_idx (fst x)); congruence.
  - split; [reflexivity|]. destruct h as [|e0 h]; cbn [map].
    + split; [reflexivity|]. intros [|k]; discriminate.
    + split; [cbn; rewrite !map_length; reflexivity|].
      intros k e e1 Hk H0. cbn in H0. inversion H0; subst e1. cbn [map].
      destruct k as [|k]; cbn in Hk |- *; [inversion Hk; reflexivity|].
      rewrite nth_error_map. rewrite nth_error_map, Hk. reflexivity.
Qed.

Lemma times_start_and_grow h vals e0 h' :
  Forall2 (fun e v => sig_idx (fst e) <> None /\ metric_value (fst e) = Ok v) h vals ->
  h = e0 :: h' -> nondecreasing (map snd h) ->
  let r := retrieve_metrics (mobs_run c h mobs_init) in
  nth_error (r_time r) 0 = Some 0 /\ nondecreasing (r_time r).
Proof.
  intros F E N. destruct (aligned h vals F) as (_ & _ & L & T). cbn zeta in *.
  assert (H0 : nth_error h 0 = Some e0) by (subst; reflexivity).
  split.
  - rewrite (T 0%nat e0 e0 H0 H0). f_equal. lra.
  - intros i j a b Hij Ha Hb.
    assert (Hi : nth_error h i <> None).
    { apply nth_error_Some. rewrite <- L. apply nth_error_Some. congruence. }
    assert (Hj : nth_error h j <> None).
    { apply nth_error_Some. rewrite <- L. apply nth_error_Some. congruence. }
    destruct (nth_error h i) as [ei|] eqn:Ei; [|congruence].
    destruct (nth_error h j) as [ej|] eqn:Ej; [|congruence].
    rewrite (T i ei e0 Ei H0) in Ha. rewrite (T j ej e0 Ej H0) in Hb.
    inversion Ha; inversion Hb; subst.
    assert (snd ei <= snd ej); [|lra].
    apply (N i j); [exact Hij| |]; rewrite nth_error_map; [rewrite Ei|rewrite Ej]; reflexivity.
Qed.

(** ** the flag *)
Lemma rsum_total l : rsum l = total l.
Proof. induction l; cbn; [reflexivity|unfold rsum in IHl; rewrite IHl; reflexivity]. Qed.

Lemma npmean_average l : l <> [] -> npmean l = Some (average l).
Proof. destruct l; [congruence|]. intros _. unfold npmean, average. rewrite rsum_total. reflexivity. Qed.

Lemma pyslice_split {A} (b o n : list A) k :
  length o = k -> length n = k -> (0 < k)%nat ->
  pyslice (b ++ o ++ n) (- (2 * Z.of_nat k))%Z (Some (- Z.of_nat k)%Z) = o /\
  pyslice (b ++ o ++ n) (- Z.of_nat k)%Z None = n.
Proof.
  intros Ho Hn Hk. unfold pyslice, norm_idx. rewrite !app_length, Ho, Hn.
  rewrite !Nat2Z.inj_add.
  destruct (Z.ltb_spec (- (2 * Z.of_nat k)) 0); [|lia].
  destruct (Z.ltb_spec (- Z.of_nat k) 0); [|lia].
  rewrite !Z.max_r by lia. split.
  - replace (Z.to_nat (_ - _)) with k by lia.
    replace (Z.to_nat _) with (length b) by lia.
    rewrite skipn_app, skipn_all, Nat.sub_diag. cbn [skipn app].
    rewrite firstn_app, Ho, Nat.sub_diag. cbn [firstn]. rewrite app_nil_r, <- Ho, firstn_all. reflexivity.
  - replace (Z.to_nat (_ - _)) with k by lia.
    replace (Z.to_nat _) with (length b + k)%nat by lia.
    rewrite app_assoc. rewrite skipn_app, app_length, Ho, Nat.sub_diag.
    rewrite skipn_all2 by (rewrite app_length; lia). cbn [skipn app].
    rewrite <- Hn. apply firstn_all.
Qed.

Lemma split_last {A} (l : list A) k :
  (2 * k <= length l)%nat -> exists b o n, l = b ++ o ++ n /\ length o = k /\ length n = k.
Proof.
  intros H. exists (firstn (length l - 2 * k) l), (firstn k (skipn (length l - 2 * k) l)), (skipn k (skipn (length l - 2 * k) l)).
  rewrite firstn_skipn, firstn_skipn. split; [reflexivity|].
  rewrite firstn_length, !skipn_length. lia.
Qed.

Lemma is_converge_spec m k :
  wind c = (2 * Z.of_nat k)%Z -> (0 < k)%nat ->
  ((length (list_values m) < 2 * k)%nat -> converge_flag (is_converge c m) = converge_flag m) /\
  ((2 * k <= length (list_values m))%nat ->
     (converge_flag (is_converge c m) = true <-> windowed_change_below k (eps c) (list_values m))).
Proof.
  intros Hw Hk. unfold is_converge. rewrite Hw. split; intros Hlen.
  - destruct (Z.ltb_spec (Z.of_nat (length (list_values m))) (2 * Z.of_nat k)); [reflexivity|lia].
  - destruct (Z.ltb_spec (Z.of_nat (length (list_values m))) (2 * Z.of_nat k)); [lia|].
    destruct (split_last (list_values m) k Hlen) as (b & o & n & E & Lo & Ln).
    rewrite E. replace (2 * Z.of_nat k / 2)%Z with (Z.of_nat k) by (rewrite Z.mul_comm, Z.div_mul; lia).
    destruct (pyslice_split b o n k Lo Ln Hk) as [S1 S2]. rewrite S1, S2.
    assert (o <> []) by (intros ->; cbn in Lo; lia).
    assert (n <> []) by (intros ->; cbn in Ln; lia).
    rewrite !npmean_average by assumption. cbn [converge_flag].
    transitivity (average o <> 0 /\ Rabs (average o - average n) < eps c * Rabs (average o)).
    + destruct (Req_EM_T (average o) 0) as [Z0|Z0]; [split; [discriminate|tauto]|].
      pose proof (Rabs_pos_lt _ Z0) as Hp.
      destruct (Rlt_dec _ _) as [Hd|Hd].
      * split; [|reflexivity]. intros _. split; [exact Z0|].
        apply (Rmult_lt_compat_r (Rabs (average o))) in Hd; [|exact Hp].
        unfold Rdiv in Hd. rewrite Rmult_assoc, Rinv_l, Rmult_1_r in Hd by lra. exact Hd.
      * split; [discriminate|]. intros [_ HH]. exfalso. apply Hd.
        apply (Rmult_lt_reg_r (Rabs (average o))); [exact Hp|].
        unfold Rdiv. rewrite Rmult_assoc, Rinv_l, Rmult_1_r by lra. exact HH.
    + split.
      * intros [HA HB]. exists b, o, n. auto.
      * intros (b' & o' & n' & E' & Lo' & Ln' & HA & HB).
        assert (b = b' /\ o = o' /\ n = n') as (-> & -> & ->).
        { assert (LL : length b = length b') by (apply (f_equal (@length R)) in E'; rewrite !app_length in E'; lia).
          destruct (app_eq_app _ _ _ _ E') as (l' & [[X Y]|[X Y]]).
          - assert (l' = []) by (destruct l'; [reflexivity|]; apply (f_equal (@length R)) in X; rewrite app_length in X; cbn in X; lia).
            subst l'. rewrite app_nil_r in X. cbn in Y. split; [exact X|].
            destruct (app_eq_app _ _ _ _ Y) as (l2 & [[X2 Y2]|[X2 Y2]]);
              (assert (l2 = []) by (destruct l2; [reflexivity|]; apply (f_equal (@length R)) in X2; rewrite app_length in X2; cbn in X2; lia));
              subst l2; rewrite app_nil_r in X2; cbn in Y2; auto.
          - assert (l' = []) by (destruct l'; [reflexivity|]; apply (f_equal (@length R)) in X; rewrite app_length in X; cbn in X; lia).
            subst l'. rewrite app_nil_r in X. cbn in Y. split; [auto|].
            destruct (app_eq_app _ _ _ _ Y) as (l2 & [[X2 Y2]|[X2 Y2]]);
              (assert (l2 = []) by (destruct l2; [reflexivity|]; apply (f_equal (@length R)) in X2; rewrite app_length in X2; cbn in X2; lia));
              subst l2; rewrite app_nil_r in X2; cbn in Y2; auto. }
        split; assumption.
Qed.

Lemma flag_after_history h vals k :
  early_stopping c = true -> wind c = (2 * Z.of_nat k)%Z -> (0 < k)%nat ->
  Forall2 (fun e v => sig_idx (fst e) <> None /\ metric_value (fst e) = Ok v) h vals ->
  let flag := converge_flag (mobs_run c h mobs_init) in
  ((length vals < 2 * k)%nat -> flag = false) /\
  ((2 * k <= length vals)%nat -> (flag = true <-> windowed_change_below k (eps c) vals)).
Proof.
  intros He Hw Hk F.
  assert (G : forall h vals, Forall2 (fun e v => sig_idx (fst e) <> None /\ metric_value (fst e) = Ok v) h vals ->
    let flag := converge_flag (mobs_run c h mobs_init) in
    ((length vals < 2 * k)%nat -> flag = false) /\
    ((2 * k <= length vals)%nat -> (flag = true <-> windowed_change_below k (eps c) vals))); [|apply G; exact F].
  clear h vals F. induction h as [|[s d] h IH] using rev_ind; intros vals F.
  - inversion F; subst. cbn. split; [reflexivity|]. intros HH. lia.
  - apply Forall2_app_inv_l in F. destruct F as (v1 & v2 & F1 & F2 & ->).
    inversion F2 as [|? v ? ? [Hi Hv] F3]; subst. inversion F3; subst. cbn [fst] in *.
    destruct (IH v1 F1) as [IH1 IH2].
    destruct (mobs_run_ok h mobs_init v1 F1) as (_ & _ & EV). cbn in EV.
    unfold mobs_run in *. rewrite fold_left_app. cbn [fold_left fst snd].
    set (m := fold_left _ h mobs_init) in *.
    assert (EM : exists it dt, fst (mobs_call c m s d) = is_converge c (mk_mobs it dt (v1 ++ [v]) (converge_flag m))).
    { unfold mobs_call. unfold metric_value in Hv.
      destruct (build_kwargs (mapping c) s (fun _ => None)) as [kw|e]; [|discriminate]. cbn [bind] in Hv.
      destruct (sig_idx s) as [i|]; [|congruence]. rewrite Hv, He. cbn [fst]. rewrite <- EV. eauto. }
    destruct EM as (it & dt & ->).
    destruct (is_converge_spec (mk_mobs it dt (v1 ++ [v]) (converge_flag m)) k Hw Hk) as [S1 S2].
    cbn [list_values converge_flag] in S1, S2. split.
    + intros HL. rewrite S1 by exact HL. apply IH1. rewrite app_length in HL. cbn in HL. lia.
    + intros HL. apply S2. exact HL.
Qed.
End M.

(** A metric function that raises leaves the series misaligned. *)
Lemma misaligned_on_raise :
  exists (c : mcfg nat) h, let r := retrieve_metrics (mobs_run c h mobs_init) in
    length (r_index r) <> length (r_values r).
Proof.
  exists (mk_mcfg nat (fun _ => Err ValueError) [] [] false 6 (1/1000)),
         [(mk_sigobj nat (Some 0%nat) (fun _ => None), 0)].
  cbn. discriminate.
Qed.

(** ... by exactly the number of notifications whose metric raised. *)
Definition metric_raises {V} (c : mcfg V) (s : sigobj V) : bool :=
  match metric_value V c s with Ok _ => false | Err _ => true end.

Lemma misaligned_by {V} (c : mcfg V) h :
  Forall (fun e => sig_idx (fst e) <> None /\ is_ok (build_kwargs (mapping c) (fst e) (fun _ => None)) = true) h ->
  let r := retrieve_metrics (mobs_run c h mobs_init) in
  length (r_index r) = length h /\ length (r_time r) = length h /\
  (length (r_values r) + length (filter (fun e => metric_raises c (fst e)) h) = length h)%nat.
Proof.
  intros F.
  assert (G : forall m, let m' := mobs_run c h m in
    length (list_iters m') = (length (list_iters m) + length h)%nat /\
    length (list_dates m') = (length (list_dates m) + length h)%nat /\
    (length (list_values m') + length (filter (fun e => metric_raises c (fst e)) h) = length (list_values m) + length h)%nat).
  { induction F as [|[s d] h [Hi Hk] F IH]; intros m; [cbn; lia|].
    change (mobs_run c ((s, d) :: h) m) with (mobs_run c h (fst (mobs_call c m s d))).
    destruct (IH (fst (mobs_call c m s d))) as (R1 & R2 & R3). cbn zeta in *.
    cbn [filter fst length] in *.
    assert (HR : metric_raises c s = match metric_value V c s with Ok _ => false | Err _ => true end) by reflexivity.
    unfold metric_value in HR.
    unfold mobs_call in *. destruct (build_kwargs (mapping c) s (fun _ => None)) as [kw|e]; [|discriminate].
    cbn [bind] in HR. rewrite HR. clear HR.
    destruct (sig_idx s) as [i|]; [|congruence].
    destruct (metric c _) as [v|e]; cbn [fst] in *.
    - destruct (early_stopping c).
      + match goal with H : context [is_converge c ?m] |- _ => destruct (is_converge_lists V c m) as (E1 & E2 & E3) end.
        rewrite E1 in R1. rewrite E2 in R2. rewrite E3 in R3. cbn in R1, R2, R3. rewrite app_length in *. cbn in *. lia.
      + cbn in R1, R2, R3. rewrite app_length in *. cbn in *. lia.
    - cbn in R1, R2, R3. rewrite app_length in *. cbn in *. lia. }
  destruct (G mobs_init) as (R1 & R2 & R3). cbn in R1, R2, R3. cbn zeta. unfold retrieve_metrics. cbn [r_index r_time r_values].
  split; [exact R1|]. split; [|exact R3].
  destruct (list_dates (mobs_run c h mobs_init)) as [|d l]; [exact R2|]. rewrite map_length. exact R2.
Qed.
