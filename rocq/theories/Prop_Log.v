(** Property theorems C101-C103: log files, warnings and error messages, file and program checks. *)
From Coq Require Import String Ascii.
From Verif Require Import Py Model_Log Proof_Log.
From Coq Require Import List Arith Lia.
Import ListNotations.
Local Open Scope string_scope.

(** The line of a message: time stamp, blank, message, end of line. *)
Definition log_line (t msg : string) : string := t ++ " " ++ msg ++ String (ascii_of_nat 10) "".
(** The lines of the messages sent to log n among the operations. *)
Fixpoint lines_of (n : string) (os : list op) : string :=
  match os with
  | [] => ""
  | Info t m msg :: os => if String.eqb m n then log_line t msg ++ lines_of n os else lines_of n os
  | _ :: os => lines_of n os
  end.
Lemma lines_of_own n os : lines_of n os = own_lines n os.
Proof. induction os as [|[]  os IH]; cbn; try exact IH; [reflexivity|]. destruct (String.eqb _ n); rewrite IH; reflexivity. Qed.

(** A process that has not logged anything yet, with whatever files. *)
Definition start (fl : string -> option string) : world := mk_world fl (fun _ => []) 0 (fun _ => 0) false "" "".
Lemma wf_start fl : wf (start fl).
Proof. split; [intros n h []|]. split; [intros n m h k []|]. intros n. constructor. Qed.

Section Traces.
Variable writable : string -> bool.
Local Notation run := (fold_left (step writable)).
Definition never_set_up (fn : string) (os : list op) : Prop := forall t g v, In (SetUp t g v) os -> g <> fn.

Lemma log_inj a b : a ++ ".log" = b ++ ".log" -> a = b.
Proof.
  revert b. induction a as [|x a IH]; intros [|y b] E; [reflexivity| | |].
  - exfalso. assert (L : String.length ("" ++ ".log") = String.length (String y b ++ ".log")) by (rewrite E; reflexivity). rewrite !length_app_s in L. cbn in L. lia.
  - exfalso. assert (L : String.length ("" ++ ".log") = String.length (String x a ++ ".log")) by (rewrite E; reflexivity). rewrite !length_app_s in L. cbn in L. lia.
  - cbn in E. injection E as -> E. rewrite (IH b E). reflexivity.
Qed.
Lemma before fl os fn : never_set_up fn os -> wf (run os (start fl)) /\ closed (run os (start fl)) (fn ++ ".log").
Proof.
  intros H. destruct (run_closed writable (fn ++ ".log") os (start fl) (wf_start fl) eq_refl) as (A & B & _); [|auto].
  intros t g v I E. apply (H t g v I). apply log_inj. exact E.
Qed.

(** * C101 *)

(** A log set up for the first time, used and closed: whatever else the process logs, before, in between
    and after, to logs not below this one, the file <name>.log ends up with the opening line, the messages
    sent to this log in order, one line each, and the closing line; what it held before is gone. *)
Theorem C101_file_holds_the_messages :
  forall fl fn os1 t v os2 t' v' os3, writable (fn ++ ".log") = true ->
  never_set_up fn os1 -> leaves_open (fn ++ ".log") os2 -> never_set_up fn os3 ->
  let n := fn ++ ".log" in
  let w1 := run os1 (start fl) in
  snd (set_up_log writable t fn v w1) = Ok n /\
  files (run (os1 ++ SetUp t fn v :: os2) (start fl)) n = Some (log_line t "The log file has been set-up." ++ lines_of n os2) /\
  files (run (os1 ++ SetUp t fn v :: os2 ++ Close t' n v' :: os3) (start fl)) n =
    Some (log_line t "The log file has been set-up." ++ lines_of n os2 ++ log_line t' "The log file has been closed.").
Proof.
  intros fl fn os1 t v os2 t' v' os3 Wr H1 H2 H3 n w1. destruct (before fl os1 fn H1) as [W1 C1]. fold w1 n in W1, C1.
  destruct (set_up_open writable t fn v w1 W1 Wr C1) as (w2 & E2 & W2 & O2). fold n in E2, O2. rewrite E2. cbn [snd].
  rewrite !fold_left_app. cbn [fold_left]. rewrite !fold_left_app. cbn [fold_left]. fold w1. cbn [step]. rewrite E2. cbn [fst].
  destruct (run_open writable n os2 w2 _ W2 O2 H2) as [W3 O3]. rewrite lines_of_own. split; [reflexivity|].
  destruct O3 as (i & L3 & F3 & P3). split; [exact F3|].
  destruct (close_open t' n v' _ _ W3 (ex_intro _ i (conj L3 (conj F3 P3)))) as (W4 & C4 & F4).
  destruct (run_closed writable n os3 _ W4 C4) as (_ & _ & F5); [intros s g b I E; apply (H3 s g b I); apply log_inj; exact E|].
  rewrite F5, F4. f_equal. rewrite app_assoc_s. reflexivity.
Qed.

(** Setting the log up again after closing it starts the file anew. *)
Theorem C101_reopening_erases :
  forall fl fn os1 t v os2 t' v' os3 t2 v2 os4, writable (fn ++ ".log") = true ->
  never_set_up fn os1 -> leaves_open (fn ++ ".log") os2 -> never_set_up fn os3 -> leaves_open (fn ++ ".log") os4 ->
  let n := fn ++ ".log" in
  files (run (os1 ++ SetUp t fn v :: os2 ++ Close t' n v' :: os3 ++ SetUp t2 fn v2 :: os4) (start fl)) n =
    Some (log_line t2 "The log file has been set-up." ++ lines_of n os4).
Proof.
  intros fl fn os1 t v os2 t' v' os3 t2 v2 os4 Wr H1 H2 H3 H4 n. destruct (before fl os1 fn H1) as [W1 C1]. fold n in C1.
  destruct (set_up_open writable t fn v _ W1 Wr C1) as (w2 & E2 & W2 & O2). fold n in E2, O2.
  rewrite !fold_left_app. cbn [fold_left]. rewrite !fold_left_app. cbn [fold_left]. rewrite !fold_left_app. cbn [fold_left step]. rewrite E2. cbn [fst].
  destruct (run_open writable n os2 w2 _ W2 O2 H2) as [W3 O3].
  destruct (close_open t' n v' _ _ W3 O3) as (W4 & C4 & F4).
  destruct (run_closed writable n os3 _ W4 C4) as (W5 & C5 & F5); [intros s g b I E; apply (H3 s g b I); apply log_inj; exact E|].
  destruct (set_up_open writable t2 fn v2 _ W5 Wr C5) as (w6 & E6 & W6 & O6). fold n in E6, O6. rewrite E6. cbn [fst].
  destruct (run_open writable n os4 w6 _ W6 O6 H4) as [_ (i & _ & F7 & _)]. rewrite lines_of_own. exact F7.
Qed.

(** A log set up k times in a row and closed once keeps half of its handlers, rounded down. *)
Lemma handlers_add t fn v w : wf w -> writable (fn ++ ".log") = true ->
  List.length (loggers (step writable w (SetUp t fn v)) (fn ++ ".log")) = S (List.length (loggers w (fn ++ ".log"))).
Proof.
  intros W Wr. cbn [step]. destruct (set_up_cases writable t fn v w) as [(E & _)|(_ & w1 & E & _ & L & _)]; [congruence|].
  rewrite E. cbn [fst]. rewrite (proj1 (info_shape _ _ _ _)), L, upd_same, app_length. cbn. lia.
Qed.
Theorem C101_close_keeps_half :
  forall fl fn os1 t v k t' v', writable (fn ++ ".log") = true -> never_set_up fn os1 ->
  let n := fn ++ ".log" in
  List.length (loggers (run (os1 ++ repeat (SetUp t fn v) k) (start fl)) n) = k /\
  List.length (loggers (run (os1 ++ repeat (SetUp t fn v) k ++ [Close t' n v']) (start fl)) n) = Nat.div2 k.
Proof.
  intros fl fn os1 t v k t' v' Wr H1 n. destruct (before fl os1 fn H1) as [W1 C1]. fold n in C1.
  rewrite !fold_left_app. cbn [fold_left]. set (w1 := run os1 (start fl)) in *. clearbody w1.
  assert (G : forall k w, wf w -> wf (run (repeat (SetUp t fn v) k) w) /\ List.length (loggers (run (repeat (SetUp t fn v) k) w) n) = List.length (loggers w n) + k).
  { clear - Wr. induction k as [|k IH]; intros w W; [cbn; split; [exact W|lia]|]. cbn [repeat fold_left]. destruct (IH (step writable w (SetUp t fn v))) as [A B]; [apply wf_step; exact W|].
    split; [exact A|]. rewrite B. unfold n. rewrite handlers_add by assumption. lia. }
  destruct (G k w1 W1) as [W2 L2]. rewrite C1 in L2. cbn in L2. split; [exact L2|].
  set (w2 := run _ w1) in *. clearbody w2. cbn [step]. destruct (close_log_shape t' n v' w2) as (w3 & S3 & _ & ->). cbn [set_loggers loggers]. rewrite upd_same.
  assert (E3 : loggers w3 n = loggers w2 n) by (rewrite (proj1 S3); destruct v'; reflexivity). rewrite E3. destruct W2 as (_ & _ & Nd). rewrite close_all_spec by apply Nd.
  rewrite <- L2. clear. generalize (loggers w2 n). fix IH 1. intros [|a [|b l]]; [reflexivity|reflexivity|]. cbn [odds List.length Nat.div2]. rewrite IH. reflexivity.
Qed.

(** A file that cannot be opened: OSError; no file and no log is changed. *)
Theorem C101_cannot_open :
  forall w t fn v, writable (fn ++ ".log") = false -> exists w', set_up_log writable t fn v w = (w', Err OSError) /\ files w' = files w /\ loggers w' = loggers w.
Proof.
  intros w t fn v Wr. destruct (set_up_cases writable t fn v w) as [(_ & w' & E & A & B & _)|(Wr' & _)]; [eauto|congruence].
Qed.
End Traces.
Print Assumptions C101_file_holds_the_messages.
Print Assumptions C101_reopening_erases.
Print Assumptions C101_close_keeps_half.
Print Assumptions C101_cannot_open.

Local Notation run := (fold_left (step (fun _ => true))).
Definition none : string -> option string := fun _ => None.

(** Set up twice without closing, the file does not hold the messages: two streams overwrite each other. *)
Theorem C101_set_up_twice_refuted :
  exists os fn, let n := fn ++ ".log" in
    os = [SetUp "1" fn false; SetUp "2" fn false; Info "3" n "hello"] /\
    files (run os (start none)) n = Some ("2 The log file has been set-up." ++ nl ++ "3 hello" ++ nl ++ "g file has been set-up." ++ nl ++ "3 hello" ++ nl).
Proof. exists [SetUp "1" "a" false; SetUp "2" "a" false; Info "3" "a.log" "hello"], "a". split; vm_compute; reflexivity. Qed.
Print Assumptions C101_set_up_twice_refuted.

(** and after close_log messages still reach it, although all handlers should have been removed. *)
Theorem C101_closed_log_is_silent_refuted :
  exists os fn t msg, let n := fn ++ ".log" in let w := run (os ++ [Close "3" n false]) (start none) in
    loggers w n <> [] /\ files (info t n msg w) n <> files w n.
Proof.
  exists [SetUp "1" "a" false; SetUp "2" "a" false], "a", "4", "hello". cbv zeta. split; vm_compute; discriminate.
Qed.
Print Assumptions C101_closed_log_is_silent_refuted.

(** Two logs whose names differ by a suffix .log are not independent: messages to the second are written to
    the file of the first too. *)
Theorem C101_logs_independent_refuted :
  exists a b, a <> b /\
    let w := run [SetUp "1" a false; SetUp "2" b false; Info "3" (b ++ ".log") "for b"] (start none) in
    files w (a ++ ".log") = Some (log_line "1" "The log file has been set-up." ++ log_line "2" "The log file has been set-up." ++ log_line "3" "for b").
Proof. exists "run", "run.log". split; [discriminate|]. vm_compute. reflexivity. Qed.
Print Assumptions C101_logs_independent_refuted.

Example C101_example :
  files (run [SetUp "1" "a" true; Info "2" "a.log" "x"; SetUp "3" "b" false; Info "4" "b.log" "y"; Info "5" "a.log" "z"; Close "6" "a.log" true; Info "7" "a.log" "late"]
    (start (fun _ => Some "old"))) "a.log"
  = Some (log_line "1" "The log file has been set-up." ++ log_line "2" "x" ++ log_line "5" "z" ++ log_line "6" "The log file has been closed.").
Proof. vm_compute. reflexivity. Qed.

(** * C102 *)

(** Loggers that have handlers are named after a .log file. *)
Definition named (w : world) : Prop := forall n, loggers w n <> [] -> exists fn, n = fn ++ ".log".
Lemma named_step wr w o : wf w -> named w -> named (step wr w o).
Proof.
  intros W N n H. destruct o as [t fn v|t m msg|t m v]; cbn [step] in H.
  - destruct (set_up_cases wr t fn v w) as [(_ & w' & E & _ & L & _)|(_ & w1 & E & _ & L & _)]; rewrite E in H; cbn [fst] in H.
    + rewrite L in H. exact (N n H).
    + rewrite (proj1 (info_shape _ _ _ _)), L in H. unfold upd in H. destruct (String.eqb_spec n (fn ++ ".log")) as [->|]; [eauto|exact (N n H)].
  - rewrite (proj1 (info_shape _ _ _ _)) in H. exact (N n H).
  - destruct (close_log_shape t m v w) as (w1 & S1 & _ & E). rewrite E in H. cbn [set_loggers loggers] in H.
    assert (L : loggers w1 = loggers w) by (rewrite (proj1 S1); destruct v; reflexivity). rewrite L in H.
    unfold upd in H. destruct (String.eqb_spec n m) as [->|]; [|exact (N n H)]. apply N. intros Z. rewrite Z in H. apply H. reflexivity.
Qed.
Lemma named_run wr fl os : wf (fold_left (step wr) os (start fl)) /\ named (fold_left (step wr) os (start fl)).
Proof.
  assert (G : forall os w, wf w -> named w -> wf (fold_left (step wr) os w) /\ named (fold_left (step wr) os w)).
  { clear. induction os as [|o os IH]; intros w W N; [auto|]. cbn [fold_left]. apply IH; [apply wf_step; exact W|apply named_step; assumption]. }
  apply G; [apply wf_start|]. intros n H. exfalso. apply H. reflexivity.
Qed.
Fixpoint last_char (d : ascii) (s : string) : ascii := match s with "" => d | String c s => last_char c s end.
Lemma last_log fn : last_char "x" (fn ++ ".log") = "g"%char.
Proof. generalize "x"%char. induction fn as [|c fn IH]; intros d; [reflexivity|]. cbn. apply IH. Qed.
Lemma no_warning_handler w : named w -> reached w "py.warnings" = [].
Proof.
  intros N. unfold reached. change ("py.warnings" :: ancestors "py.warnings") with ["py.warnings"; "py"]. cbn [flat_map].
  assert (E : forall n, (forall fn, n <> fn ++ ".log") -> loggers w n = []).
  { intros n H. destruct (loggers w n) eqn:L; [reflexivity|]. exfalso. destruct (N n) as (fn & E); [congruence|]. exact (H fn E). }
  rewrite !E; [reflexivity| |].
  - intros fn Q. pose proof (last_log fn) as L. rewrite <- Q in L. discriminate L.
  - intros fn Q. pose proof (last_log fn) as L. rewrite <- Q in L. discriminate L.
Qed.
Lemma captured_step wr w o : captured w = true -> captured (step wr w o) = true.
Proof.
  intros C. destruct o as [t fn v|t m msg|t m v]; cbn [step].
  - destruct (set_up_cases wr t fn v w) as [(_ & w' & E & A)|(_ & w1 & E & A)]; rewrite E; cbn [fst]; [tauto|].
    destruct (info_shape t (fn ++ ".log") "The log file has been set-up." w1) as (_ & _ & Q & _). rewrite Q. tauto.
  - destruct (info_shape t m msg w) as (_ & _ & Q & _). congruence.
  - destruct (close_log_shape t m v w) as (w1 & (_ & _ & Q & _) & _ & ->). cbn. rewrite Q. destruct v; exact C.
Qed.
Lemma captured_set_up wr t fn v w : captured (step wr w (SetUp t fn v)) = true.
Proof.
  cbn [step]. destruct (set_up_cases wr t fn v w) as [(_ & w' & E & A)|(_ & w1 & E & A)]; rewrite E; cbn [fst]; [tauto|].
  destruct (info_shape t (fn ++ ".log") "The log file has been set-up." w1) as (_ & _ & Q & _). rewrite Q. tauto.
Qed.
Lemma captured_run wr os w : captured w = true -> captured (fold_left (step wr) os w) = true.
Proof. revert w. induction os as [|o os IH]; intros w C; [exact C|]. cbn [fold_left]. apply IH. apply captured_step. exact C. Qed.
Lemma not_captured wr os w : captured w = false -> (forall t fn v, ~ In (SetUp t fn v) os) -> captured (fold_left (step wr) os w) = false.
Proof.
  revert w. induction os as [|o os IH]; intros w C H; [exact C|]. cbn [fold_left]. apply IH; [|intros t fn v I; apply (H t fn v); right; exact I].
  destruct o as [t fn v|t m msg|t m v]; cbn [step].
  - exfalso. apply (H t fn v). left. reflexivity.
  - destruct (info_shape t m msg w) as (_ & _ & Q & _). congruence.
  - destruct (close_log_shape t m v w) as (w1 & (_ & _ & Q & _) & _ & ->). cbn. rewrite Q. destruct v; exact C.
Qed.

(** Whatever was logged before, once set_up_log has been called - even if it failed, even if every log was
    closed since - a Python warning leaves no trace, on stderr or in any file; before that it is shown. *)
Theorem C102_set_up_log_silences_warnings :
  forall wr stock fl os t msg, let w := fold_left (step wr) os (start fl) in
  ((exists t' fn v, In (SetUp t' fn v) os) -> python_warning stock t msg w = w) /\
  ((forall t' fn v, ~ In (SetUp t' fn v) os) -> python_warning stock t msg w = print_err w (stock msg)).
Proof.
  intros wr stock fl os t msg w. split.
  - intros (t' & fn & v & I). apply in_split in I. destruct I as (o1 & o2 & E). assert (C : captured w = true).
    { unfold w. rewrite E, fold_left_app. cbn [fold_left]. apply captured_run. apply captured_set_up. }
    unfold python_warning. rewrite C. unfold w at 1. rewrite no_warning_handler by apply named_run. reflexivity.
  - intros H. unfold python_warning. unfold w at 1. rewrite (not_captured wr os (start fl) eq_refl H). reflexivity.
Qed.
Print Assumptions C102_set_up_log_silences_warnings.
Theorem C102_warnings_survive_logging_refuted :
  exists stock os t msg, let w := run os (start none) in
    (forall n, loggers w n = []) /\ err (python_warning stock t msg w) = err w /\ err (python_warning stock t msg (start none)) = "UserWarning: careful".
Proof.
  exists (fun m => "UserWarning: " ++ m), [SetUp "1" "a" false; Close "2" "a.log" false], "3", "careful". cbv zeta. split.
  - intros n. cbn. unfold upd. cbn. destruct (String.eqb n "a.log"); reflexivity.
  - split; vm_compute; reflexivity.
Qed.
Print Assumptions C102_warnings_survive_logging_refuted.

(** warn writes one line to stderr; the log argument never receives the message: no file changes. *)
Theorem C102_warn :
  forall wr stock W fl os t msg log, let w := fold_left (step wr) os (start fl) in
  let w' := warn stock W t msg log w in
  files w' = files w /\ loggers w' = loggers w /\ out w' = out w /\
  (log = None \/ (exists t' fn v, In (SetUp t' fn v) os) -> err w' = (err w ++ W ++ ": " ++ msg ++ nl)%string).
Proof.
  intros wr stock W fl os t msg log w w'. unfold w', warn. destruct log as [n|]; [|repeat split; reflexivity].
  set (w1 := print_err w _). assert (N1 : named w1) by apply (proj2 (named_run wr fl os)).
  unfold python_warning. destruct (captured w1) eqn:C.
  - rewrite no_warning_handler by exact N1. repeat split; reflexivity.
  - repeat split; try reflexivity. intros [E|(t' & fn & v & I)]; [discriminate|]. exfalso. apply in_split in I. destruct I as (o1 & o2 & E).
    assert (C' : captured w = true) by (unfold w; rewrite E, fold_left_app; cbn [fold_left]; apply captured_run; apply captured_set_up).
    unfold w1 in C. cbn in C. congruence.
Qed.
Print Assumptions C102_warn.
Theorem C102_warn_reaches_the_log_refuted :
  exists stock W os n t msg, let w := run os (start none) in
    (exists c, open_log w n c) /\ files (warn stock W t msg (Some n) w) n = files w n.
Proof.
  exists (fun m => m), "WARNING", [SetUp "1" "a" false], "a.log", "2", "careful". cbv zeta. split; [|vm_compute; reflexivity].
  eexists. exists 0. repeat split; vm_compute; reflexivity.
Qed.
Print Assumptions C102_warn_reaches_the_log_refuted.

(** catch_error writes the message to stderr and, given an open log, appends it to the file, followed by the
    traceback of the exception being handled. *)
Theorem C102_catch_error :
  forall E t msg tb w, 
  (forall log, log = None -> files (catch_error E t msg tb log w) = files w) /\
  err (catch_error E t msg tb None w) = (err w ++ E ++ ": " ++ msg ++ nl)%string /\
  forall n c, wf w -> open_log w n c ->
    let w' := catch_error E t msg tb (Some n) w in
    err w' = (err w ++ E ++ ": " ++ msg ++ nl)%string /\
    files w' n = Some (c ++ log_line t ("ERROR: " ++ msg ++ nl ++ match tb with Some s => s | None => "NoneType: None" end)).
Proof.
  intros E t msg tb w. split; [intros log ->; reflexivity|]. split; [reflexivity|]. intros n c W O w'. unfold w', catch_error.
  set (w1 := print_err w _). assert (W1 : wf w1) by exact W. assert (O1 : open_log w1 n c) by exact O.
  set (text := "ERROR: " ++ _). pose proof (emits_own (line t text) w1 n c W1 O1) as O2.
  destruct (reached w1 n) as [|h hs] eqn:R; [destruct O as (i & L & _); unfold reached in R; cbn [flat_map] in R; change (loggers w1 n) with (loggers w n) in R; rewrite L in R; discriminate R|].
  destruct (emits_shape (line t text) (h :: hs) w1) as (_ & _ & _ & _ & Q). split; [rewrite Q; reflexivity|].
  destruct O2 as (i & _ & F & _). exact F.
Qed.
Print Assumptions C102_catch_error.
(** Given a log when no log is open, it writes everything to stderr and touches no file. *)
Theorem C102_catch_error_closed : forall E t msg tb n w, (forall m, loggers w m = []) ->
  let w' := catch_error E t msg tb (Some n) w in
  files w' = files w /\ out w' = out w /\
  err w' = (err w ++ (E ++ ": " ++ msg ++ nl) ++ ("ERROR: " ++ msg ++ nl ++ match tb with Some s => s | None => "NoneType: None" end) ++ nl)%string.
Proof.
  intros E t msg tb n w H w'. unfold w', catch_error. set (w1 := print_err w _). assert (R : reached w1 n = []).
  { unfold reached. assert (G : forall l, flat_map (loggers w1) l = []) by (induction l as [|m l IH]; [reflexivity|]; cbn [flat_map]; rewrite IH; change (loggers w1 m) with (loggers w m); rewrite H; reflexivity). apply G. }
  rewrite R. split; [reflexivity|]. split; [reflexivity|]. unfold w1. cbn [err print_err]. rewrite <- !app_assoc_s. reflexivity.
Qed.
Print Assumptions C102_catch_error_closed.
(** Outside an exception handler the log gets a second line that is not part of the message. *)
Theorem C102_only_the_message_refuted :
  exists E t msg os n, let w := run os (start none) in
    files w n = Some (log_line "1" "The log file has been set-up.") /\
    files (catch_error E t msg None (Some n) w) n = Some (log_line "1" "The log file has been set-up." ++ log_line t ("ERROR: " ++ msg) ++ "NoneType: None" ++ nl).
Proof. exists "ERROR", "2", "boom", [SetUp "1" "a" false], "a.log". split; vm_compute; reflexivity. Qed.
Print Assumptions C102_only_the_message_refuted.

Example C102_example : err (warn (fun m => m) "WARNING" "1" "careful" None (start none)) = "WARNING: careful" ++ nl.
Proof. vm_compute. reflexivity. Qed.

(** * C103 *)

(** file_name_error accepts exactly the existing files whose name does not start with a dash. *)
Theorem C103_file_name_error :
  forall isfile name, isfile "" = false -> file_name_error isfile name = Ok tt <-> isfile name = true /\ ~ exists s, name = String "-" s.
Proof.
  intros isfile name H0. destruct name as [|c s]; cbn.
  - split; [discriminate|]. intros [H _]. congruence.
  - destruct (Ascii.eqb_spec c "-") as [->|N].
    + split; [discriminate|]. intros [_ H]. exfalso. apply H. eauto.
    + destruct (isfile (String c s)); split; try discriminate; [|tauto|intros [H _]; discriminate]. intros _. split; [reflexivity|]. intros (s' & E). congruence.
Qed.
Print Assumptions C103_file_name_error.
Theorem C103_rejections_are_os_errors :
  forall isfile name, file_name_error isfile name = Ok tt \/ file_name_error isfile name = Err OSError.
Proof. intros isfile [|c s]; cbn; [auto|]. destruct (Ascii.eqb c "-"); [auto|]. destruct (isfile _); auto. Qed.
Print Assumptions C103_rejections_are_os_errors.
(** An existing file is refused when its name starts with a dash. *)
Theorem C103_existing_file_accepted_refuted :
  exists isfile name, isfile name = true /\ file_name_error isfile name = Err OSError.
Proof. exists (fun _ => true), "-data.fits". split; reflexivity. Qed.
Print Assumptions C103_existing_file_accepted_refuted.

(** The path of a program n in directory d. *)
Definition located (d n p : string) : Prop :=
  (d = "" /\ p = n) \/ (d <> "" /\ (exists d', d = d' ++ "/") /\ p = d ++ n) \/ (d <> "" /\ (~ exists d', d = d' ++ "/") /\ p = d ++ "/" ++ n).
Lemma ends_slash_spec d : ends_slash d = true <-> exists d', d = d' ++ "/".
Proof.
  induction d as [|c d IH]; [split; [discriminate|intros (d' & E); destruct d'; discriminate E]|]. destruct d as [|c' d].
  - cbn. destruct (Ascii.eqb_spec c "/") as [->|N]; split; intros H; try discriminate; [exists ""; reflexivity|reflexivity|].
    destruct H as (d' & E). destruct d' as [|x d']; cbn in E; [congruence|]. injection E as _ E. destruct d'; discriminate E.
  - change (ends_slash (String c (String c' d))) with (ends_slash (String c' d)). rewrite IH. split; intros (d' & E).
    + exists (String c d'). rewrite E. reflexivity.
    + destruct d' as [|x d']; cbn in E; [discriminate E|]. injection E as -> E. exists d'. exact E.
Qed.
Lemma join_spec d n : located d n (join d n).
Proof.
  unfold join, located. destruct (String.eqb_spec d "") as [->|N]; [left; auto|]. cbn [orb]. destruct (ends_slash d) eqn:E.
  - right; left. split; [exact N|]. split; [apply ends_slash_spec; exact E|reflexivity].
  - right; right. split; [exact N|]. split; [|reflexivity]. intros H. apply ends_slash_spec in H. congruence.
Qed.
Lemma located_unique d n p : located d n p -> p = join d n.
Proof.
  intros H. pose proof (join_spec d n) as J. unfold located in *.
  destruct H as [(A & B)|[(A & B & C)|(A & B & C)]], J as [(A' & B')|[(A' & B' & C')|(A' & B' & C')]]; try contradiction; congruence.
Qed.
Lemma has_slash_spec n : has_slash n = true <-> exists a b, n = a ++ "/" ++ b.
Proof.
  induction n as [|c n IH]; cbn; [split; [discriminate|intros (a & b & E); destruct a; discriminate E]|].
  rewrite Bool.orb_true_iff, Ascii.eqb_eq, IH. split.
  - intros [->|(a & b & ->)]; [exists "", n; reflexivity|exists (String c a), b; reflexivity].
  - intros ([|x a] & b & E); cbn in E; injection E as -> E; [left; reflexivity|right; exists a, b; exact E].
Qed.

(** is_executable accepts a name with a slash exactly when it is an executable file, and a bare name exactly
    when some directory of PATH has one; everything else is OSError. *)
Theorem C103_is_executable :
  forall is_exe ds n,
  (is_executable is_exe (Some ds) (Name n) = Ok tt <->
     ((exists a b, n = a ++ "/" ++ b) /\ is_exe n = true) \/
     ((~ exists a b, n = a ++ "/" ++ b) /\ exists d p, In d ds /\ located d n p /\ is_exe p = true)) /\
  (is_executable is_exe (Some ds) (Name n) = Ok tt \/ is_executable is_exe (Some ds) (Name n) = Err OSError).
Proof.
  intros is_exe ds n. cbn [is_executable]. pose proof (has_slash_spec n) as HS. destruct (has_slash n).
  - destruct (is_exe n); split; auto; split; try discriminate; try tauto. 
    + intros [[_ H]|[H _]]; [discriminate|]. exfalso. apply H. apply HS. reflexivity.
  - destruct (existsb _ ds) eqn:Ex; split; auto; split; try discriminate.
    + intros _. right. split; [intros H; apply HS in H; discriminate|]. apply existsb_exists in Ex. destruct Ex as (d & Hd & Hx).
      exists d, (join d n). split; [exact Hd|]. split; [apply join_spec|exact Hx].
    + reflexivity.
    + intros [[H _]|[_ (d & p & Hd & Hl & Hx)]]; [apply HS in H; discriminate|]. exfalso.
      assert (E : existsb (fun d => is_exe (join d n)) ds = true) by (apply existsb_exists; exists d; split; [exact Hd|]; rewrite <- (located_unique _ _ _ Hl); exact Hx).
      congruence.
Qed.
Print Assumptions C103_is_executable.
Theorem C103_is_executable_type : forall is_exe path, is_executable is_exe path NotName = Err TypeError.
Proof. reflexivity. Qed.
Print Assumptions C103_is_executable_type.
(** Without a variable PATH the documented IOError is a KeyError. *)
Theorem C103_missing_path_refuted :
  exists is_exe n, is_executable is_exe None (Name n) = Err KeyError.
Proof. exists (fun _ => true), "mr_transform". reflexivity. Qed.
Print Assumptions C103_missing_path_refuted.

Example C103_example : is_executable (fun p => String.eqb p "/usr/bin/mr_transform") (Some ["/bin"; "/usr/bin"]) (Name "mr_transform") = Ok tt.
Proof. reflexivity. Qed.
