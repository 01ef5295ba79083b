(** Proofs about the log model. *)
From Coq Require Import String Ascii.
From Verif Require Import Py Model_Log.
From Coq Require Import List Arith Lia.
Import ListNotations.
Local Open Scope string_scope.

Lemma app_assoc_s (a b c : string) : (a ++ b) ++ c = a ++ (b ++ c).
Proof. induction a as [|x a IH]; [reflexivity|]. cbn. rewrite IH. reflexivity. Qed.
Lemma app_nil_s (a : string) : a ++ "" = a.
Proof. induction a as [|x a IH]; [reflexivity|]. cbn. rewrite IH. reflexivity. Qed.
Lemma length_app_s (a b : string) : String.length (a ++ b) = String.length a + String.length b.
Proof. induction a as [|x a IH]; [reflexivity|]. cbn. rewrite IH. reflexivity. Qed.
Lemma app_inj_l (a b c : string) : a ++ b = a ++ c -> b = c.
Proof. induction a as [|x a IH]; [auto|]. cbn. intros E. injection E as E. exact (IH E). Qed.

Lemma substring_all c : substring 0 (String.length c) c = c.
Proof. induction c as [|x c IH]; [reflexivity|]. cbn. rewrite IH. reflexivity. Qed.
Lemma substring_zero n c : substring n 0 c = "".
Proof. revert c. induction n as [|n IH]; intros [|x c]; try reflexivity. cbn. apply IH. Qed.

(** Writing at the end appends. *)
Lemma write_at_end s c : write_at (String.length c) s c = c ++ s.
Proof.
  unfold write_at. rewrite Nat.sub_diag. cbn [nuls]. rewrite app_nil_s, substring_all.
  replace (String.length c - (String.length c + String.length s)) with 0 by lia. rewrite substring_zero, app_nil_s. reflexivity.
Qed.

Lemma upd_same {A} (f : string -> A) n a : upd f n a n = a.
Proof. unfold upd. rewrite String.eqb_refl. reflexivity. Qed.
Lemma upd_other {A} (f : string -> A) n m a : m <> n -> upd f n a m = f m.
Proof. intros H. unfold upd. rewrite (proj2 (String.eqb_neq m n) H). reflexivity. Qed.
Lemma updn_same {A} (f : nat -> A) n a : updn f n a n = a.
Proof. unfold updn. rewrite Nat.eqb_refl. reflexivity. Qed.
Lemma updn_other {A} (f : nat -> A) n m a : m <> n -> updn f n a m = f m.
Proof. intros H. unfold updn. rewrite (proj2 (Nat.eqb_neq m n) H). reflexivity. Qed.

Lemma NoDup_snoc {A} (l : list A) a : NoDup l -> ~ In a l -> NoDup (l ++ [a])%list.
Proof.
  intros N H. apply NoDup_rev in N. rewrite <- (rev_involutive (l ++ [a])%list). apply NoDup_rev. rewrite rev_app_distr. cbn.
  constructor; [rewrite <- in_rev; exact H|exact N].
Qed.

(** * Ancestors *)

Lemma dot_eqb c : Ascii.eqb c "." = true <-> c = "."%char.
Proof. apply Ascii.eqb_eq. Qed.

Lemma anc_in p : forall s pre, In p (anc pre s) <-> exists q r, p = pre ++ q /\ s = q ++ "." ++ r /\ p <> "".
Proof.
  induction s as [|c s IH]; intros pre; cbn [anc].
  - split; [intros []|]. intros (q & r & _ & E & _). destruct q; discriminate E.
  - rewrite in_app_iff, IH. split.
    + intros [(q & r & -> & -> & N)|H].
      * exists (String c q), r. split; [rewrite app_assoc_s; reflexivity|]. split; [reflexivity|exact N].
      * destruct (Ascii.eqb_spec c "."); cbn in H; [|destruct H]. destruct (String.eqb_spec pre ""); cbn in H; [destruct H|]. destruct H as [<-|[]].
        exists "", s. rewrite app_nil_s. subst c. split; [reflexivity|]. split; [reflexivity|assumption].
    + intros (q & r & -> & E & N). destruct q as [|c' q].
      * right. cbn in E. injection E as -> ->. rewrite app_nil_s in *. cbn. destruct (String.eqb_spec pre ""); [contradiction|]. left. reflexivity.
      * left. cbn in E. injection E as -> ->. exists q, r. split; [rewrite app_assoc_s; reflexivity|]. split; [reflexivity|exact N].
Qed.
Lemma ancestors_in p n : In p (ancestors n) <-> p <> "" /\ exists r, n = p ++ "." ++ r.
Proof.
  unfold ancestors. rewrite anc_in. split.
  - intros (q & r & -> & -> & N). split; [exact N|]. exists r. reflexivity.
  - intros (N & r & ->). exists p, r. auto.
Qed.
Lemma not_own_ancestor n : ~ In n (ancestors n).
Proof.
  rewrite ancestors_in. intros (_ & r & E). assert (L : String.length n = String.length (n ++ "." ++ r)) by congruence.
  rewrite !length_app_s in L. cbn in L. lia.
Qed.

(** * Well-formed processes: each handler of logger n writes to the file n; streams are not shared. *)

Definition wf (w : world) : Prop :=
  (forall n h, In h (loggers w n) -> hfile h = n /\ sid h < next w) /\
  (forall n m h k, In h (loggers w n) -> In k (loggers w m) -> sid h = sid k -> n = m) /\
  (forall n, NoDup (map sid (loggers w n))).

Definition same_shape (w w' : world) : Prop := loggers w' = loggers w /\ next w' = next w /\ captured w' = captured w /\ out w' = out w /\ err w' = err w.

Lemma emit_shape l w h : same_shape w (emit l w h).
Proof. repeat split. Qed.
Lemma emits_shape l hs : forall w, same_shape w (fold_left (emit l) hs w).
Proof.
  induction hs as [|h hs IH]; intros w; [repeat split|]. cbn [fold_left]. destruct (IH (emit l w h)) as (A & B & C & D & E).
  destruct (emit_shape l w h) as (A' & B' & C' & D' & E'). repeat split; congruence.
Qed.
Lemma wf_shape w w' : same_shape w w' -> wf w -> wf w'.
Proof. intros (A & B & _) (W1 & W2 & W3). unfold wf. rewrite A, B. auto. Qed.
Lemma info_shape t n m w : same_shape w (info t n m w).
Proof. apply emits_shape. Qed.

(** Handlers on other files and streams leave a file and a stream alone. *)
Lemma emits_other l f i : forall hs w, (forall h, In h hs -> hfile h <> f /\ sid h <> i) ->
  files (fold_left (emit l) hs w) f = files w f /\ pos (fold_left (emit l) hs w) i = pos w i.
Proof.
  induction hs as [|h hs IH]; intros w H; [auto|]. cbn [fold_left]. destruct (H h (or_introl eq_refl)) as [N1 N2].
  destruct (IH (emit l w h)) as [A B]; [intros k Hk; apply H; right; exact Hk|]. rewrite A, B. cbn [emit files pos].
  rewrite upd_other by congruence. rewrite updn_other by congruence. auto.
Qed.

(** * A log that is open: one handler, whose stream is at the end of the file *)

Definition open_log (w : world) (n c : string) : Prop :=
  exists i, loggers w n = [mk_handler i n] /\ files w n = Some c /\ pos w i = String.length c.

Lemma reached_other w n m h : wf w -> In h (reached w m) -> m <> n -> (forall r, m <> n ++ "." ++ r) -> hfile h <> n.
Proof.
  intros (W1 & _) H N B E. unfold reached in H. apply in_flat_map in H. destruct H as (p & Hp & Hh).
  destruct (W1 p h Hh) as [F _]. rewrite E in F. subst p. destruct Hp as [->|Hp]; [congruence|].
  apply ancestors_in in Hp. destruct Hp as (_ & r & ->). exact (B r eq_refl).
Qed.

Lemma reached_sid w n m h i : wf w -> In h (reached w m) -> In (mk_handler i n) (loggers w n) -> hfile h <> n -> sid h <> i.
Proof.
  intros (W1 & W2 & _) H Hi N E. unfold reached in H. apply in_flat_map in H. destruct H as (p & Hp & Hh).
  assert (p = n) by (apply (W2 p n h (mk_handler i n) Hh Hi); exact E). subst p. apply N. apply (W1 n h Hh).
Qed.

(** Records of other loggers that are not below n leave the log n alone. *)
Lemma info_other t m msg w n c : wf w -> open_log w n c -> m <> n -> (forall r, m <> n ++ "." ++ r) -> open_log (info t m msg w) n c.
Proof.
  intros W (i & L & F & P) N B. destruct (info_shape t m msg w) as (A & _). exists i. rewrite A. split; [exact L|].
  unfold info. destruct (emits_other (line t msg) n i (reached w m) w) as [F' P'].
  - intros h Hh. assert (hfile h <> n) by (apply (reached_other w n m h W Hh N B)). split; [assumption|].
    apply (reached_sid w n m h i W Hh); [rewrite L; left; reflexivity|assumption].
  - rewrite F', P'. auto.
Qed.

(** A record of the logger itself is appended. *)
Lemma emits_own l w n c : wf w -> open_log w n c -> open_log (fold_left (emit l) (reached w n) w) n (c ++ l).
Proof.
  intros W (i & L & F & P). destruct (emits_shape l (reached w n) w) as (A & _). exists i. rewrite A. split; [exact L|].
  unfold reached. cbn [flat_map]. rewrite L. cbn [app fold_left].
  destruct (emits_other l n i (flat_map (loggers w) (ancestors n)) (emit l w (mk_handler i n))) as [F' P'].
  - intros h Hh. apply in_flat_map in Hh. destruct Hh as (p & Hp & Hh). assert (p <> n) by (intros ->; exact (not_own_ancestor n Hp)).
    destruct W as (W1 & W2 & _). destruct (W1 p h Hh) as [Fh _]. split; [congruence|]. intros E.
    apply H. apply (W2 p n h (mk_handler i n) Hh); [rewrite L; left; reflexivity|exact E].
  - rewrite F', P'. cbn [emit files pos hfile sid]. rewrite upd_same, updn_same, F, P, write_at_end, length_app_s. auto.
Qed.

(** * Setting up and closing *)

Section Log.
Variable writable : string -> bool.
Local Notation set_up := (set_up_log writable).

Lemma set_up_cases t fn v w : let n := (fn ++ ".log")%string in
  (writable n = false /\ exists w', set_up t fn v w = (w', Err OSError) /\ files w' = files w /\ loggers w' = loggers w /\ next w' = next w /\ pos w' = pos w /\ captured w' = true /\ err w' = err w) \/
  (writable n = true /\ exists w1, set_up t fn v w = (info t n "The log file has been set-up." w1, Ok n) /\
     files w1 = upd (files w) n (Some "") /\ loggers w1 = upd (loggers w) n (loggers w n ++ [mk_handler (next w) n])%list /\
     next w1 = S (next w) /\ pos w1 = updn (pos w) (next w) 0 /\ captured w1 = true /\ err w1 = err w).
Proof.
  intros n. unfold set_up_log. cbv zeta. change (fn ++ ".log")%string with n. destruct (writable n); cbn [negb].
  - right. split; [reflexivity|]. eexists. split; [reflexivity|]. destruct v; repeat split.
  - left. split; [reflexivity|]. eexists. split; [reflexivity|]. destruct v; repeat split.
Qed.

Lemma wf_added w w1 n : wf w -> loggers w1 = upd (loggers w) n (loggers w n ++ [mk_handler (next w) n])%list -> next w1 = S (next w) -> wf w1.
Proof.
  intros (W1 & W2 & W3) L X. unfold wf. rewrite L, X.
  assert (Q : forall m h, In h (upd (loggers w) n (loggers w n ++ [mk_handler (next w) n])%list m) -> (In h (loggers w m)) \/ (m = n /\ h = mk_handler (next w) n)).
  { intros m h. unfold upd. destruct (String.eqb_spec m n) as [->|]; [|auto]. rewrite in_app_iff. cbn. intros [?|[<-|[]]]; auto. }
  split; [|split].
  - intros m h H. apply Q in H. destruct H as [H|[-> ->]]; [destruct (W1 m h H); split; [assumption|lia]|split; [reflexivity|cbn; lia]].
  - intros m p h k H K E. apply Q in H, K. destruct H as [H|[-> ->]], K as [K|[-> ->]]; cbn in E.
    + exact (W2 _ _ _ _ H K E).
    + destruct (W1 m h H). lia.
    + destruct (W1 p k K). lia.
    + reflexivity.
  - intros m. unfold upd. destruct (String.eqb_spec m n) as [->|]; [|apply W3]. rewrite map_app. cbn.
    apply NoDup_snoc; [apply W3|]. intros I. apply in_map_iff in I. destruct I as (h & E & I). destruct (W1 n h I). lia.
Qed.

(** Every second handler survives. *)
Fixpoint odds {A} (l : list A) : list A := match l with [] => [] | [_] => [] | _ :: b :: l => b :: odds l end.

Lemma drop_app h pre l : ~ In (sid h) (map sid pre) -> drop (sid h) (pre ++ h :: l)%list = (pre ++ l)%list.
Proof.
  induction pre as [|k pre IH]; cbn; intros N; [rewrite Nat.eqb_refl; reflexivity|].
  destruct (Nat.eqb_spec (sid k) (sid h)); [exfalso; apply N; left; assumption|]. rewrite IH; [reflexivity|tauto].
Qed.
Lemma close_loop_spec : forall fuel l pre, List.length l <= fuel -> NoDup (map sid (pre ++ l)%list) ->
  close_loop fuel (List.length pre) (pre ++ l)%list = (pre ++ odds l)%list.
Proof.
  induction fuel as [|fuel IH]; intros l pre Hl N.
  - destruct l; [reflexivity|cbn in Hl; lia].
  - cbn [close_loop]. destruct l as [|h l].
    + rewrite (proj2 (nth_error_None _ _)) by (rewrite app_length; cbn; lia). reflexivity.
    + rewrite nth_error_app2 by lia. rewrite Nat.sub_diag. cbn [nth_error].
      rewrite map_app in N. cbn in N. pose proof (NoDup_remove_2 _ _ _ N) as Nh. pose proof (NoDup_remove_1 _ _ _ N) as N'. rewrite in_app_iff in Nh.
      rewrite drop_app by tauto. destruct l as [|b l].
      * rewrite app_nil_r. destruct fuel as [|fuel]; cbn [close_loop odds]; [rewrite app_nil_r; reflexivity|].
        rewrite (proj2 (nth_error_None _ _)) by lia. rewrite app_nil_r. reflexivity.
      * cbn [odds]. specialize (IH l (pre ++ [b])%list). rewrite app_length in IH. cbn [List.length] in IH. rewrite Nat.add_1_r, <- !app_assoc in IH. cbn [app] in IH.
        apply IH; [cbn in Hl; lia|]. rewrite map_app. exact N'.
Qed.
Lemma close_all_spec l : NoDup (map sid l) -> close_loop (List.length l) 0 l = odds l.
Proof. intros N. exact (close_loop_spec (List.length l) l [] (le_n _) N). Qed.

Lemma odds_incl {A} (x : A) : forall l, In x (odds l) -> In x l.
Proof.
  fix IH 1. intros [|a [|b l]]; cbn; try tauto. intros [->|H]; [tauto|]. right; right. apply IH. exact H.
Qed.
Lemma odds_NoDup {A B} (f : A -> B) : forall l, NoDup (map f l) -> NoDup (map f (odds l)).
Proof.
  fix IH 1. intros [|a [|b l]] N; cbn; try constructor.
  - cbn in N. inversion N as [|? ? _ N1]; subst. inversion N1 as [|? ? N2 N3]; subst. intros I. apply N2. apply in_map_iff in I. destruct I as (x & E & I).
    apply in_map_iff. exists x. split; [exact E|]. apply odds_incl. exact I.
  - cbn in N. inversion N as [|? ? _ N1]; subst. inversion N1 as [|? ? N2 N3]; subst. apply IH. exact N3.
Qed.

Lemma close_log_shape t n v w : exists w1, same_shape (if v : bool then print_out w ("Closing log file: " ++ n ++ nl) else w) w1 /\
  w1 = info t n "The log file has been closed." (if v then print_out w ("Closing log file: " ++ n ++ nl) else w) /\
  close_log t n v w = set_loggers w1 (upd (loggers w1) n (close_loop (List.length (loggers w1 n)) 0 (loggers w1 n))).
Proof. eexists. split; [apply info_shape|]. split; reflexivity. Qed.

Lemma wf_print w s : wf w -> wf (print_out w s).
Proof. exact (fun H => H). Qed.

Lemma wf_close t n v w : wf w -> wf (close_log t n v w).
Proof.
  intros W. destruct (close_log_shape t n v w) as (w1 & S1 & _ & ->).
  assert (W' : wf w1) by (apply (wf_shape _ _ S1); destruct v; [apply wf_print|]; exact W). destruct W' as (W1 & W2 & W3). clear S1 W.
  rewrite (close_all_spec _ (W3 n)). unfold wf, set_loggers. cbn [loggers next].
  assert (Q : forall m h, In h (upd (loggers w1) n (odds (loggers w1 n)) m) -> In h (loggers w1 m)).
  { intros m h. unfold upd. destruct (String.eqb_spec m n) as [->|]; [apply odds_incl|auto]. }
  split; [|split].
  - intros m h H. apply W1. apply Q. exact H.
  - intros m p h k H K. apply W2; apply Q; assumption.
  - intros m. unfold upd. destruct (String.eqb_spec m n) as [->|]; [apply odds_NoDup|]; apply W3.
Qed.
Lemma wf_set_up t fn v w : wf w -> wf (fst (set_up t fn v w)).
Proof.
  intros W. destruct (set_up_cases t fn v w) as [(_ & w' & -> & A & B & C & _)|(_ & w1 & -> & A & B & C & _)]; cbn [fst].
  - destruct W as (W1 & W2 & W3). unfold wf. rewrite B, C. auto.
  - apply (wf_shape w1); [apply info_shape|]. exact (wf_added w w1 _ W B C).
Qed.

(** * Traces *)

Inductive op := SetUp (t fn : string) (v : bool) | Info (t n msg : string) | Close (t n : string) (v : bool).
Definition step (w : world) (o : op) : world :=
  match o with
  | SetUp t fn v => fst (set_up t fn v w)
  | Info t n msg => info t n msg w
  | Close t n v => close_log t n v w
  end.
Definition target (o : op) : string := match o with SetUp _ fn _ => fn ++ ".log" | Info _ n _ => n | Close _ n _ => n end.

Lemma wf_step w o : wf w -> wf (step w o).
Proof. destruct o; cbn [step]; [apply wf_set_up|apply wf_shape, info_shape|apply wf_close]. Qed.

Lemma open_same w w' n c : open_log w n c -> loggers w' n = loggers w n -> files w' n = files w n -> pos w' = pos w -> open_log w' n c.
Proof. intros (i & L & F & P) A B C. exists i. rewrite A, B, C. auto. Qed.

(** An operation on another log, not below n, leaves the log n alone. *)
Lemma step_other w o n c : wf w -> open_log w n c -> target o <> n -> (forall r, target o <> n ++ "." ++ r) -> open_log (step w o) n c.
Proof.
  intros W O N B. destruct o as [t fn v|t m msg|t m v]; cbn [step target] in *.
  - destruct (set_up_cases t fn v w) as [(_ & w' & -> & F & L & _ & P & _)|(_ & w1 & -> & F & L & X & P & _)]; cbn [fst].
    + apply (open_same w); try assumption; congruence.
    + assert (W' : wf w1) by exact (wf_added w w1 _ W L X). apply info_other; try assumption.
      destruct O as (i & OL & OF & OP). exists i. rewrite L, F, P. rewrite !upd_other by congruence. split; [exact OL|]. split; [exact OF|].
      rewrite updn_other; [exact OP|]. destruct W as (W1 & _). destruct (W1 n (mk_handler i n)) as [_ H]; [rewrite OL; left; reflexivity|]. cbn in H. lia.
  - apply info_other; assumption.
  - destruct (close_log_shape t m v w) as (w1 & S1 & E & ->).
    assert (O1 : open_log w1 n c).
    { rewrite E. apply info_other; try assumption; destruct v; assumption. }
    apply (open_same w1); try reflexivity; [exact O1|]. cbn [set_loggers loggers]. apply upd_other. congruence.
Qed.

(** The lines that the records of n make, in order. *)
Definition own_line (n : string) (o : op) : string := match o with Info t m msg => if String.eqb m n then line t msg else "" | _ => "" end.
Fixpoint own_lines (n : string) (os : list op) : string := match os with [] => "" | o :: os => own_line n o ++ own_lines n os end.

(** None of the operations sets up or closes n, or is on a logger below n. *)
Definition leaves_open (n : string) (os : list op) : Prop :=
  forall o, In o os -> (target o = n -> exists t m, o = Info t n m) /\ (forall r, target o <> n ++ "." ++ r).

Lemma run_open n : forall os w c, wf w -> open_log w n c -> leaves_open n os -> wf (fold_left step os w) /\ open_log (fold_left step os w) n (c ++ own_lines n os).
Proof.
  induction os as [|o os IH]; intros w c W O H; cbn [fold_left own_lines]; [rewrite app_nil_s; auto|].
  rewrite <- app_assoc_s. apply IH; [apply wf_step; exact W| |intros p Hp; apply H; right; exact Hp].
  destruct (H o (or_introl eq_refl)) as [H1 H2]. destruct (string_dec (target o) n) as [E|N].
  - destruct (H1 E) as (t & m & ->). cbn [own_line step]. rewrite String.eqb_refl. apply emits_own; assumption.
  - assert (El : own_line n o = "") by (destruct o as [| |]; cbn in *; try reflexivity; rewrite (proj2 (String.eqb_neq _ _) N); reflexivity).
    rewrite El, app_nil_s. apply step_other; assumption.
Qed.

(** A log that no handler writes to. *)
Definition closed (w : world) (n : string) : Prop := loggers w n = [].
Lemma emits_file l f : forall hs w, (forall h, In h hs -> hfile h <> f) -> files (fold_left (emit l) hs w) f = files w f.
Proof.
  induction hs as [|h hs IH]; intros w H; [reflexivity|]. cbn [fold_left]. rewrite IH by (intros k Hk; apply H; right; exact Hk).
  cbn [emit files]. apply upd_other. intros E. exact (H h (or_introl eq_refl) (eq_sym E)).
Qed.
Lemma reached_closed w n m h : wf w -> closed w n -> In h (reached w m) -> hfile h <> n.
Proof.
  intros (W1 & _) C H E. unfold reached in H. apply in_flat_map in H. destruct H as (p & _ & Hh). destruct (W1 p h Hh) as [F _].
  rewrite E in F. subst p. rewrite C in Hh. destruct Hh.
Qed.
Lemma step_closed w o n : wf w -> closed w n -> (forall t fn v, o = SetUp t fn v -> (fn ++ ".log")%string <> n) ->
  closed (step w o) n /\ files (step w o) n = files w n.
Proof.
  intros W C H. destruct o as [t fn v|t m msg|t m v]; cbn [step].
  - specialize (H t fn v eq_refl). destruct (set_up_cases t fn v w) as [(_ & w' & -> & F & L & _)|(_ & w1 & -> & F & L & X & _)]; cbn [fst].
    + unfold closed. rewrite L, F. auto.
    + assert (C1 : closed w1 n) by (unfold closed; rewrite L, upd_other by congruence; exact C). assert (W1 : wf w1) by exact (wf_added w w1 _ W L X).
      split; [unfold closed; rewrite (proj1 (info_shape _ _ _ _)); exact C1|]. unfold info. rewrite emits_file by (intros h Hh; exact (reached_closed w1 n _ h W1 C1 Hh)).
      rewrite F. apply upd_other. congruence.
  - split; [unfold closed; rewrite (proj1 (info_shape _ _ _ _)); exact C|]. unfold info. apply emits_file. intros h Hh. exact (reached_closed w n _ h W C Hh).
  - destruct (close_log_shape t m v w) as (w1 & S1 & E & ->).
    set (w0 := if v then _ else w) in *. assert (W0 : wf w0) by (unfold w0; destruct v; exact W). assert (C0 : closed w0 n) by (unfold w0; destruct v; exact C).
    assert (F0 : files w0 n = files w n) by (unfold w0; destruct v; reflexivity). clearbody w0.
    assert (C1 : closed w1 n) by (unfold closed; rewrite (proj1 S1); exact C0). split.
    + unfold closed. cbn [set_loggers loggers]. unfold upd. destruct (String.eqb_spec n m) as [<-|]; [|exact C1]. rewrite C1. reflexivity.
    + cbn [set_loggers files]. rewrite E, <- F0. unfold info. apply emits_file. intros h Hh. exact (reached_closed w0 n _ h W0 C0 Hh).
Qed.
Lemma run_closed n : forall os w, wf w -> closed w n -> (forall t fn v, In (SetUp t fn v) os -> (fn ++ ".log")%string <> n) ->
  wf (fold_left step os w) /\ closed (fold_left step os w) n /\ files (fold_left step os w) n = files w n.
Proof.
  induction os as [|o os IH]; intros w W C H; cbn [fold_left]; [auto|].
  destruct (step_closed w o n W C) as [C1 F1]; [intros t fn v ->; apply (H t fn v); left; reflexivity|].
  destruct (IH (step w o) (wf_step w o W) C1) as (A & B & D); [intros t fn v Hin; apply (H t fn v); right; exact Hin|]. rewrite D. auto.
Qed.

(** Setting up a logger without handlers opens a fresh log. *)
Lemma set_up_open t fn v w : wf w -> writable (fn ++ ".log")%string = true -> loggers w (fn ++ ".log")%string = [] ->
  exists w', set_up t fn v w = (w', Ok (fn ++ ".log")%string) /\ wf w' /\ open_log w' (fn ++ ".log")%string (line t "The log file has been set-up.").
Proof.
  intros W Wr L0. destruct (set_up_cases t fn v w) as [(E & _)|(_ & w1 & E & F & L & X & P & _)]; [congruence|].
  assert (W1 : wf w1) by exact (wf_added w w1 _ W L X). eexists. split; [exact E|]. split; [apply (wf_shape w1); [apply info_shape|exact W1]|].
  apply (emits_own _ w1 _ ""); [exact W1|]. exists (next w). rewrite L, F, P, !upd_same, updn_same, L0. auto.
Qed.
Lemma close_open t n v w c : wf w -> open_log w n c -> wf (close_log t n v w) /\ closed (close_log t n v w) n /\
  files (close_log t n v w) n = Some (c ++ line t "The log file has been closed.").
Proof.
  intros W O. split; [apply wf_close; exact W|]. destruct (close_log_shape t n v w) as (w1 & S1 & E & ->).
  set (w0 := if v then _ else w) in *. assert (W0 : wf w0) by (unfold w0; destruct v; exact W).
  assert (O0 : open_log w0 n c) by (unfold w0; destruct v; [apply (open_same w); try reflexivity|]; exact O). clearbody w0.
  pose proof (emits_own (line t "The log file has been closed.") w0 n c W0 O0) as O1. unfold info in E. rewrite <- E in O1.
  destruct O1 as (i & L1 & F1 & _). split; [|exact F1]. unfold closed. cbn [set_loggers loggers]. rewrite upd_same, L1. cbn. rewrite Nat.eqb_refl. reflexivity.
Qed.
End Log.
