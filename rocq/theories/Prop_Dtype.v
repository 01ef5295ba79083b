(** Theorems about the data types of the starting points: C113. *)
From Verif Require Import Py Model_Dtype.
From Coq Require Import List Lia Bool.
Import ListNotations.

(** Specification: b can be stored in a without loss of kind. *)
Inductive fits : dt -> dt -> Prop :=
| fits_refl d : fits d d | fits_ir : fits DInt DReal | fits_ic : fits DInt DComplex | fits_rc : fits DReal DComplex.

Lemma dle_fits a b : dle a b = true <-> fits a b.
Proof. destruct a, b; cbn; split; intros H; try constructor; try reflexivity; try discriminate; inversion H. Qed.
Lemma in_place_ok a b c : in_place a b = Ok c <-> c = a /\ fits b a.
Proof. unfold in_place. rewrite <- dle_fits. destruct (dle b a); split; intros H; try discriminate; [injection H as <-; auto|destruct H as [-> _]; reflexivity|destruct H; discriminate]. Qed.
Lemma in_place_err a b e : in_place a b = Err e <-> e = TypeError /\ ~ fits b a.
Proof. unfold in_place. rewrite <- dle_fits. destruct (dle b a); split; intros H; try discriminate; [destruct H as [_ H]; exfalso; auto|injection H as <-; auto|destruct H as [-> _]; reflexivity]. Qed.
Lemma fits_join a b d : fits (join a b) d <-> fits a d /\ fits b d.
Proof. rewrite <- !dle_fits. destruct a, b, d; cbn; intuition congruence. Qed.
Lemma fits_dec a b : {fits a b} + {~ fits a b}.
Proof. destruct (dle a b) eqn:E; [left|right]; rewrite <- dle_fits; congruence. Qed.
Lemma fits_antisym a b : fits a b -> fits b a -> a = b.
Proof. intros H K; inversion H; subst; inversion K; congruence. Qed.
Lemma fits_trans a b c : fits a b -> fits b c -> fits a c.
Proof. rewrite <- !dle_fits. destruct a, b, c; cbn; congruence. Qed.

(** [C113] ForwardBackward accepts a starting point of any data type, with any operators: no iteration raises. *)
Theorem C113_forward_backward_any_type : forall g p d restarts n, exists s,
  (fix run k st := match k with 0 => Ok st | S k' => do st' <- fb_types g p (restarts k) st; run k' st' end) n (d, d) = Ok s.
Proof.
  intros g p d restarts n. generalize (d, d). induction n as [|n IH]; intros s; [eauto|].
  destruct s as [x z]. cbn [fb_types]. destruct (IH (p (join z (join DReal (g z))),
    if restarts (S n) then p (join z (join DReal (g z))) else join x (join DReal (join (p (join z (join DReal (g z)))) x)))) as (s & E).
  exists s. cbn [bind]. exact E.
Qed.
Print Assumptions C113_forward_backward_any_type.

(** [C113] So do the gradient descent classes. *)
Theorem C113_gradient_descent_any_type : forall g p k epoch s, exists s', gd_types g p k epoch s = Ok s'.
Proof. intros g p k epoch [[x d] m]. eexists. reflexivity. Qed.
Print Assumptions C113_gradient_descent_any_type.

(** [C113] GenForwardBackward, from a starting point of type d, does n + 1 iterations exactly when d is not an integer type and every
    proximity operator returns what fits d; otherwise its first iteration raises TypeError. The type of the estimate is then d. *)
Theorem C113_gen_forward_backward : forall g ps d n, ps <> [] ->
  (fits DReal d /\ Forall (fun q => fits (q (join d (join DReal (g d)))) d) ps ->
     repeat_types (genfb_types g ps) (S n) (d, d) = Ok (d, d)) /\
  (~ (fits DReal d /\ Forall (fun q => fits (q (join d (join DReal (g d)))) d) ps) ->
     repeat_types (genfb_types g ps) (S n) (d, d) = Err TypeError).
Proof.
  intros g ps d n Hne.
  assert (J : join d d = d) by (destruct d; reflexivity).
  assert (L : forall l, (fits DReal d -> Forall (fun q => fits (q (join d (join DReal (g d)))) d) l -> genfb_loop g l d d = Ok d) /\
     (l <> [] -> ~ (fits DReal d /\ Forall (fun q => fits (q (join d (join DReal (g d)))) d) l) -> genfb_loop g l d d = Err TypeError)).
  { induction l as [|q l [IH1 IH2]]; [split; [reflexivity|congruence]|]. split.
    - intros HR HF. inversion HF as [|? ? A B]; subst. cbn [genfb_loop]. rewrite J.
      assert (E : in_place d (join DReal (join (q (join d (join DReal (g d)))) d)) = Ok d).
      { apply in_place_ok. split; [reflexivity|]. rewrite !fits_join. repeat split; auto. constructor. }
      rewrite E. cbn [bind]. auto.
    - intros _ HN. cbn [genfb_loop]. rewrite J. destruct (in_place d _) as [z'|e] eqn:E; cbn [bind].
      + apply in_place_ok in E. destruct E as [-> E]. rewrite !fits_join in E. destruct E as (HR & HQ & _).
        destruct l as [|q' l']; [exfalso; apply HN; split; [exact HR|constructor; [exact HQ|constructor]]|].
        apply IH2; [discriminate|]. intros [_ HF]. apply HN. split; [exact HR|]. constructor; assumption.
      + apply in_place_err in E. destruct E as [-> _]. reflexivity. }
  destruct (L ps) as [L1 L2]. split.
  - intros [HR HF].
    assert (E : genfb_types g ps (d, d) = Ok (d, d)).
    { unfold genfb_types. rewrite (L1 HR HF). cbn [bind].
      assert (E : in_place d (join d DReal) = Ok d) by (apply in_place_ok; split; [reflexivity|rewrite fits_join; split; [constructor|exact HR]]).
      rewrite E. reflexivity. }
    induction n as [|n IHn]; cbn [repeat_types]; rewrite E; [reflexivity|]. cbn [bind]. exact IHn.
  - intros HN. cbn [repeat_types]. unfold genfb_types. rewrite (L2 Hne HN). reflexivity.
Qed.
Print Assumptions C113_gen_forward_backward.

(** [C113] Condat, from x of type dx and y of type dy, with operators that keep real and complex data apart properly: exactly when neither
    is an integer type and every new value fits. *)
Theorem C113_condat : forall g p pd l l' dx dy n,
  let xp := p (join (join dx (join DReal (g dx))) (join DReal (l' dy))) in
  let yt := join dy (join DReal (l (join xp dx))) in
  (fits DReal dx /\ fits xp dx /\ fits DReal dy /\ fits yt dy /\ fits (pd (join yt DReal)) dy ->
     repeat_types (condat_types g p pd l l') (S n) (dx, dy) = Ok (dx, dy)) /\
  (~ (fits DReal dx /\ fits xp dx /\ fits DReal dy /\ fits yt dy /\ fits (pd (join yt DReal)) dy) ->
     repeat_types (condat_types g p pd l l') (S n) (dx, dy) = Err TypeError).
Proof.
  intros g p pd l l' dx dy n xp yt.
  assert (EX : forall r, in_place dx (join (join DReal xp) (join DReal dx)) = r -> r = Ok dx /\ (fits DReal dx /\ fits xp dx) \/ r = Err TypeError /\ ~ (fits DReal dx /\ fits xp dx)).
  { intros [v|e] E.
    - apply in_place_ok in E. destruct E as [-> E]. rewrite !fits_join in E. left. tauto.
    - apply in_place_err in E. destruct E as [-> E]. right. split; [reflexivity|]. intros [A B]. apply E. rewrite !fits_join. repeat split; auto. constructor. }
  assert (EY : forall r, in_place dy (join (join DReal (join yt (join DReal (pd (join yt DReal))))) (join DReal dy)) = r ->
     r = Ok dy /\ (fits DReal dy /\ fits yt dy /\ fits (pd (join yt DReal)) dy) \/ r = Err TypeError /\ ~ (fits DReal dy /\ fits yt dy /\ fits (pd (join yt DReal)) dy)).
  { intros [v|e] E.
    - apply in_place_ok in E. destruct E as [-> E]. rewrite !fits_join in E. left. tauto.
    - apply in_place_err in E. destruct E as [-> E]. right. split; [reflexivity|]. intros (A & B & C). apply E. rewrite !fits_join. repeat split; auto. constructor. }
  specialize (EX _ eq_refl). specialize (EY _ eq_refl).
  assert (U : condat_types g p pd l l' (dx, dy) =
     do x' <- in_place dx (join (join DReal xp) (join DReal dx));
     do y' <- in_place dy (join (join DReal (join yt (join DReal (pd (join yt DReal))))) (join DReal dy)); Ok (x', y')) by reflexivity.
  split.
  - intros (A1 & A2 & A3 & A4 & A5). destruct EX as [[EX _]|[_ EX]]; [|exfalso; apply EX; auto].
    destruct EY as [[EY _]|[_ EY]]; [|exfalso; apply EY; auto]. rewrite EX, EY in U. cbn [bind] in U.
    induction n as [|n IHn]; cbn [repeat_types]; rewrite U; [reflexivity|]. cbn [bind]. exact IHn.
  - intros HN. cbn [repeat_types]. rewrite U. destruct EX as [[EX HX]|[EX _]]; rewrite EX; cbn [bind]; [|reflexivity].
    destruct EY as [[EY HY]|[EY _]]; rewrite EY; cbn [bind]; [|reflexivity]. exfalso. apply HN. tauto.
Qed.
Print Assumptions C113_condat.

(** [C113] POGM, from four arrays of the same type d: exactly when d is not an integer type, the gradient has the type of the iterates, and
    the proximity operator returns what fits d. *)
Theorem C113_pogm : forall g p d n,
  (fits DReal d /\ g d = d /\ fits (p d) d ->
     exists s, repeat_types (pogm_types g p) (S n) (pogm_init g d d d d) = Ok s /\ px s = d) /\
  (~ (fits DReal d /\ g d = d /\ fits (p d) d) ->
     repeat_types (pogm_types g p) (S n) (pogm_init g d d d d) = Err TypeError).
Proof.
  intros g p d n. split.
  - intros (H1 & H2 & H3).
    assert (E : pogm_types g p (mk_pt d d d d d) = Ok (mk_pt d d d d d)).
    { unfold pogm_types. cbn [pu px py pz pg]. rewrite H2. destruct d; [inversion H1| |]; cbn [join dle rank Nat.leb in_place bind];
        destruct (p _); try reflexivity; inversion H3. }
    exists (mk_pt d d d d d). split; [|reflexivity]. unfold pogm_init. rewrite H2.
    induction n as [|n IHn]; cbn [repeat_types]; rewrite E; [reflexivity|]. cbn [bind]. exact IHn.
  - intros HN. cbn [repeat_types]. enough (E : pogm_types g p (pogm_init g d d d d) = Err TypeError) by (rewrite E; reflexivity).
    unfold pogm_init, pogm_types. cbn [pu px py pz pg].
    destruct d; destruct (g _) eqn:G; cbn [join dle rank Nat.leb in_place bind]; try reflexivity;
      match goal with |- context [p ?x] => destruct (p x) eqn:P end; cbn [join dle rank Nat.leb in_place bind]; try reflexivity;
      exfalso; apply HN; repeat split; try constructor; rewrite ?G; try reflexivity; rewrite ?P; constructor.
Qed.
Print Assumptions C113_pogm.

(** The usual operators: GradBasic with a matrix and data of type [data], thresholding (real or complex results). *)
Definition grad_of (data : dt) : typed_op := fun d => join d data.
Definition soft : typed_op := fun d => join d DReal.

(** [C113, refuted] The classes accept the same starting points: from an integer array (numpy.zeros(n, dtype=int), numpy.arange(n)) and real data
    ForwardBackward runs, while GenForwardBackward, POGM and Condat raise TypeError in their first iteration. *)
Theorem C113_integer_start_refuted : exists g p,
  (forall n, exists s, repeat_types (fb_types g p false) n (DInt, DInt) = Ok s) /\
  repeat_types (genfb_types g [p; p]) 1 (DInt, DInt) = Err TypeError /\
  repeat_types (pogm_types g p) 1 (pogm_init g DInt DInt DInt DInt) = Err TypeError /\
  repeat_types (condat_types g p p (fun d => d) (fun d => d)) 1 (DInt, DInt) = Err TypeError.
Proof.
  exists (grad_of DReal), soft. split; [|repeat split]. intros n. generalize (DInt, DInt). induction n as [|n IH]; intros [x z]; [eexists; reflexivity|].
  cbn [repeat_types fb_types bind]. apply IH.
Qed.
Print Assumptions C113_integer_start_refuted.

(** [C113, refuted] Likewise from a real starting point when the data are complex; and POGM from a complex one when the gradient is real
    (data_type=float). *)
Theorem C113_complex_data_refuted : exists p,
  (forall n, exists s, repeat_types (fb_types (grad_of DComplex) p false) n (DReal, DReal) = Ok s) /\
  repeat_types (genfb_types (grad_of DComplex) [p; p]) 1 (DReal, DReal) = Err TypeError /\
  repeat_types (pogm_types (grad_of DComplex) p) 1 (pogm_init (grad_of DComplex) DReal DReal DReal DReal) = Err TypeError /\
  repeat_types (condat_types (grad_of DComplex) p p (fun d => d) (fun d => d)) 1 (DReal, DReal) = Err TypeError /\
  repeat_types (pogm_types (fun _ => DReal) p) 1 (pogm_init (fun _ => DReal) DComplex DComplex DComplex DComplex) = Err TypeError.
Proof.
  exists soft. split; [|repeat split]. intros n. generalize (DReal, DReal). induction n as [|n IH]; intros [x z]; [eexists; reflexivity|].
  cbn [repeat_types fb_types bind]. apply IH.
Qed.
Print Assumptions C113_complex_data_refuted.

(** [C113, refuted] SAGA's memory holds the gradients: with an integer starting point it holds them truncated to integers. *)
Theorem C113_saga_memory_refuted : exists s, gd_types (grad_of DReal) soft SagaSum true (DInt, DInt, DInt) = Ok (s, true).
Proof. eexists. reflexivity. Qed.
Print Assumptions C113_saga_memory_refuted.

(** [C113] ... and nothing is lost when the gradient's type fits the starting point's. *)
Theorem C113_saga_memory : forall g p epoch x d mem s lost, gd_types g p SagaSum epoch (x, d, mem) = Ok (s, lost) ->
  (lost = false <-> fits (g x) mem).
Proof. intros g p epoch x d mem s lost H. unfold gd_types in H. injection H as <- <-. rewrite <- dle_fits. destruct (dle (g x) mem); cbn; intuition congruence. Qed.
Print Assumptions C113_saga_memory.

Example C113_example :
  repeat_types (genfb_types (grad_of DReal) [soft; soft]) 7 (DReal, DReal) = Ok (DReal, DReal) /\
  repeat_types (genfb_types (grad_of DReal) [soft; soft]) 7 (DComplex, DComplex) = Ok (DComplex, DComplex) /\
  repeat_types (pogm_types (grad_of DReal) soft) 7 (pogm_init (grad_of DReal) DReal DReal DReal DReal) = Ok (mk_pt DReal DReal DReal DReal DReal) /\
  repeat_types (fb_types (grad_of DReal) soft false) 1 (DInt, DInt) = Ok (DReal, DReal).
Proof. repeat split. Qed.
