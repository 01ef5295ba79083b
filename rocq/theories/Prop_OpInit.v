(** C131: what is accepted as an operator, what a refused one raises, and what accepting it does to it. *)
From Verif Require Import NPReal Py Model_OpInit Spec_OpInit.
From Coq Require Import List Lia ZArith Bool.
Import ListNotations.

Section P.
Context {F : Type}.
Implicit Types (a : attr F) (o : uop F) (l : list (uop F)) (v : obj F).

Lemma getattr_reads a v : getattr a = Ok v <-> reads a v.
Proof.
  split.
  - destruct a as [[w|] [c|]|[f|]|w]; cbn; intros E; inversion E; subst; constructor.
  - destruct 1; reflexivity.
Qed.
Lemma getattr_error a e : getattr a = Err e -> e = AttributeError.
Proof. destruct a as [[w|] [c|]|[f|]|w]; cbn; congruence. Qed.
Lemma hasattr_absent a : hasattr a = false <-> absent a.
Proof.
  unfold hasattr, absent. destruct (getattr a) as [v|e] eqn:E; cbn; split; try congruence.
  - intros H. exfalso. apply (H v), getattr_reads, E.
  - intros _ v R. apply getattr_reads in R. congruence.
Qed.
Lemma hasattr_present a : hasattr a = true <-> ~ absent a.
Proof. rewrite <- hasattr_absent. destruct (hasattr a); intuition congruence. Qed.
Lemma present_reads a : ~ absent a <-> exists v, reads a v.
Proof.
  rewrite <- hasattr_present. unfold hasattr. destruct (getattr a) as [v|e] eqn:E; cbn; split; try congruence.
  - intros _. exists v. now apply getattr_reads.
  - intros [v R]. apply getattr_reads in R. congruence.
Qed.
Lemma reads_unique a v w : reads a v -> reads a w -> v = w.
Proof. rewrite <- !getattr_reads. congruence. Qed.
Lemma assignable_dec a : assignable a \/ ~ assignable a.
Proof. destruct a; [left; constructor|left; constructor|right; inversion 1]. Qed.

(** One attribute. *)
Lemma recheck_ok a : snd (recheck a) = Ok tt <-> good a.
Proof.
  unfold recheck, good, callable. split.
  - destruct (getattr a) as [v|e] eqn:E; cbn; [|congruence]. apply getattr_reads in E.
    destruct v as [f|]; cbn; [|congruence]. intros H. split; [eauto|]. destruct a; try constructor. cbn in H. congruence.
  - intros [[f R] A]. apply getattr_reads in R. rewrite R. cbn. destruct A; reflexivity.
Qed.
Lemma recheck_err a e : snd (recheck a) = Err e ->
  (absent a /\ e = AttributeError) \/ (reads a NotCallable /\ e = TypeError)
  \/ (callable a /\ ~ assignable a /\ e = AttributeError).
Proof.
  unfold recheck. destruct (getattr a) as [v|e'] eqn:E; cbn.
  - apply getattr_reads in E. destruct v as [f|]; cbn.
    + destruct a; cbn; try congruence. intros H. injection H as <-. right; right. repeat split; [now exists f|inversion 1].
    + intros H. injection H as <-. auto.
  - intros H. injection H as <-. left. split; [|now apply getattr_error in E].
    intros v R. apply getattr_reads in R. congruence.
Qed.
Lemma recheck_same a v : reads (fst (recheck a)) v <-> reads a v.
Proof.
  rewrite <- !getattr_reads. unfold recheck. destruct (getattr a) as [w|e] eqn:E; cbn; [|now rewrite E].
  destruct w as [f|]; cbn; [|now rewrite E].
  destruct a as [i c|s|w]; cbn in *; [|now destruct s as [g|]; [injection E as ->|discriminate]|now rewrite E].
  split; congruence.
Qed.
Lemma recheck_assignable a : assignable (fst (recheck a)) <-> assignable a.
Proof.
  unfold recheck. destruct (getattr a) as [w|e]; cbn; [|tauto]. destruct w as [f|]; cbn; [|tauto].
  destruct a; cbn; split; try constructor; inversion 1.
Qed.
Lemma recheck_twice a : recheck (fst (recheck a)) = recheck a.
Proof. destruct a as [[[f|]|] [[g|]|]|[f|]|[f|]]; reflexivity. Qed.

(** One operator. *)
Lemma check_operator_cases o :
  (snd (check_operator o) = Ok tt /\ good_op o
   /\ check_operator o = (mk_uop (fst (recheck (a_op o))) (fst (recheck (a_snd o))), Ok tt))
  \/ exists e, snd (check_operator o) = Err e /\ refused_for o e.
Proof.
  unfold check_operator.
  destruct (hasattr (a_op o)) eqn:H1; cbn [negb].
  2:{ right. exists ValueError. split; [reflexivity|]. apply no_op. now apply hasattr_absent. }
  destruct (hasattr (a_snd o)) eqn:H2; cbn [negb].
  2:{ right. exists ValueError. split; [reflexivity|]. apply no_second. now apply hasattr_absent. }
  apply hasattr_present in H1. apply hasattr_present in H2.
  pose proof (recheck_ok (a_op o)) as O1. pose proof (recheck_err (a_op o)) as E1.
  destruct (recheck (a_op o)) as [a1 r1]; cbn [fst snd] in *. destruct r1 as [[]|e1].
  - pose proof (recheck_ok (a_snd o)) as O2. pose proof (recheck_err (a_snd o)) as E2.
    destruct (recheck (a_snd o)) as [a2 r2]; cbn [fst snd] in *. destruct r2 as [[]|e2].
    + left. split; [reflexivity|]. split; [|reflexivity]. split; [now apply O1|now apply O2].
    + right. exists e2. split; [reflexivity|]. destruct (E2 e2 eq_refl) as [[A _]|[[A ->]|(A & B & ->)]]; [tauto| |].
      * apply second_not_callable; [now apply O1|exact A].
      * apply second_fixed; [now apply O1|exact A|exact B].
  - right. exists e1. split; [reflexivity|]. destruct (E1 e1 eq_refl) as [[A _]|[[A ->]|(A & B & ->)]]; [tauto| |].
    * now apply op_not_callable.
    * now apply op_fixed.
Qed.
Lemma good_present a : good a -> ~ absent a.
Proof. intros [[f R] _] A. exact (A _ R). Qed.
Lemma not_callable_not_good a : reads a NotCallable -> ~ callable a.
Proof. intros R [f R']. pose proof (reads_unique _ _ _ R R'). discriminate. Qed.
Lemma refused_not_good o e : refused_for o e -> ~ good_op o.
Proof.
  intros R [G1 G2]. destruct R as [o A|o A|o A B|o A B C|o A B|o A B C].
  - exact (good_present _ G1 A).
  - exact (good_present _ G2 A).
  - exact (not_callable_not_good _ A (proj1 G1)).
  - exact (B (proj2 G1)).
  - exact (not_callable_not_good _ B (proj1 G2)).
  - exact (C (proj2 G2)).
Qed.
(** [refused_for] names one exception. *)
Lemma refused_unique o e e' : refused_for o e -> refused_for o e' -> e = e'.
Proof.
  assert (D : forall a v, reads a v -> absent a -> False) by (intros a v R A; exact (A _ R)).
  assert (K : forall a, callable a -> absent a -> False) by (intros a [f R] A; exact (A _ R)).
  intros R R'. destruct R as [o A|o A|o A B|o A B C|o A B|o A B C];
    inversion R' as [o' A'|o' A'|o' A' B'|o' A' B' C'|o' A' B'|o' A' B' C']; subst; try reflexivity; exfalso;
    repeat match goal with H : good _ |- _ => destruct H end;
    repeat match goal with
    | H : reads ?a NotCallable, H' : callable ?a |- _ => exact (not_callable_not_good _ H H')
    | H : callable ?a, H' : absent ?a |- _ => exact (K _ H H')
    | H : reads ?a _, H' : absent ?a |- _ => exact (D _ _ H H')
    end; tauto.
Qed.
Lemma check_operator_same o : same_methods o (fst (check_operator o)).
Proof.
  unfold check_operator, same_methods.
  destruct (hasattr (a_op o)); cbn [negb fst]; [|tauto].
  destruct (hasattr (a_snd o)); cbn [negb fst]; [|tauto].
  pose proof (recheck_same (a_op o)) as S1. destruct (recheck (a_op o)) as [a1 r1]; cbn [fst] in *.
  pose proof (recheck_same (a_snd o)) as S2. destruct (recheck (a_snd o)) as [a2 r2]; cbn [fst] in *.
  destruct r1; cbn [fst a_op a_snd]; split; intros v; try rewrite S1; try rewrite S2; tauto.
Qed.

(** The loop. *)
Lemma check_operators_ok l : snd (check_operators l) = Ok tt <-> Forall good_op l.
Proof.
  induction l as [|o l IH]; cbn; [split; [constructor|reflexivity]|].
  destruct (check_operator_cases o) as [(_ & G & ->)|(e & E & R)].
  - destruct (check_operators l) as [l1 r1]; cbn [snd] in *. rewrite IH. split; [now constructor|now inversion 1].
  - destruct (check_operator o) as [o1 r]; cbn [snd] in E; subst r. cbn. split; [congruence|].
    inversion 1; subst. exfalso. now apply (refused_not_good _ _ R).
Qed.
Lemma check_operators_err l e : snd (check_operators l) = Err e <->
  exists pre o post, l = pre ++ o :: post /\ Forall good_op pre /\ refused_for o e.
Proof.
  induction l as [|o l IH]; cbn.
  - split; [congruence|]. intros (pre & o & post & E & _). destruct pre; discriminate.
  - destruct (check_operator_cases o) as [(_ & G & ->)|(e' & E & R)].
    + destruct (check_operators l) as [l1 r1]; cbn [snd] in *. rewrite IH. split.
      * intros (pre & o' & post & -> & Hp & R). exists (o :: pre), o', post. repeat split; [now constructor|exact R].
      * intros (pre & o' & post & El & Hp & R). destruct pre as [|p pre]; injection El as -> ->.
        -- exfalso. now apply (refused_not_good _ _ R).
        -- exists pre, o', post. repeat split; [now inversion Hp|exact R].
    + destruct (check_operator o) as [o1 r]; cbn [snd] in E; subst r. cbn. split.
      * intros H. injection H as <-. exists [], o, l. repeat split; [constructor|exact R].
      * intros (pre & o' & post & El & Hp & R'). destruct pre as [|p pre]; injection El as -> ->.
        -- f_equal. exact (refused_unique _ _ _ R R').
        -- inversion Hp; subst. exfalso. now apply (refused_not_good _ _ R).
Qed.
Lemma check_operators_same l : Forall2 same_methods l (fst (check_operators l)).
Proof.
  assert (Rf : forall l0, Forall2 same_methods l0 l0).
  { induction l0; constructor; [unfold same_methods; tauto|assumption]. }
  induction l as [|o l IH]; cbn; [constructor|].
  pose proof (check_operator_same o) as S1. destruct (check_operator o) as [o1 r]; cbn [fst] in *.
  destruct r; [|constructor; [exact S1|apply Rf]].
  destruct (check_operators l) as [l1 r1]; cbn [fst] in *. now constructor.
Qed.

(** ** C131 *)

(** ProximityCombo takes a non-empty sequence of operators whose two methods are callable and can be
    assigned, and keeps them in order, with the methods they had. *)
Theorem C131_combo_accepts l : 
  (exists kept, snd (prox_combo_init (OSeq l)) = Ok kept) <-> l <> [] /\ Forall good_op l.
Proof.
  unfold prox_combo_init. destruct l as [|o l]; [cbn; split; [intros [k E]; discriminate|tauto]|].
  rewrite <- check_operators_ok. destruct (check_operators (o :: l)) as [l1 [[]|e]]; cbn; split.
  - intros _. split; [discriminate|reflexivity].
  - intros _. eauto.
  - intros [k E]. discriminate.
  - intros [_ E]. discriminate.
Qed.

Theorem C131_combo_keeps l after kept :
  prox_combo_init (OSeq l) = (after, Ok kept) -> kept = after /\ Forall2 same_methods l kept /\ Forall good_op kept.
Proof.
  unfold prox_combo_init. destruct l as [|o l]; [discriminate|].
  pose proof (check_operators_same (o :: l)) as Sm. pose proof (check_operators_ok (o :: l)) as O.
  destruct (check_operators (o :: l)) as [l1 [[]|e]] eqn:E; cbn [fst snd bind] in *; intros H; [injection H as <- <-|discriminate].
  repeat split; [exact Sm|]. clear Sm.
  (* checking again would succeed *)
  destruct O as [O _]. specialize (O eq_refl). revert l1 E. generalize (o :: l) as l0, O. clear o l O.
  induction l0 as [|o l0 IH]; intros G l1; cbn.
  - intros E. injection E as <-. constructor.
  - inversion G as [|? ? Go Gl]; subst. destruct (check_operator_cases o) as [(_ & _ & ->)|(e & E & R)].
    2:{ exfalso. now apply (refused_not_good _ _ R). }
    destruct (check_operators l0) as [l2 r2]; intros E; injection E as <- ->.
    constructor; [|now apply IH]. destruct Go as [[C1 A1] [C2 A2]].
    split; split; cbn [a_op a_snd]; try (now apply recheck_assignable);
      [destruct C1 as [f R]|destruct C2 as [f R]]; exists f; now apply recheck_same.
Qed.

(** Otherwise the first operator that is not acceptable decides the exception. *)
Theorem C131_combo_errors :
  snd (prox_combo_init (@OOther F)) = Err TypeError
  /\ snd (prox_combo_init (@OSeq F [])) = Err ValueError
  /\ forall pre o post e, Forall good_op pre -> refused_for o e ->
       snd (prox_combo_init (OSeq (pre ++ o :: post))) = Err e.
Proof.
  repeat split. intros pre o post e Hp R. unfold prox_combo_init.
  destruct (pre ++ o :: post) as [|x y] eqn:El; [destruct pre; discriminate|]. rewrite <- El.
  assert (E : snd (check_operators (pre ++ o :: post)) = Err e) by (apply check_operators_err; eauto 6).
  destruct (check_operators (pre ++ o :: post)) as [l1 r1]; cbn in *. now subst r1.
Qed.

(** Accepted or refused, every operator reads as it did before. *)
Theorem C131_methods_unchanged l w :
  Forall2 same_methods l (fst (prox_combo_init (OSeq l))) /\ Forall2 same_methods l (fst (lin_combo_init (OSeq l) w)).
Proof.
  unfold prox_combo_init, lin_combo_init. destruct l as [|o l]; [split; constructor|].
  pose proof (check_operators_same (o :: l)) as Sm. destruct (check_operators (o :: l)) as [l1 r1]; cbn [fst] in *. now split.
Qed.

(** Putting the same operators into another combination gives the same outcome and changes nothing. *)
Theorem C131_reuse l after kept :
  prox_combo_init (OSeq l) = (after, Ok kept) -> prox_combo_init (OSeq after) = (after, Ok kept).
Proof.
  intros H. destruct (C131_combo_keeps _ _ _ H) as (-> & _ & _). revert H. unfold prox_combo_init.
  destruct l as [|o l]; [discriminate|].
  destruct (check_operators (o :: l)) as [l1 [[]|e]] eqn:E; cbn [bind]; intros H; [injection H as <-|discriminate].
  assert (Idem : forall l0 l2, check_operators l0 = (l2, Ok tt) -> check_operators l2 = (l2, Ok tt)).
  { clear. induction l0 as [|o l0 IH]; intros l2; cbn; [intros E; injection E as <-; reflexivity|].
    destruct (check_operator_cases o) as [(_ & G & ->)|(e & E & R)].
    - destruct (check_operators l0) as [l3 r3]; intros E; injection E as <- ->. cbn.
      assert (Ho : check_operator (mk_uop (fst (recheck (a_op o))) (fst (recheck (a_snd o))))
                   = (mk_uop (fst (recheck (a_op o))) (fst (recheck (a_snd o))), Ok tt)).
      { destruct (check_operator_cases (mk_uop (fst (recheck (a_op o))) (fst (recheck (a_snd o))))) as [(_ & _ & ->)|(e & E & R)].
        - cbn [a_op a_snd]. now rewrite !recheck_twice.
        - exfalso. apply (refused_not_good _ _ R). destruct G as [[C1 A1] [C2 A2]].
          split; split; cbn [a_op a_snd]; try (now apply recheck_assignable);
            [destruct C1 as [f R']|destruct C2 as [f R']]; exists f; now apply recheck_same. }
      rewrite Ho. now rewrite (IH l3 eq_refl).
    - destruct (check_operator o) as [o1 r]; cbn [snd] in E; subst r. discriminate. }
  pose proof (Idem _ _ E) as E2. cbn in E. destruct l1 as [|o1 l1].
  { destruct (check_operator o) as [? [?|?]]; [destruct (check_operators l)|]; discriminate. }
  now rewrite E2.
Qed.

(** LinearCombo: the operators are examined first and in the same way; then the weights, which must be
    as many as the operators, without complex numbers and not all integers. *)
Definition weights_ok (l : list (uop F)) (w : weights_arg) (value : option (list R)) : Prop :=
  (w = WNone /\ value = None)
  \/ exists ws, w = WSeq ws /\ List.length ws = List.length l /\ (exists r, In (WFloat r) ws)
       /\ (forall c, ~ In (WComplex c) ws) /\ value = Some (map num_value ws).

Lemma floating_spec ws : floating ws = true <-> (exists r, In (WFloat r) ws) /\ forall c, ~ In (WComplex c) ws.
Proof.
  unfold floating. rewrite andb_true_iff, existsb_exists, forallb_forall. split.
  - intros [(x & I & X) A]. split; [destruct x; try discriminate; eauto|]. intros c I'. specialize (A _ I'). discriminate.
  - intros [[r I] A]. split; [eauto|]. intros [z|r'|c] I'; try reflexivity. exfalso. exact (A _ I').
Qed.

Theorem C131_linear_combo l w value :
  (exists kept, snd (lin_combo_init (OSeq l) w) = Ok (kept, value))
  <-> l <> [] /\ Forall good_op l /\ weights_ok l w value.
Proof.
  unfold lin_combo_init. destruct l as [|o l]; [cbn; split; [intros [k E]; discriminate|tauto]|].
  rewrite <- check_operators_ok. set (n := o :: l). unfold weights_ok.
  destruct (check_operators n) as [l1 [[]|e]]; cbn [bind snd].
  2:{ split; [intros [k E]; discriminate|intros (_ & E & _); discriminate]. }
  destruct w as [|ws|].
  - split.
    + intros [k E]. injection E as _ <-. repeat split; [discriminate|left; tauto].
    + intros (_ & _ & [[_ ->]|(ws & E & _)]); [eauto|discriminate].
  - destruct ws as [|x ws].
    { split; [intros [k E]; discriminate|]. intros (_ & _ & [[E _]|(ws & E & L & _)]); [discriminate|].
      injection E as <-. discriminate. }
    destruct (Nat.eqb_spec (List.length (x :: ws)) (List.length n)) as [L|L]; cbn [negb].
    + pose proof (floating_spec (x :: ws)) as Fs. destruct (floating (x :: ws)); cbn [negb].
      * split.
        -- intros [k E]. injection E as _ <-. split; [discriminate|split; [reflexivity|]]. right. exists (x :: ws).
           destruct Fs as [Fs _]. destruct (Fs eq_refl). repeat split; assumption.
        -- intros (_ & _ & [[E _]|(ws' & E & _ & _ & _ & ->)]); [discriminate|]. injection E as <-. eauto.
      * split; [intros [k E]; discriminate|]. intros (_ & _ & [[E _]|(ws' & E & _ & A & B & _)]); [discriminate|].
        injection E as <-. destruct Fs as [_ Fs]. specialize (Fs (conj A B)). discriminate.
    + split; [intros [k E]; discriminate|]. intros (_ & _ & [[E _]|(ws' & E & L' & _)]); [discriminate|].
      injection E as <-. tauto.
  - split; [intros [k E]; discriminate|]. intros (_ & _ & [[E _]|(ws & E & _)]); discriminate.
Qed.

Theorem C131_linear_combo_errors :
  (forall w, snd (lin_combo_init (@OOther F) w) = Err TypeError)
  /\ (forall w, snd (lin_combo_init (@OSeq F []) w) = Err ValueError)
  /\ (forall pre o post e w, Forall good_op pre -> refused_for o e ->
       snd (lin_combo_init (OSeq (pre ++ o :: post)) w) = Err e)
  /\ forall l, l <> [] -> Forall good_op l ->
       snd (lin_combo_init (OSeq l) WOther) = Err TypeError
       /\ (forall ws, List.length ws <> List.length l -> snd (lin_combo_init (OSeq l) (WSeq ws)) = Err ValueError)
       /\ (forall ws, List.length ws = List.length l ->
            (forall r, ~ In (WFloat r) ws) \/ (exists c, In (WComplex c) ws) ->
            snd (lin_combo_init (OSeq l) (WSeq ws)) = Err TypeError).
Proof.
  split; [reflexivity|]. split; [reflexivity|]. split.
  - intros pre o post e w Hp R. unfold lin_combo_init.
    destruct (pre ++ o :: post) as [|x y] eqn:El; [destruct pre; discriminate|]. rewrite <- El.
    assert (E : snd (check_operators (pre ++ o :: post)) = Err e) by (apply check_operators_err; eauto 6).
    destruct (check_operators (pre ++ o :: post)) as [l1 r1]; cbn in *. now subst r1.
  - intros l N G. apply check_operators_ok in G. unfold lin_combo_init. destruct l as [|o l]; [tauto|].
    destruct (check_operators (o :: l)) as [l1 r1]; cbn [snd] in G; subst r1. cbn [bind snd].
    split; [reflexivity|split].
    + intros [|x ws] L; [reflexivity|]. destruct (Nat.eqb_spec (List.length (x :: ws)) (List.length (o :: l))); [tauto|reflexivity].
    + intros [|x ws] L B; [discriminate|]. rewrite L, Nat.eqb_refl. cbn [negb].
      pose proof (floating_spec (x :: ws)) as Fs. destruct (floating (x :: ws)); [|reflexivity]. exfalso.
      destruct Fs as [Fs _]. destruct (Fs eq_refl) as [[r I] C]. destruct B as [B|[c B]]; [exact (B r I)|exact (C c B)].
Qed.

(** The parent classes refuse what is not callable, at construction and at every later assignment; an
    attribute is the last callable assigned to it. *)
Theorem C131_parent_construction op second :
  (forall f g, op = Fun f -> second = Fun g ->
     exists o, parent_init op second = Ok o /\ reads (a_op o) (Fun f) /\ reads (a_snd o) (Fun g) /\ good_op o)
  /\ (op = @NotCallable F \/ second = NotCallable -> parent_init op second = Err TypeError).
Proof.
  split.
  - intros f g -> ->. eexists. split; [reflexivity|]. cbn. repeat split; try constructor; eexists; constructor.
  - intros [-> | ->]; [reflexivity|]. now destruct op.
Qed.

Theorem C131_parent_assignment (s : option F) (h : list (obj F)) (f : F) :
  (forall v, v = NotCallable -> setattr (assign_all (Checked s) h) v = Err TypeError)
  /\ (forall before later, h = before ++ Fun f :: later -> Forall (eq NotCallable) later ->
        reads (assign_all (Checked s) h) (Fun f))
  /\ (Forall (eq NotCallable) h -> assign_all (Checked s) h = Checked s).
Proof.
  assert (Sh : forall h s, exists s', assign_all (Checked s) h = @Checked F s').
  { clear. induction h as [|[f|] h IH]; intros s; cbn; [eauto|apply IH|apply IH]. }
  assert (Id : forall h s, Forall (eq NotCallable) h -> assign_all (Checked s) h = @Checked F s).
  { clear. induction h as [|v h IH]; intros s Hh; [reflexivity|]. inversion Hh; subst. cbn. now apply IH. }
  repeat split.
  - intros v ->. destruct (Sh h s) as [s' ->]. reflexivity.
  - intros before later -> Hl. revert s. induction before as [|v before IH]; intros s; cbn [app assign_all].
    + cbn. rewrite Id by exact Hl. constructor.
    + destruct v as [g|]; apply IH.
  - apply Id.
Qed.

(** GradParent: cost and get_grad may be left out, and then are not there. *)
Theorem C131_grad_parent (f g : F) (get_grad cost : option (obj F)) :
  (get_grad <> Some NotCallable -> cost <> Some NotCallable ->
   exists G, grad_init (Fun f) (Fun g) get_grad cost = Ok G
     /\ reads (g_op G) (Fun f) /\ reads (g_trans_op G) (Fun g)
     /\ (forall v, reads (g_get_grad G) v <-> get_grad = Some v)
     /\ (forall v, reads (g_cost G) v <-> cost = Some v))
  /\ (get_grad = Some NotCallable \/ cost = Some NotCallable ->
      grad_init (Fun f) (Fun g) get_grad cost = Err TypeError).
Proof.
  split.
  - intros H1 H2. unfold grad_init.
    assert (Opt : forall c : option (obj F), c <> Some NotCallable ->
              exists a, optional c = Ok a /\ forall v, reads a v <-> c = Some v).
    { intros [[h|]|] Hc; [| tauto|]; cbn; eexists; (split; [reflexivity|]); intros v; split; inversion 1; subst; constructor. }
    destruct (Opt _ H1) as (a1 & E1 & R1), (Opt _ H2) as (a2 & E2 & R2). cbn. rewrite E1. cbn. rewrite E2. cbn.
    eexists. split; [reflexivity|]. cbn. repeat split; try constructor; first [apply R1|apply R2].
  - intros [-> | ->]; cbn; [reflexivity|]. destruct get_grad as [[h|]|]; reflexivity.
Qed.

(** With the default cost="auto" the algorithms need the cost that the documentation calls optional. *)
Theorem C131_auto_cost f g get_grad (cost : option (obj F)) G prox :
  grad_init (Fun f) (Fun g) get_grad cost = Ok G ->
  (auto_cost G prox = Ok tt <-> cost <> None /\ good (a_snd prox))
  /\ (cost = None -> auto_cost G prox = Err ValueError).
Proof.
  unfold grad_init. cbn [check_callable bind]. destruct (optional get_grad) as [a1|e]; [|discriminate]. cbn [bind].
  assert (Q : forall a : option F, auto_cost (mk_gradient (Checked (Some f)) (Checked (Some g)) a1 (Checked a)) prox = Ok tt
              <-> a <> None /\ good (a_snd prox)).
  { intros a. unfold auto_cost. cbn [check_costs g_cost]. destruct a as [c|]; cbn.
    - pose proof (recheck_ok (a_snd prox)) as O.
      pose proof (good_present (a_snd prox)) as Gp. pose proof (hasattr_absent (a_snd prox)) as Ha.
      destruct (hasattr (a_snd prox)); cbn [negb].
      + destruct (recheck (a_snd prox)) as [a2 [[]|e]]; cbn in *.
        * split; [intros _; split; [discriminate|now apply O]|reflexivity].
        * split; [discriminate|]. intros [_ Gd]. apply O in Gd. discriminate.
      + cbn. split; [discriminate|]. intros [_ Gd]. exfalso. apply (Gp Gd). now apply Ha.
    - split; [discriminate|tauto]. }
  destruct cost as [[c|]|]; cbn; [|discriminate|]; intros H; injection H as <-; (split; [|try discriminate; try reflexivity]).
  - rewrite Q. split; intros [_ Gd]; split; try discriminate; assumption.
  - rewrite Q. tauto.
Qed.
End P.
Print Assumptions C131_combo_accepts.
Print Assumptions C131_combo_keeps.
Print Assumptions C131_combo_errors.
Print Assumptions C131_methods_unchanged.
Print Assumptions C131_reuse.
Print Assumptions C131_linear_combo.
Print Assumptions C131_linear_combo_errors.
Print Assumptions C131_parent_construction.
Print Assumptions C131_parent_assignment.
Print Assumptions C131_grad_parent.
Print Assumptions C131_auto_cost.

(** A gradient that is documented as complete (cost is optional) is refused by an algorithm with its
    default arguments, though the proximity operator is in order. *)
Theorem C131_cost_is_optional_refuted :
  exists (G : gradient nat) (prox : uop nat),
    grad_init (Fun 1%nat) (Fun 2%nat) (Some (Fun 3%nat)) None = Ok G /\ good_op prox
    /\ auto_cost G prox = Err ValueError.
Proof.
  exists (mk_gradient (Checked (Some 1%nat)) (Checked (Some 2%nat)) (Checked (Some 3%nat)) (Checked None)),
    (mk_uop (Checked (Some 4%nat)) (Checked (Some 5%nat))).
  repeat split; try constructor; eexists; constructor.
Qed.
Print Assumptions C131_cost_is_optional_refuted.

(** Combining is not without effect on the operators: an operator whose methods come from its class no
    longer follows a later change of that class. *)
Theorem C131_combining_leaves_operators_alone_refuted :
  exists (o o' : uop nat) (f : obj nat),
    fst (prox_combo_init (OSeq [o])) = [o'] /\ same_methods o o'
    /\ reads (set_class (a_op o) f) f /\ ~ reads (set_class (a_op o') f) f.
Proof.
  exists (mk_uop (Plain None (Some (Fun 1%nat))) (Plain None (Some (Fun 2%nat)))),
    (mk_uop (Plain (Some (Fun 1%nat)) (Some (Fun 1%nat))) (Plain (Some (Fun 2%nat)) (Some (Fun 2%nat)))), (Fun 3%nat).
  split; [reflexivity|]. split; [|split; [constructor|cbn; inversion 1]].
  split; intros v; cbn; split; inversion 1; subst; constructor.
Qed.
Print Assumptions C131_combining_leaves_operators_alone_refuted.

(** Three operators: from a parent class, from a user's class, and one whose op cannot be assigned. *)
Example C131_example :
  let a := mk_uop (Checked (Some 1%nat)) (Checked (Some 2%nat)) in
  let b := mk_uop (Plain None (Some (Fun 3%nat))) (Plain (Some (Fun 4%nat)) None) in
  let b' := mk_uop (Plain (Some (Fun 3%nat)) (Some (Fun 3%nat))) (Plain (Some (Fun 4%nat)) None) in
  let c := mk_uop (ReadOnly (Fun 5%nat)) (Checked (Some 6%nat)) in
  let d := mk_uop (Plain None (Some (Fun 7%nat))) (Plain None None) in
  prox_combo_init (OSeq [a; b]) = ([a; b'], Ok [a; b'])
  /\ prox_combo_init (OSeq [b; c; d]) = ([b'; c; d], Err AttributeError)
  /\ prox_combo_init (OSeq [b; d; c]) = ([b'; d; c], Err ValueError)
  /\ lin_combo_init (OSeq [a; b]) (WSeq [WInt 1; WFloat 2]) = ([a; b'], Ok ([a; b'], Some [1%R; 2%R]))
  /\ snd (lin_combo_init (OSeq [a; b]) (WSeq [WInt 1; WInt 2])) = Err TypeError
  /\ snd (lin_combo_init (OSeq [a; b]) (WSeq [WFloat 1])) = Err ValueError.
Proof. cbn. repeat split. Qed.
