(** Theorems about the constructors of the algorithms: C111 (which arguments are accepted and stored) and
    C112 (warnings about operators). *)
From Coq Require Import String Reals Lra.
From Verif Require Import Py Model_Ctor Spec_Ctor.
From Coq Require Import List Lia Permutation.
Import ListNotations.
Local Open Scope string_scope.

Lemma bind_unit_ok {B} (m : res unit) (f : unit -> res B) b : bind m f = Ok b <-> m = Ok tt /\ f tt = Ok b.
Proof. destruct m as [[]|e]; cbn; split; [intros H; split; auto|intros [_ H]; auto|discriminate|intros [H _]; discriminate]. Qed.

Lemma check_all_ok f P l : (forall v, f v = Ok tt <-> P v) -> (check_all f l = Ok tt <-> Forall P l).
Proof.
  intros H. induction l as [|v l IH]; cbn [check_all]; [split; auto|]. rewrite bind_unit_ok, H, IH.
  split; [intros [A B]; constructor; auto|intros A; inversion A; auto].
Qed.
Lemma data_ok v : check_input_data v = Ok tt <-> is_array v.
Proof. unfold is_array. destruct v; cbn; split; try discriminate; try (intros (n & E); discriminate); eauto. Qed.
Lemma param_ok v : check_param v = Ok tt <-> is_float v.
Proof. unfold is_float. destruct v; cbn; split; try discriminate; try (intros (n & E); discriminate); eauto. Qed.
Lemma update_ok v : check_param_update v = Ok tt <-> none_or_function v.
Proof. unfold none_or_function. destruct v; cbn; split; try discriminate; try (intros [E|E]; discriminate); auto. Qed.
Lemma costs_ok l : cost_init l = Ok tt <-> Forall costs l.
Proof.
  induction l as [|v l IH]; cbn [cost_init]; [split; auto|].
  assert (E : (match cost_attr v with None => Err ValueError | Some false => Err TypeError | Some true => cost_init l end) = Ok tt
    <-> costs v /\ cost_init l = Ok tt).
  { unfold costs. destruct v; cbn [cost_attr]; try (split; [discriminate|intros [(r' & m' & X) _]; discriminate]).
    destruct cost as [[|]|]; split; try discriminate; try (intros [(r' & m' & X) _]; discriminate).
    - intros H. split; eauto.
    - intros [_ H]; auto. }
  rewrite E, IH. split; [intros [A B]; constructor; auto|intros A; inversion A; auto].
Qed.
Lemma has_key_In l k : has_key l k = true <-> In k l.
Proof.
  unfold has_key. rewrite existsb_exists. split.
  - intros (x & I & E). apply String.eqb_eq in E. subst. exact I.
  - intros I. exists k. split; [exact I|apply String.eqb_refl].
Qed.
Lemma setup_ok m : setup_init m = Ok tt <-> metrics_ok m.
Proof.
  destruct m as [|l|]; cbn [setup_init metrics_ok]; [split; auto| |split; [discriminate|tauto]].
  destruct (forallb _ l) eqn:E.
  - split; [|auto]. intros _ name keys I. rewrite forallb_forall in E. specialize (E _ I). cbn [snd] in E.
    unfold metric_keys in E. cbn [forallb] in E. repeat rewrite andb_true_iff in E. rewrite !has_key_In in E. tauto.
  - split; [discriminate|]. intros H. exfalso. assert (X : forallb (fun p => forallb (has_key (snd p)) metric_keys) l = true).
    { apply forallb_forall. intros [name keys] I. cbn [snd]. destruct (H _ _ I) as (A & B & C & D).
      unfold metric_keys. cbn [forallb]. rewrite !andb_true_iff, !has_key_In. tauto. }
    congruence.
Qed.
Lemma cost_setting_ok c : modelled c -> (cost_setting (c_cost c) (c_ops c) = Ok tt <-> (c_cost c = VStr "auto" -> Forall costs (c_ops c))).
Proof.
  intros [H _]. unfold cost_setting, is_auto. destruct (c_cost c); try (split; [intros _ X; discriminate X|reflexivity]).
  - destruct (String.eqb_spec s "auto") as [->|N].
    + rewrite costs_ok. split; auto.
    + split; [intros _ X; congruence|reflexivity].
  - exfalso. eapply H. reflexivity.
Qed.
Lemma linear_metrics_ok c : linear_for_metrics (c_metrics c) (c_linear c) = Ok tt <->
  ((exists p l, c_metrics c = MDict (p :: l)) -> c_linear c <> VNone).
Proof.
  unfold linear_for_metrics. destruct (c_metrics c) as [|[|p l]|]; try (split; [intros _ (p' & l' & X); discriminate|reflexivity]).
  destruct (c_linear c); split; try reflexivity; try (intros _ _; discriminate); try discriminate.
  intros H. exfalso. apply H; eauto.
Qed.
Lemma py_or_ok a b : a <> VArray 1 -> ((exists v, py_or a b = Ok v) <-> (forall n, a = VArray n -> n = 0)).
Proof.
  intros N. unfold py_or, truth. destruct a; try (split; [intros _ n X; discriminate X|intros _; cbn; eauto]).
  - destruct r; cbn; eauto.
  - destruct size as [|[|n]]; cbn [bind].
    + split; [intros _ n X; congruence|eauto].
    + congruence.
    + split; [intros (v & X); discriminate|]. intros X. specialize (X _ eq_refl). discriminate.
Qed.
Lemma bind_exists {A B} (m : res A) (f : A -> res B) : (exists b, bind m f = Ok b) <-> exists a, m = Ok a /\ exists b, f a = Ok b.
Proof. destruct m; cbn; split; [intros (b & E); eauto|intros (a' & E & b & X); injection E as <-; eauto|intros (b & E); discriminate|intros (a' & E & _); discriminate]. Qed.
Lemma bind_unit_exists {B} (m : res unit) (f : unit -> res B) : (exists b, bind m f = Ok b) <-> m = Ok tt /\ exists b, f tt = Ok b.
Proof. rewrite bind_exists. split; [intros ([] & E & b & X); eauto|intros (E & b & X); eauto]. Qed.

Lemma sigma_range_ok b v : is_float v -> (sigma_bar_range v = Ok tt <-> forall b' r, [b; v] = [b'; VFloat (Some r)] -> (0 <= r <= 1)%R).
Proof.
  intros (o & ->). destruct o as [r|]; cbn [sigma_bar_range].
  - destruct (Rlt_dec r 0) as [L|L]; [split; [discriminate|intros H; exfalso; specialize (H _ _ eq_refl); lra]|].
    destruct (Rgt_dec r 1) as [G|G]; [split; [discriminate|intros H; exfalso; specialize (H _ _ eq_refl); lra]|].
    split; [|reflexivity]. intros _ b' r' E. injection E as -> ->. lra.
  - split; [|reflexivity]. intros _ b' r' E. discriminate.
Qed.

Lemma construct_exists k c : (exists s, snd (construct k c) = Ok s) <->
  (metrics_ok (c_metrics c) /\ Forall is_array (c_data c)) /\ exists s, after_operators k c = Ok s.
Proof.
  unfold construct. assert (B : before_operators c = Ok tt <-> metrics_ok (c_metrics c) /\ Forall is_array (c_data c)).
  { unfold before_operators. rewrite bind_unit_ok, setup_ok, (check_all_ok _ _ _ data_ok). tauto. }
  rewrite <- B. destruct (before_operators c) as [[]|e]; cbn [snd].
  - tauto.
  - split; [intros (s & E); discriminate|intros [E _]; discriminate].
Qed.

(** [C111] A constructor call succeeds exactly when its arguments are acceptable: metrics are None or a dictionary of complete
    metric descriptions, the data are arrays, with cost='auto' every operator has a cost method, ForwardBackward and
    GenForwardBackward have a linear operator when there are metrics, every numeric parameter is a float, sigma_bar is not outside
    [0, 1], and the updates are None or functions (or 'fista' for ForwardBackward's lambda_update). *)
Theorem C111_accepts_exactly : forall k c, well_formed k c -> modelled c ->
  ((exists s, snd (construct k c) = Ok s) <-> acceptable k c).
Proof.
  intros k c W M. rewrite construct_exists. unfold acceptable.
  enough (E : (exists s, after_operators k c = Ok s) <->
    (c_cost c = VStr "auto" -> Forall costs (c_ops c)) /\ linear_ok k c /\ Forall is_float (c_params c) /\ sigma_ok k (c_params c) /\
    step_ok k c /\ updates_ok k (c_updates c)) by (rewrite E; tauto).
  pose proof (py_or_ok (kwarg (c_kwargs c) "step_size")) as PO. specialize (fun b => PO b (proj2 M)).
  unfold after_operators. rewrite bind_unit_exists, (cost_setting_ok c M).
  apply Morphisms_Prop.and_iff_morphism; [reflexivity|].
  destruct k; cbn [arity well_formed] in W; unfold well_formed, arity in W; destruct W as (_ & _ & Wp & Wu).
  - rewrite bind_unit_exists, linear_metrics_ok, bind_unit_exists, (check_all_ok _ _ _ param_ok), bind_exists.
    unfold linear_ok, sigma_ok, step_ok, updates_ok.
    assert (F : forall step, (exists b, bind (check_param_update (nthv (c_updates c) 0)) (fun _ =>
        match nthv (c_updates c) 1 with
        | VStr s => if String.eqb s "fista" then Ok (mk_set step [nthv (c_params c) 1] (c_updates c) true) else Err TypeError
        | v => bind (check_param_update v) (fun _ => Ok (mk_set step [nthv (c_params c) 1] (c_updates c) false))
        end) = Ok b) <-> exists b u, c_updates c = [b; u] /\ none_or_function b /\ (none_or_function u \/ u = VStr "fista")).
    { intros step. rewrite bind_unit_exists, update_ok.
      destruct (c_updates c) as [|b [|u [|]]] eqn:EU; try discriminate Wu. cbn [nthv nth].
      transitivity (none_or_function b /\ (none_or_function u \/ u = VStr "fista")).
      2: { split; [intros [A B]; exists b, u; auto|intros (b' & u' & X & A & B); injection X as -> ->; auto]. }
      apply Morphisms_Prop.and_iff_morphism; [reflexivity|].
      rewrite <- (update_ok u). destruct u; cbn [nthv nth check_param_update bind];
        try (split; [intros (x & X); try discriminate X; left; reflexivity|intros [X|X]; [try discriminate X; eauto|discriminate X]]).
      destruct (String.eqb_spec s "fista") as [->|N].
      - split; [auto|eauto].
      - split; [intros (x & X); discriminate X|intros [X|X]; congruence]. }
    split.
    + intros (HL & HP & step & E & Hu). apply F in Hu. split; [intros _; exact HL|]. split; [exact HP|]. split; [discriminate|].
      split; [intros _; eapply PO; eauto|exact Hu].
    + intros (HL & HP & _ & HS & Hu). split; [apply HL; auto|]. split; [exact HP|].
      destruct (proj2 (PO (nthv (c_params c) 0)) (HS ltac:(discriminate))) as (v & E). exists v. split; [exact E|]. apply F. exact Hu.
  - rewrite bind_unit_exists, linear_metrics_ok, bind_unit_exists, (check_all_ok _ _ _ param_ok), bind_exists.
    unfold linear_ok, sigma_ok, step_ok, updates_ok. split.
    + intros (HL & HP & step & E & Hu). rewrite bind_unit_exists, (check_all_ok _ _ _ update_ok) in Hu. split; [intros _; exact HL|].
      split; [exact HP|]. split; [discriminate|]. split; [intros _; eapply PO; eauto|tauto].
    + intros (HL & HP & _ & HS & Hu). split; [apply HL; auto|]. split; [exact HP|].
      destruct (proj2 (PO (nthv (c_params c) 0)) (HS ltac:(discriminate))) as (v & E). exists v. split; [exact E|].
      rewrite bind_unit_exists, (check_all_ok _ _ _ update_ok). eauto.
  - rewrite bind_unit_exists, (check_all_ok _ _ _ param_ok), bind_unit_exists, bind_exists.
    unfold linear_ok, sigma_ok, step_ok, updates_ok.
    destruct (c_params c) as [|b [|v [|]]] eqn:EP; try discriminate Wp. cbn [nthv nth].
    split.
    + intros (HP & HS & step & E & _). split; [intros [X|X]; discriminate|]. split; [exact HP|].
      inversion HP as [|? ? ? HP']; subst. inversion HP' as [|? ? Hv _]; subst.
      split; [intros _; apply (sigma_range_ok b v Hv); exact HS|]. split; [intros _; eapply PO; eauto|exact I].
    + intros (_ & HP & HS & Hst & _). split; [exact HP|]. inversion HP as [|? ? ? HP']; subst. inversion HP' as [|? ? Hv _]; subst.
      split; [apply (sigma_range_ok b v Hv); exact (HS eq_refl)|].
      destruct (proj2 (PO b) (Hst ltac:(discriminate))) as (w & E). exists w. split; [exact E|eauto].
  - rewrite bind_unit_exists, (check_all_ok _ _ _ param_ok), bind_exists. unfold linear_ok, sigma_ok, step_ok, updates_ok. split.
    + intros (HP & step & E & Hu). rewrite bind_unit_exists, (check_all_ok _ _ _ update_ok) in Hu. split; [intros [X|X]; discriminate|].
      split; [exact HP|]. split; [discriminate|]. split; [intros _; eapply PO; eauto|tauto].
    + intros (_ & HP & _ & HS & Hu). split; [exact HP|].
      destruct (proj2 (PO (nthv (c_params c) 2)) (HS ltac:(discriminate))) as (v & E). exists v. split; [exact E|].
      rewrite bind_unit_exists, (check_all_ok _ _ _ update_ok). eauto.
  - rewrite bind_unit_exists, (check_all_ok _ _ _ param_ok), bind_unit_exists, (check_all_ok _ _ _ update_ok).
    unfold linear_ok, sigma_ok, step_ok, updates_ok. split.
    + intros (HP & Hu & _). split; [intros [X|X]; discriminate|]. split; [exact HP|]. split; [discriminate|]. split; [congruence|exact Hu].
    + intros (_ & HP & _ & _ & Hu). eauto.
Qed.
Print Assumptions C111_accepts_exactly.

(** [C111] A rejected call raises TypeError, ValueError or KeyError. *)
Theorem C111_exceptions : forall k c e, modelled c -> snd (construct k c) = Err e -> In e [TypeError; ValueError; KeyError].
Proof.
  intros k c e (M1 & M2).
  assert (CA : forall f l e0, (forall v e1, f v = Err e1 -> e1 = TypeError) -> check_all f l = Err e0 -> e0 = TypeError).
  { intros f l e0 Hf. induction l as [|v l IH]; cbn [check_all]; [discriminate|]. destruct (f v) as [[]|e1] eqn:E; cbn [bind]; [exact IH|].
    intros X. injection X as <-. eapply Hf; eauto. }
  assert (C1 : forall l e0, check_all check_input_data l = Err e0 -> e0 = TypeError).
  { intros l e0. apply CA. intros v e1. destruct v; cbn; congruence. }
  assert (C2 : forall l e0, check_all check_param l = Err e0 -> e0 = TypeError).
  { intros l e0. apply CA. intros v e1. destruct v; cbn; congruence. }
  assert (C3 : forall l e0, check_all check_param_update l = Err e0 -> e0 = TypeError).
  { intros l e0. apply CA. intros v e1. destruct v; cbn; congruence. }
  assert (C4 : forall v e0, check_param_update v = Err e0 -> e0 = TypeError).
  { intros v e0. destruct v; cbn; congruence. }
  assert (C5 : forall l e0, cost_init l = Err e0 -> e0 = TypeError \/ e0 = ValueError).
  { induction l as [|v l IH]; cbn [cost_init]; [discriminate|]. intros e0. destruct (cost_attr v) as [[|]|]; [apply IH| |]; intros X; injection X as <-; auto. }
  assert (C6 : forall e0, cost_setting (c_cost c) (c_ops c) = Err e0 -> e0 = TypeError \/ e0 = ValueError).
  { intros e0. unfold cost_setting, is_auto. destruct (c_cost c); try discriminate; [destruct (String.eqb _ _); [apply C5|discriminate]|exfalso; eapply M1; reflexivity]. }
  assert (C7 : forall b e0, py_or (kwarg (c_kwargs c) "step_size") b = Err e0 -> e0 = ValueError).
  { intros b e0. unfold py_or, truth. destruct (kwarg _ _); cbn [bind]; try discriminate.
    - destruct r; discriminate.
    - destruct size as [|[|n]]; cbn [bind]; congruence. }
  assert (C8 : forall e0, linear_for_metrics (c_metrics c) (c_linear c) = Err e0 -> e0 = ValueError).
  { intros e0. unfold linear_for_metrics. destruct (c_metrics c) as [|[|]|]; try discriminate. destruct (c_linear c); congruence. }
  assert (C9 : forall v e0, sigma_bar_range v = Err e0 -> e0 = ValueError).
  { intros v e0. unfold sigma_bar_range. destruct v; try discriminate. destruct r; [|discriminate].
    destruct (Rlt_dec _ _); [congruence|]. destruct (Rgt_dec _ _); congruence. }
  assert (CS : forall e0, setup_init (c_metrics c) = Err e0 -> e0 = TypeError \/ e0 = KeyError).
  { intros e0. destruct (c_metrics c); cbn [setup_init]; [discriminate| |intros X; injection X as <-; auto].
    destruct (forallb _ _); [discriminate|]. intros X; injection X as <-; auto. }
  assert (BE : forall A B (m : res A) (f : A -> res B) e0, bind m f = Err e0 -> m = Err e0 \/ exists a, m = Ok a /\ f a = Err e0).
  { intros A B m f e0. destruct m; cbn [bind]; intros X; [right; eauto|left; congruence]. }
  cbn [In]. unfold construct. destruct (before_operators c) as [[]|e0] eqn:EB; cbn [snd].
  - clear EB. unfold after_operators. intros H. apply BE in H. destruct H as [H|(_ & _ & H)]; [apply C6 in H; intuition|].
    destruct k;
      repeat (match type of H with
              | bind _ _ = Err _ => apply BE in H; destruct H as [H|(? & _ & H)];
                  [first [apply C8 in H|apply C2 in H|apply C7 in H|apply C3 in H|apply C4 in H|apply C9 in H]; intuition|]
              | Ok _ = Err _ => discriminate H
              end).
    assert (G : forall v st, bind (check_param_update v) (fun _ => Ok st : res settings) = Err e -> e = TypeError).
    { intros v st X. apply BE in X. destruct X as [X|(? & _ & X)]; [eapply C4; eauto|discriminate]. }
    destruct (nthv (c_updates c) 1); try (apply G in H; intuition; fail).
    destruct (String.eqb _ _); [discriminate|]. injection H as <-. auto.
  - intros H. injection H as <-. unfold before_operators in EB. apply BE in EB. destruct EB as [H|(_ & _ & H)].
    + apply CS in H. intuition.
    + apply C1 in H. intuition.
Qed.
Print Assumptions C111_exceptions.

Lemma truth_counts v t : truth v = Ok t -> counts_as v t.
Proof.
  destruct v as [|b|z|[r|]|r|s|[|[|n]]|[|w l]| |r m c]; cbn [truth]; intros E; try discriminate E; try (injection E as <-); try constructor.
  - destruct (Z.eqb_spec z 0); cbn; [subst; constructor|constructor; assumption].
  - destruct (Req_EM_T r 0); [subst; constructor|constructor; assumption].
  - destruct (Req_EM_T r 0); [subst; constructor|constructor; assumption].
  - destruct (String.eqb_spec s ""); cbn; [subst; constructor|constructor; assumption].
Qed.

(** [C111] What is stored: the numeric parameters other than the step size are the user's; the step size is the
    keyword step_size if its truth value is True, else the class's own parameter; the FISTA updates replace the
    user's exactly when lambda_update='fista' was given to ForwardBackward. *)
Theorem C111_stored : forall k c s, well_formed k c -> snd (construct k c) = Ok s ->
  s_others s = other_arguments k c /\ s_updates s = c_updates c /\
  (s_fista s = true <-> k = FB /\ nth 1 (c_updates c) VNone = VStr "fista") /\
  match k with
  | GradOpt => s_step s = step_argument k c
  | _ => exists t, counts_as (kwarg (c_kwargs c) "step_size") t /\
                   s_step s = (if t then kwarg (c_kwargs c) "step_size" else step_argument k c)
  end.
Proof.
  intros k c s W. unfold construct. destruct (before_operators c) as [u0|e0]; cbn [snd]; [|discriminate].
  assert (PO : forall a b v, py_or a b = Ok v -> exists t, counts_as a t /\ v = if t then a else b).
  { intros a b v. unfold py_or. destruct (truth a) as [t|] eqn:T; cbn [bind]; [|discriminate]. intros H. injection H as <-.
    exists t. split; [apply truth_counts; exact T|reflexivity]. }
  unfold after_operators. destruct (cost_setting _ _) as [u1|e1]; cbn [bind]; [|discriminate].
  unfold well_formed, arity in W. destruct k; destruct W as (_ & _ & Wp & Wu).
  - destruct (c_params c) as [|p0 [|p1 [|]]] eqn:EP; try discriminate Wp.
    destruct (linear_for_metrics _ _); cbn [bind]; [|discriminate]. destruct (check_all _ _); cbn [bind]; [|discriminate].
    destruct (py_or _ _) as [st|] eqn:E; cbn [bind]; [|discriminate]. apply PO in E. destruct (check_param_update _); cbn [bind]; [|discriminate].
    change (nth 1 (c_updates c) VNone) with (nthv (c_updates c) 1). unfold other_arguments, step_argument. rewrite EP. cbn [skipn nth].
    destruct (nthv (c_updates c) 1);
      try (cbn [check_param_update bind]; first [discriminate | intros H; injection H as <-; cbn [s_others s_updates s_fista s_step nthv nth];
        repeat split; [discriminate|intros [_ X]; discriminate X|exact E]]).
    destruct (String.eqb_spec s0 "fista") as [->|N]; [|discriminate]. intros H; injection H as <-. cbn [s_others s_updates s_fista s_step nthv nth].
    repeat split; auto.
  - destruct (c_params c) as [|p0 [|p1 [|]]] eqn:EP; try discriminate Wp.
    destruct (linear_for_metrics _ _); cbn [bind]; [|discriminate]. destruct (check_all _ _); cbn [bind]; [|discriminate].
    destruct (py_or _ _) as [st|] eqn:E; cbn [bind]; [|discriminate]. apply PO in E. destruct (check_all _ _); cbn [bind]; [|discriminate].
    unfold other_arguments, step_argument. rewrite EP. intros H; injection H as <-. cbn [skipn nth s_others s_updates s_fista s_step nthv].
    repeat split; auto; try discriminate; intros [X _]; discriminate.
  - destruct (c_params c) as [|p0 [|p1 [|]]] eqn:EP; try discriminate Wp.
    destruct (check_all _ _); cbn [bind]; [|discriminate]. destruct (sigma_bar_range _); cbn [bind]; [|discriminate].
    destruct (py_or _ _) as [st|] eqn:E; cbn [bind]; [|discriminate]. apply PO in E.
    unfold other_arguments, step_argument. rewrite EP. intros H; injection H as <-. cbn [skipn nth s_others s_updates s_fista s_step nthv].
    repeat split; auto; try discriminate; intros [X _]; discriminate.
  - destruct (c_params c) as [|p0 [|p1 [|p2 [|]]]] eqn:EP; try discriminate Wp.
    destruct (check_all _ _); cbn [bind]; [|discriminate].
    destruct (py_or _ _) as [st|] eqn:E; cbn [bind]; [|discriminate]. apply PO in E. destruct (check_all _ _); cbn [bind]; [|discriminate].
    unfold other_arguments, step_argument. rewrite EP. intros H; injection H as <-. cbn [firstn nth s_others s_updates s_fista s_step nthv].
    repeat split; auto; try discriminate; intros [X _]; discriminate.
  - destruct (c_params c) as [|p0 [|p1 [|]]] eqn:EP; try discriminate Wp.
    destruct (check_all _ _); cbn [bind]; [|discriminate]. destruct (check_all _ _); cbn [bind]; [|discriminate].
    unfold other_arguments, step_argument. rewrite EP. intros H; injection H as <-. cbn [skipn nth s_others s_updates s_fista s_step nthv].
    repeat split; auto; try discriminate; intros [X _]; discriminate.
Qed.
Print Assumptions C111_stored.

(** [C111] A keyword that no class knows changes nothing: neither the outcome nor the warnings. *)
Theorem C111_unknown_keyword_ignored : forall k c name v, name <> "step_size" ->
  construct k (with_kwargs c ((name, v) :: c_kwargs c)) = construct k c.
Proof.
  intros k c name v N. assert (E : kwarg ((name, v) :: c_kwargs c) "step_size" = kwarg (c_kwargs c) "step_size").
  { unfold kwarg. cbn [find fst]. destruct (String.eqb_spec name "step_size"); [contradiction|reflexivity]. }
  unfold construct, with_kwargs, before_operators, after_operators, operator_order.
  cbn [c_data c_ops c_cost c_linear c_params c_updates c_metrics c_kwargs]. rewrite E. reflexivity.
Qed.
Print Assumptions C111_unknown_keyword_ignored.

(** A usual call: an array, GradBasic and SparseThreshold instances, everything else at its default. *)
Definition a_grad : pyval := VObj "<class 'modopt.opt.gradient.GradBasic'>" ["GradBasic"; "GradParent"; "object"] (Some true).
Definition a_prox : pyval := VObj "<class 'modopt.opt.proximity.SparseThreshold'>" ["SparseThreshold"; "ProximityParent"; "object"] (Some true).
Definition a_cost : pyval := VObj "<class 'modopt.opt.cost.costObj'>" ["costObj"; "CostParent"; "ABC"; "object"] None.
Definition fl (r : R) : pyval := VFloat (Some r).
Definition fb_call (x : pyval) (params : list pyval) (kw : list (string * pyval)) : call :=
  mk_call [x] [a_grad; a_prox] (VStr "auto") VNone params [VNone; VStr "fista"] MNone kw.
Definition gen_call (x : pyval) : call :=
  mk_call [x] [a_grad; a_prox; a_prox] (VStr "auto") VNone [fl 1; fl 1] [VNone; VNone] MNone [].
Definition pogm_call (sigma_bar : pyval) (m : metrics_arg) : call :=
  mk_call [VArray 4; VArray 4; VArray 4; VArray 4] [a_grad; a_prox] (VStr "auto") VNone [fl 1; sigma_bar] [] m [].
Definition gd_call (kw : list (string * pyval)) : call :=
  mk_call [VArray 4] [a_grad; a_prox] (VStr "auto") VNone [fl 1; fl (1 / 1000000)] [VNone] MNone kw.
Definition a_metric : metrics_arg := MDict [("mse", ["metric"; "mapping"; "cst_kwargs"; "early_stopping"])].

Example C111_example :
  snd (construct FB (fb_call (VArray 4) [fl 1; fl 1] [("step_size", fl (1 / 2))])) = Ok (mk_set (fl (1 / 2)) [fl 1] [VNone; VStr "fista"] true) /\
  snd (construct FB (fb_call (VArray 4) [VInt 1; fl 1] [])) = Err TypeError /\
  snd (construct FB (mk_call [VArray 4] [a_grad; a_prox] (VStr "auto") VNone [fl 1; fl 1] [VNone; VStr "fista"] a_metric [])) = Err ValueError /\
  snd (construct POGM (pogm_call (fl 2) MNone)) = Err ValueError /\
  snd (construct FB (mk_call [VArray 4] [a_grad; a_prox] (VStr "auto") VNone [fl 1; fl 1] [VNone; VStr "fista"] (MDict [("mse", ["metric"])]) [])) = Err KeyError.
Proof.
  repeat split; try reflexivity.
  - cbn. destruct (Req_EM_T (1 / 2) 0) as [X|X]; [exfalso; lra|reflexivity].
  - cbn. destruct (Rlt_dec 2 0) as [X|X]; [exfalso; lra|]. destruct (Rgt_dec 2 1) as [Y|Y]; [reflexivity|exfalso; lra].
Qed.

(** [C111, refuted] "step_size: Generic step size parameter to override default algorithm parameter name"
    (base.py:29-32): step_size=0.0 does not override. *)
Theorem C111_zero_step_refuted : exists k c s, acceptable k c /\ snd (construct k c) = Ok s /\
  kwarg (c_kwargs c) "step_size" = fl 0 /\ s_step s = fl 1.
Proof.
  exists FB, (fb_call (VArray 4) [fl 1; fl 1] [("step_size", fl 0)]), (mk_set (fl 1) [fl 1] [VNone; VStr "fista"] true).
  assert (E : snd (construct FB (fb_call (VArray 4) [fl 1; fl 1] [("step_size", fl 0)])) = Ok (mk_set (fl 1) [fl 1] [VNone; VStr "fista"] true)).
  { cbn. destruct (Req_EM_T 0 0) as [X|X]; [reflexivity|exfalso; lra]. }
  split; [|repeat split; exact E]. apply C111_accepts_exactly; [repeat split| |eauto].
  split; [intros n X; discriminate X|cbn; discriminate].
Qed.
Print Assumptions C111_zero_step_refuted.

(** [C111, refuted] The gradient descent classes store step_size and never use it. *)
Theorem C111_gradient_descent_step_refuted : exists c s, acceptable GradOpt c /\ snd (construct GradOpt c) = Ok s /\
  kwarg (c_kwargs c) "step_size" = fl (1 / 2) /\ s_step s = fl 1.
Proof.
  exists (gd_call [("step_size", fl (1 / 2))]), (mk_set (fl 1) [fl (1 / 1000000)] [VNone] false).
  assert (E : snd (construct GradOpt (gd_call [("step_size", fl (1 / 2))])) = Ok (mk_set (fl 1) [fl (1 / 1000000)] [VNone] false)) by reflexivity.
  split; [|repeat split; exact E]. apply C111_accepts_exactly; [repeat split| |eauto].
  split; [intros n X; discriminate X|cbn; discriminate].
Qed.
Print Assumptions C111_gradient_descent_step_refuted.

(** [C111, refuted] The step size that is used need not be a number: step_size (documented as an int) is not checked at
    all, while the parameter it replaces must be a float. *)
Theorem C111_step_type_refuted : exists c s, snd (construct FB c) = Ok s /\ s_step s = VStr "big" /\ ~ is_float (s_step s).
Proof.
  exists (fb_call (VArray 4) [fl 1; fl 1] [("step_size", VStr "big")]), (mk_set (VStr "big") [fl 1] [VNone; VStr "fista"] true).
  repeat split. intros (r & X). discriminate.
Qed.
Print Assumptions C111_step_type_refuted.

(** [C111, refuted] A misspelled parameter is an error: lambda_parm=0.5 is accepted and lambda_param stays 1.0. *)
Theorem C111_misspelled_refuted : exists c s, In ("lambda_parm", fl (1 / 2)) (c_kwargs c) /\ snd (construct FB c) = Ok s /\ s_others s = [fl 1].
Proof.
  exists (fb_call (VArray 4) [fl 1; fl 1] [("lambda_parm", fl (1 / 2))]), (mk_set (fl 1) [fl 1] [VNone; VStr "fista"] true).
  repeat split. left. reflexivity.
Qed.
Print Assumptions C111_misspelled_refuted.

(** [C111, refuted] GenForwardBackward's x may be a "list, tuple or numpy.ndarray" (forward_backward.py:525-526): a list is
    rejected. *)
Theorem C111_list_data_refuted : exists x, (exists l, x = VList l) /\ snd (construct GenFB (gen_call x)) = Err TypeError /\
  (exists s, snd (construct GenFB (gen_call (VArray 4))) = Ok s).
Proof. exists (VList [fl 1; fl 2]). split; [eauto|]. split; [reflexivity|]. eexists. reflexivity. Qed.
Print Assumptions C111_list_data_refuted.

(** [C111, refuted] POGM requires sigma_bar to be in [0, 1]: nan passes. *)
Theorem C111_sigma_nan_refuted : exists s, snd (construct POGM (pogm_call (VFloat None) MNone)) = Ok s /\ s_others s = [VFloat None].
Proof. eexists. split; reflexivity. Qed.
Print Assumptions C111_sigma_nan_refuted.

(** [C112] The warnings: when the metrics and the data are valid, one for each operator that is looked at (grad, the proximity
    operators, cost, and for Condat linear), is not None and inherits from none of the four parents; it names the class. No
    warning otherwise. *)
Theorem C112_warnings_exactly : forall k c w, well_formed k c ->
  (In w (fst (construct k c)) <->
   metrics_ok (c_metrics c) /\ Forall is_array (c_data c) /\
   exists v, looked_at k c v /\ v <> VNone /\ ~ proper v /\ w = class_repr v ++ " does not inherit an operator parent.").
Proof.
  intros k c w W. unfold construct.
  assert (B : before_operators c = Ok tt <-> metrics_ok (c_metrics c) /\ Forall is_array (c_data c)).
  { unfold before_operators. rewrite bind_unit_ok, setup_ok, (check_all_ok _ _ _ data_ok). tauto. }
  assert (P : forall v, existsb (has_key (tree v)) op_parents = true <-> proper v).
  { intros v. rewrite existsb_exists. unfold proper, op_parents. split; intros (p & I & X); exists p; [rewrite has_key_In in X|rewrite has_key_In]; auto. }
  assert (CO : forall v, In w (check_operator v) <-> v <> VNone /\ ~ proper v /\ w = class_repr v ++ " does not inherit an operator parent.").
  { intros v. rewrite <- P. destruct (existsb (has_key (tree v)) op_parents) eqn:E.
    - split; [|tauto]. unfold check_operator. destruct v; try contradiction; rewrite E; contradiction.
    - split.
      + intros H. split; [intros ->; exact H|]. split; [congruence|].
        unfold check_operator in H. destruct v; try contradiction; rewrite E in H; destruct H as [H|[]]; auto.
      + intros (N & _ & ->). unfold check_operator. destruct v; try congruence; rewrite E; left; reflexivity. }
  assert (O : forall v, In v (operator_order k c) <-> looked_at k c v).
  { intros v. unfold looked_at, operator_order. unfold well_formed, arity in W. destruct k; destruct W as (_ & Wo & _ & _).
    - rewrite in_app_iff. cbn [In]. intuition; try discriminate.
    - destruct (c_ops c) as [|g l]; [cbn in Wo; lia|]. cbn [In]. intuition; try discriminate.
    - rewrite in_app_iff. cbn [In]. intuition; try discriminate.
    - rewrite in_app_iff. cbn [In]. intuition.
    - rewrite in_app_iff. cbn [In]. intuition; try discriminate. }
  destruct (before_operators c) as [[]|e]; cbn [fst].
  - rewrite in_flat_map. split.
    + intros (v & I1 & I2). destruct B as [B _]. destruct (B eq_refl) as [B1 B2]. split; [exact B1|]. split; [exact B2|].
      exists v. rewrite <- O, <- CO. tauto.
    + intros (_ & _ & v & I1 & I2). exists v. rewrite O, CO. tauto.
  - split; [contradiction|]. intros (A1 & A2 & _). assert (X : Err e = Ok tt) by (apply B; auto). discriminate.
Qed.
Print Assumptions C112_warnings_exactly.

(** [C112] ... one warning per such argument, however many there are and however often the same object is passed; the
    order may differ from that of the arguments. *)
Theorem C112_one_each : forall k c, well_formed k c -> metrics_ok (c_metrics c) -> Forall is_array (c_data c) ->
  exists bad, selected (fun v => v <> VNone /\ ~ proper v) (c_ops c ++ match k with Condat => [c_linear c; c_cost c] | _ => [c_cost c] end) bad /\
    Permutation (fst (construct k c)) (map (fun v => class_repr v ++ " does not inherit an operator parent.")%string bad).
Proof.
  intros k c W H1 H2. unfold construct.
  assert (B : before_operators c = Ok tt).
  { unfold before_operators. rewrite bind_unit_ok, setup_ok, (check_all_ok _ _ _ data_ok). tauto. }
  rewrite B. cbn [fst]. set (args := (c_ops c ++ _)%list).
  assert (O : Permutation (operator_order k c) args).
  { unfold args, operator_order. unfold well_formed, arity in W. destruct k; destruct W as (_ & Wo & _ & _); try reflexivity.
    destruct (c_ops c) as [|g l]; [cbn in Wo; lia|]. cbn [app]. constructor. apply Permutation_cons_append. }
  clearbody args. assert (G : exists bad, selected (fun v => v <> VNone /\ ~ proper v) args bad /\
    flat_map check_operator args = map (fun v => class_repr v ++ " does not inherit an operator parent.")%string bad).
  { clear. assert (CO : forall v, ((v <> VNone /\ ~ proper v) /\ check_operator v = [class_repr v ++ " does not inherit an operator parent."]%string) \/
      (~ (v <> VNone /\ ~ proper v) /\ check_operator v = [])).
    { intros v. destruct (existsb (has_key (tree v)) op_parents) eqn:E.
      - right. split; [|unfold check_operator; rewrite E; destruct v; reflexivity]. intros [_ N]. apply N.
        apply existsb_exists in E. destruct E as (p & I1 & I2). exists p. rewrite has_key_In in I2. auto.
      - assert (N : ~ proper v).
        { intros (p & I1 & I2). assert (X : existsb (has_key (tree v)) op_parents = true) by (apply existsb_exists; exists p; rewrite has_key_In; auto). congruence. }
        destruct v; try (left; split; [split; [discriminate|exact N]|unfold check_operator; rewrite E; reflexivity]).
        right. split; [tauto|reflexivity]. }
    induction args as [|v l (bad & I1 & I2)]; [exists []; split; [constructor|reflexivity]|].
    cbn [flat_map]. rewrite I2. destruct (CO v) as [[P ->]|[P ->]].
    - exists (v :: bad). split; [apply sel_keep; assumption|reflexivity].
    - exists bad. split; [apply sel_drop; assumption|reflexivity]. }
  destruct G as (bad & G1 & G2). exists bad. split; [exact G1|]. rewrite <- G2. apply Permutation_flat_map. exact O.
Qed.
Print Assumptions C112_one_each.

(** [C112] The classes of the operators only matter for the warnings: whether the call succeeds, and what it stores, is the same for
    operators of any other classes with the same cost methods. *)
Theorem C112_classes_do_not_matter : forall k c f, reclassed f ->
  snd (construct k (with_operators f c)) = snd (construct k c).
Proof.
  intros k c f F. unfold construct, with_operators, before_operators. cbn [c_data c_metrics].
  destruct (bind _ _) as [[]|e]; cbn [snd]; [|reflexivity].
  assert (A : forall l, cost_init (map f l) = cost_init l).
  { induction l as [|v l IH]; [reflexivity|]. cbn [map cost_init]. rewrite IH. specialize (F v). destruct v; try (rewrite F; reflexivity).
    destruct F as (r & m & ->). reflexivity. }
  assert (B : cost_setting (f (c_cost c)) (map f (c_ops c)) = cost_setting (c_cost c) (c_ops c)).
  { unfold cost_setting. rewrite A. specialize (F (c_cost c)). destruct (c_cost c); try (rewrite F; reflexivity).
    destruct F as (r & m & ->). reflexivity. }
  assert (D : linear_for_metrics (c_metrics c) (f (c_linear c)) = linear_for_metrics (c_metrics c) (c_linear c)).
  { unfold linear_for_metrics. destruct (c_metrics c) as [|[|]|]; try reflexivity. specialize (F (c_linear c)).
    destruct (c_linear c); try (rewrite F; reflexivity). destruct F as (r & m & ->). reflexivity. }
  unfold after_operators. cbn [c_data c_ops c_cost c_linear c_params c_updates c_metrics c_kwargs]. rewrite B, D. reflexivity.
Qed.
Print Assumptions C112_classes_do_not_matter.

(** [C112] The default cost='auto' is itself warned about, whatever the operators. *)
Theorem C112_auto_warns : forall k c, well_formed k c -> metrics_ok (c_metrics c) -> Forall is_array (c_data c) -> c_cost c = VStr "auto" ->
  In "<class 'str'> does not inherit an operator parent." (fst (construct k c)).
Proof.
  intros k c W H1 H2 E. apply C112_warnings_exactly; [exact W|]. split; [exact H1|]. split; [exact H2|]. exists (VStr "auto").
  split; [right; left; symmetry; exact E|]. split; [discriminate|]. split; [|reflexivity].
  intros (p & I1 & I2). cbn in I1, I2. repeat match goal with H : _ \/ _ |- _ => destruct H; subst; try discriminate; try contradiction end.
Qed.
Print Assumptions C112_auto_warns.

(** [C112, refuted] Operators that inherit from the parent classes are not warned about: with every argument at its documented
    default the user gets a warning. With an explicit costObj there is none. *)
Theorem C112_silent_refuted : exists c, acceptable FB c /\ Forall proper (c_ops c) /\ fst (construct FB c) = ["<class 'str'> does not inherit an operator parent."] /\
  fst (construct FB (mk_call (c_data c) (c_ops c) a_cost (c_linear c) (c_params c) (c_updates c) (c_metrics c) (c_kwargs c))) = [].
Proof.
  exists (fb_call (VArray 4) [fl 1; fl 1] []). split.
  - apply C111_accepts_exactly; [repeat split| |eexists; reflexivity]. split; [intros n X; discriminate X|discriminate].
  - split; [|split; reflexivity]. constructor; [exists "GradParent"; cbn; tauto|]. constructor; [exists "ProximityParent"; cbn; tauto|constructor].
Qed.
Print Assumptions C112_silent_refuted.

(** [C112, refuted] A linear operator of a wrong class is warned about: only Condat looks at it. *)
Theorem C112_linear_refuted : exists c, c_linear c = VFloat32 1 /\ ~ proper (c_linear c) /\ c_linear c <> VNone /\
  fst (construct FB c) = [] /\ fst (construct GenFB c) = [] /\
  (exists s, snd (construct FB c) = Ok s) /\
  fst (construct Condat (mk_call [VArray 4; VArray 4] [a_grad; a_prox; a_prox] a_cost (c_linear c) [fl 1; fl 1; fl 1] [VNone; VNone; VNone] MNone [])) =
    ["<class 'numpy.float32'> does not inherit an operator parent."].
Proof.
  exists (mk_call [VArray 4] [a_grad; a_prox] a_cost (VFloat32 1) [fl 1; fl 1] [VNone; VStr "fista"] MNone []).
  split; [reflexivity|]. split.
  - intros (p & I1 & I2). cbn in I1, I2. repeat match goal with H : _ \/ _ |- _ => destruct H; subst; try discriminate; try contradiction end.
  - split; [discriminate|]. split; [reflexivity|]. split; [reflexivity|]. split; [eexists; reflexivity|reflexivity].
Qed.
Print Assumptions C112_linear_refuted.

Example C112_example :
  fst (construct FB (mk_call [VArray 4] [a_grad; VFun] a_cost VNone [fl 1; fl 1] [VNone; VStr "fista"] MNone [])) =
    ["<class 'function'> does not inherit an operator parent."] /\
  fst (construct FB (mk_call [VNone] [a_grad; VFun] a_cost VNone [fl 1; fl 1] [VNone; VStr "fista"] MNone [])) = [].
Proof. split; reflexivity. Qed.
