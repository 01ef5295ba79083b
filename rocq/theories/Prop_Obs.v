(** Property theorems C117: what a gradient operator does with the observed data. *)
From Coq Require Import String.
From Verif Require Import NPReal Py Model_Obs.
From Coq Require Import List Arith Lia.
Import ListNotations.
Local Open Scope string_scope.
Local Open Scope R_scope.

(** The array object [r] of heap [h] as the user sees it. *)
Definition values (h : heap) (r : nat) : option (list (R * R)) := option_map (shown h) (nth_error (h_objs h) r).
Definition writeable_flag (h : heap) (r : nat) : option bool := option_map o_w (nth_error (h_objs h) r).
Definition dtype (h : heap) (r : nat) : option adt := option_map o_dt (nth_error (h_objs h) r).
(** Every array object looks into an existing buffer. *)
Definition wf (h : heap) : Prop := forall r o, nth_error (h_objs h) r = Some o -> (o_buf o < length (h_bufs h))%nat.

(** The types for which the data given are converted first. *)
Definition float_wanted (w : want) : Prop := w = WFloat \/ w = WFloating.

Lemma update_same {A} (l : list A) i a : (i < length l)%nat -> nth_error (update l i a) i = Some a.
Proof. revert i. induction l as [|b l IH]; intros [|i] L; cbn in *; try lia; [reflexivity|]. apply IH. lia. Qed.
Lemma update_other {A} (l : list A) i j a : i <> j -> nth_error (update l i a) j = nth_error l j.
Proof. revert i j. induction l as [|b l IH]; intros [|i] [|j] N; cbn; try reflexivity; try contradiction. apply IH. congruence. Qed.
Lemma update_length {A} (l : list A) i a : length (update l i a) = length l.
Proof. revert i. induction l as [|b l IH]; intros [|i]; cbn; auto. Qed.
Lemma update_nth_other {A} (l : list A) i j a d : i <> j -> nth j (update l i a) d = nth j l d.
Proof. revert i j. induction l as [|b l IH]; intros [|i] [|j] N; cbn; try reflexivity; try contradiction. apply IH. congruence. Qed.
Lemma nth_error_lt {A} (l : list A) i a : nth_error l i = Some a -> (i < length l)%nat.
Proof. intros E. apply nth_error_Some. congruence. Qed.

Lemma set_flag_ok h r w h' : set_flag h r w = Ok h' ->
  exists o, nth_error (h_objs h) r = Some o /\
    h' = mk_heap (update (h_objs h) r (mk_obj (o_buf o) (o_idx o) (o_dt o) w (o_base o))) (h_bufs h).
Proof.
  unfold set_flag. destruct (nth_error (h_objs h) r) as [o|]; [|discriminate].
  destruct (_ && _)%bool; [discriminate|]. intros E. inversion E. exists o. auto.
Qed.

(** Freezing always works. *)
Lemma set_flag_false h r o : nth_error (h_objs h) r = Some o ->
  set_flag h r false = Ok (mk_heap (update (h_objs h) r (mk_obj (o_buf o) (o_idx o) (o_dt o) false (o_base o))) (h_bufs h)).
Proof. intros E. unfold set_flag. rewrite E. reflexivity. Qed.

(** ** Which data are accepted (the default: input_data_writeable=False) *)

(** What may be passed. *)
Definition acceptable (h : heap) (w : want) (v : value) : Prop :=
  match v with
  | VArr r => exists d, dtype h r = Some d /\
      match w with
      | WNone => True
      | WFloat => d <> F32
      | WFloating => True
      | WComplex => d = C128
      | WInt => d = I64
      end
  | VList _ => float_wanted w
  | VNum _ | VOther => False
  end.

Theorem C117_accepts_exactly :
  forall h w verbose v, (forall r, v = VArr r -> (r < length (h_objs h))%nat) ->
  (acceptable h w v <-> exists x, set_obs w false verbose h v = Ok x) /\
  (~ acceptable h w v -> set_obs w false verbose h v = Err TypeError).
Proof.
  intros h w vb v In.
  assert (G : (acceptable h w v /\ exists x, set_obs w false vb h v = Ok x) \/
              (~ acceptable h w v /\ set_obs w false vb h v = Err TypeError)).
  { destruct v as [r|l|x|].
    - specialize (In r eq_refl). destruct (nth_error (h_objs h) r) as [o|] eqn:E; [|apply nth_error_None in E; lia].
      unfold acceptable, dtype. rewrite E. cbn [option_map].
      assert (N : forall v1 : list (R * R), nth_error (h_objs h ++ [mk_obj (length (h_bufs h)) (seq 0 (length v1)) F64 true None]) (length (h_objs h))
                   = Some (mk_obj (length (h_bufs h)) (seq 0 (length v1)) F64 true None)).
      { intros v1. rewrite nth_error_app2, Nat.sub_diag by lia. reflexivity. }
      destruct w, (o_dt o) eqn:D; unfold set_obs, check_float_h; rewrite ?E, ?D; cbn [is_floating bind alloc];
        unfold check_npndarray_h; cbn [h_objs]; rewrite ?E, ?N, ?D; cbn [issub negb o_dt];
        unfold set_flag; cbn [h_objs]; rewrite ?E, ?N; cbn [bind andb fst snd];
        first [left; split; [eexists; split; [reflexivity|first [exact I|discriminate|reflexivity]]|eexists; reflexivity]
              |right; split; [intros (d & Ed & H); inversion Ed; subst d; try discriminate; try (apply H; reflexivity)|reflexivity]].
    - cbn [acceptable]. unfold float_wanted.
      assert (N : nth_error (h_objs h ++ [mk_obj (length (h_bufs h)) (seq 0 (length (map (fun x : R => (x, 0)) l))) F64 true None]) (length (h_objs h))
                   = Some (mk_obj (length (h_bufs h)) (seq 0 (length (map (fun x : R => (x, 0)) l))) F64 true None)).
      { rewrite nth_error_app2, Nat.sub_diag by lia. reflexivity. }
      destruct w; unfold set_obs, check_float_h; cbn [bind alloc]; unfold check_npndarray_h; cbn [h_objs]; rewrite ?N; cbn [issub negb o_dt];
        unfold set_flag; cbn [h_objs]; rewrite ?N; cbn [bind andb fst snd];
        first [left; split; [auto|eexists; reflexivity]|right; split; [intros [H|H]; discriminate|reflexivity]].
    - right. split; [intros []|]. destruct w; reflexivity.
    - right. split; [intros []|]. destruct w; reflexivity. }
  destruct G as [[A B]|[A B]].
  - split; [tauto|contradiction].
  - split; [|auto]. split; [contradiction|]. intros (x & E). congruence.
Qed.
Print Assumptions C117_accepts_exactly.

(** Single precision data with data_type=float are rejected, although they are floats. *)
Theorem C117_float32_refuted :
  exists h r, dtype h r = Some F32 /\ set_obs WFloat false true h (VArr r) = Err TypeError.
Proof. exists (mk_heap [mk_obj 0 [0%nat] F32 true None] [[(1, 0)]]), 0%nat. split; reflexivity. Qed.
Print Assumptions C117_float32_refuted.

(** ** What is stored and what happens to the caller's array *)

(** Without conversion the caller's own array object is stored and its flag is set as asked; its
    values and all other arrays are as before. *)
Theorem C117_stores_the_callers_array :
  forall h w wr verbose r d h' r' ws,
  dtype h r = Some d -> (float_wanted w -> d = F32 \/ d = F64) ->
  set_obs w wr verbose h (VArr r) = Ok (h', r', ws) ->
  r' = r /\ writeable_flag h' r = Some wr /\ (forall q, values h' q = values h q /\ dtype h' q = dtype h q) /\
  (forall q, q <> r -> writeable_flag h' q = writeable_flag h q) /\
  ws = (if wr then [] else if verbose then match writeable_flag h r with Some true => ["Making input data immutable."] | _ => [] end else []).
Proof.
  intros h w wr vb r d h' r' ws D F E. unfold dtype in D.
  destruct (nth_error (h_objs h) r) as [o|] eqn:Er; [|discriminate]. cbn in D. injection D as D.
  assert (E1 : check_npndarray_h h (VArr r) w wr vb = Ok (h', ws) /\ r' = r).
  { unfold set_obs in E.
    assert (S : match w with WFloat | WFloating => check_float_h h (VArr r) | _ => Ok (h, VArr r) end = Ok (h, VArr r)).
    { destruct w; try reflexivity; unfold check_float_h; rewrite Er, D;
        (destruct F as [F|F]; [unfold float_wanted; auto|subst d; rewrite F; reflexivity|subst d; rewrite F; reflexivity]). }
    rewrite S in E. cbn [bind] in E. destruct (check_npndarray_h h (VArr r) w wr vb) as [[h1 w1]|]; [|discriminate].
    cbn in E. inversion E. auto. }
  clear E. destruct E1 as [E1 Er']. subst r'. split; [reflexivity|].
  unfold check_npndarray_h in E1. rewrite Er in E1. destruct (negb (issub (o_dt o) w)); [discriminate|].
  destruct (set_flag h r wr) as [h1|] eqn:S; [|discriminate]. cbn [bind] in E1. injection E1 as Eh Ew. subst h1.
  destruct (set_flag_ok _ _ _ _ S) as (o' & Eo' & Eh'). rewrite Er in Eo'. injection Eo' as <-. subst h'.
  unfold writeable_flag, values, dtype. cbn [h_objs].
  assert (Lr : (r < length (h_objs h))%nat) by (eapply nth_error_lt; exact Er).
  split; [rewrite update_same by exact Lr; reflexivity|]. split; [|split].
  - intros q. destruct (Nat.eq_dec q r) as [->|N].
    + rewrite update_same, Er by exact Lr. split; reflexivity.
    + rewrite update_other by congruence. split; reflexivity.
  - intros q N. rewrite update_other by congruence. reflexivity.
  - rewrite <- Ew, Er. cbn [option_map]. destruct wr, vb, (o_w o); reflexivity.
Qed.
Print Assumptions C117_stores_the_callers_array.

(** With conversion (data_type float or np.floating and data that are not floats) a new array is
    stored, holding the real parts; no existing array is changed in any way. *)
Lemma alloc_old h d v h' r' : alloc h d v = (h', r') -> wf h ->
  forall q, (q < length (h_objs h))%nat -> nth_error (h_objs h') q = nth_error (h_objs h) q /\ values h' q = values h q.
Proof.
  intros E W q Lq. unfold alloc in E. inversion E; subst. cbn [h_objs]. unfold values. cbn [h_objs].
  rewrite nth_error_app1 by exact Lq. split; [reflexivity|].
  destruct (nth_error (h_objs h) q) as [o|] eqn:Eq; [|reflexivity]. cbn [option_map]. f_equal.
  unfold shown, buffer. cbn [h_bufs]. rewrite app_nth1 by (eapply W; exact Eq). reflexivity.
Qed.

Lemma alloc_new h d v h' r' : alloc h d v = (h', r') ->
  r' = length (h_objs h) /\
  nth_error (h_objs h') r' = Some (mk_obj (length (h_bufs h)) (seq 0 (length v)) d true None) /\
  values h' r' = Some v.
Proof.
  intros E. unfold alloc in E. inversion E; subst. cbn [h_objs]. split; [reflexivity|].
  unfold values. cbn [h_objs]. rewrite nth_error_app2, Nat.sub_diag by lia. cbn [nth_error option_map]. split; [reflexivity|].
  f_equal. unfold shown, buffer. cbn [o_buf o_idx h_bufs]. rewrite app_nth2, Nat.sub_diag by lia. cbn [nth].
  clear. induction v as [|a v IH]; [reflexivity|]. cbn [length seq map nth]. f_equal. rewrite <- seq_shift, map_map. exact IH.
Qed.

Theorem C117_conversion :
  forall h w verbose r d l, wf h -> dtype h r = Some d -> float_wanted w -> d <> F32 -> d <> F64 -> values h r = Some l ->
  exists h' r' ws, set_obs w false verbose h (VArr r) = Ok (h', r', ws) /\ r' <> r /\
  values h' r' = Some (map (fun z => (fst z, 0)) l) /\ dtype h' r' = Some F64 /\ writeable_flag h' r' = Some false /\
  (forall q, (q < length (h_objs h))%nat -> values h' q = values h q /\ writeable_flag h' q = writeable_flag h q) /\
  ws = (if verbose then ["Making input data immutable."] else []).
Proof.
  intros h w vb r d l W D F N1 N2 V. unfold dtype, values in D, V.
  destruct (nth_error (h_objs h) r) as [o|] eqn:Er; [|discriminate]. cbn in D, V. injection D as D. injection V as V.
  assert (Lr : (r < length (h_objs h))%nat) by (eapply nth_error_lt; exact Er).
  destruct (alloc h F64 (map (fun z => (fst z, 0)) (shown h o))) as [h1 r1] eqn:A.
  assert (C : check_float_h h (VArr r) = Ok (h1, VArr r1)).
  { unfold check_float_h. rewrite Er, D. destruct d; try contradiction; cbn [is_floating]; rewrite A; reflexivity. }
  destruct (alloc_new _ _ _ _ _ A) as (R1 & O1 & V1). set (v := map _ (shown h o)) in *.
  set (on := mk_obj (length (h_bufs h)) (seq 0 (length v)) F64 true None) in *.
  assert (L1 : (r1 < length (h_objs h1))%nat) by (eapply nth_error_lt; exact O1).
  exists (mk_heap (update (h_objs h1) r1 (mk_obj (o_buf on) (o_idx on) F64 false None)) (h_bufs h1)), r1, (if vb then ["Making input data immutable."] else []).
  split; [|split; [lia|]].
  - unfold set_obs. replace (match w with WFloat | WFloating => check_float_h h (VArr r) | _ => Ok (h, VArr r) end) with (Ok (h1, VArr r1))
      by (destruct F as [F|F]; subst w; rewrite C; reflexivity).
    cbn [bind]. unfold check_npndarray_h. rewrite O1.
    replace (negb (issub (o_dt on) w)) with false by (destruct F as [F|F]; subst w; reflexivity).
    rewrite (set_flag_false h1 r1 on O1). cbn [bind fst snd negb andb on o_w o_dt o_base].
    destruct vb; reflexivity.
  - unfold values, dtype, writeable_flag. cbn [h_objs]. rewrite update_same by exact L1. cbn [option_map o_dt o_w].
    split; [|split; [reflexivity|split; [reflexivity|split; [|reflexivity]]]].
    + unfold values in V1. rewrite O1 in V1. cbn [option_map] in V1. rewrite <- V. exact V1.
    + intros q Lq. rewrite update_other by lia. destruct (alloc_old _ _ _ _ _ A W q Lq) as [Q1 Q2].
      rewrite Q1. split; [|reflexivity]. unfold values in Q2. rewrite Q1 in Q2. exact Q2.
Qed.
Print Assumptions C117_conversion.

(** Imaginary parts are dropped: the stored data differ from the data given. *)
Theorem C117_complex_values_refuted :
  exists h r h' r' ws, wf h /\ dtype h r = Some C128 /\ set_obs WFloat false true h (VArr r) = Ok (h', r', ws) /\ values h' r' <> values h r.
Proof.
  exists (mk_heap [mk_obj 0 [0%nat] C128 true None] [[(1, 2)]]), 0%nat. eexists. exists 1%nat. eexists.
  split; [|split; [reflexivity|split; [reflexivity|]]].
  - intros [|r] o E; inversion E; subst; [cbn; lia|destruct r; discriminate].
  - cbn. intros E. inversion E as [E1]. lra.
Qed.
Print Assumptions C117_complex_values_refuted.

(** The gradient the algorithms read is what the gradient method computed, except that with
    data_type float (np.floating) its imaginary parts are dropped. *)
Theorem C117_gradient_value :
  forall h w r d l, wf h -> dtype h r = Some d -> values h r = Some l ->
  exists h' r', set_grad w h (VArr r) = Ok (h', VArr r') /\
  ((~ float_wanted w \/ d = F32 \/ d = F64) -> r' = r /\ h' = h) /\
  (float_wanted w -> d <> F32 -> d <> F64 -> r' <> r /\ values h' r' = Some (map (fun z => (fst z, 0)) l) /\ values h' r = Some l).
Proof.
  intros h w r d l W D V. unfold dtype, values in D, V.
  destruct (nth_error (h_objs h) r) as [o|] eqn:Er; [|discriminate]. cbn in D, V. injection D as D. injection V as V.
  assert (Lr : (r < length (h_objs h))%nat) by (eapply nth_error_lt; exact Er).
  destruct (alloc h F64 (map (fun z => (fst z, 0)) (shown h o))) as [h1 r1] eqn:A.
  destruct (alloc_new _ _ _ _ _ A) as (R1 & O1 & V1).
  destruct (alloc_old _ _ _ _ _ A W r Lr) as [Q1 Q2].
  assert (VV : values h r = Some l) by (unfold values; rewrite Er; cbn; congruence).
  assert (K : (float_wanted w /\ d <> F32 /\ d <> F64 /\ set_grad w h (VArr r) = Ok (h1, VArr r1))
           \/ ((~ float_wanted w \/ d = F32 \/ d = F64) /\ set_grad w h (VArr r) = Ok (h, VArr r))).
  { unfold set_grad, check_float_h, float_wanted. rewrite Er, D.
    destruct w; destruct d; cbn [is_floating]; rewrite ?A;
      first [left; split; [auto|split; [discriminate|split; [discriminate|reflexivity]]]
            |right; split; [first [left; intros [X|X]; discriminate|right; left; reflexivity|right; right; reflexivity]|reflexivity]]. }
  destruct K as [(F & N1 & N2 & E)|(F & E)].
  - exists h1, r1. split; [exact E|]. split; [intros [X|[X|X]]; contradiction|]. intros _ _ _.
    split; [lia|]. split; [rewrite V1, V; reflexivity|]. rewrite Q2. exact VV.
  - exists h, r. split; [exact E|]. split; [auto|]. intros F1 N1 N2. destruct F as [X|[X|X]]; contradiction.
Qed.
Print Assumptions C117_gradient_value.

(** ** Protection of the stored data *)

(** All array objects looking into buffer [b] are read-only. *)
Definition frozen (h : heap) (b : nat) : Prop := forall q o, nth_error (h_objs h) q = Some o -> o_buf o = b -> o_w o = false.

(** Operations that do not ask NumPy to make an array writeable. *)
Definition no_thaw (e : event) : Prop := match e with Grad _ true _ _ => False | _ => True end.

Lemma set_flag_frozen h r h' b : frozen h b -> set_flag h r false = Ok h' -> frozen h' b /\ h_bufs h' = h_bufs h /\ (wf h -> wf h') /\ length (h_objs h') = length (h_objs h)
  /\ (forall q o, nth_error (h_objs h) q = Some o -> exists o', nth_error (h_objs h') q = Some o' /\ o_buf o' = o_buf o /\ o_idx o' = o_idx o).
Proof.
  intros Fz E. destruct (set_flag_ok _ _ _ _ E) as (o & Eo & ->). cbn [h_objs h_bufs].
  assert (Lr : (r < length (h_objs h))%nat) by (eapply nth_error_lt; exact Eo).
  repeat split.
  - intros q p Eq Eb. cbn [h_objs] in Eq. destruct (Nat.eq_dec q r) as [->|N].
    + rewrite update_same in Eq by exact Lr. inversion Eq; subst. reflexivity.
    + rewrite update_other in Eq by congruence. eapply Fz; eassumption.
  - intros W q p Eq. cbn [h_objs h_bufs] in *. destruct (Nat.eq_dec q r) as [->|N].
    + rewrite update_same in Eq by exact Lr. inversion Eq; subst. cbn. eapply W. exact Eo.
    + rewrite update_other in Eq by congruence. eapply W. exact Eq.
  - apply update_length.
  - intros q p Eq. destruct (Nat.eq_dec q r) as [->|N].
    + rewrite update_same by exact Lr. eexists. split; [reflexivity|]. rewrite Eo in Eq. inversion Eq; subst. auto.
    + rewrite update_other by congruence. exists p. auto.
Qed.

Definition keeps (b : nat) (h h' : heap) : Prop :=
  frozen h' b /\ wf h' /\ (b < length (h_bufs h'))%nat /\ buffer h' b = buffer h b /\
  (forall q o, nth_error (h_objs h) q = Some o -> exists o', nth_error (h_objs h') q = Some o' /\ o_buf o' = o_buf o /\ o_idx o' = o_idx o).

Lemma keeps_trans b h1 h2 h3 : keeps b h1 h2 -> keeps b h2 h3 -> keeps b h1 h3.
Proof.
  intros (_ & _ & _ & E1 & K1) (F & W & L & E2 & K2). split; [exact F|]. split; [exact W|]. split; [exact L|]. split; [congruence|].
  intros q o Eq. destruct (K1 q o Eq) as (o1 & Q1 & B1 & I1). destruct (K2 q o1 Q1) as (o2 & Q2 & B2 & I2).
  exists o2. split; [exact Q2|]. split; congruence.
Qed.

Lemma keeps_refl b h : frozen h b -> wf h -> (b < length (h_bufs h))%nat -> keeps b h h.
Proof. intros F W L. repeat (split; [assumption || reflexivity|]). intros q o E. exists o. auto. Qed.

Lemma alloc_keeps b h d v : frozen h b -> wf h -> (b < length (h_bufs h))%nat -> keeps b h (fst (alloc h d v)).
Proof.
  intros F W L. unfold alloc. cbn [fst]. unfold keeps, buffer. cbn [h_objs h_bufs]. repeat split.
  - intros q o Eq Eb. cbn [h_objs] in Eq. destruct (Nat.lt_ge_cases q (length (h_objs h))) as [Lq|Lq].
    + rewrite nth_error_app1 in Eq by exact Lq. eapply F; eassumption.
    + rewrite nth_error_app2 in Eq by exact Lq. destruct (q - length (h_objs h))%nat as [|[|k]]; inversion Eq; subst. cbn in L. lia.
  - intros q o Eq. cbn [h_objs h_bufs] in *. rewrite app_length. cbn. destruct (Nat.lt_ge_cases q (length (h_objs h))) as [Lq|Lq].
    + rewrite nth_error_app1 in Eq by exact Lq. pose proof (W q o Eq). lia.
    + rewrite nth_error_app2 in Eq by exact Lq. destruct (q - length (h_objs h))%nat as [|[|k]]; inversion Eq; subst. cbn. lia.
  - rewrite app_length. cbn. lia.
  - rewrite app_nth1 by exact L. reflexivity.
  - intros q o Eq. exists o. rewrite nth_error_app1 by (eapply nth_error_lt; exact Eq). auto.
Qed.

Lemma exec_keeps b h e : no_thaw e -> frozen h b -> wf h -> (b < length (h_bufs h))%nat -> keeps b h (exec h e).
Proof.
  intros T F W L. pose proof (keeps_refl b h F W L) as K0.
  destruct e as [r i v|r pos|r|w wr vb v]; cbn [exec].
  - destruct (nth_error (h_objs h) r) as [o|] eqn:E; [|exact K0].
    destruct (o_w o) eqn:Ow; [|exact K0]. destruct (nth_error (o_idx o) i) as [k|]; [|exact K0].
    assert (Nb : o_buf o <> b) by (intros X; rewrite (F r o E X) in Ow; discriminate).
    unfold keeps, buffer. cbn [h_objs h_bufs]. repeat split.
    + exact F.
    + intros q p Eq. cbn [h_objs h_bufs] in *. rewrite update_length. eapply W. exact Eq.
    + rewrite update_length. exact L.
    + apply update_nth_other. exact Nb.
    + intros q p Eq. exists p. auto.
  - destruct (nth_error (h_objs h) r) as [o|] eqn:E; [|exact K0].
    unfold keeps, buffer. cbn [h_objs h_bufs]. repeat split.
    + intros q p Eq Eb. cbn [h_objs] in Eq. destruct (Nat.lt_ge_cases q (length (h_objs h))) as [Lq|Lq].
      * rewrite nth_error_app1 in Eq by exact Lq. eapply F; eassumption.
      * rewrite nth_error_app2 in Eq by exact Lq. destruct (q - length (h_objs h))%nat as [|[|m]]; inversion Eq; subst.
        cbn in *. eapply F; [exact E|reflexivity].
    + intros q p Eq. cbn [h_objs h_bufs] in *. destruct (Nat.lt_ge_cases q (length (h_objs h))) as [Lq|Lq].
      * rewrite nth_error_app1 in Eq by exact Lq. eapply W. exact Eq.
      * rewrite nth_error_app2 in Eq by exact Lq. destruct (q - length (h_objs h))%nat as [|[|m]]; inversion Eq; subst.
        cbn. eapply W. exact E.
    + exact L.
    + intros q p Eq. exists p. rewrite nth_error_app1 by (eapply nth_error_lt; exact Eq). auto.
  - destruct (nth_error (h_objs h) r) as [o|]; [|exact K0]. apply alloc_keeps; assumption.
  - destruct wr; [destruct T|]. destruct (set_obs w false vb h v) as [[[h' r'] ws]|] eqn:E; [|exact K0].
    unfold set_obs in E.
    destruct (match w with WFloat | WFloating => check_float_h h v | _ => Ok (h, v) end) as [[h1 v1]|] eqn:E1; [|discriminate].
    cbn [bind] in E. destruct (check_npndarray_h h1 v1 w false vb) as [[h2 w2]|] eqn:E2; [|discriminate]. cbn [bind fst snd] in E.
    destruct v1 as [r1| | |]; try discriminate. inversion E; subst; clear E.
    assert (K1 : keeps b h h1).
    { assert (G : check_float_h h v = Ok (h1, VArr r') -> keeps b h h1).
      { intros G. unfold check_float_h in G. destruct v as [r|l|x|]; try discriminate.
        - destruct (nth_error (h_objs h) r) as [o|]; [|discriminate]. destruct (is_floating (o_dt o)).
          + inversion G; subst. exact K0.
          + match type of G with context [alloc h F64 ?l] => pose proof (alloc_keeps b h F64 l F W L) as A; destruct (alloc h F64 l) as [ha ra] end.
            inversion G; subst. exact A.
        - match type of G with context [alloc h F64 ?l] => pose proof (alloc_keeps b h F64 l F W L) as A; destruct (alloc h F64 l) as [ha ra] end.
          inversion G; subst. exact A. }
      destruct w; try (apply G; exact E1); inversion E1; subst; exact K0. }
    apply (keeps_trans b h h1 h'); [exact K1|]. destruct K1 as (F1 & W1 & L1 & _ & _).
    unfold check_npndarray_h in E2. destruct (nth_error (h_objs h1) r') as [o|]; [|discriminate].
    destruct (negb (issub (o_dt o) w)); [discriminate|].
    destruct (set_flag h1 r' false) as [h3|] eqn:S; [|discriminate]. cbn [bind] in E2. inversion E2; subst.
    destruct (set_flag_frozen h1 r' h' b F1 S) as (A1 & A2 & A3 & A4 & A5).
    unfold keeps, buffer. rewrite A2. split; [exact A1|]. split; [apply A3; exact W1|]. split; [exact L1|]. split; [reflexivity|exact A5].
Qed.

Lemma run_keeps b l : Forall no_thaw l -> forall h, frozen h b -> wf h -> (b < length (h_bufs h))%nat -> keeps b h (fold_left exec l h).
Proof.
  induction 1 as [|e l T _ IH]; intros h F W L; cbn [fold_left]; [apply keeps_refl; assumption|].
  pose proof (exec_keeps b h e T F W L) as K. apply (keeps_trans b h (exec h e)); [exact K|].
  destruct K as (F1 & W1 & L1 & _). apply IH; assumption.
Qed.

Lemma keeps_values b h h' r o : keeps b h h' -> nth_error (h_objs h) r = Some o -> o_buf o = b -> values h' r = values h r.
Proof.
  intros (_ & _ & _ & B & K) E Eb. destruct (K r o E) as (o' & E' & B' & I'). unfold values. rewrite E, E'. cbn. f_equal.
  unfold shown. rewrite B', I', Eb, B. reflexivity.
Qed.

(** The observed data cannot change: whatever is then done (assignments through any array object,
    views, copies, other gradient operators), the operator keeps the data it was given, if at
    the time of construction no other writeable array object looked into the same memory. *)
Theorem C117_data_protected :
  forall h w verbose r o h' ws l, wf h -> nth_error (h_objs h) r = Some o ->
  (forall q p, nth_error (h_objs h) q = Some p -> q <> r -> o_buf p = o_buf o -> o_w p = false) ->
  set_obs w false verbose h (VArr r) = Ok (h', r, ws) ->
  Forall no_thaw l ->
  values (fold_left exec l h') r = values h r.
Proof.
  intros h w vb r o h' ws l W Er Sole E T.
  assert (Lr : (r < length (h_objs h))%nat) by (eapply nth_error_lt; exact Er).
  (* no conversion took place: a new array would have another number *)
  assert (E2 : h' = mk_heap (update (h_objs h) r (mk_obj (o_buf o) (o_idx o) (o_dt o) false (o_base o))) (h_bufs h)).
  { unfold set_obs in E.
    destruct (match w with WFloat | WFloating => check_float_h h (VArr r) | _ => Ok (h, VArr r) end) as [[h1 v1]|] eqn:E1; [|discriminate].
    cbn [bind] in E. destruct (check_npndarray_h h1 v1 w false vb) as [[h2 w2]|] eqn:E2; [|discriminate]. cbn [bind fst snd] in E.
    destruct v1 as [r1| | |]; try discriminate. injection E as Eh Er1 Ew. subst h2 r1 w2.
    assert (H1 : h1 = h).
    { assert (G : check_float_h h (VArr r) = Ok (h1, VArr r) -> h1 = h).
      { intros G. unfold check_float_h in G. rewrite Er in G. destruct (is_floating (o_dt o)); [congruence|].
        unfold alloc in G. injection G as _ G. lia. }
      destruct w; try (apply G; exact E1); congruence. }
    subst h1. unfold check_npndarray_h in E2. rewrite Er in E2. destruct (negb (issub (o_dt o) w)); [discriminate|].
    rewrite (set_flag_false h r o Er) in E2. cbn [bind] in E2. congruence. }
  assert (V : values h' r = values h r).
  { subst h'. unfold values. cbn [h_objs]. rewrite update_same, Er by exact Lr. reflexivity. }
  rewrite <- V.
  assert (Eo : nth_error (h_objs h') r = Some (mk_obj (o_buf o) (o_idx o) (o_dt o) false (o_base o))).
  { subst h'. cbn [h_objs]. apply update_same. exact Lr. }
  refine (keeps_values (o_buf o) h' _ r _ (run_keeps _ l T h' _ _ _) Eo eq_refl).
  - intros q p Eq Eb. subst h'. cbn [h_objs] in Eq. destruct (Nat.eq_dec q r) as [->|N].
    + rewrite update_same in Eq by exact Lr. inversion Eq. reflexivity.
    + rewrite update_other in Eq by congruence. eapply Sole; eassumption.
  - intros q p Eq. subst h'. cbn [h_objs h_bufs] in *. destruct (Nat.eq_dec q r) as [->|N].
    + rewrite update_same in Eq by exact Lr. inversion Eq. cbn. eapply W. exact Er.
    + rewrite update_other in Eq by congruence. eapply W. exact Eq.
  - subst h'. cbn [h_bufs]. eapply W. exact Er.
Qed.
Print Assumptions C117_data_protected.

(** A writeable array sharing the memory (here: the array of which the data are a view) changes the
    observed data. *)
Theorem C117_views_refuted :
  exists h r h' ws e, wf h /\ set_obs WNone false true h (VArr r) = Ok (h', r, ws) /\ no_thaw e /\
  values (exec h' e) r <> values h r.
Proof.
  exists (mk_heap [mk_obj 0 [0; 1]%nat F64 true None; mk_obj 0 [1%nat] F64 true (Some 0%nat)] [[(1, 0); (2, 0)]]), 1%nat.
  eexists. eexists. exists (Write 0 1 (7, 0)). split; [|split; [reflexivity|split; [exact I|]]].
  - intros [|[|r]] o E; inversion E; subst; cbn; try lia. destruct r; discriminate.
  - cbn. intros E. inversion E as [E1]. lra.
Qed.
Print Assumptions C117_views_refuted.

(** A second operator on the same array with input_data_writeable=True unprotects the first one's data. *)
Theorem C117_second_operator_refuted :
  exists h r h1 ws1 h2 ws2, wf h /\ set_obs WNone false true h (VArr r) = Ok (h1, r, ws1) /\
  set_obs WNone true true h1 (VArr r) = Ok (h2, r, ws2) /\ values (exec h2 (Write r 0 (7, 0))) r <> values h r.
Proof.
  exists (mk_heap [mk_obj 0 [0%nat] F64 true None] [[(1, 0)]]), 0%nat. do 4 eexists.
  split; [|split; [reflexivity|split; [reflexivity|]]].
  - intros [|r] o E; inversion E; subst; [cbn; lia|destruct r; discriminate].
  - cbn. intros E. inversion E as [E1]. lra.
Qed.
Print Assumptions C117_second_operator_refuted.

(** The caller can no longer assign to the array that was passed. *)
Theorem C117_caller_keeps_writing_refuted :
  exists h r h' ws, writeable_flag h r = Some true /\ set_obs WNone false true h (VArr r) = Ok (h', r, ws) /\
  forall i v, exec h' (Write r i v) = h'.
Proof.
  exists (mk_heap [mk_obj 0 [0%nat] F64 true None] [[(1, 0)]]), 0%nat. do 2 eexists.
  split; [reflexivity|]. split; [reflexivity|]. intros i v. reflexivity.
Qed.
Print Assumptions C117_caller_keeps_writing_refuted.

(** input_data_writeable=True fails exactly for a view of a read-only array. *)
Theorem C117_writeable_option :
  forall h verbose r o, nth_error (h_objs h) r = Some o ->
  ((exists b, o_base o = Some b /\ writeable_flag h b <> Some true) /\ set_obs WNone true verbose h (VArr r) = Err ValueError) \/
  (~ (exists b, o_base o = Some b /\ writeable_flag h b <> Some true) /\
   exists h', set_obs WNone true verbose h (VArr r) = Ok (h', r, []) /\ writeable_flag h' r = Some true).
Proof.
  intros h vb r o E. unfold set_obs, check_npndarray_h, set_flag, writeable_flag. cbn [bind]. rewrite E. cbn [issub negb andb].
  assert (Lr : (r < length (h_objs h))%nat) by (eapply nth_error_lt; exact E).
  assert (G : exists h', Ok (mk_heap (update (h_objs h) r (mk_obj (o_buf o) (o_idx o) (o_dt o) true (o_base o))) (h_bufs h), r, @nil string) = Ok (h', r, []) /\
     option_map o_w (nth_error (h_objs h') r) = Some true).
  { eexists. split; [reflexivity|]. cbn [h_objs]. rewrite update_same by exact Lr. reflexivity. }
  destruct (o_base o) as [b|] eqn:B.
  - destruct (nth_error (h_objs h) b) as [ob|] eqn:Eb; [destruct (o_w ob) eqn:Ow|]; cbn [negb bind fst snd].
    + right. split; [|exact G]. intros (b' & X & Y). inversion X; subst b'. rewrite Eb in Y. cbn in Y. congruence.
    + left. split; [|reflexivity]. exists b. rewrite Eb. cbn. split; [reflexivity|congruence].
    + left. split; [|reflexivity]. exists b. rewrite Eb. cbn. split; [reflexivity|discriminate].
  - cbn [negb bind fst snd]. right. split; [|exact G]. intros (b' & X & _). discriminate.
Qed.
Print Assumptions C117_writeable_option.

(** A concrete run: integer data with data_type=float are converted and the original stays writeable. *)
Example C117_example :
  let h := mk_heap [mk_obj 0 [0; 1]%nat I64 true None] [[(3, 0); (4, 0)]] in
  exists h' ws, set_obs WFloat false true h (VArr 0) = Ok (h', 1%nat, ws) /\ writeable_flag h' 0 = Some true /\
  values h' 1 = Some [(3, 0); (4, 0)] /\ ws = ["Making input data immutable."].
Proof. cbv zeta. do 2 eexists. split; [reflexivity|]. split; [reflexivity|]. split; reflexivity. Qed.
