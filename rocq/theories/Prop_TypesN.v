(** Theorems about check_float and check_int on nested sequences and special values: C146. *)
From Verif Require Import NPReal Py Model_Stats Proof_Types Model_TypesN Spec_TypesN Proof_TypesN.
From Coq Require Import ZArith List Lia Lra Classical.
Import ListNotations.
Local Open Scope R_scope.

(** * C146 *)

(** A rectangular nested list or tuple becomes the float array of its shape, whose entry at every
    multi-index is the number found there; nan and infinities are kept. *)
Theorem C146_float_array :
  forall l s, rectangular (Seq l) s -> (forall idx n, item (Seq l) idx = Some n -> has_float n) ->
  exists data, check_float_n (OSeq l) = Ok (OArrF s data) /\ length data = size s /\
    forall idx p, position s idx = Some p -> exists n v, item (Seq l) idx = Some n /\ nth_error data p = Some v /\ float_value n v.
Proof.
  intros l s R F. destruct (np_array_ok to_float float_value (Seq l) s R) as (data & E & L & N).
  { intros idx n Ei. apply to_float_ok, (F idx n Ei). }
  exists data. split; [cbn [check_float_n]; rewrite E; reflexivity|]. split; [exact L|exact N].
Qed.
Print Assumptions C146_float_array.

(** check_int does the same with truncation towards zero, when every number has a 64-bit integer. *)
Theorem C146_int_array :
  forall junk l s, rectangular (Seq l) s -> (forall idx n, item (Seq l) idx = Some n -> has_int64 n) ->
  exists data, check_int_n junk (OSeq l) = Ok (OArrI s data) /\ length data = size s /\
    forall idx p, position s idx = Some p -> exists n z, item (Seq l) idx = Some n /\ nth_error data p = Some z /\ int_value n z.
Proof.
  intros junk l s R F. destruct (np_array_ok to_int64 int_value (Seq l) s R) as (data & E & L & N).
  { intros idx n Ei. apply to_int64_ok, (F idx n Ei). }
  exists data. split; [cbn [check_int_n]; rewrite E; reflexivity|]. split; [exact L|exact N].
Qed.
Print Assumptions C146_int_array.

(** Sequences that are not rectangular raise ValueError, whatever they hold. *)
Theorem C146_ragged :
  forall junk l, ~ (exists s, rectangular (Seq l) s) ->
  check_float_n (OSeq l) = Err ValueError /\ check_int_n junk (OSeq l) = Err ValueError.
Proof.
  intros junk l NR. cbn [check_float_n check_int_n]. rewrite !np_array_ragged by exact NR. split; reflexivity.
Qed.
Print Assumptions C146_ragged.

(** A rectangular sequence is refused exactly when it holds a number the target type has no value
    for: OverflowError from check_float; from check_int ValueError if there is a nan and nothing
    else is wrong, OverflowError if something is wrong and there is no nan. *)
Theorem C146_refused :
  forall junk l s, rectangular (Seq l) s ->
  ((exists idx n, item (Seq l) idx = Some n /\ ~ has_float n) -> check_float_n (OSeq l) = Err OverflowError) /\
  ((exists idx n, item (Seq l) idx = Some n /\ ~ has_int64 n) ->
     check_int_n junk (OSeq l) = Err ValueError \/ check_int_n junk (OSeq l) = Err OverflowError) /\
  ((exists idx n, item (Seq l) idx = Some n /\ ~ has_int64 n) ->
     (forall idx n, item (Seq l) idx = Some n -> ~ has_int64 n -> n = NumF NaN) -> check_int_n junk (OSeq l) = Err ValueError) /\
  ((exists idx n, item (Seq l) idx = Some n /\ ~ has_int64 n) ->
     (forall idx, item (Seq l) idx <> Some (NumF NaN)) -> check_int_n junk (OSeq l) = Err OverflowError).
Proof.
  intros junk l s R.
  assert (First : forall B (f : number -> res B) (P : number -> Prop) t, rectangular t s -> (forall n, P n -> exists b, f n = Ok b) ->
     (exists idx n, item t idx = Some n /\ ~ P n) -> exists idx n, item t idx = Some n /\ ~ P n /\ forall e, f n = Err e -> mapM f (leaves t) = Err e).
  { intros B f P t Rt F (idx & n & Ei & Nn). apply (item_leaf s t n idx Rt) in Ei.
    assert (G : forall ls, (exists m, In m ls /\ ~ P m) -> exists l1 a l2, ls = l1 ++ a :: l2 /\ (forall b, In b l1 -> P b) /\ ~ P a).
    { induction ls as [|a ls IH]; intros (m & Hm & Nm); [destruct Hm|]. destruct (classic (P a)) as [Pa|Na].
      - destruct Hm as [->|Hm]; [contradiction|]. destruct IH as (l1 & b & l2 & -> & F1 & F2); [eauto|]. exists (a :: l1), b, l2.
        split; [reflexivity|]. split; [|exact F2]. intros c [<-|Hc]; auto.
      - exists [], a, ls. split; [reflexivity|]. split; [intros ? []|exact Na]. }
    destruct (G (leaves t)) as (l1 & a & l2 & E & F1 & Na); [eauto|].
    destruct (leaf_item s t a Rt) as (ia & Ea); [rewrite E; apply in_or_app; right; left; reflexivity|].
    exists ia, a. split; [exact Ea|]. split; [exact Na|]. intros e Ee. apply mapM_first. exists l1, a, l2. split; [exact E|]. split; [|exact Ee].
    intros b Hb. apply F, F1, Hb. }
  cbn [check_float_n check_int_n]. unfold np_array. rewrite (proj2 (shape_of_iff s (Seq l)) R).
  split; [|split; [|split]].
  - intros Ex. destruct (First _ to_float has_float (Seq l) R) as (idx & n & Ei & Nn & Q); [intros n Hn; destruct (to_float_ok n Hn) as (v & Ev & _); eauto|exact Ex|].
    rewrite (Q OverflowError) by (apply to_float_err, Nn). reflexivity.
  - intros Ex. destruct (First _ to_int64 has_int64 (Seq l) R) as (idx & n & Ei & Nn & Q); [intros n Hn; destruct (to_int64_ok n Hn) as (v & Ev & _); eauto|exact Ex|].
    rewrite (Q _ (to_int64_err n Nn)). cbn [bind]. destruct n as [z|[r| | |]]; auto.
  - intros Ex A. destruct (First _ to_int64 has_int64 (Seq l) R) as (idx & n & Ei & Nn & Q); [intros n Hn; destruct (to_int64_ok n Hn) as (v & Ev & _); eauto|exact Ex|].
    rewrite (Q _ (to_int64_err n Nn)). rewrite (A idx n Ei Nn). reflexivity.
  - intros Ex A. destruct (First _ to_int64 has_int64 (Seq l) R) as (idx & n & Ei & Nn & Q); [intros n Hn; destruct (to_int64_ok n Hn) as (v & Ev & _); eauto|exact Ex|].
    rewrite (Q _ (to_int64_err n Nn)). specialize (A idx). rewrite Ei in A. destruct n as [z|[r| | |]]; try reflexivity. congruence.
Qed.
Print Assumptions C146_refused.

(** Arrays are never refused and keep their shape; entries that a 64-bit integer can hold are
    truncated, and floats made from integers keep their value. *)
Theorem C146_arrays :
  forall junk s,
  (forall l, check_float_n (OArrF s l) = Ok (OArrF s l)) /\
  (forall l, check_int_n junk (OArrI s l) = Ok (OArrI s l)) /\
  (forall l, exists l', check_float_n (OArrI s l) = Ok (OArrF s l') /\ length l' = length l /\
     forall i z, nth_error l i = Some z -> nth_error l' i = Some (Fin (IZR z))) /\
  (forall l, exists l', check_int_n junk (OArrF s l) = Ok (OArrI s l') /\ length l' = length l /\
     forall i v, nth_error l i = Some v -> has_int64 (NumF v) -> exists z, nth_error l' i = Some z /\ int_value (NumF v) z).
Proof.
  intros junk s. split; [reflexivity|]. split; [reflexivity|]. split; intros l; eexists; (split; [reflexivity|]); (split; [apply map_length|]).
  - intros i z E. apply (map_nth_error (fun z => Fin (IZR z)) i l E).
  - intros i v E (z & V & B). exists z. split; [|exact V]. rewrite (map_nth_error (cast64 junk) i l E). f_equal.
    destruct v as [r| | |]; cbn [int_value] in V; try contradiction. cbn [cast64]. apply trunc_unique in V. subst z.
    apply fits64_iff in B. rewrite B. reflexivity.
Qed.
Print Assumptions C146_arrays.

(** Numbers: check_int raises on nan and infinities and is unbounded otherwise; check_float raises
    on integers that no float can hold. *)
Theorem C146_numbers :
  forall junk,
  check_int_n junk (ONum (NumF NaN)) = Err ValueError /\
  check_int_n junk (ONum (NumF PInf)) = Err OverflowError /\ check_int_n junk (ONum (NumF NInf)) = Err OverflowError /\
  (forall r, exists z, check_int_n junk (ONum (NumF (Fin r))) = Ok (ONum (NumI z)) /\ is_truncation z r) /\
  (forall z, check_int_n junk (ONum (NumI z)) = Ok (ONum (NumI z))) /\
  (forall v, check_float_n (ONum (NumF v)) = Ok (ONum (NumF v))) /\
  (forall z, has_float (NumI z) -> check_float_n (ONum (NumI z)) = Ok (ONum (NumF (Fin (IZR z))))) /\
  (forall z, ~ has_float (NumI z) -> check_float_n (ONum (NumI z)) = Err OverflowError).
Proof.
  intros junk. do 3 (split; [reflexivity|]). split; [intros r; eexists; split; [reflexivity|apply trunc_is_truncation]|]. do 2 (split; [reflexivity|]).
  split; intros z B; unfold check_float_n.
  - destruct (to_float_ok (NumI z) B) as (v & E & V). rewrite E. cbn in V. subst v. reflexivity.
  - rewrite to_float_err by exact B. reflexivity.
Qed.
Print Assumptions C146_numbers.

(** What a check returns, it returns unchanged. *)
Theorem C146_idempotent :
  forall junk v w,
  (check_float_n v = Ok w -> check_float_n w = Ok w) /\ (check_int_n junk v = Ok w -> check_int_n junk w = Ok w).
Proof.
  intros junk v w. split; intros E.
  - destruct v as [[z|x]|l|s l|s l|]; unfold check_float_n in E.
    + destruct (to_float (NumI z)); cbn [bind] in E; [|discriminate]. injection E as <-. reflexivity.
    + injection E as <-. reflexivity.
    + destruct (np_array to_float (Seq l)) as [[s d]|]; cbn [bind] in E; [|discriminate]. injection E as <-. reflexivity.
    + injection E as <-. reflexivity.
    + injection E as <-. reflexivity.
    + discriminate.
  - destruct v as [[z|x]|l|s l|s l|]; unfold check_int_n in E.
    + injection E as <-. reflexivity.
    + destruct (py_int x); cbn [bind] in E; [|discriminate]. injection E as <-. reflexivity.
    + destruct (np_array to_int64 (Seq l)) as [[s d]|]; cbn [bind] in E; [|discriminate]. injection E as <-. reflexivity.
    + injection E as <-. reflexivity.
    + injection E as <-. reflexivity.
    + discriminate.
Qed.
Print Assumptions C146_idempotent.

Lemma mapM_err {A B} (f : A -> res B) l e : mapM f l = Err e -> exists a, f a = Err e.
Proof.
  induction l as [|a l IH]; cbn [mapM]; [discriminate|]. destruct (f a) eqn:E; cbn [bind]; [|intros [= ->]; eauto].
  destruct (mapM f l); cbn [bind]; [discriminate|]. exact IH.
Qed.
Lemma np_array_err {A} (f : number -> res A) t : (forall n, f n <> Err TypeError) -> np_array f t <> Err TypeError.
Proof.
  intros F. unfold np_array. destruct (shape_of t); [|discriminate]. destruct (mapM f (leaves t)) eqn:E; cbn [bind]; [discriminate|].
  intros [= ->]. destruct (mapM_err _ _ _ E) as [a Q]. exact (F a Q).
Qed.
(** [C146] TypeError is for the objects of another type, and only for them. *)
Theorem C146_type_error :
  forall junk v, (check_float_n v = Err TypeError <-> v = OOther) /\ (check_int_n junk v = Err TypeError <-> v = OOther).
Proof.
  intros junk v. split; split; try (intros ->; reflexivity).
  - assert (F : forall n, to_float n <> Err TypeError) by (intros [z|x]; cbn [to_float]; [destruct (_ <? _)%Z|]; discriminate).
    destruct v as [[z|x]|l|s l|s l|]; unfold check_float_n; try discriminate; try reflexivity.
    + pose proof (F (NumI z)). destruct (to_float (NumI z)); cbn [bind]; [discriminate|congruence].
    + pose proof (np_array_err _ (Seq l) F). destruct (np_array to_float (Seq l)); cbn [bind]; [discriminate|congruence].
  - assert (F : forall x, py_int x <> Err TypeError) by (intros [r| | |]; discriminate).
    assert (F' : forall n, to_int64 n <> Err TypeError).
    { intros [z|x]; unfold to_int64; cbn [bind]; [destruct (fits64 z); discriminate|].
      pose proof (F x). destruct (py_int x); cbn [bind]; [destruct (fits64 _); discriminate|congruence]. }
    destruct v as [[z|x]|l|s l|s l|]; unfold check_int_n; try discriminate; try reflexivity.
    + pose proof (F x). destruct (py_int x); cbn [bind]; [discriminate|congruence].
    + pose proof (np_array_err _ (Seq l) F'). destruct (np_array to_int64 (Seq l)); cbn [bind]; [discriminate|congruence].
Qed.
Print Assumptions C146_type_error.

(** A list and the array check_float makes of it do not have the same fate in check_int: [nan]
    raises ValueError, array([nan]) gives some integer. *)
Theorem C146_list_as_array_refuted :
  exists l a, check_float_n (OSeq l) = Ok a /\
  forall junk, check_int_n junk (OSeq l) = Err ValueError /\ exists b, check_int_n junk a = Ok b.
Proof.
  exists [Leaf (NumF NaN)]. eexists. split; [reflexivity|]. intros junk. split; [reflexivity|]. eexists. reflexivity.
Qed.
Print Assumptions C146_list_as_array_refuted.

(** [[1, 2.5], [-0.5, inf]] as floats; [[1, 2], [3]] is refused; -2.5 truncates to -2. *)
Example C146_example :
  check_float_n (OSeq [Seq [Leaf (NumI 1); Leaf (NumF (Fin (5 / 2)))]; Seq [Leaf (NumF (Fin (- / 2))); Leaf (NumF PInf)]])
    = Ok (OArrF [2%nat; 2%nat] [Fin 1; Fin (5 / 2); Fin (- / 2); PInf]) /\
  position [2%nat; 2%nat] [1%nat; 0%nat] = Some 2%nat /\
  check_float_n (OSeq [Seq [Leaf (NumI 1); Leaf (NumI 2)]; Seq [Leaf (NumI 3)]]) = Err ValueError /\
  (exists z, check_int_n (fun _ => 0%Z) (ONum (NumF (Fin (- (5 / 2))))) = Ok (ONum (NumI z)) /\ z = (-2)%Z).
Proof.
  split; [|split; [reflexivity|split; [reflexivity|]]].
  - reflexivity.
  - eexists. split; [reflexivity|]. symmetry. apply trunc_unique. unfold is_truncation.
    rewrite !Rabs_left1 by lra. repeat split; lra.
Qed.
