(** Conversions of nested sequences: shapes, row-major order, errors. *)
From Verif Require Import NPReal Py Model_Stats Proof_Types Model_TypesN Spec_TypesN.
From Coq Require Import ZArith List Lia Lra.
Import ListNotations.
Local Open Scope R_scope.

Lemma trunc_unique z r : is_truncation z r -> z = trunc r.
Proof.
  intros (A1 & A2 & A3). destruct (trunc_is_truncation r) as (B1 & B2 & B3).
  assert (G : Rabs (IZR z - IZR (trunc r)) < 1).
  { set (a := IZR z) in *. set (b := IZR (trunc r)) in *. clearbody a b.
    destruct (Rtotal_order r 0) as [L|[E|L]].
    - assert (a <= 0) by nra. assert (b <= 0) by nra. rewrite !(Rabs_left1 r), ?(Rabs_left1 a), ?(Rabs_left1 b) in * by lra.
      apply Rabs_def2 in A2. apply Rabs_def2 in B2. apply Rabs_def1; lra.
    - subst r. rewrite Rabs_R0 in *. apply Rabs_def1; unfold Rabs in A1, B1; destruct (Rcase_abs a), (Rcase_abs b); lra.
    - assert (0 <= a) by nra. assert (0 <= b) by nra. rewrite !(Rabs_right r), ?(Rabs_right a), ?(Rabs_right b) in * by lra.
      apply Rabs_def2 in A2. apply Rabs_def2 in B2. apply Rabs_def1; lra. }
  rewrite <- minus_IZR in G. apply Rabs_def2 in G. destruct G as [G1 G2].
  apply lt_IZR in G1. change (- (1)) with (IZR (-1)) in G2. apply lt_IZR in G2. lia.
Qed.

Lemma same_shape_eq a b : same_shape a b = true <-> a = b.
Proof.
  revert b. induction a as [|x a IH]; intros [|y b]; cbn; split; intros E; try discriminate; try reflexivity.
  - apply andb_prop in E. destruct E as [E1 E2]. apply Nat.eqb_eq in E1. apply IH in E2. congruence.
  - injection E as -> ->. rewrite Nat.eqb_refl. cbn. apply IH. reflexivity.
Qed.

Lemma shape_of_iff s : forall t, shape_of t = Some s <-> rectangular t s.
Proof.
  induction s as [|d s IH]; intros [n|l]; cbn [shape_of rectangular]; split; intros E; try discriminate; try contradiction; try reflexivity; try exact I.
  - destruct (map shape_of l) as [|[s0|] os]; try discriminate. destruct (forallb _ os); discriminate.
  - destruct l as [|u l].
    + cbn in E. injection E as <- <-. repeat split; constructor.
    + cbn [map] in E. destruct (shape_of u) as [s0|] eqn:Eu; [|discriminate].
      destruct (forallb _ (map shape_of l)) eqn:Ef; [|discriminate]. injection E as <- ->.
      split; [reflexivity|]. split; [discriminate|]. constructor; [apply IH, Eu|].
      rewrite forallb_forall in Ef. apply Forall_forall. intros v Hv. apply IH.
      specialize (Ef (shape_of v) (in_map _ _ _ Hv)). destruct (shape_of v) as [s1|]; [|discriminate]. apply same_shape_eq in Ef. congruence.
  - destruct E as (E1 & E2 & E3). destruct l as [|u l].
    + cbn in *. rewrite E2 by reflexivity. subst d. reflexivity.
    + inversion E3 as [|? ? F1 F2]; subst. apply IH in F1. cbn [map]. rewrite F1.
      replace (forallb _ (map shape_of l)) with true; [reflexivity|]. symmetry. apply forallb_forall. intros o Ho.
      apply in_map_iff in Ho. destruct Ho as (v & <- & Hv). rewrite Forall_forall in F2. apply F2, IH in Hv. rewrite Hv. apply same_shape_eq. reflexivity.
Qed.

Lemma leaves_length s : forall t, rectangular t s -> length (leaves t) = size s.
Proof.
  induction s as [|d s IH]; intros [n|l] R; cbn in R; try contradiction; [reflexivity|].
  destruct R as (E1 & _ & E3). cbn [leaves size]. subst d. induction E3 as [|u l Ru Rl IHl]; [reflexivity|].
  cbn [flat_map length Nat.mul]. rewrite app_length, IHl, (IH u Ru). reflexivity.
Qed.

Lemma leaf_position s : forall t idx p, rectangular t s -> position s idx = Some p ->
  exists n, item t idx = Some n /\ nth_error (leaves t) p = Some n.
Proof.
  induction s as [|d s IH]; intros [n|l] [|i r] p R P; cbn [rectangular position] in R, P; try contradiction; try discriminate.
  - injection P as <-. exists n. split; reflexivity.
  - destruct R as (E1 & _ & E3). destruct (Nat.ltb_spec i d) as [Hi|]; [|discriminate].
    destruct (position s r) as [q|] eqn:Eq; [|discriminate]. injection P as <-. subst d.
    cbn [item leaves]. revert i Hi. induction E3 as [|u l Ru Rl IHl]; intros i Hi; [cbn in Hi; lia|].
    destruct i as [|i].
    + cbn [nth_error flat_map]. destruct (IH u r q Ru Eq) as (n & I1 & I2). exists n. split; [exact I1|].
      cbn [Nat.mul Nat.add]. rewrite nth_error_app1; [exact I2|]. apply nth_error_Some. congruence.
    + cbn in Hi. destruct (IHl i ltac:(lia)) as (n & I1 & I2). exists n. split; [exact I1|].
      cbn [flat_map]. rewrite nth_error_app2 by (rewrite (leaves_length s u Ru); cbn; lia). rewrite (leaves_length s u Ru).
      replace (S i * size s + q - size s)%nat with (i * size s + q)%nat by (cbn; lia). exact I2.
Qed.

Lemma leaf_item s : forall t n, rectangular t s -> In n (leaves t) -> exists idx, item t idx = Some n.
Proof.
  induction s as [|d s IH]; intros [m|l] n R Hn; cbn in R; try contradiction.
  - cbn in Hn. destruct Hn as [->|[]]. exists []. reflexivity.
  - destruct R as (_ & _ & E3). cbn [leaves] in Hn. apply in_flat_map in Hn. destruct Hn as (u & Hu & Hn).
    rewrite Forall_forall in E3. destruct (IH u n (E3 u Hu) Hn) as (idx & Ei). destruct (In_nth_error _ _ Hu) as (i & Ei').
    exists (i :: idx). cbn [item]. rewrite Ei'. exact Ei.
Qed.
Lemma item_leaf s : forall t n idx, rectangular t s -> item t idx = Some n -> In n (leaves t).
Proof.
  induction s as [|d s IH]; intros [m|l] n [|i r] R E; cbn in R, E; try contradiction; try discriminate.
  - injection E as ->. left. reflexivity.
  - destruct R as (_ & _ & E3). destruct (nth_error l i) as [u|] eqn:Eu; [|discriminate]. apply nth_error_In in Eu.
    rewrite Forall_forall in E3. cbn [leaves]. apply in_flat_map. exists u. split; [exact Eu|]. apply (IH u n r (E3 u Eu) E).
Qed.

(** Conversions one number at a time. *)
Lemma to_float_ok n : has_float n -> exists v, to_float n = Ok v /\ float_value n v.
Proof.
  destruct n as [z|v]; cbn [has_float to_float]; intros B; [|exists v; split; reflexivity].
  exists (Fin (IZR z)). split; [|reflexivity]. unfold float_limit. destruct (Z.ltb_spec (Z.abs z) (2 ^ 1024 - 2 ^ 970)); [reflexivity|lia].
Qed.
Lemma to_float_err n : ~ has_float n -> to_float n = Err OverflowError.
Proof.
  destruct n as [z|v]; cbn [has_float to_float]; intros B; [|exfalso; exact (B I)].
  unfold float_limit. destruct (Z.ltb_spec (Z.abs z) (2 ^ 1024 - 2 ^ 970)); [contradiction|reflexivity].
Qed.
Lemma fits64_iff z : fits64 z = true <-> (- 2 ^ 63 <= z < 2 ^ 63)%Z.
Proof. unfold fits64. rewrite andb_true_iff, Z.leb_le, Z.ltb_lt. reflexivity. Qed.
Lemma to_int64_ok n : has_int64 n -> exists z, to_int64 n = Ok z /\ int_value n z.
Proof.
  intros (z & V & B). exists z. split; [|exact V]. apply fits64_iff in B. unfold to_int64.
  destruct n as [y|[r| | |]]; cbn [int_value] in V; try contradiction; cbn [bind py_int].
  - subst y. rewrite B. reflexivity.
  - apply trunc_unique in V. subst z. rewrite B. reflexivity.
Qed.
Lemma to_int64_err n : ~ has_int64 n -> to_int64 n = Err (match n with NumF NaN => ValueError | _ => OverflowError end).
Proof.
  intros B. unfold to_int64. destruct n as [y|[r| | |]]; cbn [bind py_int]; try reflexivity.
  - destruct (fits64 y) eqn:E; [|reflexivity]. exfalso. apply B. exists y. split; [reflexivity|]. apply fits64_iff, E.
  - destruct (fits64 (trunc r)) eqn:E; [|reflexivity]. exfalso. apply B. exists (trunc r). split; [apply trunc_is_truncation|]. apply fits64_iff, E.
Qed.

Lemma mapM_each {A B} (f : A -> res B) (P : A -> B -> Prop) l :
  (forall a, In a l -> exists b, f a = Ok b /\ P a b) ->
  exists r, mapM f l = Ok r /\ length r = length l /\ forall i a, nth_error l i = Some a -> exists b, nth_error r i = Some b /\ P a b.
Proof.
  induction l as [|a l IH]; intros F.
  - exists []. split; [reflexivity|]. split; [reflexivity|]. intros [|i] a; discriminate.
  - destruct (F a (or_introl eq_refl)) as (b & Eb & Pb). destruct IH as (r & Er & Lr & Nr); [intros; apply F; right; assumption|].
    exists (b :: r). cbn [mapM]. rewrite Eb. cbn [bind]. rewrite Er. split; [reflexivity|]. split; [cbn; congruence|].
    intros [|i] c; cbn; intros E; [injection E as <-; eauto|apply Nr, E].
Qed.

Lemma np_array_ok {A} (conv : number -> res A) (P : number -> A -> Prop) t s : rectangular t s ->
  (forall idx n, item t idx = Some n -> exists a, conv n = Ok a /\ P n a) ->
  exists data, np_array conv t = Ok (s, data) /\ length data = size s /\
    forall idx p, position s idx = Some p -> exists n a, item t idx = Some n /\ nth_error data p = Some a /\ P n a.
Proof.
  intros R F. unfold np_array. rewrite (proj2 (shape_of_iff s t) R).
  destruct (mapM_each conv P (leaves t)) as (data & E & L & N).
  { intros n Hn. destruct (leaf_item s t n R Hn) as (idx & Ei). exact (F idx n Ei). }
  exists data. rewrite E. split; [reflexivity|]. split; [rewrite L; apply leaves_length, R|].
  intros idx p Ep. destruct (leaf_position s t idx p R Ep) as (n & I1 & I2). destruct (N p n I2) as (a & Na & Pa). eauto.
Qed.

Lemma np_array_ragged {A} (conv : number -> res A) t : ~ (exists s, rectangular t s) -> np_array conv t = Err ValueError.
Proof.
  intros NR. unfold np_array. destruct (shape_of t) as [s|] eqn:E; [|reflexivity]. exfalso. apply NR. exists s. apply shape_of_iff, E.
Qed.

(** The first element that cannot be converted decides. *)
Lemma mapM_first {A B} (f : A -> res B) l e : mapM f l = Err e <->
  exists l1 a l2, l = l1 ++ a :: l2 /\ (forall b, In b l1 -> exists c, f b = Ok c) /\ f a = Err e.
Proof.
  induction l as [|a l IH]; cbn [mapM].
  - split; [discriminate|]. intros (l1 & a & l2 & E & _). destruct l1; discriminate.
  - destruct (f a) as [b|e'] eqn:Ea; cbn [bind].
    + destruct (mapM f l) as [r|e'] eqn:El; cbn [bind].
      * split; [discriminate|]. intros (l1 & x & l2 & E & F & Ex). destruct l1 as [|y l1]; cbn in E; injection E as -> ->; [congruence|].
        assert (Q : Ok r = Err e); [|discriminate Q]. apply IH. exists l1, x, l2. split; [reflexivity|]. split; [intros; apply F; right; assumption|exact Ex].
      * split.
        -- intros Q. injection Q as ->. destruct (proj1 IH eq_refl) as (l1 & x & l2 & -> & F & Ex). exists (a :: l1), x, l2. split; [reflexivity|].
           split; [|exact Ex]. intros c [<-|Hc]; [eauto|apply F, Hc].
        -- intros (l1 & x & l2 & E & F & Ex). destruct l1 as [|y l1]; cbn in E; injection E as -> ->; [congruence|].
           apply IH. exists l1, x, l2. split; [reflexivity|]. split; [intros; apply F; right; assumption|exact Ex].
    + split.
      * intros Q. injection Q as ->. exists [], a, l. split; [reflexivity|]. split; [intros ? []|exact Ea].
      * intros (l1 & x & l2 & E & F & Ex). destruct l1 as [|y l1]; cbn in E; injection E as -> ->; [congruence|].
        destruct (F y (or_introl eq_refl)) as (c & Ec). congruence.
Qed.
