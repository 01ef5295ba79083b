(** C107-C109: backends. *)
From Coq Require Import String.
From Verif Require Import NPReal Py Model_Backend Spec_Backend.
From Coq Require Import List Lia.
Import ListNotations.
Local Open Scope string_scope.

Lemma lib_eqb_spec a b : reflect (a = b) (lib_eqb a b).
Proof. destruct a, b; constructor; reflexivity || discriminate. Qed.
Lemma libraries_some e name l : LIBRARIES e name = Some (Some l) <-> named l name /\ installed e l.
Proof.
  unfold LIBRARIES. destruct (String.eqb_spec name "cupy") as [->|N1]; [|destruct (String.eqb_spec name "tensorflow") as [->|N2]; [|destruct (String.eqb_spec name "numpy") as [->|N3]]].
  - destruct (has_cupy e) eqn:E, l; cbn; rewrite ?E; intuition (try discriminate; try congruence).
  - destruct (has_tf e) eqn:E, l; cbn; rewrite ?E; intuition (try discriminate; try congruence).
  - destruct l; cbn; intuition (try discriminate; try congruence).
  - destruct l; cbn; intuition (try discriminate; try congruence).
Qed.
Lemma named_fun l l' name : named l name -> named l' name -> l = l'.
Proof. destruct l, l'; cbn; congruence. Qed.

(** * C107: choosing a backend *)

(** The result is always an installed library under its own name; it is the one asked for, silently, exactly when
    that is installed, and otherwise numpy with one warning naming the request. *)
Theorem C107_get_backend : forall e name l n w, get_backend e name = (l, n, w) ->
  named l n /\ installed e l /\
  ((exists l', named l' name /\ installed e l') -> n = name /\ w = []) /\
  (~ (exists l', named l' name /\ installed e l') -> n = "numpy" /\ l = Numpy /\ exists rest, w = [name ++ " backend not possible" ++ rest]).
Proof.
  intros e name l n w E. unfold get_backend in E. destruct (LIBRARIES e name) as [[l0|]|] eqn:Q.
  - injection E as <- <- <-. apply libraries_some in Q. destruct Q as [Q1 Q2]. split; [exact Q1|]. split; [exact Q2|]. split; [auto|]. intros H. destruct H. exists l0. auto.
  - injection E as <- <- <-. split; [reflexivity|]. split; [exact I|]. split.
    + intros (l' & H). apply libraries_some in H. rewrite Q in H. discriminate.
    + intros _. split; [reflexivity|]. split; [reflexivity|]. eexists. reflexivity.
  - injection E as <- <- <-. split; [reflexivity|]. split; [exact I|]. split.
    + intros (l' & H). apply libraries_some in H. rewrite Q in H. discriminate.
    + intros _. split; [reflexivity|]. split; [reflexivity|]. eexists. reflexivity.
Qed.
Print Assumptions C107_get_backend.

(** Asking for the backend that was returned gives it again, silently. *)
Theorem C107_idempotent : forall e name l n w, get_backend e name = (l, n, w) -> get_backend e n = (l, n, []).
Proof.
  intros e name l n w E. destruct (C107_get_backend e name l n w E) as (A & B & _). unfold get_backend.
  rewrite (proj2 (libraries_some e n l) (conj A B)). reflexivity.
Qed.
Print Assumptions C107_idempotent.

(** The module of an array is its own library; everything else counts as numpy. *)
Theorem C107_get_array_module : forall e x l, exists_in e x ->
  (get_array_module e x = l <-> array_in l x \/ (l = Numpy /\ ~ exists l', array_in l' x)).
Proof.
  intros e x l H. unfold get_array_module, exists_in, array_in in *. destruct (okind x) as [| | |c|] eqn:K.
  - rewrite !Bool.andb_false_r. destruct l; split; intros Q; try discriminate Q; auto; destruct Q as [Q|[Q R]]; try discriminate; try reflexivity.
  - rewrite H. rewrite Bool.andb_false_r. cbn. destruct l; split; intros Q; try discriminate Q; auto; destruct Q as [Q|[Q R]]; try discriminate. exfalso. apply R. exists Cupy. reflexivity.
  - rewrite H. cbn. destruct l; split; intros Q; try discriminate Q; auto; destruct Q as [Q|[Q R]]; try discriminate. exfalso. apply R. exists TF. reflexivity.
  - rewrite !Bool.andb_false_r. destruct l; split; intros Q; try discriminate Q; try (destruct Q as [Q|[Q R]]; try discriminate; reflexivity). right. split; [reflexivity|]. intros (l' & Q'). destruct l'; discriminate.
  - rewrite !Bool.andb_false_r. destruct l; split; intros Q; try discriminate Q; try (destruct Q as [Q|[Q R]]; try discriminate; reflexivity). right. split; [reflexivity|]. intros (l' & Q'). destruct l'; discriminate.
Qed.
Print Assumptions C107_get_array_module.

Example C107_example : get_backend (mk_env false true true) "tensorflow" = (TF, "tensorflow", []) /\
  snd (fst (get_backend (mk_env false true true) "cupy")) = "numpy" /\ get_array_module (mk_env true true true) (mk_obj 0%nat KTF F64 [1%R]) = TF.
Proof. split; [reflexivity|]. split; reflexivity. Qed.

(** * C108: moving arrays *)

Lemma module_array e x l : exists_in e x -> array_in l x -> get_array_module e x = l.
Proof. intros H A. apply C107_get_array_module; [exact H|left; exact A]. Qed.

(** An array that comes back belongs to the library chosen by get_backend and has the same values and precision; it
    is the argument itself when that library held it already, and otherwise a copy. *)
Theorem C108_change_backend : forall e m x name y l0, exists_in e x -> array_in l0 x -> m <> mem x -> snd (change_backend e m x name) = Ok y ->
  array_in (fst (fst (get_backend e name))) y /\ exists_in e y /\ vals y = vals x /\ prec y = prec x /\
  (l0 = fst (fst (get_backend e name)) -> y = x) /\ (l0 <> fst (fst (get_backend e name)) -> ~ shares x y).
Proof.
  intros e m x name y l0 H A M E. unfold change_backend in E. destruct (get_backend e name) as [[l n] w] eqn:G. cbn [fst snd] in *. rewrite (module_array e x l0 H A) in E.
  destruct (C107_get_backend e name l n w G) as (_ & I & _). destruct (lib_eqb_spec l0 l) as [<-|N].
  - injection E as <-. repeat split; auto.
  - unfold array_of, array_in, exists_in, shares in *. destruct l, l0; try contradiction; rewrite A in E; try discriminate; injection E as <-; cbn in *; repeat split; auto; intros Q; congruence.
Qed.
Print Assumptions C108_change_backend.

(** numpy arrays can always be moved, and the warnings are those of get_backend. *)
Theorem C108_from_numpy : forall e m x name, array_in Numpy x -> exists y, change_backend e m x name = (snd (get_backend e name), Ok y).
Proof.
  intros e m x name A. unfold change_backend. destruct (get_backend e name) as [[l n] w]. cbn [snd].
  rewrite (module_array e x Numpy) by (unfold exists_in; rewrite ?A; auto; exact A). unfold array_of. rewrite A. destruct l; cbn; eexists; reflexivity.
Qed.
Print Assumptions C108_from_numpy.

(** Moving twice to the same backend: the second call returns the result of the first. *)
Theorem C108_idempotent : forall e m m' x name y l0, exists_in e x -> array_in l0 x -> m <> mem x -> snd (change_backend e m x name) = Ok y ->
  snd (change_backend e m' y name) = Ok y.
Proof.
  intros e m m' x name y l0 H A M E. destruct (C108_change_backend e m x name y l0 H A M E) as (B & Hy & _). unfold change_backend.
  destruct (get_backend e name) as [[l n] w]. cbn [fst snd] in *. rewrite (module_array e y l Hy B). destruct (lib_eqb_spec l l); [reflexivity|contradiction].
Qed.
Print Assumptions C108_idempotent.

(** Documented: "can be used to copy data to GPU or to CPU". A CuPy array cannot be brought back with it. *)
Theorem C108_back_to_cpu_refuted : exists e x, exists_in e x /\ array_in Cupy x /\ forall m, snd (change_backend e m x "numpy") = Err TypeError.
Proof. exists (mk_env true false false), (mk_obj 0%nat KCupy F64 [1%R]). split; [reflexivity|]. split; [reflexivity|]. reflexivity. Qed.
Print Assumptions C108_back_to_cpu_refuted.
(** Documented: returns "An ndarray of specified backend". *)
Theorem C108_ndarray_refuted : exists e m x y, exists_in e x /\ snd (change_backend e m x "numpy") = Ok y /\ (forall l, ~ array_in l y).
Proof. exists (mk_env true false false), 1%nat, (mk_obj 0%nat KOther F64 [1%R]), (mk_obj 0%nat KOther F64 [1%R]). split; [exact I|]. split; [reflexivity|]. intros []; discriminate. Qed.
Print Assumptions C108_ndarray_refuted.
(** Without CuPy the default backend gives the argument itself. *)
Theorem C108_copy_refuted : exists e m x y, snd (change_backend e m x "cupy") = Ok y /\ array_in Numpy y /\ shares x y.
Proof. exists (mk_env false false false), 1%nat, (mk_obj 0%nat KNumpy F64 [1%R]), (mk_obj 0%nat KNumpy F64 [1%R]). split; [reflexivity|]. split; reflexivity. Qed.
Print Assumptions C108_copy_refuted.

(** move_to_cpu: any array comes back as a numpy array with the same values, and is the argument itself exactly when
    it was a numpy array. *)
Theorem C108_move_to_cpu : forall e m x l, exists_in e x -> array_in l x -> m <> mem x -> exists y,
  move_to_cpu e m x = Ok y /\ array_in Numpy y /\ vals y = vals x /\ prec y = prec x /\ (shares x y <-> l = Numpy) /\ (l = Numpy -> y = x).
Proof.
  intros e m x l H A M. unfold move_to_cpu. rewrite (module_array e x l H A). unfold exists_in, array_in, shares in *. rewrite A in H.
  destruct l; rewrite ?H; cbn; rewrite ?Bool.andb_false_r; cbn; eexists; repeat split; auto; try discriminate; intros Q; cbn in Q; congruence.
Qed.
Print Assumptions C108_move_to_cpu.
(** Documented: ValueError "if the input does not correspond to any array". It is never raised. *)
Theorem C108_move_raises_refuted : exists x, (forall l, ~ array_in l x) /\ forall e m, move_to_cpu e m x = Ok x.
Proof. exists (mk_obj 0%nat KOther F64 []). split; [intros []; discriminate|]. intros [c t h] m. unfold move_to_cpu, get_array_module. cbn. rewrite !Bool.andb_false_r. reflexivity. Qed.
Print Assumptions C108_move_raises_refuted.
Theorem C108_move_never_raises : forall e m x, exists y, move_to_cpu e m x = Ok y.
Proof.
  intros e m x. unfold move_to_cpu, get_array_module. destruct (has_tf e) eqn:T, (has_cupy e) eqn:C, (okind x); cbn; eexists; reflexivity.
Qed.
Print Assumptions C108_move_never_raises.

Example C108_example : let e := mk_env true true true in let x := mk_obj 0%nat KNumpy F64 [1%R; 2%R] in
  change_backend e 7%nat x "cupy" = ([], Ok (mk_obj 7%nat KCupy F64 [1%R; 2%R])) /\ move_to_cpu e 8%nat (mk_obj 7%nat KCupy F64 [1%R; 2%R]) = Ok (mk_obj 8%nat KNumpy F64 [1%R; 2%R]) /\ change_backend e 7%nat x "numpy" = ([], Ok x).
Proof. split; [reflexivity|]. split; reflexivity. Qed.

(** * C109: torch tensors *)

(** Converting a numpy or CuPy array gives a tensor on the same device, in single precision: the values are rounded
    unless the array was in single precision already. Only such a CuPy array shares its memory with the tensor. *)
Theorem C109_to_tensor : forall f32 e m x l, exists_in e x -> array_in l x -> l <> TF -> m <> mem x ->
  (has_torch e = false -> convert_to_tensor f32 e m x = Err ImportError) /\
  (has_torch e = true -> exists y, convert_to_tensor f32 e m x = Ok y /\ (okind y = KTorch true <-> l = Cupy) /\ (okind y = KTorch false <-> l = Numpy) /\ prec y = F32 /\
    vals y = (match prec x with F32 => vals x | F64 => map f32 (vals x) end) /\ (shares x y <-> l = Cupy /\ prec x = F32)).
Proof.
  intros f32 e m x l H A N M. unfold convert_to_tensor. split; intros T; rewrite T; [reflexivity|]. cbn [negb]. rewrite (module_array e x l H A). unfold array_in in A. unfold shares.
  destruct l; [rewrite A| |contradiction].
  - eexists. split; [reflexivity|]. cbn. repeat split; try discriminate; try congruence. intros [Q _]; discriminate.
  - eexists. split; [reflexivity|]. unfold to_float. cbn. destruct (prec x) eqn:P; cbn; repeat split; try discriminate; try congruence. intros [_ Q]; discriminate.
Qed.
Print Assumptions C109_to_tensor.

(** There and back: an array that was in single precision comes back with its library and values; the result shares
    its memory with the tensor. *)
Theorem C109_roundtrip : forall f32 e m x l t, exists_in e x -> array_in l x -> l <> TF -> m <> mem x -> convert_to_tensor f32 e m x = Ok t -> exists y,
  convert_to_cupy_array e t = Ok y /\ array_in l y /\ shares t y /\ prec y = F32 /\ vals y = (match prec x with F32 => vals x | F64 => map f32 (vals x) end).
Proof.
  intros f32 e m x l t H A N M E. unfold convert_to_tensor in E. destruct (has_torch e) eqn:T; [|discriminate]. cbn [negb] in E. rewrite (module_array e x l H A) in E. unfold array_in, exists_in in *. rewrite A in H.
  unfold convert_to_cupy_array. rewrite T. cbn [negb]. unfold shares. destruct l; [rewrite A in E| |contradiction]; injection E as <-.
  - cbn. eexists. repeat split; reflexivity.
  - unfold to_float. cbn [prec okind]. destruct (prec x) eqn:P; cbn; rewrite ?H; eexists; repeat split; reflexivity.
Qed.
Print Assumptions C109_roundtrip.

(** Documented: convert_to_cupy_array returns "The tensor data as a CuPy array". *)
Theorem C109_cupy_refuted : exists e t y, exists_in e t /\ has_cupy e = true /\ convert_to_cupy_array e t = Ok y /\ array_in Numpy y /\ shares t y.
Proof. exists (mk_env true false true), (mk_obj 0%nat (KTorch false) F32 [1%R]), (mk_obj 0%nat KNumpy F32 [1%R]). repeat split; reflexivity. Qed.
Print Assumptions C109_cupy_refuted.
(** Converting keeps the values: false as soon as one of them changes under rounding. *)
Theorem C109_values_lost : forall f32 r, f32 r <> r -> exists e m x y z, array_in Numpy x /\ convert_to_tensor f32 e m x = Ok y /\ convert_to_cupy_array e y = Ok z /\ vals z <> vals x.
Proof.
  intros f32 r Hr. exists (mk_env false false true), 1%nat, (mk_obj 0%nat KNumpy F64 [r]), (mk_obj 1%nat (KTorch false) F32 [f32 r]), (mk_obj 1%nat KNumpy F32 [f32 r]).
  repeat split; try reflexivity. cbn. congruence.
Qed.
Print Assumptions C109_values_lost.
(** A tensor on the GPU without CuPy: NameError, not the documented ImportError. *)
Theorem C109_import_error_refuted : exists e t, exists_in e t /\ has_cupy e = false /\ convert_to_cupy_array e t = Err NameError.
Proof. exists (mk_env false false true), (mk_obj 0%nat (KTorch true) F32 []). repeat split; reflexivity. Qed.
Print Assumptions C109_import_error_refuted.

Example C109_example : convert_to_tensor (fun r => r) (mk_env true false true) 5%nat (mk_obj 2%nat KCupy F32 [1%R]) = Ok (mk_obj 2%nat (KTorch true) F32 [1%R]) /\
  convert_to_tensor (fun r => r) (mk_env true false false) 5%nat (mk_obj 2%nat KCupy F32 [1%R]) = Err ImportError.
Proof. split; reflexivity. Qed.
