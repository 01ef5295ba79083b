From Verif Require Import NPReal Py Model_Types.
Open Scope R_scope.

(** Numeric value of an object as a list of (real, imaginary) parts: the specification. *)
Definition value (v : pyobj) : option (list (R * R)) :=
  match v with
  | PyInt z => Some [(IZR z, 0)]
  | PyFloat r => Some [(r, 0)]
  | PyList l | PyTuple l =>
      Some (map (fun n => (match n with NInt z => IZR z | NFloat r => r end, 0)) l)
  | ArrFloat l => Some (map (fun r => (r, 0)) l)
  | ArrInt l => Some (map (fun z => (IZR z, 0)) l)
  | ArrBool l => Some (map (fun b : bool => (if b then 1 else 0, 0)) l)
  | ArrComplex l => Some l
  | PyObj => None
  end.

Definition is_real (v : pyobj) : Prop :=
  exists l, value v = Some l /\ Forall (fun c => snd c = 0) l.

Definition holds_floats (v : pyobj) : Prop :=
  match v with PyFloat _ | ArrFloat _ => True | _ => False end.
Definition holds_ints (v : pyobj) : Prop :=
  match v with PyInt _ | ArrInt _ => True | _ => False end.

(** Truncation towards zero, stated without the floor function. *)
Definition is_truncation (z : Z) (r : R) : Prop :=
  Rabs (IZR z) <= Rabs r /\ Rabs (r - IZR z) < 1 /\ 0 <= IZR z * r.

Lemma trunc_is_truncation r : is_truncation (trunc r) r.
Proof.
  unfold is_truncation. destruct (Rle_dec 0 r) as [H|H].
  - destruct (trunc_nonneg r H) as [B Hz]. apply IZR_le in Hz.
    rewrite !Rabs_right by lra. repeat split; try lra. apply Rmult_le_pos; lra.
  - assert (Hr : r < 0) by lra. destruct (trunc_neg r Hr) as [B Hz]. apply IZR_le in Hz.
    rewrite !Rabs_left1 by lra. repeat split; try lra. nra.
Qed.

Lemma check_float_spec v :
  match check_float v with
  | Ok v' => holds_floats v' /\ (is_real v -> value v' = value v)
  | Err e => e = TypeError /\ v = PyObj
  end.
Proof.
  assert (Hm : forall {A} (f : A -> R) (l : list A),
    map (fun r => (r, 0)) (map f l) = map (fun a => (f a, 0)) l) by (intros; rewrite map_map; reflexivity).
  destruct v; cbn; auto; split; auto; intros H; f_equal; try (rewrite map_map; apply map_ext; reflexivity).
  destruct H as (l' & E & F). cbn in E. inversion E; subst.
  rewrite map_map. rewrite <- (map_id l') at 2. apply map_ext_in.
  intros [a b] Hin. rewrite Forall_forall in F. specialize (F _ Hin). cbn in F. rewrite F. reflexivity.
Qed.

Lemma check_float_idem v v' : check_float v = Ok v' -> check_float v' = Ok v'.
Proof. destruct v; cbn; intros E; inversion E; reflexivity. Qed.

Lemma check_int_idem v v' : check_int v = Ok v' -> check_int v' = Ok v'.
Proof. destruct v; cbn; intros E; inversion E; reflexivity. Qed.

Lemma check_int_spec v :
  match check_int v with
  | Ok v' => holds_ints v' /\
      (is_real v -> exists lz lr, value v' = Some (map (fun z => (IZR z, 0)) lz) /\ value v = Some lr /\
         Forall2 (fun z c => is_truncation z (fst c)) lz lr)
  | Err e => e = TypeError /\ v = PyObj
  end.
Proof.
  assert (TZ : forall z, is_truncation z (IZR z)).
  { intros z. pose proof (trunc_is_truncation (IZR z)) as H. rewrite trunc_IZR in H. exact H. }
  assert (F2 : forall {A} (f : A -> Z) (g : A -> R * R) l,
    (forall a, is_truncation (f a) (fst (g a))) -> Forall2 (fun z c => is_truncation z (fst c)) (map f l) (map g l)).
  { intros A f g l H. induction l; cbn; constructor; auto. }
  destruct v; cbn; auto; (split; [auto|]); intros H.
  - exists [z], [(IZR z, 0)]. repeat split; auto. constructor; [apply TZ|constructor].
  - exists [trunc r], [(r, 0)]. repeat split; auto. constructor; [apply trunc_is_truncation|constructor].
  - eexists (map num_int l), _. split; [reflexivity|]. split; [reflexivity|]. apply F2.
    intros [z|r]; cbn; [apply TZ|apply trunc_is_truncation].
  - eexists (map num_int l), _. split; [reflexivity|]. split; [reflexivity|]. apply F2.
    intros [z|r]; cbn; [apply TZ|apply trunc_is_truncation].
  - eexists (map trunc l), _. split; [reflexivity|]. split; [reflexivity|]. apply F2.
    intros r; cbn; apply trunc_is_truncation.
  - eexists l, _. split; [reflexivity|]. split; [reflexivity|].
    rewrite <- (map_id l) at 1. apply F2. intros; apply TZ.
  - eexists (map (fun b : bool => if b then 1%Z else 0%Z) l), _. split; [reflexivity|]. split; [reflexivity|]. apply F2.
    intros [|]; cbn; apply TZ.
  - eexists (map (fun c => trunc (fst c)) l), _. split; [reflexivity|]. split; [reflexivity|].
    rewrite <- (map_id l) at 2. apply F2. intros; apply trunc_is_truncation.
Qed.

Lemma check_float_drops_imaginary :
  exists v v', check_float v = Ok v' /\ value v' <> value v.
Proof.
  exists (ArrComplex [(0, 1)]), (ArrFloat [0]). split; [reflexivity|].
  cbn. intros E. inversion E. lra.
Qed.
