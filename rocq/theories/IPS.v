(** Real inner-product spaces: the abstract data type of the optimisation variables.
    Every real NumPy array of a fixed shape is an element of such a space (instance [Rn]
    below, for the flattened data); complex arrays are one too, with the real part of vdot as
    inner product. The algorithm theorems hold in every such space, of any dimension. *)
From Coq Require Import Eqdep_dec.
From Verif Require Import NPReal Py.
Local Open Scope R_scope.

Record ips := mk_ips {
  car :> Type;
  vadd : car -> car -> car;
  vscal : R -> car -> car;
  vzero : car;
  inner : car -> car -> R;
  vadd_comm : forall x y, vadd x y = vadd y x;
  vadd_assoc : forall x y z, vadd x (vadd y z) = vadd (vadd x y) z;
  vadd_0 : forall x, vadd x vzero = x;
  vadd_opp : forall x, vadd x (vscal (-1) x) = vzero;
  inner_sym : forall x y, inner x y = inner y x;
  inner_add_l : forall x y z, inner (vadd x y) z = inner x z + inner y z;
  inner_scal_l : forall a x z, inner (vscal a x) z = a * inner x z;
  inner_pos : forall x, 0 <= inner x x;
  inner_def : forall x, inner x x = 0 -> x = vzero }.
Arguments vadd {i}. Arguments vscal {i}. Arguments vzero {i}. Arguments inner {i}.

Declare Scope vec_scope.
Delimit Scope vec_scope with v.
Notation "x + y" := (vadd x y) : vec_scope.
Notation "a * x" := (vscal a x) : vec_scope.
Definition vsub {H : ips} (x y : H) : H := vadd x (vscal (-1) y).
Notation "x - y" := (vsub x y) : vec_scope.
Definition nsq {H : ips} (x : H) : R := inner x x.
Definition norm {H : ips} (x : H) : R := sqrt (inner x x).
Bind Scope vec_scope with car.

Section Laws.
Context {H : ips}.
Implicit Types x y z : H.

Lemma inner_0_l z : inner vzero z = 0.
Proof.
  assert (E : inner (vadd vzero vzero) z = inner vzero z) by (rewrite vadd_0; reflexivity).
  rewrite inner_add_l in E. lra.
Qed.
Lemma inner_sub_l x y z : inner (x - y)%v z = inner x z - inner y z.
Proof. unfold vsub. rewrite inner_add_l, inner_scal_l. lra. Qed.
Lemma inner_add_r x y z : inner x (y + z)%v = inner x y + inner x z.
Proof. rewrite inner_sym, inner_add_l, (inner_sym _ y), (inner_sym _ z). reflexivity. Qed.
Lemma inner_scal_r a x z : inner x (a * z)%v = a * inner x z.
Proof. rewrite inner_sym, inner_scal_l, inner_sym. reflexivity. Qed.
Lemma inner_sub_r x y z : inner x (y - z)%v = inner x y - inner x z.
Proof. rewrite inner_sym, inner_sub_l, (inner_sym _ y), (inner_sym _ z). reflexivity. Qed.
Lemma inner_0_r z : inner z vzero = 0.
Proof. rewrite inner_sym. apply inner_0_l. Qed.

Lemma sub_eq0 x y : (x - y)%v = vzero -> x = y.
Proof.
  unfold vsub. intros E.
  rewrite <- (vadd_0 H x), <- (vadd_opp H y), (vadd_comm H y), vadd_assoc, E, vadd_comm, vadd_0. reflexivity.
Qed.

Lemma inner_ext x y : (forall z, inner x z = inner y z) -> x = y.
Proof. intros E. apply sub_eq0. apply inner_def. rewrite inner_sub_l, E. lra. Qed.

Lemma nsq_pos x : 0 <= nsq x.
Proof. apply inner_pos. Qed.
Lemma nsq_0 x : nsq x = 0 -> x = vzero.
Proof. apply inner_def. Qed.
Lemma nsq_sub_0 x y : nsq (x - y)%v = 0 -> x = y.
Proof. intros E. apply sub_eq0, inner_def, E. Qed.
Lemma norm_sq x : norm x * norm x = nsq x.
Proof. unfold norm. apply sqrt_sqrt. apply inner_pos. Qed.
Lemma norm_pos x : 0 <= norm x.
Proof. apply sqrt_pos. Qed.

Lemma cauchy_schwarz x y : inner x y * inner x y <= nsq x * nsq y.
Proof.
  unfold nsq. destruct (Req_dec (inner y y) 0) as [E|E].
  - apply inner_def in E. subst y. rewrite !inner_0_r. lra.
  - assert (P : 0 < inner y y) by (pose proof (inner_pos H y); lra).
    pose proof (inner_pos H (x - (inner x y / inner y y) * y)%v) as Q.
    rewrite inner_sub_l, !inner_sub_r, inner_scal_l, !inner_scal_r, inner_scal_l, (inner_sym _ y x) in Q.
    apply (Rmult_le_compat_r (inner y y)) in Q; [|lra].
    replace ((inner x x - inner x y / inner y y * inner x y -
       (inner x y / inner y y * inner x y - inner x y / inner y y * (inner x y / inner y y * inner y y))) * inner y y)
      with (inner x x * inner y y - inner x y * inner x y) in Q by (field; lra).
    lra.
Qed.

Lemma cauchy_schwarz_norm x y : inner x y <= norm x * norm y.
Proof.
  pose proof (cauchy_schwarz x y) as C. rewrite <- !norm_sq in C.
  pose proof (norm_pos x). pose proof (norm_pos y).
  destruct (Rle_dec (inner x y) 0); [apply Rle_trans with 0; [assumption|apply Rmult_le_pos; assumption]|].
  apply Rsqr_incr_0; [unfold Rsqr; nra|lra|apply Rmult_le_pos; assumption].
Qed.

Lemma norm_triangle x y : norm (x + y)%v <= norm x + norm y.
Proof.
  apply Rsqr_incr_0; [|apply norm_pos|pose proof (norm_pos x); pose proof (norm_pos y); lra].
  unfold Rsqr. rewrite norm_sq. unfold nsq. rewrite inner_add_l, !inner_add_r, (inner_sym _ y x).
  pose proof (cauchy_schwarz_norm x y). pose proof (norm_sq x). pose proof (norm_sq y). unfold nsq in *. lra.
Qed.

Lemma norm_scal a x : norm (a * x)%v = Rabs a * norm x.
Proof.
  unfold norm. rewrite inner_scal_l, inner_scal_r, <- Rmult_assoc.
  rewrite sqrt_mult; [|nra|apply inner_pos]. rewrite <- (sqrt_Rsqr_abs a). reflexivity.
Qed.

Lemma norm_0 : norm (vzero : H) = 0.
Proof. unfold norm. rewrite inner_0_l. apply sqrt_0. Qed.

Lemma norm_eq0 x : norm x = 0 -> x = vzero.
Proof. intros E. apply nsq_0. rewrite <- norm_sq, E. lra. Qed.
End Laws.

(** Expand inner products of linear combinations into inner products of atoms. *)
Ltac iexpand :=
  unfold nsq, vsub;
  rewrite ?inner_add_l, ?inner_scal_l, ?inner_0_l;
  repeat (rewrite ?inner_add_l, ?inner_add_r, ?inner_scal_l, ?inner_scal_r, ?inner_0_l, ?inner_0_r).
Ltac iexpand_in E :=
  unfold nsq, vsub in E;
  repeat (rewrite ?inner_add_l, ?inner_add_r, ?inner_scal_l, ?inner_scal_r, ?inner_0_l, ?inner_0_r in E).

(** Equality of linear combinations of vectors. *)
Ltac vring :=
  apply inner_ext; let z := fresh "z" in intros z; unfold vsub;
  repeat (rewrite ?inner_add_l, ?inner_scal_l, ?inner_0_l); ring.
Ltac vfield :=
  apply inner_ext; let z := fresh "z" in intros z; unfold vsub;
  repeat (rewrite ?inner_add_l, ?inner_scal_l, ?inner_0_l); field.

Lemma vscal_1 {H : ips} (x : H) : (1 * x)%v = x. Proof. vring. Qed.
Lemma vscal_0 {H : ips} (x : H) : (0 * x)%v = vzero. Proof. vring. Qed.
Lemma vscal_zero {H : ips} a : (a * (vzero : H))%v = vzero. Proof. vring. Qed.
Lemma vsub_self {H : ips} (x : H) : (x - x)%v = vzero. Proof. vring. Qed.
Lemma vsub_0_r {H : ips} (x : H) : (x - vzero)%v = x. Proof. vring. Qed.
Lemma vadd_0_l {H : ips} (x : H) : (vzero + x)%v = x. Proof. vring. Qed.
Lemma vadd_sub {H : ips} (x y : H) : (y + (x - y))%v = x. Proof. vring. Qed.

Lemma nsq_scal {H : ips} a (x : H) : nsq (a * x)%v = a * a * nsq x.
Proof. iexpand. ring. Qed.
Lemma nsq_sub_sym {H : ips} (x y : H) : nsq (x - y)%v = nsq (y - x)%v.
Proof. iexpand. ring. Qed.

(** * Instances *)

(** The real line. *)
Definition R_ips : ips.
Proof.
  refine (mk_ips R Rplus Rmult 0 Rmult _ _ _ _ _ _ _ _ _); intros; try ring.
  - nra.
  - nra.
Defined.

(** Flat real arrays of length n. *)
Definition Rvec (n : nat) : Type := { l : list R | length l = n }.

Lemma Rvec_eq n (x y : Rvec n) : proj1_sig x = proj1_sig y -> x = y.
Proof.
  destruct x as [l p], y as [m q]. cbn. intros E. subst m. f_equal. apply UIP_dec. apply Nat.eq_dec.
Qed.

Fixpoint map2 {A B C} (f : A -> B -> C) (l : list A) (m : list B) : list C :=
  match l, m with
  | a :: l', b :: m' => f a b :: map2 f l' m'
  | _, _ => []
  end.

Lemma map2_length {A B C} (f : A -> B -> C) l m n :
  length l = n -> length m = n -> length (map2 f l m) = n.
Proof.
  revert m n. induction l as [|a l IH]; intros [|b m] n E1 E2; cbn in *; subst; auto; try discriminate.
Qed.

Definition dot (l m : list R) : R := rsum (map2 Rmult l m).

Definition Rvec_add {n} (x y : Rvec n) : Rvec n :=
  exist _ (map2 Rplus (proj1_sig x) (proj1_sig y)) (map2_length _ _ _ _ (proj2_sig x) (proj2_sig y)).
Definition Rvec_scal {n} (a : R) (x : Rvec n) : Rvec n :=
  exist _ (map (Rmult a) (proj1_sig x)) (eq_trans (map_length _ _) (proj2_sig x)).
Definition Rvec_zero n : Rvec n := exist _ (repeat 0 n) (repeat_length _ _).
Definition Rvec_dot {n} (x y : Rvec n) : R := dot (proj1_sig x) (proj1_sig y).

Definition Rn (n : nat) : ips.
Proof.
  refine (mk_ips (Rvec n) Rvec_add Rvec_scal (Rvec_zero n) Rvec_dot _ _ _ _ _ _ _ _ _).
  - intros [l p] [m q]. apply Rvec_eq. cbn. revert m n p q.
    induction l as [|a l IH]; intros [|b m] n p q; cbn in *; subst; try discriminate; [reflexivity|].
    f_equal; [ring|]. apply (IH m (length l)); [reflexivity|congruence].
  - intros [l p] [m q] [k r]. apply Rvec_eq. cbn. revert m k n p q r.
    induction l as [|a l IH]; intros [|b m] [|c k] n p q r; cbn in *; subst; try discriminate; [reflexivity|].
    f_equal; [ring|]. apply (IH m k (length l)); congruence.
  - intros [l p]. apply Rvec_eq. cbn. subst n.
    induction l as [|a l IH]; cbn; [reflexivity|]. f_equal; [ring|exact IH].
  - intros [l p]. apply Rvec_eq. cbn. subst n.
    induction l as [|a l IH]; cbn; [reflexivity|]. f_equal; [ring|exact IH].
  - intros [l p] [m q]. unfold Rvec_dot, dot. cbn [proj1_sig]. clear. revert m.
    induction l as [|a l IH]; intros [|b m]; cbn; try reflexivity. unfold rsum in IH. rewrite IH. ring.
  - intros [l p] [m q] [k r]. unfold Rvec_dot, dot. cbn [proj1_sig Rvec_add]. revert m k n p q r.
    induction l as [|a l IH]; intros [|b m] [|c k] n p q r; cbn in *; subst; try discriminate; [ring|].
    specialize (IH m k (length l) eq_refl). unfold rsum in IH. rewrite IH by congruence. ring.
  - intros a [l p] [m q]. unfold Rvec_dot, dot. cbn [proj1_sig Rvec_scal]. clear. revert m.
    induction l as [|x l IH]; intros [|b m]; cbn; try ring. unfold rsum in IH. rewrite IH. ring.
  - intros [l p]. unfold Rvec_dot, dot. cbn [proj1_sig]. clear.
    induction l as [|x l IH]; cbn; [lra|]. unfold rsum in IH. nra.
  - intros [l p]. unfold Rvec_dot, dot. cbn [proj1_sig]. intros E. apply Rvec_eq. cbn. subst n.
    induction l as [|x l IH]; cbn in *; [reflexivity|].
    assert (P : forall l, 0 <= fold_right Rplus 0 (map2 Rmult l l)).
    { clear. induction l as [|x l IH]; cbn; [lra|]. nra. }
    specialize (P l). f_equal; [nra|]. apply IH. unfold rsum. nra.
Defined.

(** Product of two spaces. *)
Definition prod_ips (A B : ips) : ips.
Proof.
  refine (mk_ips (A * B) (fun x y => (vadd (fst x) (fst y), vadd (snd x) (snd y)))
    (fun a x => (vscal a (fst x), vscal a (snd x))) (vzero, vzero)
    (fun x y => inner (fst x) (fst y) + inner (snd x) (snd y)) _ _ _ _ _ _ _ _ _).
  - intros [a b] [c d]; cbn. rewrite (vadd_comm A), (vadd_comm B). reflexivity.
  - intros [a b] [c d] [e f]; cbn. rewrite (vadd_assoc A), (vadd_assoc B). reflexivity.
  - intros [a b]; cbn. rewrite (vadd_0 A), (vadd_0 B). reflexivity.
  - intros [a b]; cbn. rewrite (vadd_opp A), (vadd_opp B). reflexivity.
  - intros [a b] [c d]; cbn. rewrite (inner_sym A), (inner_sym B). reflexivity.
  - intros [a b] [c d] [e f]; cbn. rewrite (inner_add_l A), (inner_add_l B). ring.
  - intros t [a b] [c d]; cbn. rewrite (inner_scal_l A), (inner_scal_l B). ring.
  - intros [a b]; cbn. pose proof (inner_pos A a). pose proof (inner_pos B b). lra.
  - intros [a b]; cbn. intros E. pose proof (inner_pos A a). pose proof (inner_pos B b).
    f_equal; apply inner_def; lra.
Defined.

(** * Convexity vocabulary *)

(** [p] is the point a proximity operator of g (restricted to the set [D]) must return. *)
Definition is_prox {H : ips} (D : H -> Prop) (g : H -> R) (x p : H) : Prop :=
  D p /\ forall z, D z -> g p + / 2 * nsq (p - x)%v <= g z + / 2 * nsq (z - x)%v.
Definition everywhere {H : ips} : H -> Prop := fun _ => True.

Definition convex_on {H : ips} (D : H -> Prop) (g : H -> R) : Prop :=
  forall x y t, D x -> D y -> 0 <= t <= 1 ->
    D ((1 - t) * x + t * y)%v /\ g ((1 - t) * x + t * y)%v <= (1 - t) * g x + t * g y.

(** The subgradient form: x - p is a subgradient of g at p. *)
Definition prox_vi {H : ips} (D : H -> Prop) (g : H -> R) (x p : H) : Prop :=
  D p /\ forall z, D z -> g p + inner (x - p)%v (z - p)%v <= g z.

Lemma prox_vi_is_prox {H : ips} D (g : H -> R) x p : prox_vi D g x p -> is_prox D g x p.
Proof.
  intros [Dp V]. split; [exact Dp|]. intros z Dz. specialize (V z Dz).
  assert (E : / 2 * nsq (z - x)%v = / 2 * nsq (p - x)%v - inner (x - p)%v (z - p)%v + / 2 * nsq (z - p)%v).
  { iexpand. rewrite (inner_sym H x z), (inner_sym H x p), (inner_sym H p z). field. }
  rewrite E. pose proof (nsq_pos (z - p)%v). lra.
Qed.

Lemma is_prox_vi {H : ips} D (g : H -> R) x p : convex_on D g -> is_prox D g x p -> prox_vi D g x p.
Proof.
  intros C [Dp M]. split; [exact Dp|]. intros z Dz.
  apply Rnot_lt_le. intros Hlt.
  set (d := g p + inner (x - p)%v (z - p)%v - g z) in *.
  assert (Hd : 0 < d) by (unfold d; lra).
  set (q := nsq (z - p)%v). pose proof (nsq_pos (z - p)%v) as Hq. fold q in Hq.
  (* choose t small: t*q < d *)
  set (t := Rmin 1 (d / (q + 1))).
  assert (Hq1 : 0 < q + 1) by lra.
  assert (Ht0 : 0 < t). { unfold t. apply Rmin_glb_lt; [lra|]. apply Rdiv_lt_0_compat; lra. }
  assert (Ht1 : t <= 1) by apply Rmin_l.
  assert (Htq : t * (q + 1) <= d).
  { apply Rle_trans with (d / (q + 1) * (q + 1)); [apply Rmult_le_compat_r; [lra|apply Rmin_r]|].
    unfold Rdiv. rewrite Rmult_assoc, Rinv_l by lra. lra. }
  destruct (C p z t Dp Dz ltac:(lra)) as [Dt Gt].
  specialize (M _ Dt).
  assert (E : / 2 * nsq ((1 - t) * p + t * z - x)%v
     = / 2 * nsq (p - x)%v - t * inner (x - p)%v (z - p)%v + / 2 * (t * t) * q).
  { unfold q. iexpand. rewrite (inner_sym H x z), (inner_sym H x p), (inner_sym H p z). field. }
  rewrite E in M. unfold d in *. nra.
Qed.

Lemma prox_vi_unique {H : ips} D (g : H -> R) x p p' : prox_vi D g x p -> prox_vi D g x p' -> p = p'.
Proof.
  intros [D1 V1] [D2 V2]. specialize (V1 _ D2). specialize (V2 _ D1).
  apply nsq_sub_0. pose proof (nsq_pos (p - p')%v).
  assert (E : inner (x - p)%v (p' - p)%v + inner (x - p')%v (p - p')%v = nsq (p - p')%v).
  { iexpand. rewrite (inner_sym H p' p). ring. }
  lra.
Qed.

Lemma prox_vi_nonexpansive {H : ips} D (g : H -> R) x y p q :
  prox_vi D g x p -> prox_vi D g y q -> nsq (p - q)%v <= inner (x - y)%v (p - q)%v.
Proof.
  intros [D1 V1] [D2 V2]. specialize (V1 _ D2). specialize (V2 _ D1).
  assert (E : inner (x - p)%v (q - p)%v + inner (y - q)%v (p - q)%v = nsq (p - q)%v - inner (x - y)%v (p - q)%v).
  { iexpand. rewrite (inner_sym H q p). ring. }
  lra.
Qed.
