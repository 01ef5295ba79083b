From Verif Require Import NPReal Py Model_Array Spec_SVD.
From Coq Require Import List Lia.
Import ListNotations.
Local Open Scope R_scope.

(** * Finite sums *)
Lemma bsum_ext n f g : (forall i, (i < n)%nat -> f i = g i) -> bsum n f = bsum n g.
Proof. induction n as [|n IH]; intros H; cbn; [reflexivity|]. rewrite IH, H by (intros; try apply H; lia). reflexivity. Qed.
Lemma bsum_0 n f : (forall i, (i < n)%nat -> f i = 0) -> bsum n f = 0.
Proof. induction n as [|n IH]; intros H; cbn; [reflexivity|]. rewrite IH, H by (intros; try apply H; lia). lra. Qed.
Lemma bsum_plus n f g : bsum n (fun i => f i + g i) = bsum n f + bsum n g.
Proof. induction n as [|n IH]; cbn; [lra|]. rewrite IH. lra. Qed.
Lemma bsum_minus n f g : bsum n (fun i => f i - g i) = bsum n f - bsum n g.
Proof. induction n as [|n IH]; cbn; [lra|]. rewrite IH. lra. Qed.
Lemma bsum_scal n c f : bsum n (fun i => c * f i) = c * bsum n f.
Proof. induction n as [|n IH]; cbn; [lra|]. rewrite IH. lra. Qed.
Lemma bsum_scal_r n c f : bsum n (fun i => f i * c) = bsum n f * c.
Proof. induction n as [|n IH]; cbn; [lra|]. rewrite IH. lra. Qed.
Lemma bsum_const n c : bsum n (fun _ => c) = INR n * c.
Proof. induction n as [|n IH]; [cbn; lra|]. cbn [bsum]. rewrite IH, S_INR. lra. Qed.
Lemma bsum_le n f g : (forall i, (i < n)%nat -> f i <= g i) -> bsum n f <= bsum n g.
Proof. induction n as [|n IH]; intros H; cbn; [lra|]. pose proof (H n ltac:(lia)). assert (bsum n f <= bsum n g) by (apply IH; intros; apply H; lia). lra. Qed.
Lemma bsum_nonneg n f : (forall i, (i < n)%nat -> 0 <= f i) -> 0 <= bsum n f.
Proof. intros H. rewrite <- (bsum_0 n (fun _ => 0)) by reflexivity. apply bsum_le, H. Qed.
Lemma bsum_swap m n f : bsum m (fun i => bsum n (fun j => f i j)) = bsum n (fun j => bsum m (fun i => f i j)).
Proof.
  induction m as [|m IH]; cbn; [symmetry; apply bsum_0; reflexivity|]. rewrite IH, <- bsum_plus. reflexivity.
Qed.
Lemma bsum_delta n j f : (j < n)%nat -> bsum n (fun i => if Nat.eqb i j then f i else 0) = f j.
Proof.
  induction n as [|n IH]; intros H; [lia|]. cbn. destruct (Nat.eqb_spec n j) as [->|N].
  - rewrite bsum_0; [lra|]. intros i Hi. destruct (Nat.eqb_spec i j); [lia|reflexivity].
  - rewrite IH by lia. lra.
Qed.
Lemma bsum_split n k f : bsum (n + k) f = bsum n f + bsum k (fun i => f (n + i)%nat).
Proof. induction k as [|k IH]; [rewrite Nat.add_0_r; cbn; lra|]. rewrite Nat.add_succ_r. cbn. rewrite IH. lra. Qed.
Lemma bsum_eq0 n f : (forall i, (i < n)%nat -> 0 <= f i) -> bsum n f = 0 -> forall i, (i < n)%nat -> f i = 0.
Proof.
  induction n as [|n IH]; intros P E i Hi; [lia|]. cbn in E. assert (0 <= bsum n f) by (apply bsum_nonneg; intros; apply P; lia).
  pose proof (P n ltac:(lia)). destruct (Nat.eq_dec i n) as [->|N]; [lra|]. apply IH; [intros; apply P; lia|lra|lia].
Qed.
Lemma bsum_sq n f g : bsum n f * bsum n g = bsum n (fun i => bsum n (fun j => f i * g j)).
Proof. rewrite <- bsum_scal_r. apply bsum_ext. intros i _. rewrite <- bsum_scal. reflexivity. Qed.

(** * Inner products *)
Lemma dotv_sym n x y : dotv n x y = dotv n y x.
Proof. apply bsum_ext. intros; ring. Qed.
Lemma dotv_nonneg n x : 0 <= dotv n x x.
Proof. apply bsum_nonneg. intros. nra. Qed.
Lemma dotv_zero n x : dotv n x x = 0 -> forall i, (i < n)%nat -> x i = 0.
Proof. intros E i Hi. pose proof (bsum_eq0 n _ (fun j _ => Rle_0_sqr (x j)) E i Hi) as Q. cbn in Q. unfold Rsqr in Q. nra. Qed.
Lemma dotv_lin_l n k c u y : dotv n (fun i => bsum k (fun l => c l * u l i)) y = bsum k (fun l => c l * dotv n (u l) y).
Proof.
  unfold dotv. transitivity (bsum n (fun i => bsum k (fun l => c l * u l i * y i))).
  - apply bsum_ext. intros i _. rewrite <- bsum_scal_r. reflexivity.
  - rewrite bsum_swap. apply bsum_ext. intros l _. rewrite <- bsum_scal. apply bsum_ext. intros; ring.
Qed.
Lemma dotv_sub_l n x y z : dotv n (fun i => x i - y i) z = dotv n x z - dotv n y z.
Proof. unfold dotv. rewrite <- bsum_minus. apply bsum_ext. intros; ring. Qed.

(** Orthogonal vectors of norm 0 or 1. *)
Definition ortho01 (m k : nat) (u : nat -> nat -> R) : Prop :=
  forall l l', (l < k)%nat -> (l' < k)%nat -> (l <> l' -> dotv m (u l) (u l') = 0) /\ (dotv m (u l) (u l) = 0 \/ dotv m (u l) (u l) = 1).
Lemma orthonormal_01 m k u : orthonormal m k u -> ortho01 m k u.
Proof.
  intros O l l' H H'. split; [intros N; rewrite O by assumption; destruct (Nat.eqb_spec l l'); [contradiction|reflexivity]|].
  right. rewrite O by assumption. rewrite Nat.eqb_refl. reflexivity.
Qed.
Lemma bessel m k u a : ortho01 m k u -> bsum k (fun l => dotv m a (u l) * dotv m a (u l)) <= dotv m a a.
Proof.
  intros O. set (al := fun l => dotv m a (u l)). set (p := fun i => bsum k (fun l => al l * u l i)).
  pose proof (dotv_nonneg m (fun i => a i - p i)) as P.
  rewrite dotv_sub_l, (dotv_sym m a), (dotv_sym m p), !dotv_sub_l, (dotv_sym m a p) in P.
  assert (E1 : dotv m p a = bsum k (fun l => al l * al l)).
  { unfold p. rewrite dotv_lin_l. apply bsum_ext. intros l _. rewrite (dotv_sym m (u l) a). reflexivity. }
  assert (E2 : dotv m p p = bsum k (fun l => al l * al l)).
  { unfold p at 1. rewrite dotv_lin_l. apply bsum_ext. intros l Hl. rewrite dotv_sym. unfold p. rewrite dotv_lin_l.
    rewrite (bsum_ext k _ (fun l' => if Nat.eqb l' l then al l * dotv m (u l) (u l) else 0)).
    - rewrite (bsum_delta k l (fun _ => al l * dotv m (u l) (u l)) Hl). destruct (proj2 (O l l Hl Hl)) as [Z|Z]; rewrite Z; [|ring].
      assert (A0 : al l = 0). { unfold al. apply bsum_0. intros i Hi. rewrite (dotv_zero m (u l) Z i Hi). ring. } rewrite A0. ring.
    - intros l' Hl'. destruct (Nat.eqb_spec l' l) as [->|N]; [reflexivity|]. rewrite (proj1 (O l' l Hl' Hl) N). ring. }
  rewrite E1, E2 in P. unfold al in *. lra.
Qed.

(** * Matrices *)
Lemma frob_sym m n A B : frob m n A B = frob m n B A.
Proof. apply bsum_ext. intros i _. apply bsum_ext. intros; ring. Qed.
Lemma frob_ext m n A A' B B' : mat_eq m n A A' -> mat_eq m n B B' -> frob m n A B = frob m n A' B'.
Proof. intros E E'. apply bsum_ext. intros i Hi. apply bsum_ext. intros j Hj. rewrite E, E' by assumption. reflexivity. Qed.
Lemma frob_sub_l m n A B C : frob m n (fun i j => A i j - B i j) C = frob m n A C - frob m n B C.
Proof. unfold frob. rewrite <- bsum_minus. apply bsum_ext. intros i _. rewrite <- bsum_minus. apply bsum_ext. intros; ring. Qed.
Lemma frob_sub_r m n A B C : frob m n C (fun i j => A i j - B i j) = frob m n C A - frob m n C B.
Proof. rewrite !(frob_sym m n C). apply frob_sub_l. Qed.
Lemma frob_scal_l m n c A B : frob m n (fun i j => c * A i j) B = c * frob m n A B.
Proof. unfold frob. rewrite <- bsum_scal. apply bsum_ext. intros i _. rewrite <- bsum_scal. apply bsum_ext. intros; ring. Qed.
Lemma frob_add_l m n A B C : frob m n (fun i j => A i j + B i j) C = frob m n A C + frob m n B C.
Proof. unfold frob. rewrite <- bsum_plus. apply bsum_ext. intros i _. rewrite <- bsum_plus. apply bsum_ext. intros; ring. Qed.
Lemma frob_nonneg m n A : 0 <= frob m n A A.
Proof. apply bsum_nonneg. intros i _. apply bsum_nonneg. intros j _. nra. Qed.
Lemma frob_zero m n A : frob m n A A = 0 -> mat_eq m n A (fun _ _ => 0).
Proof.
  intros E i j Hi Hj. assert (Q : bsum n (fun j => A i j * A i j) = 0).
  { apply (bsum_eq0 m (fun i => bsum n (fun j => A i j * A i j))); [|exact E|exact Hi]. intros i' _. apply bsum_nonneg. intros; nra. }
  pose proof (bsum_eq0 n _ (fun j _ => Rle_0_sqr (A i j)) Q j Hj) as Z. cbn in Z. unfold Rsqr in Z. nra.
Qed.
Lemma dist2_expand m n A B : dist2 m n A B = frob m n A A - 2 * frob m n A B + frob m n B B.
Proof. unfold dist2. rewrite frob_sub_l, !frob_sub_r, (frob_sym m n B A). ring. Qed.
Lemma dist2_nonneg m n A B : 0 <= dist2 m n A B.
Proof. apply frob_nonneg. Qed.
Lemma dist2_zero m n A B : dist2 m n A B = 0 -> mat_eq m n A B.
Proof. intros E i j Hi Hj. pose proof (frob_zero m n _ E i j Hi Hj). cbn in *. lra. Qed.
Lemma dist2_ext m n A A' B B' : mat_eq m n A A' -> mat_eq m n B B' -> dist2 m n A B = dist2 m n A' B'.
Proof. intros E E'. apply frob_ext; intros i j Hi Hj; rewrite E, E' by assumption; reflexivity. Qed.
Lemma dist2_sym m n A B : dist2 m n A B = dist2 m n B A.
Proof. rewrite !dist2_expand, (frob_sym m n B A). ring. Qed.
Lemma bil_ext m n x A A' y : mat_eq m n A A' -> bil m n x A y = bil m n x A' y.
Proof. intros E. apply bsum_ext. intros i Hi. apply bsum_ext. intros j Hj. rewrite E by assumption. reflexivity. Qed.
Lemma bil_scal m n c x A y : bil m n x (fun i j => c * A i j) y = c * bil m n x A y.
Proof. unfold bil. rewrite <- bsum_scal. apply bsum_ext. intros i _. rewrite <- bsum_scal. apply bsum_ext. intros; ring. Qed.

Lemma frob_lc m n k s u v B : frob m n (lc k s u v) B = bsum k (fun l => s l * bil m n (u l) B (v l)).
Proof.
  unfold frob, lc, bil. transitivity (bsum m (fun i => bsum k (fun l => bsum n (fun j => s l * (u l i * B i j * v l j))))).
  - apply bsum_ext. intros i _. rewrite <- bsum_swap. apply bsum_ext. intros j _. rewrite <- bsum_scal_r. apply bsum_ext. intros; ring.
  - rewrite bsum_swap. apply bsum_ext. intros l _. rewrite <- bsum_scal. apply bsum_ext. intros i _. rewrite <- bsum_scal. reflexivity.
Qed.
Lemma bil_lc m n k s u v x y : bil m n x (lc k s u v) y = bsum k (fun l => s l * dotv m x (u l) * dotv n (v l) y).
Proof.
  unfold bil, lc. transitivity (bsum m (fun i => bsum k (fun l => bsum n (fun j => s l * (x i * u l i) * (v l j * y j))))).
  - apply bsum_ext. intros i _. rewrite <- bsum_swap. apply bsum_ext. intros j _.
    transitivity (bsum k (fun l => (x i * y j) * (s l * u l i * v l j))); [rewrite bsum_scal; ring|]. apply bsum_ext. intros; ring.
  - rewrite bsum_swap. apply bsum_ext. intros l _. unfold dotv.
    transitivity (bsum m (fun i => (x i * u l i) * (s l * bsum n (fun j => v l j * y j)))).
    + apply bsum_ext. intros i _. rewrite <- !bsum_scal. apply bsum_ext. intros; ring.
    + rewrite bsum_scal_r. ring.
Qed.
(** <sum s u v, sum t u v> = sum s t for orthonormal u, v. *)
Lemma bil_ON m n k t u v l : orthonormal m k u -> orthonormal n k v -> (l < k)%nat -> bil m n (u l) (lc k t u v) (v l) = t l.
Proof.
  intros Ou Ov Hl. rewrite bil_lc. rewrite (bsum_ext k _ (fun l' => if Nat.eqb l' l then t l' else 0)); [apply bsum_delta, Hl|].
  intros l' Hl'. rewrite Ou, Ov by assumption. rewrite (Nat.eqb_sym l l'). destruct (Nat.eqb l' l); ring.
Qed.
Lemma frob_ON m n k s t u v : orthonormal m k u -> orthonormal n k v -> frob m n (lc k s u v) (lc k t u v) = bsum k (fun l => s l * t l).
Proof. intros Ou Ov. rewrite frob_lc. apply bsum_ext. intros l Hl. rewrite bil_ON by assumption. reflexivity. Qed.
Lemma lc_sub k s t u v i j : lc k s u v i j - lc k t u v i j = lc k (fun l => s l - t l) u v i j.
Proof. unfold lc. rewrite <- bsum_minus. apply bsum_ext. intros; ring. Qed.
Lemma dist2_ON m n k s t u v : orthonormal m k u -> orthonormal n k v ->
  dist2 m n (lc k s u v) (lc k t u v) = bsum k (fun l => (s l - t l) * (s l - t l)).
Proof.
  intros Ou Ov. unfold dist2. transitivity (frob m n (lc k (fun l => s l - t l) u v) (lc k (fun l => s l - t l) u v)); [|apply frob_ON; assumption].
  apply frob_ext; intros i j _ _; apply lc_sub.
Qed.

(** A combination with coefficients in [0, c] has spectral norm at most c. *)
Lemma bil_bound m n k w u v c x y : ortho01 m k u -> ortho01 n k v -> 0 <= c -> (forall l, (l < k)%nat -> 0 <= w l <= c) ->
  dotv m x x <= 1 -> dotv n y y <= 1 -> bil m n x (lc k w u v) y <= c.
Proof.
  intros Ou Ov Hc W Hx Hy. rewrite bil_lc.
  pose proof (bessel m k u x Ou) as Bx. pose proof (bessel n k v y Ov) as By.
  apply Rle_trans with (c * ((bsum k (fun l => dotv m x (u l) * dotv m x (u l)) + bsum k (fun l => dotv n y (v l) * dotv n y (v l))) / 2)).
  - rewrite <- bsum_plus. unfold Rdiv. rewrite <- bsum_scal_r, <- bsum_scal. apply bsum_le. intros l Hl. rewrite (dotv_sym n (v l) y).
    set (a := dotv m x (u l)). set (b := dotv n y (v l)). specialize (W l Hl). set (z := w l) in *. clearbody a b z. clear -W Hc.
    assert (0 <= (a - b) * (a - b)) by apply Rle_0_sqr. assert (0 <= (a + b) * (a + b)) by apply Rle_0_sqr.
    assert (z * a * b <= z * ((a * a + b * b) * / 2)) by nra. assert (0 <= a * a + b * b) by nra. nra.
  - nra.
Qed.

Lemma nuclear_upper m n X k s u v W : mat_eq m n X (lc k s u v) -> orthonormal m k u -> orthonormal n k v -> (forall l, (l < k)%nat -> 0 <= s l) ->
  contraction m n W -> frob m n X W <= bsum k s.
Proof.
  intros E Ou Ov Ps CW. rewrite (frob_ext m n X (lc k s u v) W W E (fun _ _ _ _ => eq_refl)), frob_lc. apply bsum_le. intros l Hl.
  assert (B : bil m n (u l) W (v l) <= 1) by (apply CW; rewrite ?Ou, ?Ov, Nat.eqb_refl by assumption; lra).
  specialize (Ps l Hl). nra.
Qed.
Lemma nuclear_of_svd m n X k s u v : mat_eq m n X (lc k s u v) -> orthonormal m k u -> orthonormal n k v -> (forall l, (l < k)%nat -> 0 <= s l) ->
  is_nuclear m n X (bsum k s).
Proof.
  intros E Ou Ov Ps. split.
  - intros r (W & CW & ->). eapply nuclear_upper; eassumption.
  - intros b Hb. apply Hb. exists (lc k (fun _ => 1) u v). split.
    + intros x y Hx Hy. apply bil_bound; try assumption; try lra; try (apply orthonormal_01; assumption). intros; lra.
    + rewrite (frob_ext m n X (lc k s u v) _ (lc k (fun _ => 1) u v) E (fun _ _ _ _ => eq_refl)), frob_ON by assumption. apply bsum_ext. intros; ring.
Qed.
Lemma nuclear_unique m n X c c' : is_nuclear m n X c -> is_nuclear m n X c' -> c = c'.
Proof. intros [A B] [A' B']. apply Rle_antisym; [apply B, A'|apply B', A]. Qed.

(** Singular value shrinkage is the proximity operator of t times the nuclear norm. *)
Lemma soft_prox m n X k s p u v t Z c : mat_eq m n X (lc k s u v) -> orthonormal m k u -> orthonormal n k v ->
  0 <= t -> (forall l, (l < k)%nat -> 0 <= p l /\ 0 <= s l - p l <= t /\ p l * (s l - p l) = t * p l) ->
  is_nuclear m n Z c ->
  dist2 m n (lc k p u v) X / 2 + t * bsum k p + dist2 m n Z (lc k p u v) / 2 <= dist2 m n Z X / 2 + t * c.
Proof.
  intros E Ou Ov Ht Hp [N _].
  set (P := lc k p u v). set (W := lc k (fun l => s l - p l) u v).
  assert (EX : mat_eq m n X (fun i j => P i j + W i j)).
  { intros i j Hi Hj. rewrite (E i j Hi Hj). unfold P, W, lc. rewrite <- bsum_plus. apply bsum_ext. intros; ring. }
  assert (PW : frob m n P W = t * bsum k p).
  { unfold P, W. rewrite frob_ON by assumption. rewrite <- bsum_scal. apply bsum_ext. intros l Hl. apply Hp, Hl. }
  assert (ZW : frob m n Z W <= t * c).
  { destruct (Req_dec t 0) as [T0|T0].
    - replace (frob m n Z W) with 0; [subst t; lra|]. symmetry. apply bsum_0. intros i Hi. apply bsum_0. intros j Hj.
      unfold W, lc. rewrite bsum_0; [ring|]. intros l Hl. destruct (Hp l Hl) as (_ & B & _). replace (s l - p l) with 0 by lra. ring.
    - assert (Pt : 0 < t) by lra. replace (frob m n Z W) with (t * frob m n Z (fun i j => / t * W i j)).
      + apply Rmult_le_compat_l; [lra|]. apply N. exists (fun i j => / t * W i j). split; [|reflexivity].
        intros x y Hx Hy. rewrite bil_scal. apply Rmult_le_reg_l with t; [exact Pt|]. rewrite <- Rmult_assoc, Rinv_r, Rmult_1_l, Rmult_1_r by lra.
        apply bil_bound; try assumption; try lra; try (apply orthonormal_01; assumption). intros l Hl. apply Hp, Hl.
      + rewrite (frob_sym m n Z), (frob_sym m n Z), frob_scal_l. field. lra. }
  rewrite !(dist2_ext m n _ _ X (fun i j => P i j + W i j)) by (try exact EX; intros i j _ _; reflexivity).
  rewrite !dist2_expand. rewrite !(frob_sym m n _ (fun i j => P i j + W i j)), !frob_add_l, !(frob_sym m n _ (fun i j => P i j + W i j)), !frob_add_l.
  rewrite (frob_sym m n W P), (frob_sym m n W Z), (frob_sym m n P Z), PW. fold P. lra.
Qed.

(** * Low-rank approximation *)
Lemma dotv_ON n k a v : orthonormal n k v ->
  dotv n (fun j => bsum k (fun l => a l * v l j)) (fun j => bsum k (fun l => a l * v l j)) = bsum k (fun l => a l * a l).
Proof.
  intros O. rewrite dotv_lin_l. apply bsum_ext. intros l Hl. rewrite dotv_sym, dotv_lin_l.
  rewrite (bsum_ext k _ (fun l' => if Nat.eqb l' l then a l' else 0)); [rewrite bsum_delta by exact Hl; reflexivity|].
  intros l' Hl'. rewrite O by assumption. destruct (Nat.eqb l' l); ring.
Qed.
Lemma bil_dot m n x A y : bil m n x A y = dotv n (fun j => bsum m (fun i => x i * A i j)) y.
Proof. unfold bil, dotv. rewrite bsum_swap. apply bsum_ext. intros j _. rewrite <- bsum_scal_r. reflexivity. Qed.

(** Gram-Schmidt on the columns of a low-rank matrix. *)
Lemma orthogonalise m r (e d : nat -> nat -> R) : exists f c, ortho01 m r f /\
  forall i j, (i < m)%nat -> bsum r (fun l => e l i * d l j) = lc r (fun _ => 1) f c i j.
Proof.
  induction r as [|r IH].
  - exists e, d. split; [intros l l' H; lia|]. reflexivity.
  - destruct IH as (f & c & O & E).
    set (p := fun l => dotv m (e r) (f l)). set (q := fun i => bsum r (fun l => p l * f l i)). set (w := fun i => e r i - q i).
    assert (Ow : forall l, (l < r)%nat -> dotv m w (f l) = 0).
    { intros l Hl. unfold w. rewrite dotv_sub_l. unfold q. rewrite dotv_lin_l.
      rewrite (bsum_ext r _ (fun l' => if Nat.eqb l' l then p l' * dotv m (f l') (f l') else 0)).
      - rewrite bsum_delta by exact Hl. fold (p l). destruct (proj2 (O l l Hl Hl)) as [Z|Z]; rewrite Z; [|ring].
        replace (p l) with 0; [ring|]. symmetry. apply bsum_0. intros i Hi. rewrite (dotv_zero m (f l) Z i Hi). ring.
      - intros l' Hl'. destruct (Nat.eqb_spec l' l) as [->|N]; [reflexivity|]. rewrite (proj1 (O l' l Hl' Hl) N). ring. }
    assert (G : exists g nu, (forall i, (i < m)%nat -> w i = nu * g i) /\ (forall l, (l < r)%nat -> dotv m g (f l) = 0) /\ (dotv m g g = 0 \/ dotv m g g = 1)).
    { destruct (Req_dec (dotv m w w) 0) as [Z|Z].
      - exists w, 1. split; [intros; ring|]. split; [exact Ow|left; exact Z].
      - assert (Pz : 0 < dotv m w w) by (pose proof (dotv_nonneg m w); lra). pose proof (sqrt_lt_R0 _ Pz) as Ps. pose proof (sqrt_sqrt _ (Rlt_le _ _ Pz)) as Es.
        set (nu := sqrt (dotv m w w)) in *. exists (fun i => / nu * w i), nu. split; [intros i _; field; lra|]. split.
        + intros l Hl. transitivity (/ nu * dotv m w (f l)); [|rewrite Ow by exact Hl; ring]. unfold dotv. rewrite <- bsum_scal. apply bsum_ext. intros; ring.
        + right. transitivity (/ nu * / nu * dotv m w w); [|rewrite <- Es; field; lra]. unfold dotv. rewrite <- bsum_scal. apply bsum_ext. intros; ring. }
    destruct G as (g & nu & Eg & Og & Ng).
    exists (fun l => if Nat.eqb l r then g else f l), (fun l j => if Nat.eqb l r then nu * d r j else c l j + p l * d r j). split.
    + intros l l' Hl Hl'. split.
      * intros N. destruct (Nat.eqb_spec l r) as [->|Nl]; [destruct (Nat.eqb_spec l' r); [lia|apply Og; lia]|].
        destruct (Nat.eqb_spec l' r) as [->|Nl']; [rewrite dotv_sym; apply Og; lia|]. apply O; lia.
      * destruct (Nat.eqb_spec l r) as [->|Nl]; [exact Ng|]. apply (O l l); lia.
    + intros i j Hi. unfold lc. cbn [bsum]. rewrite Nat.eqb_refl, (E i j Hi). unfold lc.
      rewrite (bsum_ext r (fun l => 1 * (if Nat.eqb l r then g else f l) i * (if Nat.eqb l r then nu * d r j else c l j + p l * d r j))
                 (fun l => 1 * f l i * c l j + (p l * f l i) * d r j)).
      * rewrite bsum_plus, bsum_scal_r. fold (q i). assert (Q : e r i = q i + nu * g i) by (rewrite <- Eg by exact Hi; unfold w; ring). rewrite Q. ring.
      * intros l Hl. destruct (Nat.eqb_spec l r); [lia|]. ring.
Qed.

Definition weight (m r : nat) (f : nat -> nat -> R) (x : nat -> R) : R := bsum r (fun l => dotv m x (f l) * dotv m x (f l)).

Lemma low_rank_bound m n X k s u v r f c : mat_eq m n X (lc k s u v) -> orthonormal m k u -> orthonormal n k v -> ortho01 m r f ->
  bsum k (fun l => s l * s l * (1 - weight m r f (u l))) <= dist2 m n X (lc r (fun _ => 1) f c).
Proof.
  intros E Ou Ov Of. rewrite dist2_expand.
  set (g := fun l j => bsum m (fun i => f l i * X i j)).
  assert (XX : frob m n X X = bsum k (fun l => s l * s l)).
  { rewrite (frob_ext m n X (lc k s u v) X (lc k s u v) E E). apply frob_ON; assumption. }
  assert (XB : frob m n X (lc r (fun _ => 1) f c) = bsum r (fun l => dotv n (g l) (c l))).
  { rewrite frob_sym, frob_lc. apply bsum_ext. intros l _. rewrite bil_dot. fold (g l). unfold g. ring. }
  assert (BB : frob m n (lc r (fun _ => 1) f c) (lc r (fun _ => 1) f c) = bsum r (fun l => dotv m (f l) (f l) * dotv n (c l) (c l))).
  { rewrite frob_lc. apply bsum_ext. intros l Hl. rewrite bil_lc, Rmult_1_l.
    rewrite (bsum_ext r _ (fun l' => if Nat.eqb l' l then dotv m (f l) (f l) * dotv n (c l) (c l) else 0)).
    - apply (bsum_delta r l (fun _ => dotv m (f l) (f l) * dotv n (c l) (c l)) Hl).
    - intros l' Hl'. destruct (Nat.eqb_spec l' l) as [->|N]; [ring|]. rewrite (proj1 (Of l l' Hl Hl')) by congruence. ring. }
  assert (GG : forall l, (l < r)%nat -> dotv n (g l) (g l) = bsum k (fun a => s a * s a * (dotv m (u a) (f l) * dotv m (u a) (f l)))).
  { intros l Hl. transitivity (dotv n (fun j => bsum k (fun a => (s a * dotv m (u a) (f l)) * v a j)) (fun j => bsum k (fun a => (s a * dotv m (u a) (f l)) * v a j))).
    - apply bsum_ext. intros j Hj. assert (Q : g l j = bsum k (fun a => s a * dotv m (u a) (f l) * v a j)); [|rewrite Q; reflexivity].
      unfold g. transitivity (bsum m (fun i => bsum k (fun a => s a * (u a i * f l i) * v a j))).
      + apply bsum_ext. intros i Hi. rewrite (E i j Hi Hj). unfold lc. rewrite <- bsum_scal. apply bsum_ext. intros; ring.
      + rewrite bsum_swap. apply bsum_ext. intros a _. rewrite bsum_scal_r. f_equal. rewrite bsum_scal. reflexivity.
    - rewrite dotv_ON by exact Ov. apply bsum_ext. intros; ring. }
  assert (T : bsum r (fun l => - dotv n (g l) (g l)) <= bsum r (fun l => dotv m (f l) (f l) * dotv n (c l) (c l)) - 2 * bsum r (fun l => dotv n (g l) (c l))).
  { rewrite <- bsum_scal, <- bsum_minus. apply bsum_le. intros l Hl. destruct (proj2 (Of l l Hl Hl)) as [Z|Z]; rewrite Z.
    - assert (G0 : forall j, g l j = 0). { intros j. apply bsum_0. intros i Hi. rewrite (dotv_zero m (f l) Z i Hi). ring. }
      assert (A1 : dotv n (g l) (g l) = 0) by (apply bsum_0; intros j _; rewrite G0; ring).
      assert (A2 : dotv n (g l) (c l) = 0) by (apply bsum_0; intros j _; rewrite G0; ring). lra.
    - pose proof (dotv_nonneg n (fun j => g l j - c l j)) as P. rewrite dotv_sub_l, (dotv_sym n (g l)), (dotv_sym n (c l)), !dotv_sub_l, (dotv_sym n (c l) (g l)) in P. lra. }
  assert (S1 : bsum k (fun l => s l * s l * (1 - weight m r f (u l))) = bsum k (fun l => s l * s l) + bsum r (fun l => - dotv n (g l) (g l))).
  { transitivity (bsum k (fun l => s l * s l) - bsum k (fun a => bsum r (fun l => s a * s a * (dotv m (u a) (f l) * dotv m (u a) (f l))))).
    - rewrite <- bsum_minus. apply bsum_ext. intros a _. unfold weight. rewrite (bsum_scal r (s a * s a)). ring.
    - rewrite bsum_swap. unfold Rminus. f_equal. rewrite (bsum_ext r (fun l => - dotv n (g l) (g l)) (fun l => -1 * bsum k (fun a => s a * s a * (dotv m (u a) (f l) * dotv m (u a) (f l))))) by (intros l Hl; rewrite GG by exact Hl; ring). rewrite bsum_scal. ring. }
  lra.
Qed.

Lemma weight_bounds m k r f u l : orthonormal m k u -> ortho01 m r f -> (l < k)%nat -> 0 <= weight m r f (u l) <= 1.
Proof.
  intros Ou Of Hl. split; [apply bsum_nonneg; intros; apply Rle_0_sqr|]. unfold weight. eapply Rle_trans; [apply bessel, Of|].
  rewrite Ou, Nat.eqb_refl by assumption. lra.
Qed.
Lemma weight_total m k r f u : orthonormal m k u -> ortho01 m r f -> bsum k (fun l => weight m r f (u l)) <= INR r.
Proof.
  intros Ou Of. unfold weight. rewrite bsum_swap. rewrite <- (Rmult_1_r (INR r)), <- bsum_const. apply bsum_le. intros l Hl.
  apply Rle_trans with (dotv m (f l) (f l)); [|destruct (proj2 (Of l l Hl Hl)) as [-> | ->]; lra].
  eapply Rle_trans; [|apply (bessel m k u (f l)), orthonormal_01, Ou]. right. apply bsum_ext. intros a _. rewrite (dotv_sym m (u a)). reflexivity.
Qed.

(** Eckart-Young, penalised and constrained. *)
Lemma hard_bound m n X k s u v r B t : mat_eq m n X (lc k s u v) -> orthonormal m k u -> orthonormal n k v -> rank_le m n r B ->
  bsum k (fun l => Rmin (s l * s l) (t * t)) <= dist2 m n X B + t * t * INR r.
Proof.
  intros E Ou Ov (e & d & EB). destruct (orthogonalise m r e d) as (f & c & Of & Efc).
  rewrite (dist2_ext m n X X B (lc r (fun _ => 1) f c)); [|intros i j _ _; reflexivity|intros i j Hi Hj; rewrite EB by assumption; apply Efc, Hi].
  pose proof (low_rank_bound m n X k s u v r f c E Ou Ov Of) as L. pose proof (weight_total m k r f u Ou Of) as T.
  apply Rle_trans with (bsum k (fun l => s l * s l * (1 - weight m r f (u l))) + t * t * bsum k (fun l => weight m r f (u l))).
  - rewrite <- bsum_scal, <- bsum_plus. apply bsum_le. intros l Hl. pose proof (weight_bounds m k r f u l Ou Of Hl) as W.
    set (w := weight _ _ _ _) in *. clearbody w. pose proof (Rmin_l (s l * s l) (t * t)). pose proof (Rmin_r (s l * s l) (t * t)). nra.
  - assert (0 <= t * t) by apply Rle_0_sqr. nra.
Qed.
Lemma eckart_young m n X k s u v r B : mat_eq m n X (lc k s u v) -> orthonormal m k u -> orthonormal n k v ->
  (forall l, (l < k)%nat -> 0 <= s l) -> (forall l l', (l <= l')%nat -> (l' < k)%nat -> s l' <= s l) -> rank_le m n r B -> (r < k)%nat ->
  bsum (k - r) (fun l => s (r + l)%nat * s (r + l)%nat) <= dist2 m n X B.
Proof.
  intros E Ou Ov Ps Ms RB Hr. pose proof (hard_bound m n X k s u v r B (s r) E Ou Ov RB) as H.
  replace k with (r + (k - r))%nat in H at 1 by lia. rewrite bsum_split in H.
  rewrite (bsum_ext r _ (fun _ => s r * s r)) in H.
  - rewrite bsum_const in H. rewrite (bsum_ext (k - r) _ (fun l => s (r + l)%nat * s (r + l)%nat)) in H; [lra|].
    intros l Hl. apply Rmin_left. pose proof (Ps (r + l)%nat ltac:(lia)). pose proof (Ms r (r + l)%nat ltac:(lia) ltac:(lia)). nra.
  - intros l Hl. apply Rmin_right. pose proof (Ps r Hr). pose proof (Ms l r ltac:(lia) Hr). nra.
Qed.
