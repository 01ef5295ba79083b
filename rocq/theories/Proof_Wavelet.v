(** Proofs about the Haar transform and the regrouping of coefficients. *)
From Verif Require Import NPReal Py Model_Linear Proof_Linear Model_Wavelet Spec_Wavelet.
From Coq Require Import List Lia.
Import ListNotations.
Local Open Scope R_scope.

Lemma s2 : sqrt 2 * sqrt 2 = 2.
Proof. apply sqrt_sqrt. lra. Qed.
Lemma s2_nz : sqrt 2 <> 0.
Proof. intros E. pose proof s2. rewrite E in *. lra. Qed.
Lemma half_back u v : ((u + v) / sqrt 2 + (u - v) / sqrt 2) / sqrt 2 = u.
Proof. pose proof s2. pose proof s2_nz. apply (Rmult_eq_reg_r (sqrt 2 * sqrt 2)); [|rewrite H; lra]. field_simplify; [|assumption]. rewrite <- Rsqr_pow2. unfold Rsqr. rewrite H. ring. Qed.
Lemma half_back' u v : ((u + v) / sqrt 2 - (u - v) / sqrt 2) / sqrt 2 = v.
Proof. pose proof s2. pose proof s2_nz. apply (Rmult_eq_reg_r (sqrt 2 * sqrt 2)); [|rewrite H; lra]. field_simplify; [|assumption]. rewrite <- Rsqr_pow2. unfold Rsqr. rewrite H. ring. Qed.

Lemma half_bounds n : (n <= 2 * half n <= n + 1)%nat.
Proof. unfold half. pose proof (Nat.div_mod (n + 1) 2 ltac:(lia)). pose proof (Nat.mod_upper_bound (n + 1) 2 ltac:(lia)). lia. Qed.
Lemma half_even m : half (2 * m) = m.
Proof. pose proof (half_bounds (2 * m)). lia. Qed.
Lemma half_lt n m : (m < n)%nat -> (m / 2 < half n)%nat.
Proof. intros H. pose proof (half_bounds n). pose proof (Nat.div_mod m 2 ltac:(lia)). lia. Qed.
Lemma parity m : (Nat.even m = true /\ m = 2 * (m / 2))%nat \/ (Nat.even m = false /\ m = 2 * (m / 2) + 1)%nat.
Proof.
  destruct (Nat.even m) eqn:E; [left|right]; (split; [reflexivity|]).
  - apply Nat.even_spec in E. destruct E as (k & ->). rewrite Nat.mul_comm, Nat.div_mul by lia. lia.
  - assert (O : Nat.odd m = true) by (rewrite <- Nat.negb_even, E; reflexivity). apply Nat.odd_spec in O. destruct O as (k & ->).
    replace ((2 * k + 1) / 2)%nat with k; [lia|]. rewrite Nat.add_comm, Nat.mul_comm, Nat.div_add by lia. reflexivity.
Qed.

(** * One dimension *)

Lemma up_lo_hi n x m : (m < n)%nat -> up (lo n x) (hi n x) m = x m.
Proof.
  intros H. unfold up, lo, hi. destruct (parity m) as [[-> E]|[-> E]].
  - rewrite half_back. f_equal. lia.
  - rewrite half_back'. f_equal. lia.
Qed.
Lemma up_ext a d a' d' m n : (m / 2 < n)%nat -> (forall k, (k < n)%nat -> a k = a' k) -> (forall k, (k < n)%nat -> d k = d' k) -> up a d m = up a' d' m.
Proof. intros H Ha Hd. unfold up. rewrite (Ha _ H), (Hd _ H). reflexivity. Qed.
Lemma lo_ext n x x' k : (k < half n)%nat -> (forall p, (p < n)%nat -> x p = x' p) -> lo n x k = lo n x' k.
Proof. intros H E. pose proof (half_bounds n). unfold lo. rewrite !E by lia. reflexivity. Qed.
Lemma hi_ext n x x' k : (k < half n)%nat -> (forall p, (p < n)%nat -> x p = x' p) -> hi n x k = hi n x' k.
Proof. intros H E. pose proof (half_bounds n). unfold hi. rewrite !E by lia. reflexivity. Qed.

Lemma up_even a d k : up a d (2 * k) = (a k + d k) / sqrt 2.
Proof. unfold up. replace ((2 * k) / 2)%nat with k by (rewrite Nat.mul_comm, Nat.div_mul by lia; reflexivity). rewrite Nat.even_mul. reflexivity. Qed.
Lemma up_odd a d k : up a d (2 * k + 1) = (a k - d k) / sqrt 2.
Proof.
  unfold up. replace ((2 * k + 1) / 2)%nat with k by (rewrite Nat.add_comm, Nat.mul_comm, Nat.div_add by lia; reflexivity).
  rewrite Nat.even_add, Nat.even_mul. reflexivity.
Qed.
Lemma lo_up a d m k : (k < m)%nat -> lo (2 * m) (up a d) k = a k.
Proof. intros H. unfold lo. replace (Nat.min (2 * k + 1) (2 * m - 1)) with (2 * k + 1)%nat by lia. rewrite up_even, up_odd. apply half_back. Qed.
Lemma hi_up a d m k : (k < m)%nat -> hi (2 * m) (up a d) k = d k.
Proof. intros H. unfold hi. replace (Nat.min (2 * k + 1) (2 * m - 1)) with (2 * k + 1)%nat by lia. rewrite up_even, up_odd. apply half_back'. Qed.

Lemma sumn_pairs m f : sumn (2 * m) f = sumn m (fun k => f (2 * k)%nat + f (2 * k + 1)%nat).
Proof.
  induction m as [|m IH]; [reflexivity|]. replace (2 * S m)%nat with (S (S (2 * m))) by lia. cbn [sumn]. rewrite IH.
  replace (S (2 * m)) with (2 * m + 1)%nat by lia. ring.
Qed.
(** On even lengths the two channels are an orthogonal transform. *)
Lemma one_adjoint m x a d : sumn m (fun k => lo (2 * m) x k * a k + hi (2 * m) x k * d k) = sumn (2 * m) (fun p => x p * up a d p).
Proof.
  rewrite sumn_pairs. apply sumn_ext. intros k Hk. rewrite up_even, up_odd. unfold lo, hi.
  replace (Nat.min (2 * k + 1) (2 * m - 1)) with (2 * k + 1)%nat by lia. pose proof s2_nz. field. assumption.
Qed.

Lemma lo_lin n x y s t k : lo n (fun p => s * x p + t * y p) k = s * lo n x k + t * lo n y k.
Proof. unfold lo. pose proof s2_nz. field. assumption. Qed.
Lemma hi_lin n x y s t k : hi n (fun p => s * x p + t * y p) k = s * hi n x k + t * hi n y k.
Proof. unfold hi. pose proof s2_nz. field. assumption. Qed.

(** * Two dimensions *)

Definition dims (b : block) := (rows b, cols b).

Lemma beq_refl b : beq b b.
Proof. split; [reflexivity|]. split; [reflexivity|]. auto. Qed.
Lemma beq_trans a b c : beq a b -> beq b c -> beq a c.
Proof. intros (A & B & C) (D & E & F). split; [congruence|]. split; [congruence|]. intros i j Hi Hj. rewrite C by assumption. apply F; congruence. Qed.
Lemma beq_sym a b : beq a b -> beq b a.
Proof. intros (A & B & C). split; [congruence|]. split; [congruence|]. intros i j Hi Hj. symmetry. apply C; congruence. Qed.

Lemma idwt2_ext a h v d a' h' v' d' : dims h = dims a -> dims v = dims a -> dims d = dims a ->
  beq a a' -> beq h h' -> beq v v' -> beq d d' -> beq (idwt2 a h v d) (idwt2 a' h' v' d').
Proof.
  unfold dims. intros [= H1 H2] [= H3 H4] [= H5 H6] (A1 & A2 & A3) (B1 & B2 & B3) (C1 & C2 & C3) (D1 & D2 & D3).
  split; [cbn; lia|]. split; [cbn; lia|]. cbn [rows cols idwt2 ent]. intros i j Hi Hj.
  assert (Ki : (i / 2 < rows a)%nat) by (apply Nat.div_lt_upper_bound; lia). assert (Kj : (j / 2 < cols a)%nat) by (apply Nat.div_lt_upper_bound; lia).
  apply (up_ext _ _ _ _ _ _ Kj); intros l Hl; apply (up_ext _ _ _ _ _ _ Ki); intros k Hk; [apply A3|apply C3|apply B3|apply D3]; lia.
Qed.

Lemma dwt_ext b b' : beq b b' -> beq (aa b) (aa b') /\ beq (ad b) (ad b') /\ beq (da b) (da b') /\ beq (dd b) (dd b').
Proof.
  intros (A & B & C).
  repeat split; cbn [aa ad da dd rows cols ent]; try congruence; intros i j Hi Hj; rewrite <- A, <- B;
  (apply lo_ext || apply hi_ext); try assumption; intros p Hp; (apply lo_ext || apply hi_ext); try assumption; intros q Hq; apply C; assumption.
Qed.

(** One level, there and back. *)
Lemma idwt_dwt b : forall i j, (i < rows b)%nat -> (j < cols b)%nat -> ent (idwt2 (aa b) (ad b) (da b) (dd b)) i j = ent b i j.
Proof.
  intros i j Hi Hj. cbn [idwt2 ent aa ad da dd].
  rewrite (up_ext _ _ (lo (cols b) (ent b i)) (hi (cols b) (ent b i)) j (half (cols b)) (half_lt _ _ Hj)).
  - apply up_lo_hi. exact Hj.
  - intros l _. exact (up_lo_hi (rows b) (fun p => lo (cols b) (ent b p) l) i Hi).
  - intros l _. exact (up_lo_hi (rows b) (fun p => hi (cols b) (ent b p) l) i Hi).
Qed.
Lemma dwt_idwt a h v d : dims h = dims a -> dims v = dims a -> dims d = dims a ->
  let b := idwt2 a h v d in beq (aa b) a /\ beq (ad b) h /\ beq (da b) v /\ beq (dd b) d.
Proof.
  intros E1 E2 E3 b. unfold dims in *. injection E1 as H1 H2. injection E2 as H3 H4. injection E3 as H5 H6.
  assert (R1 : forall p j, (j < cols a)%nat -> lo (2 * cols a) (ent b p) j = up (fun k => ent a k j) (fun k => ent v k j) p) by (intros p j Hj; exact (lo_up _ _ (cols a) j Hj)).
  assert (R2 : forall p j, (j < cols a)%nat -> hi (2 * cols a) (ent b p) j = up (fun k => ent h k j) (fun k => ent d k j) p) by (intros p j Hj; exact (hi_up _ _ (cols a) j Hj)).
  assert (Rb : rows b = (2 * rows a)%nat) by reflexivity. assert (Cb : cols b = (2 * cols a)%nat) by reflexivity. clearbody b.
  repeat split; cbn [aa ad da dd rows cols ent]; rewrite ?Rb, ?Cb, ?half_even; try lia; intros i j Hi Hj.
  - rewrite (lo_ext _ _ (up (fun k => ent a k j) (fun k => ent v k j)) i); [exact (lo_up _ _ (rows a) i Hi)|rewrite half_even; exact Hi|intros p _; apply R1; exact Hj].
  - rewrite (lo_ext _ _ (up (fun k => ent h k j) (fun k => ent d k j)) i); [exact (lo_up _ _ (rows a) i Hi)|rewrite half_even; exact Hi|intros p _; apply R2; exact Hj].
  - rewrite (hi_ext _ _ (up (fun k => ent a k j) (fun k => ent v k j)) i); [exact (hi_up _ _ (rows a) i Hi)|rewrite half_even; exact Hi|intros p _; apply R1; exact Hj].
  - rewrite (hi_ext _ _ (up (fun k => ent h k j) (fun k => ent d k j)) i); [exact (hi_up _ _ (rows a) i Hi)|rewrite half_even; exact Hi|intros p _; apply R2; exact Hj].
Qed.

(** One level on even sizes is orthogonal. *)
Lemma dwt_adjoint b a h v d m n : rows b = (2 * m)%nat -> cols b = (2 * n)%nat -> rows a = m -> cols a = n ->
  ip (aa b) a + ip (ad b) h + ip (da b) v + ip (dd b) d = ip b (idwt2 a h v d).
Proof.
  intros Hm Hn Ra Ca. unfold ip. cbn [aa ad da dd rows cols ent idwt2]. rewrite Hm, Hn, !half_even.
  set (U := fun p j => lo (2 * n) (ent b p) j). set (V := fun p j => hi (2 * n) (ent b p) j).
  set (P := fun p l => up (fun k => ent a k l) (fun k => ent v k l) p). set (Q := fun p l => up (fun k => ent h k l) (fun k => ent d k l) p).
  transitivity (sumn n (fun j => sumn m (fun i => lo (2 * m) (fun p => U p j) i * ent a i j + hi (2 * m) (fun p => U p j) i * ent v i j) +
                                 sumn m (fun i => lo (2 * m) (fun p => V p j) i * ent h i j + hi (2 * m) (fun p => V p j) i * ent d i j))).
  { rewrite !(sumn_swap m n). rewrite <- !sumn_plus. apply sumn_ext. intros j _. rewrite <- !sumn_plus. apply sumn_ext. intros i _. unfold U, V. ring. }
  transitivity (sumn n (fun j => sumn (2 * m) (fun p => U p j * P p j + V p j * Q p j))).
  { apply sumn_ext. intros j _. rewrite !one_adjoint. rewrite <- sumn_plus. reflexivity. }
  rewrite (sumn_swap n (2 * m)). apply sumn_ext. intros p _. apply (one_adjoint n (ent b p) (P p) (Q p)).
Qed.

(** * Several levels *)

Lemma waverec_app : forall ds a es, (exists k, List.length ds = 3 * k)%nat -> waverec a (ds ++ es) = (do b <- waverec a ds; waverec b es).
Proof.
  fix IH 1. intros [|h [|v [|d ds]]] a es (k & Hk).
  - reflexivity.
  - cbn in Hk. lia.
  - cbn in Hk. lia.
  - cbn [app waverec]. destruct (match_dims a h) as [a'|e]; [|reflexivity]. cbn [bind]. apply IH. exists (k - 1)%nat. cbn in Hk. lia.
Qed.
Definition recl (l : list block) : res block := match l with [] => Err NotModelled | a :: ds => waverec a ds end.
Lemma wavedec_shape L : forall b, exists c ds, wavedec L b = c :: ds /\ (exists k, List.length ds = 3 * k)%nat.
Proof.
  induction L as [|L IH]; intros b; cbn [wavedec]; [exists b, []; split; [reflexivity|exists 0%nat; reflexivity]|].
  destruct (IH (aa b)) as (c & ds & E & k & Hk). rewrite E. exists c, (ds ++ [ad b; da b; dd b]). split; [reflexivity|]. exists (S k). rewrite app_length. cbn. lia.
Qed.
Lemma recl_step l es : (exists c ds, l = c :: ds /\ (exists k, List.length ds = 3 * k)%nat) -> recl (l ++ es) = (do b <- recl l; waverec b es).
Proof. intros (c & ds & -> & K). cbn. apply waverec_app. exact K. Qed.

Lemma match_ok a d : (rows d <= rows a <= rows d + 1)%nat -> (cols d <= cols a <= cols d + 1)%nat -> match_dims a d = Ok (mk_block (rows d) (cols d) (ent a)).
Proof.
  intros H1 H2. unfold match_dims. destruct (Nat.eqb_spec (rows a) (rows d)), (Nat.eqb_spec (rows a) (rows d + 1)), (Nat.eqb_spec (cols a) (cols d)), (Nat.eqb_spec (cols a) (cols d + 1)); cbn; try reflexivity; lia.
Qed.

(** Reconstruction: the image comes back, inside an array of even sizes. *)
Lemma recl_wavedec L : forall b, exists y, recl (wavedec L b) = Ok y /\
  rows y = (match L with O => rows b | _ => 2 * half (rows b) end)%nat /\ cols y = (match L with O => cols b | _ => 2 * half (cols b) end)%nat /\
  forall i j, (i < rows b)%nat -> (j < cols b)%nat -> ent y i j = ent b i j.
Proof.
  induction L as [|L IH]; intros b; cbn [wavedec]; [exists b; cbn; auto|].
  rewrite recl_step by apply wavedec_shape. destruct (IH (aa b)) as (y & E & Ry & Cy & Ay). rewrite E. cbn [bind waverec].
  assert (B : forall n, (n <= match L with O => n | _ => 2 * half n end <= n + 1)%nat) by (intros n; pose proof (half_bounds n); destruct L; lia).
  rewrite match_ok by (rewrite ?Ry, ?Cy; apply B). cbn [bind]. eexists. split; [reflexivity|]. split; [reflexivity|]. split; [reflexivity|].
  intros i j Hi Hj. rewrite <- (idwt_dwt b i j Hi Hj).
  assert (Q : beq (idwt2 {| rows := rows (ad b); cols := cols (ad b); ent := ent y |} (ad b) (da b) (dd b)) (idwt2 (aa b) (ad b) (da b) (dd b))).
  { apply idwt2_ext; try reflexivity; try apply beq_refl. split; [reflexivity|]. split; [reflexivity|]. intros p q Hp Hq. apply Ay; assumption. }
  destruct Q as (_ & _ & Q). pose proof (half_bounds (rows b)). pose proof (half_bounds (cols b)). apply Q; cbn [rows cols idwt2 ad]; lia.
Qed.

(** The result depends only on the entries. *)
Lemma waverec_ext : forall ds a ds' a', beq a a' -> Forall2 beq ds ds' ->
  (forall k h v d, nth_error ds (3 * k) = Some h -> nth_error ds (3 * k + 1) = Some v -> nth_error ds (3 * k + 2) = Some d -> dims v = dims h /\ dims d = dims h) ->
  match waverec a ds, waverec a' ds' with Ok y, Ok y' => beq y y' | Err e, Err e' => e = e' | _, _ => False end.
Proof.
  fix IH 1. intros [|h [|v [|d ds]]] a ds' a' Ba F K.
  - inversion F; subst. exact Ba.
  - inversion F as [|? ? ? ? ? F1]; subst. inversion F1; subst. reflexivity.
  - inversion F as [|? ? ? ? ? F1]; subst. inversion F1 as [|? ? ? ? ? F2]; subst. inversion F2; subst. reflexivity.
  - inversion F as [|? h' ? ? B1 F1]; subst. inversion F1 as [|? v' ? ? B2 F2]; subst. inversion F2 as [|? d' ? ? B3 F3]; subst.
    cbn [waverec]. destruct (K 0%nat h v d eq_refl eq_refl eq_refl) as [E1 E2].
    assert (M : match match_dims a h, match_dims a' h' with Ok y, Ok y' => beq y y' /\ dims y = dims h | Err e, Err e' => e = e' | _, _ => False end).
    { unfold match_dims. destruct Ba as (A1 & A2 & A3), B1 as (D1 & D2 & D3). rewrite <- A1, <- A2, <- D1, <- D2.
      destruct (Nat.eqb_spec (rows a) (rows h)), (Nat.eqb_spec (rows a) (rows h + 1)), (Nat.eqb_spec (cols a) (cols h)), (Nat.eqb_spec (cols a) (cols h + 1)); cbn; try reflexivity;
      (split; [split; [reflexivity|]; split; [reflexivity|]; cbn [rows cols ent]; intros i j Hi Hj; apply A3; lia|reflexivity]). }
    destruct (match_dims a h) as [y|], (match_dims a' h') as [y'|]; try contradiction; [|subst; reflexivity]. destruct M as [M1 M2]. cbn [bind]. apply IH.
    + apply idwt2_ext; try assumption; congruence.
    + exact F3.
    + intros k h0 v0 d0 Q1 Q2 Q3. apply (K (S k)); [replace (3 * S k)%nat with (S (S (S (3 * k)))) by lia; exact Q1|
        replace (3 * S k + 1)%nat with (S (S (S (3 * k + 1)))) by lia; exact Q2|replace (3 * S k + 2)%nat with (S (S (S (3 * k + 2)))) by lia; exact Q3].
Qed.

Fixpoint bip (l m : list block) : R := match l, m with b :: l, c :: m => ip b c + bip l m | _, _ => 0 end.
Lemma bip_app : forall l m l' m', List.length l = List.length m -> bip (l ++ l') (m ++ m') = bip l m + bip l' m'.
Proof. induction l as [|b l IH]; intros [|c m] l' m' E; cbn in *; try discriminate; [ring|]. rewrite IH by lia. ring. Qed.

(** Sizes divisible by 2^L: the coefficients are an orthonormal system. *)
Lemma wavedec_adjoint L : forall b m n cs, rows b = (2 ^ L * m)%nat -> cols b = (2 ^ L * n)%nat -> map dims cs = map dims (wavedec L b) ->
  exists y, recl cs = Ok y /\ dims y = dims b /\ bip (wavedec L b) cs = ip b y /\ Forall2 beq (wavedec L y) cs.
Proof.
  induction L as [|L IH]; intros b m n cs Hm Hn Hc; cbn [wavedec] in *.
  - destruct cs as [|c [|? ?]]; try discriminate. exists c. cbn in *. split; [reflexivity|]. split; [congruence|]. split; [ring|]. constructor; [apply beq_refl|constructor].
  - rewrite map_app in Hc. apply map_eq_app in Hc. destruct Hc as (cs1 & cs2 & -> & Hc1 & Hc2).
    destruct cs2 as [|h [|v [|d [|? ?]]]]; try discriminate. cbn [map] in Hc2.
    pose proof (f_equal (fun l => nth 0 l (0, 0)%nat) Hc2) as H1. pose proof (f_equal (fun l => nth 1 l (0, 0)%nat) Hc2) as H2. pose proof (f_equal (fun l => nth 2 l (0, 0)%nat) Hc2) as H3. cbn [nth] in H1, H2, H3.
    assert (Ra : rows (aa b) = (2 ^ L * m)%nat) by (cbn [aa rows]; rewrite Hm; cbn [Nat.pow]; rewrite <- Nat.mul_assoc; apply half_even).
    assert (Ca : cols (aa b) = (2 ^ L * n)%nat) by (cbn [aa cols]; rewrite Hn; cbn [Nat.pow]; rewrite <- Nat.mul_assoc; apply half_even).
    destruct (IH (aa b) m n cs1 Ra Ca Hc1) as (y & Ey & Dy & Iy & Fy).
    assert (K : exists c ds, cs1 = c :: ds /\ (exists k, List.length ds = 3 * k)%nat).
    { destruct (wavedec_shape L (aa b)) as (c0 & ds0 & E0 & k & Hk). rewrite E0 in Hc1. destruct cs1 as [|c ds]; [discriminate|]. exists c, ds. split; [reflexivity|]. exists k.
      rewrite <- Hk. apply (f_equal (@List.length _)) in Hc1. cbn in Hc1. rewrite !map_length in Hc1. lia. }
    rewrite (recl_step _ _ K), Ey. cbn [bind waverec].
    change (dims (ad b)) with (dims (aa b)) in H1. change (dims (da b)) with (dims (aa b)) in H2. change (dims (dd b)) with (dims (aa b)) in H3.
    assert (Yh : rows y = rows h /\ cols y = cols h) by (unfold dims in *; split; congruence). destruct Yh as [Yr Yc].
    rewrite match_ok by lia. cbn [bind]. assert (Q : {| rows := rows h; cols := cols h; ent := ent y |} = y) by (destruct y; cbn in *; subst; reflexivity). rewrite Q.
    assert (Dh : dims h = dims y) by congruence. assert (Dv : dims v = dims y) by congruence. assert (Dd : dims d = dims y) by congruence.
    eexists. split; [reflexivity|]. split.
    { unfold dims. cbn [idwt2 rows cols]. rewrite Yr, Yc. assert (rows h = rows (aa b) /\ cols h = cols (aa b)) as [-> ->] by (unfold dims in *; split; congruence).
      rewrite Ra, Ca, Hm, Hn. cbn [Nat.pow]. f_equal; lia. }
    split.
    { rewrite bip_app by (apply (f_equal (@List.length _)) in Hc1; rewrite !map_length in Hc1; lia). rewrite Iy. cbn [bip]. rewrite Rplus_0_r.
      rewrite <- (dwt_adjoint b y h v d (2 ^ L * m) (2 ^ L * n)).
      - ring.
      - rewrite Hm. cbn [Nat.pow]. lia.
      - rewrite Hn. cbn [Nat.pow]. lia.
      - unfold dims in Dy. injection Dy as -> _. exact Ra.
      - unfold dims in Dy. injection Dy as _ ->. exact Ca. }
    destruct (dwt_idwt y h v d Dh Dv Dd) as (B1 & B2 & B3 & B4). apply Forall2_app; [|repeat (constructor; [assumption|]); constructor].
    assert (G : forall L b b' cs, beq b b' -> Forall2 beq (wavedec L b') cs -> Forall2 beq (wavedec L b) cs).
    { clear. induction L as [|L IH]; intros b b' cs B F; cbn [wavedec] in *.
      - inversion F as [|? ? ? ? B1 F1]; subst. inversion F1; subst. constructor; [apply (beq_trans _ b'); assumption|constructor].
      - apply Forall2_app_inv_l in F. destruct F as (c1 & c2 & F1 & F2 & ->). destruct (dwt_ext b b' B) as (E1 & E2 & E3 & E4).
        apply Forall2_app; [apply (IH _ (aa b')); assumption|]. inversion F2 as [|? ? ? ? X1 F3]; subst. inversion F3 as [|? ? ? ? X2 F4]; subst. inversion F4 as [|? ? ? ? X3 F5]; subst. inversion F5; subst.
        constructor; [exact (beq_trans _ _ _ E2 X1)|]. constructor; [exact (beq_trans _ _ _ E3 X2)|]. constructor; [exact (beq_trans _ _ _ E4 X3)|constructor]. }
    apply (G _ _ y); [exact B1|exact Fy].
Qed.

(** * Flat vectors *)

Lemma dotl_app : forall l m l' m', List.length l = List.length m -> dotl (l ++ l') (m ++ m') = dotl l m + dotl l' m'.
Proof. induction l as [|b l IH]; intros [|c m] l' m' E; cbn in *; try discriminate; [ring|]. rewrite IH by lia. ring. Qed.
Lemma dotl_map w f g : forall s, dotl (map f (seq s w)) (map g (seq s w)) = sumn w (fun j => f (s + j)%nat * g (s + j)%nat).
Proof.
  induction w as [|w IH]; intros s; [reflexivity|]. rewrite seq_S, !map_app, dotl_app by (rewrite !map_length; reflexivity). rewrite IH. cbn. ring.
Qed.
Lemma rows_length (f : nat -> nat -> R) w h : forall s, List.length (flat_map (fun i => map (f i) (seq 0 w)) (seq s h)) = (h * w)%nat.
Proof. induction h as [|h IH]; intros s; [reflexivity|]. cbn [seq flat_map]. rewrite app_length, map_length, seq_length, IH. cbn. lia. Qed.
Lemma flat_length b : List.length (flat b) = (rows b * cols b)%nat.
Proof. apply rows_length. Qed.
Lemma dotl_flat b c : dims b = dims c -> dotl (flat b) (flat c) = ip b c.
Proof.
  unfold dims. intros [= H1 H2]. unfold flat, ip. rewrite <- H1, <- H2.
  assert (G : forall h s, dotl (flat_map (fun i => map (ent b i) (seq 0 (cols b))) (seq s h)) (flat_map (fun i => map (ent c i) (seq 0 (cols b))) (seq s h)) =
    sumn h (fun i => sumn (cols b) (fun j => ent b (s + i)%nat j * ent c (s + i)%nat j))).
  { induction h as [|h IH]; intros s; [reflexivity|]. rewrite seq_S, !flat_map_app. cbn [flat_map]. rewrite !app_nil_r.
    rewrite dotl_app by (rewrite !rows_length; reflexivity).
    rewrite IH, dotl_map. reflexivity. }
  exact (G (rows b) 0%nat).
Qed.

Definition sizes (l : list block) : list (nat * nat) := map dims l.
Lemma dotl_flats : forall l m, sizes l = sizes m -> dotl (flat_map flat l) (flat_map flat m) = bip l m.
Proof.
  induction l as [|b l IH]; intros [|c m] E; try discriminate; [reflexivity|].
  pose proof (f_equal (fun l => hd (0, 0)%nat l) E) as E1. pose proof (f_equal (@tl _) E) as E2. cbn in E1, E2. cbn [flat_map bip].
  assert (N : List.length (flat b) = List.length (flat c)) by (rewrite !flat_length; unfold dims in E1; injection E1 as -> ->; reflexivity).
  rewrite (dotl_app _ _ _ _ N), (dotl_flat _ _ E1), (IH m E2). reflexivity.
Qed.
Lemma nth_rows (f : nat -> nat -> R) w h i j : forall s, (i < h)%nat -> (j < w)%nat -> nth (i * w + j) (flat_map (fun i => map (f i) (seq 0 w)) (seq s h)) 0 = f (s + i)%nat j.
Proof.
  revert h. induction i as [|i IH]; intros [|h] s Hi Hj; try lia; cbn [seq flat_map].
  - cbn [Nat.mul Nat.add]. rewrite app_nth1 by (rewrite map_length, seq_length; exact Hj).
    rewrite (nth_indep _ 0 (f s 0%nat)) by (rewrite map_length, seq_length; exact Hj). rewrite map_nth, seq_nth by exact Hj. f_equal; lia.
  - rewrite app_nth2 by (rewrite map_length, seq_length; lia). rewrite map_length, seq_length. replace (S i * w + j - w)%nat with (i * w + j)%nat by lia.
    rewrite IH by lia. f_equal; lia.
Qed.
Lemma nth_flat b i j : (i < rows b)%nat -> (j < cols b)%nat -> nth (i * cols b + j) (flat b) 0 = ent b i j.
Proof. intros Hi Hj. exact (nth_rows (ent b) (cols b) (rows b) i j 0 Hi Hj). Qed.

(** Cutting recovers the arrays. *)
Lemma cut_flat : forall l r, exists l', cut (flat_map flat l ++ r) (sizes l) = Ok l' /\ Forall2 beq l' l.
Proof.
  induction l as [|b l IH]; intros r; [exists []; split; [reflexivity|constructor]|]. cbn [sizes map dims flat_map]. unfold dims at 1. cbn [cut]. rewrite <- app_assoc.
  assert (N : Nat.ltb (List.length (flat b ++ flat_map flat l ++ r)) (rows b * cols b) = false) by (apply Nat.ltb_ge; rewrite app_length, flat_length; lia).
  rewrite N, skipn_app, skipn_all2, flat_length, Nat.sub_diag by (rewrite flat_length; lia). cbn [app skipn]. destruct (IH r) as (l' & E & F). fold (sizes l). rewrite E. cbn [bind].
  eexists. split; [reflexivity|]. constructor; [|exact F]. split; [reflexivity|]. split; [reflexivity|]. cbn [rows cols ent]. intros i j Hi Hj. rewrite app_nth1; [apply nth_flat; assumption|].
  rewrite flat_length. nia.
Qed.
(** Flattening recovers the vector. *)
Lemma flat_cut c h w : List.length c = (h * w)%nat -> flat (mk_block h w (fun i j => nth (i * w + j) c 0)) = c.
Proof.
  intros H. apply (nth_ext _ _ 0 0); [rewrite flat_length; symmetry; exact H|]. intros n Hn. rewrite flat_length in Hn. cbn [rows cols] in Hn.
  assert (Hw : (w <> 0)%nat) by nia. rewrite (Nat.div_mod n w Hw) at 1. rewrite (Nat.mul_comm w).
  pose proof (Nat.mod_upper_bound n w Hw). assert (n / w < h)%nat by (apply Nat.div_lt_upper_bound; lia).
  rewrite (nth_flat (mk_block h w _) (n / w) (n mod w)) by assumption. cbn [ent]. f_equal. rewrite Nat.mul_comm. symmetry. apply Nat.div_mod. exact Hw.
Qed.
Definition total (s : list (nat * nat)) : nat := fold_right (fun p n => (fst p * snd p + n)%nat) 0%nat s.
Lemma flat_mk_ext h w f g : (forall i j, (i < h)%nat -> (j < w)%nat -> f i j = g i j) -> flat (mk_block h w f) = flat (mk_block h w g).
Proof.
  intros E. apply (nth_ext _ _ 0 0); [rewrite !flat_length; reflexivity|]. intros n Hn. rewrite flat_length in Hn. cbn [rows cols] in Hn.
  assert (Hw : (w <> 0)%nat) by nia. rewrite (Nat.div_mod n w Hw), (Nat.mul_comm w). pose proof (Nat.mod_upper_bound n w Hw). assert (n / w < h)%nat by (apply Nat.div_lt_upper_bound; lia).
  rewrite (nth_flat (mk_block h w f)), (nth_flat (mk_block h w g)) by assumption. cbn [ent]. apply E; assumption.
Qed.
Lemma beq_flat b c : beq b c -> flat b = flat c.
Proof. destruct b as [h w f], c as [h' w' g]. intros (A & B & C). cbn in A, B, C. subst. apply flat_mk_ext. exact C. Qed.
Lemma flat_cuts : forall s c, List.length c = total s -> exists l, cut c s = Ok l /\ sizes l = s /\ flat_map flat l = c.
Proof.
  induction s as [|[h w] s IH]; intros c H; cbn [total fold_right fst snd] in H.
  - destruct c; [|discriminate]. exists []. auto.
  - cbn [cut]. assert (N : Nat.ltb (List.length c) (h * w) = false) by (apply Nat.ltb_ge; lia). rewrite N.
    destruct (IH (skipn (h * w) c)) as (l & E & S & F); [rewrite skipn_length; fold (total s) in H; lia|]. rewrite E. cbn [bind]. eexists. split; [reflexivity|]. split; [cbn; rewrite <- S; reflexivity|].
    cbn [flat_map]. rewrite F. transitivity (firstn (h * w) c ++ skipn (h * w) c); [f_equal|apply firstn_skipn].
    rewrite <- (flat_cut (firstn (h * w) c) h w) by (rewrite firstn_length; lia). apply flat_mk_ext. intros i j Hi Hj.
    rewrite <- (firstn_skipn (h * w) c) at 1. apply app_nth1. rewrite firstn_length. assert (i * w + j < h * w)%nat by nia. lia.
Qed.
Lemma flats_length l : List.length (flat_map flat l) = total (sizes l).
Proof. induction l as [|b l IH]; [reflexivity|]. cbn [flat_map sizes map total fold_right]. rewrite app_length, flat_length, IH. reflexivity. Qed.
Lemma beq_flats l m : Forall2 beq l m -> flat_map flat l = flat_map flat m.
Proof. induction 1 as [|b c l m B F IH]; [reflexivity|]. cbn. rewrite (beq_flat _ _ B), IH. reflexivity. Qed.
Lemma beq_sizes l m : Forall2 beq l m -> sizes l = sizes m.
Proof. induction 1 as [|b c l m (A & B & _) F IH]; [reflexivity|]. cbn. fold (sizes l) (sizes m). rewrite IH. unfold dims. rewrite A, B. reflexivity. Qed.

Lemma cut_short : forall s c, (List.length c < total s)%nat -> cut c s = Err ValueError.
Proof.
  induction s as [|[h w] s IH]; intros c H; cbn [total fold_right fst snd] in H; [lia|]. fold (total s) in H. cbn [cut]. destruct (Nat.ltb_spec (List.length c) (h * w)); [reflexivity|].
  rewrite (IH (skipn (h * w) c)) by (rewrite skipn_length; lia). reflexivity.
Qed.

(** The details of a level have one size. *)
Definition triples (ds : list block) := forall k h v d, nth_error ds (3 * k) = Some h -> nth_error ds (3 * k + 1) = Some v -> nth_error ds (3 * k + 2) = Some d -> dims v = dims h /\ dims d = dims h.
Lemma wavedec_triples L : forall b c ds, wavedec L b = c :: ds -> triples ds.
Proof.
  induction L as [|L IH]; intros b c ds E; cbn [wavedec] in E.
  - injection E as <- <-. intros k h v d H. destruct (3 * k)%nat; discriminate H.
  - destruct (wavedec_shape L (aa b)) as (c0 & ds0 & E0 & q & Hq). rewrite E0 in E. cbn in E. injection E as -> <-.
    intros k h v d H1 H2 H3. destruct (Nat.ltb_spec k q) as [K|K].
    + rewrite nth_error_app1 in H1, H2, H3 by lia. exact (IH _ _ _ E0 k h v d H1 H2 H3).
    + rewrite nth_error_app2 in H1, H2, H3 by lia. rewrite Hq in *. destruct (Nat.eq_dec k q) as [->|N].
      * rewrite Nat.sub_diag in H1. replace (3 * q + 1 - 3 * q)%nat with 1%nat in H2 by lia. replace (3 * q + 2 - 3 * q)%nat with 2%nat in H3 by lia.
        cbn in H1, H2, H3. injection H1 as <-. injection H2 as <-. injection H3 as <-. split; reflexivity.
      * assert (nth_error [ad b; da b; dd b] (3 * k - 3 * q) = None) by (apply nth_error_None; cbn; lia). congruence.
Qed.
Lemma triples_ext ds ds' : sizes ds = sizes ds' -> triples ds -> triples ds'.
Proof.
  intros E T k h v d H1 H2 H3.
  assert (G : forall n x, nth_error ds' n = Some x -> exists y, nth_error ds n = Some y /\ dims y = dims x).
  { intros n x Hx. pose proof (map_nth_error dims n ds' Hx) as Q. fold (sizes ds') in Q. rewrite <- E in Q. unfold sizes in Q. rewrite nth_error_map in Q. destruct (nth_error ds n) as [y|]; [|discriminate]. exists y. split; [reflexivity|]. cbn in Q. congruence. }
  destruct (G _ _ H1) as (h' & A1 & B1), (G _ _ H2) as (v' & A2 & B2), (G _ _ H3) as (d' & A3 & B3). destruct (T k h' v' d' A1 A2 A3). split; congruence.
Qed.
Lemma recl_ext l l' : Forall2 beq l' l -> triples (tl l) -> match recl l', recl l with Ok y, Ok y' => beq y y' | Err e, Err e' => e = e' | _, _ => False end.
Proof.
  intros F T. inversion F as [|a a' ds ds' B F']; subst; [reflexivity|]. cbn [recl tl] in *. apply waverec_ext; [exact B|exact F'|].
  exact (triples_ext ds' ds (eq_sym (beq_sizes _ _ F')) T).
Qed.

(** * The operator *)

Lemma cpu_op_1 L n b : (n <= 1)%nat -> cpu_op (cpu_new L n) b = (mk_cpu L n (Some (sizes (wavedec L b))), Ok (flat_map flat (wavedec L b))).
Proof. intros H. unfold cpu_op, cpu_new. cbn [c_batch c_level]. replace (Nat.ltb 1 n) with false by (symmetry; apply Nat.ltb_ge; exact H). reflexivity. Qed.
Lemma cpu_adj_1 L n s c : (n <= 1)%nat -> cpu_adj_op (mk_cpu L n (Some s)) c = (do l <- cut c s; recl l).
Proof. intros H. unfold cpu_adj_op. cbn [c_batch c_shapes]. replace (Nat.ltb 1 n) with false by (symmetry; apply Nat.ltb_ge; exact H). reflexivity. Qed.

Lemma roundtrip L n b : (n <= 1)%nat -> exists y, cpu_adj_op (mk_cpu L n (Some (sizes (wavedec L b)))) (flat_map flat (wavedec L b)) = Ok y /\
  rows y = (match L with O => rows b | _ => 2 * half (rows b) end)%nat /\ cols y = (match L with O => cols b | _ => 2 * half (cols b) end)%nat /\
  forall i j, (i < rows b)%nat -> (j < cols b)%nat -> ent y i j = ent b i j.
Proof.
  intros Hn. rewrite cpu_adj_1 by exact Hn. destruct (cut_flat (wavedec L b) []) as (l' & E & F). rewrite app_nil_r in E. rewrite E. cbn [bind].
  destruct (wavedec_shape L b) as (c & ds & W & _). assert (T : triples (tl (wavedec L b))) by (rewrite W; exact (wavedec_triples L b c ds W)).
  pose proof (recl_ext _ _ F T) as Q. destruct (recl_wavedec L b) as (y & Ey & Ry & Cy & Ay). rewrite Ey in Q. destruct (recl l') as [y'|]; [|contradiction]. destruct Q as (Q1 & Q2 & Q3).
  exists y'. split; [reflexivity|]. split; [congruence|]. split; [congruence|]. intros i j Hi Hj. rewrite Q3; [apply Ay; assumption| |].
  - rewrite Q1, Ry. pose proof (half_bounds (rows b)). destruct L; lia.
  - rewrite Q2, Cy. pose proof (half_bounds (cols b)). destruct L; lia.
Qed.

Lemma orthogonal L n b p q c : (n <= 1)%nat -> rows b = (2 ^ L * p)%nat -> cols b = (2 ^ L * q)%nat -> List.length c = total (sizes (wavedec L b)) ->
  exists y, cpu_adj_op (mk_cpu L n (Some (sizes (wavedec L b)))) c = Ok y /\ dims y = dims b /\
    dotl (flat_map flat (wavedec L b)) c = ip b y /\ flat_map flat (wavedec L y) = c.
Proof.
  intros Hn Hp Hq Hc. rewrite cpu_adj_1 by exact Hn. destruct (flat_cuts _ _ Hc) as (l & E & S & F). rewrite E. cbn [bind].
  destruct (wavedec_adjoint L b p q l Hp Hq S) as (y & Ey & Dy & Iy & Fy). exists y. split; [exact Ey|]. split; [exact Dy|]. rewrite <- F at 1. split.
  - rewrite dotl_flats by (symmetry; exact S). exact Iy.
  - rewrite (beq_flats _ _ Fy). exact F.
Qed.
Lemma total_app s t : total (s ++ t) = (total s + total t)%nat.
Proof. unfold total. induction s as [|x s IH]; cbn; [reflexivity|]. rewrite IH. lia. Qed.
Lemma total_wavedec L : forall b p q, rows b = (2 ^ L * p)%nat -> cols b = (2 ^ L * q)%nat -> total (sizes (wavedec L b)) = (rows b * cols b)%nat.
Proof.
  induction L as [|L IH]; intros b p q Hp Hq; cbn [wavedec]; [cbn; lia|].
  assert (Ra : rows (aa b) = (2 ^ L * p)%nat) by (cbn [aa rows]; rewrite Hp; cbn [Nat.pow]; rewrite <- Nat.mul_assoc; apply half_even).
  assert (Ca : cols (aa b) = (2 ^ L * q)%nat) by (cbn [aa cols]; rewrite Hq; cbn [Nat.pow]; rewrite <- Nat.mul_assoc; apply half_even).
  unfold sizes. rewrite map_app, total_app. fold (sizes (wavedec L (aa b))). rewrite (IH _ p q Ra Ca).
  change (map dims [ad b; da b; dd b]) with [dims (aa b); dims (aa b); dims (aa b)]. unfold dims. rewrite Ra, Ca, Hp, Hq. cbn [total fold_right fst snd Nat.pow]. lia.
Qed.

(** Linearity. *)
Lemma lcomb_app s t : forall l m l' m', List.length l = List.length m -> lcomb s t (l ++ l') (m ++ m') = lcomb s t l m ++ lcomb s t l' m'.
Proof. unfold lcomb. induction l as [|x l IH]; intros [|y m] l' m' E; cbn in *; try discriminate; [reflexivity|]. rewrite IH by lia. reflexivity. Qed.
Lemma flat_comb s t b c : dims b = dims c -> flat (comb s t b c) = lcomb s t (flat b) (flat c).
Proof.
  unfold dims. intros [= H1 H2]. unfold flat. cbn [comb rows cols ent]. rewrite <- H1, <- H2.
  assert (W : forall i w z, map (fun j => s * ent b i j + t * ent c i j) (seq z w) = lcomb s t (map (ent b i) (seq z w)) (map (ent c i) (seq z w))).
  { intros i. induction w as [|w IHw]; intros z; [reflexivity|]. unfold lcomb in *. cbn. rewrite IHw. reflexivity. }
  assert (G : forall h k, flat_map (fun i => map (fun j => s * ent b i j + t * ent c i j) (seq 0 (cols b))) (seq k h) =
    lcomb s t (flat_map (fun i => map (ent b i) (seq 0 (cols b))) (seq k h)) (flat_map (fun i => map (ent c i) (seq 0 (cols b))) (seq k h))).
  { induction h as [|h IH]; intros k; [reflexivity|]. cbn [seq flat_map]. rewrite lcomb_app by (rewrite !map_length; reflexivity). rewrite IH, W. reflexivity. }
  apply G.
Qed.
Lemma lo_cong n x y k : (forall p, x p = y p) -> lo n x k = lo n y k.
Proof. intros E. unfold lo. rewrite !E. reflexivity. Qed.
Lemma hi_cong n x y k : (forall p, x p = y p) -> hi n x k = hi n y k.
Proof. intros E. unfold hi. rewrite !E. reflexivity. Qed.
Lemma comb_dwt s t b c : dims b = dims c ->
  beq (aa (comb s t b c)) (comb s t (aa b) (aa c)) /\ beq (ad (comb s t b c)) (comb s t (ad b) (ad c)) /\
  beq (da (comb s t b c)) (comb s t (da b) (da c)) /\ beq (dd (comb s t b c)) (comb s t (dd b) (dd c)).
Proof.
  unfold dims. intros [= H1 H2]. repeat split; cbn [aa ad da dd comb rows cols ent]; intros i j _ _; rewrite <- H1, <- H2.
  - rewrite <- lo_lin. apply lo_cong. intros p. apply lo_lin.
  - rewrite <- lo_lin. apply lo_cong. intros p. apply hi_lin.
  - rewrite <- hi_lin. apply hi_cong. intros p. apply lo_lin.
  - rewrite <- hi_lin. apply hi_cong. intros p. apply hi_lin.
Qed.
Lemma wavedec_ext L : forall b b', beq b b' -> Forall2 beq (wavedec L b) (wavedec L b').
Proof.
  induction L as [|L IH]; intros b b' B; cbn [wavedec]; [constructor; [exact B|constructor]|]. destruct (dwt_ext b b' B) as (E1 & E2 & E3 & E4).
  apply Forall2_app; [apply IH; exact E1|]. repeat (constructor; [assumption|]). constructor.
Qed.
Lemma wavedec_sizes L : forall b b', dims b = dims b' -> sizes (wavedec L b) = sizes (wavedec L b').
Proof.
  induction L as [|L IH]; intros b b' E; cbn [wavedec]; [cbn; rewrite E; reflexivity|]. unfold sizes. rewrite !map_app. fold (sizes (wavedec L (aa b))) (sizes (wavedec L (aa b'))).
  assert (E' : dims (aa b) = dims (aa b')) by (unfold dims in *; injection E as E1 E2; cbn; rewrite E1, E2; reflexivity). rewrite (IH _ _ E'). f_equal.
  change (map dims [ad b; da b; dd b]) with [dims (aa b); dims (aa b); dims (aa b)]. rewrite E'. reflexivity.
Qed.
Lemma wavedec_lin L s t : forall b c, dims b = dims c -> flat_map flat (wavedec L (comb s t b c)) = lcomb s t (flat_map flat (wavedec L b)) (flat_map flat (wavedec L c)).
Proof.
  induction L as [|L IH]; intros b c E; cbn [wavedec].
  - cbn [flat_map]. rewrite !app_nil_r. apply flat_comb. exact E.
  - destruct (comb_dwt s t b c E) as (B1 & B2 & B3 & B4). rewrite !flat_map_app.
    assert (E' : dims (aa b) = dims (aa c)) by (unfold dims in *; injection E as E1 E2; cbn; rewrite E1, E2; reflexivity).
    rewrite lcomb_app by (rewrite !flats_length, (wavedec_sizes L _ _ E'); reflexivity). rewrite <- (IH _ _ E'), (beq_flats _ _ (wavedec_ext L _ _ B1)). f_equal.
    cbn [flat_map]. rewrite !app_nil_r, (beq_flat _ _ B2), (beq_flat _ _ B3), (beq_flat _ _ B4), !flat_comb by exact E'.
    assert (Q : rows b = rows c /\ cols b = cols c) by (unfold dims in E; split; congruence). destruct Q as [Q1 Q2].
    rewrite !lcomb_app by (rewrite ?app_length, !flat_length; cbn [rows cols ad da dd]; rewrite Q1, Q2; reflexivity). reflexivity.
Qed.

(** * Regrouping *)

Lemma range_count m k : (0 < k)%nat -> range 1 (1 + m * k - (k - 1)) k = map (fun j => (1 + k * j)%nat) (seq 0 m).
Proof.
  intros H. unfold range. f_equal. f_equal. destruct m as [|m].
  - apply Nat.div_small. lia.
  - assert (E : (S m * k = k + m * k)%nat) by reflexivity. generalize dependent (m * k)%nat. intros q E.
    replace (1 + S m * k - (k - 1) - 1 + (k - 1))%nat with (S m * k)%nat by lia. apply Nat.div_mul. lia.
Qed.
Lemma concat_chunks {T} (d : T) k : forall l : list (list T), Forall (fun g => List.length g = k) l -> forall pre,
  map (fun i => map (fun j => nth (List.length pre + (k * i) + j) (pre ++ concat l) d) (seq 0 k)) (seq 0 (List.length l)) = l.
Proof.
  induction l as [|g l IH]; intros F pre; [reflexivity|]. inversion F as [|? ? Hg F']; subst. cbn [List.length seq map concat].
  f_equal.
  - apply (nth_ext _ _ d d); [rewrite map_length, seq_length; reflexivity|]. intros n Hn. rewrite map_length, seq_length in Hn.
    rewrite (nth_indep _ d (nth (List.length pre + List.length g * 0 + 0) (pre ++ g ++ concat l) d)) by (rewrite map_length, seq_length; exact Hn).
    rewrite (map_nth (fun j => nth (List.length pre + List.length g * 0 + j) (pre ++ g ++ concat l) d)), seq_nth by exact Hn.
    rewrite app_nth2 by lia. rewrite app_nth1 by lia. f_equal. lia.
  - rewrite <- seq_shift, map_map. etransitivity; [|exact (IH F' (pre ++ g))]. apply map_ext. intros i. apply map_ext. intros j. rewrite <- app_assoc, app_length. f_equal. lia.
Qed.
Lemma concat_len {T} k : forall l : list (list T), Forall (fun g => List.length g = k) l -> List.length (concat l) = (List.length l * k)%nat.
Proof. induction l as [|g l IH]; intros F; [reflexivity|]. inversion F; subst. cbn. rewrite app_length, IH by assumption. reflexivity. Qed.
Lemma regroup_flatten {T} k (c : T * list (list T)) : (0 < k)%nat -> Forall (fun g => List.length g = k) (snd c) -> regroup k (flatten c) = Ok c.
Proof.
  intros Hk F. destruct c as [c0 cs]. cbn [snd] in F. unfold flatten, regroup. cbn [fst snd]. f_equal. f_equal. cbn [List.length]. rewrite (concat_len k cs F).
  change (S (List.length cs * k)) with (1 + List.length cs * k)%nat. rewrite range_count by exact Hk. rewrite map_map. rewrite <- (concat_chunks c0 k cs F [c0]) at 2. reflexivity.
Qed.
Lemma split_flatten {T} : forall l : list (tensor T), Forall (fun t => List.length (snd t) = numel (fst t)) l -> cupy_split (fst (cupy_flatten l)) (snd (cupy_flatten l)) = Ok l.
Proof.
  induction l as [|[s x] l IH]; intros F; [reflexivity|]. inversion F as [|? ? H F']; subst. cbn [fst snd] in H. cbn [cupy_flatten fst snd map concat cupy_split] in *.
  assert (N : Nat.ltb (List.length (x ++ concat (map snd l))) (numel s) = false) by (apply Nat.ltb_ge; rewrite app_length; lia). rewrite N.
  rewrite <- H, skipn_app, skipn_all, Nat.sub_diag. cbn [app skipn]. rewrite (IH F'). cbn [bind]. rewrite firstn_app, firstn_all, Nat.sub_diag. cbn [firstn]. rewrite app_nil_r. reflexivity.
Qed.

(** Surplus coefficients are ignored. *)
Lemma cut_trim : forall s c, (total s <= List.length c)%nat -> exists l l', cut c s = Ok l /\ cut (firstn (total s) c) s = Ok l' /\ Forall2 beq l l'.
Proof.
  induction s as [|[h w] s IH]; intros c H; [exists [], []; split; [reflexivity|]; split; [reflexivity|constructor]|].
  cbn [total fold_right fst snd] in *. fold (total s) in *. cbn [cut]. rewrite firstn_length.
  replace (Nat.ltb (List.length c) (h * w)) with false by (symmetry; apply Nat.ltb_ge; lia). replace (Nat.ltb (Nat.min (h * w + total s) (List.length c)) (h * w)) with false by (symmetry; apply Nat.ltb_ge; lia).
  rewrite skipn_firstn_comm. replace (h * w + total s - h * w)%nat with (total s) by lia.
  destruct (IH (skipn (h * w) c)) as (l & l' & E & E' & F); [rewrite skipn_length; lia|]. rewrite E, E'. cbn [bind]. do 2 eexists. split; [reflexivity|]. split; [reflexivity|]. constructor; [|exact F].
  split; [reflexivity|]. split; [reflexivity|]. cbn [rows cols ent]. intros i j Hi Hj. rewrite <- (firstn_skipn (h * w + total s) c) at 1. rewrite app_nth1; [reflexivity|]. rewrite firstn_length. assert (i * w + j < h * w)%nat by nia. lia.
Qed.

(** Whether reconstruction succeeds depends only on the sizes. *)
Lemma waverec_sizes : forall ds a ds' a' y, dims a = dims a' -> sizes ds = sizes ds' -> waverec a ds = Ok y -> exists y', waverec a' ds' = Ok y' /\ dims y' = dims y.
Proof.
  fix IH 1. intros [|h [|v [|d ds]]] a ds' a' y Da S E.
  - destruct ds'; [|discriminate]. cbn in *. injection E as <-. exists a'. split; [reflexivity|]. symmetry. exact Da.
  - discriminate E.
  - discriminate E.
  - destruct ds' as [|h' [|v' [|d' ds']]]; try discriminate S. pose proof (f_equal (fun l => hd (0, 0)%nat l) S) as S1. pose proof (f_equal (skipn 3) S) as S2. cbn [sizes map hd skipn] in S1, S2.
    cbn [waverec] in *. assert (M : match match_dims a h, match_dims a' h' with Ok y, Ok y' => dims y = dims y' | Err _, Err _ => True | _, _ => False end).
    { unfold match_dims. unfold dims in Da, S1. injection Da as -> ->. injection S1 as -> ->. destruct (_ && _)%bool; reflexivity || exact I. }
    destruct (match_dims a h) as [b|], (match_dims a' h') as [b'|]; try contradiction; [|discriminate E]. cbn [bind] in *. apply (IH ds (idwt2 b h v d) ds' (idwt2 b' h' v' d') y); [|exact S2|exact E].
    unfold dims in *. cbn. injection M as -> ->. reflexivity.
Qed.
Lemma adj_total L x c : (total (sizes (wavedec L x)) <= List.length c)%nat -> exists y y',
  cpu_adj_op (mk_cpu L 1 (Some (sizes (wavedec L x)))) c = Ok y /\ cpu_adj_op (mk_cpu L 1 (Some (sizes (wavedec L x)))) (firstn (total (sizes (wavedec L x))) c) = Ok y' /\ beq y y'.
Proof.
  intros H. rewrite !cpu_adj_1 by lia. destruct (cut_trim _ _ H) as (l & l' & E & E' & F). rewrite E, E'. cbn [bind].
  assert (S' : sizes l' = sizes (wavedec L x)).
  { destruct (flat_cuts (sizes (wavedec L x)) (firstn (total (sizes (wavedec L x))) c)) as (m & Em & Sm & _); [rewrite firstn_length; lia|]. congruence. }
  destruct (wavedec_shape L x) as (c0 & ds & W & _). pose proof (wavedec_triples L x c0 ds W) as T. destruct (recl_wavedec L x) as (z & Ez & _). rewrite W in Ez, S'. cbn [recl] in Ez.
  destruct l' as [|a' ds']; [discriminate S'|]. pose proof (f_equal (fun l => hd (0, 0)%nat l) S') as S1. pose proof (f_equal (@tl _) S') as S2. cbn [sizes map hd tl] in S1, S2.
  destruct (waverec_sizes ds c0 ds' a' z (eq_sym S1) (eq_sym S2) Ez) as (y' & Ey & _).
  assert (T' : triples (tl (a' :: ds'))) by (cbn [tl]; exact (triples_ext ds ds' (eq_sym S2) T)). pose proof (recl_ext _ _ F T') as Q. cbn [recl] in *. rewrite Ey in *.
  destruct (recl l) as [y|]; [|contradiction]. exists y, y'. auto.
Qed.

(** The coarsest coefficients are block sums. *)
Lemma sumn_double_block L f s : sumn (2 ^ L) (fun u => f (2 * (s + u))%nat + f (2 * (s + u) + 1)%nat) = sumn (2 ^ S L) (fun u => f (2 * s + u)%nat).
Proof.
  cbn [Nat.pow]. replace (2 ^ L + (2 ^ L + 0))%nat with (2 * 2 ^ L)%nat by lia. rewrite sumn_pairs. apply sumn_ext. intros u _. f_equal; f_equal; lia.
Qed.
Lemma aa_even b m n i j : rows b = (2 * m)%nat -> cols b = (2 * n)%nat -> (i < m)%nat -> (j < n)%nat ->
  ent (aa b) i j = (ent b (2 * i) (2 * j) + ent b (2 * i) (2 * j + 1) + (ent b (2 * i + 1) (2 * j) + ent b (2 * i + 1) (2 * j + 1))) / 2.
Proof.
  intros Hm Hn Hi Hj. cbn [aa ent]. unfold lo. rewrite Hm, Hn. replace (Nat.min (2 * i + 1) (2 * m - 1)) with (2 * i + 1)%nat by lia. replace (Nat.min (2 * j + 1) (2 * n - 1)) with (2 * j + 1)%nat by lia.
  pose proof s2 as Q. pose proof s2_nz as N. apply (Rmult_eq_reg_r (sqrt 2 * sqrt 2)); [|rewrite Q; lra]. rewrite Q at 2. field. exact N.
Qed.
Lemma wavedec_head L : forall b p q, rows b = (2 ^ L * p)%nat -> cols b = (2 ^ L * q)%nat -> exists c ds, wavedec L b = c :: ds /\ rows c = p /\ cols c = q /\
  forall i j, (i < p)%nat -> (j < q)%nat -> ent c i j = sumn (2 ^ L) (fun u => sumn (2 ^ L) (fun v => ent b (2 ^ L * i + u) (2 ^ L * j + v))) / 2 ^ L.
Proof.
  induction L as [|L IH]; intros b p q Hp Hq; cbn [wavedec].
  - exists b, []. split; [reflexivity|]. cbn in Hp, Hq. split; [lia|]. split; [lia|]. intros i j _ _. cbn. rewrite !Nat.add_0_r. field.
  - assert (Rb : rows b = (2 * (2 ^ L * p))%nat) by (rewrite Hp; cbn [Nat.pow]; lia). assert (Cb : cols b = (2 * (2 ^ L * q))%nat) by (rewrite Hq; cbn [Nat.pow]; lia).
    assert (Ra : rows (aa b) = (2 ^ L * p)%nat) by (cbn [aa rows]; rewrite Rb; apply half_even). assert (Ca : cols (aa b) = (2 ^ L * q)%nat) by (cbn [aa cols]; rewrite Cb; apply half_even).
    destruct (IH (aa b) p q Ra Ca) as (c & ds & E & Rc & Cc & Ac). rewrite E. exists c, (ds ++ [ad b; da b; dd b]). split; [reflexivity|]. split; [exact Rc|]. split; [exact Cc|]. intros i j Hi Hj. rewrite (Ac i j Hi Hj).
    assert (T : sumn (2 ^ S L) (fun u => sumn (2 ^ S L) (fun v => ent b (2 ^ S L * i + u) (2 ^ S L * j + v))) = 2 * sumn (2 ^ L) (fun u => sumn (2 ^ L) (fun v => ent (aa b) (2 ^ L * i + u) (2 ^ L * j + v)))).
    { rewrite <- sumn_scal. replace (2 ^ S L * i)%nat with (2 * (2 ^ L * i))%nat by (cbn [Nat.pow]; lia). replace (2 ^ S L * j)%nat with (2 * (2 ^ L * j))%nat by (cbn [Nat.pow]; lia).
      rewrite <- (sumn_double_block L (fun a => sumn (2 ^ S L) (fun v => ent b a (2 * (2 ^ L * j) + v))) (2 ^ L * i)). apply sumn_ext. intros u Hu.
      rewrite <- !(sumn_double_block L (fun a => ent b _ a) (2 ^ L * j)). rewrite <- sumn_plus, <- sumn_scal. apply sumn_ext. intros v Hv.
      rewrite (aa_even b (2 ^ L * p) (2 ^ L * q)) by (assumption || nia). field. }
    rewrite T. cbn [pow]. field. apply pow_nonzero. lra.
Qed.
Lemma coarse_coefficients L x p q i j : rows x = (2 ^ L * p)%nat -> cols x = (2 ^ L * q)%nat -> (i < p)%nat -> (j < q)%nat ->
  nth (i * q + j) (flat_map flat (wavedec L x)) 0 = sumn (2 ^ L) (fun u => sumn (2 ^ L) (fun v => ent x (2 ^ L * i + u) (2 ^ L * j + v))) / 2 ^ L.
Proof.
  intros Hp Hq Hi Hj. destruct (wavedec_head L x p q Hp Hq) as (c & ds & E & Rc & Cc & Ac). rewrite E. cbn [flat_map]. rewrite app_nth1 by (rewrite flat_length, Rc, Cc; nia).
  rewrite <- Cc. rewrite nth_flat by (rewrite ?Rc, ?Cc; assumption). apply Ac; assumption.
Qed.
(** Constant images have no details. *)
Lemma wavedec_const L : forall h w v d, In d (tl (wavedec L (const_image h w v))) -> forall i j, ent d i j = 0.
Proof.
  assert (G : forall L b v, (forall i j, ent b i j = v) -> forall d, In d (tl (wavedec L b)) -> forall i j, ent d i j = 0).
  { induction L0 as [|L0 IH]; intros b v Hb d Hd i j; cbn [wavedec] in Hd; [destruct Hd|]. destruct (wavedec_shape L0 (aa b)) as (c & ds & E & _). rewrite E in Hd. cbn [tl app] in Hd. apply in_app_or in Hd. destruct Hd as [Hd|Hd].
    - apply (IH (aa b) ((((v + v) / sqrt 2) + ((v + v) / sqrt 2)) / sqrt 2)).
      + intros i' j'. cbn [aa ent]. unfold lo. rewrite !Hb. reflexivity.
      + rewrite E. exact Hd.
    - destruct Hd as [<-|[<-|[<-|[]]]]; cbn [ad da dd ent]; unfold lo, hi; rewrite !Hb; unfold Rdiv; ring. }
  intros h w v. apply (G L _ v). reflexivity.
Qed.
