(** Proofs about circular and zero-padded convolutions. *)
From Coq Require Import String.
From Verif Require Import NPReal Py Model_Array Proof_Array Model_NpAdjust Proof_NpAdjust Spec_NpAdjust Model_Linear Spec_Linear Proof_Linear Model_Conv.
From Coq Require Import Lia ZArith.
Import List ListNotations.
Local Open Scope R_scope.

(** Two positions that read the same kernel entry: equal, or both outside. *)
Definition same (a : nat) (s s' : Z) : Prop :=
  s = s' \/ ((s < 0 \/ Z.of_nat a <= s)%Z /\ (s' < 0 \/ Z.of_nat a <= s')%Z).

Lemma kz_same k a b s s' t t' : same a s s' -> same b t t' -> kz k a b s t = kz k a b s' t'.
Proof.
  intros Hs Ht. unfold kz.
  destruct (Z.leb_spec 0 s), (Z.ltb_spec s (Z.of_nat a)), (Z.leb_spec 0 t), (Z.ltb_spec t (Z.of_nat b)),
    (Z.leb_spec 0 s'), (Z.ltb_spec s' (Z.of_nat a)), (Z.leb_spec 0 t'), (Z.ltb_spec t' (Z.of_nat b)); cbn; try reflexivity;
  destruct Hs as [Hs|Hs]; destruct Ht as [Ht|Ht]; try lia. subst. reflexivity.
Qed.

Lemma half n : (n / 2 + n / 2 <= n < n / 2 + n / 2 + 2)%nat.
Proof. pose proof (Nat.div_mod n 2 ltac:(lia)). pose proof (Nat.mod_upper_bound n 2 ltac:(lia)). lia. Qed.

(** The representative of an offset closest to 0. *)
Lemma wrap_rep n a d : (0 < n)%nat -> exists m e, d = (m + Z.of_nat n * e)%Z /\
  (- Z.of_nat (n / 2) <= m < Z.of_nat n - Z.of_nat (n / 2))%Z /\ wrap n a d = (m + Z.of_nat (a / 2))%Z.
Proof.
  intros Hn. unfold wrap. set (q := Z.of_nat (n / 2)).
  exists ((d + q) mod Z.of_nat n - q)%Z, ((d + q) / Z.of_nat n)%Z.
  pose proof (Z.div_mod (d + q) (Z.of_nat n) ltac:(lia)). pose proof (Z.mod_pos_bound (d + q) (Z.of_nat n) ltac:(lia)).
  split; [lia|]. split; [lia|]. lia.
Qed.

Lemma wrap_period n a d z : (0 < n)%nat -> wrap n a (d + Z.of_nat n * z) = wrap n a d.
Proof.
  intros Hn. unfold wrap. replace (d + Z.of_nat n * z + Z.of_nat (n / 2))%Z with (d + Z.of_nat (n / 2) + z * Z.of_nat n)%Z by ring.
  rewrite Z.mod_add by lia. reflexivity.
Qed.

(** Half-turned kernels of odd size: the entry for the offset -d is the mirrored one. *)
Lemma wrap_opp n c d : (2 * c + 1 <= n)%nat ->
  same (2 * c + 1) (wrap n (2 * c + 1) d) (Z.of_nat (2 * c + 1) - 1 - wrap n (2 * c + 1) (- d)).
Proof.
  intros Hc. destruct (wrap_rep n (2 * c + 1) d ltac:(lia)) as (m & e & -> & Bm & ->).
  destruct (wrap_rep n (2 * c + 1) (- (m + Z.of_nat n * e)) ltac:(lia)) as (m' & e' & Em & Bm' & ->).
  pose proof (half n) as Hn.
  assert (Hd : Z.of_nat ((2 * c + 1) / 2) = Z.of_nat c) by (f_equal; replace (2 * c + 1)%nat with (1 + c * 2)%nat by lia; rewrite Nat.div_add by lia; reflexivity).
  rewrite Hd.
  assert (K : (m' = - m + Z.of_nat n * (- e - e'))%Z) by lia. set (z := (- e - e')%Z) in *. clearbody z. clear Em e e'.
  assert (Z0 : (z = 0 \/ z = -1 \/ z = 1)%Z) by nia.
  unfold same. destruct Z0 as [->|[->| ->]]; [left; lia|right; lia|right; lia].
Qed.

(** Away from the border the circle is not felt. *)
Lemma wrap_inside n c i p : (2 * c + 1 <= n)%nat -> (c <= i)%nat -> (i < n - c)%nat -> (p < n)%nat ->
  same (2 * c + 1) (wrap n (2 * c + 1) (Z.of_nat i - Z.of_nat p)) (Z.of_nat i + (Z.of_nat (2 * c + 1) - 1) / 2 - Z.of_nat p).
Proof.
  intros Hc H1 H2 Hp. destruct (wrap_rep n (2 * c + 1) (Z.of_nat i - Z.of_nat p) ltac:(lia)) as (m & e & Em & Bm & ->).
  assert (Hd : Z.of_nat ((2 * c + 1) / 2) = Z.of_nat c) by (f_equal; replace (2 * c + 1)%nat with (1 + c * 2)%nat by lia; rewrite Nat.div_add by lia; reflexivity).
  rewrite Hd. replace ((Z.of_nat (2 * c + 1) - 1) / 2)%Z with (Z.of_nat c) by (replace (Z.of_nat (2 * c + 1) - 1)%Z with (Z.of_nat c * 2)%Z by lia; rewrite Z.div_mul by lia; reflexivity).
  pose proof (half n) as Hn. assert (E : (e = 0 \/ e = 1 \/ e = -1)%Z) by nia.
  unfold same. destruct E as [->|[->| ->]]; [left; lia|right; lia|right; lia].
Qed.

(** * Sums over a circle *)

Lemma sumn_shift1 m f : sumn (S m) f = f 0%nat + sumn m (fun i => f (S i)).
Proof. induction m as [|m IH]; [cbn; ring|]. change (sumn (S (S m)) f) with (sumn (S m) f + f (S m)). rewrite IH. cbn. ring. Qed.

Lemma sumn_rot1 n f : sumn n (fun i => f (S i mod n)%nat) = sumn n f.
Proof.
  destruct n as [|m]; [reflexivity|]. rewrite (sumn_shift1 m f). cbn [sumn].
  rewrite Nat.mod_same by lia. rewrite (sumn_ext m _ (fun i => f (S i))); [ring|].
  intros i Hi. rewrite Nat.mod_small by lia. reflexivity.
Qed.

Lemma sumn_rot n s f : sumn n (fun i => f ((i + s) mod n)%nat) = sumn n f.
Proof.
  destruct n as [|m]; [reflexivity|]. revert f. induction s as [|s IH]; intros f.
  - apply sumn_ext. intros i Hi. rewrite Nat.add_0_r, Nat.mod_small by lia. reflexivity.
  - rewrite <- (IH f). rewrite <- (sumn_rot1 (S m) (fun i => f ((i + s) mod S m)%nat)). apply sumn_ext. intros i _. f_equal.
    rewrite Nat.add_mod_idemp_l by lia. f_equal. lia.
Qed.

(** A function supported on a window. *)
Lemma sumn_window n a s (F : Z -> R) : (s + a <= n)%nat -> (forall t, (t < 0 \/ Z.of_nat a <= t)%Z -> F t = 0) ->
  sumn n (fun u => F (Z.of_nat u - Z.of_nat s)%Z) = sumn a (fun t => F (Z.of_nat t)).
Proof.
  intros Hs H0. revert n Hs. induction s as [|s IH]; intros n Hs.
  - revert n Hs. induction n as [|n IH]; intros Hs; [assert (a = 0%nat) by lia; subst; reflexivity|].
    destruct (Nat.eq_dec a (S n)) as [->|N].
    + apply sumn_ext. intros i _. f_equal. lia.
    + cbn [sumn]. rewrite IH by lia. rewrite (H0 (Z.of_nat n - Z.of_nat 0)%Z) by lia. ring.
  - destruct n as [|n]; [lia|]. rewrite sumn_shift1. rewrite (H0 (Z.of_nat 0 - Z.of_nat (S s))%Z) by lia.
    rewrite (sumn_ext n _ (fun u => F (Z.of_nat u - Z.of_nat s)%Z)) by (intros i _; f_equal; lia). rewrite IH by lia. ring.
Qed.

(** Every kernel entry is read exactly once on the way round. *)
Lemma sum_wrap n a p (F : Z -> R) : (0 < a)%nat -> (a <= n)%nat -> (p < n)%nat -> (forall t, (t < 0 \/ Z.of_nat a <= t)%Z -> F t = 0) ->
  sumn n (fun i => F (wrap n a (Z.of_nat i - Z.of_nat p))) = sumn a (fun t => F (Z.of_nat t)).
Proof.
  intros Ha Hn Hp H0. rewrite <- (sumn_rot n p).
  transitivity (sumn n (fun i => F (wrap n a (Z.of_nat i)))).
  { apply sumn_ext. intros i Hi. f_equal. pose proof (Nat.div_mod (i + p) n ltac:(lia)).
    replace (Z.of_nat ((i + p) mod n) - Z.of_nat p)%Z with (Z.of_nat i + Z.of_nat n * (- Z.of_nat ((i + p) / n)))%Z by nia.
    apply wrap_period. lia. }
  pose proof (half n). pose proof (half a).
  assert (Hw : (n / 2 - a / 2 + a <= n)%nat).
  { pose proof (Nat.div_le_mono a n 2 ltac:(lia) Hn). lia. }
  rewrite <- (sumn_window n a (n / 2 - a / 2) F Hw H0).
  rewrite <- (sumn_rot n (n / 2) (fun u => F (Z.of_nat u - Z.of_nat (n / 2 - a / 2))%Z)).
  apply sumn_ext. intros i _. f_equal. unfold wrap. pose proof (Nat.div_le_mono a n 2 ltac:(lia) Hn).
  rewrite <- Nat2Z.inj_add, <- Nat2Z.inj_mod. lia.
Qed.

(** * convolve_fft *)

Definition circ_at (x k : nda R) h w a b i j : R :=
  sumn h (fun p => sumn w (fun q => at_ x [p; q] *
     kz k a b (wrap h a (Z.of_nat i - Z.of_nat p)) (wrap w b (Z.of_nat j - Z.of_nat q)))).
Definition circ_arr (x k : nda R) h w a b : nda R :=
  mk_nda [h; w] (fun idx => circ_at x k h w a b (nth 0 idx 0%nat) (nth 1 idx 0%nat)).

Lemma convolve_fft_arr x k h w a b : shape x = [h; w] -> shape k = [a; b] -> (0 < a <= h)%nat -> (0 < b <= w)%nat ->
  exists y, convolve_fft x k = Ok y /\ shape y = [h; w] /\ forall i j, at_ y [i; j] = circ_at x k h w a b i j.
Proof.
  intros Hx Hk Ha Hb. unfold convolve_fft. rewrite Hx, Hk.
  destruct (Nat.eqb_spec h 0); [lia|]. destruct (Nat.eqb_spec w 0); [lia|]. destruct (Nat.eqb_spec a 0); [lia|]. destruct (Nat.eqb_spec b 0); [lia|]. cbn [orb].
  rewrite (Nat.max_l h a), (Nat.max_l w b) by lia. cbv zeta. eexists. split; [reflexivity|]. split; [reflexivity|].
  intros i j. cbn [at_ nth]. unfold circ_at. apply sumn_ext. intros p _. apply sumn_ext. intros q _. rewrite !Nat.sub_diag, !Nat.add_0_r. reflexivity.
Qed.

Lemma circ_adjoint x y k k' h w a b :
  shape k = [a; b] -> is_half_turn k k' -> Nat.Odd a -> Nat.Odd b -> (a <= h)%nat -> (b <= w)%nat ->
  sumn h (fun i => sumn w (fun j => circ_at x k h w a b i j * at_ y [i; j])) =
  sumn h (fun i => sumn w (fun j => at_ x [i; j] * circ_at y k' h w a b i j)).
Proof.
  intros Hk Hh [a' Oa] [b' Ob] Ha Hb.
  set (T := fun i j p q => at_ x [p; q] * at_ y [i; j] * kz k a b (wrap h a (Z.of_nat i - Z.of_nat p)) (wrap w b (Z.of_nat j - Z.of_nat q))).
  transitivity (sumn h (fun i => sumn w (fun j => sumn h (fun p => sumn w (fun q => T i j p q))))).
  { apply sumn_ext. intros i _. apply sumn_ext. intros j _. unfold circ_at. rewrite <- sumn_scal_r.
    apply sumn_ext. intros p _. rewrite <- sumn_scal_r. apply sumn_ext. intros q _. unfold T. ring. }
  transitivity (sumn h (fun p => sumn w (fun q => sumn h (fun i => sumn w (fun j => T i j p q))))).
  { transitivity (sumn h (fun i => sumn h (fun p => sumn w (fun j => sumn w (fun q => T i j p q))))).
    { apply sumn_ext. intros i _. apply sumn_swap. }
    rewrite sumn_swap. apply sumn_ext. intros p _.
    transitivity (sumn h (fun i => sumn w (fun q => sumn w (fun j => T i j p q)))).
    { apply sumn_ext. intros i _. apply sumn_swap. }
    apply sumn_swap. }
  apply sumn_ext. intros p _. apply sumn_ext. intros q _. unfold circ_at. rewrite <- sumn_scal.
  apply sumn_ext. intros i _. rewrite <- sumn_scal. apply sumn_ext. intros j _. unfold T.
  rewrite (kz_half_turn k k' a b _ _ Hk Hh). rewrite Rmult_assoc. do 2 f_equal. subst a b. apply kz_same.
  - replace (Z.of_nat p - Z.of_nat i)%Z with (- (Z.of_nat i - Z.of_nat p))%Z by lia. apply wrap_opp. exact Ha.
  - replace (Z.of_nat q - Z.of_nat j)%Z with (- (Z.of_nat j - Z.of_nat q))%Z by lia. apply wrap_opp. exact Hb.
Qed.

Lemma circ_shift x x' k h w a b s t i j : (0 < h)%nat -> (0 < w)%nat ->
  (forall p q, (p < h)%nat -> (q < w)%nat -> at_ x' [(p + s) mod h; (q + t) mod w]%nat = at_ x [p; q]) ->
  circ_at x' k h w a b ((i + s) mod h)%nat ((j + t) mod w)%nat = circ_at x k h w a b i j.
Proof.
  intros Hh Hw E. unfold circ_at. rewrite <- (sumn_rot h s). apply sumn_ext. intros p Hp. rewrite <- (sumn_rot w t). apply sumn_ext. intros q Hq.
  rewrite E by assumption. f_equal.
  assert (G : forall n m u v, (0 < n)%nat -> exists z, (Z.of_nat ((u + m) mod n) - Z.of_nat ((v + m) mod n) = Z.of_nat u - Z.of_nat v + Z.of_nat n * z)%Z).
  { intros n m u v Hn. pose proof (Nat.div_mod (u + m) n ltac:(lia)). pose proof (Nat.div_mod (v + m) n ltac:(lia)).
    exists (Z.of_nat ((v + m) / n) - Z.of_nat ((u + m) / n))%Z. nia. }
  destruct (G h s i p Hh) as (z & ->). destruct (G w t j q Hw) as (z' & ->). rewrite !wrap_period by assumption. reflexivity.
Qed.

Lemma circ_inside x k h w c d i j : (2 * c + 1 <= h)%nat -> (2 * d + 1 <= w)%nat -> (c <= i < h - c)%nat -> (d <= j < w - d)%nat ->
  circ_at x k h w (2 * c + 1) (2 * d + 1) i j = conv_at x k h w (2 * c + 1) (2 * d + 1) i j.
Proof.
  intros Hc Hd Hi Hj. unfold circ_at, conv_at. apply sumn_ext. intros p Hp. apply sumn_ext. intros q Hq. f_equal.
  apply kz_same; apply wrap_inside; lia.
Qed.

Lemma kz_out_l k a b s t : (s < 0 \/ Z.of_nat a <= s)%Z -> kz k a b s t = 0.
Proof. intros H. unfold kz. destruct (Z.leb_spec 0 s); destruct (Z.ltb_spec s (Z.of_nat a)); cbn; try reflexivity. lia. Qed.
Lemma kz_out_r k a b s t : (t < 0 \/ Z.of_nat b <= t)%Z -> kz k a b s t = 0.
Proof. intros H. unfold kz. destruct (Z.leb_spec 0 s); destruct (Z.ltb_spec s (Z.of_nat a)); destruct (Z.leb_spec 0 t); destruct (Z.ltb_spec t (Z.of_nat b)); cbn; try reflexivity. lia. Qed.
Lemma kz_in k a b s t : (s < a)%nat -> (t < b)%nat -> kz k a b (Z.of_nat s) (Z.of_nat t) = at_ k [s; t].
Proof.
  intros Hs Ht. unfold kz. destruct (Z.leb_spec 0 (Z.of_nat s)); [|lia]. destruct (Z.ltb_spec (Z.of_nat s) (Z.of_nat a)); [|lia].
  destruct (Z.leb_spec 0 (Z.of_nat t)); [|lia]. destruct (Z.ltb_spec (Z.of_nat t) (Z.of_nat b)); [|lia]. cbn. rewrite !Nat2Z.id. reflexivity.
Qed.

Definition total (h w : nat) (x : nda R) : R := sumn h (fun i => sumn w (fun j => at_ x [i; j])).

Lemma circ_total x k h w a b : (0 < a <= h)%nat -> (0 < b <= w)%nat ->
  sumn h (fun i => sumn w (fun j => circ_at x k h w a b i j)) = total h w x * total a b k.
Proof.
  intros Ha Hb. unfold circ_at, total.
  transitivity (sumn h (fun p => sumn w (fun q => at_ x [p; q] * sumn h (fun i => sumn w (fun j =>
     kz k a b (wrap h a (Z.of_nat i - Z.of_nat p)) (wrap w b (Z.of_nat j - Z.of_nat q))))))).
  { set (T := fun i j p q => at_ x [p; q] * kz k a b (wrap h a (Z.of_nat i - Z.of_nat p)) (wrap w b (Z.of_nat j - Z.of_nat q))).
    transitivity (sumn h (fun i => sumn h (fun p => sumn w (fun j => sumn w (fun q => T i j p q))))); [apply sumn_ext; intros i _; apply sumn_swap|].
    rewrite sumn_swap. apply sumn_ext. intros p _.
    transitivity (sumn h (fun i => sumn w (fun q => sumn w (fun j => T i j p q)))); [apply sumn_ext; intros i _; apply sumn_swap|].
    rewrite sumn_swap. apply sumn_ext. intros q _. rewrite <- sumn_scal. apply sumn_ext. intros i _. rewrite <- sumn_scal. reflexivity. }
  rewrite <- sumn_scal_r. apply sumn_ext. intros p Hp. rewrite <- sumn_scal_r. apply sumn_ext. intros q Hq. f_equal.
  transitivity (sumn h (fun i => sumn b (fun t => kz k a b (wrap h a (Z.of_nat i - Z.of_nat p)) (Z.of_nat t)))).
  { apply sumn_ext. intros i _. apply (sum_wrap w b q (fun t => kz k a b (wrap h a (Z.of_nat i - Z.of_nat p)) t)); [lia|lia|exact Hq|].
    intros t Ht. apply kz_out_r. exact Ht. }
  rewrite (sum_wrap h a p (fun s => sumn b (fun t => kz k a b s (Z.of_nat t)))); [|lia|lia|exact Hp|].
  - apply sumn_ext. intros s Hs. apply sumn_ext. intros t Ht. apply kz_in; assumption.
  - intros s Hs. rewrite (sumn_ext b _ (fun _ => 0)); [apply sumn_0|]. intros t _. apply kz_out_l. exact Hs.
Qed.

(** * Stacks and filter banks with any convolution *)
Section Bank.
Variable conv : nda R -> nda R -> res (nda R).
Variables h w a b : nat.
Variable val : nda R -> nda R -> nat -> nat -> R.
Hypothesis conv_ok : forall x k, shape x = [h; w] -> shape k = [a; b] ->
  exists y, conv x k = Ok y /\ shape y = [h; w] /\ forall i j, at_ y [i; j] = val x k i j.
Hypothesis val_adjoint : forall x y k k', shape k = [a; b] -> is_half_turn k k' ->
  sumn h (fun i => sumn w (fun j => val x k i j * at_ y [i; j])) = sumn h (fun i => sumn w (fun j => at_ x [i; j] * val y k' i j)).

Let arr (x k : nda R) : nda R := match conv x k with Ok y => y | Err _ => dflt end.
Lemma conv_arr_ok x k : shape x = [h; w] -> shape k = [a; b] ->
  conv x k = Ok (arr x k) /\ shape (arr x k) = [h; w] /\ forall i j, at_ (arr x k) [i; j] = val x k i j.
Proof. intros Hx Hk. destruct (conv_ok x k Hx Hk) as (y & E & Sy & Ay). unfold arr. rewrite E. auto. Qed.

Lemma bank_forward x filters m : shape filters = [m; a; b] -> (0 < m)%nat -> shape x = [h; w] ->
  exists M, filter_convolve_m conv x filters false = Ok M /\ shape M = [m; h; w] /\
    forall f i j, (f < m)%nat -> at_ M [f; i; j] = val x (sub0 filters f) i j.
Proof.
  intros Hf Hm Hx. unfold filter_convolve_m. rewrite (items_seq _ _ _ Hf).
  assert (Hs : forall k, shape (sub0 filters k) = [a; b]) by (intros; cbn; rewrite Hf; reflexivity).
  rewrite (mapM_map _ (fun k => arr x k)) by (intros; apply conv_arr_ok; auto).
  cbn [bind]. destruct (stack_map (fun k => arr x (sub0 filters k)) m [h; w]) as (M & E & Sh & At); [exact Hm|intros; apply conv_arr_ok; auto|].
  exists M. split; [exact E|]. split; [exact Sh|]. intros f i j Hfm. rewrite At by exact Hfm. apply conv_arr_ok; auto.
Qed.

Lemma bank_adjoint y filters rf m : shape filters = [m; a; b] -> (0 < m)%nat -> shape y = [m; h; w] ->
  rotate_stack filters = Ok rf -> shape rf = shape filters ->
  exists M, filter_convolve_m conv y filters true = Ok M /\ shape M = [h; w] /\
    forall i j, at_ M [i; j] = sumn m (fun f => val (sub0 y f) (sub0 rf f) i j).
Proof.
  intros Hf Hm Hy Er Sr. unfold filter_convolve_m. rewrite Er. cbn [bind]. rewrite Hf in Sr.
  assert (S1 : forall k, shape (sub0 y k) = [h; w]) by (intros; cbn; rewrite Hy; reflexivity).
  assert (S2 : forall k, shape (sub0 rf k) = [a; b]) by (intros; cbn; rewrite Sr; reflexivity).
  rewrite (items_seq _ _ _ Sr), (items_seq _ _ _ Hy), combine_map_seq.
  rewrite (mapM_map _ (fun p => arr (fst p) (snd p))) by (intros k _; cbn [fst snd]; apply (conv_arr_ok _ _ (S1 k) (S2 k))).
  cbn [bind fst snd]. destruct (sum_arrays_spec (fun k => arr (sub0 y k) (sub0 rf k)) m [h; w]) as (M & E & Sh & At); [exact Hm|intros; apply conv_arr_ok; auto|].
  exists M. split; [exact E|]. split; [exact Sh|]. intros i j. rewrite At. apply sumn_ext. intros f _. apply conv_arr_ok; auto.
Qed.

Lemma bank_stack_adjoint filters x y n m :
  shape filters = [m; a; b] -> shape x = [n; h; w] -> shape y = [n; m; h; w] -> (0 < n)%nat -> (0 < m)%nat ->
  exists u v, filter_convolve_stack_m conv x filters false = Ok u /\ filter_convolve_stack_m conv y filters true = Ok v /\
    shape u = [n; m; h; w] /\ shape v = [n; h; w] /\ dot4 n m h w u y = dot3 n h w x v.
Proof.
  intros Hf Hx Hy Hn Hm.
  destruct (rotate_stack_spec filters m a b [] Hf Hm) as (rf & Er & Sr & Ht).
  unfold filter_convolve_stack_m.
  assert (Sx : forall k, shape (sub0 x k) = [h; w]) by (intros; cbn; rewrite Hx; reflexivity).
  assert (Sy : forall k, shape (sub0 y k) = [m; h; w]) by (intros; cbn; rewrite Hy; reflexivity).
  destruct (stack_of_results (fun e => filter_convolve_m conv e filters false) x n [h; w] [m; h; w] Hx Hn) as (u & Eu & Su & Au).
  { intros k _. destruct (bank_forward (sub0 x k) filters m) as (M & E & Sh & _); eauto. }
  destruct (stack_of_results (fun e => filter_convolve_m conv e filters true) y n [m; h; w] [h; w] Hy Hn) as (v & Ev & Sv & Av).
  { intros k _. destruct (bank_adjoint (sub0 y k) filters rf m) as (M & E & Sh & _); eauto. }
  exists u, v. split; [exact Eu|]. split; [exact Ev|]. split; [exact Su|]. split; [exact Sv|].
  unfold dot4, dot3. apply sumn_ext. intros k Hk.
  destruct (bank_forward (sub0 x k) filters m) as (M & EM & _ & AM); auto.
  destruct (bank_adjoint (sub0 y k) filters rf m) as (N & EN & _ & AN); auto.
  transitivity (sumn m (fun f => sumn h (fun i => sumn w (fun j => at_ (sub0 x k) [i; j] * val (sub0 (sub0 y k) f) (sub0 rf f) i j)))).
  - apply sumn_ext. intros f Hfm. unfold dot2.
    rewrite <- (val_adjoint (sub0 x k) (sub0 (sub0 y k) f) (sub0 filters f) (sub0 rf f));
      [| cbn; rewrite Hf; reflexivity | apply Ht; exact Hfm].
    apply sumn_ext. intros i _. apply sumn_ext. intros j _. f_equal.
    cbn [sub0 at_]. rewrite (Au k M Hk EM). apply AM. exact Hfm.
  - unfold dot2. rewrite sumn_swap. apply sumn_ext. intros i _. rewrite sumn_swap. apply sumn_ext. intros j _.
    rewrite sumn_scal. f_equal. cbn [sub0 at_]. rewrite (Av k N Hk EN). rewrite AN. reflexivity.
Qed.

(** convolve_stack on stacks of n data and m kernels. *)
Lemma stack_values x ks n m : shape x = [n; h; w] -> shape ks = [m; a; b] -> (0 < Nat.min n m)%nat ->
  exists M, convolve_stack conv x ks false = Ok M /\ shape M = [Nat.min n m; h; w] /\
    forall f i j, (f < Nat.min n m)%nat -> at_ M [f; i; j] = val (sub0 x f) (sub0 ks f) i j.
Proof.
  intros Hx Hk Hn. unfold convolve_stack. cbn [bind].
  rewrite (items_seq _ _ _ Hx), (items_seq _ _ _ Hk).
  assert (S1 : forall k, shape (sub0 x k) = [h; w]) by (intros; cbn; rewrite Hx; reflexivity).
  assert (S2 : forall k, shape (sub0 ks k) = [a; b]) by (intros; cbn; rewrite Hk; reflexivity).
  assert (C : combine (map (sub0 x) (seq 0 n)) (map (sub0 ks) (seq 0 m)) = map (fun i => (sub0 x i, sub0 ks i)) (seq 0 (Nat.min n m))).
  { generalize 0%nat. clear. revert m. induction n as [|n IH]; intros m s; [reflexivity|]. destruct m as [|m]; [reflexivity|]. cbn. f_equal. apply IH. }
  rewrite C. rewrite (mapM_map _ (fun p => arr (fst p) (snd p))) by (intros k _; cbn [fst snd]; apply (conv_arr_ok _ _ (S1 k) (S2 k))).
  cbn [bind fst snd]. destruct (stack_map (fun k => arr (sub0 x k) (sub0 ks k)) (Nat.min n m) [h; w]) as (M & E & Sh & At); [exact Hn|intros; apply conv_arr_ok; auto|].
  exists M. split; [exact E|]. split; [exact Sh|]. intros f i j Hf. rewrite At by exact Hf. apply conv_arr_ok; auto.
Qed.

Lemma stack_rot_adjoint x y ks n : shape x = [n; h; w] -> shape y = [n; h; w] -> shape ks = [n; a; b] -> (0 < n)%nat ->
  exists u v, convolve_stack conv x ks false = Ok u /\ convolve_stack conv y ks true = Ok v /\
    shape u = [n; h; w] /\ shape v = [n; h; w] /\ forall f, (f < n)%nat -> dot2 h w (sub0 u f) (sub0 y f) = dot2 h w (sub0 x f) (sub0 v f).
Proof.
  intros Hx Hy Hk Hn. destruct (rotate_stack_spec ks n a b [] Hk Hn) as (rf & Er & Sr & Ht). rewrite Hk in Sr.
  destruct (stack_values x ks n n Hx Hk) as (u & Eu & Su & Au); [rewrite Nat.min_id; exact Hn|].
  destruct (stack_values y rf n n Hy Sr) as (v & Ev & Sv & Av); [rewrite Nat.min_id; exact Hn|].
  rewrite Nat.min_id in *. exists u, v. split; [exact Eu|]. split.
  { unfold convolve_stack. rewrite Er. exact Ev. }
  split; [exact Su|]. split; [exact Sv|]. intros f Hf. unfold dot2. cbn [sub0 at_].
  transitivity (sumn h (fun i => sumn w (fun j => val (sub0 x f) (sub0 ks f) i j * at_ (sub0 y f) [i; j]))).
  { apply sumn_ext. intros i _. apply sumn_ext. intros j _. rewrite Au by exact Hf. reflexivity. }
  rewrite (val_adjoint (sub0 x f) (sub0 y f) (sub0 ks f) (sub0 rf f)); [|cbn; rewrite Hk; reflexivity|apply Ht; exact Hf].
  apply sumn_ext. intros i _. apply sumn_ext. intros j _. rewrite Av by exact Hf. reflexivity.
Qed.
End Bank.
