(** Property theorems C98-C100: trim_filter, get_mr_filters, execute and call_mr_transform. *)
From Coq Require Import String Ascii.
From Verif Require Import NPReal Py Model_Array Proof_Array Model_NpAdjust Spec_NpAdjust Model_Linear Spec_Linear Proof_Linear Proof_Conv Model_MR Spec_MR Proof_MR.
From Coq Require Import Lia ZArith.
Import List ListNotations.
Local Open Scope string_scope.
Local Open Scope R_scope.

(** * C98 *)

(** trim_filter returns the smallest box of entries containing every non-zero one, and that box is unique. *)
Theorem C98_bounding_box :
  forall a h w, shape a = [h; w] -> (exists i j, in_range (shape a) [i; j] /\ at_ a [i; j] <> 0) ->
  exists r i0 j0 bh bw, trim_filter a = Ok r /\ is_box a r i0 j0 bh bw /\ bounding_box a i0 j0 bh bw /\
    (i0 + bh <= h)%nat /\ (j0 + bw <= w)%nat /\
    forall i1 j1 ch cw, bounding_box a i1 j1 ch cw -> i1 = i0 /\ j1 = j0 /\ ch = bh /\ cw = bw.
Proof.
  intros a h w Sa Nz. destruct (trim_ok a h w Sa Nz) as (r & i0 & j0 & bh & bw & E & B1 & B2 & L1 & L2).
  exists r, i0, j0, bh, bw. repeat (split; [assumption|]). intros i1 j1 ch cw B3.
  exact (box_unique a i1 j1 ch cw i0 j0 bh bw B3 B2).
Qed.
Print Assumptions C98_bounding_box.

(** A filter without non-zero entries has no such box: ValueError. *)
Theorem C98_zero_filter :
  forall a h w, shape a = [h; w] -> (forall i j, in_range (shape a) [i; j] -> at_ a [i; j] = 0) -> trim_filter a = Err ValueError.
Proof. exact trim_zero. Qed.
Print Assumptions C98_zero_filter.

(** Trimming twice changes nothing more. *)
Theorem C98_idempotent :
  forall a r, trim_filter a = Ok r -> exists r', trim_filter r = Ok r' /\ arr_eq r' r.
Proof.
  intros a r E. assert (S2 : exists h w, shape a = [h; w]).
  { unfold trim_filter in E. destruct (shape a) as [|h [|w [|? ?]]]; try discriminate; [|eauto]. destruct (nat_min _); discriminate. }
  destruct S2 as (h & w & Sa).
  assert (Nz : exists i j, in_range (shape a) [i; j] /\ at_ a [i; j] <> 0).
  { unfold trim_filter in E. rewrite Sa in E. destruct (where_axis a 0) as [|c l] eqn:El; [discriminate E|].
    assert (I : In c (where_axis a 0)) by (rewrite El; left; reflexivity). apply where_axis_in in I. destruct I as (idx & Ri & N & _).
    rewrite Sa in *. destruct (range2 _ _ _ Ri) as (i & j & -> & _). eauto. }
  destruct (trim_ok a h w Sa Nz) as (r0 & i0 & j0 & bh & bw & E0 & [Sr Ar] & B2 & L1 & L2).
  assert (r0 = r) by congruence. subst r0. clear E0.
  assert (B : bounding_box r 0 0 bh bw).
  { destruct B2 as (K & (q1 & R1 & N1) & (q2 & R2 & N2) & (p1 & R3 & N3) & (p2 & R4 & N4) & Hb & Hw).
    pose proof (K _ _ R1 N1). pose proof (K _ _ R2 N2). pose proof (K _ _ R3 N3). pose proof (K _ _ R4 N4).
    unfold bounding_box. rewrite Sr. cbn. split; [intros i j (Hi & Hj & _) _; lia|].
    split; [exists (q1 - j0)%nat; split; [lia|]; rewrite Ar by lia; replace (i0 + 0)%nat with i0 by lia; replace (j0 + (q1 - j0))%nat with q1 by lia; exact N1|].
    split; [exists (q2 - j0)%nat; split; [lia|]; rewrite Ar by lia; replace (i0 + (bh - 1))%nat with (i0 + bh - 1)%nat by lia; replace (j0 + (q2 - j0))%nat with q2 by lia; exact N2|].
    split; [exists (p1 - i0)%nat; split; [lia|]; rewrite Ar by lia; replace (j0 + 0)%nat with j0 by lia; replace (i0 + (p1 - i0))%nat with p1 by lia; exact N3|].
    split; [exists (p2 - i0)%nat; split; [lia|]; rewrite Ar by lia; replace (j0 + (bw - 1))%nat with (j0 + bw - 1)%nat by lia; replace (i0 + (p2 - i0))%nat with p2 by lia; exact N4|].
    lia. }
  destruct (trim_ok r bh bw Sr) as (r' & k0 & l0 & ch & cw & E' & [Sr' Ar'] & B' & _).
  { destruct B as (_ & (q1 & R1 & N1) & _). eauto. }
  destruct (box_unique _ _ _ _ _ _ _ _ _ B' B) as (-> & -> & -> & ->).
  exists r'. split; [exact E'|]. split; [congruence|]. intros idx Ri. rewrite Sr' in Ri.
  destruct (range2 _ _ _ Ri) as (i & j & -> & Hi & Hj). rewrite Ar' by assumption. reflexivity.
Qed.
Print Assumptions C98_idempotent.

(** Trimming a filter that equals its own half turn does not change what it does to any image. *)
Theorem C98_symmetric_filter_acts_alike :
  forall a h w, shape a = [h; w] -> (exists i j, in_range (shape a) [i; j] /\ at_ a [i; j] <> 0) ->
  (forall i j, (i < h)%nat -> (j < w)%nat -> at_ a [h - 1 - i; w - 1 - j]%nat = at_ a [i; j]) ->
  exists r, trim_filter a = Ok r /\
    forall x H W, shape x = [H; W] -> exists y z, convolve x a = Ok y /\ convolve x r = Ok z /\ arr_eq y z.
Proof.
  intros a h w Sa Nz Sym. destruct (trim_ok a h w Sa Nz) as (r & i0 & j0 & bh & bw & E & B1 & B2 & L1 & L2).
  destruct (symmetric_centred a h w i0 j0 bh bw Sa B2 Sym) as [C1 C2]. exists r. split; [exact E|]. intros x H W Sx.
  pose proof B2 as (_ & _ & _ & _ & _ & Hb & Hw).
  destruct (convolve_spec x a H W h w Sx Sa) as (y & Ey & Sy & Ay); [lia|lia|].
  destruct (convolve_spec x r H W bh bw Sx (proj1 B1)) as (z & Ez & Sz & Az); [lia|lia|].
  exists y, z. split; [exact Ey|]. split; [exact Ez|]. split; [congruence|]. intros idx Ri. rewrite Sy in Ri.
  destruct (range2 _ _ _ Ri) as (i & j & -> & Hi & Hj). rewrite Ay, Az.
  assert (D : forall p q n, (2 * p + q = n)%nat -> ((Z.of_nat n - 1) / 2 = Z.of_nat p + (Z.of_nat q - 1) / 2)%Z).
  { intros p q n <-. replace (Z.of_nat (2 * p + q) - 1)%Z with (Z.of_nat q - 1 + Z.of_nat p * 2)%Z by lia. rewrite Z.div_add by lia. lia. }
  apply (conv_box x a r H W h w i0 j0 bh bw i j Sa B1 B2 L1 L2 (D _ _ _ C1) (D _ _ _ C2)).
Qed.
Print Assumptions C98_symmetric_filter_acts_alike.

(** Without the symmetry the trimmed filter can act differently: a shift by one pixel is trimmed to the
    identity. *)
Definition shift_filter : nda R := mk_nda [1; 3]%nat (fun idx => match idx with [_; 0%nat] => 1 | _ => 0 end).
Definition two_pixels : nda R := mk_nda [1; 2]%nat (fun idx => match idx with [_; 0%nat] => 3 | _ => 5 end).
Lemma shift_trim : exists r, trim_filter shift_filter = Ok r /\ shape r = [1; 1]%nat /\ at_ r [0; 0]%nat = 1.
Proof.
  destruct (trim_ok shift_filter 1 3 eq_refl) as (r & i0 & j0 & bh & bw & E & [Sr Ar] & B2 & L1 & L2).
  { exists 0%nat, 0%nat. cbn. split; [lia|lra]. }
  assert (B : bounding_box shift_filter 0 0 1 1).
  { unfold bounding_box. cbn. split.
    - intros i j (Hi & Hj & _) N. destruct i as [|i]; [|lia]. destruct j as [|j]; [lia|]. exfalso. apply N. reflexivity.
    - split; [exists 0%nat|split; [exists 0%nat|split; [exists 0%nat|split; [exists 0%nat|lia]]]]; (split; [lia|lra]). }
  destruct (box_unique _ _ _ _ _ _ _ _ _ B2 B) as (-> & -> & -> & ->).
  exists r. split; [exact E|]. split; [exact Sr|]. rewrite Ar by lia. reflexivity.
Qed.
Theorem C98_any_filter_acts_alike_refuted :
  exists a x r y z i j, trim_filter a = Ok r /\ convolve x a = Ok y /\ convolve x r = Ok z /\
    in_range (shape x) [i; j] /\ at_ y [i; j] <> at_ z [i; j].
Proof.
  destruct shift_trim as (r & E & Sr & Ar). exists shift_filter, two_pixels, r.
  destruct (convolve_spec two_pixels shift_filter 1 2 1 3 eq_refl eq_refl) as (y & Ey & Sy & Ay); [lia|lia|].
  destruct (convolve_spec two_pixels r 1 2 1 1 eq_refl Sr) as (z & Ez & Sz & Az); [lia|lia|].
  exists y, z, 0%nat, 0%nat. split; [exact E|]. split; [exact Ey|]. split; [exact Ez|]. split; [cbn; lia|].
  rewrite Ay, Az. unfold conv_at, kz. cbn [sumn Z.of_nat Z.add Z.sub Z.div at_ two_pixels shift_filter].
  replace ((Z.of_nat 0 + (Z.of_nat 1 - 1) / 2 - Z.of_nat 0)%Z) with 0%Z by reflexivity. cbn. change (Pos.to_nat 1) with 1%nat. change (Pos.to_nat 2) with 2%nat. rewrite Ar. cbn. lra.
Qed.
Print Assumptions C98_any_filter_acts_alike_refuted.

Example C98_example : exists r, trim_filter shift_filter = Ok r /\ shape r = [1; 1]%nat.
Proof. destruct shift_trim as (r & E & Sr & _). eauto. Qed.

(** * C99 *)

(** The transform [mr] convolves with the centred kernels [ks 0], ..., [ks (n-1)]. *)
Definition convolves_with (mr : nda R -> res (nda R)) (n : nat) (ks : nat -> nda R) : Prop :=
  forall x h w, shape x = [h; w] -> exists m, mr x = Ok m /\ shape m = [n; h; w] /\
    forall s, (s < n)%nat -> exists y, convolve x (ks s) = Ok y /\ forall i j, (i < h)%nat -> (j < w)%nat -> at_ m [s; i; j] = at_ y [i; j].

Lemma odd_size_spec h : (0 < h)%nat -> exists c, odd_size h = (2 * c + 1)%nat /\ (2 * c + 1 <= h <= 2 * c + 2)%nat.
Proof.
  intros Hh. unfold odd_size. pose proof (Nat.div_mod h 2 ltac:(lia)). pose proof (Nat.mod_upper_bound h 2 ltac:(lia)).
  destruct (Nat.eq_dec (h mod 2) 0) as [E|E].
  - exists (h / 2 - 1)%nat. lia.
  - exists (h / 2)%nat. lia.
Qed.

(** The recorded filters reproduce the transform on every image, of whatever size: for a transform made of
    convolutions with centred kernels that fit in data_shape, filter_convolve with them is the transform
    (with the default coarse=False, all but its last scale). *)
Theorem C99_filters_reproduce_transform :
  forall mr n ks c d h w coarse, convolves_with mr n ks -> (0 < h)%nat -> (0 < w)%nat -> (if coarse : bool then (1 <= n)%nat else (2 <= n)%nat) ->
  (forall s, (s < n)%nat -> shape (ks s) = [2 * c s + 1; 2 * d s + 1]%nat /\ (2 * c s + 1 <= h)%nat /\ (2 * d s + 1 <= w)%nat) ->
  exists F, get_mr_filters mr [h; w] coarse false = Ok F /\
    forall x H W, shape x = [H; W] -> exists y m, filter_convolve x F false = Ok y /\ mr x = Ok m /\
      shape m = [n; H; W] /\ shape y = [if coarse then n else n - 1; H; W]%nat /\
      forall idx, in_range (shape y) idx -> at_ y idx = at_ m idx.
Proof.
  intros mr n ks c d h w coarse Hmr Hh Hw Hn Hk. unfold get_mr_filters.
  destruct (Nat.eqb_spec h 0) as [|_]; [lia|]. destruct (Nat.eqb_spec w 0) as [|_]; [lia|]. cbn [orb].
  destruct (odd_size_spec h Hh) as (C & -> & HC). destruct (odd_size_spec w Hw) as (D & -> & HD).
  destruct (Hmr (impulse (2 * C + 1) (2 * D + 1)) (2 * C + 1)%nat (2 * D + 1)%nat eq_refl) as (M & EM & SM & AM).
  rewrite EM. cbn [bind].
  set (m := if coarse then n else (n - 1)%nat).
  assert (Hm : (0 < m <= n)%nat) by (unfold m; destruct coarse; lia).
  set (F := if coarse then M else drop_last M).
  assert (SF : shape F = [m; 2 * C + 1; 2 * D + 1]%nat) by (unfold F, m; destruct coarse; [exact SM|unfold drop_last; cbn [shape]; rewrite SM; reflexivity]).
  assert (AF : forall idx, at_ F idx = at_ M idx) by (unfold F; destruct coarse; reflexivity).
  exists F. split; [unfold F; destruct coarse; reflexivity|]. clearbody F m.
  intros x H W Sx. destruct (Hmr x H W Sx) as (mx & Emx & Smx & Amx).
  assert (Q : forall s, (s < m)%nat -> exists y, convolve x (sub0 F s) = Ok y /\ shape y = [H; W] /\
     forall i j, (i < H)%nat -> (j < W)%nat -> at_ y [i; j] = at_ mx [s; i; j]).
  { intros s Hs. destruct (Hk s ltac:(lia)) as (Sk & Hc & Hd).
    destruct (convolve_spec x (sub0 F s) H W (2 * C + 1) (2 * D + 1) Sx) as (y & Ey & Sy & Ay);
      [unfold sub0; cbn [shape]; rewrite SF; reflexivity|lia|lia|].
    exists y. split; [exact Ey|]. split; [exact Sy|]. intros i j Hi Hj. rewrite Ay.
    destruct (Amx s ltac:(lia)) as (z & Ez & Az). rewrite Az by assumption.
    destruct (convolve_spec x (ks s) H W _ _ Sx Sk) as (z' & Ez' & _ & Az'); [lia|lia|]. assert (z' = z) by congruence. subst z'. rewrite Az'.
    apply recorded_acts; [unfold sub0; cbn [shape]; rewrite SF; reflexivity|lia|lia|].
    intros p q Hp Hq. unfold sub0. cbn [at_]. rewrite AF. destruct (AM s ltac:(lia)) as (u & Eu & Au). rewrite Au by assumption.
    destruct (convolve_spec (impulse (2 * C + 1) (2 * D + 1)) (ks s) (2 * C + 1) (2 * D + 1) _ _ eq_refl Sk) as (u' & Eu' & _ & Au'); [lia|lia|].
    assert (u' = u) by congruence. subst u'. apply Au'. }
  destruct (stack_of_results (convolve x) F m [2 * C + 1; 2 * D + 1]%nat [H; W] SF) as (y & Ey & Sy & Ay); [lia| |].
  { intros k Hk'. destruct (Q k Hk') as (z & Ez & Sz & _). eauto. }
  exists y, mx. split; [exact Ey|]. split; [exact Emx|]. split; [exact Smx|]. split; [exact Sy|].
  intros idx Ri. rewrite Sy in Ri. destruct idx as [|s [|i [|j [|? ?]]]]; cbn in Ri; try tauto. destruct Ri as (Hs & Hi & Hj & _).
  destruct (Q s Hs) as (z & Ez & Sz & Az). rewrite (Ay s z Hs Ez). apply Az; assumption.
Qed.
Print Assumptions C99_filters_reproduce_transform.

(** The transform is run on an image whose sizes are the largest odd numbers not above data_shape, zero but
    for a 1 in the exact middle; the result is what it returns, the last scale removed unless coarse. *)
Theorem C99_impulse_response :
  forall mr h w coarse, (0 < h)%nat -> (0 < w)%nat ->
  exists C D x, (2 * C + 1 <= h <= 2 * C + 2)%nat /\ (2 * D + 1 <= w <= 2 * D + 2)%nat /\ shape x = [2 * C + 1; 2 * D + 1]%nat /\
    (forall i j, at_ x [i; j] = if (Nat.eqb i C && Nat.eqb j D)%bool then 1 else 0) /\
    (forall e, mr x = Err e -> get_mr_filters mr [h; w] coarse false = Err e) /\
    (forall m n s, mr x = Ok m -> shape m = n :: s -> exists F, get_mr_filters mr [h; w] coarse false = Ok F /\
       shape F = (if coarse then n else n - 1)%nat :: s /\ forall idx, at_ F idx = at_ m idx).
Proof.
  intros mr h w coarse Hh Hw. unfold get_mr_filters.
  destruct (Nat.eqb_spec h 0) as [|_]; [lia|]. destruct (Nat.eqb_spec w 0) as [|_]; [lia|]. cbn [orb].
  destruct (odd_size_spec h Hh) as (C & -> & HC). destruct (odd_size_spec w Hw) as (D & -> & HD).
  assert (Hn : forall e, ((2 * e + 1) / 2)%nat = e) by (intros e; replace (2 * e + 1)%nat with (1 + e * 2)%nat by lia; rewrite Nat.div_add by lia; reflexivity).
  exists C, D, (impulse (2 * C + 1) (2 * D + 1)). split; [exact HC|]. split; [exact HD|]. split; [reflexivity|]. split.
  { intros i j. unfold impulse. cbn [at_ nth]. rewrite !Hn. reflexivity. }
  split; [intros e ->; reflexivity|]. intros m n s -> Sm. cbn [bind]. destruct coarse.
  - exists m. auto.
  - exists (drop_last m). split; [reflexivity|]. split; [unfold drop_last; cbn [shape]; rewrite Sm; reflexivity|reflexivity].
Qed.
Print Assumptions C99_impulse_response.

(** trim=True keeps each scale's bounding box; the call succeeds exactly when the boxes have one size. *)
Theorem C99_trim :
  forall mr h w m n H W, (0 < h)%nat -> (0 < w)%nat -> (0 < n)%nat -> mr (impulse (odd_size h) (odd_size w)) = Ok m -> shape m = [n; H; W] ->
  forall (i0 j0 bh bw : nat -> nat), (forall s, (s < n)%nat -> bounding_box (sub0 m s) (i0 s) (j0 s) (bh s) (bw s)) ->
  ((forall s, (s < n)%nat -> bh s = bh 0%nat /\ bw s = bw 0%nat) ->
     exists F, get_mr_filters mr [h; w] true true = Ok F /\ shape F = [n; bh 0; bw 0]%nat /\
       forall s i j, (s < n)%nat -> (i < bh 0)%nat -> (j < bw 0)%nat -> at_ F [s; i; j] = at_ m [s; i0 s + i; j0 s + j]%nat) /\
  ((exists s, (s < n)%nat /\ (bh s <> bh 0%nat \/ bw s <> bw 0%nat)) ->
     forall coarse, get_mr_filters mr [h; w] coarse true = Err ValueError).
Proof.
  intros mr h w m n H W Hh Hw Hn Em Sm i0 j0 bh bw B. unfold get_mr_filters.
  destruct (Nat.eqb_spec h 0) as [|_]; [lia|]. destruct (Nat.eqb_spec w 0) as [|_]; [lia|]. cbn [orb]. rewrite Em. cbn [bind].
  assert (T : forall s, (s < n)%nat -> exists r, trim_filter (sub0 m s) = Ok r /\ is_box (sub0 m s) r (i0 s) (j0 s) (bh s) (bw s)).
  { intros s Hs. assert (Ss : shape (sub0 m s) = [H; W]) by (unfold sub0; cbn [shape]; rewrite Sm; reflexivity).
    destruct (trim_ok (sub0 m s) H W Ss) as (r & p & q & x & y & E & B1 & B2 & _).
    { destruct (B s Hs) as (_ & (j & R1 & N1) & _). eauto. }
    destruct (box_unique _ _ _ _ _ _ _ _ _ B2 (B s Hs)) as (-> & -> & -> & ->). eauto. }
  set (g := fun a => match trim_filter a with Ok r => r | Err _ => a end).
  assert (G : forall s, (s < n)%nat -> trim_filter (sub0 m s) = Ok (g (sub0 m s)) /\ is_box (sub0 m s) (g (sub0 m s)) (i0 s) (j0 s) (bh s) (bw s)).
  { intros s Hs. destruct (T s Hs) as (r & E & Bx). unfold g. rewrite E. auto. }
  rewrite (items_seq _ _ _ Sm). rewrite (mapM_map trim_filter g (sub0 m)) by (intros s Hs; apply in_seq in Hs; apply G; lia).
  cbn [bind]. split.
  - intros Eq. destruct (stack_map (fun s => g (sub0 m s)) n [bh 0; bw 0]%nat Hn) as (F & EF & SF & AF).
    { intros s Hs. destruct (G s Hs) as [_ [Sb _]]. destruct (Eq s Hs). congruence. }
    exists F. rewrite EF. cbn [bind]. split; [reflexivity|]. split; [exact SF|]. intros s i j Hs Hi Hj. rewrite AF by exact Hs.
    destruct (G s Hs) as [_ [Sb Ab]]. destruct (Eq s Hs). rewrite Ab by lia. reflexivity.
  - intros (s & Hs & Ns) coarse. assert (E : stack (map (fun s => g (sub0 m s)) (seq 0 n)) = Err ValueError); [|rewrite E; reflexivity].
    destruct n as [|n]; [lia|]. cbn [seq map]. unfold stack. destruct (forallb _ _) eqn:Ef; [|reflexivity]. exfalso.
    rewrite forallb_forall in Ef. assert (I : In (g (sub0 m s)) (g (sub0 m 0) :: map (fun s => g (sub0 m s)) (seq 1 n))).
    { change (In (g (sub0 m s)) (map (fun s => g (sub0 m s)) (seq 0 (S n)))). apply in_map_iff. exists s. split; [reflexivity|apply in_seq; lia]. }
    specialize (Ef _ I). apply list_nat_eqb_true in Ef. destruct (G s Hs) as [_ [S1 _]]. destruct (G 0%nat Hn) as [_ [S0 _]]. rewrite S1, S0 in Ef.
    injection Ef as E1 E2. destruct Ns; contradiction.
Qed.
Print Assumptions C99_trim.

(** A transform with two scales, of 1 x 1 and 1 x 3 support. *)
Definition two_scales (x : nda R) : res (nda R) :=
  Ok (mk_nda [2; 3; 3]%nat (fun idx => match idx with
    | [0; i; j]%nat => if (Nat.eqb i 1 && Nat.eqb j 1)%bool then 1 else 0
    | [_; i; j] => if Nat.eqb i 1 then 1 else 0
    | _ => 0 end)).
Lemma two_scales_boxes m : two_scales (impulse 3 3) = Ok m -> forall s, (s < 2)%nat ->
  bounding_box (sub0 m s) 1 (match s with O => 1 | _ => 0 end)%nat 1 (match s with O => 1 | _ => 3 end)%nat.
Proof.
  intros [= <-] s Hs. destruct s as [|[|s]]; [| |lia]; unfold bounding_box; cbn.
  - split; [intros i j (Hi & Hj & _) N; destruct (Nat.eqb_spec i 1), (Nat.eqb_spec j 1); cbn in N; try lia; exfalso; apply N; reflexivity|].
    split; [exists 1%nat|split; [exists 1%nat|split; [exists 1%nat|split; [exists 1%nat|lia]]]]; (split; [lia|cbn; lra]).
  - split; [intros i j (Hi & Hj & _) N; destruct (Nat.eqb_spec i 1); try lia; exfalso; apply N; reflexivity|].
    split; [exists 1%nat|split; [exists 1%nat|split; [exists 1%nat|split; [exists 1%nat|lia]]]]; (split; [lia|cbn; lra]).
Qed.
(** The documentation promises an array with dtype('O') when the trimmed sizes differ; the call raises. *)
Theorem C99_trim_different_sizes_refuted :
  exists mr h w, (exists m, mr (impulse h w) = Ok m /\ shape m = [2; h; w]%nat) /\ get_mr_filters mr [h; w] true true = Err ValueError.
Proof.
  exists two_scales, 3%nat, 3%nat. split; [eexists; split; reflexivity|].
  destruct (C99_trim two_scales 3 3 _ 2 3 3 ltac:(lia) ltac:(lia) ltac:(lia) eq_refl eq_refl _ _ _ _ (two_scales_boxes _ eq_refl)) as [_ E].
  apply E. exists 1%nat. split; [lia|]. right. lia.
Qed.
Print Assumptions C99_trim_different_sizes_refuted.

Example C99_example : exists F, get_mr_filters two_scales [4; 3]%nat false false = Ok F /\ shape F = [1; 3; 3]%nat /\ at_ F [0; 1; 1]%nat = 1.
Proof. eexists. split; [reflexivity|]. split; reflexivity. Qed.

(** * C100 *)

(** The words that make mr_transform's output an error report. *)
Definition error_report (out : string) : Prop := exists w a b, In w ["bad"; "Error"; "Sorry"] /\ out = (a ++ w ++ b)%string.

Lemma substring_split w : w <> "" -> forall s m, substring m (String.length w) s = w -> exists a b, s = (a ++ w ++ b)%string.
Proof.
  intros Nw. assert (P : forall w s, substring 0 (String.length w) s = w -> exists b, s = (w ++ b)%string).
  { clear. induction w as [|c w IH]; intros s E; [exists s; reflexivity|]. destruct s as [|c' s]; [discriminate E|]. cbn in E. injection E as -> E.
    destruct (IH s E) as (b & ->). exists b. reflexivity. }
  induction s as [|c s IH]; intros m E.
  - exfalso. apply Nw. rewrite <- E. destruct m; destruct (String.length w); reflexivity.
  - destruct m as [|m]; [destruct (P w (String c s) E) as (b & ->); exists "", b; reflexivity|].
    assert (E' : substring m (String.length w) s = w) by (cbn in E; exact E). destruct (IH m E') as (a & b & ->). exists (String c a), b. reflexivity.
Qed.
Lemma contains_spec w s : w <> "" -> contains w s = true <-> exists a b, s = (a ++ w ++ b)%string.
Proof.
  intros Nw. unfold contains. split.
  - destruct (String.index 0 w s) as [m|] eqn:E; [|discriminate]. intros _. apply index_correct1 in E. exact (substring_split w Nw s m E).
  - intros (a & b & ->). destruct (String.index 0 w (a ++ w ++ b)) as [m|] eqn:E; [reflexivity|exfalso].
    apply (index_correct3 0 (String.length a) w _ E Nw ltac:(lia)). clear E.
    assert (Q : substring 0 (String.length w) (w ++ b) = w) by (clear; induction w as [|c w IH]; [destruct b; reflexivity|cbn; rewrite IH; reflexivity]).
    induction a as [|c a IH]; [exact Q|]. cbn. exact IH.
Qed.
Lemma reports_error_spec out : reports_error out = true <-> error_report out.
Proof.
  unfold reports_error, error_report. rewrite !Bool.orb_true_iff, !contains_spec by discriminate. split.
  - intros [[(a & b & ->)|(a & b & ->)]|(a & b & ->)]; [exists "bad", a, b|exists "Error", a, b|exists "Sorry", a, b]; cbn; tauto.
  - intros (w & a & b & [<-|[<-|[<-|[]]]] & ->); [left; left|left; right|right]; eauto.
Qed.
Lemma no_report out : ~ error_report out -> reports_error out = false.
Proof. intros N. destruct (reports_error out) eqn:E; [|reflexivity]. exfalso. apply N. apply reports_error_spec. exact E. Qed.

(** The options: a list, or a string whose words they are. *)
Definition gives (o : opt_arg) (l : list string) : Prop :=
  match o with OptStr s => exists ws, Forall word ws /\ s = String.concat " " ws /\ ws = l | OptList l' => Forall word l' /\ l' = l end.
Lemma gives_words o l : gives o l -> Forall word l /\ match o with OptStr s => Model_MR.split s | OptList l => l end = l.
Proof. destruct o as [s|l']; cbn; [intros (ws & F & -> & ->); split; [exact F|apply split_words; exact F]|intros [F ->]; auto]. Qed.

Lemma file_words path u : no_blank path -> no_blank u -> word (path ++ "mr_temp_" ++ u ++ ".fits") /\ word (path ++ "mr_temp_" ++ u ++ ".mr").
Proof.
  intros Hp Hu. split; (split; [destruct path; discriminate|]); rewrite !no_blank_app; repeat split; try assumption; unfold blank; cbn; lia.
Qed.
Lemma name_neq path u : (path ++ "mr_temp_" ++ u ++ ".fits" <> path ++ "mr_temp_" ++ u ++ ".mr")%string.
Proof. rewrite <- !append_assoc. apply suffix_neq. cbn. lia. Qed.

Section Calls.
Context {content : Type} (of_array : nda R -> content) (to_array : content -> option (nda R)).
Variable run : list string -> fs content -> fs content * string * string.
Local Notation call := (call_mr_transform content of_array to_array run).

(** One call, with its command line: mr_transform is given the options and the two file names. *)
Lemma call_unfold u a o l path rm f : List.length (shape a) = 2%nat -> no_blank path -> no_blank u -> gives o l ->
  let fits := (path ++ "mr_temp_" ++ u ++ ".fits")%string in
  let mr := (path ++ "mr_temp_" ++ u ++ ".mr")%string in
  f fits = None ->
  call true u (Image a) o path rm f =
  (let '(f, out, _) := run ("mr_transform" :: l ++ [fits; mr])%list (put content f fits (Some (of_array a))) in
   if reports_error out then
     match Model_MR.remove content f fits with (f, Err e) => (f, Err e) | (f, Ok _) => (f, Err RuntimeError) end
   else match f mr with
        | None => (f, Err OSError)
        | Some c => match to_array c with
          | None => (f, Err OSError)
          | Some r => if rm : bool then match Model_MR.remove content f fits with
                        | (f, Err e) => (f, Err e)
                        | (f, Ok _) => match Model_MR.remove content f mr with (f, Err e) => (f, Err e) | (f, Ok _) => (f, Ok r) end
                        end
                      else (f, Ok r)
          end
        end).
Proof.
  intros Ha Hp Hu Ho fits mr Hf. destruct (gives_words o l Ho) as [Fl El]. unfold call_mr_transform. rewrite Ha. cbn [Nat.eqb negb]. cbv zeta.
  rewrite !append_assoc. change (path ++ "mr_temp_" ++ u ++ ".fits")%string with fits. change (path ++ "mr_temp_" ++ u ++ ".mr")%string with mr.
  rewrite Hf, El. unfold execute. rewrite split_words.
  - cbv iota. destruct (run _ _) as [[f' out] err]. reflexivity.
  - constructor; [split; [discriminate|cbn; unfold blank; cbn; lia]|]. apply Forall_app. split; [exact Fl|].
    destruct (file_words path u Hp Hu) as [W1 W2]. constructor; [exact W1|]. constructor; [exact W2|constructor].
Qed.

(** mr_transform is run once, on exactly the options and the two temporary names. When it writes a
    readable output and prints no error word, the call returns that output; with remove_files=True both
    temporary files are gone afterwards and every other file is as mr_transform left it. *)
Theorem C100_success :
  forall u a o l path (rm : bool) f, List.length (shape a) = 2%nat -> no_blank path -> no_blank u -> gives o l ->
  let fits := (path ++ "mr_temp_" ++ u ++ ".fits")%string in
  let mr := (path ++ "mr_temp_" ++ u ++ ".mr")%string in
  f fits = None ->
  forall f1 out err c r, run ("mr_transform" :: l ++ [fits; mr])%list (put content f fits (Some (of_array a))) = (f1, out, err) ->
  ~ error_report out -> f1 fits <> None -> f1 mr = Some c -> to_array c = Some r ->
  exists f', call true u (Image a) o path rm f = (f', Ok r) /\
    (rm = true -> f' fits = None /\ f' mr = None /\ forall n, n <> fits -> n <> mr -> f' n = f1 n) /\
    (rm = false -> forall n, f' n = f1 n).
Proof.
  intros u a o l path rm f Ha Hp Hu Ho fits mr Hf f1 out err c r Er Ne Hfits Hmr Hc.
  rewrite (call_unfold u a o l path rm f Ha Hp Hu Ho Hf). fold fits mr. rewrite Er, (no_report _ Ne), Hmr, Hc.
  assert (Nq : fits <> mr) by apply name_neq. destruct rm; [|eexists; split; [reflexivity|]; split; [discriminate|reflexivity]].
  unfold Model_MR.remove at 1. destruct (f1 fits) as [cf|] eqn:Ef; [|congruence]. unfold Model_MR.remove, put.
  rewrite (proj2 (String.eqb_neq mr fits)) by congruence. rewrite Hmr. eexists. split; [reflexivity|]. split; [intros _|discriminate].
  rewrite (proj2 (String.eqb_neq fits mr)) by exact Nq. rewrite !String.eqb_refl. split; [reflexivity|]. split; [reflexivity|].
  intros n N1 N2. rewrite (proj2 (String.eqb_neq n mr) N2), (proj2 (String.eqb_neq n fits) N1). reflexivity.
Qed.

(** If moreover mr_transform writes nothing but its output file, the call leaves no trace. *)
Theorem C100_leaves_no_trace :
  forall u a o l path f, List.length (shape a) = 2%nat -> no_blank path -> no_blank u -> gives o l ->
  let fits := (path ++ "mr_temp_" ++ u ++ ".fits")%string in
  let mr := (path ++ "mr_temp_" ++ u ++ ".mr")%string in
  f fits = None -> f mr = None ->
  forall f1 out err c r, run ("mr_transform" :: l ++ [fits; mr])%list (put content f fits (Some (of_array a))) = (f1, out, err) ->
  ~ error_report out -> (forall n, n <> mr -> f1 n = put content f fits (Some (of_array a)) n) -> f1 mr = Some c -> to_array c = Some r ->
  exists f', call true u (Image a) o path true f = (f', Ok r) /\ forall n, f' n = f n.
Proof.
  intros u a o l path f Ha Hp Hu Ho fits mr Hf Hm f1 out err c r Er Ne Same Hmr Hc.
  assert (Nq : fits <> mr) by apply name_neq.
  destruct (C100_success u a o l path true f Ha Hp Hu Ho Hf f1 out err c r Er Ne) as (f' & E & D & _);
    [fold fits; rewrite Same by exact Nq; unfold put; rewrite String.eqb_refl; discriminate|exact Hmr|exact Hc|].
  destruct (D eq_refl) as (D1 & D2 & D3). exists f'. split; [exact E|]. intros n.
  destruct (string_dec n fits) as [E1|N1]; [rewrite E1; exact (eq_trans D1 (eq_sym Hf))|]. destruct (string_dec n mr) as [E2|N2]; [rewrite E2; exact (eq_trans D2 (eq_sym Hm))|].
  rewrite D3 by assumption. rewrite Same by exact N2. unfold put. rewrite (proj2 (String.eqb_neq n fits) N1). reflexivity.
Qed.

(** When the output contains one of the error words the call raises RuntimeError; it has then removed the
    input file, whatever remove_files says, and only that file. *)
Theorem C100_reported_error :
  forall u a o l path rm f, List.length (shape a) = 2%nat -> no_blank path -> no_blank u -> gives o l ->
  let fits := (path ++ "mr_temp_" ++ u ++ ".fits")%string in
  let mr := (path ++ "mr_temp_" ++ u ++ ".mr")%string in
  f fits = None ->
  forall f1 out err, run ("mr_transform" :: l ++ [fits; mr])%list (put content f fits (Some (of_array a))) = (f1, out, err) ->
  error_report out -> f1 fits <> None ->
  exists f', call true u (Image a) o path rm f = (f', Err RuntimeError) /\ f' fits = None /\ forall n, n <> fits -> f' n = f1 n.
Proof.
  intros u a o l path rm f Ha Hp Hu Ho fits mr Hf f1 out err Er Rep Hfits.
  rewrite (call_unfold u a o l path rm f Ha Hp Hu Ho Hf). fold fits mr. rewrite Er, (proj2 (reports_error_spec out) Rep).
  unfold Model_MR.remove. destruct (f1 fits); [|congruence]. eexists. split; [reflexivity|]. unfold put. rewrite String.eqb_refl. split; [reflexivity|].
  intros n N. rewrite (proj2 (String.eqb_neq n fits) N). reflexivity.
Qed.

(** When mr_transform leaves no readable output, without printing an error word, the call raises OSError
    and removes nothing. *)
Theorem C100_missing_output :
  forall u a o l path rm f, List.length (shape a) = 2%nat -> no_blank path -> no_blank u -> gives o l ->
  let fits := (path ++ "mr_temp_" ++ u ++ ".fits")%string in
  let mr := (path ++ "mr_temp_" ++ u ++ ".mr")%string in
  f fits = None ->
  forall f1 out err, run ("mr_transform" :: l ++ [fits; mr])%list (put content f fits (Some (of_array a))) = (f1, out, err) ->
  ~ error_report out -> (forall c, f1 mr = Some c -> to_array c = None) ->
  call true u (Image a) o path rm f = (f1, Err OSError).
Proof.
  intros u a o l path rm f Ha Hp Hu Ho fits mr Hf f1 out err Er Ne Hmr.
  rewrite (call_unfold u a o l path rm f Ha Hp Hu Ho Hf). fold fits mr. rewrite Er, (no_report _ Ne).
  destruct (f1 mr) as [c|] eqn:E; [|reflexivity]. rewrite (Hmr c eq_refl). reflexivity.
Qed.

(** Calls refused because of their arguments, because mr_transform is not installed or because the
    temporary input file exists already touch no file and run nothing. *)
Theorem C100_refused_calls_touch_nothing :
  forall u o path rm f b,
  call b u NoImage o path rm f = (f, Err ValueError) /\
  (forall a, List.length (shape a) <> 2%nat -> call b u (Image a) o path rm f = (f, Err ValueError)) /\
  (forall a, List.length (shape a) = 2%nat -> call false u (Image a) o path rm f = (f, Err OSError)) /\
  (forall a c, List.length (shape a) = 2%nat -> f (path ++ "mr_temp_" ++ u ++ ".fits") = Some c -> call true u (Image a) o path rm f = (f, Err OSError)).
Proof.
  intros u o path rm f b. split; [reflexivity|]. split; [|split].
  - intros a Ha. unfold call_mr_transform. rewrite (proj2 (Nat.eqb_neq _ _) Ha). reflexivity.
  - intros a Ha. unfold call_mr_transform. rewrite Ha. reflexivity.
  - intros a c Ha Hf. unfold call_mr_transform. rewrite Ha. cbn [Nat.eqb negb]. cbv zeta. rewrite !append_assoc, Hf. reflexivity.
Qed.

(** execute runs the words of its string, each with no blank; anything but a string is a TypeError, a
    string without words an IndexError, and then nothing is run. *)
Theorem C100_execute :
  forall f, execute content run NotStr f = (f, Err TypeError) /\
  (forall ws, Forall word ws -> ws <> [] -> execute content run (Str (String.concat " " ws)) f =
     (let '(f', out, err) := run ws f in (f', Ok (out, err)))) /\
  (forall s, Forall word (Model_MR.split s)) /\
  (forall s, Model_MR.split s = [] -> execute content run (Str s) f = (f, Err IndexError)).
Proof.
  intros f. split; [reflexivity|]. split; [|split].
  - intros ws F N. unfold execute. rewrite split_words by exact F. destruct ws; [congruence|reflexivity].
  - intros s. apply split_are_words. exact I.
  - intros s E. unfold execute. rewrite E. reflexivity.
Qed.
End Calls.
Print Assumptions C100_success.
Print Assumptions C100_leaves_no_trace.
Print Assumptions C100_reported_error.
Print Assumptions C100_missing_output.
Print Assumptions C100_refused_calls_touch_nothing.
Print Assumptions C100_execute.

(** A well-behaved program: given an input and an output name it copies the input, and prints [say] of the
    input name; given anything else it prints an error. *)
Definition copier (say : string -> string) (args : list string) (f : fs (nda R)) : fs (nda R) * string * string :=
  match args with
  | [_; i; o] => (put (nda R) f o (f i), say i, "")
  | _ => (f, "Error: usage", "")
  end.
Definition no_files : fs (nda R) := fun _ => None.
Definition pixel : nda R := mk_nda [1; 1]%nat (fun _ => 7).

(** It returns the image and leaves no file behind. *)
Example C100_example : exists f', call_mr_transform (nda R) (fun a => a) Some (copier (fun _ => "done")) true "2024_1" (Image pixel) (OptStr "") "/tmp/" true no_files
  = (f', Ok pixel) /\ forall n, f' n = None.
Proof.
  set (fits := "/tmp/mr_temp_2024_1.fits"). set (mr := "/tmp/mr_temp_2024_1.mr").
  assert (Nq : String.eqb mr fits = false) by reflexivity. assert (Nq' : String.eqb fits mr = false) by reflexivity.
  destruct (C100_leaves_no_trace (fun a => a) Some (copier (fun _ => "done")) "2024_1" pixel (OptStr "") [] "/tmp/" no_files) with
    (f1 := put (nda R) (put (nda R) no_files fits (Some pixel)) mr (Some pixel)) (out := "done") (err := "") (c := pixel) (r := pixel) as (f' & E & T).
  - reflexivity.
  - cbn. unfold blank. cbn. lia.
  - cbn. unfold blank. cbn. lia.
  - exists []. repeat split. constructor.
  - reflexivity.
  - reflexivity.
  - reflexivity.
  - intros R. apply reports_error_spec in R. discriminate R.
  - intros n N. unfold put at 1. rewrite (proj2 (String.eqb_neq n mr) N). reflexivity.
  - reflexivity.
  - reflexivity.
  - exists f'. split; [exact E|exact T].
Qed.

(** remove_files=True does not always leave the directory clean: after a reported error the output file stays, *)
Theorem C100_error_leaves_output_refuted :
  exists run u a path f' n c, call_mr_transform (nda R) (fun a => a) Some run true u (Image a) (OptStr "") path true no_files = (f', Err RuntimeError) /\ f' n = Some c.
Proof.
  exists (copier (fun _ => "bad option")), "1", pixel, "", (put (nda R) (put (nda R) (put (nda R) no_files "mr_temp_1.fits" (Some pixel)) "mr_temp_1.mr" (Some pixel)) "mr_temp_1.fits" None), "mr_temp_1.mr", pixel.
  split; reflexivity.
Qed.
Print Assumptions C100_error_leaves_output_refuted.
(** and when mr_transform writes no output, the input file stays. *)
Theorem C100_missing_output_leaves_input_refuted :
  exists run u a path f' n c, call_mr_transform (nda R) (fun a => a) Some run true u (Image a) (OptStr "") path true no_files = (f', Err OSError) /\ f' n = Some c.
Proof.
  exists (fun _ f => (f, "", "Segmentation fault")), "1", pixel, "", (put (nda R) no_files "mr_temp_1.fits" (Some pixel)), "mr_temp_1.fits", pixel.
  split; reflexivity.
Qed.
Print Assumptions C100_missing_output_leaves_input_refuted.

(** A blank in the path breaks the command line: the program that works for any two file names is run on
    other words, and the call fails. *)
Theorem C100_any_path_refuted :
  exists path u a, (forall i o f, copier (fun _ => "") ["mr_transform"; i; o] f = (put (nda R) f o (f i), "", "")) /\
  snd (call_mr_transform (nda R) (fun a => a) Some (copier (fun _ => "")) true u (Image a) (OptStr "") path true no_files) = Err RuntimeError.
Proof. exists "/my data/", "1", pixel. split; reflexivity. Qed.
Print Assumptions C100_any_path_refuted.

(** RuntimeError does not mean that mr_transform failed: it is raised too when a successful run prints the
    name of a file in a directory called badlands. *)
Theorem C100_runtime_error_means_failure_refuted :
  exists path u a, (forall i o f, copier (fun n => n) ["mr_transform"; i; o] f = (put (nda R) f o (f i), i, "")) /\
  snd (call_mr_transform (nda R) (fun a => a) Some (copier (fun n => n)) true u (Image a) (OptStr "") path true no_files) = Err RuntimeError.
Proof. exists "/badlands/", "1", pixel. split; reflexivity. Qed.
Print Assumptions C100_runtime_error_means_failure_refuted.

(** path is a prefix, not a directory: without a trailing slash the files are made beside it. *)
Theorem C100_path_is_directory_refuted :
  exists path u a f' n c, call_mr_transform (nda R) (fun a => a) Some (copier (fun _ => "")) true u (Image a) (OptStr "") path false no_files = (f', Ok a) /\
    f' n = Some c /\ String.prefix (path ++ "/") n = false /\ n = "/tmp/outmr_temp_1.mr" /\ path = "/tmp/out".
Proof.
  exists "/tmp/out", "1", pixel, (put (nda R) (put (nda R) no_files "/tmp/outmr_temp_1.fits" (Some pixel)) "/tmp/outmr_temp_1.mr" (Some pixel)), "/tmp/outmr_temp_1.mr", pixel.
  repeat split; reflexivity.
Qed.
Print Assumptions C100_path_is_directory_refuted.
