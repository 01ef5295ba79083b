(** Proofs about trim_filter, get_mr_filters, execute and call_mr_transform. *)
From Coq Require Import String Ascii.
From Verif Require Import NPReal Py Model_Array Proof_Array Model_NpAdjust Spec_NpAdjust Model_Linear Spec_Linear Proof_Linear Proof_Conv Model_MR Spec_MR.
From Coq Require Import Lia ZArith.
Import List ListNotations.
Local Open Scope R_scope.

(** * Minima and maxima *)

Lemma nat_min_spec l m : nat_min l = Ok m <-> In m l /\ forall x, In x l -> (m <= x)%nat.
Proof.
  destruct l as [|a l]; [cbn; split; [discriminate|intros [[] _]]|]. cbn [nat_min].
  assert (G : In (fold_right Nat.min a l) (a :: l) /\ forall x, In x (a :: l) -> (fold_right Nat.min a l <= x)%nat).
  { induction l as [|b l [I1 I2]]; [cbn; split; [tauto|intros x [->|[]]; lia]|]. cbn [fold_right]. split.
    - destruct (Nat.min_dec b (fold_right Nat.min a l)) as [->| ->]; [right; left; reflexivity|]. destruct I1 as [I1|I1]; [left; exact I1|right; right; exact I1].
    - intros x [->|[->|Hx]]; [specialize (I2 x (or_introl eq_refl)); lia|lia|specialize (I2 x (or_intror Hx)); lia]. }
  destruct G as [G1 G2]. split.
  - intros [= <-]. auto.
  - intros [M1 M2]. f_equal. apply Nat.le_antisymm; [apply G2; exact M1|apply M2; exact G1].
Qed.
Lemma nat_max_spec l m : nat_max l = Ok m <-> In m l /\ forall x, In x l -> (x <= m)%nat.
Proof.
  destruct l as [|a l]; [cbn; split; [discriminate|intros [[] _]]|]. cbn [nat_max].
  assert (G : In (fold_right Nat.max a l) (a :: l) /\ forall x, In x (a :: l) -> (x <= fold_right Nat.max a l)%nat).
  { induction l as [|b l [I1 I2]]; [cbn; split; [tauto|intros x [->|[]]; lia]|]. cbn [fold_right]. split.
    - destruct (Nat.max_dec b (fold_right Nat.max a l)) as [->| ->]; [right; left; reflexivity|]. destruct I1 as [I1|I1]; [left; exact I1|right; right; exact I1].
    - intros x [->|[->|Hx]]; [specialize (I2 x (or_introl eq_refl)); lia|lia|specialize (I2 x (or_intror Hx)); lia]. }
  destruct G as [G1 G2]. split.
  - intros [= <-]. auto.
  - intros [M1 M2]. f_equal. apply Nat.le_antisymm; [apply M2; exact G1|apply G2; exact M1].
Qed.
Lemma nat_min_ex l : l <> [] -> exists m, nat_min l = Ok m.
Proof. destruct l; [congruence|]. intros _. eexists. reflexivity. Qed.
Lemma nat_max_ex l : l <> [] -> exists m, nat_max l = Ok m.
Proof. destruct l; [congruence|]. intros _. eexists. reflexivity. Qed.

Lemma nonzero_spec r : nonzero r = true <-> r <> 0.
Proof. unfold nonzero. destruct (Req_EM_T r 0); split; congruence. Qed.

Lemma where_axis_in a ax c : In c (where_axis a ax) <-> exists idx, in_range (shape a) idx /\ at_ a idx <> 0 /\ nth ax idx 0%nat = c.
Proof.
  unfold where_axis. rewrite in_map_iff. split.
  - intros (p & <- & Hp). apply filter_In in Hp. destruct Hp as [Hp N]. apply in_seq in Hp. apply nonzero_spec in N.
    exists (unravel (shape a) p). split; [apply unravel_in_range; lia|]. split; [exact N|reflexivity].
  - intros (idx & Ri & N & <-). exists (ravel (shape a) idx). rewrite unravel_ravel by exact Ri. split; [reflexivity|].
    apply filter_In. rewrite unravel_ravel by exact Ri. split; [|apply nonzero_spec; exact N]. apply in_seq. pose proof (ravel_lt _ _ Ri). lia.
Qed.

Lemma range2 h w idx : in_range [h; w] idx -> exists i j, idx = [i; j] /\ (i < h)%nat /\ (j < w)%nat.
Proof. destruct idx as [|i [|j [|? ?]]]; cbn; try tauto. intros (? & ? & _). exists i, j. auto. Qed.

(** * trim_filter *)

Lemma trim_ok a h w : shape a = [h; w] -> (exists i j, in_range (shape a) [i; j] /\ at_ a [i; j] <> 0) ->
  exists r i0 j0 bh bw, trim_filter a = Ok r /\ is_box a r i0 j0 bh bw /\ bounding_box a i0 j0 bh bw /\
    (i0 + bh <= h)%nat /\ (j0 + bw <= w)%nat.
Proof.
  intros Sa (p & q & Rp & Np). unfold trim_filter. rewrite Sa.
  assert (N0 : forall ax, where_axis a ax <> []).
  { intros ax E. assert (I : In (nth ax [p; q] 0%nat) (where_axis a ax)) by (apply where_axis_in; exists [p; q]; auto). rewrite E in I. destruct I. }
  destruct (nat_min_ex _ (N0 0%nat)) as (m0 & E0). destruct (nat_min_ex _ (N0 1%nat)) as (m1 & E1).
  destruct (nat_max_ex _ (N0 0%nat)) as (M0 & F0). destruct (nat_max_ex _ (N0 1%nat)) as (M1 & F1).
  rewrite E0, E1, F0, F1. cbn [bind].
  apply nat_min_spec in E0, E1. apply nat_max_spec in F0, F1.
  destruct E0 as [E0 B0], E1 as [E1 B1], F0 as [F0 C0], F1 as [F1 C1].
  apply where_axis_in in E0, E1, F0, F1.
  assert (K : forall i j, in_range (shape a) [i; j] -> at_ a [i; j] <> 0 -> (m0 <= i <= M0)%nat /\ (m1 <= j <= M1)%nat).
  { intros i j Rij Nij. assert (I : forall ax, In (nth ax [i; j] 0%nat) (where_axis a ax)) by (intros ax; apply where_axis_in; exists [i; j]; auto).
    specialize (B0 i (I 0%nat)). specialize (B1 j (I 1%nat)). specialize (C0 i (I 0%nat)). specialize (C1 j (I 1%nat)). lia. }
  rewrite Sa in *.
  destruct E0 as (x0 & R0 & N1 & X0). destruct (range2 _ _ _ R0) as (a0 & b0 & -> & ? & ?). cbn in X0. subst a0.
  destruct E1 as (x1 & R1 & N2 & X1). destruct (range2 _ _ _ R1) as (a1 & b1 & -> & ? & ?). cbn in X1. subst b1.
  destruct F0 as (y0 & R2 & N3 & Y0). destruct (range2 _ _ _ R2) as (a2 & b2 & -> & ? & ?). cbn in Y0. subst a2.
  destruct F1 as (y1 & R3 & N4 & Y1). destruct (range2 _ _ _ R3) as (a3 & b3 & -> & ? & ?). cbn in Y1. subst b3.
  pose proof (K p q Rp Np).
  eexists. exists m0, m1, (M0 + 1 - m0)%nat, (M1 + 1 - m1)%nat. split; [reflexivity|]. split.
  { unfold is_box, slice2. rewrite Sa. cbn [nth shape at_]. split; [f_equal; [lia|f_equal; lia]|]. intros i j Hi Hj. repeat f_equal; lia. }
  split; [|lia]. unfold bounding_box. rewrite Sa.
  replace (m0 + (M0 + 1 - m0) - 1)%nat with M0 by lia. replace (m1 + (M1 + 1 - m1) - 1)%nat with M1 by lia.
  split; [intros i j Rij Nij; pose proof (K i j Rij Nij); lia|].
  split; [exists b0; auto|]. split; [exists b2; auto|]. split; [exists a1; auto|]. split; [exists a3; auto|]. lia.
Qed.

Lemma trim_zero a h w : shape a = [h; w] -> (forall i j, in_range (shape a) [i; j] -> at_ a [i; j] = 0) -> trim_filter a = Err ValueError.
Proof.
  intros Sa Z. unfold trim_filter. rewrite Sa. assert (E : where_axis a 0 = []).
  { destruct (where_axis a 0) as [|c l] eqn:E; [reflexivity|]. exfalso. assert (I : In c (where_axis a 0)) by (rewrite E; left; reflexivity).
    apply where_axis_in in I. destruct I as (idx & Ri & N & _). rewrite Sa in Ri. destruct (range2 _ _ _ Ri) as (i & j & -> & Hi & Hj).
    apply N. apply Z. rewrite Sa. exact Ri. }
  rewrite E. reflexivity.
Qed.

(** A bounding box is unique. *)
Lemma box_unique a i0 j0 bh bw i1 j1 ch cw : bounding_box a i0 j0 bh bw -> bounding_box a i1 j1 ch cw -> i0 = i1 /\ j0 = j1 /\ bh = ch /\ bw = cw.
Proof.
  intros (A & (a1 & A1 & A1') & (a2 & A2 & A2') & (a3 & A3 & A3') & (a4 & A4 & A4') & ? & ?)
         (B & (b1 & B1 & B1') & (b2 & B2 & B2') & (b3 & B3 & B3') & (b4 & B4 & B4') & ? & ?).
  pose proof (A _ _ B1 B1'). pose proof (A _ _ B2 B2'). pose proof (A _ _ B3 B3'). pose proof (A _ _ B4 B4').
  pose proof (B _ _ A1 A1'). pose proof (B _ _ A2 A2'). pose proof (B _ _ A3 A3'). pose proof (B _ _ A4 A4'). lia.
Qed.

(** Reading the box is reading the filter, shifted. *)
Lemma kz_box a r h w i0 j0 bh bw s t : shape a = [h; w] -> is_box a r i0 j0 bh bw -> bounding_box a i0 j0 bh bw ->
  (i0 + bh <= h)%nat -> (j0 + bw <= w)%nat ->
  kz a h w s t = kz r bh bw (s - Z.of_nat i0) (t - Z.of_nat j0).
Proof.
  intros Sa [Sr Ar] (K & _) Hh Hw. rewrite Sa in K. unfold kz.
  destruct (Z.leb_spec 0 s), (Z.ltb_spec s (Z.of_nat h)), (Z.leb_spec 0 t), (Z.ltb_spec t (Z.of_nat w)),
    (Z.leb_spec 0 (s - Z.of_nat i0)), (Z.ltb_spec (s - Z.of_nat i0) (Z.of_nat bh)),
    (Z.leb_spec 0 (t - Z.of_nat j0)), (Z.ltb_spec (t - Z.of_nat j0) (Z.of_nat bw)); cbn [andb]; try lia; try reflexivity;
  try (destruct (Req_dec (at_ a [Z.to_nat s; Z.to_nat t]) 0) as [E|N]; [exact E|exfalso; destruct (K (Z.to_nat s) (Z.to_nat t)); [cbn; lia|exact N|lia]]).
  rewrite Ar by lia. do 2 f_equal; [lia|]. f_equal. lia.
Qed.

Lemma conv_box x a r H W h w i0 j0 bh bw i j : shape a = [h; w] -> is_box a r i0 j0 bh bw -> bounding_box a i0 j0 bh bw ->
  (i0 + bh <= h)%nat -> (j0 + bw <= w)%nat ->
  ((Z.of_nat h - 1) / 2 = Z.of_nat i0 + (Z.of_nat bh - 1) / 2)%Z -> ((Z.of_nat w - 1) / 2 = Z.of_nat j0 + (Z.of_nat bw - 1) / 2)%Z ->
  conv_at x a H W h w i j = conv_at x r H W bh bw i j.
Proof.
  intros Sa Hb Hbb Hh Hw C1 C2. unfold conv_at. apply sumn_ext. intros p _. apply sumn_ext. intros q _. f_equal.
  rewrite (kz_box a r h w i0 j0 bh bw _ _ Sa Hb Hbb Hh Hw). f_equal; lia.
Qed.

(** The box of a filter that a half turn leaves unchanged is centred. *)
Lemma symmetric_centred a h w i0 j0 bh bw : shape a = [h; w] -> bounding_box a i0 j0 bh bw ->
  (forall i j, (i < h)%nat -> (j < w)%nat -> at_ a [h - 1 - i; w - 1 - j]%nat = at_ a [i; j]) ->
  (2 * i0 + bh = h)%nat /\ (2 * j0 + bw = w)%nat.
Proof.
  intros Sa (K & (q1 & R1 & N1) & (q2 & R2 & N2) & (p1 & R3 & N3) & (p2 & R4 & N4) & Hbh & Hbw) Sym. rewrite Sa in *.
  cbn in R1, R2, R3, R4.
  assert (G : forall i j, (i < h)%nat -> (j < w)%nat -> at_ a [i; j] <> 0 -> (i0 <= h - 1 - i < i0 + bh)%nat /\ (j0 <= w - 1 - j < j0 + bw)%nat).
  { intros i j Hi Hj N. apply K; [cbn; lia|]. rewrite Sym by assumption. exact N. }
  pose proof (proj1 (G _ _ (proj1 R1) (proj1 (proj2 R1)) N1)). pose proof (proj1 (G _ _ (proj1 R2) (proj1 (proj2 R2)) N2)).
  pose proof (proj2 (G _ _ (proj1 R3) (proj1 (proj2 R3)) N3)). pose proof (proj2 (G _ _ (proj1 R4) (proj1 (proj2 R4)) N4)).
  clear K G Sym. destruct R1 as (U1 & _), R2 as (U2 & _), R3 as (_ & U3 & _), R4 as (_ & U4 & _). split; lia.
Qed.

(** * Filters from the impulse response *)

Lemma sumn_single n c f : (c < n)%nat -> (forall i, (i < n)%nat -> i <> c -> f i = 0) -> sumn n f = f c.
Proof.
  revert c. induction n as [|n IH]; intros c Hc Z; [lia|]. cbn [sumn]. destruct (Nat.eq_dec c n) as [->|N].
  - rewrite (sumn_ext n f (fun _ => 0)) by (intros i Hi; apply Z; lia). rewrite sumn_0. ring.
  - rewrite (IH c) by (try lia; intros i Hi Ni; apply Z; lia). rewrite (Z n) by lia. ring.
Qed.

Lemma conv_impulse k h w a b i j : (0 < h)%nat -> (0 < w)%nat ->
  conv_at (impulse h w) k h w a b i j =
  kz k a b (Z.of_nat i + (Z.of_nat a - 1) / 2 - Z.of_nat (h / 2)) (Z.of_nat j + (Z.of_nat b - 1) / 2 - Z.of_nat (w / 2)).
Proof.
  intros Hh Hw. unfold conv_at. pose proof (half h). pose proof (half w).
  rewrite (sumn_single h (h / 2)).
  - rewrite (sumn_single w (w / 2)).
    + unfold impulse. cbn [at_ nth]. rewrite !Nat.eqb_refl. cbn [andb]. ring.
    + lia.
    + intros q Hq Nq. unfold impulse. cbn [at_ nth]. rewrite (proj2 (Nat.eqb_neq q (w / 2)) Nq), Bool.andb_false_r. ring.
  - lia.
  - intros p Hp Np. rewrite (sumn_ext w _ (fun _ => 0)); [apply sumn_0|].
    intros q _. unfold impulse. cbn [at_ nth]. rewrite (proj2 (Nat.eqb_neq p (h / 2)) Np). cbn [andb]. ring.
Qed.

(** The recorded response of a centred kernel, used as a kernel itself, acts in the same way. *)
Lemma recorded_acts x k F H W c d c' d' i j : shape F = [2 * c + 1; 2 * d + 1]%nat -> (c' <= c)%nat -> (d' <= d)%nat ->
  (forall i j, (i < 2 * c + 1)%nat -> (j < 2 * d + 1)%nat -> at_ F [i; j] = conv_at (impulse (2 * c + 1) (2 * d + 1)) k (2 * c + 1) (2 * d + 1) (2 * c' + 1) (2 * d' + 1) i j) ->
  conv_at x F H W (2 * c + 1) (2 * d + 1) i j = conv_at x k H W (2 * c' + 1) (2 * d' + 1) i j.
Proof.
  intros SF Hc Hd E. unfold conv_at. apply sumn_ext. intros p _. apply sumn_ext. intros q _. f_equal.
  assert (Hh : forall e, ((Z.of_nat (2 * e + 1) - 1) / 2)%Z = Z.of_nat e) by (intros e; replace (Z.of_nat (2 * e + 1) - 1)%Z with (Z.of_nat e * 2)%Z by lia; apply Z.div_mul; lia).
  assert (Hn : forall e, ((2 * e + 1) / 2)%nat = e) by (intros e; replace (2 * e + 1)%nat with (1 + e * 2)%nat by lia; rewrite Nat.div_add by lia; reflexivity).
  rewrite !Hh. set (s := (Z.of_nat i + Z.of_nat c - Z.of_nat p)%Z). set (t := (Z.of_nat j + Z.of_nat d - Z.of_nat q)%Z).
  replace (Z.of_nat i + Z.of_nat c' - Z.of_nat p)%Z with (s + Z.of_nat c' - Z.of_nat c)%Z by (unfold s; lia).
  replace (Z.of_nat j + Z.of_nat d' - Z.of_nat q)%Z with (t + Z.of_nat d' - Z.of_nat d)%Z by (unfold t; lia).
  clearbody s t.
  destruct (Z_lt_dec s 0); [rewrite !kz_out_l by lia; reflexivity|]. destruct (Z_le_dec (Z.of_nat (2 * c + 1)) s); [rewrite !kz_out_l by lia; reflexivity|].
  destruct (Z_lt_dec t 0); [rewrite !kz_out_r by lia; reflexivity|]. destruct (Z_le_dec (Z.of_nat (2 * d + 1)) t); [rewrite !kz_out_r by lia; reflexivity|].
  rewrite <- (Z2Nat.id s), <- (Z2Nat.id t) by lia. rewrite kz_in by lia. rewrite E by lia. rewrite conv_impulse by lia.
  rewrite !Hh, !Hn. reflexivity.
Qed.

(** * Command lines *)

Lemma is_space_blank c : is_space c = false <-> ~ blank c.
Proof.
  unfold is_space, blank. set (n := nat_of_ascii c). clearbody n. split.
  - intros H I. cbn in I. repeat (destruct I as [<-|I]; [discriminate H|]). destruct I.
  - intros H. destruct (Nat.leb_spec 9 n), (Nat.leb_spec n 13), (Nat.leb_spec 28 n), (Nat.leb_spec n 32), (Nat.eqb_spec n 133), (Nat.eqb_spec n 160); cbn; try reflexivity;
    exfalso; apply H; cbn; lia.
Qed.

Lemma append_assoc (a b c : string) : ((a ++ b) ++ c = a ++ (b ++ c))%string.
Proof. induction a as [|x a IH]; [reflexivity|]. cbn. rewrite IH. reflexivity. Qed.
Lemma append_nil (a : string) : (a ++ "" = a)%string.
Proof. induction a as [|x a IH]; [reflexivity|]. cbn. rewrite IH. reflexivity. Qed.

Lemma split_word w : forall cur s, no_blank w -> split_from cur (w ++ s) = split_from (cur ++ w) s.
Proof.
  induction w as [|c w IH]; intros cur s H; [cbn; rewrite append_nil; reflexivity|]. destruct H as [Hc Hw].
  cbn [append split_from]. apply is_space_blank in Hc. rewrite Hc. rewrite IH by exact Hw. rewrite append_assoc. reflexivity.
Qed.

Lemma split_words : forall ws, Forall word ws -> Model_MR.split (String.concat " " ws) = ws.
Proof.
  unfold Model_MR.split. assert (E : forall w, word w -> String.eqb w "" = false) by (intros w [N _]; apply String.eqb_neq; exact N).
  induction ws as [|w ws IH]; intros F; [reflexivity|]. inversion F as [|? ? Fw Fs]; subst. destruct ws as [|w' ws].
  - cbn [String.concat]. rewrite <- (append_nil w) at 1. rewrite split_word by apply Fw. cbn [append split_from]. rewrite E by exact Fw. reflexivity.
  - change (String.concat " " (w :: w' :: ws)) with (w ++ " " ++ String.concat " " (w' :: ws))%string.
    rewrite split_word by apply Fw. cbn [append split_from]. change (is_space " "%char) with true. cbv iota. rewrite E by exact Fw.
    rewrite IH by exact Fs. reflexivity.
Qed.

Lemma split_are_words : forall s cur, no_blank cur -> Forall word (split_from cur s).
Proof.
  induction s as [|c s IH]; intros cur H; cbn [split_from].
  - destruct (String.eqb_spec cur ""); constructor; [split; assumption|constructor].
  - destruct (is_space c) eqn:E.
    + apply Forall_app. split; [destruct (String.eqb_spec cur ""); constructor; [split; assumption|constructor]|]. apply IH. exact I.
    + apply IH. clear IH. induction cur as [|d cur IHc]; cbn; [split; [apply is_space_blank; exact E|exact I]|].
      destruct H as [Hd H]. split; [exact Hd|]. apply IHc. exact H.
Qed.

Lemma no_blank_app a b : no_blank (a ++ b) <-> no_blank a /\ no_blank b.
Proof. induction a as [|c a IH]; cbn; [tauto|]. rewrite IH. tauto. Qed.

Lemma suffix_neq (a b c : string) : (String.length b <> String.length c)%nat -> (a ++ b <> a ++ c)%string.
Proof. intros N E. apply N. induction a as [|x a IH]; cbn in E; [congruence|]. injection E as E. exact (IH E). Qed.
