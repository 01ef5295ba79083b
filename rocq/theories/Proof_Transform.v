From Verif Require Import NPReal Py Model_Array Model_Transform Spec_Transform Proof_Array.
Open Scope nat_scope.

(** * cube2matrix / matrix2cube *)

Lemma flat_pos_ravel s idx : flat_pos s idx = ravel s idx.
Proof. revert idx; induction s as [|d s IH]; intros [|i idx]; cbn; try reflexivity; try (rewrite IH; reflexivity). Qed.

Lemma unravel_cons_block s i p : p < prod s -> forall n, unravel (n :: s) (i * prod s + p) = i :: unravel s p.
Proof. intros Hp n. cbn [unravel]. rewrite div_mul_add, mod_mul_add by lia. reflexivity. Qed.

Lemma cube2matrix_spec {A} (cube : nda A) n s :
  shape cube = n :: s ->
  exists M, cube2matrix cube = Ok M /\ shape M = [prod s; n] /\
    forall p i, p < prod s -> at_ M [p; i] = at_ cube (i :: unravel s p).
Proof.
  intros Hs. unfold cube2matrix. rewrite Hs. unfold reshape.
  rewrite Hs. replace (prod (n :: s) =? prod [n; prod s]) with true
    by prod_eqb.
  cbn [bind]. eexists. split; [reflexivity|]. split; [reflexivity|].
  intros p i Hp. cbn [transpose at_ rev app]. f_equal.
  replace (ravel [n; prod s] [i; p]) with (i * prod s + p) by ravel_eq.
  apply unravel_cons_block; auto.
Qed.

Lemma matrix2cube_spec {A} (m : nda A) p n s :
  shape m = [p; n] -> p = prod s ->
  exists C, matrix2cube m s = Ok C /\ shape C = n :: s /\
    forall i idx, in_range s idx -> i < n -> at_ C (i :: idx) = at_ m [ravel s idx; i].
Proof.
  intros Hs ->. unfold matrix2cube. rewrite Hs. cbn [nth_error]. unfold reshape.
  cbn [transpose shape at_]. rewrite Hs. cbn [rev app].
  replace (prod [n; prod s] =? prod (n :: s)) with true by prod_eqb.
  eexists. split; [reflexivity|]. split; [reflexivity|].
  intros i idx Hi Hn. cbn [at_ ravel].
  pose proof (ravel_lt _ _ Hi) as Hlt.
  replace (i * prod s + ravel s idx) with (ravel [n; prod s] [i; ravel s idx]) by ravel_eq.
  rewrite unravel_ravel by (cbn; lia). reflexivity.
Qed.

Lemma cube_matrix_roundtrip {A} (cube : nda A) n s :
  shape cube = n :: s ->
  exists M C, cube2matrix cube = Ok M /\ columns_are_images cube M n s /\
    matrix2cube M s = Ok C /\ arr_eq C cube.
Proof.
  intros Hs. destruct (cube2matrix_spec cube n s Hs) as (M & HM & Hsh & Hat).
  destruct (matrix2cube_spec M (prod s) n s Hsh eq_refl) as (C & HC & HsC & HatC).
  exists M, C. split; [exact HM|]. split; [|split; [exact HC|]].
  - split; [exact Hsh|]. intros i idx Hi Hidx. rewrite flat_pos_ravel.
    rewrite Hat by (apply ravel_lt; auto). rewrite unravel_ravel; auto.
  - split; [congruence|]. intros idx. rewrite HsC. destruct idx as [|i idx]; cbn [in_range]; [tauto|].
    intros [Hi Hidx]. rewrite HatC by auto. rewrite Hat by (apply ravel_lt; auto).
    rewrite unravel_ravel; auto.
Qed.

Lemma matrix_cube_roundtrip {A} (m : nda A) p n s :
  shape m = [p; n] -> p = fold_right Nat.mul 1 s ->
  exists C M, matrix2cube m s = Ok C /\ cube2matrix C = Ok M /\ arr_eq M m.
Proof.
  intros Hs Hp. destruct (matrix2cube_spec m p n s Hs Hp) as (C & HC & HsC & HatC).
  destruct (cube2matrix_spec C n s HsC) as (M & HM & Hsh & Hat).
  exists C, M. split; [exact HC|]. split; [exact HM|]. split.
  - rewrite Hsh, Hs, Hp. reflexivity.
  - intros idx. rewrite Hsh. destruct idx as [|q [|i [|? ?]]]; cbn [in_range]; try tauto.
    intros (Hq & Hi & _). rewrite Hat by auto.
    rewrite HatC by (auto using unravel_in_range). rewrite ravel_unravel by auto. reflexivity.
Qed.

(** * cube2map / map2cube *)

Lemma cube2map_mosaic {A} (cube : nda A) a b h w :
  shape cube = [a * b; h; w] -> 0 < a -> 0 < b ->
  exists M, cube2map cube (a, b) = Ok M /\ is_mosaic cube M a b h w.
Proof.
  intros Hs Ha Hb. unfold cube2map. rewrite Hs. cbn [length nth Nat.eqb negb].
  rewrite Nat.eqb_refl. cbn [negb].
  set (row := fun e => map (sub0 cube) (seq (b * e) b)).
  assert (Hrow : forall e, e < a -> slice0 cube (b * e) (b * (e + 1)) = row e).
  { intros e He. rewrite (slice0_spec _ _ _ (a * b) [h; w]) by (auto; nia).
    unfold row. do 2 f_equal. nia. }
  assert (Hok : forall e, e < a -> exists M, hstack (row e) = Ok M /\ shape M = [h; b * w] /\
     forall r k c, k < b -> c < w -> at_ M [r; k * w + c] = at_ cube [b * e + k; r; c]).
  { intros e He. destruct (hstack_spec (sub0 cube 0) h w (row e)) as (M & HM & HsM & HatM).
    - unfold row. destruct b; [lia|]. cbn. discriminate.
    - unfold row. apply Forall_forall. intros x Hx. apply in_map_iff in Hx.
      destruct Hx as (k & <- & _). cbn [sub0 shape]. rewrite Hs. reflexivity.
    - assert (HL : length (row e) = b) by (unfold row; rewrite map_length, seq_length; reflexivity).
      rewrite HL in *. exists M. split; [auto|]. split; [auto|].
      intros r k c Hk Hc. rewrite HatM by auto. unfold row. rewrite map_nth.
      rewrite seq_nth by auto. reflexivity. }
  assert (Hrows : exists rows, mapM (fun e => hstack (slice0 cube (b * e) (b * (e + 1)))) (seq 0 a) = Ok rows
     /\ length rows = a /\ Forall (fun x => shape x = [h; b * w]) rows /\
     forall d i r k c, i < a -> k < b -> c < w -> at_ (nth i rows d) [r; k * w + c] = at_ cube [b * i + k; r; c]).
  { assert (Hgen : forall n st, st + n <= a -> exists rows,
       mapM (fun e => hstack (slice0 cube (b * e) (b * (e + 1)))) (seq st n) = Ok rows
       /\ length rows = n /\ Forall (fun x => shape x = [h; b * w]) rows /\
       forall d i r k c, i < n -> k < b -> c < w -> at_ (nth i rows d) [r; k * w + c] = at_ cube [b * (st + i) + k; r; c]).
    { induction n as [|n IH]; intros st Hst.
      - exists []. cbn. repeat split; auto. intros; lia.
      - cbn [seq mapM]. rewrite Hrow by lia. destruct (Hok st) as (M & HM & HsM & HatM); [lia|].
        rewrite HM. cbn [bind]. destruct (IH (S st)) as (rows & HR & HL & HF & HatR); [lia|].
        rewrite HR. cbn [bind]. exists (M :: rows). split; [reflexivity|]. split; [cbn; lia|].
        split; [constructor; auto|]. intros d [|i] r k c Hi Hk Hc; cbn [nth].
        + rewrite HatM by auto. replace (st + 0) with st by lia. reflexivity.
        + rewrite HatR by (auto; lia). replace (st + S i) with (S st + i) by lia. reflexivity. }
    destruct (Hgen a 0) as (rows & H1 & H2 & H3 & H4); [lia|]. exists rows. auto. }
  destruct Hrows as (rows & HR & HL & HF & HatR). rewrite HR. cbn [bind].
  destruct (vstack_spec (sub0 cube 0) h (b * w) rows) as (M & HM & HsM & HatM); auto.
  { destruct rows; cbn in HL; [lia|discriminate]. }
  rewrite HL in *. exists M. split; [auto|]. split; [auto|]. split; [auto|].
  intros i j r s Hi Hj Hr Hsl. rewrite HatM by auto. rewrite HatR by auto.
  replace (b * i + j) with (i * b + j) by lia. reflexivity.
Qed.

Lemma map2cube_mosaic {A} (m : nda A) a b h w :
  shape m = [a * h; b * w] -> 0 < a -> 0 < b ->
  exists C, map2cube m (a, b) = Ok C /\ is_mosaic C m a b h w.
Proof.
  intros Hs Ha Hb. unfold map2cube. rewrite Hs.
  replace ((a =? 0) || (b =? 0)) with false
    by (destruct a; [lia|]; destruct b; [lia|]; reflexivity).
  rewrite (Nat.mul_comm a h), Nat.mod_mul by lia. cbn [Nat.eqb negb andb].
  rewrite Nat.div_mul by lia. rewrite (Nat.mul_comm b w), Nat.div_mul by lia.
  set (tile := fun i j => slice2 m (i * h) ((i + 1) * h) (j * w) ((j + 1) * w)).
  set (l := flat_map _ _).
  assert (HL : length l = a * b).
  { unfold l. rewrite (length_flat_map_uniform _ b); [rewrite seq_length; reflexivity|].
    intros. rewrite map_length, seq_length. reflexivity. }
  assert (Hsh : forall i j, i < a -> j < b -> shape (tile i j) = [h; w]).
  { intros i j Hi Hj. unfold tile, slice2. cbn [shape]. rewrite Hs. cbn [nth].
    rewrite !Nat.min_l by nia. idx_eq. }
  destruct (stack_spec (tile 0 0) [h; w] l) as (C & HC & HsC & HatC).
  - destruct l; cbn in HL; [nia|discriminate].
  - unfold l. apply Forall_forall. intros x Hx. apply in_flat_map in Hx.
    destruct Hx as (i & Hi & Hx). apply in_map_iff in Hx. destruct Hx as (j & <- & Hj).
    apply in_seq in Hi. apply in_seq in Hj. apply Hsh; lia.
  - exists C. split; [exact HC|]. rewrite HL in *. split; [auto|]. split; [auto|].
    intros i j r s Hi Hj Hr Hsl. rewrite HatC by nia.
    unfold l. rewrite (nth_flat_map_uniform _ b (tile 0 0) 0);
      [ | intros; rewrite map_length, seq_length; reflexivity | rewrite seq_length; auto | auto].
    rewrite (nth_indep _ (tile 0 0) ((fun j => tile (nth i (seq 0 a) 0) j) 0)) by (rewrite map_length, seq_length; auto).
    rewrite (map_nth (fun j => tile (nth i (seq 0 a) 0) j)). rewrite !seq_nth by auto.
    unfold tile, slice2. cbn [at_]. rewrite Hs. cbn [nth]. rewrite !Nat.min_l by nia. reflexivity.
Qed.

Lemma mosaic_unique_cube {A} (c1 c2 m : nda A) a b h w :
  is_mosaic c1 m a b h w -> is_mosaic c2 m a b h w -> arr_eq c1 c2.
Proof.
  intros (H1 & H2 & H3) (K1 & K2 & K3). split; [congruence|].
  intros idx. rewrite H1. destruct idx as [|k [|r [|s [|? ?]]]]; cbn [in_range]; try tauto.
  intros (Hk & Hr & Hs & _).
  assert (0 < b) by nia.
  assert (Hi : k / b < a) by (apply Nat.div_lt_upper_bound; lia).
  assert (Hj : k mod b < b) by (apply Nat.mod_upper_bound; lia).
  replace k with (k / b * b + k mod b) by (rewrite (Nat.div_mod k b) at 3; lia).
  rewrite <- H3, <- K3 by auto. reflexivity.
Qed.

Lemma mosaic_unique_map {A} (c m1 m2 : nda A) a b h w :
  is_mosaic c m1 a b h w -> is_mosaic c m2 a b h w -> arr_eq m1 m2.
Proof.
  intros (H1 & H2 & H3) (K1 & K2 & K3). split; [congruence|].
  intros idx. rewrite H2. destruct idx as [|p [|q [|? ?]]]; cbn [in_range]; try tauto.
  intros (Hp & Hq & _).
  assert (0 < h) by nia. assert (0 < w) by nia.
  assert (Hi : p / h < a) by (apply Nat.div_lt_upper_bound; lia).
  assert (Hj : q / w < b) by (apply Nat.div_lt_upper_bound; lia).
  assert (Hr : p mod h < h) by (apply Nat.mod_upper_bound; lia).
  assert (Hs : q mod w < w) by (apply Nat.mod_upper_bound; lia).
  replace p with (p / h * h + p mod h) by (rewrite (Nat.div_mod p h) at 3; lia).
  replace q with (q / w * w + q mod w) by (rewrite (Nat.div_mod q w) at 3; lia).
  rewrite H3, K3 by auto. reflexivity.
Qed.

Lemma cube_map_roundtrip {A} (cube : nda A) a b h w :
  shape cube = [a * b; h; w] -> 0 < a -> 0 < b ->
  exists M C, cube2map cube (a, b) = Ok M /\ is_mosaic cube M a b h w /\
    map2cube M (a, b) = Ok C /\ arr_eq C cube.
Proof.
  intros Hs Ha Hb. destruct (cube2map_mosaic cube a b h w Hs Ha Hb) as (M & HM & Hmos).
  destruct (map2cube_mosaic M a b h w) as (C & HC & Hmos'); auto; [apply Hmos|].
  exists M, C. repeat (split; [assumption|]). eapply mosaic_unique_cube; eauto.
Qed.

Lemma map_cube_roundtrip {A} (m : nda A) a b h w :
  shape m = [a * h; b * w] -> 0 < a -> 0 < b ->
  exists C M, map2cube m (a, b) = Ok C /\ cube2map C (a, b) = Ok M /\ arr_eq M m.
Proof.
  intros Hs Ha Hb. destruct (map2cube_mosaic m a b h w Hs Ha Hb) as (C & HC & Hmos).
  destruct (cube2map_mosaic C a b h w) as (M & HM & Hmos'); auto; [apply Hmos|].
  exists C, M. repeat (split; [assumption|]). eapply mosaic_unique_map; eauto.
Qed.

(** What the layout check does establish: rejection when both dimensions are bad. *)
Lemma map2cube_rejects_both_bad {A} (m : nda A) h w a b :
  shape m = [h; w] -> 0 < a -> 0 < b -> h mod a <> 0 -> w mod b <> 0 ->
  map2cube m (a, b) = Err ValueError.
Proof.
  intros Hs Ha Hb H1 H2. unfold map2cube. rewrite Hs.
  destruct a; [lia|]. destruct b; [lia|]. cbn [Nat.eqb orb].
  apply Nat.eqb_neq in H1, H2. rewrite H1, H2. reflexivity.
Qed.

(** The pixels silently lost when exactly one dimension is bad: any map whose height is a
    multiple of [a] but whose width is not a multiple of [b] is accepted and the
    last [w mod b] columns are dropped. *)
Lemma map2cube_drops {A} (m : nda A) h w a b :
  shape m = [h; w] -> 0 < a -> 0 < b -> h mod a = 0 -> w mod b <> 0 ->
  exists C, map2cube m (a, b) = Ok C /\ shape C = [a * b; h / a; w / b] /\ prod (shape C) + h * (w mod b) = prod (shape m).
Proof.
  intros Hs Ha Hb H1 H2. unfold map2cube. rewrite Hs.
  replace ((a =? 0) || (b =? 0)) with false
    by (destruct a; [lia|]; destruct b; [lia|]; reflexivity).
  rewrite H1. cbn [Nat.eqb negb andb].
  set (l := flat_map _ _).
  assert (HL : length l = a * b).
  { unfold l. rewrite (length_flat_map_uniform _ b); [rewrite seq_length; reflexivity|].
    intros. rewrite map_length, seq_length. reflexivity. }
  pose proof (Nat.div_mod h a ltac:(lia)) as Eh. pose proof (Nat.div_mod w b ltac:(lia)) as Ew.
  destruct (stack_spec m [h / a; w / b] l) as (C & HC & HsC & _).
  - destruct l; cbn in HL; [nia|discriminate].
  - unfold l. apply Forall_forall. intros x Hx. apply in_flat_map in Hx.
    destruct Hx as (i & Hi & Hx). apply in_map_iff in Hx. destruct Hx as (j & <- & Hj).
    apply in_seq in Hi. apply in_seq in Hj. unfold slice2; cbn [shape]. rewrite Hs; cbn [nth].
    rewrite !Nat.min_l by nia. idx_eq.
  - exists C. rewrite HL in HsC. split; [exact HC|]. split; [exact HsC|].
    rewrite HsC. rewrite ?prod_cons, ?prod_nil. nia.
Qed.

(** * map2matrix / matrix2map *)

Lemma map2matrix_square {A} (m : nda A) a b n :
  shape m = [a * n; b * n] -> 0 < a -> 0 < b ->
  exists M, map2matrix m (a, b) = Ok M /\ shape M = [n * n; a * b] /\
    forall r s i, r < n -> s < n -> i < a * b ->
      at_ M [r * n + s; i] = at_ m [n * (i / b) + r; n * (i mod b) + s].
Proof.
  intros Hs Ha Hb. unfold map2matrix. rewrite Hs.
  replace ((a =? 0) || (b =? 0)) with false
    by (destruct a; [lia|]; destruct b; [lia|]; reflexivity).
  rewrite (Nat.mul_comm a n), Nat.div_mul by lia.
  set (tile := fun i => slice2 m (n * (i / b)) (n * (i / b + 1)) (n * (i mod b)) (n * (i mod b + 1))).
  set (flat := fun i => mk_nda [n * n] (fun idx => at_ (tile i) (unravel (shape (tile i)) (ravel [n * n] idx)))).
  assert (Hdiv : forall i, i < a * b -> i / b < a /\ i mod b < b).
  { intros i Hi. split; [apply Nat.div_lt_upper_bound; lia | apply Nat.mod_upper_bound; lia]. }
  assert (Hsh : forall i, i < a * b -> shape (tile i) = [n; n]).
  { intros i Hi. destruct (Hdiv i Hi). unfold tile, slice2; cbn [shape]. rewrite Hs; cbn [nth].
    rewrite !Nat.min_l by nia. idx_eq. }
  rewrite (mapM_ok _ flat).
  2:{ intros i Hi. apply in_seq in Hi. fold (tile i). unfold reshape. rewrite Hsh by lia.
      replace (prod [n; n] =? prod [n * n]) with true by prod_eqb.
      unfold flat. rewrite Hsh by lia. reflexivity. }
  cbn [bind].
  destruct (stack_spec (flat 0) [n * n] (map flat (seq 0 (a * b)))) as (S & HS & HsS & HatS).
  - rewrite <- length_zero_iff_nil, map_length, seq_length. nia.
  - apply Forall_forall. intros x Hx. apply in_map_iff in Hx. destruct Hx as (i & <- & _). reflexivity.
  - rewrite HS. cbn [bind]. rewrite map_length, seq_length in *. eexists. split; [reflexivity|].
    cbn [transpose shape at_]. rewrite HsS. split; [reflexivity|].
    intros r s i Hr Hsl Hi. cbn [rev app]. rewrite HatS by auto.
    rewrite map_nth, seq_nth by auto. cbn [plus]. unfold flat; cbn [at_].
    rewrite Hsh by auto.
    replace (ravel [n * n] [r * n + s]) with (ravel [n; n] [r; s]) by ravel_eq.
    rewrite unravel_ravel by (cbn; lia).
    destruct (Hdiv i Hi). unfold tile, slice2; cbn [at_]. rewrite Hs; cbn [nth].
    rewrite !Nat.min_l by nia. reflexivity.
Qed.

Lemma assign_tiles (temp : nda R) a b n : 0 < b -> 0 < n ->
  forall k, k <= a * b ->
  exists M, fold_left (fun acc i => do m <- acc;
            if b =? 0 then Err NotModelled else
            assign2 m (n * (i / b)) (n * (i / b + 1))
                      (n * (i mod b)) (n * (i mod b + 1))
                    (mk_nda [n; n] (fun idx => at_ temp [nth 0 idx 0; nth 1 idx 0; i])))
          (seq 0 k) (Ok (mk_nda [a * n; b * n] (fun _ => 0%R))) = Ok M /\
   shape M = [a * n; b * n] /\
   forall i r s, i < k -> r < n -> s < n ->
     at_ M [n * (i / b) + r; n * (i mod b) + s] = at_ temp [r; s; i].
Proof.
  intros Hb Hn. induction k as [|k IH]; intros Hk.
  - eexists. split; [reflexivity|]. split; [reflexivity|]. intros; lia.
  - destruct IH as (M & HM & HsM & HatM); [lia|].
    rewrite seq_S, fold_left_app, HM. cbn [fold_left bind plus].
    destruct (Nat.eqb_spec b 0) as [|_]; [lia|].
    assert (Hi : k / b < a) by (apply Nat.div_lt_upper_bound; lia).
    assert (Hj : k mod b < b) by (apply Nat.mod_upper_bound; lia).
    unfold assign2. rewrite HsM. cbn [shape]. cbv zeta.
    rewrite !Nat.min_l by nia.
    replace (n * (k / b + 1) - n * (k / b) =? n) with true by (symmetry; apply Nat.eqb_eq; nia).
    replace (n * (k mod b + 1) - n * (k mod b) =? n) with true by (symmetry; apply Nat.eqb_eq; nia).
    cbn [andb]. eexists. split; [reflexivity|]. split; [reflexivity|].
    intros i r s Hik Hr Hs. cbn [at_ nth].
    destruct (Nat.eq_dec i k) as [->|Hne].
    + replace (n * (k / b) <=? n * (k / b) + r) with true by (symmetry; apply Nat.leb_le; lia).
      replace (n * (k / b) + r <? n * (k / b + 1)) with true by (symmetry; apply Nat.ltb_lt; nia).
      replace (n * (k mod b) <=? n * (k mod b) + s) with true by (symmetry; apply Nat.leb_le; lia).
      replace (n * (k mod b) + s <? n * (k mod b + 1)) with true by (symmetry; apply Nat.ltb_lt; nia).
      cbn [andb]. do 2 f_equal; [lia|]. f_equal; lia.
    + rewrite <- (HatM i r s) by (auto; lia).
      match goal with |- (if ?c then _ else _) = _ => destruct c eqn:Hc end; [exfalso|reflexivity].
      rewrite !andb_true_iff, !Nat.leb_le, !Nat.ltb_lt in Hc. destruct Hc as (((H1 & H2) & H3) & H4).
      assert (i / b = k / b) by nia. assert (i mod b = k mod b) by nia.
      apply Hne. rewrite (Nat.div_mod i b), (Nat.div_mod k b) by lia. congruence.
Qed.

Lemma matrix_map_trunc (m : nda R) a b n :
  shape m = [a * n; b * n] -> 0 < a -> 0 < b -> 0 < n ->
  exists M M', map2matrix m (a, b) = Ok M /\ matrix2map M (a * n) (b * n) = Ok M' /\
    shape M' = shape m /\
    forall idx, in_range (shape m) idx -> at_ M' idx = trunc (at_ m idx).
Proof.
  intros Hs Ha Hb Hn. destruct (map2matrix_square m a b n Hs Ha Hb) as (M & HM & HsM & HatM).
  exists M. unfold matrix2map. rewrite HsM. rewrite Nat.sqrt_square.
  destruct (Nat.eqb_spec n 0) as [|_]; [lia|]. rewrite Nat.div_mul by lia.
  unfold reshape. rewrite HsM.
  replace (prod [n * n; a * b] =? prod [n; n; a * b]) with true by prod_eqb.
  cbn [bind].
  set (temp := mk_nda [n; n; a * b] _).
  destruct (assign_tiles temp a b n Hb Hn (a * b) (le_n _)) as (T & HT & HsT & HatT).
  rewrite HT. cbn [bind]. eexists. split; [exact HM|]. split; [reflexivity|].
  cbn [shape at_]. split; [congruence|].
  intros idx. rewrite Hs. destruct idx as [|p [|q [|? ?]]]; cbn [in_range]; try tauto.
  intros (Hp & Hq & _). f_equal.
  assert (Hi : p / n < a) by (apply Nat.div_lt_upper_bound; lia).
  assert (Hj : q / n < b) by (apply Nat.div_lt_upper_bound; lia).
  assert (Hr : p mod n < n) by (apply Nat.mod_upper_bound; lia).
  assert (Hsl : q mod n < n) by (apply Nat.mod_upper_bound; lia).
  set (k := p / n * b + q / n).
  assert (Hk : k < a * b) by (unfold k; nia).
  assert (E1 : k / b = p / n) by (apply div_mul_add; auto).
  assert (E2 : k mod b = q / n) by (apply mod_mul_add; auto).
  pose proof (HatT k (p mod n) (q mod n) Hk Hr Hsl) as H1. rewrite E1, E2 in H1.
  rewrite <- !Nat.div_mod in H1 by lia. rewrite H1.
  unfold temp; cbn [at_].
  replace (ravel [n; n; a * b] [p mod n; q mod n; k]) with (ravel [n * n; a * b] [p mod n * n + q mod n; k])
    by ravel_eq.
  rewrite unravel_ravel by (cbn; nia).
  rewrite HatM by auto. rewrite E1, E2. rewrite <- !Nat.div_mod by lia. reflexivity.
Qed.

Lemma matrix_map_roundtrip_int (m : nda R) a b n :
  shape m = [a * n; b * n] -> 0 < a -> 0 < b -> 0 < n -> all_pixels is_integer m ->
  exists M M', map2matrix m (a, b) = Ok M /\ matrix2map M (a * n) (b * n) = Ok M' /\
    shape M' = shape m /\
    forall idx, in_range (shape m) idx -> IZR (at_ M' idx) = at_ m idx.
Proof.
  intros Hs Ha Hb Hn Hint. destruct (matrix_map_trunc m a b n Hs Ha Hb Hn) as (M & M' & H1 & H2 & H3 & H4).
  exists M, M'. repeat (split; [assumption|]). intros idx Hidx. rewrite H4 by auto.
  destruct (Hint idx Hidx) as (z & ->). rewrite trunc_IZR. reflexivity.
Qed.

Lemma trunc_half : trunc (1 / 2) = 0%Z.
Proof.
  unfold trunc. destruct (Rle_dec 0 (1 / 2)); [|lra].
  apply Int_part_unique. cbn. lra.
Qed.

Lemma matrix_map_half :
  let m := mk_nda [1; 1] (fun _ => (1 / 2)%R) in
  exists M M', map2matrix m (1, 1) = Ok M /\ matrix2map M 1 1 = Ok M' /\ IZR (at_ M' [0; 0]) <> at_ m [0; 0].
Proof.
  intros m. destruct (matrix_map_trunc m 1 1 1 eq_refl) as (M & M' & H1 & H2 & H3 & H4); try lia.
  exists M, M'. split; [exact H1|]. split; [exact H2|]. rewrite H4 by (cbn; lia).
  unfold m; cbn [at_]. rewrite trunc_half. lra.
Qed.

(** Tiles that are wider than high are silently cropped by map2matrix. *)
Lemma map2matrix_crops {A} (m : nda A) a b h w :
  shape m = [a * h; b * w] -> 0 < a -> 0 < b -> h <= w ->
  exists M, map2matrix m (a, b) = Ok M /\ shape M = [h * h; a * b].
Proof.
  intros Hs Ha Hb Hle. unfold map2matrix. rewrite Hs.
  replace ((a =? 0) || (b =? 0)) with false
    by (destruct a; [lia|]; destruct b; [lia|]; reflexivity).
  rewrite (Nat.mul_comm a h), Nat.div_mul by lia.
  set (tile := fun i => slice2 m (h * (i / b)) (h * (i / b + 1)) (h * (i mod b)) (h * (i mod b + 1))).
  set (flat := fun i => mk_nda [h * h] (fun idx => at_ (tile i) (unravel (shape (tile i)) (ravel [h * h] idx)))).
  assert (Hsh : forall i, i < a * b -> shape (tile i) = [h; h]).
  { intros i Hi. assert (i / b < a) by (apply Nat.div_lt_upper_bound; lia).
    assert (i mod b < b) by (apply Nat.mod_upper_bound; lia).
    unfold tile, slice2; cbn [shape]. rewrite Hs; cbn [nth].
    rewrite !Nat.min_l by nia. idx_eq. }
  rewrite (mapM_ok _ flat).
  2:{ intros i Hi. apply in_seq in Hi. fold (tile i). unfold reshape. rewrite Hsh by lia.
      replace (prod [h; h] =? prod [h * h]) with true by prod_eqb.
      unfold flat. rewrite Hsh by lia. reflexivity. }
  cbn [bind].
  destruct (stack_spec (flat 0) [h * h] (map flat (seq 0 (a * b)))) as (S & HS & HsS & HatS).
  - rewrite <- length_zero_iff_nil, map_length, seq_length. nia.
  - apply Forall_forall. intros x Hx. apply in_map_iff in Hx. destruct Hx as (i & <- & _). reflexivity.
  - rewrite HS. cbn [bind]. rewrite map_length, seq_length in *. eexists. split; [reflexivity|].
    cbn [transpose shape]. rewrite HsS. reflexivity.
Qed.
