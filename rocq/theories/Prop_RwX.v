(** Theorems of C151: cwbReweight with zero weights, infinite and nan data. *)
From Verif Require Import NPReal Py IPS Model_Signal Model_Stats Model_GDX Model_SignalX Model_RwX.
From Coq Require Import List Lia.
Import ListNotations.
Local Open Scope R_scope.

Lemma rwx_snoc {I} (w : I -> R) l c : rwx_run w (l ++ [c]) = rwx_step (rwx_run w l) c.
Proof. unfold rwx_run. rewrite fold_left_app. reflexivity. Qed.
Lemma rwx_original {I} (w : I -> R) l : rx_original (rwx_run w l) = w.
Proof. induction l as [|c l IH] using rev_ind; [reflexivity|]. rewrite rwx_snoc. destruct c. exact IH. Qed.
Lemma rwx_weight {I} (w : I -> R) l n x i : rx_weights (rwx_run w (l ++ [(n, x)])) i =
  xmul (rx_weights (rwx_run w l) i) (xdiv 1 (xadd (Fin 1) (xratio (xabs (x i)) (n * w i)))).
Proof. rewrite rwx_snoc. cbn. rewrite rwx_original. reflexivity. Qed.

(** [C151] A positive weight with finite data and positive factors, whatever happens at the other entries: it stays positive, never exceeds the first
    one, and equals it exactly when all data at the entry were zero. *)
Theorem C151_positive_weight :
  forall I (w : I -> R) calls i, 0 < w i -> Forall (fun c => 0 < fst c /\ exists a, snd c i = Fin a) calls ->
  exists r, rx_weights (rwx_run w calls) i = Fin r /\ 0 < r <= w i /\ (r = w i <-> Forall (fun c => snd c i = Fin 0) calls).
Proof.
  intros I w calls i Hw F. induction calls as [|[n x] l IH] using rev_ind.
  - exists (w i). repeat split; try lra. constructor.
  - apply Forall_app in F. destruct F as [F1 F2]. inversion F2 as [|? ? [Hn [a Ha]] _]; subst. cbn [fst snd] in Hn, Ha. destruct (IH F1) as (r & E & [Hr1 Hr2] & Q).
    rewrite rwx_weight, E, Ha. cbn. assert (P : 0 < n * w i) by (apply Rmult_lt_0_compat; assumption).
    destruct (Req_EM_T (n * w i) 0); [lra|]. cbn. pose proof (Rabs_pos a) as A. set (q := Rabs a / (n * w i)).
    assert (Hq : 0 <= q) by (apply Rmult_le_pos; [exact A|left; apply Rinv_0_lt_compat, P]).
    destruct (Req_EM_T (1 + q) 0); [lra|]. eexists. split; [reflexivity|].
    assert (Hm : 0 < 1 / (1 + q) <= 1).
    { unfold Rdiv. rewrite Rmult_1_l. split; [apply Rinv_0_lt_compat; lra|]. rewrite <- Rinv_1 at 2. apply Rinv_le_contravar; lra. }
    assert (Up : r * (1 / (1 + q)) <= r) by (rewrite <- (Rmult_1_r r) at 2; apply Rmult_le_compat_l; lra).
    split; [split; [apply Rmult_lt_0_compat; lra|lra]|]. split.
    + intros Z. assert (R : r = w i) by lra. apply Forall_app. split; [apply Q, R|]. constructor; [|constructor]. cbn [snd]. rewrite Ha. f_equal.
      assert (U : 1 / (1 + q) = 1) by (apply Rmult_eq_reg_l with r; lra).
      assert (q = 0) by (apply (f_equal (fun v => v * (1 + q))) in U; field_simplify in U; lra).
      unfold q in H. apply Rmult_integral in H. destruct H as [H|H]; [|pose proof (Rinv_0_lt_compat _ P); lra].
      destruct (Req_dec a 0) as [|N]; [assumption|]. pose proof (Rabs_pos_lt _ N). lra.
    + intros G. apply Forall_app in G. destruct G as [G1 G2]. inversion G2 as [|? ? G3 _]; subst. cbn [snd] in G3. rewrite Ha in G3. injection G3 as ->.
      unfold q. rewrite Rabs_R0. rewrite (proj2 Q G1). field. lra.
Qed.
Print Assumptions C151_positive_weight.

(** [C151] A zero weight (for instance that of a scale that is not thresholded) with finite or infinite data: zero for ever if no data at the entry is zero,
    nan from the first call with zero data on. The factors do not matter. *)
Theorem C151_zero_weight :
  forall I (w : I -> R) calls i, w i = 0 -> Forall (fun c => snd c i <> NaN) calls ->
  (Forall (fun c => snd c i <> Fin 0) calls -> rx_weights (rwx_run w calls) i = Fin 0) /\
  (Exists (fun c => snd c i = Fin 0) calls -> rx_weights (rwx_run w calls) i = NaN).
Proof.
  intros I w calls i Hw F.
  assert (Fac : forall n u, u <> NaN -> (u = Fin 0 -> xdiv 1 (xadd (Fin 1) (xratio (xabs u) (n * w i))) = NaN) /\
    (u <> Fin 0 -> xdiv 1 (xadd (Fin 1) (xratio (xabs u) (n * w i))) = Fin 0)).
  { intros n u Hu. rewrite Hw, Rmult_0_r. split.
    - intros ->. cbn. rewrite Rabs_R0. destruct (Req_EM_T 0 0) as [_|N]; [|lra]. unfold inf_of. destruct (Rlt_dec 0 0); [lra|reflexivity].
    - intros Z. destruct u as [a| | |]; try congruence; cbn; try (destruct (Rlt_dec 0 0); [lra|reflexivity]).
      destruct (Req_EM_T 0 0) as [_|N]; [|lra]. unfold inf_of. assert (0 < Rabs a) by (apply Rabs_pos_lt; congruence). destruct (Rlt_dec 0 (Rabs a)); [reflexivity|lra]. }
  induction calls as [|[n x] l IH] using rev_ind; [split; [intros _; cbn; rewrite Hw; reflexivity|intros Q; inversion Q]|].
  apply Forall_app in F. destruct F as [F1 F2]. inversion F2 as [|? ? Hx _]; subst. cbn [snd] in Hx. destruct (IH F1) as [I1 I2]. rewrite rwx_weight. split.
  - intros G. apply Forall_app in G. destruct G as [G1 G2]. inversion G2 as [|? ? G3 _]; subst. rewrite (I1 G1), (proj2 (Fac n (x i) Hx) G3). cbn. f_equal. ring.
  - intros G. apply Exists_app in G. destruct G as [G|G].
    + rewrite (I2 G). reflexivity.
    + inversion G as [? ? G3|? ? G3]; subst; [|inversion G3]. cbn [snd] in G3. rewrite (proj1 (Fac n (x i) Hx) G3). destruct (rx_weights _ i); reflexivity.
Qed.
Print Assumptions C151_zero_weight.

(** [C151] The weight after any calls with finite data at the entry, in terms of the first weight: each call multiplies by n w / (n w + |x|), where w is the
    first weight, not the current one. *)
Theorem C151_closed_form :
  forall I (w : I -> R) (ns : list R) (xs : list (I -> fval)) (as_ : list R) i, 0 < w i -> length ns = length xs -> map (fun x => x i) xs = map Fin as_ ->
  Forall (fun n => 0 < n) ns ->
  rx_weights (rwx_run w (combine ns xs)) i =
    Fin (w i * fold_right Rmult 1 (map (fun p => fst p * w i / (fst p * w i + Rabs (snd p))) (combine ns as_))).
Proof.
  intros I w ns xs as_ i Hw. revert xs as_. induction ns as [|n ns IH] using rev_ind; intros xs as_ HL HM F.
  - cbn. f_equal. ring.
  - rewrite app_length in HL. cbn in HL. destruct xs as [|x xs _] using rev_ind; [cbn in HL; lia|]. rewrite app_length in HL. cbn in HL.
    destruct as_ as [|a as_ _] using rev_ind; [rewrite map_app in HM; destruct (map (fun y => y i) xs); discriminate|].
    rewrite !map_app in HM. cbn in HM. apply app_inj_tail in HM. destruct HM as [HM Ha].
    apply Forall_app in F. destruct F as [F1 F2]. inversion F2 as [|? ? Hn _]; subst.
    assert (L1 : length ns = length xs) by lia.
    assert (L2 : length ns = length as_) by (rewrite L1; apply (f_equal (@length fval)) in HM; rewrite !map_length in HM; exact HM).
    assert (Cm : forall B (l : list B) b, length ns = length l -> combine (ns ++ [n]) (l ++ [b]) = combine ns l ++ [(n, b)]).
    { intros B l b. clear. revert l. induction ns as [|m ns IH]; intros [|c l]; cbn; intros; try discriminate; [reflexivity|]. rewrite IH by lia. reflexivity. }
    rewrite (Cm _ _ _ L1), (Cm _ _ _ L2), rwx_weight, (IH xs as_ L1 HM F1), Ha. rewrite map_app, fold_right_app. cbn [map fold_right fst snd].
    assert (P : 0 < n * w i) by (apply Rmult_lt_0_compat; assumption). pose proof (Rabs_pos a) as A.
    set (g := map _ (combine ns as_)).
    assert (Fr : forall c, fold_right Rmult c g = fold_right Rmult 1 g * c).
    { intros c. induction g as [|y g IHg]; cbn; [ring|]. rewrite IHg. ring. }
    rewrite (Fr (_ * 1)). cbn. destruct (Req_EM_T (n * w i) 0); [lra|]. cbn.
    assert (Hq : 0 <= Rabs a / (n * w i)) by (apply Rmult_le_pos; [exact A|left; apply Rinv_0_lt_compat, P]).
    destruct (Req_EM_T (1 + Rabs a / (n * w i)) 0); [lra|]. cbn. f_equal. field. repeat split; try lra; intros Z; subst; lra.
Qed.
Print Assumptions C151_closed_form.

(** [C151] Infinite data make a positive weight zero, for ever unless nan data follow; nan data make any weight nan; a nan weight stays. *)
Theorem C151_special_data :
  forall I (w : I -> R) calls n x i, 0 < w i -> 0 < n -> Forall (fun c => 0 < fst c /\ exists a, snd c i = Fin a) calls ->
  let after l := rx_weights (rwx_run w l) i in
  (x i = PInf \/ x i = NInf -> forall l, Forall (fun c => 0 < fst c /\ snd c i <> NaN) l -> after (calls ++ (n, x) :: l) = Fin 0) /\
  (x i = NaN -> after (calls ++ [(n, x)]) = NaN) /\
  (forall l l', after l = NaN -> after (l ++ l') = NaN).
Proof.
  intros I w calls n x i Hw Hn F after. destruct (C151_positive_weight I w calls i Hw F) as (r & E & _). unfold after. split; [|split].
  - intros Q l. induction l as [|[m y] l IH] using rev_ind; intros G.
    + rewrite rwx_weight, E. assert (P : 0 < n * w i) by (apply Rmult_lt_0_compat; assumption).
      destruct Q as [-> | ->]; cbn; (destruct (Rlt_dec (n * w i) 0); [lra|]); cbn; f_equal; ring.
    + apply Forall_app in G. destruct G as [G1 G2]. inversion G2 as [|? ? [Hm Hy] _]; subst. cbn [fst snd] in Hm, Hy.
      change (calls ++ (n, x) :: l ++ [(m, y)]) with (calls ++ ((n, x) :: l) ++ [(m, y)]). rewrite app_assoc, rwx_weight, (IH G1).
      assert (P : 0 < m * w i) by (apply Rmult_lt_0_compat; assumption). destruct (y i) as [a| | |]; try congruence.
      * cbn. destruct (Req_EM_T (m * w i) 0); [lra|]. cbn. pose proof (Rabs_pos a) as A.
        assert (Hq : 0 <= Rabs a / (m * w i)) by (apply Rmult_le_pos; [exact A|left; apply Rinv_0_lt_compat, P]).
        destruct (Req_EM_T (1 + Rabs a / (m * w i)) 0); [lra|]. cbn. f_equal. ring.
      * cbn. destruct (Rlt_dec (m * w i) 0); [lra|]. cbn. f_equal. ring.
      * cbn. destruct (Rlt_dec (m * w i) 0); [lra|]. cbn. f_equal. ring.
  - intros Q. rewrite rwx_weight, Q. cbn. destruct (rx_weights _ i); reflexivity.
  - intros l l' Q. induction l' as [|[m y] l' IH] using rev_ind; [rewrite app_nil_r; exact Q|]. rewrite app_assoc, rwx_weight, IH. reflexivity.
Qed.
Print Assumptions C151_special_data.

(** [C151, refuted] An entry with zero data keeps its weight: not when that weight is zero, and for no weight when thresh_factor is zero. *)
Theorem C151_zero_data_refuted :
  forall I (w : I -> R) n i, w i = 0 \/ n = 0 -> rx_weights (rwx_run w [(n, fun _ => Fin 0)]) i = NaN.
Proof.
  intros I w n i Q. change [(n, fun _ : I => Fin 0)] with ([] ++ [(n, fun _ : I => Fin 0)]). rewrite rwx_weight. assert (Z : n * w i = 0) by (destruct Q as [-> | ->]; ring). rewrite Z. cbn.
  rewrite Rabs_R0. destruct (Req_EM_T 0 0) as [_|N]; [|lra]. unfold inf_of. destruct (Rlt_dec 0 0); [lra|reflexivity].
Qed.
Print Assumptions C151_zero_data_refuted.

(** Weights (2, 0), data (2, 0): the new weights are (1, nan). *)
Example C151_example :
  let w (i : bool) := if i then 2 else 0 in
  let s := rwx_run w [(1, fun i : bool => Fin (w i))] in
  rx_weights s true = Fin 1 /\ rx_weights s false = NaN.
Proof.
  intros w s. split.
  - unfold s, rwx_run. cbn. rewrite (Rabs_right 2) by lra. destruct (Req_EM_T (1 * 2) 0); [lra|]. cbn. destruct (Req_EM_T (1 + 2 / (1 * 2)) 0) as [Q|_].
    + exfalso. replace (1 + 2 / (1 * 2)) with 2 in Q by field. lra.
    + cbn. f_equal. field.
  - apply (proj2 (C151_zero_weight bool w [(1, fun i : bool => Fin (w i))] false eq_refl ltac:(constructor; [discriminate|constructor]))). constructor. reflexivity.
Qed.
