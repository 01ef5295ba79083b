(** Theorems of C147: how far two vanilla descents can drift apart, with any epoch_size, any
    eta_update and gradients that change from call to call (stochastic gradient descent). *)
From Verif Require Import NPReal Py IPS Model_SetUp Spec_Opt Proof_Smooth Spec_Prox Proof_Prox Spec_GD Model_GD Proof_GD Prop_GD Proof_Ada Spec_Regret Proof_Regret Proof_Stab.
From Coq Require Import List Lia FunctionalExtensionality.
Import ListNotations.
Local Open Scope R_scope.

(** The values eta takes in a run: eta, then what eta_update makes of it. *)
Definition schedule (eta : R) (eu : option (R -> nat -> R)) (e : nat -> R) : Prop :=
  e 0%nat = eta /\ forall k, e (S k) = match eu with Some u => u (e k) k | None => e k end.

(** [C147] The first run sees the gradients of convex functions with M-Lipschitz gradients, the second
    sees anything in their place and may start elsewhere: after n updates the distance is at most the
    distance of the starts plus the sum of eta times the gradient errors, at the points of the second run. *)
Theorem C147_perturbed_gradients :
  forall I (l : list I) (complete : forall i, In i l) D h prox M f grad grad' (x0 y0 : arr I) eta eps eps' ep eu s t (e : nat -> R),
  let H := fin_ips I l complete in
  convex_on (H := H) D h -> prox_operator (H := H) D h (fun y c => prox y (full c)) ->
  0 < M -> (forall k, smooth_convex (H := H) M (f k) (grad k)) ->
  gd_init Vanilla x0 eta eps ep eu = Ok s -> gd_init Vanilla y0 eta eps' ep eu = Ok t ->
  schedule eta eu e -> (forall k, 0 < e k) -> (forall k, e k * M <= 2) ->
  let y k := d_x_new (gd_after grad' prox k t) in
  forall n, norm (H := H) (vsub (H := H) (d_x_new (gd_after grad prox n s)) (y n)) <=
  norm (H := H) (vsub (H := H) x0 y0) + sum_below n (fun k => e k * norm (H := H) (vsub (H := H) (grad k (y k)) (grad' k (y k)))).
Proof.
  intros I l complete D h prox M f grad grad' x0 y0 eta eps eps' ep eu s t e H Ch Ph HM Sf Is It [E0 ES] Pe Be y n.
  pose proof (two_apart l complete D h prox M f grad grad' x0 y0 eta eps eps' ep eu s t e Ch Ph HM Sf Is It E0 ES Pe Be 0%nat n ltac:(lia)) as Q.
  cbv beta zeta in Q. rewrite (st_start I grad prox _ _ _ _ _ _ Is), (st_start I grad' prox _ _ _ _ _ _ It) in Q. cbn [sum_below] in Q.
  rewrite Rminus_0_r in Q. exact Q.
Qed.
Print Assumptions C147_perturbed_gradients.

(** [C147] With the same gradients the two runs never move apart, at any update. *)
Theorem C147_never_apart :
  forall I (l : list I) (complete : forall i, In i l) D h prox M f grad (x0 y0 : arr I) eta eps eps' ep eu s t (e : nat -> R),
  let H := fin_ips I l complete in
  convex_on (H := H) D h -> prox_operator (H := H) D h (fun y c => prox y (full c)) ->
  0 < M -> (forall k, smooth_convex (H := H) M (f k) (grad k)) ->
  gd_init Vanilla x0 eta eps ep eu = Ok s -> gd_init Vanilla y0 eta eps' ep eu = Ok t ->
  schedule eta eu e -> (forall k, 0 < e k) -> (forall k, e k * M <= 2) ->
  let x k := d_x_new (gd_after grad prox k s) in
  let y k := d_x_new (gd_after grad prox k t) in
  forall m n, (m <= n)%nat -> norm (H := H) (vsub (H := H) (x n) (y n)) <= norm (H := H) (vsub (H := H) (x m) (y m)).
Proof.
  intros I l complete D h prox M f grad x0 y0 eta eps eps' ep eu s t e H Ch Ph HM Sf Is It [E0 ES] Pe Be x y m n Hmn.
  pose proof (two_apart l complete D h prox M f grad grad x0 y0 eta eps eps' ep eu s t e Ch Ph HM Sf Is It E0 ES Pe Be m n Hmn) as Q.
  cbv beta zeta in Q.
  assert (Z : forall j, sum_below j (fun k => e k * norm (H := H) (vsub (H := H) (grad k (y k)) (grad k (y k)))) = 0).
  { assert (V : forall v : H, norm (vsub v v) = 0).
    { intros v. replace (vsub v v) with (vzero (i := H)) by vring. unfold norm. replace (inner (i := H) vzero vzero) with 0; [apply sqrt_0|]. replace (vzero (i := H)) with (vscal (i := H) 0 vzero) at 1 by vring. rewrite inner_scal_l. ring. }
    induction j as [|j IH]; [reflexivity|]. cbn [sum_below]. rewrite IH, V. ring. }
  pose proof (Z n) as Zn. pose proof (Z m) as Zm. subst H. unfold x, y in *. rewrite Zn, Zm in Q. lra.
Qed.
Print Assumptions C147_never_apart.

(** [C147] The estimates that iterate returns. *)
Theorem C147_returned :
  forall I (l : list I) (complete : forall i, In i l) D h prox M f grad (x0 y0 : arr I) eta eps ep eu s t (e : nat -> R) metric period n a b,
  let H := fin_ips I l complete in
  convex_on (H := H) D h -> prox_operator (H := H) D h (fun y c => prox y (full c)) ->
  0 < M -> (forall k, smooth_convex (H := H) M (f k) (grad k)) ->
  gd_init Vanilla x0 eta eps ep eu = Ok s -> gd_init Vanilla y0 eta eps ep eu = Ok t -> ep <> 0%nat ->
  schedule eta eu e -> (forall k, 0 < e k) -> (forall k, e k * M <= 2) ->
  gd_iterate grad prox None metric false period n s = Ok a -> gd_iterate grad prox None metric false period n t = Ok b ->
  norm (H := H) (vsub (H := H) a b) <= norm (H := H) (vsub (H := H) x0 y0).
Proof.
  intros I l complete D h prox M f grad x0 y0 eta eps ep eu s t e metric period n a b H Ch Ph HM Sf Is It Hep Sc Pe Be Ia Ib.
  assert (Es : forall (z : arr I) r, gd_init Vanilla z eta eps ep eu = Ok r -> d_epoch_size r <> 0%nat).
  { intros z r Ir. rewrite (st_init I grad prox _ _ _ _ _ _ Ir). exact Hep. }
  rewrite iterate_plain in Ia by (apply (Es _ _ Is)). rewrite iterate_plain in Ib by (apply (Es _ _ It)). injection Ia as <-. injection Ib as <-.
  pose proof (C147_never_apart I l complete D h prox M f grad x0 y0 eta eps eps ep eu s t e Ch Ph HM Sf Is It Sc Pe Be 0%nat n ltac:(lia)) as Q.
  cbv beta zeta in Q. rewrite (st_start I grad prox _ _ _ _ _ _ Is), (st_start I grad prox _ _ _ _ _ _ It) in Q. exact Q.
Qed.
Print Assumptions C147_returned.

(** [C147] Changing part of the data: the two sequences of gradients agree except at the calls marked
    by c, where both are at most G long. From the same start, the estimates are at most 2 G times the
    sum of eta over the marked calls apart. *)
Theorem C147_changed_samples :
  forall I (l : list I) (complete : forall i, In i l) D h prox M f grad grad' (x0 : arr I) eta eps ep eu s (e : nat -> R) (c : nat -> bool) G,
  let H := fin_ips I l complete in
  convex_on (H := H) D h -> prox_operator (H := H) D h (fun y c => prox y (full c)) ->
  0 < M -> (forall k, smooth_convex (H := H) M (f k) (grad k)) ->
  gd_init Vanilla x0 eta eps ep eu = Ok s -> schedule eta eu e -> (forall k, 0 < e k) -> (forall k, e k * M <= 2) ->
  (forall k y, c k = false -> grad' k y = grad k y) ->
  (forall k y, c k = true -> norm (H := H) (grad k y) <= G /\ norm (H := H) (grad' k y) <= G) ->
  forall n, norm (H := H) (vsub (H := H) (d_x_new (gd_after grad prox n s)) (d_x_new (gd_after grad' prox n s))) <=
  2 * G * sum_below n (fun k => if c k then e k else 0).
Proof.
  intros I l complete D h prox M f grad grad' x0 eta eps ep eu s e c G H Ch Ph HM Sf Is Sc Pe Be Same Bound n.
  pose proof (C147_perturbed_gradients I l complete D h prox M f grad grad' x0 x0 eta eps eps ep eu s s e Ch Ph HM Sf Is Is Sc Pe Be n) as Q.
  assert (V : forall v : H, norm (vsub v v) = 0).
  { intros v. replace (vsub v v) with (vzero (i := H)) by vring. unfold norm. replace (inner (i := H) vzero vzero) with 0; [apply sqrt_0|]. replace (vzero (i := H)) with (vscal (i := H) 0 vzero) at 1 by vring. rewrite inner_scal_l. ring. }
  cbv beta zeta in Q. pose proof (V x0) as V0. subst H. rewrite V0, Rplus_0_l in Q. set (H := fin_ips I l complete) in *. apply Rle_trans with (1 := Q).
  clear Q. rewrite <- Proof_Regret.sum_below_scal. apply sum_below_le. intros k _. set (y := d_x_new (gd_after grad' prox k s)).
  destruct (c k) eqn:Ck.
  - destruct (Bound k y Ck) as [B1 B2]. replace (2 * G * e k) with (e k * (G + G)) by ring. apply Rmult_le_compat_l; [left; apply Pe|].
    assert (N : norm (vscal (i := H) (-1) (grad' k y)) = norm (H := H) (grad' k y)).
    { apply Rle_antisym; apply norm_le_nsq; right; unfold nsq; iexpand; ring. }
    replace (vsub (H := H) (grad k y) (grad' k y)) with (vadd (i := H) (grad k y) (vscal (i := H) (-1) (grad' k y))) by vring.
    apply Rle_trans with (1 := norm_triangle (H := H) _ _). rewrite N. lra.
  - rewrite (Same k y Ck). rewrite (V (grad k y)). lra.
Qed.
Print Assumptions C147_changed_samples.

Lemma unit_square : smooth_convex (H := U) 1 (fun u => u tt * u tt / 2) (fun u => fun _ => u tt).
Proof.
  apply (smooth_unit (fun x => x * x / 2) (fun x => x) 1 1); [lra| |intros; lra].
  intros x y. pose proof (Rle_0_sqr (y - x)) as Q. unfold Rsqr in Q. split; nra.
Qed.
Lemma zero_penalty : convex_on (H := U) (fun _ => True) (fun _ => 0) /\ prox_operator (H := U) (fun _ => True) (fun _ => 0) (fun y _ => y).
Proof.
  split; [intros x y t _ _ _; split; [exact Logic.I|lra]|]. intros y c Hc. apply prox_vi_is_prox. split; [exact Logic.I|].
  intros z _. replace (vsub y y) with (vzero (i := U)) by vring. rewrite U_inner. cbn. lra.
Qed.

(** [C147] Twice the inverse of M is the limit: with eta = 3/M the distance doubles. *)
Theorem C147_larger_eta_refuted :
  exists (f : U -> R) (grad : nat -> arr unit -> arr unit) (prox : arr unit -> arr unit -> arr unit) (x0 y0 : arr unit) s t,
  (forall k, smooth_convex (H := U) 1 f (grad k)) /\ prox_operator (H := U) (fun _ => True) (fun _ => 0) (fun y c => prox y (full c)) /\
  gd_init Vanilla x0 3 0 1 None = Ok s /\ gd_init Vanilla y0 3 0 1 None = Ok t /\
  norm (H := U) (vsub (H := U) (d_x_new (gd_after grad prox 1 s)) (d_x_new (gd_after grad prox 1 t))) = 2 * norm (H := U) (vsub (H := U) x0 y0) /\
  norm (H := U) (vsub (H := U) x0 y0) = 1.
Proof.
  exists (fun u => u tt * u tt / 2), (fun _ u _ => u tt), (fun y _ => y), (full 1), (full 0). eexists. eexists.
  split; [intros _; apply unit_square|]. split; [apply zero_penalty|]. split; [reflexivity|]. split; [reflexivity|].
  rewrite !U_norm. cbn. unfold full. rewrite sqrt_1.
  replace (1 - 3 / (1 + 0) * 1 + -1 * (0 - 3 / (1 + 0) * 0)) with (- (2)) by field. replace (1 + -1 * 0) with 1 by ring.
  rewrite Rabs_Ropp, !Rabs_pos_eq by lra. lra.
Qed.
Print Assumptions C147_larger_eta_refuted.

(** [C147] Momentum loses it: with beta = 9/10, eta = 1/(2 M) and resets four updates apart, two runs move apart
    between updates 3 and 4. *)
Theorem C147_momentum_refuted :
  exists (f : U -> R) (grad : nat -> arr unit -> arr unit) (prox : arr unit -> arr unit -> arr unit) (x0 y0 : arr unit) s t,
  (forall k, smooth_convex (H := U) 1 f (grad k)) /\ prox_operator (H := U) (fun _ => True) (fun _ => 0) (fun y c => prox y (full c)) /\
  gd_init (Momentum (9 / 10)) x0 (/ 2) 0 4 None = Ok s /\ gd_init (Momentum (9 / 10)) y0 (/ 2) 0 4 None = Ok t /\
  norm (H := U) (vsub (H := U) (d_x_new (gd_after grad prox 3 s)) (d_x_new (gd_after grad prox 3 t))) <
  norm (H := U) (vsub (H := U) (d_x_new (gd_after grad prox 4 s)) (d_x_new (gd_after grad prox 4 t))).
Proof.
  exists (fun u => u tt * u tt / 2), (fun _ u _ => u tt), (fun y _ => y), (full 1), (full 0). eexists. eexists.
  split; [intros _; apply unit_square|]. split; [apply zero_penalty|]. split; [reflexivity|]. split; [reflexivity|].
  rewrite !U_norm. cbn. unfold full. rewrite sqrt_1.
  match goal with |- Rabs ?a < Rabs ?b => replace a with (- (1 / 10)) by field; replace b with (- (73 / 200)) by field end.
  rewrite !Rabs_Ropp, !Rabs_pos_eq by lra. lra.
Qed.
Print Assumptions C147_momentum_refuted.

(** Example: f(x) = x^2/2, eta = 1/2, epoch_size 2, starts 4 and 0. After one update the estimates are 2 apart;
    a second run whose first gradient is off by 1 is at most 1/2 further. *)
Example C147_example :
  exists s t, gd_init Vanilla (full 4 : arr unit) (/ 2) 0 2 None = Ok s /\ gd_init Vanilla (full 0 : arr unit) (/ 2) 0 2 None = Ok t /\
  let grad := fun (_ : nat) (u : arr unit) (_ : unit) => u tt in
  let grad' := fun (k : nat) (u : arr unit) (_ : unit) => if Nat.eqb k 0 then u tt + 1 else u tt in
  let prox := fun (y _ : arr unit) => y in
  schedule (/ 2) None (fun _ => / 2) /\
  norm (H := U) (vsub (H := U) (d_x_new (gd_after grad prox 1 s)) (d_x_new (gd_after grad prox 1 t))) = 2 /\
  norm (H := U) (vsub (H := U) (d_x_new (gd_after grad prox 1 s)) (d_x_new (gd_after grad' prox 1 t))) = 5 / 2 /\
  forall n, norm (H := U) (vsub (H := U) (d_x_new (gd_after grad prox n s)) (d_x_new (gd_after grad prox n t))) <= 4.
Proof.
  eexists. eexists. split; [reflexivity|]. split; [reflexivity|]. intros grad grad' prox.
  assert (Sc : schedule (/ 2) None (fun _ => / 2)) by (split; reflexivity). split; [exact Sc|]. split; [|split].
  - rewrite U_norm. cbn. unfold full, prox. rewrite sqrt_1. match goal with |- Rabs ?a = _ => replace a with 2 by field end. apply Rabs_pos_eq. lra.
  - rewrite U_norm. cbn. unfold full, prox. rewrite sqrt_1. match goal with |- Rabs ?a = _ => replace a with (5 / 2) by field end. apply Rabs_pos_eq. lra.
  - intros n. destruct zero_penalty as [Z1 Z2].
    assert (Sq : forall k : nat, smooth_convex (H := U) 1 (fun u => u tt * u tt / 2) (grad k)) by (intros k; apply unit_square).
    pose proof (C147_never_apart unit [tt] unit_complete _ _ prox 1 (fun _ u => u tt * u tt / 2) grad (full 4) (full 0) (/ 2) 0 0 2 None _ _ (fun _ => / 2)
      Z1 Z2 Rlt_0_1 Sq eq_refl eq_refl Sc ltac:(intros; lra) ltac:(intros; lra) 0%nat n ltac:(lia)) as Q.
    cbv beta zeta in Q. apply Rle_trans with (1 := Q). right. cbn [gd_after d_x_new]. fold U. rewrite U_norm. cbn. unfold full.
    match goal with |- Rabs ?a = _ => replace a with 4 by ring end. apply Rabs_pos_eq. lra.
Qed.
