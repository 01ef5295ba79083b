(** Theorems about inexact operators, C122, and about the LASSO as set up by the user, C123. *)
From Coq Require Import String.
From Verif Require Import NPReal Py IPS Model_SetUp Spec_Opt Proof_Smooth Spec_Lim Proof_Lim Proof_Iter Proof_Inexact
  Model_FB Proof_FB Proof_FB2 Prop_FB Proof_Inst Prop_Lim Model_Linear Proof_Linear Model_Signal Model_Prox Spec_Prox Proof_Prox
  Spec_Lasso Model_Matrix Spec_Matrix Prop_Matrix.
From Coq Require Import List Lia.
Import ListNotations.
Local Open Scope string_scope.
Local Open Scope R_scope.

(** * C122 *)

(** The run with operators grad' and prox' that are off by at most gam and del stays, after k
    updates, within k (del + beta gam) of the run with the exact operators, and its distance to any
    minimiser grows at most by that much. *)
Theorem C122_distance_to_exact_run :
  forall (H : ips) (D : H -> Prop) (f g : H -> R) grad prox M beta bp x0 s0 grad' prox' gam del,
  0 <= M -> smooth_convex M f grad -> convex_on D g -> prox_operator D g prox -> 0 < beta -> beta * M <= 2 ->
  (forall z, norm (grad' z - grad z)%v <= gam) -> (forall y, norm (prox' y beta - prox y beta)%v <= del) ->
  fb_init x0 (Some beta) bp 1 None (LCall None) = Ok s0 ->
  let x k := fb_x_old (fb_after grad prox k s0) in
  let x' k := fb_x_old (fb_after grad' prox' k s0) in
  (forall k, norm (x' k - x k)%v <= INR k * (del + beta * gam)) /\
  (forall k xs, minimises D (fun u => f u + g u) xs -> norm (x' k - xs)%v <= norm (x0 - xs)%v + INR k * (del + beta * gam)).
Proof.
  intros H D f g grad prox M beta bp x0 s0 grad' prox' gam del HM Sf Cg Pg Hb HbM Eg Ep E x x'.
  assert (Rec : forall gr pr, let X k := fb_x_old (fb_after gr pr k s0) in X 0%nat = x0 /\ forall k, X (S k) = fb_map gr pr beta (X k)).
  { intros gr pr X. destruct (fixed_recurrences gr pr x0 beta bp 1 s0 Hb E) as (E1 & E2 & RX & RZ). split; [exact E1|]. intros k. unfold X. rewrite RX. f_equal.
    destruct k as [|k]; [rewrite E1, E2; reflexivity|]. rewrite RZ. vring. }
  destruct (Rec grad prox) as [A0 A1], (Rec grad' prox') as [B0 B1]. cbv zeta in *. split.
  - apply (inexact_close D f g grad prox M beta Hb HM Sf Cg Pg HbM grad' prox' gam del Eg Ep x x' A1 B1). unfold x, x'. rewrite A0, B0. reflexivity.
  - intros k xs Mx. rewrite <- B0. apply (inexact_fejer D f g grad prox M beta Hb HM Sf Cg Pg HbM grad' prox' gam del Eg Ep x' xs); [|exact B1].
    apply (fb_map_fixed_iff D f g grad prox beta xs Hb (proj1 Sf) (proj1 (proj2 Sf)) Cg Pg). exact Mx.
Qed.
Print Assumptions C122_distance_to_exact_run.

(** When f is strongly convex the errors do not accumulate. *)
Theorem C122_strongly_convex :
  forall (H : ips) (D : H -> Prop) (f g : H -> R) grad prox M mu beta bp x0 s0 grad' prox' gam del xs,
  0 <= M -> smooth_convex M f grad -> strongly_convex mu f -> convex_on D g -> prox_operator D g prox ->
  0 < beta -> beta * M < 2 -> 0 < mu -> 0 <= 1 - beta * mu * (2 - beta * M) ->
  (forall z, norm (grad' z - grad z)%v <= gam) -> (forall y, norm (prox' y beta - prox y beta)%v <= del) ->
  minimises D (fun u => f u + g u) xs ->
  fb_init x0 (Some beta) bp 1 None (LCall None) = Ok s0 ->
  let r := sqrt (1 - beta * mu * (2 - beta * M)) in
  0 <= r < 1 /\
  forall k, norm (fb_x_old (fb_after grad' prox' k s0) - xs)%v <= r ^ k * norm (x0 - xs)%v + (del + beta * gam) / (1 - r).
Proof.
  intros H D f g grad prox M mu beta bp x0 s0 grad' prox' gam del xs HM Sf Sc Cg Pg Hb HbM Hmu Hq Eg Ep Mx E r.
  assert (Hr : 0 <= r < 1).
  { split; [apply sqrt_pos|]. unfold r. apply Rlt_le_trans with (sqrt 1); [|rewrite sqrt_1; lra]. apply sqrt_lt_1_alt. split; [exact Hq|].
    assert (0 < beta * mu * (2 - beta * M)) by (apply Rmult_lt_0_compat; [nra|lra]). lra. }
  split; [exact Hr|]. intros k.
  pose proof (proj2 (fb_map_fixed_iff D f g grad prox beta xs Hb (proj1 Sf) (proj1 (proj2 Sf)) Cg Pg) Mx) as Fx.
  destruct (fixed_recurrences grad' prox' x0 beta bp 1 s0 Hb E) as (E1 & E2 & RX & RZ). rewrite <- E1.
  apply (inexact_contraction D g grad prox beta Hb Cg Pg grad' prox' gam del Eg Ep (fun k => fb_x_old (fb_after grad' prox' k s0)) xs r Fx Hr).
  - intros y. apply norm_scaled; [exact Hq|]. apply (fb_contraction D f g grad prox M mu beta Hb HM Sf Sc Cg Pg); [exact Fx|lra].
  - intros j. rewrite RX. f_equal. destruct j as [|j]; [rewrite E1, E2; reflexivity|]. rewrite RZ. vring.
Qed.
Print Assumptions C122_strongly_convex.

(** Without strong convexity they can: the bound k del is attained. *)
Theorem C122_no_accumulation_refuted :
  exists (f g : R_ips -> R) grad prox prox' beta x0 s0 del,
    smooth_convex 0 f grad /\ convex_on everywhere g /\ prox_operator everywhere g prox /\ 0 < beta /\ 0 < del /\
    (forall y, norm (prox' y beta - prox y beta)%v <= del) /\
    fb_init x0 (Some beta) beta 1 None (LCall None) = Ok s0 /\
    (forall k, norm (fb_x_old (fb_after grad prox' k s0) - fb_x_old (fb_after grad prox k s0))%v = INR k * del).
Proof.
  exists (fun _ => 0), (fun _ => 0), (fun _ => 0), (fun y _ => y), (fun y _ => y + 1), 1, 0. eexists. exists 1.
  split; [apply zero_smooth; lra|]. split; [exact zero_convex|]. split; [exact zero_prox_operator|]. split; [lra|]. split; [lra|].
  split. { intros y. unfold vsub. cbn [vadd vscal R_ips]. rewrite norm_R. replace (y + 1 + -1 * y) with 1 by ring. rewrite Rabs_R1. lra. }
  assert (E : fb_init (H := R_ips) 0 (Some 1) 1 1 None (LCall None) = Ok (mk_fb (H := R_ips) 0 0 None 1 1 (RUser None None) 0)).
  { unfold fb_init. cbn. destruct (Req_EM_T 1 0); [lra|]. reflexivity. }
  split; [exact E|].
  assert (G : forall (X Z X' Z' : nat -> R_ips), X 0%nat = 0 -> Z 0%nat = 0 -> X' 0%nat = 0 -> Z' 0%nat = 0 ->
    (forall k, X (S k) = fb_map (H := R_ips) (fun _ => 0) (fun y _ => y + 1) 1 (Z k)) -> (forall k, Z (S k) = (X k + 1 * (X (S k) - X k))%v) ->
    (forall k, X' (S k) = fb_map (H := R_ips) (fun _ => 0) (fun y _ => y) 1 (Z' k)) -> (forall k, Z' (S k) = (X' k + 1 * (X' (S k) - X' k))%v) ->
    forall k, norm (X k - X' k)%v = INR k * 1).
  { intros X Z X' Z' E1 E2 E3 E4 R1 R2 R3 R4.
    assert (Q : forall k, X k = INR k /\ Z k = INR k /\ X' k = 0 /\ Z' k = 0).
    { induction k as [|k (I1 & I2 & I3 & I4)]; [auto|]. specialize (R1 k). specialize (R2 k). specialize (R3 k). specialize (R4 k).
      rewrite I2 in R1. rewrite I4 in R3. rewrite R1, I1 in R2. rewrite R3, I3 in R4. unfold fb_map, vsub in *. cbn [vadd vscal R_ips] in *.
      rewrite R1, R2, R3, R4, S_INR. repeat split; change (car R_ips) with R; ring. }
    intros k. destruct (Q k) as (-> & _ & -> & _). unfold vsub. cbn [vadd vscal R_ips]. rewrite norm_R.
    replace (INR k + -1 * 0) with (INR k) by ring. rewrite Rabs_pos_eq by apply pos_INR. ring. }
  destruct (fixed_recurrences (H := R_ips) (fun _ => 0) (fun y _ => y + 1) 0 1 1 1 _ ltac:(lra) E) as (E1 & E2 & R1 & R2).
  destruct (fixed_recurrences (H := R_ips) (fun _ => 0) (fun y _ => y) 0 1 1 1 _ ltac:(lra) E) as (E3 & E4 & R3 & R4).
  exact (G _ _ _ _ E1 E2 E3 E4 R1 R2 R3 R4).
Qed.
Print Assumptions C122_no_accumulation_refuted.

(** The bound is attained: f(x) = x^2/2, no penalty, step 1/2, an operator that returns 1/8 too much.
    The run stays at 1/4 = (1/8) / (1 - 1/2). *)
Example C122_example : strongly_convex (H := R_ips) 1 (fun x => x * x / 2) /\
  sqrt (1 - / 2 * 1 * (2 - / 2 * 1)) = / 2 /\
  exists s0, fb_init (H := R_ips) (1 / 4) (Some (/ 2)) 1 1 None (LCall None) = Ok s0 /\
  fb_x_old (fb_after (H := R_ips) (fun x => x) (fun y _ => y + 1 / 8) 2 s0) = 1 / 4.
Proof.
  split; [|split].
  - intros x y t _ _ Ht. split; [exact I|]. unfold nsq. cbn. lra.
  - replace (1 - / 2 * 1 * (2 - / 2 * 1)) with (/ 2 * / 2) by field. apply sqrt_square. lra.
  - eexists. split; [unfold fb_init; cbn; destruct (Req_EM_T (/ 2) 0); [lra|]; reflexivity|]. cbn. lra.
Qed.

(** * C123 *)

Lemma lasso_split {n} {K : ips} (A : Rn n -> K) y ws x : lasso A y ws x = grad_basic_cost A y x + l1 n ws x.
Proof. unfold lasso, grad_basic_cost, l1. rewrite <- (norm_sq (A x - y)%v), (norm_sub_sym y (A x)). ring. Qed.

Lemma least_weight ws : Forall (fun w => 0 < w) ws -> exists w0, 0 < w0 /\ Forall (fun w => w0 <= w) ws.
Proof.
  induction ws as [|w ws IH]; intros F; [exists 1; split; [lra|constructor]|]. inversion F as [|? ? F1 F2]; subst.
  destruct (IH F2) as (w0 & P & Q). exists (Rmin w w0). split; [apply Rmin_glb_lt; assumption|].
  constructor; [apply Rmin_l|]. eapply Forall_impl; [|exact Q]. intros a Ha. apply Rle_trans with (2 := Ha). apply Rmin_r.
Qed.

Lemma minimises_ext {H : ips} D (f g : H -> R) x : (forall z, f z = g z) -> minimises D f x -> minimises D g x.
Proof. intros E [Dx M]. split; [exact Dx|]. intros z Dz. rewrite <- !E. apply M, Dz. Qed.

Lemma positive_nonneg ws : Forall (fun w => 0 < w) ws -> nonneg ws.
Proof. intros F. eapply Forall_impl; [|exact F]. cbn. intros; lra. Qed.

(** The LASSO problem with positive weights has a solution, for every operator and all data. *)
Theorem C123_minimiser_exists :
  forall n (K : ips) (A : Rn n -> K) (A' : K -> Rn n) y ws L,
  adjoint A A' -> 0 <= L -> bounded_sq L A -> length ws = n -> Forall (fun w => 0 < w) ws ->
  exists xs, minimises everywhere (lasso A y ws) xs.
Proof.
  intros n K A A' y ws L Adj HL Bd Lw Pw. pose proof (positive_nonneg ws Pw) as Nw.
  assert (Sm : smooth_convex (/ / (L + 1)) (grad_basic_cost A y) (grad_basic A A' y)).
  { rewrite Rinv_inv. apply (ls_smooth A A' y (L + 1) Adj); [lra|]. intros x. specialize (Bd x). pose proof (nsq_pos x). nra. }
  assert (Hb : 0 < / (L + 1)) by (apply Rinv_0_lt_compat; lra).
  assert (E : fb_init (H := Rn n) vzero (Some (/ (L + 1))) 1 1 None (LCall None) = Ok (mk_fb (H := Rn n) vzero vzero None (/ (L + 1)) 1 (RUser None None) 0)).
  { unfold fb_init. rewrite step_or_pos by exact Hb. reflexivity. }
  pose proof (C42_ista_monotone_and_rate (Rn n) everywhere (grad_basic_cost A y) (l1 n ws) (grad_basic A A' y) (shrink_op n ws Lw) (/ (L + 1)) 1 vzero _ Hb Sm
    (l1_convex n ws Lw Nw) (l1_prox n ws Lw Nw) E) as (_ & _ & Rate & _). cbv zeta in Rate.
  destruct (least_weight ws Pw) as (w0 & P0 & Q0).
  destruct (coercive_minimum (grad_basic_cost A y) (l1 n ws) (grad_basic A A' y)
    (fun k => fb_x_old (fb_after (grad_basic A A' y) (shrink_op n ws Lw) k (mk_fb (H := Rn n) vzero vzero None (/ (L + 1)) 1 (RUser None None) 0)))
    (fun z => nsq (vzero - z : Rn n)%v / (2 * / (L + 1)))
    (fd_Rn n) (proj1 Sm) (proj1 (proj2 Sm)) (fun x => ex_intro _ _ (l1_subgradient n ws Lw Nw x))) as (xs & Mx).
  - intros b. exists (b / w0). intros x Hx. apply Rmult_le_reg_l with w0; [exact P0|]. replace (w0 * (b / w0)) with b by (field; lra).
    pose proof (l1_bound n ws Lw w0 x (Rlt_le _ _ P0) Q0). assert (0 <= grad_basic_cost A y x) by (unfold grad_basic_cost; pose proof (pow2_ge_0 (norm (y - A x)%v)); lra). lra.
  - intros z k Hk. apply Rle_trans with (1 := Rate z I k Hk). right. assert (INR k <> 0) by (apply not_0_INR; lia). field. repeat split; try assumption; lra.
  - exists xs. eapply minimises_ext; [|exact Mx]. intros z. symmetry. apply lasso_split.
Qed.
Print Assumptions C123_minimiser_exists.

(** The objective is what the cost object with GradBasic and SparseThreshold evaluates. *)
Theorem C123_cost_is_the_objective :
  forall n (K : ips) (A : Rn n -> K) y weights ws x, per_element weights n ws -> nonneg ws ->
  exists c, sparse_cost (fun v => v) weights (proj1_sig x) = Ok c /\ grad_basic_cost A y x + c = lasso A y ws x.
Proof.
  intros n K A y weights ws x P N. exists (l1 n ws x). split; [|symmetry; apply lasso_split].
  apply sparse_cost_spec; [|exact N]. rewrite (proj2_sig x). exact P.
Qed.
Print Assumptions C123_cost_is_the_objective.

Lemma coded_close n weights ws (prox : Rn n -> R -> Rn n) Lw : per_element weights n ws -> nonneg ws ->
  (forall z c, sparse_op weights "soft" (proj1_sig z) c = Ok (proj1_sig (prox z c))) ->
  forall z c, 0 < c -> norm (prox z c - shrink_op n ws Lw z c)%v <= sqrt (INR n) * / 10 ^ 15.
Proof.
  intros P N Hp z c Hc. specialize (Hp z c). rewrite (sparse_op_soft weights ws) in Hp by (rewrite (proj2_sig z); exact P). injection Hp as Hp.
  assert (P10 : 0 < / 10 ^ 15) by (apply Rinv_0_lt_compat, pow10_pos). set (d := / 10 ^ 15) in *.
  assert (Q : nsq (prox z c - shrink_op n ws Lw z c)%v <= INR n * (d * d)).
  { rewrite <- sqdist_nsq, <- Hp. unfold shrink_op. cbn [proj1_sig]. destruct z as [z Lz]. cbn [proj1_sig]. rewrite <- Lz.
    assert (Lt : length ws = length z) by congruence. clear - N Lt Hc P10. revert z Lt. induction ws as [|w ws' IH]; intros [|v z] Lt; cbn in Lt; try discriminate.
    - cbn. lra.
    - inversion N as [|? ? N1 N2]; subst. specialize (IH N2 z ltac:(lia)). change (length (v :: z)) with (S (length z)). rewrite S_INR.
      unfold sqdist in *. cbn [map map2 sum2]. assert (Ht : 0 <= w * c) by nra. destruct (soft1_spec (w * c) v Ht) as (B & _).
      fold d in B. apply Rabs_def2 in B. set (e := soft1 (w * c) v - shrink (w * c) v) in *. assert (e ^ 2 <= d * d) by nra. lra. }
  unfold norm. fold (nsq (prox z c - shrink_op n ws Lw z c)%v). apply Rle_trans with (1 := sqrt_le_1_alt _ _ Q).
  rewrite sqrt_mult by (try apply pos_INR; nra). rewrite sqrt_square by lra. lra.
Qed.

(** ForwardBackward without acceleration, with GradBasic and SparseThreshold as coded (the rounding
    inside thresh included): from any start and for a step below 2/L the estimates come within any
    e > 0 of a LASSO solution, up to 1e-15 sqrt(n) per update. *)
Theorem C123_run_approaches_a_solution :
  forall n (K : ips) (A : Rn n -> K) (A' : K -> Rn n) y weights ws L prox beta bp x0 s0,
  adjoint A A' -> 0 <= L -> bounded_sq L A -> per_element weights n ws -> Forall (fun w => 0 < w) ws ->
  (forall z c, sparse_op weights "soft" (proj1_sig z) c = Ok (proj1_sig (prox z c))) ->
  0 < beta -> beta * L < 2 ->
  fb_init x0 (Some beta) bp 1 None (LCall None) = Ok s0 ->
  exists xs, minimises everywhere (lasso A y ws) xs /\
    forall e, 0 < e -> exists N, forall k, (N <= k)%nat ->
      norm (fb_x_old (fb_after (grad_basic A A' y) prox k s0) - xs)%v < e + INR k * (sqrt (INR n) * / 10 ^ 15).
Proof.
  intros n K A A' y weights ws L prox beta bp x0 s0 Adj HL Bd Pe Pw Hp Hb HbL E. pose proof (positive_nonneg ws Pw) as Nw.
  assert (Lw : length ws = n) by (eapply per_element_length; exact Pe).
  pose proof (ls_smooth A A' y L Adj HL Bd) as Sm.
  destruct (C123_minimiser_exists n K A A' y ws L Adj HL Bd Lw Pw) as (z & Mz).
  destruct (C118_iterates_converge (Rn n) everywhere (grad_basic_cost A y) (l1 n ws) (grad_basic A A' y) (shrink_op n ws Lw) L beta bp 1 x0 s0 (fd_Rn n) HL Sm
    (l1_convex n ws Lw Nw) (l1_prox n ws Lw Nw) Hb HbL ltac:(lra)) as (xs & Mx & C & _).
  - exists z. eapply minimises_ext; [|exact Mz]. intros u. apply lasso_split.
  - exact E.
  - exists xs. split; [eapply minimises_ext; [|exact Mx]; intros u; symmetry; apply lasso_split|].
    intros e He. destruct (C e He) as (N & Q). exists N. intros k Hk.
    destruct (C122_distance_to_exact_run (Rn n) everywhere (grad_basic_cost A y) (l1 n ws) (grad_basic A A' y) (shrink_op n ws Lw) L beta bp x0 s0 (grad_basic A A' y) prox 0 (sqrt (INR n) * / 10 ^ 15)
      HL Sm (l1_convex n ws Lw Nw) (l1_prox n ws Lw Nw) Hb (Rlt_le _ _ HbL)) as (Cl & _).
    + intros u. rewrite vsub_self, norm_0. lra.
    + intros u. apply (coded_close n weights ws prox Lw Pe Nw Hp); exact Hb.
    + exact E.
    + specialize (Cl k). specialize (Q k Hk). cbv beta in Q, Cl. set (x' := fb_x_old (fb_after (grad_basic A A' y) prox k s0)) in *.
      set (x := fb_x_old (fb_after (grad_basic A A' y) (shrink_op n ws Lw) k s0)) in *.
      replace (x' - xs)%v with ((x' - x) + (x - xs))%v by vring. apply Rle_lt_trans with (1 := norm_triangle _ _). lra.
Qed.
Print Assumptions C123_run_approaches_a_solution.

(** When the operator is injective with constant mu (A of full column rank), the solution is unique
    and the error after k updates is at most r^k times the initial one plus a fixed multiple of the
    rounding unit. *)
Theorem C123_full_column_rank :
  forall n (K : ips) (A : Rn n -> K) (A' : K -> Rn n) y weights ws L mu prox beta bp x0 s0,
  adjoint A A' -> 0 <= L -> bounded_sq L A -> per_element weights n ws -> Forall (fun w => 0 < w) ws ->
  (forall z c, sparse_op weights "soft" (proj1_sig z) c = Ok (proj1_sig (prox z c))) ->
  0 < mu -> (forall x, mu * nsq x <= nsq (A x)) ->
  0 < beta -> beta * L < 2 -> 0 <= 1 - beta * mu * (2 - beta * L) ->
  fb_init x0 (Some beta) bp 1 None (LCall None) = Ok s0 ->
  let r := sqrt (1 - beta * mu * (2 - beta * L)) in
  0 <= r < 1 /\
  exists xs, minimises everywhere (lasso A y ws) xs /\ (forall z, minimises everywhere (lasso A y ws) z -> z = xs) /\
    forall k, norm (fb_x_old (fb_after (grad_basic A A' y) prox k s0) - xs)%v
      <= r ^ k * norm (x0 - xs)%v + sqrt (INR n) * / 10 ^ 15 / (1 - r).
Proof.
  intros n K A A' y weights ws L mu prox beta bp x0 s0 Adj HL Bd Pe Pw Hp Hmu Inj Hb HbL Hq E r. pose proof (positive_nonneg ws Pw) as Nw.
  assert (Lw : length ws = n) by (eapply per_element_length; exact Pe).
  pose proof (ls_smooth A A' y L Adj HL Bd) as Sm. pose proof (ls_convex_gap A A' y Adj mu Inj) as Sc.
  destruct (C123_minimiser_exists n K A A' y ws L Adj HL Bd Lw Pw) as (xs & Mx).
  assert (Mx' : forall z, minimises everywhere (lasso A y ws) z -> minimises everywhere (fun u => grad_basic_cost A y u + l1 n ws u) z).
  { intros z Mz. eapply minimises_ext; [|exact Mz]. intros u. apply lasso_split. }
  destruct (C122_strongly_convex (Rn n) everywhere (grad_basic_cost A y) (l1 n ws) (grad_basic A A' y) (shrink_op n ws Lw) L mu beta bp x0 s0 (grad_basic A A' y) prox 0 (sqrt (INR n) * / 10 ^ 15) xs
    HL Sm Sc (l1_convex n ws Lw Nw) (l1_prox n ws Lw Nw) Hb HbL Hmu Hq) as (Hr & Q).
  - intros u. rewrite vsub_self, norm_0. lra.
  - intros u. apply (coded_close n weights ws prox Lw Pe Nw Hp); exact Hb.
  - apply Mx', Mx.
  - exact E.
  - split; [exact Hr|]. exists xs. split; [exact Mx|]. split.
    + intros z Mz. apply (C119_unique_minimiser (Rn n) everywhere (grad_basic_cost A y) (l1 n ws) mu z xs Hmu Sc (l1_convex n ws Lw Nw)); apply Mx'; assumption.
    + intros k. specialize (Q k). fold r in Q. rewrite Rmult_0_r, Rplus_0_r in Q. exact Q.
Qed.
Print Assumptions C123_full_column_rank.

(** The step 1/spec_rad with the estimate of PowerMethod, applied to trans_op_op as in the
    documentation, is admissible once max_iter is large enough, although the estimate is below the
    spectral radius. *)
Theorem C123_power_method_step :
  forall n (K : ips) (A : Rn n -> K) (A' : K -> Rn n) L v x0,
  adjoint A A' -> 0 < L -> bounded_by L (fun x => A' (A x)) -> A' (A v) = (L * v)%v -> inner x0 v <> 0 ->
  bounded_sq L A /\
  exists N, forall m, (N <= m)%nat -> exists r, get_spec_rad (fun x => A' (A x)) x0 0 m 1 = Ok (Some r) /\ 0 < / r /\ / r * L < 2.
Proof.
  intros n K A A' L v x0 Adj HL Bd Ev Nv. split.
  - intros x. unfold nsq at 1. rewrite Adj. pose proof (cauchy_schwarz_norm x (A' (A x))) as C. specialize (Bd x).
    pose proof (norm_pos x). rewrite <- norm_sq. nra.
  - assert (Lin : linear (fun x => A' (A x))).
    { intros a b x z. assert (EA : A (a * x + b * z)%v = (a * A x + b * A z)%v) by (rewrite (Proof_PD.adj_add A A' Adj), !(Proof_PD.adj_scal A A' Adj); reflexivity).
      rewrite EA. assert (Adj' : adjoint A' A) by (intros p q; rewrite inner_sym, <- Adj, inner_sym; reflexivity).
      rewrite (Proof_PD.adj_add A' A Adj'), !(Proof_PD.adj_scal A' A Adj'). reflexivity. }
    assert (SA : self_adjoint (fun x => A' (A x))).
    { intros x z. rewrite <- Adj. rewrite inner_sym, <- Adj, inner_sym. reflexivity. }
    destruct (C69_converges (Rn n) (fun x => A' (A x)) L v x0 Lin SA Bd HL Ev Nv (L / 4) ltac:(lra)) as (N & Q).
    exists N. intros m Hm. destruct (Q m Hm) as (r & Er & Hr). exists r. split; [exact Er|]. assert (Pr : 0 < r) by lra.
    split; [apply Rinv_0_lt_compat; exact Pr|]. apply Rmult_lt_reg_l with r; [exact Pr|]. rewrite <- Rmult_assoc, Rinv_r by lra. lra.
Qed.
Print Assumptions C123_power_method_step.

(** The operator in the theorems above exists: SparseThreshold never fails on data of the shape of
    its weights. *)
Theorem C123_operator_defined :
  forall n weights ws, per_element weights n ws ->
  exists prox : Rn n -> R -> Rn n, forall z c, sparse_op weights "soft" (proj1_sig z) c = Ok (proj1_sig (prox z c)).
Proof.
  intros n weights ws P. assert (Lw : length ws = n) by (eapply per_element_length; exact P).
  assert (Lp : forall (z : Rn n) c, length (map2 soft1 (map (fun w => w * c) ws) (proj1_sig z)) = n)
    by (intros z c; apply map2_length; [rewrite map_length; exact Lw|exact (proj2_sig z)]).
  exists (fun z c => exist _ (map2 soft1 (map (fun w => w * c) ws) (proj1_sig z)) (Lp z c)).
  intros z c. apply sparse_op_soft. rewrite (proj2_sig z). exact P.
Qed.
Print Assumptions C123_operator_defined.

(** Denoising: A the identity on two coefficients, data (3, 1/2), weight 1.  The solution is (2, 0),
    and with step 1 the first update is already within 2e-15 of it. *)
Example C123_example :
  let y : Rn 2 := exist _ [3; / 2] eq_refl in let xs : Rn 2 := exist _ [2; 0] eq_refl in
  minimises everywhere (lasso (fun x : Rn 2 => x) y [1; 1]) xs /\
  sqrt (1 - 1 * 1 * (2 - 1 * 1)) = 0 /\
  exists (prox : Rn 2 -> R -> Rn 2) s0,
    (forall z c, sparse_op (TScalar 1) "soft" (proj1_sig z) c = Ok (proj1_sig (prox z c))) /\
    fb_init (H := Rn 2) vzero (Some 1) 1 1 None (LCall None) = Ok s0 /\
    norm (fb_x_old (fb_after (grad_basic (fun x => x) (fun x => x) y) prox 1 s0) - xs)%v <= sqrt 2 * / 10 ^ 15.
Proof.
  intros y xs. assert (Nw : nonneg [1; 1]) by (repeat constructor; lra).
  assert (Bx : xs = shrink_op 2 [1; 1] eq_refl y 1).
  { apply Rvec_eq. cbn. unfold shrink. rewrite (Rabs_pos_eq 3), (Rabs_pos_eq (/ 2)) by lra.
    repeat (destruct (Rle_dec _ _); try lra). repeat f_equal; lra. }
  assert (Mx : minimises everywhere (lasso (fun x : Rn 2 => x) y [1; 1]) xs).
  { split; [exact I|]. intros z _. pose proof (proj2 (l1_prox 2 [1; 1] eq_refl Nw y 1 ltac:(lra)) z I) as Q. rewrite <- Bx in Q. unfold lasso. unfold l1 in Q. lra. }
  split; [exact Mx|]. split; [replace (1 - 1 * 1 * (2 - 1 * 1)) with 0 by ring; apply sqrt_0|].
  destruct (C123_operator_defined 2 (TScalar 1) [1; 1]) as (prox & Hp); [constructor|]. exists prox.
  exists (mk_fb (H := Rn 2) vzero vzero None 1 1 (RUser None None) 0). split; [exact Hp|].
  assert (E : fb_init (H := Rn 2) vzero (Some 1) 1 1 None (LCall None) = Ok (mk_fb (H := Rn 2) vzero vzero None 1 1 (RUser None None) 0)) by (unfold fb_init; rewrite step_or_pos by lra; reflexivity).
  split; [exact E|].
  destruct (C123_full_column_rank 2 (Rn 2) (fun x => x) (fun x => x) y (TScalar 1) [1; 1] 1 1 prox 1 1 vzero (mk_fb (H := Rn 2) vzero vzero None 1 1 (RUser None None) 0)) as (_ & x' & _ & U & B).
  - intros a b. reflexivity.
  - lra.
  - intros a. lra.
  - constructor.
  - repeat constructor; lra.
  - exact Hp.
  - lra.
  - intros a. lra.
  - lra.
  - lra.
  - lra.
  - exact E.
  - rewrite (U xs Mx). specialize (B 1%nat). replace (1 - 1 * 1 * (2 - 1 * 1)) with 0 in B by ring. rewrite sqrt_0 in B. apply Rle_trans with (1 := B).
    rewrite pow_1, Rmult_0_l, Rplus_0_l, Rminus_0_r. unfold Rdiv. rewrite Rinv_1, Rmult_1_r. replace (INR 2) with 2 by (cbn; ring). apply Rle_refl.
Qed.
