(** Theorems about the limits of the iterates: C118 - C121. *)
From Coq Require Import String.
From Verif Require Import NPReal Py IPS Model_SetUp Spec_Opt Proof_Smooth Spec_Lim Proof_Lim Proof_Iter Proof_Iter2 Proof_Iter3
  Model_FB Proof_FB Proof_FB2 Proof_Inst Model_PD Proof_PD.
From Coq Require Import List Lia FunctionalExtensionality.
Import ListNotations.
Local Open Scope R_scope.

Lemma abs_le_0 x : Rabs x <= 0 -> x = 0.
Proof. intros A. destruct (Req_dec x 0) as [E|N]; [exact E|]. pose proof (Rabs_pos_lt x N). lra. Qed.

(** * C118: ForwardBackward without acceleration *)

(** Arrays of n numbers, and tuples of arrays (complex arrays are pairs of real ones), are
    finite-dimensional. *)
Theorem C118_array_spaces_qualify :
  finite_dimensional R_ips /\ (forall n, finite_dimensional (Rn n)) /\
  (forall A B, finite_dimensional A -> finite_dimensional B -> finite_dimensional (prod_ips A B)).
Proof. split; [exact fd_R|]. split; [exact fd_Rn|exact fd_prod]. Qed.
Print Assumptions C118_array_spaces_qualify.

Lemma fixed_rule {H : ips} grad prox (x0 : H) beta bp lam s0 : 0 < beta ->
  fb_init x0 (Some beta) bp lam None (LCall None) = Ok s0 ->
  let s k := fb_after grad prox k s0 in
  forall k, fb_the_rule (s k) = RUser None None /\ fb_beta (s k) = beta /\ fb_lambda (s k) = lam.
Proof.
  intros Hb E s. destruct (fb_init_new x0 _ _ _ _ _ _ E) as (_ & _ & _ & E1 & E2 & _ & E3). rewrite step_or_pos in E2 by exact Hb.
  induction k as [|k (I1 & I2 & I3)]; [auto|].
  unfold s in *. change (fb_after grad prox (S k) s0) with (fb_update grad prox (fb_after grad prox k s0)).
  unfold fb_update. rewrite I1. cbn. auto.
Qed.

Lemma fixed_recurrences {H : ips} grad prox (x0 : H) beta bp lam s0 : 0 < beta ->
  fb_init x0 (Some beta) bp lam None (LCall None) = Ok s0 ->
  let X k := fb_x_old (fb_after grad prox k s0) in let Z k := fb_z_old (fb_after grad prox k s0) in
  X 0%nat = x0 /\ Z 0%nat = x0 /\ (forall k, X (S k) = fb_map grad prox beta (Z k)) /\
  (forall k, Z (S k) = (X k + lam * (X (S k) - X k))%v).
Proof.
  intros Hb E X Z. destruct (fb_init_new x0 _ _ _ _ _ _ E) as (_ & Ex & Ez & _).
  pose proof (fixed_rule grad prox x0 beta bp lam s0 Hb E) as R. cbv zeta in R.
  split; [exact Ex|]. split; [exact Ez|]. split; intros k; destruct (R k) as (R1 & R2 & R3).
  - unfold X, Z. change (fb_after grad prox (S k) s0) with (fb_update grad prox (fb_after grad prox k s0)). rewrite fb_update_x, R2. reflexivity.
  - unfold X, Z. change (fb_after grad prox (S k) s0) with (fb_update grad prox (fb_after grad prox k s0)).
    unfold fb_update. rewrite R1, R3. cbn. reflexivity.
Qed.

(** With a fixed step below 2/M, M a Lipschitz constant of the gradient, and a fixed relaxation in
    (0, 1], the estimates converge to a minimiser as soon as there is one, and so does what
    iterate() returns. *)
Theorem C118_iterates_converge :
  forall (H : ips) (D : H -> Prop) (f g : H -> R) grad prox M beta bp lam x0 s0,
  finite_dimensional H -> 0 <= M -> smooth_convex M f grad -> convex_on D g -> prox_operator D g prox ->
  0 < beta -> beta * M < 2 -> 0 < lam <= 1 ->
  (exists z, minimises D (fun u => f u + g u) z) ->
  fb_init x0 (Some beta) bp lam None (LCall None) = Ok s0 ->
  exists xs, minimises D (fun u => f u + g u) xs /\
    converges (fun k => fb_x_old (fb_after grad prox k s0)) xs /\
    (forall e, 0 < e -> exists N, forall k metric period, (N <= k)%nat ->
       exists x, fb_iterate grad prox None metric false period k s0 = Ok x /\ norm (x - xs)%v < e).
Proof.
  intros H D f g grad prox M beta bp lam x0 s0 FD HM Sf Cg Pg Hb HbM Hl (z & Mz) Ei.
  destruct (fixed_recurrences grad prox x0 beta bp lam s0 Hb Ei) as (E1 & E2 & RX & RZ).
  pose proof (fun x => fb_map_fixed_iff D f g grad prox beta x Hb (proj1 Sf) (proj1 (proj2 Sf)) Cg Pg) as Fix.
  destruct (fb_converges D f g grad prox M beta lam Hb HM Sf Cg Pg _ _ RX RZ Hl FD HbM) as (l & Fl & C1 & C2).
  { rewrite E1, E2. reflexivity. }
  { exists z. apply Fix. exact Mz. }
  exists l. split; [apply Fix; exact Fl|]. split; [exact C1|].
  intros e He. destruct (C2 e He) as (N & Q). exists (S N). intros k metric period Hk. eexists.
  split; [apply fb_iterate_plain; lia|]. apply Q. lia.
Qed.
Print Assumptions C118_iterates_converge.

(** In any space, complete or not, the squared lengths of the proximal gradient steps add up to
    less than a constant. *)
Theorem C118_steps_square_summable :
  forall (H : ips) (D : H -> Prop) (f g : H -> R) grad prox M beta bp lam x0 s0 z,
  0 <= M -> smooth_convex M f grad -> convex_on D g -> prox_operator D g prox ->
  0 < beta -> beta * M < 2 -> 0 < lam <= 1 -> minimises D (fun u => f u + g u) z ->
  fb_init x0 (Some beta) bp lam None (LCall None) = Ok s0 ->
  let step k := (fb_x_old (fb_after grad prox (S k) s0) - fb_z_old (fb_after grad prox k s0))%v in
  forall n, (1 - beta * M / 2) * rsum (map (fun k => nsq (step k)) (seq 0 n)) <= (2 - lam) * nsq (x0 - z)%v.
Proof.
  intros H D f g grad prox M beta bp lam x0 s0 z HM Sf Cg Pg Hb HbM Hl Mz Ei step n.
  destruct (fixed_recurrences grad prox x0 beta bp lam s0 Hb Ei) as (E1 & E2 & RX & RZ).
  pose proof (proj2 (fb_map_fixed_iff D f g grad prox beta z Hb (proj1 Sf) (proj1 (proj2 Sf)) Cg Pg) Mz) as Fz.
  pose proof (relaxed_residual_sum D f g grad prox M beta lam Hb HM Sf Cg Pg _ _ RX RZ Hl z Fz HbM n) as Q.
  cbv beta in Q. rewrite E1, E2 in Q. unfold step. lra.
Qed.
Print Assumptions C118_steps_square_summable.

(** x^2/2 on the real line. *)
Lemma half_square : smooth_convex (H := R_ips) 1 (fun x => x * x / 2) (fun x => x).
Proof.
  replace (fun x : R_ips => x * x / 2) with (fun x : R_ips => (x - 0) * (x - 0) / 2) by (apply functional_extensionality; intros x; cbn; rewrite Rminus_0_r; reflexivity).
  replace (fun x : R_ips => x) with (fun x : R_ips => x - 0) by (apply functional_extensionality; intros x; apply Rminus_0_r).
  apply quad_smooth.
Qed.
Lemma half_square_minimum : minimises (H := R_ips) everywhere (fun u => u * u / 2 + 0) 0.
Proof. split; [exact I|]. intros z _. nra. Qed.

Lemma alternating (X Z : nat -> R_ips) l : X 0%nat = 1 -> Z 0%nat = 1 ->
  (forall k, X (S k) = fb_map (H := R_ips) (fun x => x) (fun y _ => y) 2 (Z k)) ->
  (forall k, Z (S k) = (X k + 1 * (X (S k) - X k))%v) -> ~ converges X l.
Proof.
  intros E1 E2 RX RZ C.
  assert (A : forall k, Z k = X k /\ X k * X k = 1).
  { induction k as [|k [I1 I2]]; [rewrite E1, E2; split; [reflexivity|cbn; lra]|].
    specialize (RX k). specialize (RZ k). unfold fb_map, vsub in RX, RZ. cbn in RX, RZ.
    rewrite I1 in RX. split; [rewrite RZ; lra|]. rewrite RX. lra. }
  destruct (C 1 ltac:(lra)) as (N & Q). pose proof (Q N (le_n N)) as Q1. pose proof (Q (S N) (le_S _ _ (le_n N))) as Q2.
  unfold vsub in Q1, Q2. cbn [vadd vscal R_ips] in Q1, Q2. rewrite norm_R in Q1, Q2.
  destruct (A N) as [A1 A2]. specialize (RX N). unfold fb_map, vsub in RX. cbn in RX. rewrite A1 in RX.
  apply Rabs_def2 in Q1. apply Rabs_def2 in Q2. rewrite RX in Q2. change (car R_ips) with R in *. nra.
Qed.
Lemma oscillating (X Z : nat -> R_ips) : X 0%nat = 2 -> Z 0%nat = 2 ->
  (forall k, X (S k) = fb_map (H := R_ips) (fun x => x) (fun y _ => y) (1 / 2) (Z k)) ->
  (forall k, Z (S k) = (X k + 3 * (X (S k) - X k))%v) -> ~ converges X (0 : R_ips).
Proof.
  intros E1 E2 RX RZ C.
  assert (Rec : forall k, X (S k) = Z k / 2 /\ Z (S k) = 3 * X (S k) - 2 * X k).
  { intros k. specialize (RX k). specialize (RZ k). unfold fb_map, vsub in RX, RZ. cbn in RX, RZ. rewrite RZ. split; [rewrite RX|]; lra. }
  assert (Inv : forall k, X (S k) * X (S k) - 3 / 2 * X k * X (S k) + X k * X k = 2).
  { induction k as [|k IH].
    - destruct (Rec 0%nat) as [R1 _]. rewrite R1, E1, E2. lra.
    - destruct (Rec (S k)) as [R1 _]. destruct (Rec k) as [_ R2]. rewrite R1, R2. change (car R_ips) with R in *. nra. }
  destruct (C (1 / 2) ltac:(lra)) as (N & Q). pose proof (Q N (le_n N)) as Q1. pose proof (Q (S N) (le_S _ _ (le_n N))) as Q2.
  unfold vsub in Q1, Q2. cbn [vadd vscal R_ips] in Q1, Q2. rewrite norm_R in Q1, Q2.
  apply Rabs_def2 in Q1. apply Rabs_def2 in Q2. specialize (Inv N). change (car R_ips) with R in *. nra.
Qed.

(** At the step 2/M itself the iterates of x^2/2 alternate between x0 and - x0. *)
Theorem C118_step_two_over_M_refuted :
  exists (f g : R_ips -> R) grad prox M beta x0 s0,
    smooth_convex M f grad /\ convex_on everywhere g /\ prox_operator everywhere g prox /\ 0 < beta /\ beta * M = 2 /\
    (exists z, minimises everywhere (fun u => f u + g u) z) /\
    fb_init x0 (Some beta) beta 1 None (LCall None) = Ok s0 /\
    forall l, ~ converges (fun k => fb_x_old (fb_after grad prox k s0)) l.
Proof.
  exists (fun x => x * x / 2), (fun _ => 0), (fun x => x), (fun y _ => y), 1, 2, 1.
  eexists. split; [exact half_square|]. split; [exact zero_convex|]. split; [exact zero_prox_operator|]. split; [lra|]. split; [lra|].
  split; [exists 0; exact half_square_minimum|].
  assert (E : fb_init (H := R_ips) 1 (Some 2) 2 1 None (LCall None) = Ok (mk_fb (H := R_ips) 1 1 None 2 1 (RUser None None) 0)).
  { unfold fb_init. cbn. destruct (Req_EM_T 2 0); [lra|]. reflexivity. }
  split; [exact E|]. intros l C. destruct (fixed_recurrences (H := R_ips) (fun x => x) (fun y _ => y) 1 2 2 1 _ ltac:(lra) E) as (E1 & E2 & RX & RZ).
  exact (alternating _ _ l E1 E2 RX RZ C).
Qed.
Print Assumptions C118_step_two_over_M_refuted.

(** The relaxation bound matters as well: with lambda_param = 3 and half the admissible step the
    iterates of x^2/2 do not approach the minimiser 0. *)
Theorem C118_relaxation_three_refuted :
  exists (f g : R_ips -> R) grad prox M beta x0 s0 z,
    smooth_convex M f grad /\ convex_on everywhere g /\ prox_operator everywhere g prox /\ 0 < beta /\ beta * M < 2 /\
    minimises everywhere (fun u => f u + g u) z /\
    fb_init x0 (Some beta) beta 3 None (LCall None) = Ok s0 /\
    forall z', minimises everywhere (fun u => f u + g u) z' -> ~ converges (fun k => fb_x_old (fb_after grad prox k s0)) z'.
Proof.
  exists (fun x => x * x / 2), (fun _ => 0), (fun x => x), (fun y _ => y), 1, (1 / 2), 2.
  eexists. exists 0. split; [exact half_square|]. split; [exact zero_convex|]. split; [exact zero_prox_operator|]. split; [lra|]. split; [lra|].
  split; [exact half_square_minimum|].
  assert (E : fb_init (H := R_ips) 2 (Some (1 / 2)) (1 / 2) 3 None (LCall None) = Ok (mk_fb (H := R_ips) 2 2 None (1 / 2) 3 (RUser None None) 0)).
  { unfold fb_init. cbn. destruct (Req_EM_T (1 / 2) 0); [lra|]. reflexivity. }
  split; [exact E|]. intros z' [_ Mz] C. assert (z' = 0) by (specialize (Mz 0 I); cbn in Mz; change (car R_ips) with R in *; nra). subst z'.
  destruct (fixed_recurrences (H := R_ips) (fun x => x) (fun y _ => y) 2 (1 / 2) (1 / 2) 3 _ ltac:(lra) E) as (E1 & E2 & RX & RZ).
  exact (oscillating _ _ E1 E2 RX RZ C).
Qed.
Print Assumptions C118_relaxation_three_refuted.

(** Soft thresholding steps with lambda_param = 1/2 from 3 tend to the minimiser of |x|. *)
Example C118_example : exists s0, fb_init (H := R_ips) 3 (Some 1) 1 (/ 2) None (LCall None) = Ok s0 /\
  converges (fun k => fb_x_old (fb_after (H := R_ips) (fun _ => 0) softc k s0)) (0 : R_ips) /\
  fb_z_old (fb_after (H := R_ips) (fun _ => 0) softc 1 s0) = 5 / 2.
Proof.
  assert (E : fb_init (H := R_ips) 3 (Some 1) 1 (/ 2) None (LCall None) = Ok (mk_fb (H := R_ips) 3 3 None 1 (/ 2) (RUser None None) 0)).
  { unfold fb_init. cbn. destruct (Req_EM_T 1 0); [lra|]. reflexivity. }
  eexists. split; [exact E|]. split.
  - destruct (C118_iterates_converge R_ips everywhere (fun _ => 0) (fun z => Rabs z) (fun _ => 0) softc 0 1 1 (/ 2) 3 (mk_fb (H := R_ips) 3 3 None 1 (/ 2) (RUser None None) 0) fd_R (Rle_refl 0)
      (zero_smooth 0 (Rle_refl 0)) abs_convex soft_prox_operator ltac:(lra) ltac:(lra) ltac:(lra)) as (xs & [_ Mx] & C & _); [|exact E|].
    + exists 0. split; [exact I|]. intros z _. rewrite Rabs_R0. pose proof (Rabs_pos z). lra.
    + specialize (Mx 0 I). cbn in Mx. rewrite Rabs_R0 in Mx. assert (xs = 0) by (apply abs_le_0; lra). subst xs. exact C.
  - cbn. unfold softc. repeat (destruct (Rle_dec _ _); try lra).
Qed.

(** * C119: strong convexity *)

(** Without relaxation, when f is mu-strongly convex the squared distance to the minimiser shrinks
    by the factor 1 - beta mu (2 - beta M) at each update, in any space; there is no other
    minimiser. *)
Theorem C119_linear_rate :
  forall (H : ips) (D : H -> Prop) (f g : H -> R) grad prox M mu beta bp x0 s0 xs,
  0 <= M -> smooth_convex M f grad -> strongly_convex mu f -> convex_on D g -> prox_operator D g prox ->
  0 < beta -> beta * M <= 2 -> 0 <= mu ->
  minimises D (fun u => f u + g u) xs ->
  fb_init x0 (Some beta) bp 1 None (LCall None) = Ok s0 ->
  let q := 1 - beta * mu * (2 - beta * M) in
  (forall k, nsq (fb_x_old (fb_after grad prox k s0) - xs)%v <= q ^ k * nsq (x0 - xs)%v) /\
  (forall k metric period, (1 <= k)%nat -> exists x, fb_iterate grad prox None metric false period k s0 = Ok x /\
     nsq (x - xs)%v <= q ^ k * nsq (x0 - xs)%v).
Proof.
  intros H D f g grad prox M mu beta bp x0 s0 xs HM Sf Sc Cg Pg Hb HbM Hmu Mx Ei q.
  destruct (fixed_recurrences grad prox x0 beta bp 1 s0 Hb Ei) as (E1 & E2 & RX & RZ).
  pose proof (proj2 (fb_map_fixed_iff D f g grad prox beta xs Hb (proj1 Sf) (proj1 (proj2 Sf)) Cg Pg) Mx) as Fx.
  assert (EZ : forall k, fb_z_old (fb_after grad prox k s0) = fb_x_old (fb_after grad prox k s0)).
  { intros [|k]; [rewrite E1, E2; reflexivity|]. rewrite RZ. vring. }
  assert (Step : forall k, nsq (fb_x_old (fb_after grad prox (S k) s0) - xs)%v <= q * nsq (fb_x_old (fb_after grad prox k s0) - xs)%v).
  { intros k. rewrite RX, EZ. apply (fb_contraction D f g grad prox M mu beta Hb HM Sf Sc Cg Pg); assumption. }
  assert (G : forall k, nsq (fb_x_old (fb_after grad prox k s0) - xs)%v <= q ^ k * nsq (x0 - xs)%v).
  { assert (Q : 0 <= q \/ forall y : H, y = xs).
    { destruct (Rle_dec 0 q) as [P|N]; [left; exact P|]. right. intros y. apply nsq_sub_0.
      pose proof (fb_contraction D f g grad prox M mu beta Hb HM Sf Sc Cg Pg y xs Fx HbM) as C. fold q in C.
      pose proof (nsq_pos (fb_map grad prox beta y - xs)%v). pose proof (nsq_pos (y - xs)%v). nra. }
    destruct Q as [Q|Q].
    - induction k as [|k IH]; [rewrite E1; cbn; lra|]. specialize (Step k). cbn [pow].
      apply (Rmult_le_compat_l q) in IH; [|exact Q]. lra.
    - intros k. rewrite (Q (fb_x_old _)), (Q x0), vsub_self. unfold nsq. rewrite inner_0_l. lra. }
  split; [exact G|]. intros k metric period Hk. eexists. split; [apply fb_iterate_plain; lia|]. rewrite EZ. apply G.
Qed.
Print Assumptions C119_linear_rate.

Theorem C119_unique_minimiser :
  forall (H : ips) (D : H -> Prop) (f g : H -> R) mu x y,
  0 < mu -> strongly_convex mu f -> convex_on D g ->
  minimises D (fun u => f u + g u) x -> minimises D (fun u => f u + g u) y -> x = y.
Proof.
  intros H D f g mu x y Hmu Sc Cg [Dx Mx] [Dy My]. apply nsq_sub_0.
  destruct (Cg x y (/ 2) Dx Dy ltac:(lra)) as [Dm Gm]. destruct (Sc x y (/ 2) I I ltac:(lra)) as [_ Fm]. cbv beta in Fm.
  specialize (Mx _ Dm). specialize (My _ Dm). set (m := ((1 - / 2) * x + / 2 * y)%v) in *.
  assert (E : nsq m = / 2 * nsq x + / 2 * nsq y - / 4 * nsq (x - y)%v).
  { unfold m. iexpand. rewrite (inner_sym H y x). field. }
  rewrite E in Fm. pose proof (nsq_pos (x - y)%v). nra.
Qed.
Print Assumptions C119_unique_minimiser.

Example C119_example : strongly_convex (H := R_ips) 1 (fun x => x * x / 2) /\
  exists s0, fb_init (H := R_ips) 8 (Some (/ 2)) 1 1 None (LCall None) = Ok s0 /\
  fb_x_old (fb_after (H := R_ips) (fun x => x) (fun y _ => y) 2 s0) = 2 /\ (1 - / 2 * 1 * (2 - / 2 * 1)) ^ 2 * nsq (vsub (H := R_ips) 8 0) = 4.
Proof.
  split.
  - intros x y t _ _ Ht. split; [exact I|]. unfold nsq. cbn. lra.
  - eexists. split; [unfold fb_init; cbn; destruct (Req_EM_T (/ 2) 0); [lra|]; reflexivity|]. split; [cbn; lra|]. unfold nsq, vsub. cbn. lra.
Qed.

(** * C120: Condat *)

(** With fixed parameters and Condat's conditions sigma |L|^2 < 1/tau and
    0 < rho < 2 - (M/2) / (1/tau - sigma |L|^2), the pairs converge to a primal-dual solution as soon
    as there is one; as in C51 the problem is the one with g divided by tau. *)
Theorem C120_iterates_converge :
  forall (H K : ips) (W : Type) (D : H -> Prop) (E : K -> Prop) (f g : H -> R) (h : K -> R) M B
    grad prox (prox_dual : W -> K -> R -> K) lop ladj reweight (x0 : H) (y0 : K) w tau0 rho sigma tau,
  finite_dimensional H -> finite_dimensional K ->
  adjoint lop ladj -> bounded_sq B lop -> 0 <= B -> 0 <= M -> smooth_convex M f grad ->
  convex_on D g -> convex_on E h -> prox_operator D g prox -> prox_operator E h (prox_dual w) ->
  0 < tau -> 0 < sigma -> sigma * B < / tau -> 0 < rho < 2 - M / 2 / (/ tau - sigma * B) ->
  let s0 := condat_init x0 y0 w (Some tau) rho sigma tau0 None None None in
  let g' := fun z => g z / tau in
  (exists xs ys, primal_dual_solution D E grad g' h lop ladj xs ys) ->
  exists xs ys, primal_dual_solution D E grad g' h lop ladj xs ys /\
    minimises (composite_domain D E lop) (composite f g' h lop) xs /\
    converges (fun k => c_x (condat_after grad prox prox_dual lop ladj k s0)) xs /\
    converges (fun k => c_y (condat_after grad prox prox_dual lop ladj k s0)) ys /\
    (forall e, 0 < e -> exists N, forall k metric period, (N <= k)%nat ->
       exists x y, condat_iterate grad prox prox_dual lop ladj reweight None metric false period None k s0 = Ok (x, y) /\
         norm (x - xs)%v < e /\ norm (y - ys)%v < e).
Proof.
  intros H K W D E f g h M B grad prox prox_dual lop ladj reweight x0 y0 w tau0 rho sigma tau FH FK A Hb HB HM Sf Cg Ch Pg Ph Ht Hs Hk Hr s0 g' Ex.
  assert (T : c_tau s0 = tau) by (unfold s0; cbn; destruct (Req_EM_T tau 0); [lra|reflexivity]).
  assert (P0 : forall n, params w rho sigma tau (condat_after grad prox prox_dual lop ladj n s0)).
  { intros n. destruct (constant_params grad prox prox_dual lop ladj n s0 eq_refl eq_refl eq_refl) as (Q1 & Q2 & Q3 & Q4 & _).
    rewrite T in Q3. cbn in Q1, Q2, Q4. split; [exact Q1|]. split; [exact Q2|]. split; [exact Q3|exact Q4]. }
  assert (Hstep : M / 2 < (2 - rho) * (/ tau - sigma * B)).
  { assert (Pk : 0 < / tau - sigma * B) by lra. destruct Hr as [_ Hr]. set (k := / tau - sigma * B) in *.
    assert (X : M / 2 / k < 2 - rho) by lra. apply Rmult_lt_compat_r with (r := k) in X; [|exact Pk].
    replace (M / 2 / k * k) with (M / 2) in X by (field; lra). exact X. }
  destruct (condat_converges D E f g h M B grad prox prox_dual lop ladj w rho sigma tau A Hb HB HM Sf Cg Ch Pg Ph Ht Hs Hstep (proj1 Hr) Hk s0 P0 FH FK Ex)
    as (xs & ys & So & C1 & C2).
  exists xs, ys. split; [exact So|]. split; [apply (solution_minimises grad lop ladj D E f h A g' xs ys (proj1 Sf) (proj1 (proj2 Sf)) So)|].
  split; [exact C1|]. split; [exact C2|]. intros e He. destruct (C1 e He) as (N1 & Q1), (C2 e He) as (N2 & Q2).
  exists (S (N1 + N2)). intros k metric period Hn. do 2 eexists. split; [apply iterate_plain; lia|]. split; [apply Q1; lia|apply Q2; lia].
Qed.
Print Assumptions C120_iterates_converge.

Example C120_example : exists xs : R_ips,
  converges (fun k => c_x (condat_after (H := R_ips) (K := R_ips) (fun _ => 0) softc (fun (_ : unit) y _ => y) (fun x => x) (fun y => y) k
     (condat_init (H := R_ips) (K := R_ips) 5 2 tt (Some (/ 2)) (3 / 2) 1 1 None None None))) xs /\
  minimises (H := R_ips) everywhere (fun z => Rabs z / (/ 2)) xs.
Proof.
  destruct (C120_iterates_converge R_ips R_ips unit everywhere everywhere (fun _ => 0) (fun z => Rabs z) (fun _ => 0) 0 1
    (fun _ => 0) softc (fun _ y _ => y) (fun x => x) (fun y => y) (fun _ w => w) 5 2 tt 1 (3 / 2) 1 (/ 2) fd_R fd_R) as (xs & ys & So & Mi & C & _).
  - intros x y. reflexivity.
  - intros x. lra.
  - lra.
  - lra.
  - apply zero_smooth. lra.
  - exact abs_convex.
  - exact zero_convex.
  - exact soft_prox_operator.
  - exact zero_prox_operator.
  - lra.
  - lra.
  - lra.
  - rewrite Rinv_inv. split; [lra|]. unfold Rdiv. rewrite !Rmult_0_l. lra.
  - exists 0, 0. split; split; try exact I; intros z _; cbn; [|lra]. rewrite Rabs_R0. pose proof (Rabs_pos z). lra.
  - exists xs. split; [exact C|]. destruct Mi as [_ Mi]. split; [exact I|]. intros z _. specialize (Mi z (conj I I)). unfold composite in Mi. lra.
Qed.

(** * C121: GenForwardBackward *)

Lemma gfb_constant {H : ips} grad (proxs : list (H -> R -> H)) s k : g_gamma_update s = None -> g_lambda_update s = None ->
  let s' := gfb_after grad proxs k s in
  g_gamma s' = g_gamma s /\ g_lambda s' = g_lambda s /\ g_weights s' = g_weights s /\ g_gamma_update s' = None /\ g_lambda_update s' = None.
Proof.
  intros E1 E2. induction k as [|k (I1 & I2 & I3 & I4 & I5)]; [cbn; auto|]. cbv zeta.
  change (gfb_after grad proxs (S k) s) with (gfb_update grad proxs (gfb_after grad proxs k s)). unfold gfb_update. cbn.
  rewrite I4, I5. cbn. auto.
Qed.

(** With fixed positive weights, a fixed step gamma and a fixed relaxation lambda such that
    lambda + gamma M / 2 < 2, the estimates converge to a minimiser of f + g_1 + ... + g_n as soon
    as its optimality condition has a solution. *)
Theorem C121_iterates_converge :
  forall (H : ips) (ts : list (term H)) (f : H -> R) grad M (x0 : H) gamma gp lam w s0,
  finite_dimensional H -> 0 <= M -> smooth_convex M f grad -> Forall proper_term ts ->
  0 < gamma -> 0 < lam -> lam + gamma * M / 2 < 2 ->
  (exists x, optimal_point ts grad x) ->
  gfb_init (map t_prox ts) x0 (Some gamma) gp lam None None w = Ok s0 -> Forall (fun w => 0 < w) (g_weights s0) ->
  exists xs, minimises (common_domain ts) (fun z => f z + sum_of_terms ts z) xs /\
    converges (fun k => g_x_old (gfb_after grad (map t_prox ts) k s0)) xs.
Proof.
  intros H ts f grad M x0 gamma gp lam w s0 FD HM Sf Pt Hg Hl Hstep (x & Op) E W.
  pose proof (fun k => gfb_invariant grad (map t_prox ts) x0 (Some gamma) gp lam None None w s0 k E) as Inv.
  assert (Eg : g_gamma s0 = gamma /\ g_lambda s0 = lam /\ g_gamma_update s0 = None /\ g_lambda_update s0 = None).
  { unfold gfb_init in E. destruct (gfb_weights _ w); cbn [bind] in E; [|discriminate]. rewrite step_or_pos in E by exact Hg. injection E as <-. auto. }
  destruct Eg as (G1 & G2 & G3 & G4). set (ws := g_weights s0) in *.
  destruct (Inv 0%nat) as (_ & _ & Lw & Sw & L0). rewrite map_length in Lw, L0.
  destruct (gfb_converges gamma Hg f grad M lam ts ws HM Sf Pt Lw W Sw Hl Hstep FD (fun k => g_z (gfb_after grad (map t_prox ts) k s0))) as (zs & Fz & C).
  - exact L0.
  - intros k. destruct (gfb_constant grad (map t_prox ts) s0 k G3 G4) as (K1 & K2 & K3 & _).
    destruct (Inv k) as (Ex & Ew & _ & _ & Lz). rewrite map_length in Lz. rewrite Ew in Ex.
    change (gfb_after grad (map t_prox ts) (S k) s0) with (gfb_update grad (map t_prox ts) (gfb_after grad (map t_prox ts) k s0)).
    unfold gfb_update. cbn [g_z]. rewrite K1, K2, Ew, Ex, G1, G2. unfold next, residuals, errors, points, mean. fold ws.
    set (s := gfb_after grad (map t_prox ts) k s0) in *. set (xk := weighted_sum ws (g_z s)). set (gx := grad xk). clearbody xk gx.
    unfold prox_points. revert Lw Lz. generalize (g_z s) ws ts. clear.
    intros l vs us. revert vs l. induction us as [|u us IH]; intros [|v vs] [|a l] L1 L2; cbn in L1, L2; try discriminate; [reflexivity|].
    cbn [map combine map2 fst snd]. f_equal; [vring|]. apply IH; lia.
  - apply (fixed_exists gamma Hg grad ts ws Pt Lw W Sw x Op).
  - exists (mean ws zs). split; [apply (fixed_minimises gamma Hg f grad M ts ws Sf Pt Lw W Sw zs Fz)|].
    apply converges_ext with (2 := C). intros k. destruct (Inv k) as (Ex & Ew & _). rewrite Ex, Ew. reflexivity.
Qed.
Print Assumptions C121_iterates_converge.

(** The optimality condition implies minimality; what a run returns is the estimate. *)
Theorem C121_optimal_points_minimise :
  forall (H : ips) (ts : list (term H)) (f : H -> R) grad x, convex f -> is_gradient f grad ->
  optimal_point ts grad x -> minimises (common_domain ts) (fun z => f z + sum_of_terms ts z) x.
Proof.
  intros H ts f grad x Cf Gf (qs & Fq & Eq).
  assert (G : common_domain ts x /\ forall z, common_domain ts z -> sum_of_terms ts x + inner (sum_of_vectors qs) (z - x)%v <= sum_of_terms ts z).
  { clear Eq. induction Fq as [|t q ts qs [Dx V] Fq [I1 I2]].
    - split; [constructor|]. intros z _. unfold sum_of_terms. cbn. rewrite inner_0_l. lra.
    - split; [constructor; assumption|]. intros z Dz. inversion Dz as [|? ? D1 D2]; subst. specialize (V z D1). specialize (I2 z D2).
      unfold sum_of_terms in *. cbn [map sum_of_vectors]. rewrite inner_add_l.
      change (rsum (t_val t x :: map (fun t0 => t_val t0 x) ts)) with (t_val t x + rsum (map (fun t0 => t_val t0 x) ts)).
      change (rsum (t_val t z :: map (fun t0 => t_val t0 z) ts)) with (t_val t z + rsum (map (fun t0 => t_val t0 z) ts)). lra. }
  destruct G as [Dx G]. split; [exact Dx|]. intros z Dz. specialize (G z Dz). pose proof (first_order f grad Cf Gf x z) as F.
  assert (Q : inner (grad x + sum_of_vectors qs)%v (z - x)%v = 0) by (rewrite Eq; apply inner_0_l). rewrite inner_add_l in Q. lra.
Qed.
Print Assumptions C121_optimal_points_minimise.

Theorem C121_run_returns_estimate :
  forall (H : ips) grad proxs (s0 : gfb (H := H)) k metric period, (0 < k)%nat ->
  gfb_iterate grad proxs None metric false period k s0 = Ok (g_x_old (gfb_after grad proxs k s0)).
Proof.
  intros H grad proxs s0 k metric period Hk. unfold gfb_iterate.
  destruct (run_plain GenForwardBackward (gfb_update grad proxs) None metric false period k (mk_alg s0 [] false) eq_refl eq_refl eq_refl) as (s' & tr' & E & D').
  rewrite E. cbn [bind fst]. rewrite D'. cbn [data]. fold (gfb_after grad proxs k s0). destruct k as [|k]; [lia|]. reflexivity.
Qed.
Print Assumptions C121_run_returns_estimate.

(** |x| + |x| from 4 with weights 1/4 and 3/4 and lambda = 3/2. *)
Definition abs_term : term R_ips := mk_term everywhere (fun z : R_ips => Rabs z) softc.
Example C121_example : optimal_point (H := R_ips) [abs_term; abs_term] (fun _ => 0) 0 /\
  exists s0, gfb_init (H := R_ips) [softc; softc] 4 (Some 1) 1 (3 / 2) None None (Some [/ 4; 3 / 4]) = Ok s0 /\
  Forall (fun w => 0 < w) (g_weights s0) /\ 3 / 2 + 1 * 0 / 2 < 2 /\
  converges (fun k => g_x_old (gfb_after (H := R_ips) (fun _ => 0) [softc; softc] k s0)) (0 : R_ips).
Proof.
  assert (Op : optimal_point (H := R_ips) [abs_term; abs_term] (fun _ => 0) 0).
  { exists [0; 0]. split; [|cbn; lra].
    assert (S : subgradient (t_dom abs_term) (t_val abs_term) 0 0) by (split; [exact I|]; intros z _; cbn; rewrite Rabs_R0; pose proof (Rabs_pos z); lra).
    constructor; [exact S|]. constructor; [exact S|constructor]. }
  split; [exact Op|].
  assert (E : gfb_init (H := R_ips) [softc; softc] 4 (Some 1) 1 (3 / 2) None None (Some [/ 4; 3 / 4]) = Ok (mk_gfb (H := R_ips) 4 None [4; 4] [/ 4; 3 / 4] 1 (3 / 2) 0 None None)).
  { unfold gfb_init, gfb_weights. cbn [List.length Nat.eqb negb rsum fold_right]. destruct (Req_EM_T _ 1) as [_|N]; [|exfalso; apply N; lra].
    cbn [bind step_or]. destruct (Req_EM_T 1 0); [lra|]. reflexivity. }
  eexists. split; [exact E|]. assert (W : Forall (fun w => 0 < w) [/ 4; 3 / 4]) by (repeat constructor; lra).
  split; [exact W|]. split; [lra|].
  destruct (C121_iterates_converge R_ips [abs_term; abs_term] (fun _ => 0) (fun _ => 0) 0 4 1 1 (3 / 2) (Some [/ 4; 3 / 4])
    (mk_gfb (H := R_ips) 4 None [4; 4] [/ 4; 3 / 4] 1 (3 / 2) 0 None None) fd_R (Rle_refl 0) (zero_smooth 0 (Rle_refl 0))) as (xs & [_ Mx] & C); try lra.
  - assert (P : proper_term abs_term) by (split; [exact abs_convex|exact soft_prox_operator]).
    constructor; [exact P|]. constructor; [exact P|constructor].
  - exists 0. exact Op.
  - exact E.
  - exact W.
  - assert (D0 : common_domain [abs_term; abs_term] 0) by (constructor; [exact I|]; constructor; [exact I|constructor]).
    specialize (Mx 0 D0). unfold sum_of_terms in Mx. cbn in Mx. rewrite Rabs_R0 in Mx. pose proof (Rabs_pos xs).
    assert (xs = 0) by (apply abs_le_0; lra). subst xs. exact C.
Qed.
