(** Theorems about two runs of the same algorithm: C145. *)
From Coq Require Import String.
From Verif Require Import NPReal Py IPS Model_SetUp Spec_Opt Proof_Smooth Spec_Lim Proof_Lim Proof_Iter
  Model_FB Proof_FB Proof_FB2 Proof_Inst Model_PD Proof_PD Proof_Iter3 Prop_Lim Proof_Apart Proof_Apart2.
From Coq Require Import List Lia Lra FunctionalExtensionality.
Import ListNotations.
Local Open Scope R_scope.

(** * C145 *)

Lemma nsq_norm_le {H : ips} (x y : H) : nsq x <= nsq y -> norm x <= norm y.
Proof. intros L. unfold norm. apply sqrt_le_1_alt, L. Qed.

(** ForwardBackward without acceleration, step at most 2/M, relaxation at most 1: started from two
    points, the estimates and the arrays returned by iterate() are never further apart than the
    starting points. No solution need exist. *)
Theorem C145_two_runs :
  forall (H : ips) (D : H -> Prop) (f g : H -> R) grad prox M beta bp lam (x0 x0' : H) s0 s0',
  0 <= M -> smooth_convex M f grad -> convex_on D g -> prox_operator D g prox ->
  0 < beta -> beta * M <= 2 -> 0 <= lam <= 1 ->
  fb_init x0 (Some beta) bp lam None (LCall None) = Ok s0 ->
  fb_init x0' (Some beta) bp lam None (LCall None) = Ok s0' ->
  forall n,
  norm (fb_x_old (fb_after grad prox n s0) - fb_x_old (fb_after grad prox n s0'))%v <= norm (x0 - x0')%v /\
  (forall metric period metric' period', (0 < n)%nat -> exists x x',
     fb_iterate grad prox None metric false period n s0 = Ok x /\
     fb_iterate grad prox None metric' false period' n s0' = Ok x' /\ norm (x - x')%v <= norm (x0 - x0')%v).
Proof.
  intros H D f g grad prox M beta bp lam x0 x0' s0 s0' HM Sf Cg Pg Hb HbM Hl Ei Ei' n.
  destruct (fixed_recurrences grad prox x0 beta bp lam s0 Hb Ei) as (E1 & E2 & RX & RZ).
  destruct (fixed_recurrences grad prox x0' beta bp lam s0' Hb Ei') as (E1' & E2' & RX' & RZ').
  destruct (two_runs_bound D f g grad prox M beta lam Hb HM Sf Cg Pg HbM _ _ _ _ RX RZ RX' RZ' Hl 0 n (nsq (x0 - x0')%v)) as [B1 B2];
    cbv beta in *; [rewrite E1, E1'; lra|rewrite E2, E2'; lra|].
  rewrite Nat.add_0_r in B1, B2. split; [apply nsq_norm_le; exact B1|].
  intros metric period metric' period' Hn. do 2 eexists. split; [apply fb_iterate_plain; exact Hn|]. split; [apply fb_iterate_plain; exact Hn|].
  apply nsq_norm_le. exact B2.
Qed.
Print Assumptions C145_two_runs.

(** With the default relaxation 1 the distance between the two runs never increases, and the moves
    of a run never get longer. *)
Theorem C145_moves_shrink :
  forall (H : ips) (D : H -> Prop) (f g : H -> R) grad prox M beta bp (x0 x0' : H) s0 s0',
  0 <= M -> smooth_convex M f grad -> convex_on D g -> prox_operator D g prox ->
  0 < beta -> beta * M <= 2 ->
  fb_init x0 (Some beta) bp 1 None (LCall None) = Ok s0 ->
  fb_init x0' (Some beta) bp 1 None (LCall None) = Ok s0' ->
  let X n := fb_x_old (fb_after grad prox n s0) in
  let X' n := fb_x_old (fb_after grad prox n s0') in
  (forall n, norm (X (S n) - X' (S n))%v <= norm (X n - X' n)%v) /\
  (forall n, norm (X (S (S n)) - X (S n))%v <= norm (X (S n) - X n)%v).
Proof.
  intros H D f g grad prox M beta bp x0 x0' s0 s0' HM Sf Cg Pg Hb HbM Ei Ei' X X'.
  destruct (fixed_recurrences grad prox x0 beta bp 1 s0 Hb Ei) as (E1 & E2 & RX & RZ).
  destruct (fixed_recurrences grad prox x0' beta bp 1 s0' Hb Ei') as (E1' & E2' & RX' & RZ').
  assert (ZX : forall n, fb_z_old (fb_after grad prox n s0) = X n).
  { intros [|n]; [rewrite E2; symmetry; exact E1|]. rewrite RZ. unfold X. vring. }
  assert (ZX' : forall n, fb_z_old (fb_after grad prox n s0') = X' n).
  { intros [|n]; [rewrite E2'; symmetry; exact E1'|]. rewrite RZ'. unfold X'. vring. }
  pose proof (T_nonexpansive D f g grad prox M beta Hb HM Sf Cg Pg HbM) as TN.
  assert (SX : forall n, X (S n) = fb_map grad prox beta (X n)) by (intros n; unfold X at 1; rewrite RX, ZX; reflexivity).
  assert (SX' : forall n, X' (S n) = fb_map grad prox beta (X' n)) by (intros n; unfold X' at 1; rewrite RX', ZX'; reflexivity).
  split; intros n; apply nsq_norm_le.
  - rewrite SX, SX'. apply TN.
  - rewrite (SX (S n)). rewrite (SX n) at 2. apply TN.
Qed.
Print Assumptions C145_moves_shrink.

(** Hence a rate for the last move: its square is at most |x0 - z|^2 / ((1 - beta M/2) (n+1)). *)
Theorem C145_last_move :
  forall (H : ips) (D : H -> Prop) (f g : H -> R) grad prox M beta bp (x0 : H) s0 z,
  0 <= M -> smooth_convex M f grad -> convex_on D g -> prox_operator D g prox ->
  0 < beta -> beta * M < 2 -> minimises D (fun u => f u + g u) z ->
  fb_init x0 (Some beta) bp 1 None (LCall None) = Ok s0 ->
  let X n := fb_x_old (fb_after grad prox n s0) in
  forall n, nsq (X (S n) - X n)%v <= nsq (x0 - z)%v / ((1 - beta * M / 2) * (INR n + 1)).
Proof.
  intros H D f g grad prox M beta bp x0 s0 z HM Sf Cg Pg Hb HbM Mz Ei X n.
  destruct (fixed_recurrences grad prox x0 beta bp 1 s0 Hb Ei) as (E1 & E2 & RX & RZ).
  assert (ZX : forall n, fb_z_old (fb_after grad prox n s0) = X n).
  { intros [|m]; [rewrite E2; symmetry; exact E1|]. rewrite RZ. unfold X. vring. }
  assert (SX : forall n, X (S n) = fb_map grad prox beta (X n)) by (intros m; unfold X at 1; rewrite RX, ZX; reflexivity).
  pose proof (proj2 (fb_map_fixed_iff D f g grad prox beta z Hb (proj1 Sf) (proj1 (proj2 Sf)) Cg Pg) Mz) as Fz.
  pose proof (paid_for (fun n => nsq (X (S n) - X n)%v) (fun n => nsq (X n - z)%v) (1 - beta * M / 2) ltac:(lra)) as P.
  assert (Q : (1 - beta * M / 2) * (INR n + 1) * nsq (X (S n) - X n)%v <= nsq (X 0%nat - z)%v).
  { apply P.
    - intros m. apply nsq_pos.
    - intros m. cbv beta. rewrite (SX (S m)). rewrite (SX m) at 2. apply (T_nonexpansive D f g grad prox M beta Hb HM Sf Cg Pg). lra.
    - intros m. cbv beta. rewrite (SX m). apply (fb_fejer D f g grad prox M beta Hb HM Sf Cg Pg (X m) z Fz). }
  unfold X in Q at 3. rewrite E1 in Q. pose proof (pos_INR n).
  assert (Pc : 0 < (1 - beta * M / 2) * (INR n + 1)) by (apply Rmult_lt_0_compat; lra).
  apply Rmult_le_reg_l with ((1 - beta * M / 2) * (INR n + 1)); [exact Pc|].
  replace ((1 - beta * M / 2) * (INR n + 1) * (nsq (x0 - z)%v / ((1 - beta * M / 2) * (INR n + 1)))) with (nsq (x0 - z)%v) by (field; lra).
  exact Q.
Qed.
Print Assumptions C145_last_move.

(** GenForwardBackward with fixed parameters, lambda + gamma M / 2 <= 2: started from two points, the
    estimates and the arrays returned by iterate() are never further apart than the starting
    points. *)
Theorem C145_several_terms :
  forall (H : ips) (ts : list (term H)) (f : H -> R) grad M (x0 x0' : H) gamma gp lam w s0 s0',
  0 <= M -> smooth_convex M f grad -> Forall proper_term ts ->
  0 < gamma -> 0 <= lam -> lam + gamma * M / 2 <= 2 ->
  gfb_init (map t_prox ts) x0 (Some gamma) gp lam None None w = Ok s0 ->
  gfb_init (map t_prox ts) x0' (Some gamma) gp lam None None w = Ok s0' ->
  Forall (fun w => 0 < w) (g_weights s0) ->
  forall n,
  norm (g_x_old (gfb_after grad (map t_prox ts) n s0) - g_x_old (gfb_after grad (map t_prox ts) n s0'))%v <= norm (x0 - x0')%v /\
  (forall metric period metric' period', (0 < n)%nat -> exists x x',
     gfb_iterate grad (map t_prox ts) None metric false period n s0 = Ok x /\
     gfb_iterate grad (map t_prox ts) None metric' false period' n s0' = Ok x' /\ norm (x - x')%v <= norm (x0 - x0')%v).
Proof.
  intros H ts f grad M x0 x0' gamma gp lam w s0 s0' HM Sf Pt Hg Hl Hs E E' W n.
  destruct (gfb_steps ts grad x0 gamma gp lam w s0 Hg E) as (Lw & Sw & Z0 & Lz & St & Ex).
  destruct (gfb_steps ts grad x0' gamma gp lam w s0' Hg E') as (_ & _ & Z0' & Lz' & St' & Ex').
  assert (Eww : g_weights s0' = g_weights s0).
  { unfold gfb_init in E, E'. destruct (gfb_weights _ w); cbn [bind] in *; [|discriminate]. injection E as <-. injection E' as <-. reflexivity. }
  rewrite Eww in *. set (ws := g_weights s0) in *.
  assert (B : norm (g_x_old (gfb_after grad (map t_prox ts) n s0) - g_x_old (gfb_after grad (map t_prox ts) n s0'))%v <= norm (x0 - x0')%v).
  { apply nsq_norm_le. rewrite Ex, Ex'. eapply Rle_trans; [apply (mean_apart ts ws Lw W Sw); [apply Lz|apply Lz']|].
    rewrite <- (wq_same ts ws Lw Sw x0 x0'), <- Z0, <- Z0'. induction n as [|n IH]; [lra|].
    eapply Rle_trans; [|exact IH]. rewrite St, St'. apply (gfb_apart gamma Hg f grad M lam ts ws HM Sf Pt Lw W Sw Hl Hs); [apply Lz|apply Lz']. }
  split; [exact B|]. intros metric period metric' period' Hn. do 2 eexists.
  split; [apply gfb_iterate_plain; exact Hn|]. split; [apply gfb_iterate_plain; exact Hn|]. exact B.
Qed.
Print Assumptions C145_several_terms.

(** Condat with fixed parameters in the range of C120: in the norm
    |dx|^2/tau + |dy|^2/sigma - 2 <L dx, dy>, two runs never move apart, the moves of a run never
    get longer, and with a primal-dual solution the square of the last move is O(1/n). *)
Theorem C145_condat :
  forall (H K : ips) (W : Type) (D : H -> Prop) (E : K -> Prop) (f g : H -> R) (h : K -> R) M B
    grad prox (prox_dual : W -> K -> R -> K) lop ladj (x0 x0' : H) (y0 y0' : K) w tau0 rho sigma tau,
  adjoint lop ladj -> bounded_sq B lop -> 0 <= M -> smooth_convex M f grad ->
  convex_on D g -> convex_on E h -> prox_operator D g prox -> prox_operator E h (prox_dual w) ->
  0 < tau -> 0 < sigma -> sigma * B < / tau -> 0 < rho <= 2 - M / 2 / (/ tau - sigma * B) ->
  let start x y := condat_init x y w (Some tau) rho sigma tau0 None None None in
  let X x y n := c_x (condat_after grad prox prox_dual lop ladj n (start x y)) in
  let Y x y n := c_y (condat_after grad prox prox_dual lop ladj n (start x y)) in
  let dist a b a' b' := pd_sq lop tau sigma (a - a')%v (b - b')%v in
  let move n := dist (X x0 y0 (S n)) (Y x0 y0 (S n)) (X x0 y0 n) (Y x0 y0 n) in
  (forall n, dist (X x0 y0 (S n)) (Y x0 y0 (S n)) (X x0' y0' (S n)) (Y x0' y0' (S n))
          <= dist (X x0 y0 n) (Y x0 y0 n) (X x0' y0' n) (Y x0' y0' n)) /\
  (forall n, move (S n) <= move n) /\
  (forall xs ys, primal_dual_solution D E grad (fun z => g z / tau) h lop ladj xs ys -> forall n,
     (2 - rho - M / 2 / (/ tau - sigma * B)) * (INR n + 1) * move n <= rho * dist x0 y0 xs ys).
Proof.
  intros H K W D E f g h M B grad prox prox_dual lop ladj x0 x0' y0 y0' w tau0 rho sigma tau A Hb HM Sf Cg Ch Pg Ph Ht Hs Hk Hr start X Y dist move.
  assert (P0 : forall x y n, with_params w rho sigma tau (condat_after grad prox prox_dual lop ladj n (start x y))).
  { intros x y n. destruct (constant_params grad prox prox_dual lop ladj n (start x y) eq_refl eq_refl eq_refl) as (Q1 & Q2 & Q3 & Q4 & _).
    assert (T : c_tau (start x y) = tau) by (unfold start; cbn; destruct (Req_EM_T tau 0); [lra|reflexivity]).
    rewrite T in Q3. cbn in Q1, Q2, Q4. split; [exact Q1|]. split; [exact Q2|]. split; [exact Q3|exact Q4]. }
  assert (Pk : 0 < / tau - sigma * B) by lra.
  pose proof (step_apart D E f g h M B grad prox prox_dual lop ladj w rho sigma tau A Hb HM Sf Cg Ch Pg Ph Ht Hs (Rlt_le _ _ (proj1 Hr)) Pk (proj2 Hr)) as SA.
  assert (Mv : forall n, move (S n) <= move n).
  { intros n. unfold move, dist, X, Y. rewrite !after_S. apply SA; [apply (P0 x0 y0 (S n))|apply P0]. }
  split; [intros n; unfold dist, X, Y; rewrite !after_S; apply SA; apply P0|]. split; [exact Mv|].
  intros xs ys Sol n.
  set (c := 2 - rho - M / 2 / (/ tau - sigma * B)) in *.
  assert (Hc : 0 <= c) by (unfold c; lra).
  pose proof (paid_for move (fun n => rho * dist (X x0 y0 n) (Y x0 y0 n) xs ys) c Hc) as P.
  apply P.
  - intros m. apply Rmult_le_pos; [lra|]. apply (N_pos B lop sigma tau Hb Ht Hs Pk).
  - exact Mv.
  - intros m. destruct (P0 x0 y0 m) as (Er & Es & Et & Ew).
    set (s := condat_after grad prox prox_dual lop ladj m (start x0 y0)) in *.
    assert (Et0 : 0 < c_tau s) by lra. assert (Es0 : 0 < c_sigma s) by lra. assert (Er0 : 0 <= c_rho s) by lra.
    pose proof (step_progress grad prox prox_dual lop ladj D E f g h A Cg Ch Pg w Ph s M xs ys Et0 Es0 Er0 Ew HM Sf) as Q.
    rewrite Et, Es, Er in Q. specialize (Q Sol).
    destruct (move_is grad prox prox_dual lop ladj w rho sigma tau s (conj Er (conj Es (conj Et Ew)))) as [E1 E2].
    unfold move, dist, X, Y. rewrite !after_S. fold s. rewrite E1, E2.
    rewrite (N_scal lop ladj sigma tau A).
    set (ex := (c_x s - _)%v) in *. set (ey := (c_y s - _)%v) in *.
    pose proof (bracket M B lop rho sigma tau Hb HM Ht Hs Pk ex ey) as Br. fold c in Br.
    set (Q0 := pd_sq lop tau sigma ex ey) in *. set (bb := (2 - rho) * Q0 - M / 2 * nsq ex) in *.
    apply (Rmult_le_compat_l (rho * rho)) in Br; [|apply Rmult_le_pos; lra].
    apply (Rmult_le_compat_l rho) in Q; [|lra]. lra.
Qed.
Print Assumptions C145_condat.

(** x^2/2 on the real line with step 1/10: the fourth move of a default, accelerated, run is longer
    than the third. *)
Theorem C145_accelerated_moves_shrink_refuted :
  exists (f g : R_ips -> R) grad prox beta (x0 : R_ips) s0 n,
  smooth_convex 1 f grad /\ convex_on everywhere g /\ prox_operator everywhere g prox /\ 0 < beta <= 1 /\
  (exists z, minimises everywhere (fun u => f u + g u) z) /\
  fb_init x0 (Some beta) 1 1 None (LFista default_fista_args) = Ok s0 /\
  let X k := fb_x_old (fb_after grad prox k s0) in
  norm (X (S n) - X n)%v < norm (X (S (S n)) - X (S n))%v.
Proof.
  exists (fun x => x * x / 2), (fun _ => 0), (fun x => x), (fun y _ => y), (/ 10), 1.
  eexists. exists 2%nat. split; [exact half_square|]. split; [exact zero_convex|]. split; [exact zero_prox_operator|].
  split; [lra|]. split; [exists 0; exact half_square_minimum|].
  unfold fb_init, default_fista_args. rewrite fista_init_regular. cbn [bind]. rewrite step_or_pos by lra.
  split; [reflexivity|]. cbv zeta. cbn -[Rminus sqrt norm vsub].
  set (t1 := 1 + sqrt (4 * (1 * (1 * 1)) + 1) * / 2).
  assert (B1 : 2 <= t1 <= 5 / 2).
  { assert (Q1 : 2 <= sqrt (4 * (1 * (1 * 1)) + 1)).
    { rewrite <- (sqrt_square 2) at 1 by lra. apply sqrt_le_1_alt. lra. }
    assert (Q2 : sqrt (4 * (1 * (1 * 1)) + 1) <= 3).
    { rewrite <- (sqrt_square 3) by lra. apply sqrt_le_1_alt. lra. }
    unfold t1. lra. }
  clearbody t1.
  set (t2 := 1 + sqrt (4 * (t1 * (t1 * 1)) + 1) * / 2).
  assert (B2 : 0 < t2 <= t1 + 3 / 2).
  { assert (Q2 : sqrt (4 * (t1 * (t1 * 1)) + 1) <= 2 * t1 + 1).
    { rewrite <- (sqrt_square (2 * t1 + 1)) by lra. apply sqrt_le_1_alt. nra. }
    pose proof (sqrt_pos (4 * (t1 * (t1 * 1)) + 1)). unfold t2. lra. }
  clearbody t2.
  set (l2 := 1 + (t1 - 1) / t2).
  assert (B3 : 6 / 5 <= l2).
  { unfold l2. assert (Q : / 5 * t2 <= t1 - 1) by lra. apply (Rmult_le_compat_r (/ t2)) in Q; [|left; apply Rinv_0_lt_compat; lra].
    rewrite Rmult_assoc, Rinv_r, Rmult_1_r in Q by lra. unfold Rdiv. lra. }
  clearbody l2. replace ((1 - 1) / t1) with 0 by (field; lra).
  assert (NL : forall (u v : R_ips) (a b : R), u = a -> v = b -> a * a < b * b -> norm u < norm v).
  { intros u v a b -> -> L. unfold norm, nsq. apply sqrt_lt_1_alt. split; [apply Rle_0_sqr|exact L]. }
  match goal with |- norm ?a < norm ?b => assert (Ea : a = (- (81 / 1000)) :> R); [unfold vsub; cbn; field|];
    assert (Eb : b = (- (l2 * (729 / 10000))) :> R); [unfold vsub; cbn; field|] end.
  apply (NL _ _ _ _ Ea Eb).
  assert (L2 : 81 / 1000 < l2 * (729 / 10000)) by lra. nra.
Qed.
Print Assumptions C145_accelerated_moves_shrink_refuted.

(** |x| + (x - 3)^2 / 2 with step 3/2: runs from 5 and -3 stay within 8, and the last move of the
    first run is O(1/sqrt n); |x| / (1/2) by Condat with rho = 3/2, from (5, 2) and (-1, 4). *)
Example C145_example :
  (exists s0 s0' : @fb R_ips,
     fb_init (5 : R_ips) (Some (3 / 2)) 1 1 None (LCall None) = Ok s0 /\
     fb_init (- 3 : R_ips) (Some (3 / 2)) 1 1 None (LCall None) = Ok s0' /\
     forall n, norm (fb_x_old (fb_after (H := R_ips) (fun x => x - 3)%R softc n s0) -
                     fb_x_old (fb_after (H := R_ips) (fun x => x - 3)%R softc n s0'))%v <= 8 /\
       nsq (fb_x_old (fb_after (H := R_ips) (fun x => x - 3)%R softc (S n) s0) -
            fb_x_old (fb_after (H := R_ips) (fun x => x - 3)%R softc n s0))%v <= 36 / (INR n + 1)) /\
  (forall n,
     let X (x y : R_ips) := condat_after (H := R_ips) (K := R_ips) (fun _ => 0) softc (fun (_ : unit) y _ => y) (fun x => x) (fun y => y) n
        (condat_init (H := R_ips) (K := R_ips) x y tt (Some (/ 2)) (3 / 2) 1 1 None None None) in
     pd_sq (H := R_ips) (K := R_ips) (fun x => x) (/ 2) 1 (c_x (X 5 2) - c_x (X (-1) 4))%v (c_y (X 5 2) - c_y (X (-1) 4))%v <= 100).
Proof.
  split.
  - do 2 eexists. split; [reflexivity|]. split; [reflexivity|]. intros n.
    assert (Mz : minimises (H := R_ips) everywhere (fun u => (u - 3) * (u - 3) / 2 + Rabs u) 2).
    { split; [exact I|]. intros z _. rewrite (Rabs_right 2) by lra. pose proof (Rle_abs z). pose proof (Rle_0_sqr (z - 2)) as S. unfold Rsqr in S. unfold car in *; cbn in *. lra. }
    split.
    + replace 8 with (norm ((5 : R_ips) - (- 3 : R_ips))%v).
      * refine (proj1 (C145_two_runs R_ips everywhere (fun x => (x - 3) * (x - 3) / 2) (fun z => Rabs z) (fun x => x - 3) softc 1 (3 / 2) 1 1 5 (- 3) _ _
          _ (quad_smooth 3) abs_convex soft_prox_operator _ _ _ eq_refl eq_refl n)); lra.
      * unfold norm, nsq, vsub. cbn. replace ((5 + -1 * - 3) * (5 + -1 * - 3)) with (8 * 8) by ring. apply sqrt_square. lra.
    + pose proof (C145_last_move R_ips everywhere (fun x => (x - 3) * (x - 3) / 2) (fun z => Rabs z) (fun x => x - 3) softc 1 (3 / 2) 1 5 _ 2
        ltac:(lra) (quad_smooth 3) abs_convex soft_prox_operator ltac:(lra) ltac:(lra) Mz eq_refl n) as Q. cbv beta zeta in Q.
      eapply Rle_trans; [exact Q|]. right. unfold nsq, vsub. cbn. field. pose proof (pos_INR n). lra.
  - intros n X.
    pose proof (C145_condat R_ips R_ips unit everywhere everywhere (fun _ => 0) (fun z => Rabs z) (fun _ => 0) 0 1
      (fun _ => 0) softc (fun _ y _ => y) (fun x => x) (fun y => y) 5 (-1) 2 4 tt 1 (3 / 2) 1 (/ 2)) as Q.
    destruct Q as [Q _].
    + intros x y. reflexivity.
    + intros x. lra.
    + lra.
    + apply zero_smooth. lra.
    + exact abs_convex.
    + exact zero_convex.
    + exact soft_prox_operator.
    + exact zero_prox_operator.
    + lra.
    + lra.
    + lra.
    + rewrite Rinv_inv. split; [lra|]. unfold Rdiv. rewrite !Rmult_0_l. lra.
    + unfold X. clear X. induction n as [|n IH].
      * cbn -[pd_sq]. unfold pd_sq, nsq, vsub. cbn. lra.
      * eapply Rle_trans; [apply Q|exact IH].
Qed.
