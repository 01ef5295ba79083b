(** Theorems about Condat: C51, C52, C62 and its part of C47. *)
From Coq Require Import String.
From Verif Require Import NPReal Py IPS Model_SetUp Spec_Opt Proof_Smooth Model_FB Proof_FB2 Proof_Inst
  Model_Signal Model_Prox Spec_Prox Proof_Prox Model_PD Proof_PD.
From Coq Require Import List Lia.
Import ListNotations.
Local Open Scope string_scope.
Local Open Scope R_scope.

(** * C51 *)

(** The pairs left unchanged by an update are exactly the primal-dual solutions of
    min f + g/tau + h o L: the primal prox is evaluated with unit factor whatever tau is. *)
Theorem C51_fixed_points_solve_scaled_problem :
  forall (H K : ips) (W : Type) (D : H -> Prop) (E : K -> Prop) (f g : H -> R) (h : K -> R)
    grad prox (prox_dual : W -> K -> R -> K) lop ladj (s : condat W),
  adjoint lop ladj -> convex f -> is_gradient f grad -> convex_on D g -> convex_on E h ->
  prox_operator D g prox -> prox_operator E h (prox_dual (c_w s)) ->
  0 < c_tau s -> 0 < c_sigma s -> c_rho s <> 0 ->
  let s' := condat_update grad prox prox_dual lop ladj s in
  let g' := fun z => g z / c_tau s in
  (c_x s' = c_x s /\ c_y s' = c_y s <-> primal_dual_solution D E grad g' h lop ladj (c_x s) (c_y s)) /\
  (c_x s' = c_x s /\ c_y s' = c_y s -> minimises (composite_domain D E lop) (composite f g' h lop) (c_x s)).
Proof.
  intros H K W D E f g h grad prox prox_dual lop ladj s A Cf Gf Cg Ch Pg Ph Ht Hs Hr s' g'.
  assert (Q : c_x s' = c_x s /\ c_y s' = c_y s <-> primal_dual_solution D E grad g' h lop ladj (c_x s) (c_y s)).
  { unfold s'. rewrite update_x, update_y, !relax_fixed by exact Hr.
    unfold g'. rewrite <- (fixed_iff grad prox prox_dual lop ladj D E g h Cg Ch Pg (c_w s) Ph s Ht Hs eq_refl).
    rewrite (surjective_pairing (condat_prox _ _ _ _ _ s)). cbn [fst snd]. split; [intros [-> ->]; reflexivity|].
    intros Q. injection Q. auto. }
  split; [exact Q|]. intros F. apply (solution_minimises grad lop ladj D E f h A g' (c_x s) (c_y s) Cf Gf). apply Q, F.
Qed.
Print Assumptions C51_fixed_points_solve_scaled_problem.

(** When the primal prox is the projection on a convex set D (g = 0 on D, the documented use), the
    fixed points minimise f + h o L over D for every tau. *)
Theorem C51_fixed_points_with_constraint :
  forall (H K : ips) (W : Type) (D : H -> Prop) (E : K -> Prop) (f : H -> R) (h : K -> R)
    grad prox (prox_dual : W -> K -> R -> K) lop ladj (s : condat W),
  adjoint lop ladj -> convex f -> is_gradient f grad -> convex_on D (fun _ => 0) -> convex_on E h ->
  prox_operator D (fun _ => 0) prox -> prox_operator E h (prox_dual (c_w s)) ->
  0 < c_tau s -> 0 < c_sigma s -> c_rho s <> 0 ->
  let s' := condat_update grad prox prox_dual lop ladj s in
  c_x s' = c_x s -> c_y s' = c_y s ->
  minimises (fun x => D x /\ E (lop x)) (fun x => f x + h (lop x)) (c_x s).
Proof.
  intros H K W D E f h grad prox prox_dual lop ladj s A Cf Gf Cg Ch Pg Ph Ht Hs Hr s' E1 E2.
  destruct (C51_fixed_points_solve_scaled_problem H K W D E f _ h grad prox prox_dual lop ladj s A Cf Gf Cg Ch Pg Ph Ht Hs Hr) as [_ M].
  destruct (M (conj E1 E2)) as [M1 M2]. split; [exact M1|]. intros z Dz. specialize (M2 z Dz). unfold composite in M2.
  unfold Rdiv in M2. lra.
Qed.
Print Assumptions C51_fixed_points_with_constraint.

Theorem C51_fixed_points_with_unit_tau :
  forall (H K : ips) (W : Type) (D : H -> Prop) (E : K -> Prop) (f g : H -> R) (h : K -> R)
    grad prox (prox_dual : W -> K -> R -> K) lop ladj (s : condat W),
  adjoint lop ladj -> convex f -> is_gradient f grad -> convex_on D g -> convex_on E h ->
  prox_operator D g prox -> prox_operator E h (prox_dual (c_w s)) ->
  c_tau s = 1 -> 0 < c_sigma s -> c_rho s <> 0 ->
  let s' := condat_update grad prox prox_dual lop ladj s in
  c_x s' = c_x s -> c_y s' = c_y s ->
  minimises (fun x => D x /\ E (lop x)) (fun x => f x + g x + h (lop x)) (c_x s).
Proof.
  intros H K W D E f g h grad prox prox_dual lop ladj s A Cf Gf Cg Ch Pg Ph Ht Hs Hr s' E1 E2.
  destruct (C51_fixed_points_solve_scaled_problem H K W D E f g h grad prox prox_dual lop ladj s A Cf Gf Cg Ch Pg Ph ltac:(lra) Hs Hr) as [_ M].
  destruct (M (conj E1 E2)) as [M1 M2]. split; [exact M1|]. intros z Dz. specialize (M2 z Dz). unfold composite in M2.
  rewrite Ht in M2. unfold Rdiv in M2. rewrite Rinv_1 in M2. lra.
Qed.
Print Assumptions C51_fixed_points_with_unit_tau.

(** For any other tau the claim is false: f = (x-2)^2/2, g = |.|, h = 0, L = identity, tau = 1/2. The
    point 0 is left unchanged, the minimiser of f + g is 1. *)
Theorem C51_fixed_points_refuted :
  exists (D E : R_ips -> Prop) (f g h : R_ips -> R) grad prox (prox_dual : unit -> R_ips -> R -> R_ips) (lop ladj : R_ips -> R_ips) (s : @condat R_ips R_ips unit),
  adjoint lop ladj /\ convex f /\ is_gradient f grad /\ convex_on D g /\ convex_on E h /\
  prox_operator D g prox /\ prox_operator E h (prox_dual (c_w s)) /\
  0 < c_tau s /\ 0 < c_sigma s /\ c_rho s <> 0 /\
  s = condat_init (H := R_ips) (K := R_ips) 0 0 tt (Some (/ 2)) (/ 2) 1 1 None None None /\
  c_x (condat_update grad prox prox_dual lop ladj s) = c_x s /\
  c_y (condat_update grad prox prox_dual lop ladj s) = c_y s /\
  ~ minimises (fun x => D x /\ E (lop x)) (fun x => f x + g x + h (lop x)) (c_x s).
Proof.
  exists everywhere, everywhere, (fun x => (x - 2) * (x - 2) / 2)%R, (fun z => Rabs z), (fun _ => 0),
    (fun x => x - 2)%R, softc, (fun _ y _ => y), (fun x => x), (fun x => x),
    (condat_init (H := R_ips) (K := R_ips) 0 0 tt (Some (/ 2)) (/ 2) 1 1 None None None).
  destruct (quad_smooth 2) as (C1 & G1 & _).
  split; [apply id_adjoint|]. split; [exact C1|]. split; [exact G1|]. split; [exact abs_convex|].
  split; [exact zero_convex|]. split; [exact soft_prox_operator|]. split; [exact zero_prox_operator|].
  assert (T : c_tau (condat_init (H := R_ips) (K := R_ips) 0 0 tt (Some (/ 2)) (/ 2) 1 1 None None None) = / 2).
  { cbn. destruct (Req_EM_T (/ 2) 0); [lra|reflexivity]. }
  split; [rewrite T; lra|]. split; [cbn; lra|]. split; [cbn; lra|]. split; [reflexivity|].
  rewrite update_x, update_y. unfold condat_prox. rewrite T. unfold default_extra_factor. cbn [c_x c_y c_rho c_sigma condat_init fst snd].
  assert (X : softc (vsub (H := R_ips) (vsub (H := R_ips) 0 (vscal (i := R_ips) (/ 2) (0 - 2)%R)) (vscal (i := R_ips) (/ 2) 0%R)) 1 = 0).
  { unfold softc. cbn. destruct (Rle_dec _ _); [lra|]. destruct (Rle_dec _ _); lra. }
  rewrite X. split; [cbn; lra|]. split; [cbn; lra|].
  intros [_ M]. specialize (M 1 (conj I I)). cbn in M. rewrite Rabs_R0, Rabs_R1 in M. lra.
Qed.
Print Assumptions C51_fixed_points_refuted.

(** min (x+1)^2/2 over x >= 0, with L = identity and h = 0: (0, 0) is a fixed point. *)
Example C51_example : exists s : @condat R_ips R_ips unit,
  s = condat_init (H := R_ips) (K := R_ips) 0 0 tt (Some (/ 2)) (/ 2) 1 1 None None None /\
  let s' := condat_update (H := R_ips) (K := R_ips) (fun x => x - -1)%R (fun y _ => Rmax 0 y) (fun _ y _ => y) (fun x => x) (fun x => x) s in
  c_x s' = c_x s /\ c_y s' = c_y s /\
  minimises (fun x => halfline x /\ everywhere (x : R_ips)) (fun x => (x - -1) * (x - -1) / 2 + 0)%R (c_x s).
Proof.
  eexists. split; [reflexivity|]. set (s := condat_init _ _ _ _ _ _ _ _ _ _). cbn zeta.
  assert (T : c_tau s = / 2) by (cbn; destruct (Req_EM_T (/ 2) 0); [lra|reflexivity]).
  assert (X : Rmax 0 (vsub (H := R_ips) (vsub (H := R_ips) 0 (vscal (i := R_ips) (/ 2) (0 - -1)%R)) (vscal (i := R_ips) (/ 2) 0%R)) = 0).
  { cbn. apply Rmax_left. lra. }
  assert (F : c_x (condat_update (H := R_ips) (K := R_ips) (fun x => x - -1)%R (fun y _ => Rmax 0 y) (fun _ y _ => y) (fun x => x) (fun x => x) s) = c_x s /\
              c_y (condat_update (H := R_ips) (K := R_ips) (fun x => x - -1)%R (fun y _ => Rmax 0 y) (fun _ y _ => y) (fun x => x) (fun x => x) s) = c_y s).
  { rewrite update_x, update_y. unfold condat_prox. rewrite T. unfold s. cbn [c_x c_y c_rho c_sigma condat_init fst snd].
    rewrite X. cbn. lra. }
  destruct F as [F1 F2]. split; [exact F1|]. split; [exact F2|].
  destruct (quad_smooth (-1)) as (C1 & G1 & _).
  apply (C51_fixed_points_with_constraint R_ips R_ips unit halfline everywhere _ (fun _ => 0) _ (fun y _ => Rmax 0 y) (fun _ y _ => y)
    (fun x => x) (fun x => x) s id_adjoint C1 G1 pos_convex zero_convex pos_prox_operator zero_prox_operator);
    [rewrite T; lra|cbn; lra|cbn; lra|exact F1|exact F2].
Qed.

(** * C52 *)

(** A convex set that contains the start and every value of prox.op contains every iterate and
    x_final, with or without reweighting, whatever the costs and metrics decide. *)
Theorem C52_iterates_feasible :
  forall (H K : ips) (W : Type) grad prox (prox_dual : W -> K -> R -> K) lop ladj reweight
    (C : H -> Prop) x0 y0 w ss rho sigma tau su tu,
  (forall x y t, C x -> C y -> 0 <= t <= 1 -> C ((1 - t) * x + t * y)%v) ->
  (forall x c, C (prox x c)) -> 0 <= rho <= 1 -> C x0 ->
  let s0 := condat_init x0 y0 w ss rho sigma tau None su tu in
  (forall n, C (c_x (condat_after grad prox prox_dual lop ladj n s0))) /\
  (forall cost metric hm period nr n x y,
     condat_iterate grad prox prox_dual lop ladj reweight cost metric hm period nr n s0 = Ok (x, y) -> C x).
Proof.
  intros H K W grad prox prox_dual lop ladj reweight C x0 y0 w ss rho sigma tau su tu Cv Cp Hr C0 s0.
  set (P := fun s : @condat H K W => C (c_x s) /\ 0 <= c_rho s <= 1 /\ c_rho_update s = None).
  assert (P0 : P s0) by (split; [exact C0|split; [exact Hr|reflexivity]]).
  assert (Pu : forall s, P s -> P (condat_update grad prox prox_dual lop ladj s)).
  { intros s (P1 & P2 & P3). split; [apply feasible_update; assumption|].
    unfold condat_update. destruct (condat_prox _ _ _ _ _ s). cbn. rewrite P3. cbn. auto. }
  split.
  - intros n. cut (P (condat_after grad prox prox_dual lop ladj n s0)); [intros (Q & _); exact Q|].
    induction n as [|n IH]; [exact P0|apply Pu, IH].
  - intros cost metric hm period nr n x y E.
    destruct (iterate_inv grad prox prox_dual lop ladj reweight cost metric hm period P Pu) with (nr := nr) (n := n) (s := s0) (x := x) (y := y)
      as (s' & (Q & _) & -> & _); auto.
Qed.
Print Assumptions C52_iterates_feasible.

Lemma ok_pair_inv {A B} (a a' : A) (b b' : B) : Ok (a, b) = Ok (a', b') -> a = a' /\ b = b'.
Proof. intros Q. injection Q. auto. Qed.

(** With SparseThreshold (soft) as dual proximity operator, every entry of the dual variable stays
    within its weight, up to sigma * 1e-15: thresh rounds its result to 15 decimals. *)
Theorem C52_dual_bound_up_to_rounding :
  forall (H : ips) m (prox_dual : Rvec m -> Rn m -> R -> Rn m) grad prox lop ladj
    (x0 : H) (y0 : Rn m) (w : Rvec m) ss rho sigma tau tu,
  (forall w y c, sparse_op (TArray (proj1_sig w)) "soft" (proj1_sig y) c = Ok (proj1_sig (prox_dual w y c))) ->
  nonneg (proj1_sig w) -> 0 <= rho <= 1 -> 0 < sigma ->
  let within (y : Rn m) := forall i, Rabs (nth i (proj1_sig y) 0) <= nth i (proj1_sig w) 0 + sigma * / 10 ^ 15 in
  within y0 ->
  let s0 := condat_init x0 y0 w ss rho sigma tau None None tu in
  (forall n, within (c_y (condat_after grad prox prox_dual lop ladj n s0))) /\
  (forall reweight cost metric hm period n x y,
     condat_iterate grad prox prox_dual lop ladj reweight cost metric hm period None n s0 = Ok (x, y) -> within y).
Proof.
  intros H m prox_dual grad prox lop ladj x0 y0 w ss rho sigma tau tu Pd Nw Hr Hs within W0 s0.
  set (P := fun s : @condat H (Rn m) (Rvec m) => within (c_y s) /\ c_w s = w /\ c_rho s = rho /\ c_sigma s = sigma /\
         c_rho_update s = None /\ c_sigma_update s = None).
  assert (Pu : forall s, P s -> P (condat_update grad prox prox_dual lop ladj s)).
  { intros s (P1 & P2 & P3 & P4 & P5 & P6). split.
    - intros i. rewrite update_y. cbn [condat_prox snd]. set (u := (c_y s + _ * _)%v). rewrite P2, P3, P4.
      set (q := prox_dual w (/ sigma * u)%v (1 / sigma)).
      assert (Q : coord q i = soft1 (nth i (proj1_sig w) 0 * (1 / sigma)) (/ sigma * coord u i)).
      { specialize (Pd w (/ sigma * u)%v (1 / sigma)).
        rewrite (sparse_op_soft _ (proj1_sig w)) in Pd.
        2:{ replace (length (proj1_sig (/ sigma * u)%v)) with (length (proj1_sig w)); [constructor|].
            rewrite (proj2_sig w). symmetry. exact (proj2_sig (/ sigma * u)%v). }
        assert (Pd' : proj1_sig q = map2 soft1 (map (fun w => w * (1 / sigma)) (proj1_sig w)) (proj1_sig (/ sigma * u)%v))
          by (injection Pd as Pd; symmetry; exact Pd).
        unfold coord at 1. rewrite Pd'.
        rewrite (nth_map2 soft1 _ _ m i 0 0).
        - f_equal; [|apply coord_scal]. rewrite <- (Rmult_0_l (1 / sigma)) at 1. apply (map_nth (fun w => w * (1 / sigma))).
        - rewrite map_length. apply (proj2_sig w).
        - exact (proj2_sig (/ sigma * u)%v).
        - unfold soft1, soft_unrounded. rewrite Rmult_0_r. apply around_0. }
      change (Rabs (coord (rho * (u - sigma * q) + (1 - rho) * c_y s)%v i) <= nth i (proj1_sig w) 0 + sigma * / 10 ^ 15).
      rewrite coord_add, !coord_scal, coord_sub, coord_scal, Q.
      specialize (P1 i). change (Rabs (coord (c_y s) i) <= nth i (proj1_sig w) 0 + sigma * / 10 ^ 15) in P1.
      assert (Wi : 0 <= nth i (proj1_sig w) 0).
      { destruct (Nat.lt_ge_cases i (length (proj1_sig w))) as [L|L]; [|rewrite nth_overflow by exact L; lra].
        unfold nonneg in Nw. rewrite Forall_forall in Nw. apply Nw, nth_In, L. }
      set (wi := nth i (proj1_sig w) 0) in *. set (v := coord u i). set (yi := coord (c_y s) i) in *.
      assert (It : 0 < / sigma) by (apply Rinv_0_lt_compat; exact Hs).
      assert (B : Rabs (v - sigma * soft1 (wi * (1 / sigma)) (/ sigma * v)) <= wi + sigma * / 10 ^ 15).
      { set (t := wi * (1 / sigma)). set (a := / sigma * v). assert (Ht : 0 <= t) by (unfold t, Rdiv; nra).
        replace v with (sigma * a) by (unfold a; field; lra). rewrite <- Rmult_minus_distr_l, Rabs_mult, (Rabs_right sigma) by lra.
        replace wi with (sigma * t) by (unfold t; field; lra). rewrite <- Rmult_plus_distr_l.
        apply Rmult_le_compat_l; [lra|]. destruct (soft1_spec t a Ht) as (S1 & _ & _).
        assert (S2 : Rabs (a - shrink t a) <= t).
        { unfold shrink. destruct (Rle_dec (Rabs a) t); [rewrite Rminus_0_r; assumption|].
          destruct (Rle_dec 0 a).
          - replace (a - (a - t)) with t by ring. rewrite Rabs_right; lra.
          - replace (a - (a + t)) with (- t) by ring. rewrite Rabs_Ropp, Rabs_right; lra. }
        replace (a - soft1 t a) with ((a - shrink t a) - (soft1 t a - shrink t a)) by ring.
        unfold Rminus at 1. apply Rle_trans with (Rabs (a - shrink t a) + Rabs (- (soft1 t a - shrink t a))); [apply Rabs_triang|].
        rewrite Rabs_Ropp. lra. }
      set (z := v - sigma * soft1 (wi * (1 / sigma)) (/ sigma * v)) in *. set (b := wi + sigma * / 10 ^ 15) in *.
      apply Rle_trans with (Rabs (rho * z) + Rabs ((1 - rho) * yi)); [apply Rabs_triang|].
      rewrite !Rabs_mult, (Rabs_right rho), (Rabs_right (1 - rho)) by lra. nra.
    - unfold condat_update. destruct (condat_prox _ _ _ _ _ s). cbn. rewrite P5, P6. cbn. auto. }
  assert (P0 : P s0) by (unfold P, s0; cbn; auto 10).
  split.
  - intros n. cut (P (condat_after grad prox prox_dual lop ladj n s0)); [intros (Q & _); exact Q|].
    induction n as [|n IH]; [exact P0|apply Pu, IH].
  - intros reweight cost metric hm period n x y. unfold condat_iterate.
    destruct (condat_run _ _ _ _ _ _ _ _ _ _ _) as [a|] eqn:E; cbn [bind]; [|discriminate].
    unfold condat_run in E. destruct (run_alg _ _ _ _ _ _ _) as [[a1 tr]|] eqn:E1; cbn [bind] in E; [|discriminate].
    injection E as <-. cbn [fst]. destruct (run_data _ _ _ _ _ _ _ _ _ _ E1) as (N & _ & _ & ED). rewrite ED. cbn [data].
    destruct N as [|N]; [discriminate|]. cbn [Nat.iter nat_rect]. rewrite update_new. intros Q. apply ok_pair_inv in Q. destruct Q as [_ Q]. rewrite <- Q.
    cut (P (Nat.iter (S N) (condat_update grad prox prox_dual lop ladj) s0)); [intros (QQ & _); exact QQ|].
    generalize (S N). clear -P0 Pu. intros k. induction k as [|k IH]; [exact P0|apply Pu, IH].
Qed.
Print Assumptions C52_dual_bound_up_to_rounding.

Lemma rint_unique x z : Rabs (IZR z - x) < 1 / 2 -> rint x = z.
Proof.
  intros E1. pose proof (rint_err x) as E2.
  assert (L : Rabs (IZR (rint x - z)) < 1).
  { rewrite minus_IZR. replace (IZR (rint x) - IZR z) with ((IZR (rint x) - x) - (IZR z - x)) by ring.
    eapply Rle_lt_trans; [apply Rabs_triang|]. rewrite Rabs_Ropp. lra. }
  rewrite <- abs_IZR in L. apply lt_IZR in L. lia.
Qed.

(** The exact bound is false, because of that rounding. *)
Definition soft_dual1 (w : Rvec 1) (y : Rn 1) (c : R) : Rn 1 :=
  exist _ (map2 soft1 (map (fun w => w * c) (proj1_sig w)) (proj1_sig y))
    (map2_length _ _ _ _ (eq_trans (map_length _ _) (proj2_sig w)) (proj2_sig y)).
Definition vec1 (a : R) : Rn 1 := exist _ [a] eq_refl.

Theorem C52_dual_bound_refuted :
  exists (prox_dual : Rvec 1 -> Rn 1 -> R -> Rn 1) (grad : Rn 1 -> Rn 1) prox lop ladj x0,
  (forall w y c, sparse_op (TArray (proj1_sig w)) "soft" (proj1_sig y) c = Ok (proj1_sig (prox_dual w y c))) /\
  adjoint lop ladj /\
  let s := condat_update grad prox prox_dual lop ladj (condat_init x0 (vec1 0) (vec1 1) None 1 1 1 None None None) in
  Rabs (nth 0 (proj1_sig (c_y s)) 0) > 1.
Proof.
  assert (X : exists x, x = 2 + 3 / 10 ^ 16) by eauto. destruct X as [x Ex].
  exists soft_dual1, (fun _ => vec1 0), (fun x _ => x), (fun x => x), (fun x => x), (vec1 x).
  split; [|split; [apply id_adjoint|]].
  - intros w y c. apply sparse_op_soft. replace (length (proj1_sig y)) with (length (proj1_sig w)); [constructor|].
    rewrite (proj2_sig w), (proj2_sig y). reflexivity.
  - cbn.
    match goal with |- context [soft1 ?t ?a] => assert (Et : t = 1) by (unfold Rdiv; rewrite Rinv_1; ring); assert (Ea : a = x) by field; rewrite Et, Ea; clear Et Ea end.
    assert (Sx : soft1 1 x = 1).
    { unfold soft1. rewrite soft_unrounded_shrink.
      - unfold shrink. rewrite Rabs_right by lra. destruct (Rle_dec x 1); [lra|].
        destruct (Rle_dec 0 x); [|lra]. unfold around.
        replace ((x - 1) * 10 ^ 15) with (IZR (10 ^ 15) + 3 / 10) by lra.
        replace (rint (IZR (10 ^ 15) + 3 / 10)) with (10 ^ 15)%Z; [lra|]. symmetry. apply rint_unique.
        replace (IZR (10 ^ 15) - (IZR (10 ^ 15) + 3 / 10)) with (- (3 / 10)) by ring. rewrite Rabs_Ropp, Rabs_right; lra.
      - lra.
      - right. rewrite Rabs_right by lra. pose proof eps64_small. lra. }
    rewrite Sx. rewrite Rabs_right; lra.
Qed.
Print Assumptions C52_dual_bound_refuted.

Example C52_example :
  let s := condat_update (H := R_ips) (K := R_ips) (fun x => x - -1)%R (fun y _ => Rmax 0 y) (fun _ y _ => y) (fun x => x) (fun x => x)
             (condat_init (H := R_ips) (K := R_ips) 4 0 tt (Some (/ 2)) (/ 2) 1 1 None None None) in
  c_x s = 11 / 4.
Proof.
  cbn zeta. rewrite update_x. unfold condat_prox. cbn. destruct (Req_EM_T (/ 2) 0); [lra|].
  unfold Rmax. destruct (Rle_dec _ _); lra.
Qed.

(** * C62 *)

(** Under Condat's step-size condition 1/tau - sigma |L|^2 >= M/2, M the Lipschitz constant of the
    gradient, an update never increases the distance to any primal-dual solution, and that
    distance controls the primal one. *)
Theorem C62_distance_to_solutions_never_increases :
  forall (H K : ips) (W : Type) (D : H -> Prop) (E : K -> Prop) (f g : H -> R) (h : K -> R) M B
    grad prox (prox_dual : W -> K -> R -> K) lop ladj (x0 : H) (y0 : K) w tau0 rho sigma tau,
  adjoint lop ladj -> bounded_sq B lop -> 0 <= M -> smooth_convex M f grad ->
  convex_on D g -> convex_on E h -> prox_operator D g prox -> prox_operator E h (prox_dual w) ->
  0 < tau -> 0 < sigma -> 0 <= rho <= 1 -> M / 2 + sigma * B <= / tau ->
  let s0 := condat_init x0 y0 w (Some tau) rho sigma tau0 None None None in
  forall xs ys, primal_dual_solution D E grad (fun z => g z / tau) h lop ladj xs ys ->
  let dist n := pd_sq lop tau sigma (c_x (condat_after grad prox prox_dual lop ladj n s0) - xs)%v
                                    (c_y (condat_after grad prox prox_dual lop ladj n s0) - ys)%v in
  (forall n, dist (S n) <= dist n) /\
  (forall n, (/ tau - sigma * B) * nsq (c_x (condat_after grad prox prox_dual lop ladj n s0) - xs)%v <= dist 0%nat).
Proof.
  intros H K W D E f g h M B grad prox prox_dual lop ladj x0 y0 w tau0 rho sigma tau A Hb HM Sf Cg Ch Pg Ph Ht Hs Hr Hc s0 xs ys Sol dist.
  assert (T : c_tau s0 = tau) by (unfold s0; cbn; destruct (Req_EM_T tau 0); [lra|reflexivity]).
  assert (Mono : forall n, dist (S n) <= dist n).
  { intros n. unfold dist. rewrite after_S.
    destruct (constant_params grad prox prox_dual lop ladj n s0 eq_refl eq_refl eq_refl) as (E1 & E2 & E3 & E4 & _).
    rewrite T in E3. cbn in E1, E2, E4. set (s := condat_after grad prox prox_dual lop ladj n s0) in *. 
    rewrite <- E3, <- E2.
    apply (step_closer grad prox prox_dual lop ladj D E f g h A Cg Ch Pg w Ph s M B xs ys); rewrite ?E1, ?E2, ?E3, ?E4; auto. }
  split; [exact Mono|]. intros n. apply Rle_trans with (dist n); [apply pd_sq_lower; assumption|].
  induction n as [|n IH]; [lra|]. specialize (Mono n). lra.
Qed.
Print Assumptions C62_distance_to_solutions_never_increases.

Example C62_example : bounded_sq 1 (fun x : R_ips => x) /\ 0 / 2 + 1 * 1 <= / 1 /\
  primal_dual_solution (H := R_ips) (K := R_ips) everywhere everywhere (fun _ => 0) (fun z => Rabs z / 1) (fun _ => 0) (fun x => x) (fun x => x) 0 0.
Proof.
  split; [intros x; lra|]. split; [lra|]. split; split; try exact I; intros z _; cbn; [|lra].
  rewrite Rabs_R0. pose proof (Rabs_pos z). lra.
Qed.

(** * C47 *)
Theorem C47_iterate_zero_raises_condat :
  forall (H K : ips) (W : Type) grad prox (prox_dual : W -> K -> R -> K) lop ladj reweight (x0 : H) (y0 : K) w ss rho sigma tau ru su tu
    cost metric hm period nr,
  condat_iterate grad prox prox_dual lop ladj reweight cost metric hm period nr 0
    (condat_init x0 y0 w ss rho sigma tau ru su tu) = Err AttributeError.
Proof. intros. apply iterate_0. reflexivity. Qed.
Print Assumptions C47_iterate_zero_raises_condat.
Theorem C47_condat_iterate_zero_refuted :
  exists (x0 y0 : R_ips), condat_iterate (H := R_ips) (K := R_ips) (fun _ => 0) (fun y _ => y) (fun (_ : unit) y _ => y) (fun x => x) (fun y => y) (fun _ w => w) None (fun _ _ => []) false None None 0
    (condat_init x0 y0 tt None 1 1 1 None None None) = Err AttributeError.
Proof. exists 7, 0. apply C47_iterate_zero_raises_condat. Qed.
Print Assumptions C47_condat_iterate_zero_refuted.
