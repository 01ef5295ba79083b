(** Iterate-level facts, fixed points and feasibility of ForwardBackward; GenForwardBackward and
    POGM. *)
From Coq Require Import String.
From Verif Require Import NPReal Py IPS Model_SetUp Spec_Opt Proof_Smooth Model_FB Proof_FB.
From Coq Require Import List Lia.
Import ListNotations.
Local Open Scope string_scope.
Local Open Scope R_scope.

(** * The loop *)
Lemma iter_shift {A} (f : A -> A) n x : Nat.iter n f (f x) = Nat.iter (S n) f x.
Proof. induction n as [|n IH]; [reflexivity|]. change (f (Nat.iter n f (f x)) = f (Nat.iter (S n) f x)). rewrite IH. reflexivity. Qed.

Section Run.
Context {D : Type}.
Variable cls : alg_class.
Variable upd : D -> D.
Variable cost : option (nat -> D -> bool).
Variable metric : nat -> D -> list bool.
Variables (hm : bool) (period : option Z).

Lemma metrics_step_data mx i s tr s' tr' :
  metrics_step conv (alg_metrics metric) hm period mx i s tr = Ok (s', tr') -> data s' = data s.
Proof.
  unfold metrics_step. destruct hm; [|intros Q; injection Q as <- _; reflexivity].
  destruct period as [m|]; [|intros Q; injection Q as <- _; reflexivity].
  destruct (m =? 0)%Z; [discriminate|]. cbn. intros Q; injection Q as <- _; reflexivity.
Qed.

Lemma run_data_from mx n i s tr s' tr' :
  iterations_from (alg_update cls (fun _ => upd) cost) conv (alg_metrics metric) hm period mx n i s tr = Ok (s', tr') ->
  exists N, (N <= n)%nat /\ ((0 < n)%nat -> (0 < N)%nat) /\ data s' = Nat.iter N upd (data s).
Proof.
  revert i s tr. induction n as [|n IH]; intros i s tr.
  - cbn. intros E. injection E as E _. subst. exists 0%nat. split; [lia|]. split; [lia|]. reflexivity.
  - cbn [iterations_from]. unfold alg_update at 1. cbn [bind].
    set (s1 := end_of_update _ _ _ _).
    assert (E1 : data s1 = upd (data s)) by (unfold s1, end_of_update; destruct cost; reflexivity).
    clearbody s1. destruct (metrics_step conv (alg_metrics metric) hm period mx i s1 (tr ++ [EUpdate i])) as [[s2 tr2]|] eqn:E; cbn [bind]; [|discriminate].
    apply metrics_step_data in E. destruct (conv s2).
    + intros Q. injection Q as <- <-. exists 1%nat. split; [lia|]. split; [lia|]. cbn. congruence.
    + intros Q. destruct (IH _ _ _ Q) as (N & L & _ & EN). exists (S N). split; [lia|]. split; [lia|].
      rewrite EN, E, E1. apply iter_shift.
Qed.

Lemma run_data n s s' tr' :
  run_alg (alg_update cls (fun _ => upd) cost) conv (alg_metrics metric) hm period n s = Ok (s', tr') ->
  exists N, (N <= n)%nat /\ ((0 < n)%nat -> (0 < N)%nat) /\ data s' = Nat.iter N upd (data s).
Proof. apply run_data_from. Qed.

(** Without metrics the loop cannot fail; without a cost object it does not stop early. *)
Lemma run_plain n s : cost = None -> hm = false -> conv s = false ->
  exists s' tr', run_alg (alg_update cls (fun _ => upd) cost) conv (alg_metrics metric) hm period n s = Ok (s', tr') /\
    data s' = Nat.iter n upd (data s).
Proof.
  intros Ec Eh Es. rewrite Ec, Eh. clear Ec Eh. unfold run_alg. set (mx := n) at 1. clearbody mx. generalize 0%nat (@nil event).
  revert s Es. induction n as [|n IH]; intros s Es i tr.
  - cbn. eauto.
  - cbn [iterations_from]. unfold alg_update at 1. cbn [bind end_of_update]. unfold metrics_step at 1. cbn [bind conv].
    rewrite Es. edestruct (IH (mk_alg (upd (data s)) (flags s) false) eq_refl) as (s' & tr' & E & D').
    rewrite E. exists s', tr'. split; [reflexivity|]. rewrite D'. cbn [data]. apply iter_shift.
Qed.
End Run.

Section FB.
Context {H : ips}.
Variable grad : H -> H.
Variable prox : H -> R -> H.
Notation fb_update := (fb_update grad prox).
Notation fb_after := (fb_after grad prox).
Notation T := (fb_map grad prox).

Lemma fb_after_S n s : fb_after (S n) s = fb_update (fb_after n s).
Proof. reflexivity. Qed.

Lemma fb_after_new n s : fb_new (fb_after (S n) s) = Some (fb_x_old (fb_after (S n) s), fb_z_old (fb_after (S n) s)).
Proof. apply fb_update_new. Qed.

Lemma fb_iterate_ok cost metric hm period n s z : fb_new s = None ->
  fb_iterate grad prox cost metric hm period n s = Ok z ->
  exists N, (0 < N <= n)%nat /\ z = fb_z_old (fb_after N s).
Proof.
  intros E0. unfold fb_iterate. destruct (run_alg _ _ _ _ _ _ _) as [[s' tr']|] eqn:E; cbn [bind]; [|discriminate].
  apply run_data in E. destruct E as (N & L & P & EN). cbn [data] in EN. cbn [fst]. rewrite EN. fold (fb_after N s).
  destruct N as [|N]; [cbn; rewrite E0; discriminate|]. rewrite fb_after_new. intros Q. injection Q as <-.
  exists (S N). split; [lia|reflexivity].
Qed.

Lemma fb_iterate_plain metric period n s : (0 < n)%nat ->
  fb_iterate grad prox None metric false period n s = Ok (fb_z_old (fb_after n s)).
Proof.
  intros Hn. unfold fb_iterate.
  destruct (run_plain ForwardBackward fb_update None metric false period n (mk_alg s [] false) eq_refl eq_refl eq_refl) as (s' & tr' & E & D').
  rewrite E. cbn [bind fst]. rewrite D'. cbn [data]. fold (fb_after n s). destruct n as [|n]; [lia|].
  rewrite fb_after_new. reflexivity.
Qed.

Lemma fb_iterate_0 cost metric hm period s : fb_new s = None -> fb_iterate grad prox cost metric hm period 0 s = Err AttributeError.
Proof. intros E. unfold fb_iterate. cbn. rewrite E. reflexivity. Qed.

(** fb_init *)
Lemma fb_init_new (x : H) ss bp lp bu lu s : fb_init x ss bp lp bu lu = Ok s ->
  fb_new s = None /\ fb_x_old s = x /\ fb_z_old s = x /\ fb_lambda s = lp /\ fb_beta s = step_or ss bp /\ fb_calls s = 0%nat /\
  match lu with LFista a => exists f, fista_init a = Ok f /\ fb_the_rule s = RFista f | LCall l => fb_the_rule s = RUser bu l end.
Proof.
  unfold fb_init. destruct lu as [a|l].
  - destruct (fista_init a) as [f|] eqn:E; cbn [bind]; [|discriminate]. intros Q. injection Q as <-. cbn. repeat split. eauto.
  - cbn [bind]. intros Q. injection Q as <-. cbn. repeat split.
Qed.

Lemma step_or_pos b bp : 0 < b -> step_or (Some b) bp = b.
Proof. intros Hb. unfold step_or. destruct (Req_EM_T b 0); [lra|reflexivity]. Qed.

(** z is x + l (x' - x), with l the relaxation, or x' after a restart. *)
Lemma fb_update_z (s : fb) : let x' := fb_x_old (fb_update s) in
  fb_z_old (fb_update s) = (fb_x_old s + fb_lambda s * (x' - fb_x_old s))%v \/ fb_z_old (fb_update s) = x'.
Proof.
  unfold Model_FB.fb_update. destruct (fb_the_rule s) as [f|bu lu]; cbn; [|left; reflexivity].
  destruct (is_restart f _ _ _) as [f1 r]. destruct (update_lambda f1). destruct r; cbn; auto.
Qed.

Lemma fb_fixed_iff D (f g : H -> R) (s : fb) x :
  0 < fb_beta s -> convex f -> is_gradient f grad -> convex_on D g -> prox_operator D g prox ->
  fb_x_old s = x -> fb_z_old s = x ->
  ((fb_x_old (fb_update s) = x /\ fb_z_old (fb_update s) = x) <-> minimises D (fun z => f z + g z) x).
Proof.
  intros Hb Cf Gf Cg Pg Ex Ez. rewrite <- (fb_map_fixed_iff D f g grad prox (fb_beta s) x Hb Cf Gf Cg Pg).
  pose proof (fb_update_x grad prox s) as U. rewrite Ez in U. rewrite <- U.
  split; [tauto|]. intros E. split; [exact E|]. destruct (fb_update_z s) as [Q|Q]; rewrite Q, E; [|reflexivity].
  rewrite Ex. vring.
Qed.

(** Feasibility *)
Lemma fb_x_feasible (C : H -> Prop) n s : (forall y c, C (prox y c)) -> C (fb_x_old (fb_after (S n) s)).
Proof. intros P. change (fb_after (S n) s) with (fb_update (fb_after n s)). rewrite fb_update_x. apply P. Qed.

Lemma fb_z_feasible (C : H -> Prop) n s : (forall y c, C (prox y c)) ->
  (forall x y t, C x -> C y -> 0 <= t <= 1 -> C (x + t * (y - x))%v) ->
  C (fb_x_old s) -> C (fb_z_old s) -> (forall k, (k < n)%nat -> 0 <= fb_lambda (fb_after k s) <= 1) ->
  C (fb_z_old (fb_after n s)) /\ C (fb_x_old (fb_after n s)).
Proof.
  intros P Cv Hx Hz. induction n as [|n IH]; intros Hl; [split; assumption|].
  destruct IH as [IH1 IH2]; [intros k Hk; apply Hl; lia|]. pose proof (fb_x_feasible C n s P) as Fx. split; [|exact Fx].
  change (fb_after (S n) s) with (fb_update (fb_after n s)) in *.
  destruct (fb_update_z (fb_after n s)) as [Q|Q]; rewrite Q; [|exact Fx]. apply Cv; auto.
Qed.

Lemma fb_z_ista (C : H -> Prop) n x beta : (forall y c, C (prox y c)) -> 
  C (fb_z_old (fb_after (S n) (mk_fb x x None beta 1 (RUser None None) 0))).
Proof.
  intros P. rewrite (proj1 (ista_steps grad prox beta x (S n))). apply fb_x_feasible. exact P.
Qed.

(** Parameter updates *)
Lemma fb_user_params n s bu lu : fb_the_rule s = RUser bu lu ->
  fb_the_rule (fb_after n s) = RUser bu lu /\ fb_calls (fb_after n s) = (fb_calls s + n)%nat.
Proof.
  intros E. induction n as [|n [I1 I2]]; [rewrite Nat.add_0_r; auto|].
  change (fb_after (S n) s) with (fb_update (fb_after n s)). rewrite (fb_update_user _ _ _ _ _ I1). cbn. split; [reflexivity|]. lia.
Qed.
Lemma fb_user_beta n s bu lu : fb_the_rule s = RUser bu lu ->
  fb_beta (fb_after (S n) s) = apply_update bu (fb_calls s + n) (fb_beta (fb_after n s)) /\
  fb_lambda (fb_after (S n) s) = apply_update lu (fb_calls s + n) (fb_lambda (fb_after n s)).
Proof.
  intros E. destruct (fb_user_params n s bu lu E) as [I1 I2].
  change (fb_after (S n) s) with (fb_update (fb_after n s)). rewrite (fb_update_user _ _ _ _ _ I1). cbn. rewrite I2. split; reflexivity.
Qed.
End FB.

(** With FISTA the step changes only by the greedy safeguard. *)
Lemma is_restart_keeps {H : ips} f (z x' x : H) :
  f_strategy (fst (is_restart f z x' x)) = f_strategy f /\
  (f_strategy f <> Some "greedy" -> f_safeguard (fst (is_restart f z x' x)) = f_safeguard f).
Proof.
  unfold is_restart. destruct (f_strategy f) as [nm|] eqn:E; cbn [fst]; [|auto].
  destruct (String.eqb_spec nm "greedy") as [->|N].
  - split; [|congruence]. repeat match goal with |- context [if ?b then _ else _] => destruct b; cbn; try exact E end;
      repeat match goal with |- context [match ?b with Some _ => _ | None => _ end] => destruct b; cbn; try exact E end.
  - split; [|intros _]; repeat match goal with |- context [if ?b then _ else _] => destruct b; cbn; try exact E; try reflexivity end.
Qed.
Lemma update_lambda_keeps f : f_strategy (fst (update_lambda f)) = f_strategy f /\ f_safeguard (fst (update_lambda f)) = f_safeguard f.
Proof. unfold update_lambda. destruct (match f_strategy f with Some _ => _ | None => _ end); [auto|]. destruct (f_mode f); cbn; auto. Qed.

Lemma fista_beta_constant {H : ips} grad prox (s : @fb H) n f :
  fb_the_rule s = RFista f -> f_strategy f <> Some "greedy" -> f_safeguard f = false ->
  fb_beta (fb_after grad prox n s) = fb_beta s.
Proof.
  intros E1 E2 E3.
  assert (I : exists f', fb_the_rule (fb_after grad prox n s) = RFista f' /\ f_strategy f' <> Some "greedy" /\ f_safeguard f' = false /\
    fb_beta (fb_after grad prox n s) = fb_beta s).
  { induction n as [|n (f' & I1 & I2 & I3 & I4)]; [exists f; auto|].
    change (fb_after grad prox (S n) s) with (fb_update grad prox (fb_after grad prox n s)).
    unfold fb_update. rewrite I1. set (x' := prox _ _). set (z := fb_z_old _). set (x := fb_x_old _).
    destruct (is_restart_keeps f' z x' x) as [K1 K2]. specialize (K2 I2).
    destruct (is_restart f' z x' x) as [f1 r]. cbn [fst] in *. cbv beta iota zeta.
    destruct (update_lambda_keeps f1) as [L1 L2]. destruct (update_lambda f1) as [f2 l]. cbn [fst] in *.
    exists f2. cbn [fb_the_rule fb_beta]. split; [reflexivity|]. split; [congruence|]. split; [congruence|].
    unfold update_beta. rewrite K2, I3. exact I4. }
  destruct I as (_ & _ & _ & _ & I). exact I.
Qed.

(** * GenForwardBackward *)
Section GFB.
Context {H : ips}.
Variable grad : H -> H.

Lemma vsum_map2 ws (zs : list H) : vsum_list (map2 (fun z_i w_i => (w_i * z_i)%v) zs ws) = weighted_sum ws zs.
Proof. revert ws. induction zs as [|z zs IH]; intros [|w ws]; cbn; try reflexivity. rewrite IH. reflexivity. Qed.

Lemma weighted_sum_repeat n ws (x : H) : List.length ws = n -> weighted_sum ws (repeat x n) = (rsum ws * x)%v.
Proof.
  revert ws. induction n as [|n IH]; intros [|w ws]; cbn [List.length]; intros E; try discriminate; cbn [repeat weighted_sum].
  - cbn. vring.
  - rewrite IH by congruence. change (rsum (w :: ws)) with (w + rsum ws). vring.
Qed.

Lemma gfb_weights_ok n w ws : gfb_weights n w = Ok ws -> List.length ws = n /\ rsum ws = 1.
Proof.
  unfold gfb_weights. set (l := match w with None => repeat (1 / INR n) n | Some w0 => w0 end). destruct (Nat.eqb_spec (List.length l) n) as [E|]; cbn [negb]; [|discriminate].
  destruct (Req_EM_T _ 1) as [E1|]; [|discriminate]. intros Q. injection Q as <-. auto.
Qed.

Lemma gfb_invariant proxs x ss gp lp gu lu w s n : gfb_init proxs x ss gp lp gu lu w = Ok s ->
  g_x_old (gfb_after grad proxs n s) = weighted_sum (g_weights (gfb_after grad proxs n s)) (g_z (gfb_after grad proxs n s)) /\
  g_weights (gfb_after grad proxs n s) = g_weights s /\
  List.length (g_weights s) = List.length proxs /\ rsum (g_weights s) = 1 /\
  List.length (g_z (gfb_after grad proxs n s)) = List.length proxs.
Proof.
  unfold gfb_init. destruct (gfb_weights _ w) as [ws|] eqn:E; cbn [bind]; [|discriminate]. intros Q. injection Q as <-.
  apply gfb_weights_ok in E. destruct E as [E1 E2]. cbn [g_weights].
  induction n as [|n (I1 & I2 & _ & _ & I5)].
  - cbn. rewrite weighted_sum_repeat, E2, repeat_length by exact E1. repeat split; auto. vring.
  - set (s := mk_gfb _ _ _ _ _ _ _ _ _) in *. change (gfb_after grad proxs (S n) s) with (gfb_update grad proxs (gfb_after grad proxs n s)).
    unfold gfb_update. cbn [g_x_old g_weights g_z]. rewrite vsum_map2. repeat split; auto.
    rewrite map2_length with (n := List.length proxs); auto. rewrite combine_length, I2. cbn. lia.
Qed.

(** Fixed points. *)
Lemma gfb_terms (ts : list (term H)) ws zs (x : H) gamma lam gx :
  List.length ws = List.length ts -> List.length zs = List.length ts ->
  Forall proper_term ts -> Forall (fun w => 0 < w) ws -> 0 < gamma -> lam <> 0 ->
  map2 (fun (pw : (H -> R -> H) * R) z_i =>
      (z_i + lam * (fst pw (2 * x - z_i - gamma * gx) (gamma / snd pw) - x))%v) (combine (map t_prox ts) ws) zs = zs ->
  common_domain ts x /\
  forall u, common_domain ts u ->
    inner (rsum ws * x - weighted_sum ws zs - (rsum ws * gamma) * gx)%v (u - x)%v <= gamma * (sum_of_terms ts u - sum_of_terms ts x).
Proof.
  revert ws zs. induction ts as [|t ts IH]; intros [|w ws] [|z zs] L1 L2 P W Hg Hl E; try discriminate.
  - split; [constructor|]. intros u _. unfold sum_of_terms. cbn. iexpand. lra.
  - cbn [map combine map2 fst snd] in E. injection E as E1 E2.
    inversion P as [|? ? [Pc Pp] Pr]; subst. inversion W as [|? ? Hw Wr]; subst.
    destruct (IH ws zs) as [D I]; try assumption; try (cbn in L1, L2; congruence).
    assert (Hc : 0 < gamma / w) by (apply Rdiv_lt_0_compat; assumption).
    set (p := t_prox t (2 * x - z - gamma * gx)%v (gamma / w)) in *.
    assert (Ep : p = x).
    { apply sub_eq0. replace (p - x)%v with ((/ lam) * (lam * (p - x)))%v by (vfield; exact Hl).
      replace (lam * (p - x))%v with (z + lam * (p - x) - z)%v by vring. rewrite E1. vring. }
    destruct (prox_operator_vi _ _ _ Pc Pp (2 * x - z - gamma * gx)%v (gamma / w) Hc) as [Dp Vp]. fold p in Dp, Vp. rewrite Ep in Dp, Vp. clear E1 E2. clearbody p. clear Ep.
    split; [constructor; assumption|]. intros u Du. inversion Du as [|? ? Du1 Du2]; subst. specialize (I u Du2). specialize (Vp u Du1).
    cbn [weighted_sum]. unfold sum_of_terms in *. cbn [map].
    set (a := t_val t u) in *. set (b := t_val t x) in *.
    set (A := rsum (map (fun t0 => t_val t0 u) ts)) in *. set (B := rsum (map (fun t0 => t_val t0 x) ts)) in *.
    change (rsum (w :: ws)) with (w + rsum ws) in *.
    change (rsum (a :: map (fun t0 => t_val t0 u) ts)) with (a + A). change (rsum (b :: map (fun t0 => t_val t0 x) ts)) with (b + B).
    replace ((w + rsum ws) * x - (w * z + weighted_sum ws zs) - (w + rsum ws) * gamma * gx)%v
      with (w * (2 * x - z - gamma * gx - x) + (rsum ws * x - weighted_sum ws zs - (rsum ws * gamma) * gx))%v by vring.
    rewrite inner_add_l, inner_scal_l.
    apply (Rmult_le_compat_l w) in Vp; [|lra].
    replace (w * (gamma / w * a)) with (gamma * a) in Vp by (field; lra).
    rewrite Rmult_plus_distr_l in Vp. replace (w * (gamma / w * b)) with (gamma * b) in Vp by (field; lra). lra.
Qed.

Lemma gfb_fixed (ts : list (term H)) (f : H -> R) s :
  convex f -> is_gradient f grad -> Forall proper_term ts ->
  List.length (g_weights s) = List.length ts -> List.length (g_z s) = List.length ts -> rsum (g_weights s) = 1 ->
  g_x_old s = weighted_sum (g_weights s) (g_z s) ->
  Forall (fun w => 0 < w) (g_weights s) -> 0 < g_gamma s -> g_lambda s <> 0 ->
  g_z (gfb_update grad (map t_prox ts) s) = g_z s ->
  minimises (common_domain ts) (fun z => f z + sum_of_terms ts z) (g_x_old s).
Proof.
  intros Cf Gf P L1 L2 Sw Ex W Hg Hl E. unfold gfb_update in E. cbn [g_z] in E.
  destruct (gfb_terms ts (g_weights s) (g_z s) (g_x_old s) (g_gamma s) (g_lambda s) (grad (g_x_old s)) L1 L2 P W Hg Hl E) as [D I].
  split; [exact D|]. intros u Du. specialize (I u Du). rewrite Sw, <- Ex in I.
  pose proof (first_order f grad Cf Gf (g_x_old s) u) as FO.
  replace (1 * g_x_old s - g_x_old s - 1 * g_gamma s * grad (g_x_old s))%v with ((- g_gamma s) * grad (g_x_old s))%v in I by vring.
  rewrite inner_scal_l in I.
  assert (- inner (grad (g_x_old s)) (u - g_x_old s)%v <= sum_of_terms ts u - sum_of_terms ts (g_x_old s)).
  { apply Rmult_le_reg_l with (g_gamma s); lra. }
  lra.
Qed.

Lemma gfb_single prox (s : gfb) x : g_x_old s = x -> g_z s = [x] -> g_weights s = [1] -> g_lambda s = 1 ->
  g_x_old (gfb_update grad [prox] s) = fb_map grad prox (g_gamma s) x /\
  g_z (gfb_update grad [prox] s) = [fb_map grad prox (g_gamma s) x].
Proof.
  intros Ex Ez Ew El. unfold gfb_update. cbn [g_x_old g_z]. rewrite Ex, Ez, Ew, El. cbn [combine map2 fst snd vsum_list].
  unfold fb_map. replace (g_gamma s / 1) with (g_gamma s) by field.
  replace (2 * x - x - g_gamma s * grad x)%v with (x - g_gamma s * grad x)%v by vring.
  split; [vring|]. f_equal. vring.
Qed.

Lemma gfb_iterate_ok proxs cost metric hm period n s x : g_x_new s = None ->
  gfb_iterate grad proxs cost metric hm period n s = Ok x ->
  exists N, (0 < N <= n)%nat /\ x = g_x_old (gfb_after grad proxs N s).
Proof.
  intros E0. unfold gfb_iterate. destruct (run_alg _ _ _ _ _ _ _) as [[s' tr']|] eqn:E; cbn [bind]; [|discriminate].
  apply run_data in E. destruct E as (N & L & P & EN). cbn [data] in EN. cbn [fst]. rewrite EN. fold (gfb_after grad proxs N s).
  destruct N as [|N]; [cbn; rewrite E0; discriminate|].
  change (g_x_new (gfb_after grad proxs (S N) s)) with (Some (g_x_old (gfb_after grad proxs (S N) s))). intros Q. injection Q as <-.
  exists (S N). split; [lia|reflexivity].
Qed.
Lemma gfb_iterate_0 proxs cost metric hm period s : g_x_new s = None -> gfb_iterate grad proxs cost metric hm period 0 s = Err AttributeError.
Proof. intros E. unfold gfb_iterate. cbn. rewrite E. reflexivity. Qed.
End GFB.

(** * POGM *)
Section POGM.
Context {H : ips}.
Variable grad : H -> H.
Variable prox : H -> R -> H.

Definition pogm_ok (s : @pogm H) : Prop := 1 <= po_t s /\ 0 <= po_sigma s <= 1 /\ 0 < po_xi s.

Lemma pogm_t_new t : 1 <= t -> 1 < / 2 * (1 + sqrt (1 + 4 * t ^ 2)).
Proof.
  intros Ht. assert (2 < sqrt (1 + 4 * t ^ 2)); [|lra]. rewrite <- (sqrt_Rsqr 2) by lra. apply sqrt_lt_1_alt. unfold Rsqr. nra.
Qed.

Lemma pogm_update_shape s : 0 < po_beta s -> 0 <= po_sigma_bar s <= 1 -> pogm_ok s ->
  let s' := pogm_update grad prox s in
  pogm_ok s' /\ po_beta s' = po_beta s /\ po_sigma_bar s' = po_sigma_bar s /\
  po_x s' = prox (po_z s') (po_xi s') /\ po_x_new s' = Some (po_x s') /\
  (0 < po_sigma_bar s -> 0 < po_sigma s -> 0 < po_sigma s').
Proof.
  intros Hb Hs (T1 & Sg & X). cbv zeta. unfold pogm_update. set (tn := / 2 * (1 + sqrt (1 + 4 * po_t s ^ 2))).
  pose proof (pogm_t_new (po_t s) T1) as Tn. fold tn in Tn. clearbody tn.
  assert (It : 0 < / tn) by (apply Rinv_0_lt_compat; lra).
  assert (A : 0 <= (po_t s - 1) / tn) by (unfold Rdiv; apply Rmult_le_pos; lra).
  assert (B : 0 <= po_sigma s * po_t s / tn) by (unfold Rdiv; apply Rmult_le_pos; [apply Rmult_le_pos|]; lra).
  set (a := (po_t s - 1) / tn) in *. set (b := po_sigma s * po_t s / tn) in *. clearbody a b.
  assert (Px : 0 < po_beta s * (1 + a + b)) by (apply Rmult_lt_0_compat; lra).
  assert (Pm : 0 <= po_sigma s * po_sigma_bar s <= 1) by (split; [apply Rmult_le_pos; lra|nra]).
  repeat match goal with |- context [Rlt_dec ?u ?v] => destruct (Rlt_dec u v) end; cbn; unfold pogm_ok; cbn;
    (split; [repeat split; lra|]); repeat split; try reflexivity; intros; try lra; apply Rmult_lt_0_compat; assumption.
Qed.

Lemma pogm_init_ok u x y z ss bp sb s : pogm_init grad u x y z ss bp sb = Ok s ->
  pogm_ok s /\ 0 <= po_sigma_bar s <= 1 /\ po_beta s = step_or ss bp /\ po_x s = x /\ po_x_new s = None /\ po_sigma s = 1 /\ po_t s = 1 /\ po_xi s = 1.
Proof.
  unfold pogm_init. destruct (Rlt_dec sb 0); [discriminate|]. destruct (Rgt_dec sb 1); [discriminate|].
  intros Q. injection Q as <-. unfold pogm_ok. cbn. repeat split; lra.
Qed.

Lemma pogm_after_ok s n : 0 < po_beta s -> 0 <= po_sigma_bar s <= 1 -> pogm_ok s ->
  pogm_ok (pogm_after grad prox n s) /\ po_beta (pogm_after grad prox n s) = po_beta s /\ po_sigma_bar (pogm_after grad prox n s) = po_sigma_bar s /\
  (0 < po_sigma_bar s -> 0 < po_sigma s -> 0 < po_sigma (pogm_after grad prox n s)).
Proof.
  intros Hb Hs Hok. induction n as [|n (I1 & I2 & I3 & I4)]; [cbn; auto|].
  change (pogm_after grad prox (S n) s) with (pogm_update grad prox (pogm_after grad prox n s)).
  destruct (pogm_update_shape (pogm_after grad prox n s)) as (J1 & J2 & J3 & _ & _ & J6); [rewrite I2; exact Hb|rewrite I3; exact Hs|exact I1|].
  split; [exact J1|]. split; [congruence|]. split; [congruence|]. intros A B. apply J6; [rewrite I3; exact A|auto].
Qed.

Lemma pogm_after_new s n : po_x_new (pogm_after grad prox (S n) s) = Some (po_x (pogm_after grad prox (S n) s)).
Proof.
  change (pogm_after grad prox (S n) s) with (pogm_update grad prox (pogm_after grad prox n s)).
  unfold pogm_update. repeat match goal with |- context [Rlt_dec ?u ?v] => destruct (Rlt_dec u v) end; reflexivity.
Qed.

Lemma pogm_iterate_ok cost metric hm period n s x : po_x_new s = None ->
  pogm_iterate grad prox cost metric hm period n s = Ok x ->
  exists N, (0 < N <= n)%nat /\ x = po_x (pogm_after grad prox N s).
Proof.
  intros E0. unfold pogm_iterate. destruct (run_alg _ _ _ _ _ _ _) as [[s' tr']|] eqn:E; cbn [bind]; [|discriminate].
  apply run_data in E. destruct E as (N & L & P & EN). cbn [data] in EN. cbn [fst]. rewrite EN. fold (pogm_after grad prox N s).
  destruct N as [|N]; [cbn; rewrite E0; discriminate|]. rewrite pogm_after_new. intros Q. injection Q as <-.
  exists (S N). split; [lia|reflexivity].
Qed.
Lemma pogm_iterate_0 cost metric hm period s : po_x_new s = None -> pogm_iterate grad prox cost metric hm period 0 s = Err AttributeError.
Proof. intros E. unfold pogm_iterate. cbn. rewrite E. reflexivity. Qed.

(** Stationarity. *)
Definition at_rest (s : @pogm H) : Prop :=
  ((po_t s - 1) * 1 = 0 \/ (po_u s = po_x s - po_beta s * grad (po_x s))%v /\ (po_z s = po_x s - po_xi s * grad (po_x s))%v).

Lemma pogm_rest_step s : 0 < po_beta s -> 0 <= po_sigma_bar s <= 1 -> pogm_ok s -> at_rest s ->
  po_x (pogm_update grad prox s) = fb_map grad prox (po_xi (pogm_update grad prox s)) (po_x s) /\
  (po_x (pogm_update grad prox s) = po_x s -> at_rest (pogm_update grad prox s)).
Proof.
  intros Hb Hs Hok Rs. destruct (pogm_update_shape s Hb Hs Hok) as (Hok' & _ & _ & Ex & _ & _). cbv zeta in *.
  assert (Ez : po_z (pogm_update grad prox s) = (po_x s - po_xi (pogm_update grad prox s) * grad (po_x s))%v).
  { clear Ex Hok'. destruct Hok as (T1 & Sg & X). pose proof (pogm_t_new (po_t s) T1) as Tn.
    unfold pogm_update. set (tn := / 2 * (1 + sqrt (1 + 4 * po_t s ^ 2))) in *. clearbody tn.
    set (a := (po_t s - 1) / tn). set (b := po_sigma s * po_t s / tn). clearbody b.
    set (x := po_x s) in *. set (g := grad x) in *.
    assert (E : ((- (a * po_beta s / po_xi s)) * (x - po_z s) + ((- po_beta s) * g + x) + a * ((- po_beta s) * g + x - po_u s) + b * ((- po_beta s) * g + x - x)
             = x - po_beta s * (1 + a + b) * g)%v).
    { destruct Rs as [R0|[Ru Rz]].
      - assert (a = 0) as -> by (unfold a; replace (po_t s - 1) with 0 by lra; unfold Rdiv; ring). vfield; lra.
      - rewrite Ru, Rz. fold x. fold g. vfield; lra. }
    repeat match goal with |- context [Rlt_dec ?u ?v] => destruct (Rlt_dec u v) end; cbn; exact E. }
  assert (Eu : po_u (pogm_update grad prox s) = (po_x s - po_beta s * grad (po_x s))%v).
  { unfold pogm_update. repeat match goal with |- context [Rlt_dec ?u ?v] => destruct (Rlt_dec u v) end; cbn; vring. }
  split; [rewrite Ex, Ez; reflexivity|]. intros Q. right. rewrite Q, Ez, Eu. split; [|reflexivity].
  destruct (pogm_update_shape s Hb Hs Hok) as (_ & Eb & _). rewrite Eb. reflexivity.
Qed.

Lemma pogm_minimiser D (f g : H -> R) s n : 0 < po_beta s -> 0 <= po_sigma_bar s <= 1 -> pogm_ok s -> po_t s = 1 ->
  convex f -> is_gradient f grad -> convex_on D g -> prox_operator D g prox ->
  minimises D (fun z => f z + g z) (po_x s) -> po_x (pogm_after grad prox n s) = po_x s.
Proof.
  intros Hb Hs Hok Ht Cf Gf Cg Pg M.
  assert (I : at_rest (pogm_after grad prox n s) /\ po_x (pogm_after grad prox n s) = po_x s).
  { induction n as [|n [I1 I2]]; [split; [left; cbn; lra|reflexivity]|].
    destruct (pogm_after_ok s n Hb Hs Hok) as (O1 & O2 & O3 & _).
    change (pogm_after grad prox (S n) s) with (pogm_update grad prox (pogm_after grad prox n s)).
    assert (Hb' : 0 < po_beta (pogm_after grad prox n s)) by (rewrite O2; exact Hb).
    assert (Hs' : 0 <= po_sigma_bar (pogm_after grad prox n s) <= 1) by (rewrite O3; exact Hs).
    destruct (pogm_rest_step (pogm_after grad prox n s) Hb' Hs' O1 I1) as [E1 E2].
    destruct (pogm_update_shape (pogm_after grad prox n s) Hb' Hs' O1) as ((_ & _ & Px) & _).
    assert (E3 : po_x (pogm_update grad prox (pogm_after grad prox n s)) = po_x s).
    { rewrite E1, I2. apply (proj2 (fb_map_fixed_iff D f g grad prox _ (po_x s) Px Cf Gf Cg Pg)). exact M. }
    split; [apply E2; congruence|exact E3]. }
  apply I.
Qed.

Lemma pogm_first_fixed D (f g : H -> R) s : 0 < po_beta s -> 0 <= po_sigma_bar s <= 1 -> pogm_ok s -> po_t s = 1 ->
  convex f -> is_gradient f grad -> convex_on D g -> prox_operator D g prox ->
  (po_x (pogm_after grad prox 1 s) = po_x s <-> minimises D (fun z => f z + g z) (po_x s)).
Proof.
  intros Hb Hs Hok Ht Cf Gf Cg Pg. change (pogm_after grad prox 1 s) with (pogm_update grad prox s).
  destruct (pogm_rest_step s Hb Hs Hok ltac:(left; lra)) as [E1 _]. rewrite E1.
  destruct (pogm_update_shape s Hb Hs Hok) as ((_ & _ & Px) & _).
  apply (fb_map_fixed_iff D f g grad prox _ (po_x s) Px Cf Gf Cg Pg).
Qed.
End POGM.
