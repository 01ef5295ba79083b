(** Lemmas for C141: a change of variables carries each update to the update of the changed problem. *)
From Coq Require Import String.
From Verif Require Import NPReal Py IPS Model_SetUp Model_FB Model_PD Spec_Opt Spec_Sym.
From Coq Require Import List Lia.
Import ListNotations.
Local Open Scope R_scope.

Section Lin.
Context {H K : ips}.
Variable V : H -> K.
Hypothesis L : linear_between V.
Lemma lin_add x y : V (x + y)%v = (V x + V y)%v. Proof. apply L. Qed.
Lemma lin_scal a x : V (a * x)%v = (a * V x)%v. Proof. apply L. Qed.
Lemma lin_sub x y : V (x - y)%v = (V x - V y)%v. Proof. unfold vsub. rewrite lin_add, lin_scal. reflexivity. Qed.
Lemma lin_zero : V vzero = vzero.
Proof. replace (vzero : H) with (0 * vzero : H)%v by (vring). rewrite lin_scal. vring. Qed.
End Lin.

Section Sym.
Context {H K : ips}.
Variables (V : H -> K) (o : K) (r k : R).
Hypothesis Sim : similarity r V.
Hypothesis Hk : 0 < k.
Notation T := (moved V o).
Let L : linear_between V. Proof. apply Sim. Qed.
Lemma sim_inner x y : inner (V x) (V y) = r ^ 2 * inner x y. Proof. apply Sim. Qed.
Lemma sim_r2 : 0 < r ^ 2. Proof. apply pow_lt. apply Sim. Qed.
Lemma sim_norm x : norm (V x) = r * norm x.
Proof.
  unfold norm. rewrite sim_inner. rewrite sqrt_mult_alt by (left; apply sim_r2). f_equal. replace (r ^ 2) with (r * r) by ring.
  apply sqrt_square. left. apply Sim.
Qed.
Lemma moved_sub x y : (T x - T y)%v = V (x - y)%v.
Proof. unfold moved. rewrite (lin_sub V L). vring. Qed.
Lemma moved_add x y : T (x + y)%v = (T x + V y)%v.
Proof. unfold moved. rewrite (lin_add V L). vring. Qed.
Lemma moved_less x y : T (x - y)%v = (T x - V y)%v.
Proof. unfold moved. rewrite (lin_sub V L). vring. Qed.
Lemma sign_ge a : (r ^ 2 * a >= 0) <-> (a >= 0).
Proof. pose proof sim_r2. split; intros Q; apply Rle_ge; apply Rge_le in Q; [|nra]. apply Rmult_le_reg_l with (r ^ 2); lra. Qed.
Lemma scaled_ge a b : (r * a >= r * b) <-> (a >= b).
Proof. assert (0 < r) by apply Sim. split; intros Q; apply Rle_ge; apply Rge_le in Q; [|nra]. apply Rmult_le_reg_l with r; lra. Qed.

Definition fista_to (f : fista) : fista :=
  mk_fista (f_mode f) (f_strategy f) (f_min_beta f / k) (f_s f) (f_xi f) (f_t_now f) (f_t_prev f) (option_map (Rmult r) (f_delta0 f)) (f_safeguard f).
Definition conj_update (u : option (nat -> R -> R)) : option (nat -> R -> R) :=
  match u with Some f => Some (fun n b => f n (b * k) / k) | None => None end.
Definition rule_to (q : fb_rule) : fb_rule := match q with RFista f => RFista (fista_to f) | RUser bu lu => RUser (conj_update bu) lu end.
Definition fb_to (s : @fb H) : @fb K :=
  mk_fb (T (fb_x_old s)) (T (fb_z_old s)) (option_map (fun p => (T (fst p), T (snd p))) (fb_new s))
    (fb_beta s / k) (fb_lambda s) (rule_to (fb_the_rule s)) (fb_calls s).

Lemma conj_ok u n b : apply_update (conj_update u) n (b / k) = apply_update u n b / k.
Proof. destruct u as [f|]; [|reflexivity]. cbn. replace (b / k * k) with b by (field; lra). reflexivity. Qed.

Lemma is_restart_to f z x y : is_restart (fista_to f) (T z) (T x) (T y) = (fista_to (fst (is_restart f z x y)), snd (is_restart f z x y)).
Proof.
  unfold is_restart. cbn [f_strategy fista_to]. destruct (f_strategy f) as [name|] eqn:E; [|cbn; f_equal; unfold fista_to; rewrite E; reflexivity].
  rewrite !moved_sub, sim_inner, sim_norm. cbn [fst snd].
  assert (Cr : (if Rge_dec (r ^ 2 * inner (z - x)%v (x - y)%v) 0 then true else false) = (if Rge_dec (inner (z - x)%v (x - y)%v) 0 then true else false)).
  { pose proof (sign_ge (inner (z - x)%v (x - y)%v)). destruct (Rge_dec (r ^ 2 * _) 0), (Rge_dec (inner _ _) 0); tauto. }
  rewrite Cr. set (c := if Rge_dec (inner (z - x)%v (x - y)%v) 0 then true else false). f_equal.
  assert (E1 : (if (c && String.prefix "adaptive" name)%bool then scale_r (fista_to f) else fista_to f) = fista_to (if (c && String.prefix "adaptive" name)%bool then scale_r f else f)) by (destruct (c && _)%bool; reflexivity).
  change (mk_fista (f_mode f) (Some name) (f_min_beta f / k) (f_s f) (f_xi f) (f_t_now f) (f_t_prev f) (option_map (Rmult r) (f_delta0 f)) (f_safeguard f)) with
    (mk_fista (f_mode f) (Some name) (f_min_beta f / k) (f_s f) (f_xi f) (f_t_now f) (f_t_prev f) (option_map (Rmult r) (f_delta0 f)) (f_safeguard f)).
  rewrite E1. set (f1 := if (c && String.prefix "adaptive" name)%bool then scale_r f else f).
  set (c2 := (c && (String.eqb name "adaptive-ii" || String.eqb name "adaptive-2"))%bool).
  assert (E2 : (if c2 then set_t_now (fista_to f1) 1 else fista_to f1) = fista_to (if c2 then set_t_now f1 1 else f1)) by (destruct c2; reflexivity).
  rewrite E2. set (f2 := if c2 then set_t_now f1 1 else f1).
  destruct (String.eqb name "greedy"); [|reflexivity]. cbn [f_delta0 fista_to f_s f_safeguard]. destruct (f_delta0 f2) as [d0|]; cbn [option_map].
  - unfold set_greedy, fista_to. cbn. f_equal. pose proof (scaled_ge (norm (x - y)%v) d0). destruct (Rge_dec (r * _) (r * d0)), (Rge_dec (norm _) d0); tauto.
  - unfold set_greedy, fista_to. cbn. f_equal. f_equal. ring.
Qed.
Lemma update_beta_to f b : update_beta (fista_to f) (b / k) = update_beta f b / k.
Proof.
  unfold update_beta. cbn [f_safeguard fista_to f_xi f_min_beta]. destruct (f_safeguard f); [|reflexivity].
  assert (Ik : 0 < / k) by (apply Rinv_0_lt_compat, Hk).
  replace (b / k * f_xi f) with (b * f_xi f / k) by (field; lra). unfold Rdiv.
  rewrite <- !(Rmult_comm (/ k)), RmaxRmult by lra. reflexivity.
Qed.
Lemma update_lambda_to f : update_lambda (fista_to f) = (fista_to (fst (update_lambda f)), snd (update_lambda f)).
Proof.
  unfold update_lambda. cbn [f_strategy fista_to f_mode f_t_now].
  destruct (match f_strategy f with Some name => String.eqb name "greedy" | None => false end); [reflexivity|].
  destruct (f_mode f) as [p q rr|a n]; reflexivity.
Qed.

Variables (grad : H -> H) (grad' : K -> K).
Hypothesis Gr : carries_gradient k V o grad grad'.
Lemma grad_to x b : (T x - (b / k) * grad' (T x))%v = T (x - b * grad x)%v.
Proof. rewrite Gr, moved_less, (lin_scal V L). unfold moved. replace ((b / k) * (k * V (grad x)))%v with (b * V (grad x))%v; [reflexivity|]. vfield. lra. Qed.

Section FB.
Variables (prox : H -> R -> H) (prox' : K -> R -> K).
Hypothesis Pr : carries_prox k V o prox prox'.
Lemma fb_step_to s : 0 < fb_beta s -> fb_update grad' prox' (fb_to s) = fb_to (fb_update grad prox s).
Proof.
  intros Pb. unfold fb_update. cbn [fb_to fb_z_old fb_beta fb_x_old fb_lambda fb_the_rule fb_calls]. rewrite grad_to, Pr by exact Pb.
  set (xn := prox (fb_z_old s - fb_beta s * grad (fb_z_old s))%v (fb_beta s)).
  assert (Z : (T (fb_x_old s) + fb_lambda s * (T xn - T (fb_x_old s)))%v = T (fb_x_old s + fb_lambda s * (xn - fb_x_old s))%v).
  { rewrite moved_sub, moved_add, (lin_scal V L). reflexivity. }
  rewrite Z. set (zn := (fb_x_old s + fb_lambda s * (xn - fb_x_old s))%v).
  destruct (fb_the_rule s) as [f|bu lu]; cbn [rule_to].
  - rewrite is_restart_to. destruct (is_restart f (fb_z_old s) xn (fb_x_old s)) as [f1 b]. cbn [fst snd].
    rewrite update_lambda_to, update_beta_to. destruct (update_lambda f1) as [f2 l]. destruct b; reflexivity.
  - cbn. rewrite conj_ok. reflexivity.
Qed.
Lemma fb_run_to n s : (forall j, 0 < fb_beta (fb_after grad prox j s)) -> fb_after grad' prox' n (fb_to s) = fb_to (fb_after grad prox n s).
Proof. intros Pb. induction n as [|n IH]; [reflexivity|]. specialize (Pb n). unfold fb_after in *. cbn [Nat.iter nat_rect]. unfold Nat.iter in IH, Pb. rewrite IH. apply fb_step_to, Pb. Qed.
End FB.

(** * POGM *)
Section POGM.
Variables (prox : H -> R -> H) (prox' : K -> R -> K).
Hypothesis Pr : carries_prox k V o prox prox'.
Definition pogm_to (s : @pogm H) : @pogm K :=
  mk_pogm (T (po_u s)) (T (po_x s)) (T (po_y s)) (T (po_z s)) (k * V (po_g s))%v (po_t s) (po_sigma s) (po_xi s / k) (po_beta s / k) (po_sigma_bar s)
    (option_map (fun x => T x) (po_x_new s)).
Definition with_xi (xi : R) (s : @pogm K) : @pogm K :=
  mk_pogm (po_u s) (po_x s) (po_y s) (po_z s) (po_g s) (po_t s) (po_sigma s) xi (po_beta s) (po_sigma_bar s) (po_x_new s).
Lemma neg_iff c a : 0 < c -> (c * a < 0) <-> (a < 0).
Proof. intros Hc. split; intros Q; [|nra]. apply Rmult_lt_reg_l with c; lra. Qed.
(** The value of xi does not matter while t = 1. *)
Lemma t_next t : 1 <= t -> 1 <= / 2 * (1 + sqrt (1 + 4 * t ^ 2)).
Proof. intros Ht. assert (1 <= sqrt (1 + 4 * t ^ 2)); [|lra]. rewrite <- sqrt_1 at 1. apply sqrt_le_1_alt. pose proof (pow2_ge_0 t). lra. Qed.
Definition pogm_range (s : @pogm H) : Prop := 1 <= po_t s /\ 0 <= po_sigma s /\ 0 <= po_sigma_bar s /\ 0 < po_beta s.
Lemma pogm_range_step s : pogm_range s -> pogm_range (pogm_update grad prox s).
Proof.
  intros (A & B & C & D). unfold pogm_range, pogm_update. pose proof (t_next (po_t s) A).
  destruct (Rlt_dec _ 0); [|destruct (Rlt_dec _ 0)]; cbn [po_t po_sigma po_sigma_bar po_beta]; repeat split; try lra. apply Rmult_le_pos; assumption.
Qed.
Lemma pogm_step_to s xi' : pogm_range s -> po_t s = 1 \/ xi' = po_xi s / k -> pogm_update grad' prox' (with_xi xi' (pogm_to s)) = pogm_to (pogm_update grad prox s).
Proof.
  intros (Rt & Rs & _ & Rb) Q. unfold pogm_update. cbn [with_xi pogm_to po_u po_x po_y po_z po_g po_t po_sigma po_xi po_beta po_sigma_bar po_x_new].
  set (b := po_beta s). set (t := po_t s) in *. set (tn := / 2 * (1 + sqrt (1 + 4 * t ^ 2))). set (tr := (t - 1) / tn). set (sr := po_sigma s * t / tn).
  set (un := ((- b) * grad (po_x s) + po_x s)%v).
  assert (Un : ((- (b / k)) * grad' (T (po_x s)) + T (po_x s))%v = T un).
  { unfold un. rewrite Gr. unfold moved. rewrite (lin_add V L), (lin_scal V L). vfield. lra. }
  rewrite Un.
  assert (Bx : tr * (b / k) / xi' = tr * b / po_xi s).
  { destruct Q as [Q | ->]; [unfold tr; rewrite Q; unfold Rdiv; ring|]. unfold Rdiv. rewrite Rinv_mult, Rinv_inv. 
    replace (tr * (b * / k) * (/ po_xi s * k)) with (tr * b * / po_xi s * (/ k * k)) by ring. rewrite Rinv_l by lra. ring. }
  rewrite Bx. set (bx := tr * b / po_xi s).
  set (z := ((- bx) * (po_x s - po_z s) + un + tr * (un - po_u s) + sr * (un - po_x s))%v).
  assert (Z : ((- bx) * (T (po_x s) - T (po_z s)) + T un + tr * (T un - T (po_u s)) + sr * (T un - T (po_x s)))%v = T z).
  { rewrite !moved_sub. unfold z. unfold moved. rewrite !(lin_add V L), !(lin_scal V L). vring. }
  rewrite Z. set (xi := b * (1 + tr + sr)). replace (b / k * (1 + tr + sr)) with (xi / k) by (unfold xi, Rdiv; ring).
  assert (Px : 0 < xi).
  { pose proof (t_next t Rt) as Tn. fold tn in Tn. assert (Itn : 0 < / tn) by (apply Rinv_0_lt_compat; lra). unfold xi. apply Rmult_lt_0_compat; [exact Rb|].
    assert (0 <= tr) by (apply Rmult_le_pos; lra). assert (0 <= sr) by (unfold sr; apply Rmult_le_pos; [apply Rmult_le_pos; lra|lra]). lra. }
  rewrite Pr by exact Px.
  set (xn := prox z xi).
  set (gn := ((/ xi) * (z - xn) + grad (po_x s))%v).
  assert (Gn : ((/ (xi / k)) * (T z - T xn) + grad' (T (po_x s)))%v = (k * V gn)%v).
  { rewrite moved_sub, Gr. unfold gn. rewrite (lin_add V L), (lin_scal V L). unfold Rdiv. rewrite Rinv_mult, Rinv_inv. vring. }
  rewrite Gn. set (yn := ((- b) * gn + po_x s)%v).
  assert (Yn : ((- (b / k)) * (k * V gn) + T (po_x s))%v = T yn).
  { unfold yn, moved. rewrite (lin_add V L), (lin_scal V L). vfield. lra. }
  rewrite Yn, moved_sub.
  assert (I1 : inner ((-1) * (k * V gn))%v (V (yn - po_y s)%v) = (k * r ^ 2) * inner ((-1) * gn)%v (yn - po_y s)%v) by (rewrite !inner_scal_l, sim_inner; ring).
  assert (I2 : inner (k * V gn)%v (k * V (po_g s))%v = (k * k * r ^ 2) * inner gn (po_g s)).
  { rewrite inner_scal_l, inner_sym, inner_scal_l, inner_sym, sim_inner. ring. }
  rewrite I1, I2. pose proof sim_r2 as R2.
  pose proof (neg_iff (k * r ^ 2) (inner ((-1) * gn)%v (yn - po_y s)%v) ltac:(apply Rmult_lt_0_compat; assumption)) as N1.
  pose proof (neg_iff (k * k * r ^ 2) (inner gn (po_g s)) ltac:(apply Rmult_lt_0_compat; [apply Rmult_lt_0_compat; assumption|assumption])) as N2.
  destruct (Rlt_dec (k * r ^ 2 * _) 0) as [A1|A1], (Rlt_dec (inner ((-1) * gn)%v _) 0) as [B1|B1]; try tauto; try reflexivity.
  destruct (Rlt_dec (k * k * r ^ 2 * _) 0) as [A2|A2], (Rlt_dec (inner gn _) 0) as [B2|B2]; try tauto; reflexivity.
Qed.
Lemma with_same s : with_xi (po_xi s / k) (pogm_to s) = pogm_to s. Proof. reflexivity. Qed.
Lemma pogm_run_to n s xi' : pogm_range s -> po_t s = 1 \/ xi' = po_xi s / k -> pogm_after grad' prox' (S n) (with_xi xi' (pogm_to s)) = pogm_to (pogm_after grad prox (S n) s).
Proof.
  intros Rg Q. assert (Rn : forall j, pogm_range (pogm_after grad prox j s)) by (induction j as [|j IHj]; [exact Rg|apply pogm_range_step, IHj]).
  induction n as [|n IH]; [apply pogm_step_to; assumption|]. specialize (Rn (S n)). unfold pogm_after in *. cbn [Nat.iter nat_rect] in *. unfold Nat.iter in IH, Rn. cbn [nat_rect] in IH, Rn. rewrite IH.
  rewrite <- with_same. apply pogm_step_to; [exact Rn|right; reflexivity].
Qed.
End POGM.

(** * GenForwardBackward *)
Section GFB.
Variables (proxs : list (H -> R -> H)) (proxs' : list (K -> R -> K)).
Hypothesis Pr : Forall2 (carries_prox k V o) proxs proxs'.
Definition gfb_to (s : @gfb H) : @gfb K :=
  mk_gfb (T (g_x_old s)) (option_map (fun x => T x) (g_x_new s)) (map (fun z => T z) (g_z s)) (g_weights s)
    (g_gamma s / k) (g_lambda s) (g_calls s) (conj_update (g_gamma_update s)) (g_lambda_update s).
Definition gfb_sizes (s : @gfb H) : Prop := List.length (g_z s) = List.length (g_weights s) /\ List.length (g_weights s) = List.length proxs /\ rsum (g_weights s) = 1 /\ Forall (Rlt 0) (g_weights s).
Lemma gfb_sizes_step s : gfb_sizes s -> gfb_sizes (gfb_update grad proxs s).
Proof.
  intros (A & B & C). unfold gfb_sizes, gfb_update. cbn [g_z g_weights]. split; [|split; assumption].
  rewrite (map2_length _ _ _ (List.length (g_weights s))); [reflexivity| |exact A]. rewrite combine_length, B. lia.
Qed.
Lemma weighted_to zs : forall ws, List.length zs = List.length ws ->
  vsum_list (map2 (fun z_i w_i => (w_i * z_i)%v) (map (fun z => T z) zs) ws) = (V (vsum_list (map2 (fun z_i w_i => (w_i * z_i)%v) zs ws)) + rsum ws * o)%v.
Proof.
  induction zs as [|z zs IH]; intros [|w ws] E; try discriminate E.
  - cbn. rewrite (lin_zero V L). vring.
  - cbn [map map2 vsum_list]. rewrite IH by (injection E; auto). change (rsum (w :: ws)) with (w + rsum ws). rewrite (lin_add V L), (lin_scal V L). unfold moved. vring.
Qed.
Lemma gfb_step_to s : gfb_sizes s -> 0 < g_gamma s -> gfb_update grad' proxs' (gfb_to s) = gfb_to (gfb_update grad proxs s).
Proof.
  intros (A & B & C & Wp) Pg. unfold gfb_update. cbn [gfb_to g_x_old g_x_new g_z g_weights g_gamma g_lambda g_calls g_gamma_update g_lambda_update].
  match goal with |- mk_gfb _ _ ?z' _ _ _ _ _ _ = gfb_to (mk_gfb _ _ ?z _ _ _ _ _ _) => assert (Z : z' = map (fun q => T q) z) end.
  { clear A C. revert B Wp Pr. generalize (g_weights s) (g_z s). revert proxs'. induction proxs as [|p ps IH]; intros ps' ws zs B Wp Pq.
    - inversion Pq. subst. destruct ws; reflexivity.
    - inversion Pq as [|? p' ? qs' P1 P2]. subst. destruct ws as [|w ws]; [discriminate B|]. destruct zs as [|z zs]; [reflexivity|].
      cbn [combine map map2 fst snd]. inversion Wp as [|? ? W1 W2]. subst. f_equal; [|apply IH; [injection B; auto|exact W2|exact P2]].
      assert (E : (2 * T (g_x_old s) - T z - g_gamma s / k * grad' (T (g_x_old s)))%v = T (2 * g_x_old s - z - g_gamma s * grad (g_x_old s))%v).
      { rewrite Gr. unfold moved. rewrite !(lin_sub V L), !(lin_scal V L). vfield. lra. }
      rewrite E. replace (g_gamma s / k / w) with (g_gamma s / w / k) by (unfold Rdiv; ring). rewrite P1 by (apply Rmult_lt_0_compat; [exact Pg|apply Rinv_0_lt_compat, W1]). rewrite moved_sub, moved_add, (lin_scal V L). reflexivity. }
  rewrite Z. match type of Z with _ = map _ ?z => set (zn := z) end.
  assert (Ln : List.length zn = List.length (g_weights s)) by (unfold zn; rewrite (map2_length _ _ _ (List.length (g_weights s))); [reflexivity|rewrite combine_length, B; lia|exact A]).
  rewrite (weighted_to zn _ Ln), C.
  replace (V (vsum_list (map2 (fun z_i w_i => (w_i * z_i)%v) zn (g_weights s))) + 1 * o)%v with (T (vsum_list (map2 (fun z_i w_i => (w_i * z_i)%v) zn (g_weights s)))) by (unfold moved; vring).
  unfold gfb_to. cbn [g_x_old g_x_new g_z g_weights g_gamma g_lambda g_calls g_gamma_update g_lambda_update option_map]. rewrite conj_ok. reflexivity.
Qed.
Lemma gfb_run_to n s : gfb_sizes s -> (forall j, 0 < g_gamma (gfb_after grad proxs j s)) -> gfb_after grad' proxs' n (gfb_to s) = gfb_to (gfb_after grad proxs n s).
Proof.
  intros Q Pg. assert (G : gfb_sizes (gfb_after grad proxs n s) /\ gfb_after grad' proxs' n (gfb_to s) = gfb_to (gfb_after grad proxs n s)); [|apply G].
  induction n as [|n [I1 I2]]; [split; [exact Q|reflexivity]|]. specialize (Pg n). unfold gfb_after in *. cbn [Nat.iter nat_rect]. unfold Nat.iter in I1, I2, Pg. split; [apply gfb_sizes_step, I1|].
  rewrite I2. apply gfb_step_to; assumption.
Qed.
End GFB.
End Sym.

(** * Condat: any linear changes of the primal and the dual variables that the operators respect. *)
Section Condat.
Context {H H' K K' : ips} {W : Type}.
Variables (V : H -> H') (U : K -> K').
Hypotheses (LV : linear_between V) (LU : linear_between U).
Variables (grad : H -> H) (prox : H -> R -> H) (prox_dual : W -> K -> R -> K) (lop : H -> K) (ladj : K -> H).
Variables (grad' : H' -> H') (prox' : H' -> R -> H') (prox_dual' : W -> K' -> R -> K') (lop' : H' -> K') (ladj' : K' -> H').
Hypothesis Gr : forall x, grad' (V x) = V (grad x).
Hypothesis Pr : forall x t, prox' (V x) t = V (prox x t).
Hypothesis Pd : forall w y t, prox_dual' w (U y) t = U (prox_dual w y t).
Hypothesis Lo : forall x, lop' (V x) = U (lop x).
Hypothesis La : forall y, ladj' (U y) = V (ladj y).
Definition condat_to (s : @condat H K W) : @condat H' K' W :=
  mk_condat (V (c_x s)) (U (c_y s)) (option_map (fun p => (V (fst p), U (snd p))) (c_new s)) (c_rho s) (c_sigma s) (c_tau s) (c_calls s) (c_w s)
    (c_rho_update s) (c_sigma_update s) (c_tau_update s).
Lemma condat_step_to s : condat_update grad' prox' prox_dual' lop' ladj' (condat_to s) = condat_to (condat_update grad prox prox_dual lop ladj s).
Proof.
  unfold condat_update, condat_prox. cbn [condat_to c_x c_y c_new c_rho c_sigma c_tau c_calls c_w c_rho_update c_sigma_update c_tau_update].
  rewrite Gr, La. 
  rewrite <- !(lin_scal V LV), <- !(lin_sub V LV), Pr. set (xp := prox _ _).
  rewrite <- (lin_scal V LV 2), <- (lin_sub V LV), Lo, <- (lin_scal U LU), <- (lin_add U LU). set (yt := (c_y s + _)%v).
  rewrite <- (lin_scal U LU), Pd, <- (lin_scal U LU), <- (lin_sub U LU). set (yp := (yt - _)%v).
  rewrite <- !(lin_scal U LU), <- !(lin_scal V LV), <- (lin_add V LV), <- (lin_add U LU). reflexivity.
Qed.
Lemma condat_run_to n s : condat_after grad' prox' prox_dual' lop' ladj' n (condat_to s) = condat_to (condat_after grad prox prox_dual lop ladj n s).
Proof. induction n as [|n IH]; [reflexivity|]. unfold condat_after in *. cbn [Nat.iter nat_rect]. unfold Nat.iter in IH. rewrite IH. apply condat_step_to. Qed.
End Condat.
