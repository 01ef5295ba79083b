(** Proofs for C124: the heap updates of Model_Heap compute what the updates on values compute. *)
From Verif Require Import NPReal Py IPS Model_SetUp Model_FB Model_PD Model_ADMM Model_Heap Spec_Heap.
From Coq Require Import List Arith Lia.
Import ListNotations.
Local Open Scope nat_scope.

Lemma alloc_spec {V} (h : heap V) v :
  next (alloc h v) = S (next h) /\ rd (alloc h v) (next h) = v /\ own (alloc h v) (next h) = Alg /\
  (forall q, q < next h -> rd (alloc h v) q = rd h q /\ own (alloc h v) q = own h q).
Proof.
  unfold alloc, rd, own; cbn. rewrite Nat.eqb_refl. repeat split.
  - destruct (Nat.eqb_spec q (next h)); [lia | reflexivity].
  - destruct (Nat.eqb_spec q (next h)); [lia | reflexivity].
Qed.

Lemma wr_spec {V} (h : heap V) r v :
  next (wr h r v) = next h /\ rd (wr h r v) r = v /\ (forall q, own (wr h r v) q = own h q) /\
  (forall q, q <> r -> rd (wr h r v) q = rd h q).
Proof.
  unfold wr, rd, own; cbn. rewrite Nat.eqb_refl. repeat split.
  - intros q. destruct (Nat.eqb_spec q r); [subst|]; reflexivity.
  - intros q Hq. destruct (Nat.eqb_spec q r); [lia | reflexivity].
Qed.

Lemma keeps_refl {V} P (h : heap V) : keeps P h h.
Proof. split; [lia | auto]. Qed.

Lemma keeps_trans {V} P (h1 h2 h3 : heap V) : keeps P h1 h2 -> keeps P h2 h3 -> keeps P h1 h3.
Proof.
  intros [A1 A2] [B1 B2]. split; [lia|]. intros q Hq.
  destruct (A2 q Hq) as [O1 R1]. destruct (B2 q ltac:(lia)) as [O2 R2]. split; [congruence|].
  intros HP. rewrite R2 by (rewrite O1; exact HP). apply R1; exact HP.
Qed.

Lemma keeps_weaken {V} (P Q : owner -> Prop) (h1 h2 : heap V) : (forall o, Q o -> P o) -> keeps P h1 h2 -> keeps Q h1 h2.
Proof. intros PQ [A1 A2]. split; [exact A1|]. intros q Hq. destruct (A2 q Hq). split; auto. Qed.

Lemma keeps_all {V} (P : owner -> Prop) (h1 h2 : heap V) : keeps (fun _ => True) h1 h2 -> keeps P h1 h2.
Proof. apply keeps_weaken. auto. Qed.

Lemma keeps_alloc {V} P (h : heap V) v : keeps P h (alloc h v).
Proof. destruct (alloc_spec h v) as (N & _ & _ & O). split; [lia|]. intros q Hq. destruct (O q Hq). auto. Qed.

Lemma keeps_wr {V} (P : owner -> Prop) (h : heap V) r v : ~ P (own h r) -> keeps P h (wr h r v).
Proof.
  intros HP. destruct (wr_spec h r v) as (N & _ & O & E). split; [lia|]. intros q Hq. split; [apply O|].
  intros HQ. apply E. intros ->. contradiction.
Qed.

Lemma Forall2_len {A B} (P : A -> B -> Prop) l l' : Forall2 P l l' -> List.length l = List.length l'.
Proof. induction 1; cbn; congruence. Qed.

Definition held (o : owner) : Prop := o = Caller \/ o = Alg.

(** one call *)
Lemma computes_call {V} k ip F (op : hop V) h r w :
  computes k ip F op -> r < next h -> F (rd h r) w ->
  exists h' r', op h r = (h', r') /\ next h <= next h' /\ r' < next h' /\ rd h' r' = w /\ (r' = r \/ own h' r' = Oper k) /\
  (forall q, q < next h -> own h' q = own h q) /\
  (forall q, q < next h -> own h q <> Oper k -> ip = false \/ q <> r -> rd h' q = rd h q).
Proof.
  intros C Hr HF. specialize (C h r w Hr HF). destruct (op h r) as [h' r']. destruct C as (A & B & E & S & O & Nw).
  exists h', r'. repeat split; auto; intros q Hq; destruct (O q Hq); auto.
Qed.

Section FB.
Context {H : ips}.
Variables (grad : H -> H) (prox : H -> R -> H).
Variables (kg kp : nat) (gop : hop H) (pop : R -> hop H).
Hypothesis Cg : computes kg false (fn grad) gop.
Hypothesis Cp : forall f, computes kp true (fn (fun v => prox v f)) (pop f).

Definition fb_inv (s : h_fb (H := H)) : Prop :=
  hf_x_old s < next (hf_heap s) /\ hf_z_old s < next (hf_heap s) /\
  own (hf_heap s) (hf_x_old s) = Alg /\ own (hf_heap s) (hf_z_old s) = Alg.

Lemma fb_step s : fb_inv s ->
  fb_values (h_fb_update gop pop s) = fb_update grad prox (fb_values s) /\
  fb_inv (h_fb_update gop pop s) /\ keeps held (hf_heap s) (hf_heap (h_fb_update gop pop s)).
Proof.
  destruct s as [h x z nw be la ru n]. unfold fb_inv; cbn [hf_heap hf_x_old hf_z_old]. intros (Hx & Hz & Ox & Oz).
  unfold h_fb_update; cbn [hf_heap hf_x_old hf_z_old hf_beta hf_lambda hf_rule hf_calls].
  destruct (computes_call _ _ _ gop h z _ Cg Hz eq_refl) as (h1 & g & -> & N1 & B1 & R1 & S1 & O1 & F1).
  pose proof (F1 x Hx ltac:(congruence) (or_introl eq_refl)) as Rx1.
  pose proof (F1 z Hz ltac:(congruence) (or_introl eq_refl)) as Rz1.
  set (v2 := (rd h1 z - be * rd h1 g)%v). cbv zeta.
  destruct (alloc_spec h1 v2) as (N2 & R2 & W2 & O2). set (h2 := alloc h1 v2) in *. clearbody h2.
  destruct (computes_call _ _ _ (pop be) h2 (next h1) _ (Cp be) ltac:(lia) eq_refl) as (h3 & xn & -> & N3 & B3 & R3 & S3 & O3 & F3).
  assert (Ox2 : own h2 x = Alg) by (rewrite (proj2 (O2 x ltac:(lia))), O1 by lia; exact Ox).
  assert (Oz2 : own h2 z = Alg) by (rewrite (proj2 (O2 z ltac:(lia))), O1 by lia; exact Oz).
  assert (Rx3 : rd h3 x = rd h x) by (rewrite F3, (proj1 (O2 x ltac:(lia))); [exact Rx1 | lia | congruence | right; lia]).
  assert (Rz3 : rd h3 z = rd h z) by (rewrite F3, (proj1 (O2 z ltac:(lia))); [exact Rz1 | lia | congruence | right; lia]).
  set (v4 := (rd h3 x + la * (rd h3 xn - rd h3 x))%v).
  destruct (alloc_spec h3 v4) as (N4 & R4 & W4 & O4). set (h4 := alloc h3 v4) in *. clearbody h4.
  assert (Rxn4 : rd h4 xn = rd h3 xn) by (apply O4; lia).
  rewrite (proj1 (O4 x ltac:(lia))), (proj1 (O4 z ltac:(lia))), Rxn4, Rx3, Rz3.
  assert (Exn : rd h3 xn = prox (rd h z - be * grad (rd h z))%v be).
  { rewrite R3, R2. unfold v2. rewrite R1, Rz1. reflexivity. }
  assert (Ev4 : v4 = (rd h x + la * (prox (rd h z - be * grad (rd h z))%v be - rd h x))%v).
  { unfold v4. rewrite Rx3, Exn. reflexivity. }
  clearbody v4. unfold fb_values, fb_update; cbn [hf_heap hf_x_old hf_z_old hf_new hf_beta hf_lambda hf_rule hf_calls
    fb_x_old fb_z_old fb_beta fb_lambda fb_the_rule fb_calls].
  rewrite Exn. set (xv := prox (rd h z - be * grad (rd h z))%v be) in *. clearbody xv.
  set (rs := match ru with
     | RFista f => let '(f1, r) := is_restart f (rd h z) xv (rd h x) in (RFista f1, r)
     | RUser bu lu => (RUser bu lu, false) end). clearbody rs. destruct rs as [rule1 restart].
  set (zn := if restart then xn else next h3).
  assert (Bzn : zn < next h4) by (unfold zn; destruct restart; lia).
  assert (Rzn : rd h4 zn = if restart then xv else v4).
  { unfold zn. destruct restart; [congruence | exact R4]. }
  destruct (alloc_spec h4 xv) as (N5 & R5 & W5 & O5).
  set (h5 := alloc h4 xv) in *. clearbody h5.
  assert (Rzn5 : rd h5 zn = if restart then xv else v4) by (rewrite (proj1 (O5 zn ltac:(lia))); exact Rzn).
  rewrite Rzn5.
  destruct (alloc_spec h5 (if restart then xv else v4)) as (N6 & R6 & W6 & O6).
  set (h6 := alloc h5 (if restart then xv else v4)) in *. clearbody h6.
  set (up := match rule1 with
     | RFista f => let '(f1, l) := update_lambda f in (RFista f1, update_beta f be, l)
     | RUser bu lu => (RUser bu lu, apply_update bu n be, apply_update lu n la) end). clearbody up.
  destruct up as [[rule2 beta] lam]. cbn [hf_heap hf_x_old hf_z_old hf_new hf_beta hf_lambda hf_rule hf_calls].
  split; [|split].
  - rewrite (proj1 (O6 (next h4) ltac:(lia))), R5, R6, (proj1 (O6 xn ltac:(lia))), (proj1 (O5 xn ltac:(lia))), Rxn4, Exn.
    rewrite (proj1 (O6 zn ltac:(lia))), Rzn5, <- Ev4. reflexivity.
  - repeat split; try lia; try assumption. rewrite (proj2 (O6 (next h4) ltac:(lia))). exact W5.
  - split; [lia|]. intros q Hq.
    assert (Q2 : own h2 q = own h q) by (rewrite (proj2 (O2 q ltac:(lia))), O1 by lia; reflexivity).
    split.
    + rewrite (proj2 (O6 q ltac:(lia))), (proj2 (O5 q ltac:(lia))), (proj2 (O4 q ltac:(lia))), O3 by lia. exact Q2.
    + intros HP. rewrite (proj1 (O6 q ltac:(lia))), (proj1 (O5 q ltac:(lia))), (proj1 (O4 q ltac:(lia))).
      rewrite F3; [| lia | destruct HP; congruence | right; lia]. rewrite (proj1 (O2 q ltac:(lia))).
      apply F1; [lia | destruct HP; congruence | left; reflexivity].
Qed.

Lemma fb_steps n s : fb_inv s ->
  fb_values (h_fb_after gop pop n s) = fb_after grad prox n (fb_values s) /\
  fb_inv (h_fb_after gop pop n s) /\ keeps held (hf_heap s) (hf_heap (h_fb_after gop pop n s)).
Proof.
  intros I. induction n as [|n (E & J & K)]; [split; [reflexivity|]; split; [exact I | apply keeps_refl]|].
  change (h_fb_after gop pop (S n) s) with (h_fb_update gop pop (h_fb_after gop pop n s)).
  change (fb_after grad prox (S n) (fb_values s)) with (fb_update grad prox (fb_after grad prox n (fb_values s))).
  destruct (fb_step _ J) as (E' & J' & K'). rewrite E', E. split; [reflexivity|]. split; [exact J' | eapply keeps_trans; eauto].
Qed.

Lemma fb_start h x st be la bu lu s0 : x < next h -> h_fb_init h x st be la bu lu = Ok s0 ->
  fb_init (rd h x) st be la bu lu = Ok (fb_values s0) /\ fb_inv s0 /\ keeps (fun _ => True) h (hf_heap s0).
Proof.
  intros Hx. unfold h_fb_init, fb_init.
  destruct (match lu with LFista a => do f <- fista_init a; Ok (RFista f) | LCall lu0 => Ok (RUser bu lu0) end) as [rule|]; [|discriminate].
  cbn [bind]. intros E. injection E as <-.
  destruct (alloc_spec h (rd h x)) as (N1 & R1 & W1 & O1). set (h1 := alloc h (rd h x)) in *.
  assert (K1 : keeps (fun _ => True) h h1) by apply keeps_alloc. clearbody h1.
  rewrite (proj1 (O1 x Hx)). destruct (alloc_spec h1 (rd h x)) as (N2 & R2 & W2 & O2).
  pose proof (keeps_alloc (fun _ => True) h1 (rd h x)) as K2.
  set (h2 := alloc h1 (rd h x)) in *. clearbody h2.
  unfold fb_values, fb_inv; cbn [hf_heap hf_x_old hf_z_old hf_new hf_beta hf_lambda hf_rule hf_calls].
  rewrite <- N1. rewrite (proj1 (O2 (next h) ltac:(lia))), R1, R2. split; [reflexivity|]. split.
  - repeat split; try lia; try assumption. rewrite (proj2 (O2 (next h) ltac:(lia))). exact W1.
  - eapply keeps_trans; eauto.
Qed.
End FB.

Section GFB.
Context {H : ips}.
Variables (grad : H -> H) (kg : nat) (gop : hop H).
Hypothesis Cg : computes kg false (fn grad) gop.

(** the proximity operators, with the functions they compute and their numbers *)
Definition prox_ok (F : H -> R -> H) (p : R -> hop H) : Prop :=
  exists kp, kp <> kg /\ forall f, computes kp true (fn (fun v => F v f)) (p f).

Lemma gfb_loop_spec proxs pops : Forall2 prox_ok proxs pops ->
  forall ws zs x g gamma lam (h : heap H),
  x < next h -> g < next h -> own h x = Alg -> g = x \/ own h g = Oper kg ->
  Forall (fun z => z < next h /\ own h z = Alg /\ z <> x) zs -> NoDup zs ->
  List.length ws = List.length pops -> List.length zs = List.length pops ->
  let h' := h_gfb_loop x g gamma lam pops ws zs h in
  next h <= next h' /\
  (forall q, q < next h -> own h' q = own h q) /\
  (forall q, q < next h -> own h q = Caller \/ own h q = Alg \/ own h q = Oper kg -> ~ In q zs -> rd h' q = rd h q) /\
  map (rd h') zs =
    map2 (fun (pw : (H -> R -> H) * R) z_i =>
      (z_i + lam * (fst pw (2 * rd h x - z_i - gamma * rd h g) (gamma / snd pw)%R - rd h x))%v)
      (combine proxs ws) (map (rd h) zs).
Proof.
  induction 1 as [|F p Fs ps (kp & Kne & Cp) HF IH]; intros ws zs x g gamma lam h Hx Hg Ox Og Hz ND L1 L2.
  - destruct ws, zs; try discriminate. cbn. repeat split; auto.
  - destruct ws as [|w ws]; [discriminate|]. destruct zs as [|z zs]; [discriminate|].
    injection L1 as L1. injection L2 as L2. inversion Hz as [|? ? (Hz1 & Oz1 & Nz1) Hz']; subst.
    inversion ND as [|? ? NI ND']; subst. cbn [h_gfb_loop combine map map2 fst snd].
    set (v1 := (2 * rd h x - rd h z - gamma * rd h g)%v).
    destruct (alloc_spec h v1) as (N1 & R1 & W1 & O1). set (h1 := alloc h v1) in *. clearbody h1.
    destruct (computes_call _ _ _ (p (gamma / w)%R) h1 (next h) _ (Cp _) ltac:(lia) eq_refl)
      as (h2 & zp & -> & N2 & B2 & R2 & S2 & O2 & F2).
    assert (G2 : forall q, q < next h -> own h q <> Oper kp -> rd h2 q = rd h q).
    { intros q Hq Hk. rewrite F2; [| lia | rewrite (proj2 (O1 q Hq)); exact Hk | right; lia]. apply O1; exact Hq. }
    assert (OO2 : forall q, q < next h -> own h2 q = own h q).
    { intros q Hq. rewrite O2 by lia. apply O1; exact Hq. }
    assert (Kg : own h g <> Oper kp) by (destruct Og as [-> | Og]; congruence).
    rewrite (G2 z Hz1 ltac:(congruence)), (G2 x Hx ltac:(congruence)), R2, R1.
    set (v3 := (rd h z + lam * (F v1 (gamma / w)%R - rd h x))%v).
    destruct (wr_spec h2 z v3) as (N3 & R3 & O3 & F3). set (h3 := wr h2 z v3) in *. clearbody h3.
    assert (OO3 : forall q, q < next h -> own h3 q = own h q) by (intros q Hq; rewrite O3; auto).
    destruct (IH ws zs x g gamma lam h3) as (IN & IO & IR & IM); try lia; try assumption.
    { rewrite OO3 by lia. exact Ox. }
    { destruct Og as [-> | Og]; [left; reflexivity | right; rewrite OO3 by lia; exact Og]. }
    { rewrite Forall_forall in Hz' |- *. intros q Hq. destruct (Hz' q Hq) as (A & B & C).
      split; [lia|]. split; [rewrite OO3 by lia; exact B | exact C]. }
    set (h' := h_gfb_loop x g gamma lam ps ws zs h3) in *. clearbody h'.
    assert (G3 : forall q, q < next h -> own h q <> Oper kp -> q <> z -> rd h3 q = rd h q).
    { intros q Hq Hk Hne. rewrite F3 by exact Hne. apply G2; assumption. }
    split; [lia|]. split; [|split].
    + intros q Hq. rewrite IO by lia. apply OO3; exact Hq.
    + intros q Hq HO HN. cbn in HN. rewrite IR; [| lia | rewrite OO3 by lia; exact HO | tauto].
      apply G3; [exact Hq | destruct HO as [-> | [-> | ->]]; congruence | intros ->; tauto].
    + assert (Ez : rd h' z = v3).
      { rewrite IR; [exact R3 | lia | rewrite OO3 by lia; auto | exact NI]. }
      rewrite Ez. f_equal. rewrite IM.
      rewrite (G3 x Hx) by congruence.
      assert (Eg : rd h3 g = rd h g).
      { apply G3; [exact Hg | exact Kg | destruct Og as [-> | Og]; congruence]. }
      rewrite Eg. f_equal. apply map_ext_in. intros q Hq. rewrite Forall_forall in Hz'. destruct (Hz' q Hq) as (A & B & C).
      apply G3; [exact A | congruence | intros ->; contradiction].
Qed.

Variable proxs : list (H -> R -> H).
Variable pops : list (R -> hop H).
Hypothesis Cps : Forall2 prox_ok proxs pops.

Definition gfb_inv (s : h_gfb (H := H)) : Prop :=
  hg_x_old s < next (hg_heap s) /\ own (hg_heap s) (hg_x_old s) = Alg /\
  Forall (fun z => z < next (hg_heap s) /\ own (hg_heap s) z = Alg /\ z <> hg_x_old s) (hg_z s) /\ NoDup (hg_z s) /\
  List.length (hg_weights s) = List.length pops /\ List.length (hg_z s) = List.length pops.

Lemma gfb_step s : gfb_inv s ->
  gfb_values (h_gfb_update gop pops s) = gfb_update grad proxs (gfb_values s) /\
  gfb_inv (h_gfb_update gop pops s) /\ keeps (eq Caller) (hg_heap s) (hg_heap (h_gfb_update gop pops s)) /\
  hg_x_old (h_gfb_update gop pops s) = hg_x_old s /\ hg_z (h_gfb_update gop pops s) = hg_z s /\
  (exists x, hg_x_new (h_gfb_update gop pops s) = Some x /\ next (hg_heap s) <= x < next (hg_heap (h_gfb_update gop pops s)) /\
     own (hg_heap (h_gfb_update gop pops s)) x = Alg) /\
  (forall q, q < next (hg_heap s) -> own (hg_heap s) q = Alg -> q <> hg_x_old s -> ~ In q (hg_z s) ->
     rd (hg_heap (h_gfb_update gop pops s)) q = rd (hg_heap s) q).
Proof.
  destruct s as [h x xn zs ws ga la n gu lu]. unfold gfb_inv; cbn [hg_heap hg_x_old hg_z hg_weights].
  intros (Hx & Ox & Hz & ND & L1 & L2).
  unfold h_gfb_update; cbn [hg_heap hg_x_old hg_x_new hg_z hg_weights hg_gamma hg_lambda hg_calls hg_gamma_update hg_lambda_update].
  destruct (computes_call _ _ _ gop h x _ Cg Hx eq_refl) as (h1 & g & -> & N1 & B1 & R1 & S1 & O1 & F1).
  assert (Hz1 : Forall (fun z => z < next h1 /\ own h1 z = Alg /\ z <> x) zs).
  { rewrite Forall_forall in Hz |- *. intros q Hq. destruct (Hz q Hq) as (A & B & C). split; [lia|]. split; [rewrite O1 by lia; exact B | exact C]. }
  destruct (gfb_loop_spec proxs pops Cps ws zs x g ga la h1) as (N2 & O2 & F2 & M2); try assumption; try lia.
  { rewrite O1 by lia. exact Ox. }
  set (h2 := h_gfb_loop x g ga la pops ws zs h1) in *. clearbody h2.
  assert (Rx1 : rd h1 x = rd h x) by (apply F1; [exact Hx | congruence | left; reflexivity]).
  assert (Nx : ~ In x zs) by (intros I; rewrite Forall_forall in Hz; destruct (Hz x I) as (_ & _ & C); congruence).
  assert (Mz : map (rd h1) zs = map (rd h) zs).
  { apply map_ext_in. intros q Hq. rewrite Forall_forall in Hz. destruct (Hz q Hq) as (A & B & C).
    apply F1; [exact A | congruence | left; reflexivity]. }
  rewrite R1, Rx1, Mz in M2. rewrite M2.
  set (z' := map2 _ (combine proxs ws) (map (rd h) zs)) in *.
  set (v3 := vsum_list (map2 (fun z_i w_i => (w_i * z_i)%v) z' ws)). cbv zeta.
  destruct (alloc_spec h2 v3) as (N3 & R3 & W3 & O3). set (h3 := alloc h2 v3) in *. clearbody h3. rewrite R3.
  destruct (wr_spec h3 x v3) as (N4 & R4 & O4 & F4). set (h4 := wr h3 x v3) in *. clearbody h4.
  unfold gfb_values; cbn [hg_heap hg_x_old hg_x_new hg_z hg_weights hg_gamma hg_lambda hg_calls hg_gamma_update hg_lambda_update].
  assert (OO4 : forall q, q < next h -> own h4 q = own h q).
  { intros q Hq. rewrite O4, (proj2 (O3 q ltac:(lia))), O2, O1 by lia. reflexivity. }
  assert (Mz4 : map (rd h4) zs = z').
  { rewrite <- M2. apply map_ext_in. intros q Hq. rewrite Forall_forall in Hz. destruct (Hz q Hq) as (A & B & C).
    rewrite F4 by exact C. apply O3; lia. }
  split; [|split; [|split; [|split; [|split; [|split]]]]].
  - rewrite R4, (F4 (next h2)), R3, Mz4 by lia. unfold gfb_update; cbn [g_x_old g_z g_weights g_gamma g_lambda g_calls g_gamma_update g_lambda_update].
    reflexivity.
  - repeat split; try lia; try assumption; [rewrite OO4 by lia; exact Ox|].
    rewrite Forall_forall in Hz |- *. intros q Hq. destruct (Hz q Hq) as (A & B & C). split; [lia|]. split; [rewrite OO4 by lia; exact B | exact C].
  - split; [lia|]. intros q Hq. split; [apply OO4; exact Hq|]. intros HC.
    rewrite F4 by (intros ->; congruence). rewrite (proj1 (O3 q ltac:(lia))).
    rewrite F2; [| lia | rewrite O1 by lia; auto | intros I; rewrite Forall_forall in Hz; destruct (Hz q I) as (_ & B & _); congruence].
    apply F1; [exact Hq | congruence | left; reflexivity].
  - reflexivity.
  - reflexivity.
  - exists (next h2). split; [reflexivity|]. split; [lia|]. rewrite O4. exact W3.
  - intros q Hq HA Hne HN. rewrite F4 by exact Hne. rewrite (proj1 (O3 q ltac:(lia))).
    rewrite F2; [| lia | rewrite O1 by lia; auto | exact HN]. apply F1; [exact Hq | congruence | left; reflexivity].
Qed.

Lemma gfb_steps n s : gfb_inv s ->
  gfb_values (h_gfb_after gop pops n s) = gfb_after grad proxs n (gfb_values s) /\
  gfb_inv (h_gfb_after gop pops n s) /\ keeps (eq Caller) (hg_heap s) (hg_heap (h_gfb_after gop pops n s)) /\
  hg_x_old (h_gfb_after gop pops n s) = hg_x_old s /\ hg_z (h_gfb_after gop pops n s) = hg_z s /\
  (forall q, q < next (hg_heap s) -> own (hg_heap s) q = Alg -> q <> hg_x_old s -> ~ In q (hg_z s) ->
     rd (hg_heap (h_gfb_after gop pops n s)) q = rd (hg_heap s) q).
Proof.
  intros I. induction n as [|n (E & J & K & X & Z & F)].
  { split; [reflexivity|]. split; [exact I|]. split; [apply keeps_refl|]. auto. }
  change (h_gfb_after gop pops (S n) s) with (h_gfb_update gop pops (h_gfb_after gop pops n s)).
  change (gfb_after grad proxs (S n) (gfb_values s)) with (gfb_update grad proxs (gfb_after grad proxs n (gfb_values s))).
  destruct (gfb_step _ J) as (E' & J' & K' & X' & Z' & _ & F'). rewrite E', E, X', Z'.
  split; [reflexivity|]. split; [exact J'|]. split; [eapply keeps_trans; eauto|]. split; [exact X|]. split; [exact Z|].
  intros q Hq HA Hne HN. rewrite F'; [apply F; assumption | | | congruence | congruence].
  - destruct K; lia.
  - destruct K as [_ K]. destruct (K q Hq) as [-> _]. exact HA.
Qed.

Lemma alloc_n_spec n : forall (h : heap H) v,
  let '(h', l) := alloc_n n h v in
  next h <= next h' /\ List.length l = n /\ NoDup l /\
  Forall (fun z => next h <= z < next h' /\ own h' z = Alg /\ rd h' z = v) l /\
  (forall q, q < next h -> rd h' q = rd h q /\ own h' q = own h q).
Proof.
  induction n as [|n IH]; intros h v; cbn [alloc_n].
  - repeat split; auto; constructor.
  - specialize (IH (alloc h v) v). destruct (alloc_n n (alloc h v) v) as [h' l]. destruct IH as (A & B & C & D & E).
    destruct (alloc_spec h v) as (N1 & R1 & W1 & O1). split; [lia|]. split; [cbn; lia|]. split; [|split].
    + constructor; [|exact C]. intros I. rewrite Forall_forall in D. destruct (D _ I) as (X & _). lia.
    + constructor.
      * destruct (E (next h) ltac:(lia)) as (E1 & E2). repeat split; [lia | lia | congruence | congruence].
      * eapply Forall_impl; [|exact D]. cbn. intros z (X & Y & Z). repeat split; [lia | lia | exact Y | exact Z].
    + intros q Hq. destruct (E q ltac:(lia)) as (E1 & E2). destruct (O1 q Hq). split; congruence.
Qed.

Lemma gfb_start h x st ga la gu lu ws s0 : x < next h -> h_gfb_init pops h x st ga la gu lu ws = Ok s0 ->
  gfb_init proxs (rd h x) st ga la gu lu ws = Ok (gfb_values s0) /\ gfb_inv s0 /\ keeps (fun _ => True) h (hg_heap s0).
Proof.
  intros Hx. unfold h_gfb_init, gfb_init.
  assert (L : List.length proxs = List.length pops) by exact (Forall2_len _ _ _ Cps). rewrite L.
  destruct (gfb_weights (List.length pops) ws) as [w|] eqn:W; [|discriminate]. cbn [bind].
  assert (Lw : List.length w = List.length pops).
  { unfold gfb_weights in W. destruct (Nat.eqb_spec (List.length (match ws with None => repeat (1 / INR (List.length pops))%R (List.length pops) | Some w0 => w0 end)) (List.length pops)) as [Q|]; cbn [negb] in W; [|discriminate].
    destruct Req_EM_T; [|discriminate]. injection W as <-. exact Q. }
  destruct (alloc_spec h (rd h x)) as (N1 & R1 & W1 & O1).
  pose proof (keeps_alloc (fun _ => True) h (rd h x)) as K1. set (h1 := alloc h (rd h x)) in *. clearbody h1.
  pose proof (alloc_n_spec (List.length pops) h1 (rd h1 (next h))) as A.
  destruct (alloc_n (List.length pops) h1 (rd h1 (next h))) as [h2 zs]. destruct A as (N2 & Lz & ND & Hz & O2).
  intros E. injection E as <-. unfold gfb_values, gfb_inv;
    cbn [hg_heap hg_x_old hg_x_new hg_z hg_weights hg_gamma hg_lambda hg_calls hg_gamma_update hg_lambda_update].
  rewrite (proj1 (O2 (next h) ltac:(lia))), R1. split; [|split].
  - f_equal. f_equal. rewrite <- Lz. clear - Hz R1. induction Hz as [|z l (A & B & C) Hz IH]; [reflexivity|]. cbn. congruence.
  - split; [lia|]. split; [rewrite (proj2 (O2 (next h) ltac:(lia))); exact W1|]. split; [|auto].
    eapply Forall_impl; [|exact Hz]. cbn. intros z (A & B & C). repeat split; [lia | exact B | lia].
  - eapply keeps_trans; [exact K1|]. split; [lia|]. intros q Hq. destruct (O2 q Hq). auto.
Qed.
End GFB.

Section POGM.
Context {H : ips}.
Variables (grad : H -> H) (prox : H -> R -> H).
Variables (kg kp : nat) (gop : hop H) (pop : R -> hop H).
Hypothesis Kne : kg <> kp.
Hypothesis Cg : creates kg (fn grad) gop.
Hypothesis Cp : forall f, computes kp false (fn (fun v => prox v f)) (pop f).

Lemma creates_call (h : heap H) r : r < next h ->
  exists h' r', gop h r = (h', r') /\ next h <= r' < next h' /\ rd h' r' = grad (rd h r) /\ own h' r' = Oper kg /\
  (forall q, q < next h -> own h' q = own h q /\ rd h' q = rd h q).
Proof.
  clear Kne. intros Hr. pose proof (Cg h r _ Hr eq_refl) as C. destruct (gop h r) as [h' r']. destruct C as (A & B & E & D).
  exists h', r'. repeat split; auto; try lia; apply E; assumption.
Qed.

Definition pogm_inv (s : h_pogm (H := H)) : Prop :=
  let h := hp_heap s in
  (hp_u s < next h /\ own h (hp_u s) = Alg) /\ (hp_x s < next h /\ own h (hp_x s) = Alg) /\
  (hp_y s < next h /\ own h (hp_y s) = Alg) /\ (hp_z s < next h /\ own h (hp_z s) = Alg) /\
  (hp_g s < next h /\ own h (hp_g s) = Oper kg) /\
  hp_u s <> hp_x s /\ hp_u s <> hp_y s /\ hp_x s <> hp_y s.

Lemma pogm_step s : pogm_inv s ->
  pogm_values (h_pogm_update gop pop s) = pogm_update grad prox (pogm_values s) /\
  pogm_inv (h_pogm_update gop pop s) /\ keeps (eq Caller) (hp_heap s) (hp_heap (h_pogm_update gop pop s)).
Proof.
  destruct s as [h u x y z0 g0 t sg xi be sb xn0]. unfold pogm_inv; cbn [hp_heap hp_u hp_x hp_y hp_z hp_g].
  intros ((Hu & Ou) & (Hx & Ox) & (Hy & Oy) & (Hz & Oz) & (Hg & Og) & D1 & D2 & D3).
  unfold h_pogm_update; cbn [hp_heap hp_u hp_x hp_y hp_z hp_g hp_t hp_sigma hp_xi hp_beta hp_sigma_bar].
  destruct (creates_call h x Hx) as (h1 & gr & -> & N1 & R1 & S1 & O1).
  set (v2 := ((- be) * rd h1 gr + rd h1 x)%v). cbv zeta.
  destruct (alloc_spec h1 v2) as (N2 & R2 & W2 & O2). set (h2 := alloc h1 v2) in *. clearbody h2.
  set (un := next h1) in *.
  set (t_new := (/ 2 * (1 + sqrt (1 + 4 * t ^ 2)))%R). set (ts := ((t - 1) / t_new)%R). set (st := (sg * t / t_new)%R).
  set (bx := (ts * be / xi)%R). set (xi' := (be * (1 + ts + st))%R).
  set (v3 := ((- bx) * (rd h2 x - rd h2 z0) + rd h2 un + ts * (rd h2 un - rd h2 u) + st * (rd h2 un - rd h2 x))%v).
  destruct (alloc_spec h2 v3) as (N3 & R3 & W3 & O3). set (h3 := alloc h2 v3) in *. clearbody h3.
  set (zr := next h2) in *.
  destruct (computes_call _ _ _ (pop xi') h3 zr _ (Cp xi') ltac:(lia) eq_refl) as (h4 & xn & -> & N4 & B4 & R4 & S4 & O4 & F4).
  assert (T : forall q, q < next h -> rd h2 q = rd h q /\ own h2 q = own h q).
  { intros q Hq. destruct (O1 q Hq) as [A1 A2]. destruct (O2 q ltac:(lia)) as [A3 A4]. split; congruence. }
  assert (T3 : forall q, q < next h -> rd h3 q = rd h q /\ own h3 q = own h q).
  { intros q Hq. destruct (T q Hq) as [A1 A2]. destruct (O3 q ltac:(lia)) as [A3 A4]. split; congruence. }
  assert (G4 : forall q, q < next h3 -> own h3 q <> Oper kp -> rd h4 q = rd h3 q) by (intros; apply F4; auto).
  assert (T4 : forall q, q < next h -> own h q <> Oper kp -> rd h4 q = rd h q).
  { intros q Hq Hk. destruct (T3 q Hq) as [A1 A2]. rewrite G4; [exact A1 | lia | congruence]. }
  assert (E2 : v2 = ((- be) * grad (rd h x) + rd h x)%v).
  { unfold v2. rewrite R1, (proj2 (O1 x Hx)). reflexivity. }
  assert (E3 : v3 = ((- bx) * (rd h x - rd h z0) + v2 + ts * (v2 - rd h u) + st * (v2 - rd h x))%v).
  { unfold v3. rewrite R2, (proj1 (T x Hx)), (proj1 (T u Hu)), (proj1 (T z0 Hz)). reflexivity. }
  clearbody v2 v3.
  assert (Z4 : rd h4 zr = v3) by (rewrite G4; [exact R3 | lia | congruence]).
  assert (U4 : rd h4 un = v2).
  { rewrite G4; [rewrite (proj1 (O3 un ltac:(lia))); exact R2 | lia | rewrite (proj2 (O3 un ltac:(lia))); congruence]. }
  assert (GR4 : rd h4 gr = grad (rd h x)).
  { rewrite G4; [| lia | rewrite (proj2 (O3 gr ltac:(lia))), (proj2 (O2 gr ltac:(lia))); congruence].
    rewrite (proj1 (O3 gr ltac:(lia))), (proj1 (O2 gr ltac:(lia))). exact R1. }
  assert (X4 : rd h4 x = rd h x) by (apply T4; [exact Hx | congruence]).
  assert (R4' : rd h4 xn = prox v3 xi') by (rewrite R4, R3; reflexivity).
  assert (Nxn : own h4 xn <> Alg \/ xn = zr).
  { destruct S4 as [-> | S4]; [right; reflexivity | left; congruence]. }
  rewrite Z4, R4', GR4.
  set (v5 := ((/ xi') * (v3 - prox v3 xi') + grad (rd h x))%v).
  destruct (alloc_spec h4 v5) as (N5 & R5 & W5 & O5). set (h5 := alloc h4 v5) in *. clearbody h5.
  set (gn := next h4) in *. rewrite R5, (proj1 (O5 x ltac:(lia))), X4.
  set (v6 := ((- be) * v5 + rd h x)%v).
  destruct (alloc_spec h5 v6) as (N6 & R6 & W6 & O6). set (h6 := alloc h5 v6) in *. clearbody h6.
  set (yn := next h5) in *.
  assert (P6 : forall q, q < next h4 -> rd h6 q = rd h4 q /\ own h6 q = own h4 q).
  { intros q Hq. destruct (O5 q Hq), (O6 q ltac:(lia)). split; congruence. }
  assert (GN6 : rd h6 gn = v5) by (rewrite (proj1 (O6 gn ltac:(lia))); exact R5).
  assert (Y6 : rd h6 y = rd h y) by (rewrite (proj1 (P6 y ltac:(lia))); apply T4; [exact Hy | congruence]).
  assert (G6 : rd h6 g0 = rd h g0) by (rewrite (proj1 (P6 g0 ltac:(lia))); apply T4; [exact Hg | congruence]).
  assert (U6 : rd h6 un = v2) by (rewrite (proj1 (P6 un ltac:(lia))); exact U4).
  assert (XN6 : rd h6 xn = prox v3 xi') by (rewrite (proj1 (P6 xn ltac:(lia))); exact R4').
  assert (Z6 : rd h6 zr = v3) by (rewrite (proj1 (P6 zr ltac:(lia))); exact Z4).
  rewrite GN6, R6, Y6, G6, U6.
  assert (OO6 : forall q, q < next h -> own h6 q = own h q).
  { intros q Hq. rewrite (proj2 (P6 q ltac:(lia))), O4 by lia. apply T3; exact Hq. }
  assert (OZ : own h6 zr = Alg).
  { rewrite (proj2 (P6 zr ltac:(lia))), O4 by lia. exact W3. }
  assert (XNu : forall q, q < next h -> own h q = Alg -> xn <> q).
  { intros q Hq Hk ->. destruct S4 as [-> | S4]; [lia|]. rewrite O4 in S4 by lia. rewrite (proj2 (T3 q Hq)) in S4. congruence. }
  assert (XNg : xn <> g0).
  { intros ->. destruct S4 as [-> | S4]; [lia|]. rewrite O4 in S4 by lia. rewrite (proj2 (T3 g0 Hg)) in S4. congruence. }
  assert (NG : u <> g0 /\ x <> g0 /\ y <> g0) by (repeat split; congruence). destruct NG as (NG1 & NG2 & NG3).
  set (ts2 := if Rlt_dec _ _ then (1%R, 1%R) else _).
  destruct (wr_spec h6 u v2) as (N7 & R7 & O7 & F7). set (h7 := wr h6 u v2) in *. clearbody h7.
  rewrite (F7 xn) by (apply XNu; assumption). rewrite XN6.
  destruct (wr_spec h7 x (prox v3 xi')) as (N8 & R8 & O8 & F8). set (h8 := wr h7 x (prox v3 xi')) in *. clearbody h8.
  rewrite (F8 gn), (F7 gn), GN6 by lia.
  destruct (wr_spec h8 g0 v5) as (N9 & R9 & O9 & F9). set (h9 := wr h8 g0 v5) in *. clearbody h9.
  rewrite (F9 yn), (F8 yn), (F7 yn), R6 by lia.
  destruct (wr_spec h9 y v6) as (N10 & R10 & O10 & F10). set (h10 := wr h9 y v6) in *. clearbody h10.
  assert (OO : forall q, q < next h -> own h10 q = own h q).
  { intros q Hq. rewrite O10, O9, O8, O7. apply OO6; exact Hq. }
  assert (Pv : pogm_update grad prox (mk_pogm (rd h u) (rd h x) (rd h y) (rd h z0) (rd h g0) t sg xi be sb
      (match xn0 with Some q => Some (rd h q) | None => None end)) =
    let '(t', sg') := ts2 in mk_pogm v2 (prox v3 xi') v6 v3 v5 t' sg' xi' be sb (Some (prox v3 xi'))).
  { unfold pogm_update; cbn [po_u po_x po_y po_z po_g po_t po_sigma po_xi po_beta po_sigma_bar po_x_new].
    fold t_new. fold ts. fold st. fold bx. fold xi'. rewrite <- E2. rewrite <- E3. fold v5. fold v6. reflexivity. }
  unfold pogm_values; cbn [hp_heap hp_u hp_x hp_y hp_z hp_g hp_t hp_sigma hp_xi hp_beta hp_sigma_bar hp_x_new]. rewrite Pv.
  destruct ts2 as [t' sg']. cbn [hp_heap hp_u hp_x hp_y hp_z hp_g hp_t hp_sigma hp_xi hp_beta hp_sigma_bar hp_x_new].
  split; [|split].
  - f_equal.
    + rewrite F10, F9, F8 by congruence. exact R7.
    + rewrite F10, F9 by congruence. exact R8.
    + exact R10.
    + rewrite F10, F9, F8, F7 by lia. exact Z6.
    + rewrite F10 by congruence. exact R9.
    + f_equal. rewrite F10, F9, F8, F7; [exact XN6 | | | |]; try (apply XNu; assumption). exact XNg.
  - rewrite (OO u Hu), (OO x Hx), (OO y Hy), (OO g0 Hg). repeat split; try assumption; try lia. rewrite O10, O9, O8, O7. exact OZ.
  - split; [lia|]. intros q Hq. split; [apply OO; exact Hq|]. intros HC.
    rewrite F10, F9, F8, F7 by (intros ->; congruence). rewrite (proj1 (P6 q ltac:(lia))). apply T4; [exact Hq | congruence].
Qed.

Lemma pogm_steps n s : pogm_inv s ->
  pogm_values (h_pogm_after gop pop n s) = pogm_after grad prox n (pogm_values s) /\
  pogm_inv (h_pogm_after gop pop n s) /\ keeps (eq Caller) (hp_heap s) (hp_heap (h_pogm_after gop pop n s)).
Proof.
  intros I. induction n as [|n (E & J & K)]; [split; [reflexivity|]; split; [exact I | apply keeps_refl]|].
  change (h_pogm_after gop pop (S n) s) with (h_pogm_update gop pop (h_pogm_after gop pop n s)).
  change (pogm_after grad prox (S n) (pogm_values s)) with (pogm_update grad prox (pogm_after grad prox n (pogm_values s))).
  destruct (pogm_step _ J) as (E' & J' & K'). rewrite E', E. split; [reflexivity|]. split; [exact J' | eapply keeps_trans; eauto].
Qed.

Lemma pogm_start h u x y z st be sb s0 : u < next h -> x < next h -> y < next h -> z < next h ->
  h_pogm_init gop h u x y z st be sb = Ok s0 ->
  pogm_init grad (rd h u) (rd h x) (rd h y) (rd h z) st be sb = Ok (pogm_values s0) /\ pogm_inv s0 /\
  keeps (fun _ => True) h (hp_heap s0).
Proof.
  clear Kne Cp. intros Hu Hx Hy Hz. unfold h_pogm_init, pogm_init.
  destruct (Rlt_dec sb 0); [discriminate|]. destruct (Rgt_dec sb 1); [discriminate|]. cbv zeta.
  destruct (alloc_spec h (rd h u)) as (N1 & R1 & W1 & O1). set (h1 := alloc h (rd h u)) in *. clearbody h1.
  rewrite (proj1 (O1 x Hx)).
  destruct (alloc_spec h1 (rd h x)) as (N2 & R2 & W2 & O2). set (h2 := alloc h1 (rd h x)) in *. clearbody h2.
  rewrite (proj1 (O2 y ltac:(lia))), (proj1 (O1 y Hy)).
  destruct (alloc_spec h2 (rd h y)) as (N3 & R3 & W3 & O3). set (h3 := alloc h2 (rd h y)) in *. clearbody h3.
  rewrite (proj1 (O3 z ltac:(lia))), (proj1 (O2 z ltac:(lia))), (proj1 (O1 z Hz)).
  destruct (alloc_spec h3 (rd h z)) as (N4 & R4 & W4 & O4). set (h4 := alloc h3 (rd h z)) in *. clearbody h4.
  destruct (creates_call h4 (next h1) ltac:(lia)) as (h5 & g & -> & N5 & R5 & S5 & O5).
  set (u' := next h) in *. set (x' := next h1) in *. set (y' := next h2) in *. set (z' := next h3) in *.
  intros E. injection E as <-.
  assert (U : rd h4 u' = rd h u /\ own h4 u' = Alg).
  { destruct (O4 u' ltac:(lia)), (O3 u' ltac:(lia)), (O2 u' ltac:(lia)). split; congruence. }
  assert (X : rd h4 x' = rd h x /\ own h4 x' = Alg).
  { destruct (O4 x' ltac:(lia)), (O3 x' ltac:(lia)). split; congruence. }
  assert (Y : rd h4 y' = rd h y /\ own h4 y' = Alg).
  { destruct (O4 y' ltac:(lia)). split; congruence. }
  unfold pogm_values, pogm_inv; cbn [hp_heap hp_u hp_x hp_y hp_z hp_g hp_t hp_sigma hp_xi hp_beta hp_sigma_bar hp_x_new].
  destruct (O5 u' ltac:(lia)) as [A1 A2]. destruct (O5 x' ltac:(lia)) as [A3 A4]. destruct (O5 y' ltac:(lia)) as [A5 A6].
  destruct (O5 z' ltac:(lia)) as [A7 A8].
  rewrite A2, A4, A6, A8, (proj1 U), (proj1 X), (proj1 Y), R4, R5, (proj1 X). split; [reflexivity|]. split.
  - rewrite A1, A3, A5, A7, (proj2 U), (proj2 X), (proj2 Y), W4, S5. repeat split; lia.
  - split; [lia|]. intros q Hq. destruct (O5 q ltac:(lia)), (O4 q ltac:(lia)), (O3 q ltac:(lia)), (O2 q ltac:(lia)), (O1 q Hq).
    split; [congruence | intros _; congruence].
Qed.
End POGM.
