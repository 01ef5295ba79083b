(** Proofs for C124, continued: Condat and ADMM. *)
From Verif Require Import NPReal Py IPS Model_SetUp Model_FB Model_PD Model_ADMM Model_Heap Spec_Heap Proof_Heap.
From Coq Require Import List Arith Lia.
Import ListNotations.
Local Open Scope nat_scope.

Lemma rdH_inl {H K : ips} (h : heap (H + K)) r v : rd h r = inl v -> rdH h r = v.
Proof. unfold rdH. intros ->. reflexivity. Qed.
Lemma rdK_inr {H K : ips} (h : heap (H + K)) r v : rd h r = inr v -> rdK h r = v.
Proof. unfold rdK. intros ->. reflexivity. Qed.

Section Condat.
Context {H K : ips}.
Variables (grad : H -> H) (prox : H -> R -> H) (prox_dual : K -> R -> K) (lop : H -> K) (ladj : K -> H).
Variables (kg kp kd kl ka : nat) (gop hladj hlop : hop (H + K)) (pop dop : R -> hop (H + K)).
Hypothesis Kd : kp <> kd.
Hypothesis Kl : kp <> kl.
Hypothesis Cg : computes kg false (HtoH grad) gop.
Hypothesis Ca : computes ka false (KtoH ladj) hladj.
Hypothesis Cp : forall f, computes kp true (HtoH (fun v => prox v f)) (pop f).
Hypothesis Cl : computes kl true (HtoK lop) hlop.
Hypothesis Cd : forall f, computes kd true (KtoK (fun v => prox_dual v f)) (dop f).

Definition condat_inv (s : h_condat (H := H) (K := K)) : Prop :=
  let h := hc_heap s in
  (hc_x s < next h /\ own h (hc_x s) = Alg /\ exists v, rd h (hc_x s) = inl v) /\
  (hc_y s < next h /\ own h (hc_y s) = Alg /\ exists v, rd h (hc_y s) = inr v).

Let upd := h_condat_update gop pop dop hlop hladj.
Let pupd := condat_update (W := unit) grad prox (fun _ => prox_dual) lop ladj.

Lemma condat_step s : condat_inv s ->
  condat_values (upd s) = pupd (condat_values s) /\ condat_inv (upd s) /\
  keeps (eq Caller) (hc_heap s) (hc_heap (upd s)) /\ hc_x (upd s) = hc_x s /\ hc_y (upd s) = hc_y s /\
  (exists x y, hc_new (upd s) = Some (x, y) /\ next (hc_heap s) <= x < next (hc_heap (upd s)) /\
     next (hc_heap s) <= y < next (hc_heap (upd s)) /\ own (hc_heap (upd s)) x = Alg /\ own (hc_heap (upd s)) y = Alg) /\
  (forall q, q < next (hc_heap s) -> own (hc_heap s) q = Alg -> q <> hc_x s -> q <> hc_y s ->
     rd (hc_heap (upd s)) q = rd (hc_heap s) q).
Proof.
  destruct s as [h x y nw rho sg tau n ru su tu]. unfold condat_inv; cbn [hc_heap hc_x hc_y].
  intros ((Hx & Ox & xv & Vx) & (Hy & Oy & yv & Vy)).
  unfold upd, h_condat_update; cbn [hc_heap hc_x hc_y hc_rho hc_sigma hc_tau hc_calls hc_rho_update hc_sigma_update hc_tau_update].
  assert (Nxy : x <> y) by (intros ->; congruence).
  destruct (computes_call _ _ _ gop h x (inl (grad xv)) Cg Hx (ex_intro _ xv (conj Vx eq_refl))) as (h1 & g & -> & N1 & B1 & R1 & S1 & O1 & F1).
  assert (X1 : rd h1 x = inl xv) by (rewrite F1; auto; congruence).
  assert (Y1 : rd h1 y = inr yv) by (rewrite F1; auto; congruence).
  cbv zeta.
  destruct (computes_call _ _ _ hladj h1 y (inl (ladj yv)) Ca ltac:(lia) (ex_intro _ yv (conj Y1 eq_refl))) as (h2 & a & -> & N2 & B2 & R2 & S2 & O2 & F2).
  assert (Y2 : rd h2 y = inr yv) by (rewrite F2; auto; [lia | rewrite O1 by lia; congruence]).
  assert (X2 : rd h2 x = inl xv) by (rewrite F2; auto; [lia | rewrite O1 by lia; congruence]).
  rewrite (rdH_inl _ _ _ X1), (rdH_inl _ _ _ R1), (rdH_inl _ _ _ R2).
  set (v3 := (xv - tau * grad xv - tau * ladj yv)%v).
  destruct (alloc_spec h2 (inl v3)) as (N3 & R3 & W3 & O3). set (h3 := alloc h2 (inl v3)) in *. clearbody h3.
  destruct (computes_call _ _ _ (pop default_extra_factor) h3 (next h2) (inl (prox v3 default_extra_factor)) (Cp _) ltac:(lia)
     (ex_intro _ v3 (conj R3 eq_refl))) as (h4 & xp & -> & N4 & B4 & R4 & S4 & O4 & F4).
  set (xpv := prox v3 default_extra_factor) in *.
  assert (OO3 : forall q, q < next h -> own h3 q = own h q).
  { intros q Hq. rewrite (proj2 (O3 q ltac:(lia))), O2, O1 by lia. reflexivity. }
  assert (RR3 : forall q, q < next h -> held (own h q) -> rd h3 q = rd h q).
  { intros q Hq HP. rewrite (proj1 (O3 q ltac:(lia))). rewrite F2; [| lia | rewrite O1 by lia; destruct HP; congruence | auto].
    apply F1; [lia | destruct HP; congruence | auto]. }
  assert (RR4 : forall q, q < next h -> held (own h q) -> rd h4 q = rd h q).
  { intros q Hq HP. rewrite F4; [apply RR3; assumption | lia | rewrite OO3 by lia; destruct HP; congruence | right; lia]. }
  assert (Hox : held (own h x)) by (right; exact Ox). assert (Hoy : held (own h y)) by (right; exact Oy).
  pose proof (RR4 x Hx Hox) as X4. rewrite Vx in X4. rewrite (rdH_inl _ _ _ R4), (rdH_inl _ _ _ X4).
  set (v5 := (2 * xpv - xv)%v).
  destruct (alloc_spec h4 (inl v5)) as (N5 & R5 & W5 & O5). set (h5 := alloc h4 (inl v5)) in *. clearbody h5.
  destruct (computes_call _ _ _ hlop h5 (next h4) (inr (lop v5)) Cl ltac:(lia) (ex_intro _ v5 (conj R5 eq_refl)))
    as (h6 & l & -> & N6 & B6 & R6 & S6 & O6 & F6).
  assert (OO5 : forall q, q < next h -> own h5 q = own h q).
  { intros q Hq. rewrite (proj2 (O5 q ltac:(lia))), O4 by lia. apply OO3; exact Hq. }
  assert (RR6 : forall q, q < next h -> held (own h q) -> rd h6 q = rd h q).
  { intros q Hq HP. rewrite F6; [| lia | rewrite OO5 by lia; destruct HP; congruence | right; lia].
    rewrite (proj1 (O5 q ltac:(lia))). apply RR4; assumption. }
  (* x_prox belongs to kp or is the temporary passed to it *)
  assert (OP : own h5 xp = Oper kp \/ own h5 xp = Alg).
  { rewrite (proj2 (O5 xp ltac:(lia))). destruct S4 as [-> | S4]; [right; rewrite O4 by lia; exact W3 | left; exact S4]. }
  assert (P6 : rd h6 xp = inl xpv).
  { rewrite F6; [| lia | destruct OP; congruence | right; lia]. rewrite (proj1 (O5 xp ltac:(lia))). exact R4. }
  pose proof (RR6 y Hy Hoy) as Y6. rewrite Vy in Y6. rewrite (rdK_inr _ _ _ R6), (rdK_inr _ _ _ Y6).
  set (v7 := (yv + sg * lop v5)%v).
  destruct (alloc_spec h6 (inr v7)) as (N7 & R7 & W7 & O7). set (h7 := alloc h6 (inr v7)) in *. clearbody h7.
  rewrite (rdK_inr _ _ _ R7). set (yt := next h6) in *.
  set (v8 := (/ sg * v7)%v).
  destruct (alloc_spec h7 (inr v8)) as (N8 & R8 & W8 & O8). set (h8 := alloc h7 (inr v8)) in *. clearbody h8.
  destruct (computes_call _ _ _ (dop (1 / sg)%R) h8 (next h7) (inr (prox_dual v8 (1 / sg)%R)) (Cd _) ltac:(lia) (ex_intro _ v8 (conj R8 eq_refl)))
    as (h9 & q9 & -> & N9 & B9 & R9 & S9 & O9 & F9).
  assert (OO8 : forall q, q < next h -> own h8 q = own h q).
  { intros q Hq. rewrite (proj2 (O8 q ltac:(lia))), (proj2 (O7 q ltac:(lia))), O6 by lia. apply OO5; exact Hq. }
  assert (RR9 : forall q, q < next h -> held (own h q) -> rd h9 q = rd h q).
  { intros q Hq HP. rewrite F9; [| lia | rewrite OO8 by lia; destruct HP; congruence | right; lia].
    rewrite (proj1 (O8 q ltac:(lia))), (proj1 (O7 q ltac:(lia))). apply RR6; assumption. }
  assert (P9 : rd h9 xp = inl xpv).
  { rewrite F9; [| lia | | right; lia].
    - rewrite (proj1 (O8 xp ltac:(lia))), (proj1 (O7 xp ltac:(lia))). exact P6.
    - rewrite (proj2 (O8 xp ltac:(lia))), (proj2 (O7 xp ltac:(lia))), O6 by lia. destruct OP; congruence. }
  assert (T9 : rd h9 yt = inr v7).
  { rewrite F9; [| lia | rewrite (proj2 (O8 yt ltac:(lia))); congruence | right; lia]. rewrite (proj1 (O8 yt ltac:(lia))). exact R7. }
  rewrite (rdK_inr _ _ _ T9), (rdK_inr _ _ _ R9).
  set (v10 := (v7 - sg * prox_dual v8 (1 / sg)%R)%v).
  destruct (alloc_spec h9 (inr v10)) as (N10 & R10 & W10 & O10). set (h10 := alloc h9 (inr v10)) in *. clearbody h10.
  assert (P10 : rd h10 xp = inl xpv) by (rewrite (proj1 (O10 xp ltac:(lia))); exact P9).
  assert (X10 : rd h10 x = inl xv) by (rewrite (proj1 (O10 x ltac:(lia))), (RR9 x Hx Hox); exact Vx).
  rewrite (rdH_inl _ _ _ P10), (rdH_inl _ _ _ X10).
  set (v11 := (rho * xpv + (1 - rho) * xv)%v).
  destruct (alloc_spec h10 (inl v11)) as (N11 & R11 & W11 & O11). set (h11 := alloc h10 (inl v11)) in *. clearbody h11.
  assert (Q11 : rd h11 (next h9) = inr v10) by (rewrite (proj1 (O11 (next h9) ltac:(lia))); exact R10).
  assert (Y11 : rd h11 y = inr yv) by (rewrite (proj1 (O11 y ltac:(lia))), (proj1 (O10 y ltac:(lia))), (RR9 y Hy Hoy); exact Vy).
  rewrite (rdK_inr _ _ _ Q11), (rdK_inr _ _ _ Y11).
  set (v12 := (rho * v10 + (1 - rho) * yv)%v).
  destruct (alloc_spec h11 (inr v12)) as (N12 & R12 & W12 & O12). set (h12 := alloc h11 (inr v12)) in *. clearbody h12.
  rewrite (proj1 (O12 (next h10) ltac:(lia))), R11.
  destruct (wr_spec h12 x (inl v11)) as (N13 & R13 & O13 & F13). set (h13 := wr h12 x (inl v11)) in *. clearbody h13.
  rewrite (F13 (next h11)), R12 by lia.
  destruct (wr_spec h13 y (inr v12)) as (N14 & R14 & O14 & F14). set (h14 := wr h13 y (inr v12)) in *. clearbody h14.
  assert (OO : forall q, q < next h -> own h14 q = own h q).
  { intros q Hq. rewrite O14, O13, (proj2 (O12 q ltac:(lia))), (proj2 (O11 q ltac:(lia))), (proj2 (O10 q ltac:(lia))), O9 by lia. apply OO8; exact Hq. }
  assert (RR : forall q, q < next h -> held (own h q) -> q <> x -> q <> y -> rd h14 q = rd h q).
  { intros q Hq HP Q1 Q2. rewrite F14, F13 by assumption.
    rewrite (proj1 (O12 q ltac:(lia))), (proj1 (O11 q ltac:(lia))), (proj1 (O10 q ltac:(lia))). apply RR9; assumption. }
  unfold condat_values; cbn [hc_heap hc_x hc_y hc_new hc_rho hc_sigma hc_tau hc_calls hc_rho_update hc_sigma_update hc_tau_update].
  assert (X14 : rd h14 x = inl v11) by (rewrite F14 by exact Nxy; exact R13).
  assert (XN : rd h14 (next h10) = inl v11).
  { rewrite F14, F13 by lia. rewrite (proj1 (O12 (next h10) ltac:(lia))). exact R11. }
  assert (YN : rd h14 (next h11) = inr v12) by (rewrite F14, F13 by lia; exact R12).
  split; [|split; [|split; [|split; [|split; [|split]]]]].
  - unfold rdH, rdK. rewrite X14, R14, XN, YN, Vx, Vy. reflexivity.
  - rewrite (OO x Hx), (OO y Hy). repeat split; try lia; try assumption; eauto.
  - split; [lia|]. intros q Hq. split; [apply OO; exact Hq|]. intros HC.
    apply RR; [exact Hq | left; congruence | intros ->; congruence | intros ->; congruence].
  - reflexivity.
  - reflexivity.
  - exists (next h10), (next h11). split; [reflexivity|]. split; [lia|]. split; [lia|].
    rewrite !O14, !O13. rewrite (proj2 (O12 (next h10) ltac:(lia))). split; assumption.
  - intros q Hq HA Q1 Q2. apply RR; [exact Hq | right; exact HA | exact Q1 | exact Q2].
Qed.

Let aft n s := h_condat_after gop pop dop hlop hladj n s.
Let paft n s := condat_after (W := unit) grad prox (fun _ => prox_dual) lop ladj n s.

Lemma condat_steps n s : condat_inv s ->
  condat_values (aft n s) = paft n (condat_values s) /\ condat_inv (aft n s) /\
  keeps (eq Caller) (hc_heap s) (hc_heap (aft n s)) /\ hc_x (aft n s) = hc_x s /\ hc_y (aft n s) = hc_y s /\
  (forall q, q < next (hc_heap s) -> own (hc_heap s) q = Alg -> q <> hc_x s -> q <> hc_y s ->
     rd (hc_heap (aft n s)) q = rd (hc_heap s) q).
Proof.
  intros I. induction n as [|n (E & J & L & X & Y & F)].
  { split; [reflexivity|]. split; [exact I|]. split; [apply keeps_refl|]. auto. }
  change (aft (S n) s) with (upd (aft n s)).
  change (paft (S n) (condat_values s)) with (pupd (paft n (condat_values s))).
  destruct (condat_step _ J) as (E' & J' & L' & X' & Y' & _ & F'). rewrite E', E, X', Y'.
  split; [reflexivity|]. split; [exact J'|]. split; [eapply keeps_trans; eauto|]. split; [exact X|]. split; [exact Y|].
  intros q Hq HA Q1 Q2. rewrite F'; [apply F; assumption | | | congruence | congruence].
  - destruct L; lia.
  - destruct L as [_ L]. destruct (L q Hq) as [-> _]. exact HA.
Qed.

Lemma condat_start h x y xv yv st rho sg tau ru su tu : x < next h -> y < next h -> rd h x = inl xv -> rd h y = inr yv ->
  let s0 := h_condat_init h x y st rho sg tau ru su tu in
  condat_values s0 = condat_init xv yv tt st rho sg tau ru su tu /\ condat_inv s0 /\ keeps (fun _ => True) h (hc_heap s0).
Proof.
  clear Kd Kl. intros Hx Hy Vx Vy. unfold h_condat_init; cbv zeta.
  destruct (alloc_spec h (rd h x)) as (N1 & R1 & W1 & O1).
  pose proof (keeps_alloc (fun _ => True) h (rd h x)) as K1. set (h1 := alloc h (rd h x)) in *. clearbody h1.
  rewrite (proj1 (O1 y Hy)). destruct (alloc_spec h1 (rd h y)) as (N2 & R2 & W2 & O2).
  pose proof (keeps_alloc (fun _ => True) h1 (rd h y)) as K2. set (h2 := alloc h1 (rd h y)) in *. clearbody h2.
  unfold condat_values, condat_inv, condat_init, rdH, rdK;
    cbn [hc_heap hc_x hc_y hc_new hc_rho hc_sigma hc_tau hc_calls hc_rho_update hc_sigma_update hc_tau_update].
  destruct (O2 (next h) ltac:(lia)) as [A1 A2]. rewrite A1, A2, R1, R2, Vx, Vy. split; [reflexivity|]. split.
  - repeat split; try lia; try assumption; eauto.
  - eapply keeps_trans; eauto.
Qed.
End Condat.

Section ADMM.
Context {H : ips}.
Variables (A B : H -> H) (opti_H opti_G : H -> H -> H).
Variables (ka kb kh kg : nat) (aop bop : hop H) (b : nat) (hopti gopti : hop2 H) (bv : H).
Hypothesis Kab : ka <> kb.
Hypothesis Kah : ka <> kh.
Hypothesis Kag : ka <> kg.
Hypothesis Kbh : kb <> kh.
Hypothesis Kbg : kb <> kg.
Hypothesis Khg : kh <> kg.
Hypothesis CA : computes ka false (fn A) aop.
Hypothesis CB : computes kb false (fn B) bop.
Hypothesis CH : computes2 kh false opti_H hopti.
Hypothesis CG : computes2 kg true opti_G gopti.

Lemma computes2_call k ip F (op : hop2 H) h i o :
  computes2 k ip F op -> i < next h -> o < next h ->
  exists h' r', op h i o = (h', r') /\ next h <= next h' /\ r' < next h' /\ rd h' r' = F (rd h i) (rd h o) /\
  (r' = i \/ r' = o \/ own h' r' = Oper k) /\
  (forall q, q < next h -> own h' q = own h q) /\
  (forall q, q < next h -> own h q <> Oper k -> ip = false \/ q <> i -> q <> o -> rd h' q = rd h q).
Proof.
  intros C Hi Ho. specialize (C h i o Hi Ho). destruct (op h i o) as [h' r']. destruct C as (X & Y & E & S & O & Nw).
  exists h', r'. repeat split; auto; intros q Hq; destruct (O q Hq); auto.
Qed.

Definition admm_inv (s : h_admm (H := H)) : Prop :=
  let h := ha_heap s in
  (ha_u_old s < next h /\ own h (ha_u_old s) = Alg) /\ (ha_v_old s < next h /\ own h (ha_v_old s) = Alg) /\
  (ha_mu_old s < next h /\ own h (ha_mu_old s) = Alg) /\ (b < next h /\ own h b = Caller /\ rd h b = bv) /\
  ha_u_old s <> ha_v_old s /\ ha_mu_old s <> ha_v_old s.

Let upd := h_admm_update aop bop b hopti gopti.
Let pupd := admm_update A B bv opti_H opti_G.

Lemma admm_step s : admm_inv s ->
  admm_values (upd s) = pupd (admm_values s) /\ admm_inv (upd s) /\ keeps (eq Caller) (ha_heap s) (ha_heap (upd s)).
Proof.
  destruct s as [h u u0 v v0 m m0]. unfold admm_inv; cbn [ha_heap ha_u_old ha_v_old ha_mu_old].
  intros ((Hu & Ou) & (Hv & Ov) & (Hm & Om) & (Hb & Ob & Vb) & D1 & D2).
  unfold upd, h_admm_update; cbn [ha_heap ha_u_old ha_v_old ha_mu_old].
  destruct (computes_call _ _ _ bop h v _ CB Hv eq_refl) as (h1 & r1 & -> & N1 & B1 & R1 & S1 & O1 & F1). cbv zeta.
  assert (RR1 : forall q, q < next h -> held (own h q) -> rd h1 q = rd h q).
  { intros q Hq HP. apply F1; [exact Hq | destruct HP; congruence | auto]. }
  assert (hu : held (own h u)) by (right; exact Ou). assert (hv : held (own h v)) by (right; exact Ov).
  assert (hm : held (own h m)) by (right; exact Om). assert (hb : held (own h b)) by (left; exact Ob).
  rewrite R1, (RR1 u Hu hu), (RR1 b Hb hb), Vb.
  set (w2 := (B (rd h v) + rd h u - bv)%v).
  destruct (alloc_spec h1 w2) as (N2 & R2 & W2 & O2). set (h2 := alloc h1 w2) in *. clearbody h2.
  assert (OO2 : forall q, q < next h -> own h2 q = own h q) by (intros q Hq; rewrite (proj2 (O2 q ltac:(lia))), O1 by lia; reflexivity).
  assert (RR2 : forall q, q < next h -> held (own h q) -> rd h2 q = rd h q).
  { intros q Hq HP. rewrite (proj1 (O2 q ltac:(lia))). apply RR1; assumption. }
  destruct (computes2_call _ _ _ hopti h2 u (next h1) CH ltac:(lia) ltac:(lia)) as (h3 & un & -> & N3 & B3 & R3 & S3 & O3 & F3).
  rewrite R2, (RR2 u Hu hu) in R3.
  assert (OO3 : forall q, q < next h -> own h3 q = own h q) by (intros q Hq; rewrite O3 by lia; apply OO2; exact Hq).
  assert (RR3 : forall q, q < next h -> held (own h q) -> rd h3 q = rd h q).
  { intros q Hq HP. rewrite F3; [apply RR2; assumption | lia | rewrite OO2 by lia; destruct HP; congruence | auto | lia]. }
  (* u_new: the array u_old, the temporary, or the optimizer's *)
  assert (Un : (own h3 un = Alg \/ own h3 un = Oper kh) /\ un <> v).
  { destruct S3 as [-> | [-> | S3]].
    - rewrite OO3 by lia. auto.
    - split; [left; rewrite O3 by lia; exact W2 | lia].
    - split; [auto|]. intros ->. rewrite OO3 in S3 by lia. congruence. }
  destruct Un as [Un Unv].
  set (uv := opti_H (rd h u) w2) in *.
  destruct (computes_call _ _ _ aop h3 un _ CA ltac:(lia) eq_refl) as (h4 & tm & -> & N4 & B4 & R4 & S4 & O4 & F4).
  rewrite R3 in R4.
  assert (OO4 : forall q, q < next h -> own h4 q = own h q) by (intros q Hq; rewrite O4 by lia; apply OO3; exact Hq).
  assert (RR4 : forall q, q < next h -> held (own h q) -> rd h4 q = rd h q).
  { intros q Hq HP. rewrite F4; [apply RR3; assumption | lia | rewrite OO3 by lia; destruct HP; congruence | auto]. }
  assert (U4 : rd h4 un = uv) by (rewrite F4; [exact R3 | lia | destruct Un; congruence | auto]).
  assert (OU4 : own h4 un = Alg \/ own h4 un = Oper kh) by (rewrite O4 by lia; exact Un).
  assert (OT4 : (own h4 tm = Alg \/ own h4 tm = Oper kh \/ own h4 tm = Oper ka) /\ tm <> v).
  { destruct S4 as [-> | S4]; [tauto|]. split; [tauto|]. intros ->. rewrite OO4 in S4 by lia. congruence. }
  destruct OT4 as [OT4 Tv].
  rewrite R4, (RR4 u Hu hu), (RR4 b Hb hb), Vb.
  set (w5 := (A uv + rd h u - bv)%v).
  destruct (alloc_spec h4 w5) as (N5 & R5 & W5 & O5). set (h5 := alloc h4 w5) in *. clearbody h5.
  destruct (computes2_call _ _ _ gopti h5 v (next h4) CG ltac:(lia) ltac:(lia)) as (h6 & vn & -> & N6 & B6 & R6 & S6 & O6 & F6).
  assert (OO5 : forall q, q < next h -> own h5 q = own h q) by (intros q Hq; rewrite (proj2 (O5 q ltac:(lia))); apply OO4; exact Hq).
  rewrite R5, (proj1 (O5 v ltac:(lia))), (RR4 v Hv hv) in R6. set (vv := opti_G (rd h v) w5) in *.
  assert (OO6 : forall q, q < next h -> own h6 q = own h q) by (intros q Hq; rewrite O6 by lia; apply OO5; exact Hq).
  assert (RR6 : forall q, q < next h -> held (own h q) -> q <> v -> rd h6 q = rd h q).
  { intros q Hq HP Nq. rewrite F6; [| lia | rewrite OO5 by lia; destruct HP; congruence | right; exact Nq | lia].
    rewrite (proj1 (O5 q ltac:(lia))). apply RR4; assumption. }
  assert (U6 : rd h6 un = uv).
  { rewrite F6; [| lia | rewrite (proj2 (O5 un ltac:(lia))); destruct OU4; congruence | right; exact Unv | lia].
    rewrite (proj1 (O5 un ltac:(lia))). exact U4. }
  assert (T6 : rd h6 tm = A uv).
  { rewrite F6; [| lia | rewrite (proj2 (O5 tm ltac:(lia))); destruct OT4 as [|[|]]; congruence | right; exact Tv | lia].
    rewrite (proj1 (O5 tm ltac:(lia))). exact R4. }
  assert (OU6 : own h6 un = Alg \/ own h6 un = Oper kh) by (rewrite O6, (proj2 (O5 un ltac:(lia))) by lia; exact OU4).
  assert (OT6 : own h6 tm = Alg \/ own h6 tm = Oper kh \/ own h6 tm = Oper ka) by (rewrite O6, (proj2 (O5 tm ltac:(lia))) by lia; exact OT4).
  assert (OV6 : own h6 vn = Alg \/ own h6 vn = Oper kg).
  { destruct S6 as [-> | [-> | S6]]; [left; rewrite OO6 by lia; exact Ov | left; rewrite O6 by lia; exact W5 | right; exact S6]. }
  destruct (computes_call _ _ _ bop h6 vn _ CB ltac:(lia) eq_refl) as (h7 & r7 & -> & N7 & B7 & R7 & S7 & O7 & F7).
  rewrite R6 in R7.
  assert (G7 : forall q, q < next h6 -> own h6 q <> Oper kb -> rd h7 q = rd h6 q) by (intros; apply F7; auto).
  assert (M7 : rd h7 m = rd h m).
  { rewrite G7; [apply RR6; assumption | lia | rewrite OO6 by lia; congruence]. }
  assert (T7 : rd h7 tm = A uv) by (rewrite G7; [exact T6 | lia | destruct OT6 as [|[|]]; congruence]).
  assert (Bv : b <> v) by (intros ->; congruence).
  assert (V7 : rd h7 b = bv).
  { rewrite G7; [rewrite (RR6 b Hb hb Bv); exact Vb | lia | rewrite OO6 by lia; congruence]. }
  rewrite M7, T7, R7, V7.
  set (w8 := (rd h m + (A uv + B vv - bv))%v).
  destruct (alloc_spec h7 w8) as (N8 & R8 & W8 & O8). set (h8 := alloc h7 w8) in *. clearbody h8.
  rewrite (proj1 (O8 un ltac:(lia))), (G7 un), U6; [| lia | destruct OU6; congruence].
  destruct (alloc_spec h8 uv) as (N9 & R9 & W9 & O9). set (h9 := alloc h8 uv) in *. clearbody h9.
  rewrite (proj1 (O9 vn ltac:(lia))), (proj1 (O8 vn ltac:(lia))), (G7 vn), R6; [| lia | destruct OV6; congruence].
  destruct (alloc_spec h9 vv) as (N10 & R10 & W10 & O10). set (h10 := alloc h9 vv) in *. clearbody h10.
  rewrite (proj1 (O10 (next h7) ltac:(lia))), (proj1 (O9 (next h7) ltac:(lia))), R8.
  destruct (alloc_spec h10 w8) as (N11 & R11 & W11 & O11). set (h11 := alloc h10 w8) in *. clearbody h11.
  assert (T : forall q, q < next h7 -> rd h11 q = rd h7 q /\ own h11 q = own h7 q).
  { intros q Hq. destruct (O11 q ltac:(lia)), (O10 q ltac:(lia)), (O9 q ltac:(lia)), (O8 q Hq). split; congruence. }
  assert (T8 : forall q, q < next h8 -> rd h11 q = rd h8 q /\ own h11 q = own h8 q).
  { intros q Hq. destruct (O11 q ltac:(lia)), (O10 q ltac:(lia)), (O9 q ltac:(lia)). split; congruence. }
  assert (KP : forall q, q < next h -> own h11 q = own h q /\ (Caller = own h q -> rd h11 q = rd h q)).
  { intros q Hq. destruct (T q ltac:(lia)) as [T1 T2]. split; [rewrite T2, O7 by lia; apply OO6; exact Hq|].
    intros HC. rewrite T1, G7; [| lia | rewrite OO6 by lia; congruence]. apply RR6; [exact Hq | left; congruence | intros ->; congruence]. }
  unfold admm_values; cbn [ha_heap ha_u_old ha_u_new ha_v_old ha_v_new ha_mu_old ha_mu_new].
  destruct (O11 (next h8) ltac:(lia)) as [Q1 Q2]. destruct (O10 (next h8) ltac:(lia)) as [Q3 Q4].
  destruct (O11 (next h9) ltac:(lia)) as [Q5 Q6].
  split; [|split].
  - unfold pupd, admm_update; cbn [ad_u_old ad_v_old ad_mu_old]. fold w2. fold uv. fold w5. fold vv. fold w8. f_equal.
    + congruence.
    + rewrite (proj1 (T un ltac:(lia))), G7; [exact U6 | lia | destruct OU6; congruence].
    + congruence.
    + rewrite (proj1 (T vn ltac:(lia))), G7; [exact R6 | lia | destruct OV6; congruence].
    + congruence.
    + rewrite (proj1 (T8 (next h7) ltac:(lia))). exact R8.
  - destruct (KP b Hb) as [KB1 KB2]. repeat split; try lia; try congruence. rewrite KB2 by congruence. exact Vb.
  - split; [lia | exact KP].
Qed.

Let aft n s := h_admm_after aop bop b hopti gopti n s.
Let paft n s := admm_after A B bv opti_H opti_G n s.

Lemma admm_steps n s : admm_inv s ->
  admm_values (aft n s) = paft n (admm_values s) /\ admm_inv (aft n s) /\ keeps (eq Caller) (ha_heap s) (ha_heap (aft n s)).
Proof.
  intros I. induction n as [|n (E & J & L)]; [split; [reflexivity|]; split; [exact I | apply keeps_refl]|].
  change (aft (S n) s) with (upd (aft n s)). change (paft (S n) (admm_values s)) with (pupd (paft n (admm_values s))).
  destruct (admm_step _ J) as (E' & J' & L'). rewrite E', E. split; [reflexivity|]. split; [exact J' | eapply keeps_trans; eauto].
Qed.

Lemma admm_start h u v mu : u < next h -> v < next h -> mu < next h -> b < next h -> own h b = Caller -> rd h b = bv ->
  let s0 := h_admm_init h u v mu in
  admm_values s0 = admm_init (rd h u) (rd h v) (rd h mu) /\ admm_inv s0 /\ keeps (fun _ => True) h (ha_heap s0).
Proof.
  clear Kab Kah Kag Kbh Kbg Khg. intros Hu Hv Hm Hb Ob Vb. unfold h_admm_init; cbv zeta.
  destruct (alloc_spec h (rd h u)) as (N1 & R1 & W1 & O1). set (h1 := alloc h (rd h u)) in *. clearbody h1.
  rewrite (proj1 (O1 u Hu)).
  destruct (alloc_spec h1 (rd h u)) as (N2 & R2 & W2 & O2). set (h2 := alloc h1 (rd h u)) in *. clearbody h2.
  assert (P2 : forall q, q < next h -> rd h2 q = rd h q /\ own h2 q = own h q).
  { intros q Hq. destruct (O2 q ltac:(lia)), (O1 q Hq). split; congruence. }
  rewrite (proj1 (P2 v Hv)).
  destruct (alloc_spec h2 (rd h v)) as (N3 & R3 & W3 & O3). set (h3 := alloc h2 (rd h v)) in *. clearbody h3.
  rewrite (proj1 (O3 v ltac:(lia))), (proj1 (P2 v Hv)).
  destruct (alloc_spec h3 (rd h v)) as (N4 & R4 & W4 & O4). set (h4 := alloc h3 (rd h v)) in *. clearbody h4.
  rewrite (proj1 (O4 mu ltac:(lia))), (proj1 (O3 mu ltac:(lia))), (proj1 (P2 mu Hm)).
  destruct (alloc_spec h4 (rd h mu)) as (N5 & R5 & W5 & O5). set (h5 := alloc h4 (rd h mu)) in *. clearbody h5.
  rewrite (proj1 (O5 mu ltac:(lia))), (proj1 (O4 mu ltac:(lia))), (proj1 (O3 mu ltac:(lia))), (proj1 (P2 mu Hm)).
  destruct (alloc_spec h5 (rd h mu)) as (N6 & R6 & W6 & O6). set (h6 := alloc h5 (rd h mu)) in *. clearbody h6.
  assert (P6 : forall q, q < next h -> rd h6 q = rd h q /\ own h6 q = own h q).
  { intros q Hq. destruct (O6 q ltac:(lia)), (O5 q ltac:(lia)), (O4 q ltac:(lia)), (O3 q ltac:(lia)), (P2 q Hq). split; congruence. }
  unfold admm_values, admm_inv, admm_init; cbn [ha_heap ha_u_old ha_u_new ha_v_old ha_v_new ha_mu_old ha_mu_new].
  destruct (O6 (next h) ltac:(lia)), (O5 (next h) ltac:(lia)), (O4 (next h) ltac:(lia)), (O3 (next h) ltac:(lia)), (O2 (next h) ltac:(lia)).
  destruct (O6 (next h1) ltac:(lia)), (O5 (next h1) ltac:(lia)), (O4 (next h1) ltac:(lia)), (O3 (next h1) ltac:(lia)).
  destruct (O6 (next h2) ltac:(lia)), (O5 (next h2) ltac:(lia)), (O4 (next h2) ltac:(lia)).
  destruct (O6 (next h3) ltac:(lia)), (O5 (next h3) ltac:(lia)). destruct (O6 (next h4) ltac:(lia)).
  destruct (P6 b Hb) as [Pb1 Pb2].
  split; [f_equal; congruence|]. split.
  - repeat split; try lia; try congruence.
  - split; [lia|]. intros q Hq. destruct (P6 q Hq). auto.
Qed.
End ADMM.
