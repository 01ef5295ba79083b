(** Proofs for C134: FastADMM on the heap of arrays. *)
From Verif Require Import NPReal Py IPS Model_SetUp Model_GD Model_ADMM Model_Heap Model_HeapGD Spec_Heap Proof_Heap Proof_Heap2 Proof_HeapGD.
From Coq Require Import List Arith Lia.
Import ListNotations.
Local Open Scope nat_scope.

Section FADMM.
Context {H : ips}.
Variables (A B : H -> H) (opti_H opti_G : H -> H -> H).
Variables (ka kb kh kg : nat) (aop bop : hop H) (b : nat) (hopti gopti : hop2 H) (bv : H).
Hypothesis Kab : ka <> kb.
Hypothesis Kah : ka <> kh.
Hypothesis Kag : ka <> kg.
Hypothesis Kbh : kb <> kh.
Hypothesis Kbg : kb <> kg.
Hypothesis Khg : kh <> kg.
Hypothesis CA : computes ka false (fn A) aop.
Hypothesis CB : computes kb false (fn B) bop.
Hypothesis CH : computes2 kh false opti_H hopti.
Variable ip : bool.
Hypothesis CG : computes2 kg ip opti_G gopti.

Definition mine (h : heap H) (q : nat) : Prop := q < next h /\ own h q = Alg.

Definition fadmm_inv (s : h_fadmm (H := H)) : Prop :=
  let h := hfa_heap s in
  mine h (hfa_u_old s) /\ mine h (hfa_v_old s) /\ mine h (hfa_mu_old s) /\ mine h (hfa_v_hat s) /\ mine h (hfa_mu_hat s) /\
  (b < next h /\ own h b = Caller /\ rd h b = bv) /\
  hfa_u_old s <> hfa_v_old s /\ hfa_u_old s <> hfa_mu_old s /\ hfa_v_old s <> hfa_mu_old s /\
  hfa_v_hat s <> hfa_u_old s /\ hfa_v_hat s <> hfa_mu_old s /\ hfa_mu_hat s <> hfa_u_old s /\ hfa_mu_hat s <> hfa_v_old s /\
  hfa_v_hat s <> hfa_mu_hat s /\ hfa_c_old s = PInf /\ ((0 < hfa_eta s)%R -> hfa_v_hat s <> hfa_v_old s).

(** All but _c_new, which only the restart test uses. *)
Definition forget_c (p : fadmm (H := H)) : fadmm (H := H) :=
  mk_fadmm (fa_u_old p) (fa_u_new p) (fa_v_old p) (fa_v_new p) (fa_mu_old p) (fa_mu_new p) (fa_v_hat p) (fa_mu_hat p)
    (fa_c_old p) (Fin 0) (fa_eta p) (fa_alpha_old p) (fa_alpha_new p) (fa_tau p) (fa_has_cost p).

Let upd := h_fadmm_update aop bop b hopti gopti.
Let pupd := fadmm_update A B bv opti_H opti_G.

Ltac blia := first [solve [repeat match goal with
  | X : _ <> _ |- _ => clear X | X : _ \/ _ |- _ => clear X | X : forall _, _ |- _ => clear X end; lia] | assumption].

Lemma fadmm_step s : fadmm_inv s ->
  match upd s with
  | Ok s' => exists p', pupd (fadmm_values s) = Ok p' /\ forget_c p' = forget_c (fadmm_values s') /\
      (ip = false -> p' = fadmm_values s') /\ fadmm_inv s' /\ keeps (eq Caller) (hfa_heap s) (hfa_heap s')
  | Err e => pupd (fadmm_values s) = Err e
  end.
Proof.
  destruct s as [h u u0 v v0 m m0 vh mh c0 c1 eta al0 al1 tau hc]. unfold fadmm_inv, mine; cbn [hfa_heap hfa_u_old hfa_v_old hfa_mu_old hfa_v_hat hfa_mu_hat].
  intros ((Hu & Ou) & (Hv & Ov) & (Hm & Om) & (Hvh & Ovh) & (Hmh & Omh) & (Hb & Ob & Vb) & D1 & D2 & D3 & D4 & D5 & D6 & D7 & D8 & E0 & D9). cbn [hfa_c_old] in E0. subst c0. cbn [hfa_eta] in D9.
  unfold upd, h_fadmm_update; cbn [hfa_heap hfa_u_old hfa_v_old hfa_mu_old hfa_v_hat hfa_mu_hat hfa_c_old hfa_eta hfa_alpha_old hfa_tau hfa_has_cost].
  destruct (computes_call _ _ _ bop h vh _ CB Hvh eq_refl) as (h1 & r1 & -> & N1 & B1 & R1 & S1 & O1 & F1). cbv zeta.
  assert (RR1 : forall q, q < next h -> held (own h q) -> rd h1 q = rd h q).
  { intros q Hq HP. apply F1; [exact Hq | destruct HP; congruence | auto]. }
  assert (hu : held (own h u)) by (right; exact Ou). assert (hv : held (own h v)) by (right; exact Ov).
  assert (hm : held (own h m)) by (right; exact Om). assert (hb : held (own h b)) by (left; exact Ob).
  assert (hvh : held (own h vh)) by (right; exact Ovh). assert (hmh : held (own h mh)) by (right; exact Omh).
  rewrite R1, (RR1 u Hu hu), (RR1 b Hb hb), Vb.
  set (w2 := (B (rd h vh) + rd h u - bv)%v).
  destruct (alloc_spec h1 w2) as (N2 & R2 & W2 & O2). set (h2 := alloc h1 w2) in *. clearbody h2.
  assert (OO2 : forall q, q < next h -> own h2 q = own h q) by (intros q Hq; rewrite (proj2 (O2 q ltac:(blia))), O1 by blia; reflexivity).
  assert (RR2 : forall q, q < next h -> held (own h q) -> rd h2 q = rd h q).
  { intros q Hq HP. rewrite (proj1 (O2 q ltac:(blia))). apply RR1; assumption. }
  destruct (call2 _ _ _ hopti h2 u (next h1) CH ltac:(blia) ltac:(blia)) as (h3 & un & -> & N3 & B3 & R3 & S3 & O3 & F3).
  rewrite R2, (RR2 u Hu hu) in R3.
  assert (OO3 : forall q, q < next h -> own h3 q = own h q) by (intros q Hq; rewrite O3 by blia; apply OO2; exact Hq).
  assert (RR3 : forall q, q < next h -> held (own h q) -> rd h3 q = rd h q).
  { intros q Hq HP. rewrite F3; [apply RR2; assumption | blia | rewrite OO2 by blia; destruct HP; congruence | auto | blia]. }
  assert (Un : (own h3 un = Alg \/ own h3 un = Oper kh) /\ (un = u \/ un <> v /\ un <> m) /\ un <> vh).
  { destruct S3 as [-> | [-> | S3]].
    - rewrite OO3 by blia. repeat split; auto.
    - split; [left; rewrite O3 by blia; exact W2 | split; [right; blia | blia]].
    - split; [auto|]. split; [right; split|]; intros ->; rewrite OO3 in S3 by blia; congruence. }
  destruct Un as (Un & Unv & Unh).
  set (uv := opti_H (rd h u) w2) in *.
  destruct (computes_call _ _ _ aop h3 un _ CA ltac:(blia) eq_refl) as (h4 & tm & -> & N4 & B4 & R4 & S4 & O4 & F4).
  rewrite R3 in R4.
  assert (OO4 : forall q, q < next h -> own h4 q = own h q) by (intros q Hq; rewrite O4 by blia; apply OO3; exact Hq).
  assert (RR4 : forall q, q < next h -> held (own h q) -> rd h4 q = rd h q).
  { intros q Hq HP. rewrite F4; [apply RR3; assumption | blia | rewrite OO3 by blia; destruct HP; congruence | auto]. }
  assert (U4 : rd h4 un = uv) by (rewrite F4; [exact R3 | blia | destruct Un; congruence | auto]).
  assert (OU4 : own h4 un = Alg \/ own h4 un = Oper kh) by (rewrite O4 by blia; exact Un).
  assert (OT4 : (own h4 tm = Alg \/ own h4 tm = Oper kh \/ own h4 tm = Oper ka) /\ tm <> vh).
  { destruct S4 as [-> | S4]; [tauto|]. split; [tauto|]. intros ->. rewrite OO4 in S4 by blia. congruence. }
  destruct OT4 as [OT4 Tvh].
  rewrite R4, (RR4 u Hu hu), (RR4 b Hb hb), Vb.
  set (w5 := (A uv + rd h u - bv)%v).
  destruct (alloc_spec h4 w5) as (N5 & R5 & W5 & O5). set (h5 := alloc h4 w5) in *. clearbody h5.
  destruct (call2 _ _ _ gopti h5 vh (next h4) CG ltac:(blia) ltac:(blia)) as (h6 & vn & -> & N6 & B6 & R6 & S6 & O6 & F6).
  assert (OO5 : forall q, q < next h -> own h5 q = own h q) by (intros q Hq; rewrite (proj2 (O5 q ltac:(blia))); apply OO4; exact Hq).
  rewrite R5, (proj1 (O5 vh ltac:(blia))), (RR4 vh Hvh hvh) in R6. set (vv := opti_G (rd h vh) w5) in *.
  assert (OO6 : forall q, q < next h -> own h6 q = own h q) by (intros q Hq; rewrite O6 by blia; apply OO5; exact Hq).
  assert (RR6 : forall q, q < next h -> held (own h q) -> ip = false \/ q <> vh -> rd h6 q = rd h q).
  { intros q Hq HP Nq. rewrite F6; [| blia | rewrite OO5 by blia; destruct HP; congruence | exact Nq | blia].
    rewrite (proj1 (O5 q ltac:(blia))). apply RR4; assumption. }
  assert (U6 : rd h6 un = uv).
  { rewrite F6; [| blia | rewrite (proj2 (O5 un ltac:(blia))); destruct OU4; congruence | auto | blia].
    rewrite (proj1 (O5 un ltac:(blia))). exact U4. }
  assert (T6 : rd h6 tm = A uv).
  { rewrite F6; [| blia | rewrite (proj2 (O5 tm ltac:(blia))); destruct OT4 as [|[|]]; congruence | auto | blia].
    rewrite (proj1 (O5 tm ltac:(blia))). exact R4. }
  assert (OU6 : own h6 un = Alg \/ own h6 un = Oper kh) by (rewrite O6, (proj2 (O5 un ltac:(blia))) by blia; exact OU4).
  assert (OT6 : own h6 tm = Alg \/ own h6 tm = Oper kh \/ own h6 tm = Oper ka) by (rewrite O6, (proj2 (O5 tm ltac:(blia))) by blia; exact OT4).
  assert (OV6 : (own h6 vn = Alg \/ own h6 vn = Oper kg) /\ vn <> u /\ vn <> m).
  { destruct S6 as [-> | [-> | S6]].
    - split; [left; rewrite OO6 by blia; exact Ovh | auto].
    - split; [left; rewrite O6 by blia; exact W5 | blia].
    - split; [right; exact S6|]. split; intros ->; rewrite OO6 in S6 by blia; congruence. }
  destruct OV6 as (OV6 & Vnu & Vnm).
  destruct (computes_call _ _ _ bop h6 vn _ CB ltac:(blia) eq_refl) as (h7 & r7 & -> & N7 & B7 & R7 & S7 & O7 & F7).
  rewrite R6 in R7.
  assert (G7 : forall q, q < next h6 -> own h6 q <> Oper kb -> rd h7 q = rd h6 q) by (intros; apply F7; auto).
  assert (RR7 : forall q, q < next h -> held (own h q) -> ip = false \/ q <> vh -> rd h7 q = rd h q).
  { intros q Hq HP Nq. rewrite G7; [apply RR6; assumption | blia | rewrite OO6 by blia; destruct HP; congruence]. }
  assert (T7 : rd h7 tm = A uv) by (rewrite G7; [exact T6 | blia | destruct OT6 as [|[|]]; congruence]).
  assert (U7 : rd h7 un = uv) by (rewrite G7; [exact U6 | blia | destruct OU6; congruence]).
  assert (V7 : rd h7 vn = vv) by (rewrite G7; [exact R6 | blia | destruct OV6; congruence]).
  assert (Bvh : b <> vh) by (intros ->; congruence).
  rewrite T7, R7, (RR7 mh Hmh hmh), (RR7 b Hb hb), Vb by auto.
  set (w8 := (rd h mh + (A uv + B vv - bv))%v).
  destruct (alloc_spec h7 w8) as (N8 & R8 & W8 & O8). set (h8 := alloc h7 w8) in *. clearbody h8.
  assert (A8 : forall q, q < next h7 -> rd h8 q = rd h7 q) by (intros; apply O8; assumption).
  rewrite R8, (A8 mh ltac:(blia)), (A8 vn ltac:(blia)), (A8 vh ltac:(blia)), V7, (RR7 mh Hmh hmh) by auto.
  set (w9 := (vv - rd h7 vh)%v).
  assert (Ew9 : ip = false -> w9 = (vv - rd h vh)%v) by (intros Ei; unfold w9; rewrite (RR7 vh Hvh hvh) by auto; reflexivity).
  clearbody w9.
  destruct (alloc_spec h8 w9) as (N9 & R9 & W9 & O9). set (h9 := alloc h8 w9) in *. clearbody h9.
  destruct (computes_call _ _ _ bop h9 (next h8) _ CB ltac:(blia) eq_refl) as (h10 & r10 & -> & N10 & B10 & R10 & S10 & O10 & F10).
  rewrite R9 in R10. rewrite R10.
  assert (OO9 : forall q, q < next h7 -> own h9 q = own h7 q) by (intros q Hq; rewrite (proj2 (O9 q ltac:(blia))); apply O8; exact Hq).
  assert (A10 : forall q, q < next h7 -> own h7 q <> Oper kb -> rd h10 q = rd h7 q).
  { intros q Hq Oq. rewrite F10; [| blia | rewrite OO9 by exact Hq; exact Oq | auto]. rewrite (proj1 (O9 q ltac:(blia))). apply A8; exact Hq. }
  assert (OO10 : forall q, q < next h -> own h10 q = own h q).
  { intros q Hq. rewrite O10, OO9, O7 by blia. apply OO6; exact Hq. }
  assert (RR10 : forall q, q < next h -> held (own h q) -> ip = false \/ q <> vh -> rd h10 q = rd h q).
  { intros q Hq HP Nq. rewrite A10; [apply RR7; assumption | blia | rewrite O7, OO6 by blia; destruct HP; congruence]. }
  assert (U10 : rd h10 un = uv) by (rewrite A10; [exact U7 | blia | rewrite O7 by blia; destruct OU6; congruence]).
  assert (V10 : rd h10 vn = vv) by (rewrite A10; [exact V7 | blia | rewrite O7 by blia; destruct OV6; congruence]).
  assert (M10 : rd h10 (next h7) = w8).
  { rewrite F10; [rewrite (proj1 (O9 (next h7) ltac:(blia))); exact R8 | blia | rewrite (proj2 (O9 (next h7) ltac:(blia))), W8; discriminate | auto]. }
  set (cn := (norm (w8 - rd h mh)%v + tau * norm (B w9))%R).
  unfold pupd, fadmm_update. set (wp := fadmm_values (mk_h_fadmm _ _ _ _ _ _ _ _ _ _ _ _ _ _ _ _)). unfold fadmm_values in wp; subst wp; cbn [hfa_heap hfa_u_old hfa_u_new hfa_v_old hfa_v_new hfa_mu_old hfa_mu_new hfa_v_hat hfa_mu_hat hfa_c_old hfa_c_new hfa_eta hfa_alpha_old hfa_alpha_new hfa_tau hfa_has_cost
    fa_u_old fa_v_old fa_mu_old fa_v_hat fa_mu_hat fa_eta fa_c_old fa_alpha_old fa_tau fa_has_cost].
  fold w2. fold uv. fold w5. fold vv. fold w8.
  set (cp := (norm (w8 - rd h mh)%v + tau * norm (B (vv - rd h vh)%v))%R).
  assert (Ecp : ip = false -> cp = cn) by (intros Ei; unfold cp, cn; rewrite (Ew9 Ei); reflexivity).
  clearbody cn cp. change (lt_scaled cp eta PInf) with (lt_scaled cn eta PInf).
  (* the two branches leave a heap h12 in which nothing the writes need has changed *)
  set (beta := ((1 + sqrt (1 + 4 * al0 ^ 2) - 1) / al0)%R).
  set (r12 := if lt_scaled cn eta PInf then _ else _).
  assert (E12 : exists h12 vh' mh', r12 = (h12, vh', mh', (if lt_scaled cn eta PInf then Fin cn else xdiv PInf eta), (if lt_scaled cn eta PInf then (1 + sqrt (1 + 4 * al0 ^ 2))%R else 1%R)) /\
    next h10 <= next h12 /\ (forall q, q < next h10 -> rd h12 q = rd h10 q /\ own h12 q = own h10 q) /\
    (if lt_scaled cn eta PInf then
       (next h10 <= vh' < next h12 /\ own h12 vh' = Alg /\ rd h12 vh' = (vv + beta * (vv - rd h v))%v) /\
       (next h10 <= mh' < next h12 /\ own h12 mh' = Alg /\ rd h12 mh' = (w8 + beta * (w8 - rd h m))%v) /\ vh' < mh'
     else vh' = v /\ mh' = m)).
  { unfold r12. destruct (lt_scaled cn eta PInf) eqn:Elt.
    - assert (Pe : (0 < eta)%R) by (cbn in Elt; destruct (Rlt_dec 0 eta); [assumption | discriminate]).
      assert (Nvh := D9 Pe). rewrite V10, (RR10 v Hv hv) by auto. fold beta. set (w11 := (vv + beta * (vv - rd h v))%v).
      destruct (alloc_spec h10 w11) as (N11 & R11 & W11 & O11). set (h11 := alloc h10 w11) in *. clearbody h11.
      assert (A11 : forall q, q < next h10 -> rd h11 q = rd h10 q) by (intros; apply O11; assumption).
      rewrite (A11 (next h7) ltac:(blia)), (A11 m ltac:(blia)), M10, (RR10 m Hm hm) by auto. set (w12 := (w8 + beta * (w8 - rd h m))%v).
      destruct (alloc_spec h11 w12) as (N12 & R12 & W12 & O12). set (h12 := alloc h11 w12) in *. clearbody h12.
      exists h12, (next h10), (next h11). split; [reflexivity|]. split; [blia|]. split.
      { intros q Hq. destruct (O12 q ltac:(blia)), (O11 q Hq). split; congruence. }
      destruct (O12 (next h10) ltac:(blia)) as [Z1 Z2].
      repeat split; try blia; congruence.
    - exists h10, v, m. repeat split; blia. }
  destruct E12 as (h12 & vh' & mh' & -> & N12 & A12 & Hat).
  assert (RR12 : forall q, q < next h -> held (own h q) -> ip = false \/ q <> vh -> rd h12 q = rd h q) by (intros q Hq HP Nq; rewrite (proj1 (A12 q ltac:(blia))); apply RR10; assumption).
  rewrite (proj1 (A12 un ltac:(blia))), U10.
  destruct (wr_spec h12 u uv) as (N13 & R13 & O13 & F13). set (h13 := wr h12 u uv) in *. clearbody h13.
  rewrite (F13 vn Vnu), (proj1 (A12 vn ltac:(blia))), V10.
  destruct (wr_spec h13 v vv) as (N14 & R14 & O14 & F14). set (h14 := wr h13 v vv) in *. clearbody h14.
  rewrite (F14 (next h7)), (F13 (next h7)), (proj1 (A12 (next h7) ltac:(blia))), M10 by blia.
  destruct (wr_spec h14 m w8) as (N15 & R15 & O15 & F15). set (h15 := wr h14 m w8) in *. clearbody h15.
  destruct hc; [reflexivity|].
  assert (OO15 : forall q, own h15 q = own h12 q) by (intros q; rewrite O15, O14, O13; reflexivity).
  assert (AA : forall q, q <> u -> q <> v -> q <> m -> rd h15 q = rd h12 q).
  { intros q Q1 Q2 Q3. rewrite F15, F14, F13 by assumption. reflexivity. }
  assert (Vu : rd h15 u = uv) by (rewrite F15, F14, R13 by assumption; reflexivity).
  assert (Vv : rd h15 v = vv) by (rewrite F15, R14 by assumption; reflexivity).
  assert (Vun : rd h15 un = uv).
  { destruct Unv as [-> | [Q1 Q2]]; [exact Vu|]. destruct (Nat.eq_dec un u) as [->|Q3]; [exact Vu|].
    rewrite AA, (proj1 (A12 un ltac:(blia))) by assumption. exact U10. }
  assert (Vvn : rd h15 vn = vv).
  { destruct (Nat.eq_dec vn v) as [->|Q]; [exact Vv|]. rewrite AA, (proj1 (A12 vn ltac:(blia))) by assumption. exact V10. }
  assert (Vmn : rd h15 (next h7) = w8) by (rewrite AA, (proj1 (A12 (next h7) ltac:(blia))) by blia; exact M10).
  assert (Ow : forall q, q < next h -> own h15 q = own h q) by (intros q Hq; rewrite OO15, (proj2 (A12 q ltac:(blia))); apply OO10; exact Hq).
  assert (KC : forall q, q < next h -> own h q = Caller -> rd h15 q = rd h q).
  { intros q Hq Oq. rewrite AA by congruence. apply RR12; [exact Hq | left; exact Oq | right; congruence]. }
  eexists. split; [reflexivity|].
  assert (EV : forall sv, sv = fadmm_values (mk_h_fadmm h15 u un v vn m (next h7) vh' mh' PInf (if lt_scaled cn eta PInf then Fin cn else xdiv PInf eta)
      eta al0 (if lt_scaled cn eta PInf then (1 + sqrt (1 + 4 * al0 ^ 2))%R else 1%R) tau false) ->
      sv = mk_fadmm uv uv vv vv w8 w8 (if lt_scaled cn eta PInf then vv + beta * (vv - rd h v) else vv)%v
        (if lt_scaled cn eta PInf then w8 + beta * (w8 - rd h m) else w8)%v PInf (if lt_scaled cn eta PInf then Fin cn else xdiv PInf eta)
        eta al0 (if lt_scaled cn eta PInf then (1 + sqrt (1 + 4 * al0 ^ 2))%R else 1%R) tau false).
  { intros sv ->. unfold fadmm_values; cbn [hfa_heap hfa_u_old hfa_u_new hfa_v_old hfa_v_new hfa_mu_old hfa_mu_new hfa_v_hat hfa_mu_hat hfa_c_old hfa_c_new hfa_eta hfa_alpha_old hfa_alpha_new hfa_tau hfa_has_cost].
    rewrite Vu, Vun, Vv, Vvn, R15, Vmn.
    destruct (lt_scaled cn eta PInf).
    + destruct Hat as ((Q1 & Q2 & Q3) & (Q4 & Q5 & Q6) & Q7). rewrite (AA vh'), (AA mh'), Q3, Q6 by blia. reflexivity.
    + destruct Hat as (-> & ->). rewrite Vv, R15. reflexivity. }
  rewrite (EV _ eq_refl). clear EV. split; [|split; [|split]].
  - destruct (lt_scaled cn eta PInf); reflexivity.
  - intros Ei. rewrite (Ecp Ei). destruct (lt_scaled cn eta PInf); reflexivity.
  - cbn [hfa_heap hfa_u_old hfa_v_old hfa_mu_old hfa_v_hat hfa_mu_hat hfa_c_old hfa_eta].
    assert (Mn : forall q, q < next h -> own h q = Alg -> q < next h15 /\ own h15 q = Alg) by (intros q Hq Oq; split; [blia | rewrite Ow by exact Hq; exact Oq]).
    assert (Mb : b < next h15 /\ own h15 b = Caller /\ rd h15 b = bv) by (split; [blia|]; split; [rewrite Ow by exact Hb; exact Ob | rewrite KC by assumption; exact Vb]).
    destruct (lt_scaled cn eta PInf) eqn:Elt.
    + destruct Hat as ((Q1 & Q2 & Q3) & (Q4 & Q5 & Q6) & Q7).
      repeat match goal with |- _ /\ _ => split end; try assumption; try (apply Mn; assumption); try (apply Mb); try blia; try reflexivity; try (intros _; blia); rewrite OO15; assumption.
    + destruct Hat as (-> & ->).
      repeat match goal with |- _ /\ _ => split end; try assumption; try (apply Mn; assumption); try (apply Mb); try blia; try reflexivity; try (apply not_eq_sym; assumption).
      intros Pe. exfalso. cbn in Elt. destruct (Rlt_dec 0 eta); [discriminate | contradiction].
  - cbn [hfa_heap]. split; [blia|]. intros q Hq. split; [apply Ow; exact Hq|]. intros Oq. apply KC; congruence.
Qed.

Lemma update_forgets p q : forget_c p = forget_c q -> pupd p = pupd q.
Proof.
  destruct p, q. unfold forget_c; cbn. intros E. injection E. intros. subst. reflexivity.
Qed.

Lemma fadmm_steps n s : fadmm_inv s ->
  match h_fadmm_after aop bop b hopti gopti n s with
  | Ok s' => exists p', fadmm_after A B bv opti_H opti_G n (fadmm_values s) = Ok p' /\ forget_c p' = forget_c (fadmm_values s') /\
      (ip = false -> p' = fadmm_values s') /\ fadmm_inv s' /\ keeps (eq Caller) (hfa_heap s) (hfa_heap s')
  | Err e => fadmm_after A B bv opti_H opti_G n (fadmm_values s) = Err e
  end.
Proof.
  intros J. induction n as [|n IH].
  { eexists. split; [reflexivity|]. repeat (split; [reflexivity || (intros _; reflexivity)|]). split; [exact J | apply keeps_refl]. }
  cbn [h_fadmm_after fadmm_after]. destruct (h_fadmm_after aop bop b hopti gopti n s) as [s1|e]; [|rewrite IH; reflexivity].
  destruct IH as (p1 & E & Ef & _ & J1 & K1). rewrite E. cbn [bind]. pose proof (fadmm_step s1 J1) as St. unfold upd in St.
  rewrite <- (update_forgets _ _ Ef) in St. unfold pupd in St.
  destruct (h_fadmm_update aop bop b hopti gopti s1) as [s2|e]; [|exact St].
  destruct St as (p2 & E2 & Ef2 & Ei & J2 & K2). exists p2. split; [exact E2|]. split; [exact Ef2|]. split; [exact Ei|].
  split; [exact J2 | eapply keeps_trans; eauto].
Qed.

Lemma fadmm_start h u mu hc alpha eta v tau : u < next h -> mu < next h -> b < next h -> own h b = Caller -> rd h b = bv ->
  let s0 := h_fadmm_init b h u mu hc alpha eta in
  fadmm_values s0 = fadmm_init bv (rd h u) v (rd h mu) hc alpha eta tau /\ fadmm_inv s0 /\ keeps (fun _ => True) h (hfa_heap s0).
Proof.
  clear Kab Kah Kag Kbh Kbg Khg. intros Hu Hm Hb Ob Vb. unfold h_fadmm_init; cbv zeta.
  destruct (alloc_spec h (rd h u)) as (N1 & R1 & W1 & O1). set (h1 := alloc h (rd h u)) in *. clearbody h1.
  rewrite (proj1 (O1 u Hu)).
  destruct (alloc_spec h1 (rd h u)) as (N2 & R2 & W2 & O2). set (h2 := alloc h1 (rd h u)) in *. clearbody h2.
  assert (P2 : forall q, q < next h -> rd h2 q = rd h q /\ own h2 q = own h q).
  { intros q Hq. destruct (O2 q ltac:(lia)), (O1 q Hq). split; congruence. }
  rewrite (proj1 (P2 b Hb)), Vb.
  destruct (alloc_spec h2 bv) as (N3 & R3 & W3 & O3). set (h3 := alloc h2 bv) in *. clearbody h3.
  rewrite (proj1 (O3 b ltac:(lia))), (proj1 (P2 b Hb)), Vb.
  destruct (alloc_spec h3 bv) as (N4 & R4 & W4 & O4). set (h4 := alloc h3 bv) in *. clearbody h4.
  rewrite (proj1 (O4 mu ltac:(lia))), (proj1 (O3 mu ltac:(lia))), (proj1 (P2 mu Hm)).
  destruct (alloc_spec h4 (rd h mu)) as (N5 & R5 & W5 & O5). set (h5 := alloc h4 (rd h mu)) in *. clearbody h5.
  rewrite (proj1 (O5 mu ltac:(lia))), (proj1 (O4 mu ltac:(lia))), (proj1 (O3 mu ltac:(lia))), (proj1 (P2 mu Hm)).
  destruct (alloc_spec h5 (rd h mu)) as (N6 & R6 & W6 & O6). set (h6 := alloc h5 (rd h mu)) in *. clearbody h6.
  rewrite (proj1 (O6 (next h3) ltac:(lia))), (proj1 (O5 (next h3) ltac:(lia))), R4.
  destruct (alloc_spec h6 bv) as (N7 & R7 & W7 & O7). set (h7 := alloc h6 bv) in *. clearbody h7.
  rewrite (proj1 (O7 (next h4) ltac:(lia))), (proj1 (O6 (next h4) ltac:(lia))), R5.
  destruct (alloc_spec h7 (rd h mu)) as (N8 & R8 & W8 & O8). set (h8 := alloc h7 (rd h mu)) in *. clearbody h8.
  assert (P8 : forall q, q < next h -> rd h8 q = rd h q /\ own h8 q = own h q).
  { intros q Hq. destruct (O8 q ltac:(lia)), (O7 q ltac:(lia)), (O6 q ltac:(lia)), (O5 q ltac:(lia)), (O4 q ltac:(lia)), (O3 q ltac:(lia)), (P2 q Hq). split; congruence. }
  assert (Q0 : rd h8 (next h) = rd h u /\ own h8 (next h) = Alg).
  { destruct (O8 (next h) ltac:(lia)), (O7 (next h) ltac:(lia)), (O6 (next h) ltac:(lia)), (O5 (next h) ltac:(lia)), (O4 (next h) ltac:(lia)), (O3 (next h) ltac:(lia)), (O2 (next h) ltac:(lia)). split; congruence. }
  assert (Q1 : rd h8 (next h1) = rd h u).
  { destruct (O8 (next h1) ltac:(lia)), (O7 (next h1) ltac:(lia)), (O6 (next h1) ltac:(lia)), (O5 (next h1) ltac:(lia)), (O4 (next h1) ltac:(lia)), (O3 (next h1) ltac:(lia)). congruence. }
  assert (Q2 : rd h8 (next h2) = bv /\ own h8 (next h2) = Alg).
  { destruct (O8 (next h2) ltac:(lia)), (O7 (next h2) ltac:(lia)), (O6 (next h2) ltac:(lia)), (O5 (next h2) ltac:(lia)), (O4 (next h2) ltac:(lia)). split; congruence. }
  assert (Q3 : rd h8 (next h3) = bv).
  { destruct (O8 (next h3) ltac:(lia)), (O7 (next h3) ltac:(lia)), (O6 (next h3) ltac:(lia)), (O5 (next h3) ltac:(lia)). congruence. }
  assert (Q4 : rd h8 (next h4) = rd h mu).
  { destruct (O8 (next h4) ltac:(lia)), (O7 (next h4) ltac:(lia)), (O6 (next h4) ltac:(lia)). congruence. }
  assert (Q5 : rd h8 (next h5) = rd h mu /\ own h8 (next h5) = Alg).
  { destruct (O8 (next h5) ltac:(lia)), (O7 (next h5) ltac:(lia)). split; congruence. }
  assert (Q6 : rd h8 (next h6) = bv /\ own h8 (next h6) = Alg).
  { destruct (O8 (next h6) ltac:(lia)). split; congruence. }
  unfold fadmm_values, fadmm_inv, mine; cbn [hfa_heap hfa_u_old hfa_u_new hfa_v_old hfa_v_new hfa_mu_old hfa_mu_new hfa_v_hat hfa_mu_hat hfa_c_old hfa_c_new hfa_eta hfa_alpha_old hfa_alpha_new hfa_tau hfa_has_cost].
  split; [|split].
  - rewrite (proj1 Q0), Q1, (proj1 Q2), Q3, (proj1 Q5), Q4, (proj1 Q6), R8. reflexivity.
  - destruct (P8 b Hb) as [Z1 Z2]. repeat match goal with |- _ /\ _ => split end; try lia; try assumption;
      first [apply Q0 | apply Q2 | apply Q5 | apply Q6 | congruence].
  - split; [lia|]. intros q Hq. destruct (P8 q Hq). auto.
Qed.
End FADMM.
