(** C124: operators that return their argument, keep and reuse an array, or work in place. *)
From Verif Require Import NPReal Py IPS Model_SetUp Model_FB Model_PD Model_ADMM Model_Heap Spec_Heap Proof_Heap Proof_Heap2.
From Coq Require Import List Arith Lia Lra.
Import ListNotations.
Local Open Scope nat_scope.

Lemma iter_add {T} (f : T -> T) m n x : Nat.iter (m + n) f x = Nat.iter m f (Nat.iter n f x).
Proof. induction m as [|m IH]; [reflexivity|]. change (f (Nat.iter (m + n) f x) = f (Nat.iter m f (Nat.iter n f x))). rewrite IH. reflexivity. Qed.

(** The operators of Spec_Heap meet their contracts. *)
Lemma owner_eqb_eq o o' : owner_eqb o o' = true -> o = o'.
Proof. destruct o, o'; cbn; try discriminate; auto. intros E. apply Nat.eqb_eq in E. congruence. Qed.

Lemma op_new_ok {V} k (f : V -> V) : creates k (fn f) (op_new k f).
Proof.
  intros h r w Hr ->. unfold op_new, rd, own; cbn. rewrite Nat.eqb_refl. cbn.
  split; [lia|]. split; [reflexivity|]. split.
  - intros q Hq. destruct (Nat.eqb_spec q (next h)); [lia | auto].
  - intros q Hq. replace q with (next h) by lia. rewrite Nat.eqb_refl. reflexivity.
Qed.

Lemma creates_computes {V} k ip F (op : hop V) : creates k F op -> computes k ip F op.
Proof.
  intros C h r w Hr HF. specialize (C h r w Hr HF). destruct (op h r) as [h' r']. destruct C as (A & B & D & E).
  split; [lia|]. split; [lia|]. split; [exact B|]. split; [right; apply E; exact A|]. split; [|exact E].
  intros q Hq. destruct (D q Hq). auto.
Qed.

Lemma computes_weaken {V} k F (op : hop V) : computes k false F op -> computes k true F op.
Proof.
  intros C h r w Hr HF. specialize (C h r w Hr HF). destruct (op h r) as [h' r']. destruct C as (A & B & D & E & F' & G).
  repeat (split; [assumption|]). split; [|exact G]. intros q Hq. destruct (F' q Hq). auto.
Qed.

Lemma op_same_ok {V} k : computes k false (fn (fun v : V => v)) op_same.
Proof. intros h r w Hr ->. cbn. repeat split; auto; lia. Qed.

Lemma op_inplace_ok {V} k (f : V -> V) : computes k true (fn f) (op_inplace f).
Proof.
  intros h r w Hr ->. unfold op_inplace. destruct (wr_spec h r (f (rd h r))) as (N & R & O & F).
  split; [lia|]. split; [lia|]. split; [exact R|]. split; [auto|]. split.
  - intros q Hq. split; [apply O|]. intros _ [D | D]; [discriminate | apply F; exact D].
  - intros q Hq. lia.
Qed.

Lemma op_buffer_ok {V} k c (f : V -> V) : computes k false (fn f) (op_buffer k c f).
Proof.
  intros h r w Hr E. unfold op_buffer.
  destruct (Nat.ltb_spec c (next h)) as [L|L]; cbn [andb]; [|apply (creates_computes k false _ _ (op_new_ok k f)); assumption].
  destruct (owner_eqb (own h c) (Oper k)) eqn:Q; [|apply (creates_computes k false _ _ (op_new_ok k f)); assumption].
  apply owner_eqb_eq in Q. destruct (wr_spec h c (f (rd h r))) as (N & R & O & F).
  split; [lia|]. split; [lia|]. split; [rewrite R; symmetry; exact E|]. split; [right; rewrite O; exact Q|]. split.
  - intros q Hq. split; [apply O|]. intros D _. apply F. intros ->. contradiction.
  - intros q Hq. lia.
Qed.

Lemma op2_new_ok {V} k ip (f : V -> V -> V) : computes2 k ip f (op2_new k f).
Proof.
  intros h i o Hi Ho. pose proof (op_new_ok k (fun _ : V => f (rd h i) (rd h o)) h i _ Hi eq_refl) as C. unfold op2_new.
  destruct (op_new k _ h i) as [h' r']. destruct C as (A & B & D & E).
  split; [lia|]. split; [lia|]. split; [exact B|]. split; [right; right; apply E; exact A|]. split; [|exact E].
  intros q Hq. destruct (D q Hq). auto.
Qed.

Lemma op2_inplace_ok {V} k (f : V -> V -> V) : computes2 k true f (op2_inplace f).
Proof.
  intros h i o Hi Ho. unfold op2_inplace. destruct (wr_spec h i (f (rd h i) (rd h o))) as (N & R & O & F).
  split; [lia|]. split; [lia|]. split; [exact R|]. split; [auto|]. split.
  - intros q Hq. split; [apply O|]. intros _ [D | D] _; [discriminate | apply F; exact D].
  - intros q Hq. lia.
Qed.

(** * ForwardBackward: the gradient may return its argument or reuse an array, the proximity operator may
    also work in place; the run is the one of the functions they compute, and no array of the caller is
    written to. *)
Theorem C124_forward_backward : forall (H : ips) (grad : H -> H) (prox : H -> R -> H) kg kp gop pop
    (h : heap H) x step_size beta lambda beta_update lambda_update s0,
  computes kg false (fn grad) gop -> (forall f, computes kp true (fn (fun v => prox v f)) (pop f)) ->
  x < next h -> h_fb_init h x step_size beta lambda beta_update lambda_update = Ok s0 ->
  exists p0, fb_init (rd h x) step_size beta lambda beta_update lambda_update = Ok p0 /\
  forall n, fb_values (h_fb_after gop pop n s0) = fb_after grad prox n p0 /\
    keeps (eq Caller) h (hf_heap (h_fb_after gop pop n s0)).
Proof.
  intros H grad prox kg kp gop pop h x st be la bu lu s0 Cg Cp Hx E.
  destruct (fb_start h x st be la bu lu s0 Hx E) as (A & B & D). exists (fb_values s0). split; [exact A|]. intros n.
  destruct (fb_steps grad prox kg kp gop pop Cg Cp n s0 B) as (P & _ & Q). split; [exact P|].
  eapply keeps_trans; [apply keeps_all; exact D|]. apply (keeps_weaken held); [|exact Q]. unfold held. intros o <-. auto.
Qed.
Print Assumptions C124_forward_backward.

(** With a lambda_update given by the user, the array returned after n updates is never written to
    by later updates. *)
Theorem C124_forward_backward_result : forall (H : ips) (grad : H -> H) (prox : H -> R -> H) kg kp gop pop
    (h : heap H) x step_size beta lambda beta_update lu s0 n m xn zn,
  computes kg false (fn grad) gop -> (forall f, computes kp true (fn (fun v => prox v f)) (pop f)) ->
  x < next h -> h_fb_init h x step_size beta lambda beta_update (LCall lu) = Ok s0 ->
  hf_new (h_fb_after gop pop n s0) = Some (xn, zn) ->
  rd (hf_heap (h_fb_after gop pop (m + n) s0)) zn = rd (hf_heap (h_fb_after gop pop n s0)) zn.
Proof.
  intros H grad prox kg kp gop pop h x st be la bu lu s0 n m xn zn Cg Cp Hx E.
  destruct (fb_start h x st be la bu (LCall lu) s0 Hx E) as (_ & B & _).
  assert (U : forall k, exists bu' lu', hf_rule (h_fb_after gop pop k s0) = RUser bu' lu').
  { intros k. induction k as [|k (b1 & l1 & IH)].
    - injection E as <-. cbn. eauto.
    - change (h_fb_after gop pop (S k) s0) with (h_fb_update gop pop (h_fb_after gop pop k s0)).
      destruct (h_fb_after gop pop k s0) as [h1 x1 z1 n1 b' l' r1 c1]. cbn in IH. subst r1. unfold h_fb_update; cbn.
      destruct (gop h1 z1) as [h2 g]. destruct (pop b' _ _) as [h3 q]. cbn. eauto. }
  destruct n as [|n].
  { injection E as <-. discriminate. }
  change (h_fb_after gop pop (S n) s0) with (h_fb_update gop pop (h_fb_after gop pop n s0)).
  destruct (fb_steps grad prox kg kp gop pop Cg Cp n s0 B) as (_ & J & _). destruct (U n) as (b1 & l1 & Hr).
  set (s1 := h_fb_after gop pop n s0) in *.
  assert (O : hf_new (h_fb_update gop pop s1) = Some (xn, zn) -> zn < next (hf_heap (h_fb_update gop pop s1)) /\ own (hf_heap (h_fb_update gop pop s1)) zn = Alg).
  { clearbody s1. destruct s1 as [h1 x1 z1 n1 b' l' r1 c1]. cbn in Hr. subst r1. destruct J as (J1 & J2 & J3 & J4). cbn in J1, J2, J3, J4.
    unfold h_fb_update; cbn [hf_heap hf_x_old hf_z_old hf_new hf_beta hf_lambda hf_rule hf_calls].
    destruct (gop h1 z1) as [h2 g]. destruct (pop b' _ _) as [h3 q]. cbv zeta. cbn [hf_heap hf_new]. intros Q. injection Q as _ <-.
    set (v4 := (_ + _)%v). destruct (alloc_spec h3 v4) as (N4 & _ & W4 & O4). set (h4 := alloc h3 v4) in *. clearbody h4.
    match goal with |- context [alloc (alloc h4 ?a) ?b] =>
      destruct (alloc_spec h4 a) as (N5 & _ & W5 & O5); destruct (alloc_spec (alloc h4 a) b) as (N6 & _ & W6 & O6) end.
    split; [lia|]. rewrite (proj2 (O6 (next h3) ltac:(lia))), (proj2 (O5 (next h3) ltac:(lia))). exact W4. }
  intros Hn. destruct (O Hn) as [O1 O2].
  destruct (fb_step grad prox kg kp gop pop Cg Cp s1 J) as (_ & J' & _).
  destruct (fb_steps grad prox kg kp gop pop Cg Cp m _ J') as (_ & _ & _ & Kp).
  assert (Em : h_fb_after gop pop (m + S n) s0 = h_fb_after gop pop m (h_fb_update gop pop s1)).
  { unfold s1, h_fb_after. rewrite iter_add. reflexivity. }
  rewrite Em. apply (Kp zn O1). right. exact O2.
Qed.
Print Assumptions C124_forward_backward_result.

(** A gradient that overwrites its argument gives other iterates. *)
Theorem C124_forward_backward_inplace_gradient_refuted :
  exists (grad : R -> R) (prox : R -> R -> R) (h : heap R) s0 p0,
    computes (V := R) 0 true (fn grad) (op_inplace grad) /\
    h_fb_init (H := R_ips) h 0 None (/ 2)%R 1%R None (LCall None) = Ok s0 /\
    fb_init (H := R_ips) (rd h 0) None (/ 2)%R 1%R None (LCall None) = Ok p0 /\
    fb_new (fb_values (h_fb_after (H := R_ips) (op_inplace grad) (fun f => op_new 1 (fun v => prox v f)) 1 s0)) <>
    fb_new (fb_after (H := R_ips) grad prox 1 p0).
Proof.
  exists (fun v => 2 * v)%R, (fun v _ => v), (mk_heap (V := R) 1 (fun _ => (Caller, 1%R))).
  eexists. eexists. split; [apply op_inplace_ok|]. split; [reflexivity|]. split; [reflexivity|].
  cbn -[Rplus Rmult Rinv Ropp]. intros E. injection E as E _. lra.
Qed.
Print Assumptions C124_forward_backward_inplace_gradient_refuted.

(** * GenForwardBackward *)
Theorem C124_gen_forward_backward : forall (H : ips) (grad : H -> H) (proxs : list (H -> R -> H)) kg gop pops
    (h : heap H) x step_size gamma lambda gamma_update lambda_update weights s0,
  computes kg false (fn grad) gop ->
  Forall2 (fun F p => exists kp, kp <> kg /\ forall f, computes kp true (fn (fun v => F v f)) (p f)) proxs pops ->
  x < next h -> h_gfb_init pops h x step_size gamma lambda gamma_update lambda_update weights = Ok s0 ->
  exists p0, gfb_init proxs (rd h x) step_size gamma lambda gamma_update lambda_update weights = Ok p0 /\
  forall n, gfb_values (h_gfb_after gop pops n s0) = gfb_after grad proxs n p0 /\
    keeps (eq Caller) h (hg_heap (h_gfb_after gop pops n s0)) /\
    forall m xn, hg_x_new (h_gfb_after gop pops n s0) = Some xn ->
      rd (hg_heap (h_gfb_after gop pops (m + n) s0)) xn = rd (hg_heap (h_gfb_after gop pops n s0)) xn.
Proof.
  intros H grad proxs kg gop pops h x st ga la gu lu ws s0 Cg Cps Hx E.
  destruct (gfb_start kg proxs pops Cps h x st ga la gu lu ws s0 Hx E) as (A & B & D).
  assert (N0 : hg_x_new s0 = None).
  { unfold h_gfb_init in E. destruct (gfb_weights _ _); [|discriminate]. cbn [bind] in E.
    destruct (alloc_n _ _ _) as [h2 zs]. injection E as <-. reflexivity. }
  exists (gfb_values s0). split; [exact A|]. intros n.
  destruct (gfb_steps grad kg gop Cg proxs pops Cps n s0 B) as (P & J & Q & X & Z & _). split; [exact P|]. split.
  { eapply keeps_trans; [apply keeps_all; exact D | exact Q]. }
  intros m xn. destruct n as [|n]; [cbn; congruence|].
  destruct (gfb_steps grad kg gop Cg proxs pops Cps n s0 B) as (_ & J1 & Q1 & X1 & Z1 & _).
  change (h_gfb_after gop pops (S n) s0) with (h_gfb_update gop pops (h_gfb_after gop pops n s0)).
  assert (Em : h_gfb_after gop pops (m + S n) s0 = h_gfb_after gop pops m (h_gfb_update gop pops (h_gfb_after gop pops n s0))).
  { unfold h_gfb_after. rewrite iter_add. reflexivity. }
  rewrite Em. clear Em.
  set (s1 := h_gfb_after gop pops n s0) in *. clearbody s1.
  destruct (gfb_step grad kg gop Cg proxs pops Cps s1 J1) as (_ & J2 & _ & X2 & Z2 & (x' & E2 & B2 & O2) & _).
  intros Hn. rewrite Hn in E2. injection E2 as ->.
  destruct (gfb_steps grad kg gop Cg proxs pops Cps m _ J2) as (_ & _ & _ & _ & _ & F).
  destruct J1 as (Jx & _ & Jz & _). rewrite Forall_forall in Jz.
  apply F; [lia | exact O2 | rewrite X2; lia | rewrite Z2; intros I; destruct (Jz _ I); lia].
Qed.
Print Assumptions C124_gen_forward_backward.

(** * Condat *)
Theorem C124_condat : forall (H K : ips) (grad : H -> H) (prox : H -> R -> H) (prox_dual : K -> R -> K) (L : H -> K) (Lt : K -> H)
    kg kp kd kl ka gop pop dop lop ladj (h : heap (H + K)) x y xv yv step_size rho sigma tau ru su tu,
  kp <> kd -> kp <> kl ->
  computes kg false (HtoH grad) gop -> computes ka false (KtoH Lt) ladj ->
  (forall f, computes kp true (HtoH (fun v => prox v f)) (pop f)) -> computes kl true (HtoK L) lop ->
  (forall f, computes kd true (KtoK (fun v => prox_dual v f)) (dop f)) ->
  x < next h -> y < next h -> rd h x = inl xv -> rd h y = inr yv ->
  let s0 := h_condat_init h x y step_size rho sigma tau ru su tu in
  let p0 := condat_init xv yv tt step_size rho sigma tau ru su tu in
  forall n,
  condat_values (h_condat_after gop pop dop lop ladj n s0) = condat_after grad prox (fun _ => prox_dual) L Lt n p0 /\
  keeps (eq Caller) h (hc_heap (h_condat_after gop pop dop lop ladj n s0)) /\
  forall m xn yn, hc_new (h_condat_after gop pop dop lop ladj n s0) = Some (xn, yn) ->
    rd (hc_heap (h_condat_after gop pop dop lop ladj (m + n) s0)) xn = rd (hc_heap (h_condat_after gop pop dop lop ladj n s0)) xn /\
    rd (hc_heap (h_condat_after gop pop dop lop ladj (m + n) s0)) yn = rd (hc_heap (h_condat_after gop pop dop lop ladj n s0)) yn.
Proof.
  intros H K grad prox prox_dual L Lt kg kp kd kl ka gop pop dop lop ladj h x y xv yv st rho sg tau ru su tu
    Kd Kl Cg Ca Cp Cl Cd Hx Hy Vx Vy s0 p0 n.
  destruct (condat_start h x y xv yv st rho sg tau ru su tu Hx Hy Vx Vy) as (A & B & D). fold s0 in A, B, D. fold p0 in A.
  assert (ST := condat_steps grad prox prox_dual L Lt kg kp kd kl ka gop ladj lop pop dop Kd Kl Cg Ca Cp Cl Cd).
  assert (SP := condat_step grad prox prox_dual L Lt kg kp kd kl ka gop ladj lop pop dop Kd Kl Cg Ca Cp Cl Cd).
  destruct (ST n s0 B) as (P & J & Q & _). split; [rewrite P, A; reflexivity|]. split.
  { eapply keeps_trans; [apply keeps_all; exact D | exact Q]. }
  intros m xn yn. destruct n as [|n]; [cbn; discriminate|].
  destruct (ST n s0 B) as (_ & J1 & _ & X1 & Y1 & _).
  change (h_condat_after gop pop dop lop ladj (S n) s0) with (h_condat_update gop pop dop lop ladj (h_condat_after gop pop dop lop ladj n s0)).
  assert (Em : h_condat_after gop pop dop lop ladj (m + S n) s0 =
     h_condat_after gop pop dop lop ladj m (h_condat_update gop pop dop lop ladj (h_condat_after gop pop dop lop ladj n s0))).
  { unfold h_condat_after. rewrite iter_add. reflexivity. }
  rewrite Em. clear Em. set (s1 := h_condat_after gop pop dop lop ladj n s0) in *. clearbody s1.
  destruct (SP s1 J1) as (_ & J2 & _ & X2 & Y2 & (x' & y' & E2 & B2 & B3 & O2 & O3) & _).
  intros Hn. rewrite Hn in E2. injection E2 as -> ->.
  destruct (ST m _ J2) as (_ & _ & _ & _ & _ & F).
  destruct J1 as ((Jx & _) & (Jy & _)).
  split; apply F; try assumption; try lia; rewrite ?X2, ?Y2; lia.
Qed.
Print Assumptions C124_condat.

(** * ADMM: the second optimizer may overwrite its init, the first may not *)
Theorem C124_admm : forall (H : ips) (A B : H -> H) (opti_H opti_G : H -> H -> H) ka kb kh kg aop bop hopti gopti
    (h : heap H) u v mu b,
  NoDup [ka; kb; kh; kg] -> computes ka false (fn A) aop -> computes kb false (fn B) bop ->
  computes2 kh false opti_H hopti -> computes2 kg true opti_G gopti ->
  u < next h -> v < next h -> mu < next h -> b < next h -> own h b = Caller ->
  forall n,
  admm_values (h_admm_after aop bop b hopti gopti n (h_admm_init h u v mu)) =
    admm_after A B (rd h b) opti_H opti_G n (admm_init (rd h u) (rd h v) (rd h mu)) /\
  keeps (eq Caller) h (ha_heap (h_admm_after aop bop b hopti gopti n (h_admm_init h u v mu))).
Proof.
  intros H A B oH oG ka kb kh kg aop bop hopti gopti h u v mu b ND CA CB CH CG Hu Hv Hm Hb Ob n.
  inversion ND as [|? ? N1 ND1]; subst. inversion ND1 as [|? ? N2 ND2]; subst. inversion ND2 as [|? ? N3 _]; subst.
  cbn in N1, N2, N3.
  destruct (admm_start b (rd h b) h u v mu Hu Hv Hm Hb Ob eq_refl) as (P & Q & D).
  destruct (admm_steps A B oH oG ka kb kh kg aop bop b hopti gopti (rd h b) ltac:(intuition) ltac:(intuition) ltac:(intuition)
    ltac:(intuition) ltac:(intuition) ltac:(intuition) CA CB CH CG n _ Q) as (E & _ & K).
  rewrite P in E. split; [exact E|]. eapply keeps_trans; [apply keeps_all; exact D | exact K].
Qed.
Print Assumptions C124_admm.

(** A first optimizer that works in place on init changes u_old before the v-step uses it. *)
Theorem C124_admm_inplace_refuted :
  exists (oH oG : R -> R -> R) (h : heap R),
    computes2 (V := R) 2 true oH (op2_inplace oH) /\ computes2 (V := R) 3 false oG (op2_new 3 oG) /\
    ad_v_new (admm_values (h_admm_after (H := R_ips) op_same op_same 3 (op2_inplace oH) (op2_new 3 oG) 1 (h_admm_init (H := R_ips) h 0 1 2))) <>
    ad_v_new (admm_after (H := R_ips) (K := R_ips) (fun v => v) (fun v => v) (rd h 3) oH oG 1 (admm_init (H := R_ips) (K := R_ips) (rd h 0) (rd h 1) (rd h 2))).
Proof.
  exists (fun _ o => o), (fun _ o => o), (mk_heap (V := R) 4 (fun q => (Caller, if Nat.eqb q 3 then 0%R else 1%R))).
  split; [apply op2_inplace_ok|]. split; [apply op2_new_ok|].
  cbv [h_admm_after Nat.iter nat_rect op_same op2_inplace op2_new op_new h_admm_init h_admm_update ha_heap ha_u_old ha_v_old ha_mu_old
    ha_u_new ha_v_new ha_mu_new alloc wr rd own next cells fst snd Nat.eqb admm_values ad_v_new admm_after admm_update admm_init ad_u_old ad_v_old ad_mu_old].
  cbn -[Rplus Rmult Ropp]. lra.
Qed.
Print Assumptions C124_admm_inplace_refuted.

(** * POGM: only with a gradient that makes a new array each time and a proximity operator that leaves
    its argument alone *)
Theorem C124_pogm : forall (H : ips) (grad : H -> H) (prox : H -> R -> H) kg kp gop pop
    (h : heap H) u x y z step_size beta sigma_bar s0,
  kg <> kp -> creates kg (fn grad) gop -> (forall f, computes kp false (fn (fun v => prox v f)) (pop f)) ->
  u < next h -> x < next h -> y < next h -> z < next h ->
  h_pogm_init gop h u x y z step_size beta sigma_bar = Ok s0 ->
  exists p0, pogm_init grad (rd h u) (rd h x) (rd h y) (rd h z) step_size beta sigma_bar = Ok p0 /\
  forall n, pogm_values (h_pogm_after gop pop n s0) = pogm_after grad prox n p0 /\
    keeps (eq Caller) h (hp_heap (h_pogm_after gop pop n s0)).
Proof.
  intros H grad prox kg kp gop pop h u x y z st be sb s0 Kn Cg Cp Hu Hx Hy Hz E.
  destruct (pogm_start grad kg gop Cg h u x y z st be sb s0 Hu Hx Hy Hz E) as (A & B & D). exists (pogm_values s0). split; [exact A|]. intros n.
  destruct (pogm_steps grad prox kg kp gop pop Kn Cg Cp n s0 B) as (P & _ & Q). split; [exact P|].
  eapply keeps_trans; [apply keeps_all; exact D | exact Q].
Qed.
Print Assumptions C124_pogm.

Ltac pogm_compute := cbv [h_pogm_after pogm_after Nat.iter nat_rect op_same op_new op_inplace op_buffer owner_eqb andb Nat.ltb Nat.leb h_pogm_update pogm_update
  hp_heap hp_u hp_x hp_y hp_z hp_g hp_t hp_sigma hp_xi hp_beta hp_sigma_bar hp_x_new alloc wr rd own next cells fst snd Nat.eqb
  pogm_values po_u po_x po_y po_z po_g po_t po_sigma po_xi po_beta po_sigma_bar po_x_new].

(** The gradient of |x|^2/2 written as a callable that returns its argument: _g_old is the array _x_old,
    which is overwritten with g_new at the end of each update. *)
Theorem C124_pogm_gradient_returning_its_argument_refuted :
  exists (h : heap R) s0 p0,
    computes (V := R) 0 false (fn (fun v => v)) op_same /\
    h_pogm_init (H := R_ips) op_same h 0 1 2 3 None (/ 2)%R 1%R = Ok s0 /\
    pogm_init (H := R_ips) (fun v => v) (rd h 0) (rd h 1) (rd h 2) (rd h 3) None (/ 2)%R 1%R = Ok p0 /\
    po_x_new (pogm_values (h_pogm_after (H := R_ips) op_same (fun f => op_new 1 (fun v => v)) 2 s0)) <>
    po_x_new (pogm_after (H := R_ips) (fun v => v) (fun v _ => v) 2 p0).
Proof.
  exists (mk_heap (V := R) 4 (fun q => (Caller, if Nat.eqb q 2 then 0%R else 1%R))).
  eexists. eexists. split; [apply op_same_ok|]. unfold h_pogm_init, pogm_init.
  destruct (Rlt_dec 1 0); [lra|]. destruct (Rgt_dec 1 1); [lra|]. split; [reflexivity|]. split; [reflexivity|].
  set (p := (/ 2 * (1 + sqrt (1 + 4 * 1 ^ 2)))%R).
  set (h4 := alloc _ _). set (s0 := mk_h_pogm h4 _ _ _ _ _ _ _ _ _ _ _).
  assert (Hp : (1 < p)%R).
  { unfold p. replace (1 + 4 * 1 ^ 2)%R with 5%R by lra. pose proof (sqrt_lt_1 1 5 ltac:(lra) ltac:(lra) ltac:(lra)) as Q. rewrite sqrt_1 in Q. lra. }
  assert (S1 : exists c xi, h_pogm_update (H := R_ips) op_same (fun _ => op_new 1 (fun v => v)) s0 =
     mk_h_pogm (H := R_ips) (mk_heap 13 c) 4 5 6 9 5 1 1 xi (/ 2) 1 (Some 10) /\ snd (c 4) = (/ 2)%R /\ snd (c 5) = 1%R).
  { unfold s0, h4. pogm_compute. fold p.
    match goal with |- context [Rlt_dec ?a 0] => destruct (Rlt_dec a 0) as [_|N] end.
    - eexists. eexists. split; [reflexivity|]. pogm_compute. cbn -[Rplus Rmult Rinv Ropp pow sqrt Rdiv Rminus p].
      split; [lra|]. match goal with |- (/ ?d * (?z + -1 * ?z) + 1)%R = 1%R => generalize (/ d)%R z end. intros; lra.
    - exfalso. apply N. cbn -[Rplus Rmult Rinv Ropp pow sqrt Rdiv Rminus p].
      match goal with |- context [(/ ?d * (?z + -1 * ?z) + 1)%R] => replace (/ d * (z + -1 * z) + 1)%R with 1%R by (generalize (/ d)%R z; intros; lra) end.
      lra. }
  assert (PU : exists u y z g xi xn, pogm_update (H := R_ips) (fun v => v) (fun v _ => v) (mk_pogm (H := R_ips) 1%R 1%R 0%R 1%R 1%R 1%R 1%R 1%R (/ 2)%R 1%R None) =
     mk_pogm (H := R_ips) u (/ 2 - / 2 * / p)%R y z g 1%R 1%R xi (/ 2)%R 1%R xn).
  { pogm_compute. fold p.
    match goal with |- context [Rlt_dec ?a 0] => destruct (Rlt_dec a 0) as [_|N] end.
    - do 6 eexists. apply (f_equal (fun q => mk_pogm (H := R_ips) _ q _ _ _ _ _ _ _ _ _)). cbn -[Rplus Rmult Rinv Ropp pow sqrt Rdiv Rminus p]. field. lra.
    - exfalso. apply N. cbn -[Rplus Rmult Rinv Ropp pow sqrt Rdiv Rminus p].
      match goal with |- context [(/ ?d * (?z + -1 * ?z) + 1)%R] => replace (/ d * (z + -1 * z) + 1)%R with 1%R by (generalize (/ d)%R z; intros; lra) end.
      lra. }
  destruct S1 as (c & xi & S1 & C4 & C5). destruct PU as (u & y & z & g & xi' & xn & PU).
  unfold h_pogm_after, pogm_after. cbn [Nat.iter nat_rect].
  match goal with |- context [pogm_update _ _ (pogm_update _ _ ?q)] => change q with (mk_pogm (H := R_ips) 1%R 1%R 0%R 1%R 1%R 1%R 1%R 1%R (/ 2)%R 1%R None) end.
  rewrite S1, PU. clear S1 PU. clearbody s0.
  pogm_compute. cbn -[Rplus Rmult Rinv Ropp pow sqrt Rdiv Rminus p Rlt_dec]. fold p.
  destruct (c 4) as [o4 w4]. destruct (c 5) as [o5 w5]. cbn in C4, C5. subst w4 w5.
  assert (Hk : (0 < / p < 1)%R).
  { split; [apply Rinv_0_lt_compat; lra|]. rewrite <- Rinv_1. apply Rinv_lt_contravar; lra. }
  assert (K1 : ((1 - 1) / p = 0)%R) by (unfold Rdiv; ring). assert (K2 : (1 * 1 / p = / p)%R) by (unfold Rdiv; ring).
  repeat match goal with |- context [Rlt_dec ?a 0] => destruct (Rlt_dec a 0) as [_|_] end; intros E; injection E as E;
    rewrite K1, K2 in E; unfold Rdiv in E; rewrite !Rmult_0_l, !Ropp_0, !Rmult_0_l in E;
    assert (Q : ((1 - / p) * (1 + / p) = 0)%R) by lra; apply Rmult_integral in Q; lra.
Qed.
Print Assumptions C124_pogm_gradient_returning_its_argument_refuted.

(** A proximity operator that works in place overwrites _z before g_new = (z - x_new) / xi + grad is
    computed: the decision to decrease sigma changes. *)
Theorem C124_pogm_inplace_prox_refuted :
  exists (grad : R -> R) (prox : R -> R -> R) (h : heap R) s0 p0,
    creates (V := R) 0 (fn grad) (op_new 0 grad) /\ (forall f, computes (V := R) 1 true (fn (fun v => prox v f)) (op_inplace (fun v => prox v f))) /\
    h_pogm_init (H := R_ips) (op_new 0 grad) h 0 1 2 3 None 1%R (/ 2)%R = Ok s0 /\
    pogm_init (H := R_ips) grad (rd h 0) (rd h 1) (rd h 2) (rd h 3) None 1%R (/ 2)%R = Ok p0 /\
    po_sigma (pogm_values (h_pogm_after (H := R_ips) (op_new 0 grad) (fun f => op_inplace (fun v => prox v f)) 1 s0)) = 1%R /\
    po_sigma (pogm_after (H := R_ips) grad prox 1 p0) = (/ 2)%R.
Proof.
  exists (fun _ => 1%R), (fun _ _ => 1%R), (mk_heap (V := R) 4 (fun q => (Caller, 0%R))).
  eexists. eexists. split; [apply op_new_ok|]. split; [intros f; apply op_inplace_ok|]. unfold h_pogm_init, pogm_init.
  destruct (Rlt_dec (/ 2) 0); [lra|]. destruct (Rgt_dec (/ 2) 1); [lra|]. split; [reflexivity|]. split; [reflexivity|].
  set (p := (/ 2 * (1 + sqrt (1 + 4 * 1 ^ 2)))%R).
  assert (Hp : (1 < p)%R).
  { unfold p. replace (1 + 4 * 1 ^ 2)%R with 5%R by lra. pose proof (sqrt_lt_1 1 5 ltac:(lra) ltac:(lra) ltac:(lra)) as Q. rewrite sqrt_1 in Q. lra. }
  assert (Hk : (0 < / p < 1)%R).
  { split; [apply Rinv_0_lt_compat; lra|]. rewrite <- Rinv_1. apply Rinv_lt_contravar; lra. }
  split.
  - pogm_compute. fold p. cbn -[Rplus Rmult Rinv Ropp pow sqrt Rdiv Rminus p Rlt_dec].
    match goal with |- context [Rlt_dec ?a 0] => destruct (Rlt_dec a 0) as [_|_] end; [reflexivity|].
    match goal with |- context [Rlt_dec ?a 0] => destruct (Rlt_dec a 0) as [N|_] end; [|reflexivity].
    exfalso. match type of N with context [(/ ?d * _)%R] => generalize dependent (/ d)%R end. intros; lra.
  - pogm_compute. fold p. cbn -[Rplus Rmult Rinv Ropp pow sqrt Rdiv Rminus p Rlt_dec].
    match goal with |- context [(/ ?d * ?z + 1)%R] => assert (G : (/ d * z + 1)%R = (- (p * / (p + 1)))%R) end.
    { field. lra. }
    assert (Hq : (0 < p * / (p + 1))%R) by (apply Rmult_lt_0_compat; [lra | apply Rinv_0_lt_compat; lra]).
    rewrite G. generalize dependent (p * / (p + 1))%R. intros k _ Hq.
    match goal with |- context [Rlt_dec ?a 0] => destruct (Rlt_dec a 0) as [N|_] end; [exfalso; nra|].
    match goal with |- context [Rlt_dec ?a 0] => destruct (Rlt_dec a 0) as [_|N] end; [cbn; lra | exfalso; lra].
Qed.
Print Assumptions C124_pogm_inplace_prox_refuted.

(** The array POGM returns is the one its proximity operator returned: an operator that reuses its
    array changes it in the next update. *)
Theorem C124_pogm_result_refuted :
  exists (grad : R -> R) (prox : R -> R -> R) (h : heap R) s0 x v w,
    creates (V := R) 0 (fn grad) (op_new 0 grad) /\
    (forall f, computes (V := R) 1 false (fn (fun v => prox v f)) (op_buffer 1 4 (fun v => prox v f))) /\
    h_pogm_init (H := R_ips) (op_new 0 grad) h 0 1 2 3 None 1%R 1%R = Ok s0 /\
    hp_x_new (h_pogm_after (H := R_ips) (op_new 0 grad) (fun f => op_buffer 1 4 (fun v => prox v f)) 1 s0) = Some x /\
    rd (hp_heap (h_pogm_after (H := R_ips) (op_new 0 grad) (fun f => op_buffer 1 4 (fun v => prox v f)) 1 s0)) x = v /\
    rd (hp_heap (h_pogm_after (H := R_ips) (op_new 0 grad) (fun f => op_buffer 1 4 (fun v => prox v f)) 2 s0)) x = w /\ v <> w.
Proof.
  exists (fun _ => 0%R), (fun v _ => / 2 * v)%R,
    (mk_heap (V := R) 5 (fun q => if Nat.eqb q 4 then (Oper 1, 0%R) else (Caller, if Nat.eqb q 2 then 0%R else 1%R))).
  eexists. exists 4, (/ 2)%R, (/ 4)%R. split; [apply op_new_ok|]. split; [intros f; apply op_buffer_ok|]. unfold h_pogm_init.
  destruct (Rlt_dec 1 0); [lra|]. destruct (Rgt_dec 1 1); [lra|]. split; [reflexivity|].
  set (p := (/ 2 * (1 + sqrt (1 + 4 * 1 ^ 2)))%R).
  match goal with |- context [h_pogm_after _ _ 1 ?s] => set (s0 := s) end.
  assert (Hp : (1 < p)%R).
  { unfold p. replace (1 + 4 * 1 ^ 2)%R with 5%R by lra. pose proof (sqrt_lt_1 1 5 ltac:(lra) ltac:(lra) ltac:(lra)) as Q. rewrite sqrt_1 in Q. lra. }
  assert (S1 : exists c xi, h_pogm_update (H := R_ips) (op_new 0 (fun _ => 0%R)) (fun _ => op_buffer 1 4 (fun v => / 2 * v)%R) s0 =
     mk_h_pogm (H := R_ips) (mk_heap 15 c) 5 6 7 12 9 1 1 xi 1 1 (Some 4) /\
     c 4 = (Oper 1, / 2)%R /\ snd (c 5) = 1%R /\ snd (c 6) = (/ 2)%R /\ snd (c 12) = 1%R).
  { unfold s0. pogm_compute. cbn [fst snd Nat.eqb]. fold p.
    match goal with |- context [Rlt_dec ?a 0] => destruct (Rlt_dec a 0) as [_|N] end.
    - eexists. eexists. split; [reflexivity|]. pogm_compute. cbn -[Rplus Rmult Rinv Ropp pow sqrt Rdiv Rminus p].
      split; [f_equal; field; lra|]. split; [lra|]. split; field; lra.
    - exfalso. apply N. cbn -[Rplus Rmult Rinv Ropp pow sqrt Rdiv Rminus p].
      match goal with |- context [(/ ?d * ?z + 0)%R] => replace (/ d * z + 0)%R with (p * / (2 * (p + 1)))%R by (field; lra) end.
      assert (K1 : (0 < p * / (2 * (p + 1)))%R) by (apply Rmult_lt_0_compat; [lra | apply Rinv_0_lt_compat; lra]).
      assert (K2 : (p * / (2 * (p + 1)) < 1)%R) by (apply (Rmult_lt_reg_r (2 * (p + 1))); [lra | field_simplify; lra]).
      clear N. generalize dependent (p * / (2 * (p + 1)))%R. intros k K1 K2. nra. }
  destruct S1 as (c & xi & S1 & C4 & C5 & C6 & C12).
  unfold h_pogm_after. cbv beta. cbn [Nat.iter nat_rect]. rewrite S1. clear S1. clearbody s0.
  split; [reflexivity|]. split; [unfold rd; cbn [hp_heap cells]; rewrite C4; reflexivity|]. split; [|lra].
  pogm_compute. rewrite C4. pogm_compute. fold p.
  destruct (c 5) as [o5 w5]. destruct (c 6) as [o6 w6]. destruct (c 12) as [o12 w12]. cbn in C5, C6, C12. subst w5 w6 w12.
  repeat match goal with |- context [Rlt_dec ?a 0] => destruct (Rlt_dec a 0) as [_|_] end;
   cbn -[Rplus Rmult Rinv Ropp pow sqrt Rdiv Rminus p Rlt_dec]; rewrite ?C4; unfold Rdiv;
   replace (1 - 1)%R with 0%R by ring; rewrite !Rmult_0_l; lra.
Qed.
Print Assumptions C124_pogm_result_refuted.

(** A run of ForwardBackward on |x - 3|^2 / 2 from 1 whose gradient reuses one array and whose
    proximity operator (that of v^2 / 2) overwrites its argument. *)
Example C124_example :
  let grad := fun v : R => (v - 3)%R in
  let prox := fun (v f : R) => (v / (1 + f))%R in
  let h := mk_heap (V := R) 2 (fun q => if Nat.eqb q 1 then (Oper 0, 7%R) else (Caller, 1%R)) in
  exists s0, h_fb_init (H := R_ips) h 0 None 1%R 1%R None (LCall None) = Ok s0 /\
  let s1 := h_fb_after (H := R_ips) (op_buffer 0 1 grad) (fun f => op_inplace (fun v => prox v f)) 1 s0 in
  fb_new (fb_values s1) = Some ((3 / 2)%R, (3 / 2)%R) /\ rd (hf_heap s1) 0 = 1%R /\ rd (hf_heap s1) 1 = (-2)%R.
Proof.
  cbv zeta. eexists. split; [reflexivity|].
  cbv [h_fb_after Nat.iter nat_rect op_buffer op_inplace owner_eqb andb Nat.ltb Nat.leb h_fb_update hf_heap hf_x_old hf_z_old hf_new hf_beta hf_lambda
    hf_rule hf_calls alloc wr rd own next cells fst snd Nat.eqb fb_values fb_new]. cbn -[Rplus Rmult Rinv Ropp Rdiv Rminus].
  repeat split; try (f_equal; f_equal); lra.
Qed.
