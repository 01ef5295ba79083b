(** C134: gradient descent and FastADMM with operators that return their argument, keep and reuse an
    array, or work in place. *)
From Verif Require Import NPReal Py IPS Model_SetUp Model_GD Model_ADMM Model_Heap Model_HeapGD Spec_Heap Spec_HeapGD
  Proof_Heap Proof_Heap2 Proof_HeapGD Proof_HeapFA Prop_Heap.
From Coq Require Import List Arith Lia Lra.
Import ListNotations.
Local Open Scope nat_scope.

Lemma op2_buffer_ok {V} k c ip (f : V -> V -> V) : computes2 k ip f (op2_buffer k c f).
Proof.
  intros h i o Hi Ho. pose proof (op_buffer_ok k c (fun _ : V => f (rd h i) (rd h o)) h i _ Hi eq_refl) as C. unfold op2_buffer.
  destruct (op_buffer k c _ h i) as [h' r']. destruct C as (A & B & D & E & F & G).
  split; [exact A|]. split; [exact B|]. split; [exact D|]. split; [destruct E; auto|]. split; [|exact G].
  intros q Hq. destruct (F q Hq). auto.
Qed.

Lemma op2_new_keeps {V} k (f : V -> V -> V) : keeps_results k (op2_new k f).
Proof. intros h i o q _ _ Hq _ _ _. unfold op2_new, op_new, rd; cbn. destruct (Nat.eqb_spec q (next h)); [lia | reflexivity]. Qed.

Lemma op2_inplace_keeps {V} k (f : V -> V -> V) : keeps_results k (op2_inplace f).
Proof. intros h i o q _ _ _ _ Hi _. unfold op2_inplace; cbn. apply (proj2 (proj2 (proj2 (wr_spec h i (f (rd h i) (rd h o)))))). exact Hi. Qed.

Lemma run_app {I} gop pop l' l (s : h_gd I) : h_gd_run_idx gop pop (l' ++ l) s = h_gd_run_idx gop pop l' (h_gd_run_idx gop pop l s).
Proof. induction l' as [|i l' IH]; [reflexivity|]. cbn. rewrite IH. reflexivity. Qed.

(** * Gradient descent: the gradient may return its argument or reuse an array, the proximity operator may
    also work in place on either argument; whatever the values of idx, the run is the one of the functions
    they compute, and no array of the caller is written to. *)
Theorem C134_gradient_descent : forall (I : Type) (grad : nat -> arr I -> arr I) (prox : arr I -> arr I -> arr I) kg kp gop pop
    (h : heap (arr I)) c x eta eps epoch_size eta_update s0,
  kg <> kp -> (forall n, computes kg false (fn (grad n)) (gop n)) -> computes2 kp true prox pop ->
  x < next h -> h_gd_init h c x eta eps epoch_size eta_update = Ok s0 ->
  exists p0, gd_init c (rd h x) eta eps epoch_size eta_update = Ok p0 /\
  forall l, gd_values (h_gd_run_idx gop pop l s0) = gd_run_idx grad prox l p0 /\
    keeps (eq Caller) h (hd_heap (h_gd_run_idx gop pop l s0)).
Proof.
  intros I grad prox kg kp gop pop h c x eta eps es eu s0 K Cg Cp Hx E.
  destruct (gd_start h c x eta eps es eu s0 Hx E) as (A & B & D & Sp). exists (gd_values s0). split; [exact A|]. intros l.
  destruct (gd_runs grad prox kg kp gop pop K Cg Cp l s0 B) as (P & _ & N & _ & Q). split; [exact P|].
  destruct D as [D1 D2]. split; [lia|]. intros q Hq. destruct (D2 q Hq) as [O R]. destruct (Q q ltac:(lia)) as [O' R'].
  split; [congruence|]. intros C. rewrite R'; [auto | congruence | left; congruence | lia].
Qed.
Print Assumptions C134_gradient_descent.

(** The array returned after some updates is not written to by later ones, if the proximity operator does
    not reuse the arrays it makes. *)
Theorem C134_gradient_descent_result : forall (I : Type) (grad : nat -> arr I -> arr I) (prox : arr I -> arr I -> arr I) kg kp gop pop
    (h : heap (arr I)) c x eta eps epoch_size eta_update s0 idx l later,
  kg <> kp -> (forall n, computes kg false (fn (grad n)) (gop n)) -> computes2 kp true prox pop -> keeps_results kp pop ->
  x < next h -> h_gd_init h c x eta eps epoch_size eta_update = Ok s0 ->
  let s := h_gd_run_idx gop pop (idx :: l) s0 in
  rd (hd_heap (h_gd_run_idx gop pop (later ++ idx :: l) s0)) (hd_x_new s) = rd (hd_heap s) (hd_x_new s).
Proof.
  intros I grad prox kg kp gop pop h c x eta eps es eu s0 idx l later K Cg Cp Kp Hx E s.
  destruct (gd_start h c x eta eps es eu s0 Hx E) as (_ & B & _ & _).
  destruct (gd_runs grad prox kg kp gop pop K Cg Cp l s0 B) as (_ & J & _).
  destruct (gd_one grad prox kg kp gop pop K Cg Cp idx _ J) as (_ & J' & _ & _ & _ & _ & Hn & Ow).
  rewrite run_app. fold s. change (h_gd_step gop pop idx (h_gd_run_idx gop pop l s0)) with s in *.
  destruct (gd_runs grad prox kg kp gop pop K Cg Cp later s J') as (_ & _ & _ & _ & Q).
  apply Q; [exact Hn | destruct Ow as [(O & _ & _)|O]; rewrite O; congruence | right; exact Kp |].
  destruct Ow as [(_ & _ & D)|O]; [exact D|]. intros Es. rewrite Es in O. destruct J' as (_ & (_ & O') & _). congruence.
Qed.
Print Assumptions C134_gradient_descent_result.

Ltac gd_compute := cbv [h_gd_run_idx gd_run_idx h_gd_step gd_step h_update_dir update_dir h_update_speed update_speed op_same op_new op_inplace op_buffer
  op2_new op2_inplace op2_buffer owner_eqb andb Nat.ltb Nat.leb hd_heap hd_class hd_x_old hd_x_new hd_dir hd_speed hd_eta hd_eps hd_epoch_size hd_eta_update
  hd_beta_pow hd_gamma_pow hd_memory hd_calls alloc wr rd own next cells fst snd Nat.eqb gd_values d_class d_x_old d_x_new d_dir d_speed
  d_eta d_eps d_epoch_size d_eta_update d_beta_pow d_gamma_pow d_memory d_calls Nat.modulo Nat.divmod full Nat.sub].

(** A gradient that overwrites its argument gives other iterates. *)
Theorem C134_inplace_gradient_refuted :
  exists (grad : arr unit -> arr unit) (h : heap (arr unit)) s0 p0,
    computes 0 true (fn grad) (op_inplace grad) /\
    h_gd_init h Vanilla 0 1%R 0%R 1 None = Ok s0 /\ gd_init Vanilla (rd h 0) 1%R 0%R 1 None = Ok p0 /\
    d_x_new (gd_values (h_gd_run_idx (fun _ => op_inplace grad) (op2_new 1 (fun v _ => v)) [0] s0)) <>
    d_x_new (gd_run_idx (fun _ => grad) (fun v _ => v) [0] p0).
Proof.
  exists (fun v i => 2 * v i)%R, (mk_heap 1 (fun _ => (Caller, fun _ : unit => 1%R))).
  eexists. eexists. split; [apply op_inplace_ok|]. split; [reflexivity|]. split; [reflexivity|].
  intros E. apply (f_equal (fun w => w tt)) in E. revert E. gd_compute. rewrite sqrt_1. lra.
Qed.
Print Assumptions C134_inplace_gradient_refuted.

(** With a proximity operator that writes into an array it keeps, going on changes the array returned
    earlier. *)
Theorem C134_result_kept_refuted :
  exists (grad : arr unit -> arr unit) (prox : arr unit -> arr unit -> arr unit) (h : heap (arr unit)) s0,
    computes 0 false (fn grad) (op_new 0 grad) /\ computes2 1 true prox (op2_buffer 1 8 prox) /\
    h_gd_init h Vanilla 0 1%R 0%R 1 None = Ok s0 /\
    let run l := h_gd_run_idx (fun _ => op_new 0 grad) (op2_buffer 1 8 prox) l s0 in
    rd (hd_heap (run [1; 0])) (hd_x_new (run [0])) <> rd (hd_heap (run [0])) (hd_x_new (run [0])).
Proof.
  exists (fun v i => / 2 * v i)%R, (fun v _ => v), (mk_heap 1 (fun _ => (Caller, fun _ : unit => 1%R))).
  eexists. split; [apply creates_computes, op_new_ok|]. split; [apply op2_buffer_ok|]. split; [reflexivity|].
  intros run E. apply (f_equal (fun w => w tt)) in E. revert E. unfold run. gd_compute. rewrite sqrt_1. lra.
Qed.
Print Assumptions C134_result_kept_refuted.

(** AdaGenericGradOpt adds to its speed in place: the array a metric was given as speed_grad changes
    afterwards. *)
Theorem C134_ada_speed_kept_refuted :
  exists (grad : arr unit -> arr unit) (h : heap (arr unit)) s0,
    h_gd_init h Ada 0 1%R 1%R 1 None = Ok s0 /\
    let run l := h_gd_run_idx (fun _ => op_new 0 grad) (op2_new 1 (fun v _ => v)) l s0 in
    rd (hd_heap (run [1; 0])) (hd_speed (run [0])) <> rd (hd_heap (run [0])) (hd_speed (run [0])).
Proof.
  exists (fun _ _ => 1%R), (mk_heap 1 (fun _ => (Caller, fun _ : unit => 1%R))).
  eexists. split; [reflexivity|].
  intros run E. apply (f_equal (fun w => w tt)) in E. revert E. unfold run. gd_compute. rewrite Rabs_R1. cbn. lra.
Qed.
Print Assumptions C134_ada_speed_kept_refuted.

(** * FastADMM *)
(** Optimizers that leave init alone: the run is the one on values, and raises the same. *)
Theorem C134_fast_admm : forall (H : ips) (A B : H -> H) (opti_H opti_G : H -> H -> H) ka kb kh kg aop bop hopti gopti
    (h : heap H) u v mu b has_cost alpha eta tau,
  NoDup [ka; kb; kh; kg] -> computes ka false (fn A) aop -> computes kb false (fn B) bop ->
  computes2 kh false opti_H hopti -> computes2 kg false opti_G gopti ->
  u < next h -> mu < next h -> b < next h -> own h b = Caller ->
  let p0 := fadmm_init (rd h b) (rd h u) v (rd h mu) has_cost alpha eta tau in
  forall n,
  match h_fadmm_after aop bop b hopti gopti n (h_fadmm_init b h u mu has_cost alpha eta) with
  | Ok s => fadmm_after A B (rd h b) opti_H opti_G n p0 = Ok (fadmm_values s) /\ keeps (eq Caller) h (hfa_heap s)
  | Err e => fadmm_after A B (rd h b) opti_H opti_G n p0 = Err e
  end.
Proof.
  intros H A B oH oG ka kb kh kg aop bop hopti gopti h u v mu b hc alpha eta tau ND CA CB CH CG Hu Hm Hb Ob p0 n.
  inversion ND as [|? ? N1 ND1]; subst. inversion ND1 as [|? ? N2 ND2]; subst. inversion ND2 as [|? ? N3 _]; subst.
  cbn in N1, N2, N3.
  destruct (fadmm_start b (rd h b) h u mu hc alpha eta v tau Hu Hm Hb Ob eq_refl) as (P & Q & D).
  pose proof (fadmm_steps A B oH oG ka kb kh kg aop bop b hopti gopti (rd h b) ltac:(intuition) ltac:(intuition) ltac:(intuition)
    ltac:(intuition) ltac:(intuition) ltac:(intuition) CA CB CH false CG n _ Q) as St. rewrite P in St. fold p0 in St.
  destruct (h_fadmm_after _ _ _ _ _ n _) as [s|e]; [|exact St].
  destruct St as (p & E & _ & Ep & _ & K). rewrite <- (Ep eq_refl). split; [exact E|]. eapply keeps_trans; [apply keeps_all; exact D | exact K].
Qed.
Print Assumptions C134_fast_admm.

(** The second optimizer may also work in place on init: estimates, multipliers, extrapolations and
    weights are still those of the run on values. *)
Theorem C134_fast_admm_in_place : forall (H : ips) (A B : H -> H) (opti_H opti_G : H -> H -> H) ka kb kh kg aop bop hopti gopti
    (h : heap H) u v mu b has_cost alpha eta tau,
  NoDup [ka; kb; kh; kg] -> computes ka false (fn A) aop -> computes kb false (fn B) bop ->
  computes2 kh false opti_H hopti -> computes2 kg true opti_G gopti ->
  u < next h -> mu < next h -> b < next h -> own h b = Caller ->
  let p0 := fadmm_init (rd h b) (rd h u) v (rd h mu) has_cost alpha eta tau in
  forall n,
  match h_fadmm_after aop bop b hopti gopti n (h_fadmm_init b h u mu has_cost alpha eta) with
  | Ok s => exists p, fadmm_after A B (rd h b) opti_H opti_G n p0 = Ok p /\ keeps (eq Caller) h (hfa_heap s) /\
      rd (hfa_heap s) (hfa_u_new s) = fa_u_new p /\ rd (hfa_heap s) (hfa_v_new s) = fa_v_new p /\
      rd (hfa_heap s) (hfa_mu_new s) = fa_mu_new p /\ rd (hfa_heap s) (hfa_v_hat s) = fa_v_hat p /\
      rd (hfa_heap s) (hfa_mu_hat s) = fa_mu_hat p /\ hfa_alpha_new s = fa_alpha_new p
  | Err e => fadmm_after A B (rd h b) opti_H opti_G n p0 = Err e
  end.
Proof.
  intros H A B oH oG ka kb kh kg aop bop hopti gopti h u v mu b hc alpha eta tau ND CA CB CH CG Hu Hm Hb Ob p0 n.
  inversion ND as [|? ? N1 ND1]; subst. inversion ND1 as [|? ? N2 ND2]; subst. inversion ND2 as [|? ? N3 _]; subst.
  cbn in N1, N2, N3.
  destruct (fadmm_start b (rd h b) h u mu hc alpha eta v tau Hu Hm Hb Ob eq_refl) as (P & Q & D).
  pose proof (fadmm_steps A B oH oG ka kb kh kg aop bop b hopti gopti (rd h b) ltac:(intuition) ltac:(intuition) ltac:(intuition)
    ltac:(intuition) ltac:(intuition) ltac:(intuition) CA CB CH true CG n _ Q) as St. rewrite P in St. fold p0 in St.
  destruct (h_fadmm_after _ _ _ _ _ n _) as [s|e]; [|exact St].
  destruct St as (p & E & Ef & _ & _ & K). exists p. split; [exact E|].
  split; [eapply keeps_trans; [apply keeps_all; exact D | exact K]|].
  destruct p, s. unfold forget_c, fadmm_values in Ef; cbn in Ef. injection Ef. intros. subst. cbn. repeat split.
Qed.
Print Assumptions C134_fast_admm_in_place.

(** A first optimizer that works in place on init changes u_old before the v-step uses it. *)
Theorem C134_fast_admm_inplace_refuted :
  exists (oH oG : R -> R -> R) (h : heap R) s p,
    computes2 (V := R) 2 true oH (op2_inplace oH) /\ computes2 (V := R) 3 false oG (op2_new 3 oG) /\
    h_fadmm_after (H := R_ips) op_same op_same 3 (op2_inplace oH) (op2_new 3 oG) 1 (h_fadmm_init (H := R_ips) 3 h 0 2 false 1%R 1%R) = Ok s /\
    fadmm_after (H := R_ips) (fun v => v) (fun v => v) (rd h 3) oH oG 1 (fadmm_init (H := R_ips) (rd h 3) (rd h 0) (rd h 1) (rd h 2) false 1%R 1%R 1%R) = Ok p /\
    fa_v_new (fadmm_values s) <> fa_v_new p.
Proof.
  exists (fun _ o => o + 1)%R, (fun _ o => o), (mk_heap (V := R) 4 (fun q => (Caller, if Nat.eqb q 3 then 0%R else 1%R))).
  destruct (Rlt_dec 0 1) eqn:L; [|lra].
  eexists. eexists. split; [apply op2_inplace_ok|]. split; [apply op2_new_ok|].
  split; [cbn -[Rplus Rmult Ropp Rdiv sqrt norm Rlt_dec]; rewrite L; cbn -[Rplus Rmult Ropp Rdiv sqrt norm Rlt_dec]; reflexivity|].
  split; [cbn -[Rplus Rmult Ropp Rdiv sqrt norm Rlt_dec]; rewrite L; reflexivity|].
  cbn -[Rplus Rmult Ropp Rdiv sqrt norm]. lra.
Qed.
Print Assumptions C134_fast_admm_inplace_refuted.

(** Example: momentum descent of |x|^2 / 4 with the gradient written into a kept array and a proximity
    operator that halves its argument in place; the caller's array stays (1, 1). *)
Example C134_example : forall h s0,
  h = mk_heap 1 (fun _ => (Caller, fun _ : bool => 1%R)) -> h_gd_init h (Momentum 0) 0 1%R 0%R 1 None = Ok s0 ->
  let s := h_gd_run_idx (fun _ => op_buffer 0 9 (fun v i => / 2 * v i)%R) (op2_inplace (fun v _ i => v i / 2)%R) [1; 0] s0 in
  rd (hd_heap s) (hd_x_new s) true = (/ 16)%R /\ rd (hd_heap s) 0 true = 1%R.
Proof.
  intros h s0 Eh E0 s.
  assert (Hx : 0 < next h) by (subst h; cbn; lia).
  destruct (C134_gradient_descent bool (fun _ v i => / 2 * v i)%R (fun v _ i => v i / 2)%R 0 1
    (fun _ => op_buffer 0 9 (fun v i => / 2 * v i)%R) (op2_inplace (fun v _ i => v i / 2)%R) h (Momentum 0) 0 1%R 0%R 1 None s0
    ltac:(lia) (fun _ => op_buffer_ok 0 9 _) (op2_inplace_ok 1 _) Hx E0) as (p0 & Ep & R).
  destruct (R [1; 0]) as [V K]. fold s in V, K.
  change (rd (hd_heap s) (hd_x_new s)) with (d_x_new (gd_values s)). rewrite V. clear V. split.
  - subst h. injection Ep as <-. gd_compute. rewrite sqrt_1. lra.
  - destruct K as [_ K]. destruct (K 0 Hx) as [_ K0]. rewrite K0 by (subst h; reflexivity). subst h. reflexivity.
Qed.
