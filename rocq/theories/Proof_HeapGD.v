(** Proofs for C134: the heap updates of Model_HeapGD compute what the updates on values compute. *)
From Verif Require Import NPReal Py IPS Model_SetUp Model_GD Model_ADMM Model_Heap Model_HeapGD Spec_Heap Spec_HeapGD Proof_Heap Proof_Heap2.
From Coq Require Import List Arith Lia.
Import ListNotations.
Local Open Scope nat_scope.

(** The classes whose next direction is computed from the present one. *)
Definition tracks (c : gd_class) : bool := match c with Momentum _ | Adam _ _ | Saga => true | _ => false end.

Lemma call2 {V} k ip F (op : hop2 V) h i o :
  computes2 k ip F op -> i < next h -> o < next h ->
  exists h' r', op h i o = (h', r') /\ next h <= next h' /\ r' < next h' /\ rd h' r' = F (rd h i) (rd h o) /\
  (r' = i \/ r' = o \/ own h' r' = Oper k) /\
  (forall q, q < next h -> own h' q = own h q) /\
  (forall q, q < next h -> own h q <> Oper k -> ip = false \/ q <> i -> q <> o -> rd h' q = rd h q).
Proof.
  intros C Hi Ho. specialize (C h i o Hi Ho). destruct (op h i o) as [h' r']. destruct C as (A & B & E & S & O & Nw).
  exists h', r'. repeat split; auto; intros q Hq; destruct (O q Hq); auto.
Qed.

Section GD.
Context {I : Type}.
Notation arr := (arr I).

Lemma h_update_dir_ok (s : h_gd I) (ps : gd I) idx h g h2 dir bp mem :
  h_update_dir s idx h g = (h2, dir, bp, mem) -> g < next h ->
  d_class ps = hd_class s -> d_beta_pow ps = hd_beta_pow s -> d_memory ps = hd_memory s -> d_epoch_size ps = hd_epoch_size s ->
  (tracks (hd_class s) = true -> d_dir ps = rd h (hd_dir s)) ->
  next h <= next h2 /\ (forall q, q < next h -> rd h2 q = rd h q /\ own h2 q = own h q) /\
  update_dir ps idx (rd h g) = (rd h2 dir, bp, mem) /\ dir < next h2 /\
  (if tracks (hd_class s) then next h <= dir /\ own h2 dir = Alg else dir = g).
Proof.
  intros E Hg Ec Eb Em Ee Ed. unfold h_update_dir in E. unfold update_dir. rewrite Ec, Eb, Em, Ee.
  destruct (hd_class s) as [| | |ga|be|ga be|]; cbn [tracks] in *; injection E as <- <- <- <-;
    try (repeat split; auto; fail).
  - rewrite (Ed eq_refl); match goal with |- context [alloc h ?w] => destruct (alloc_spec h w) as (N & R & W & O) end.
    rewrite R, N. repeat split; auto; try apply O; auto; lia.
  - rewrite (Ed eq_refl); match goal with |- context [alloc h ?w] => destruct (alloc_spec h w) as (N & R & W & O) end.
    rewrite R, N. repeat split; auto; try apply O; auto; lia.
  - rewrite (Ed eq_refl); match goal with |- context [alloc h ?w] => destruct (alloc_spec h w) as (N & R & W & O) end.
    rewrite R, N, (proj1 (O g Hg)). repeat split; auto; try apply O; auto; lia.
Qed.

Lemma h_update_speed_ok (s : h_gd I) (ps : gd I) h g h2 sp gp :
  h_update_speed s h g = (h2, sp, gp) -> g < next h -> hd_speed s < next h -> own h (hd_speed s) = Alg ->
  d_class ps = hd_class s -> d_gamma_pow ps = hd_gamma_pow s -> d_speed ps = rd h (hd_speed s) ->
  next h <= next h2 /\ (forall q, q < next h -> own h2 q = own h q /\ (q <> hd_speed s -> rd h2 q = rd h q)) /\
  update_speed ps (rd h g) = (rd h2 sp, gp) /\ sp < next h2 /\ own h2 sp = Alg /\ (sp = hd_speed s \/ next h <= sp).
Proof.
  intros E Hg Hs Os Ec Eg Es. unfold h_update_speed in E. unfold update_speed. rewrite Ec, Eg, Es.
  destruct (hd_class s) as [| | |ga|be|ga be|]; injection E as <- <- <-;
    try (repeat split; auto; fail).
  - match goal with |- context [wr h ?q ?w] => destruct (wr_spec h q w) as (N & R & O & F) end.
    rewrite R, N, O. repeat split; auto; apply F; auto.
  - match goal with |- context [alloc h ?w] => destruct (alloc_spec h w) as (N & R & W & O) end.
    rewrite R, N. repeat split; intros; auto; try (apply O; auto); lia.
  - match goal with |- context [alloc h ?w] => destruct (alloc_spec h w) as (N & R & W & O) end.
    rewrite R, N. repeat split; intros; auto; try (apply O; auto); lia.
Qed.

Variables (grad : nat -> arr -> arr) (prox : arr -> arr -> arr).
Variables (kg kp : nat) (gop : nat -> hop arr) (pop : hop2 arr).
Hypothesis Kgp : kg <> kp.
Hypothesis Cg : forall c, computes kg false (fn (grad c)) (gop c).
Hypothesis Cp : computes2 kp true prox pop.

Definition gd_inv (s : h_gd I) : Prop :=
  let h := hd_heap s in
  (hd_x_old s < next h /\ own h (hd_x_old s) = Alg) /\ (hd_speed s < next h /\ own h (hd_speed s) = Alg) /\
  hd_x_old s <> hd_speed s /\
  (tracks (hd_class s) = true -> hd_dir s < next h /\ own h (hd_dir s) = Alg /\ hd_dir s <> hd_speed s).

(** Whether the proximity operator leaves the arrays it made in earlier calls alone. *)
Definition kept : Prop := keeps_results kp pop.

Lemma gd_one idx s : gd_inv s ->
  let s' := h_gd_step gop pop idx s in
  gd_values s' = gd_step grad prox idx (gd_values s) /\ gd_inv s' /\
  next (hd_heap s) <= next (hd_heap s') /\
  (forall q, q < next (hd_heap s) -> own (hd_heap s') q = own (hd_heap s) q /\
     (own (hd_heap s) q <> Oper kg -> own (hd_heap s) q <> Oper kp \/ kept -> q <> hd_speed s -> rd (hd_heap s') q = rd (hd_heap s) q)) /\
  hd_class s' = hd_class s /\
  (hd_speed s' = hd_speed s \/ next (hd_heap s) <= hd_speed s') /\
  hd_x_new s' < next (hd_heap s') /\
  (own (hd_heap s') (hd_x_new s') = Alg /\ next (hd_heap s) <= hd_x_new s' /\ hd_x_new s' <> hd_speed s' \/
   own (hd_heap s') (hd_x_new s') = Oper kp).
Proof.
  destruct s as [h c x xn dr sp eta eps es eu bp gp mem calls]. unfold gd_inv.
  cbn [hd_heap hd_class hd_x_old hd_dir hd_speed].
  intros ((Hx & Ox) & (Hs & Os) & Dxs & Tr). unfold h_gd_step; cbn [hd_heap hd_class hd_x_old hd_dir hd_speed hd_calls].
  set (s := mk_h_gd h c x xn dr sp eta eps es eu bp gp mem calls).
  destruct (computes_call _ _ _ (gop calls) h x _ (Cg calls) Hx eq_refl) as (h1 & g & -> & N1 & B1 & R1 & S1 & O1 & F1).
  assert (P1 : forall q, q < next h -> own h q <> Oper kg -> rd h1 q = rd h q) by (intros; apply F1; auto).
  assert (Dgs : g <> sp) by (intros ->; destruct S1 as [E | E]; [congruence | rewrite O1 in E by lia; congruence]).
  destruct (h_update_dir s idx h1 g) as [[[h2 dir] bp'] mem'] eqn:ED.
  destruct (h_update_dir_ok s (gd_values s) idx h1 g h2 dir bp' mem' ED B1 eq_refl eq_refl eq_refl eq_refl) as (N2 & F2 & U2 & B2 & T2).
  { intros T. destruct (Tr T) as (T1 & T2 & _). cbn. symmetry. apply P1; [exact T1 | congruence]. }
  assert (Ds2 : dir <> sp).
  { destruct (tracks (hd_class s)); [destruct T2; lia | congruence]. }
  destruct (h_update_speed s h2 g) as [[h3 sp'] gp'] eqn:ES.
  assert (Osp2 : own h2 sp = Alg) by (rewrite (proj2 (F2 sp ltac:(lia))), O1 by lia; exact Os).
  destruct (h_update_speed_ok s (gd_values s) h2 g h3 sp' gp' ES ltac:(lia) ltac:(cbn; lia) Osp2 eq_refl eq_refl) as (N3 & F3 & U3 & B3 & W3 & D3).
  { cbn. rewrite (proj1 (F2 sp ltac:(lia))). symmetry. apply P1; [exact Hs | congruence]. }
  cbn [hd_speed s] in F3, D3. rewrite (proj1 (F2 g B1)) in U3.
  assert (X3 : rd h3 x = rd h x).
  { rewrite (proj2 (F3 x ltac:(lia)) Dxs), (proj1 (F2 x ltac:(lia))). apply P1; congruence || lia. }
  assert (V3 : rd h3 dir = rd h2 dir) by (apply F3; assumption).
  set (w4 := fun i : I => (hd_eta s / (sqrt (rd h3 sp' i) + hd_eps s))%R).
  destruct (alloc_spec h3 w4) as (N4 & R4 & W4 & O4). set (h4 := alloc h3 w4) in *. clearbody h4.
  assert (A4 : forall q, q < next h3 -> rd h4 q = rd h3 q) by (intros; apply O4; assumption).
  rewrite R4, (A4 x ltac:(lia)), (A4 dir ltac:(lia)), X3, V3.
  set (w5 := fun i : I => (rd h x i - w4 i * rd h2 dir i)%R).
  destruct (alloc_spec h4 w5) as (N5 & R5 & W5 & O5). set (h5 := alloc h4 w5) in *. clearbody h5.
  assert (O5' : forall q, q < next h -> own h5 q = own h q).
  { intros q Hq. rewrite (proj2 (O5 q ltac:(lia))), (proj2 (O4 q ltac:(lia))), (proj1 (F3 q ltac:(lia))), (proj2 (F2 q ltac:(lia))). apply O1; lia. }
  assert (R5' : forall q, q < next h -> own h q <> Oper kg -> q <> sp -> rd h5 q = rd h q).
  { intros q Hq Oq Dq. rewrite (proj1 (O5 q ltac:(lia))), (proj1 (O4 q ltac:(lia))), (proj2 (F3 q ltac:(lia)) Dq), (proj1 (F2 q ltac:(lia))). apply P1; assumption. }
  assert (Od5 : own h5 dir = Alg \/ own h5 dir = Oper kg).
  { rewrite (proj2 (O5 dir ltac:(lia))), (proj2 (O4 dir ltac:(lia))), (proj1 (F3 dir ltac:(lia))).
    destruct (tracks (hd_class s)); [left; apply T2|]. subst dir. rewrite (proj2 (F2 g B1)). destruct S1 as [-> | S1]; [left | right]; [|exact S1].
    rewrite O1 by lia. exact Ox. }
  assert (Rd5 : rd h5 dir = rd h2 dir) by (rewrite (proj1 (O5 dir ltac:(lia))), (proj1 (O4 dir ltac:(lia))); exact V3).
  assert (Os5 : own h5 sp' = Alg) by (rewrite (proj2 (O5 sp' ltac:(lia))), (proj2 (O4 sp' ltac:(lia))); exact W3).
  assert (Rs5 : rd h5 sp' = rd h3 sp') by (rewrite (proj1 (O5 sp' ltac:(lia))), (proj1 (O4 sp' ltac:(lia))); reflexivity).
  assert (Os4 : own h5 (next h3) = Alg) by (rewrite (proj2 (O5 (next h3) ltac:(lia))); exact W4).
  assert (Rs4 : rd h5 (next h3) = w4) by (rewrite (proj1 (O5 (next h3) ltac:(lia))); exact R4).
  assert (Dsd : dir <> sp').
  { destruct D3 as [-> | D3]; [exact Ds2 | lia]. }
  (* reset *)
  set (ep := Nat.eqb (idx mod hd_epoch_size s) 0).
  set (r6 := if ep then match c with Momentum _ => (alloc h5 (full 0), next h5) | _ => (h5, dir) end else (h5, dir)).
  assert (E6 : exists h6 d6, r6 = (h6, d6) /\ next h5 <= next h6 /\ (forall q, q < next h5 -> rd h6 q = rd h5 q /\ own h6 q = own h5 q) /\
     d6 < next h6 /\ (own h6 d6 = Alg \/ own h6 d6 = Oper kg) /\ (tracks c = true -> own h6 d6 = Alg) /\ d6 <> sp' /\
     d6 <> next h3 /\ d6 <> next h4 /\
     rd h6 d6 = (if ep then match c with Momentum _ => full 0 | _ => rd h2 dir end else rd h2 dir)).
  { assert (Base : own h5 dir = Alg \/ own h5 dir = Oper kg) by exact Od5.
    assert (Base2 : tracks c = true -> own h5 dir = Alg).
    { intros T. change (hd_class s) with c in T2. rewrite T in T2. rewrite (proj2 (O5 dir ltac:(lia))), (proj2 (O4 dir ltac:(lia))), (proj1 (F3 dir ltac:(lia))). apply T2. }
    unfold r6. destruct ep; [destruct c as [| | |ga|be|ga be|]|];
      try (exists h5, dir; repeat split; auto; lia).
    destruct (alloc_spec h5 (full 0 : arr)) as (N6 & R6 & W6 & O6).
    exists (alloc h5 (full 0)), (next h5). rewrite N6. repeat split; auto; try (apply O6; auto); lia. }
  destruct E6 as (h6 & d6 & -> & N6 & F6 & B6 & Od6 & Ot6 & D6 & D6a & D6b & Rd6).
  assert (E7 : exists h7 x7, (if ep then pop h6 (next h4) (next h3) else (h6, next h4)) = (h7, x7) /\ next h6 <= next h7 /\ x7 < next h7 /\
     rd h7 x7 = (if ep then prox w5 w4 else w5) /\
     (own h7 x7 = Alg /\ next h <= x7 /\ x7 <> sp' \/ own h7 x7 = Oper kp) /\
     (forall q, q < next h6 -> own h7 q = own h6 q) /\
     (forall q, q < next h6 -> own h6 q <> Oper kp \/ kept -> q <> next h3 -> q <> next h4 -> rd h7 q = rd h6 q)).
  { assert (Z1 : rd h6 (next h4) = w5) by (rewrite (proj1 (F6 (next h4) ltac:(lia))); exact R5).
    assert (Z2 : rd h6 (next h3) = w4) by (rewrite (proj1 (F6 (next h3) ltac:(lia))); exact Rs4).
    assert (Z3 : own h6 (next h4) = Alg) by (rewrite (proj2 (F6 (next h4) ltac:(lia))); exact W5).
    assert (Z4 : own h6 (next h3) = Alg) by (rewrite (proj2 (F6 (next h3) ltac:(lia))); exact Os4).
    destruct ep.
    - destruct (call2 _ _ _ pop h6 (next h4) (next h3) Cp ltac:(lia) ltac:(lia)) as (h7 & x7 & E & N7 & B7 & R7 & S7 & O7 & F7).
      exists h7, x7. rewrite Z1, Z2 in R7. split; [exact E|]. split; [exact N7|]. split; [exact B7|]. split; [exact R7|]. split.
      + destruct S7 as [-> | [-> | S7]]; [left | left | right; exact S7].
        * rewrite O7 by lia. split; [exact Z3|]. split; lia.
        * rewrite O7 by lia. split; [exact Z4|]. split; lia.
      + split; [exact O7|]. intros q Hq [Oq | Oq] Q3 Q4; [apply F7; auto|]. destruct (own h6 q) eqn:Eo; try (apply F7; auto; congruence).
        destruct (Nat.eq_dec k kp) as [->|Nk]; [|apply F7; auto; congruence].
        pose proof (Oq h6 (next h4) (next h3) q ltac:(lia) ltac:(lia) Hq Eo Q4 Q3) as Kq. rewrite E in Kq. exact Kq.
    - exists h6, (next h4). split; [reflexivity|]. split; [lia|]. split; [lia|]. split; [exact Z1|].
      split; [left; split; [exact Z3|]; split; lia|]. split; auto. }
  destruct E7 as (h7 & x7 & -> & N7 & B7 & R7 & S7 & O7 & F7).
  rewrite R7. set (w8 := if ep then prox w5 w4 else w5).
  destruct (alloc_spec h7 w8) as (N8 & R8 & W8 & O8). set (h8 := alloc h7 w8) in *. clearbody h8.
  cbv zeta. cbn [hd_heap hd_class hd_x_old hd_dir hd_speed hd_x_new].
  assert (K8 : forall q, q < next h6 -> own h8 q = own h6 q /\ (own h6 q <> Oper kp \/ kept -> q <> next h3 -> q <> next h4 -> rd h8 q = rd h6 q)).
  { intros q Hq. destruct (O8 q ltac:(lia)) as [X Y]. split; [rewrite Y; apply O7; exact Hq|]. intros. rewrite X. apply F7; auto. }
  assert (Sp8 : rd h8 sp' = rd h3 sp' /\ own h8 sp' = Alg).
  { destruct (K8 sp' ltac:(lia)) as [X Y]. destruct (F6 sp' ltac:(lia)) as [Z1 Z2]. split; [|rewrite X, Z2; exact Os5].
    rewrite Y, Z1; [exact Rs5 | left; rewrite Z2, Os5; discriminate | lia | lia]. }
  assert (Dr8 : rd h8 d6 = rd h6 d6) by (apply K8; [exact B6 | left; destruct Od6; congruence | exact D6a | exact D6b]).
  split; [|split; [|split; [lia|split; [|split; [reflexivity|split; [destruct D3; [left; assumption | right; lia]|split; [lia|]]]]]]].
  - unfold gd_step. replace (d_calls (gd_values s)) with calls by reflexivity. replace (d_x_old (gd_values s)) with (rd h x) by reflexivity.
    rewrite <- R1, U2, U3. unfold gd_values; cbn [hd_heap hd_class hd_x_old hd_x_new hd_dir hd_speed hd_eta hd_eps hd_epoch_size hd_eta_update hd_beta_pow hd_gamma_pow hd_memory hd_calls
      d_class d_x_old d_eta d_eps d_epoch_size d_eta_update d_calls].
    rewrite R8, (proj1 (O8 x7 B7)), R7, (proj1 Sp8), Dr8, Rd6. fold w8. reflexivity.
  - split; [split; [lia | exact W8]|]. split; [split; [lia | apply Sp8]|]. split; [lia|]. intros T. change (hd_class s) with c in T.
    split; [lia|]. split; [rewrite (proj1 (K8 d6 B6)); apply Ot6; exact T | exact D6].
  - intros q Hq. destruct (K8 q ltac:(lia)) as [X Y]. destruct (F6 q ltac:(lia)) as [Z1 Z2]. split; [rewrite X, Z2; apply O5'; exact Hq|].
    intros A1 A2 A3. rewrite Y, Z1; [apply R5'; assumption | rewrite Z2, O5' by exact Hq; exact A2 | lia | lia].
  - rewrite (proj2 (O8 x7 B7)). exact S7.
Qed.

Lemma gd_runs l s : gd_inv s ->
  let s' := h_gd_run_idx gop pop l s in
  gd_values s' = gd_run_idx grad prox l (gd_values s) /\ gd_inv s' /\ next (hd_heap s) <= next (hd_heap s') /\
  (hd_speed s' = hd_speed s \/ next (hd_heap s) <= hd_speed s') /\
  (forall q, q < next (hd_heap s) -> own (hd_heap s') q = own (hd_heap s) q /\
     (own (hd_heap s) q <> Oper kg -> own (hd_heap s) q <> Oper kp \/ kept -> q <> hd_speed s -> rd (hd_heap s') q = rd (hd_heap s) q)).
Proof.
  intros J. induction l as [|idx l (E & J' & N & Sp & K)]; cbv zeta.
  - cbn [h_gd_run_idx gd_run_idx]. split; [reflexivity|]. split; [exact J|]. split; [lia|]. split; [auto|]. auto.
  - change (h_gd_run_idx gop pop (idx :: l) s) with (h_gd_step gop pop idx (h_gd_run_idx gop pop l s)).
    destruct (gd_one idx _ J') as (E1 & J1 & N1 & K1 & _ & Sp1 & _). set (s1 := h_gd_run_idx gop pop l s) in *. clearbody s1.
    split; [rewrite E1, E; reflexivity|]. split; [exact J1|]. split; [lia|]. split; [destruct Sp, Sp1; lia|].
    intros q Hq. destruct (K q Hq) as [A B]. destruct (K1 q ltac:(lia)) as [A1 B1]. split; [congruence|].
    intros Q1 Q2 Q3. rewrite B1; [auto | congruence | destruct Q2; [left; congruence | right; assumption] | destruct Sp; lia].
Qed.

Lemma gd_start h c x eta eps es eu s0 : x < next h -> h_gd_init h c x eta eps es eu = Ok s0 ->
  gd_init c (rd h x) eta eps es eu = Ok (gd_values s0) /\ gd_inv s0 /\ keeps (fun _ => True) h (hd_heap s0) /\
  next h <= hd_speed s0.
Proof.
  clear. intros Hx. unfold h_gd_init, gd_init. cbv zeta.
  destruct (match c with RMSprop g => _ | Adam g b => _ | _ => true end); [|discriminate].
  destruct (alloc_spec h (rd h x)) as (N1 & R1 & W1 & O1). set (h1 := alloc h (rd h x)) in *. clearbody h1.
  rewrite (proj1 (O1 x Hx)).
  destruct (alloc_spec h1 (rd h x)) as (N2 & R2 & W2 & O2). set (h2 := alloc h1 (rd h x)) in *. clearbody h2.
  set (w3 := match c with Vanilla | Momentum _ => full 1 | _ => full 0 end).
  destruct (alloc_spec h2 w3) as (N3 & R3 & W3 & O3). set (h3 := alloc h2 w3) in *. clearbody h3.
  destruct (alloc_spec h3 (full 0)) as (N4 & R4 & W4 & O4). set (h4 := alloc h3 (full 0)) in *. clearbody h4.
  assert (P1 : rd h4 (next h) = rd h x /\ own h4 (next h) = Alg).
  { destruct (O4 (next h) ltac:(lia)), (O3 (next h) ltac:(lia)), (O2 (next h) ltac:(lia)). split; congruence. }
  assert (P2 : rd h4 (next h1) = rd h x /\ own h4 (next h1) = Alg).
  { destruct (O4 (next h1) ltac:(lia)), (O3 (next h1) ltac:(lia)). split; congruence. }
  assert (P3 : rd h4 (next h2) = w3 /\ own h4 (next h2) = Alg).
  { destruct (O4 (next h2) ltac:(lia)). split; congruence. }
  intros E. injection E as <-. unfold gd_values, gd_inv; cbn [hd_heap hd_class hd_x_old hd_x_new hd_dir hd_speed hd_eta hd_eps hd_epoch_size hd_eta_update hd_beta_pow hd_gamma_pow hd_memory hd_calls].
  rewrite (proj1 P1), (proj1 P2), (proj1 P3), R4. split; [reflexivity|]. split; [|split; [|lia]].
  - repeat split; try lia; try apply P1; try apply P3. exact W4.
  - split; [lia|]. intros q Hq. destruct (O4 q ltac:(lia)), (O3 q ltac:(lia)), (O2 q ltac:(lia)), (O1 q Hq). split; [congruence|]. intros _. congruence.
Qed.
End GD.
