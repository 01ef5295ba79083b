(** Property theorems C127: step_size of ForwardBackward, GenForwardBackward, POGM and Condat. *)
From Verif Require Import NPReal Py IPS Model_SetUp Model_FB Model_PD Spec_StepSize.
From Coq Require Import List Lia Lra.
Import ListNotations.
Local Open Scope R_scope.

Lemma step_used_or param ss b : step_used param ss b -> step_or ss param = b.
Proof. intros U. destruct U as [| |s Hs]; cbn; [reflexivity | |]; destruct (Req_EM_T _ 0); congruence. Qed.

(** C127. The object built with step_size and the parameter of the class is the one built with the
    step alone: a run does not depend on which of the two names the step was given under. *)
Theorem C127_step_size :
  forall param step_size b, step_used param step_size b ->
  (forall {H : ips} (x : H) lambda bu lu, fb_init x step_size param lambda bu lu = fb_init x None b lambda bu lu) /\
  (forall {H : ips} proxs (x : H) lambda gu lu w, gfb_init proxs x step_size param lambda gu lu w = gfb_init proxs x None b lambda gu lu w) /\
  (forall {H : ips} grad (u x y z : H) sigma, pogm_init grad u x y z step_size param sigma = pogm_init grad u x y z None b sigma) /\
  (forall {H K : ips} {W : Type} (x : H) (y : K) (w : W) rho sigma ru su tu,
     condat_init x y w step_size rho sigma param ru su tu = condat_init x y w None rho sigma b ru su tu).
Proof.
  intros param ss b U. pose proof (step_used_or _ _ _ U) as E. repeat split; intros.
  - unfold fb_init. rewrite E. reflexivity.
  - unfold gfb_init. rewrite E. reflexivity.
  - unfold pogm_init. rewrite E. reflexivity.
  - unfold condat_init. rewrite E. reflexivity.
Qed.
Print Assumptions C127_step_size.

(** The first update moves along the gradient by that step. *)
Theorem C127_first_update :
  forall param step_size b, step_used param step_size b ->
  (forall {H : ips} (grad : H -> H) prox x bu lu s, fb_init x step_size param 1 bu (LCall lu) = Ok s ->
     fb_x_old (fb_update grad prox s) = prox (x - b * grad x)%v b) /\
  (forall {H : ips} (grad : H -> H) prox x gu lu s, gfb_init [prox] x step_size param 1 gu lu None = Ok s ->
     g_x_old (gfb_update grad [prox] s) = prox (x - b * grad x)%v b) /\
  (forall {H : ips} (grad : H -> H) prox x sigma s, pogm_init grad x x x x step_size param sigma = Ok s ->
     po_u (pogm_update grad prox s) = (x - b * grad x)%v) /\
  (forall {H K : ips} {W : Type} (grad : H -> H) prox prox_dual (lop : H -> K) ladj x y (w : W) sigma ru su tu,
     c_x (condat_update grad prox prox_dual lop ladj (condat_init x y w step_size 1 sigma param ru su tu))
     = prox (x - b * (grad x + ladj y))%v 1).
Proof.
  intros param ss b U. destruct (C127_step_size _ _ _ U) as (F & G & P & C). repeat split; intros.
  - rewrite F in H0. cbn in H0. injection H0 as <-. unfold fb_update. cbn. reflexivity.
  - rewrite G in H0. unfold gfb_init, gfb_weights in H0. cbn [length repeat rsum Nat.eqb negb INR] in H0.
    destruct (Req_EM_T _ 1); [|discriminate]. cbn [bind] in H0. injection H0 as <-. unfold gfb_update. cbn.
    replace (1 / 1) with 1 by lra. replace (b / 1) with b by lra. assert (E : (2 * x - x - b * grad x)%v = (x - b * grad x)%v) by vring. rewrite E. vring.
  - rewrite P in H0. unfold pogm_init in H0. destruct (Rlt_dec sigma 0); [discriminate|]. destruct (Rgt_dec sigma 1); [discriminate|].
    injection H0 as <-. unfold pogm_update. cbn -[sqrt]. destruct (Rlt_dec _ 0); [cbn; vring|]. destruct (Rlt_dec _ 0); cbn; vring.
  - rewrite C. unfold condat_update, condat_prox, default_extra_factor. cbn [condat_init c_x c_y c_tau c_rho c_sigma c_w step_or].
    assert (E : (x - b * grad x - b * ladj y)%v = (x - b * (grad x + ladj y))%v) by vring. rewrite E. vring.
Qed.
Print Assumptions C127_first_update.

(** "step_size overrides the parameter of the class" is false: step_size=0 is ignored. *)
Theorem C127_zero_overrides_refuted :
  exists (grad : R -> R) (prox : R -> R -> R) (x : R) s,
    fb_init (H := R_ips) x (Some 0) 1 1 None (LCall None) = Ok s /\
    fb_x_old (fb_update (H := R_ips) grad prox s) <> prox (x - 0 * grad x) 0.
Proof.
  exists (fun x => x), (fun x _ => x), 1. eexists. split; [reflexivity|]. cbn. destruct (Req_EM_T 0 0); [|congruence]. lra.
Qed.
Print Assumptions C127_zero_overrides_refuted.

Example C127_example :
  step_used 1 (Some (/ 2)) (/ 2) /\ step_used 1 (Some 0) 1 /\
  forall s, fb_init (H := R_ips) 3 (Some (/ 2)) 1 1 None (LCall None) = Ok s ->
    fb_x_old (fb_update (H := R_ips) (fun x => x) (fun x _ => x) s) = 3 / 2.
Proof.
  assert (U : step_used 1 (Some (/ 2)) (/ 2)) by (constructor; lra).
  split; [exact U|]. split; [constructor|]. intros s E.
  rewrite (proj1 (C127_first_update 1 _ _ U) R_ips (fun x => x) (fun x _ => x) 3 None None s E). cbn. lra.
Qed.
