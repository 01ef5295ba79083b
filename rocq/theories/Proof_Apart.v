(** Two runs of ForwardBackward without acceleration, or of Condat, with the same parameters. *)
From Verif Require Import NPReal Py IPS Model_SetUp Spec_Opt Proof_Smooth Spec_Lim Proof_Lim Proof_Iter Model_FB Proof_FB Proof_FB2 Model_PD Proof_PD.
From Coq Require Import List Lia.
Import ListNotations.
Local Open Scope R_scope.

(** A quantity that never grows and is paid for by the decrease of a positive one. *)
Lemma paid_for (a E : nat -> R) c : 0 <= c -> (forall n, 0 <= E n) -> (forall n, a (S n) <= a n) ->
  (forall n, E (S n) + c * a n <= E n) -> forall n, c * (INR n + 1) * a n <= E 0%nat.
Proof.
  intros Hc Pe Da De n.
  assert (G : E (S n) + c * (INR n + 1) * a n <= E 0%nat); [|specialize (Pe (S n)); lra].
  induction n as [|n IH]; [specialize (De 0%nat); cbn [INR]; lra|].
  specialize (De (S n)). specialize (Da n). rewrite S_INR.
  assert (P : c * (INR n + 1) * a (S n) <= c * (INR n + 1) * a n).
  { apply Rmult_le_compat_l; [|exact Da]. apply Rmult_le_pos; [exact Hc|]. pose proof (pos_INR n). lra. }
  lra.
Qed.

(** * ForwardBackward *)
Section FB.
Context {H : ips}.
Variable D : H -> Prop.
Variables (f g : H -> R) (grad : H -> H) (prox : H -> R -> H) (M beta lam : R).
Hypothesis Hb : 0 < beta.
Hypothesis HM : 0 <= M.
Hypothesis Sf : smooth_convex M f grad.
Hypothesis Cg : convex_on D g.
Hypothesis Pg : prox_operator D g prox.
Notation T := (fb_map grad prox beta).

Lemma T_two_points y p : nsq (T y - T p)%v + (1 - beta * M / 2) * nsq ((T y - y) - (T p - p))%v <= nsq (y - p)%v.
Proof.
  pose proof (prox_vi_nonexpansive _ _ _ _ _ _ (prox_operator_vi D g prox Cg Pg (y - beta * grad y)%v beta Hb)
    (prox_operator_vi D g prox Cg Pg (p - beta * grad p)%v beta Hb)) as Q.
  change (prox (y - beta * grad y)%v beta) with (T y) in Q. change (prox (p - beta * grad p)%v beta) with (T p) in Q.
  pose proof (gradient_cross M f grad y (T y - T p + p)%v p HM Sf) as G.
  set (t := T y) in *. set (t' := T p) in *. clearbody t t'. set (d := (grad y - grad p)%v) in *.
  replace (t - t' + p - p)%v with (t - t')%v in G by vring.
  replace (t - t' + p - y)%v with ((t - y) - (t' - p))%v in G by vring.
  assert (E : inner (y - beta * grad y - (p - beta * grad p))%v (t - t')%v = inner (y - p)%v (t - t')%v - beta * inner d (t - t')%v)
    by (unfold d; iexpand; ring). rewrite E in Q. clearbody d.
  replace (t - y - (t' - p))%v with ((t - t') - (y - p))%v in * by vring.
  set (v := (t - t')%v) in *. set (u := (y - p)%v) in *. clearbody u v.
  assert (E2 : nsq u = nsq (v - u)%v - nsq v + 2 * inner u v).
  { unfold nsq. iexpand. rewrite (inner_sym H v u). ring. }
  assert (G2 : - (beta * M / 4) * nsq (v - u)%v <= beta * inner d v).
  { apply (Rmult_le_compat_l beta) in G; lra. }
  set (r := nsq (v - u)%v) in *. set (q := inner d v) in *. lra.
Qed.

Hypothesis HbM : beta * M <= 2.
Lemma T_nonexpansive y p : nsq (T y - T p)%v <= nsq (y - p)%v.
Proof.
  pose proof (T_two_points y p) as Q. pose proof (nsq_pos ((T y - y) - (T p - p))%v) as P.
  set (r := nsq ((T y - y) - (T p - p))%v) in *. assert (0 <= (1 - beta * M / 2) * r) by (apply Rmult_le_pos; lra). lra.
Qed.

Lemma nsq_mix (u v : H) : 0 <= lam <= 1 -> nsq (u + lam * (v - u))%v <= (1 - lam) * nsq u + lam * nsq v.
Proof.
  intros Hl. assert (E : nsq (u + lam * (v - u))%v = (1 - lam) * nsq u + lam * nsq v - lam * (1 - lam) * nsq (v - u)%v).
  { unfold nsq. iexpand. rewrite (inner_sym H v u). ring. }
  pose proof (nsq_pos (v - u)%v). assert (0 <= lam * (1 - lam) * nsq (v - u)%v) by (apply Rmult_le_pos; [nra|assumption]). lra.
Qed.

Variables (X Z X' Z' : nat -> H).
Hypothesis SX : forall n, X (S n) = T (Z n).
Hypothesis SZ : forall n, Z (S n) = (X n + lam * (X (S n) - X n))%v.
Hypothesis SX' : forall n, X' (S n) = T (Z' n).
Hypothesis SZ' : forall n, Z' (S n) = (X' n + lam * (X' (S n) - X' n))%v.
Hypothesis Hl : 0 <= lam <= 1.

(** A bound on both distances stays a bound. *)
Lemma two_runs_bound n k b : nsq (X n - X' n)%v <= b -> nsq (Z n - Z' n)%v <= b ->
  nsq (X (k + n)%nat - X' (k + n)%nat)%v <= b /\ nsq (Z (k + n)%nat - Z' (k + n)%nat)%v <= b.
Proof.
  intros B1 B2. induction k as [|k [I1 I2]]; [split; assumption|]. cbn [Nat.add]. set (m := (k + n)%nat) in *.
  assert (Q : nsq (X (S m) - X' (S m))%v <= b) by (rewrite SX, SX'; eapply Rle_trans; [apply T_nonexpansive|exact I2]).
  split; [exact Q|].
  replace (Z (S m) - Z' (S m))%v with ((X m - X' m) + lam * ((X (S m) - X' (S m)) - (X m - X' m)))%v by (rewrite SZ, SZ'; vring).
  eapply Rle_trans; [apply nsq_mix, Hl|].
  apply Rle_trans with ((1 - lam) * b + lam * b); [|lra].
  apply Rplus_le_compat; apply Rmult_le_compat_l; lra.
Qed.
End FB.

(** * Condat *)
Section PD.
Context {H K : ips} {W : Type}.
Variables (D : H -> Prop) (E : K -> Prop) (f g : H -> R) (h : K -> R) (M B : R).
Variable grad : H -> H.
Variable prox : H -> R -> H.
Variable prox_dual : W -> K -> R -> K.
Variables (lop : H -> K) (ladj : K -> H).
Variables (w : W) (rho sigma tau : R).
Hypothesis A : adjoint lop ladj.
Hypothesis Hb : bounded_sq B lop.
Hypothesis HM : 0 <= M.
Hypothesis Sf : smooth_convex M f grad.
Hypothesis Cg : convex_on D g.
Hypothesis Ch : convex_on E h.
Hypothesis Pg : prox_operator D g prox.
Hypothesis Ph : prox_operator E h (prox_dual w).
Hypothesis Ht : 0 < tau.
Hypothesis Hs : 0 < sigma.
Hypothesis Hr : 0 <= rho.
Notation cprox := (condat_prox grad prox prox_dual lop ladj).
Notation cupdate := (condat_update grad prox prox_dual lop ladj).
Notation cafter := (condat_after grad prox prox_dual lop ladj).
Notation N := (pd_sq lop tau sigma).
Implicit Type s : @condat H K W.
Definition with_params s : Prop := c_rho s = rho /\ c_sigma s = sigma /\ c_tau s = tau /\ c_w s = w.

Lemma step_two_points s s' : with_params s -> with_params s' ->
  N (c_x (cupdate s) - c_x (cupdate s'))%v (c_y (cupdate s) - c_y (cupdate s'))%v
  + rho * ((2 - rho) * N ((c_x s - fst (cprox s)) - (c_x s' - fst (cprox s')))%v ((c_y s - snd (cprox s)) - (c_y s' - snd (cprox s')))%v
               - M / 2 * nsq ((c_x s - fst (cprox s)) - (c_x s' - fst (cprox s')))%v)
  <= N (c_x s - c_x s')%v (c_y s - c_y s')%v.
Proof.
  intros (Er & Es & Et & Ew) (Er' & Es' & Et' & Ew').
  pose proof (step_x grad prox prox_dual lop ladj D g Cg Pg s ltac:(rewrite Et; exact Ht)) as SX.
  pose proof (step_x grad prox prox_dual lop ladj D g Cg Pg s' ltac:(rewrite Et'; exact Ht)) as SX'.
  pose proof (step_y grad prox prox_dual lop ladj E h Ch w Ph s ltac:(rewrite Es; exact Hs) Ew) as SY.
  pose proof (step_y grad prox prox_dual lop ladj E h Ch w Ph s' ltac:(rewrite Es'; exact Hs) Ew') as SY'.
  rewrite !update_x, !update_y. rewrite Er, Er'. rewrite Et in SX. rewrite Et' in SX'. rewrite Es in SY. rewrite Es' in SY'.
  set (p := fst (cprox s)) in *. set (q := snd (cprox s)) in *. set (p' := fst (cprox s')) in *. set (q' := snd (cprox s')) in *.
  clearbody p q p' q'. set (x := c_x s) in *. set (y := c_y s) in *. set (x' := c_x s') in *. set (y' := c_y s') in *.
  clearbody x y x' y'. clear Ew Ew' Er Er' Es Es' Et Et'. set (sg := sigma) in *.
  pose proof (subgradient_mono _ _ _ _ _ _ SX SX') as M1. pose proof (subgradient_mono _ _ _ _ _ _ SY SY') as M2. rewrite (inner_sym K) in M2.
  pose proof (gradient_cross M f grad x (p - p' + x')%v x' HM Sf) as M3. clear SX SY SX' SY'.
  replace (p - p' + x' - x')%v with (p - p')%v in M3 by vring.
  set (dx := (x - x')%v). set (dy := (y - y')%v). set (ex := ((x - p) - (x' - p'))%v) in *. set (ey := ((y - q) - (y' - q'))%v) in *.
  set (d := (grad x - grad x')%v) in *.
  assert (P1 : (p - p')%v = (dx - ex)%v) by (unfold dx, ex; vring).
  assert (P2 : (q - q')%v = (dy - ey)%v) by (unfold dy, ey; vring).
  assert (P3 : (p - p' + x' - x)%v = ((-1) * ex)%v) by (unfold ex; vring).
  replace (/ tau * (x - p) - grad x - ladj y - (/ tau * (x' - p') - grad x' - ladj y'))%v
    with (/ tau * ex - d - (ladj y - ladj y'))%v in M1 by (unfold d, ex; vring).
  rewrite P1, !inner_sub_l, inner_scal_l in M1.
  assert (Q1 : inner (ladj y) (dx - ex)%v - inner (ladj y') (dx - ex)%v = inner (lop (dx - ex)%v) dy).
  { unfold dy. generalize (dx - ex)%v. intros v. rewrite inner_sub_r, !A, (inner_sym H (ladj y)), (inner_sym H (ladj y')). reflexivity. }
  replace (/ sg * (y - q) + lop (2 * p - x) - (/ sg * (y' - q') + lop (2 * p' - x')))%v with (/ sg * ey + lop (dx - 2 * ex))%v in M2.
  2:{ replace (dx - 2 * ex)%v with ((2 * p - x) - (2 * p' - x'))%v by (unfold dx, ex; vring). rewrite (adj_sub lop ladj A).
      generalize (lop (2 * p - x)%v) (lop (2 * p' - x')%v). intros. unfold ey. vring. }
  rewrite P2, inner_add_l, inner_scal_l in M2.
  rewrite P3, P1, nsq_scal in M3.
  assert (R1 : (rho * p + (1 - rho) * x - (rho * p' + (1 - rho) * x'))%v = (dx - rho * ex)%v) by (unfold dx, ex; vring).
  assert (R2 : (rho * q + (1 - rho) * y - (rho * q' + (1 - rho) * y'))%v = (dy - rho * ey)%v) by (unfold dy, ey; vring).
  rewrite R1, R2. clear P1 P2 P3 R1 R2.
  assert (M6 : 0 <= / tau * inner ex (dx - ex)%v + M / 4 * nsq ex - inner (lop (dx - ex)%v) dy
     + / sg * inner ey (dy - ey)%v + inner (lop (dx - 2 * ex)%v) (dy - ey)%v).
  { replace (inner (ladj y) (dx - ex)%v) with (inner (lop (dx - ex)%v) dy + inner (ladj y') (dx - ex)%v) in M1 by lra. lra. }
  clear M1 M2 M3 Q1. clearbody dx dy ex ey d.
  unfold pd_sq in *. rewrite !(adj_sub lop ladj A), !(adj_scal lop ladj A) in *.
  set (Lx := lop dx) in *. set (Le := lop ex) in *. clearbody Lx Le.
  unfold nsq in *. unfold vsub in *.
  repeat rewrite ?inner_add_l, ?inner_add_r, ?inner_scal_l, ?inner_scal_r in *.
  rewrite (inner_sym H dx ex) in *. rewrite (inner_sym K dy ey) in *.
  set (a1 := inner ex ex) in *. set (a2 := inner ex dx) in *. set (b1 := inner ey ey) in *. set (b2 := inner ey dy) in *.
  set (l1 := inner Lx dy) in *. set (l2 := inner Lx ey) in *. set (l3 := inner Le dy) in *. set (l4 := inner Le ey) in *.
  unfold Rdiv in *. set (it := / tau) in *. set (is := / sg) in *.
  clearbody a1 a2 b1 b2 l1 l2 l3 l4 it is.
  assert (G : a1 * it + b1 * is - 2 * l4 - M / 4 * a1 <= a2 * it + b2 * is - l2 - l3) by lra.
  apply (Rmult_le_compat_l (2 * rho)) in G; lra.
Qed.

(** What the bound on the parameters gives: the bracket is a fraction of the norm. *)
Let k := / tau - sigma * B.
Hypothesis Hk : 0 < k.
Lemma bracket ex ey : (2 - rho - M / 2 / k) * N ex ey <= (2 - rho) * N ex ey - M / 2 * nsq ex.
Proof.
  pose proof (pd_sq_lower lop B tau sigma ex ey Ht Hs Hb) as L. fold k in L.
  assert (Q : M / 2 / k * (k * nsq ex) <= M / 2 / k * N ex ey).
  { apply Rmult_le_compat_l; [|exact L]. apply Rmult_le_pos; [lra|]. left. apply Rinv_0_lt_compat, Hk. }
  replace (M / 2 / k * (k * nsq ex)) with (M / 2 * nsq ex) in Q by (field; lra). lra.
Qed.
Lemma N_pos ex ey : 0 <= N ex ey.
Proof.
  pose proof (pd_sq_lower lop B tau sigma ex ey Ht Hs Hb) as L. fold k in L. pose proof (nsq_pos ex).
  assert (0 <= k * nsq ex) by (apply Rmult_le_pos; lra). lra.
Qed.
Lemma N_scal a ex ey : N (a * ex)%v (a * ey)%v = a * a * N ex ey.
Proof. unfold pd_sq. rewrite (adj_scal lop ladj A), !nsq_scal, inner_scal_l, inner_scal_r. unfold Rdiv. ring. Qed.

Hypothesis Hr2 : rho <= 2 - M / 2 / k.
Lemma step_apart s s' : with_params s -> with_params s' ->
  N (c_x (cupdate s) - c_x (cupdate s'))%v (c_y (cupdate s) - c_y (cupdate s'))%v <= N (c_x s - c_x s')%v (c_y s - c_y s')%v.
Proof.
  intros P P'. pose proof (step_two_points s s' P P') as Q.
  set (ex := (c_x s - fst (cprox s) - _)%v) in *. set (ey := (c_y s - snd (cprox s) - _)%v) in *.
  pose proof (bracket ex ey) as Br. pose proof (N_pos ex ey) as Np.
  assert (0 <= (2 - rho - M / 2 / k) * N ex ey) by (apply Rmult_le_pos; lra).
  assert (0 <= rho * ((2 - rho) * N ex ey - M / 2 * nsq ex)) by (apply Rmult_le_pos; lra). lra.
Qed.

Lemma move_is s : with_params s -> (c_x (cupdate s) - c_x s)%v = ((- rho) * (c_x s - fst (cprox s)))%v /\
  (c_y (cupdate s) - c_y s)%v = ((- rho) * (c_y s - snd (cprox s)))%v.
Proof. intros (Er & _). rewrite update_x, update_y, Er. split; vring. Qed.
End PD.
