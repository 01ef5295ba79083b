(** Two vanilla descents, one with exact gradients of convex functions and one with any gradients. *)
From Verif Require Import NPReal Py IPS Model_SetUp Spec_Opt Proof_Smooth Spec_Prox Proof_Prox Proof_PD Spec_GD Model_GD Proof_GD Prop_GD Proof_Ada Spec_Regret Proof_Regret.
From Coq Require Import List Lia FunctionalExtensionality.
Import ListNotations.
Local Open Scope R_scope.

Lemma norm_le_nsq {H : ips} (x y : H) : nsq x <= nsq y -> norm x <= norm y.
Proof. intros Q. apply sqrt_le_1_alt. exact Q. Qed.
Lemma norm_scal_pos {H : ips} c (x : H) : 0 <= c -> norm (c * x)%v = c * norm x.
Proof.
  intros Hc. apply Rsqr_inj; [apply norm_pos|apply Rmult_le_pos; [exact Hc|apply norm_pos]|].
  unfold Rsqr. replace (c * norm x * (c * norm x)) with (c * c * (norm x * norm x)) by ring. rewrite !norm_sq. unfold nsq. iexpand. ring.
Qed.

Lemma gradient_step_apart {H : ips} M (f : H -> R) df beta x y : 0 < M -> smooth_convex M f df -> 0 <= beta -> beta * M <= 2 ->
  norm ((x - beta * df x) - (y - beta * df y))%v <= norm (x - y)%v.
Proof.
  intros HM S Hb HbM. apply norm_le_nsq. pose proof (cocoercive M f df x y (Rlt_le _ _ HM) S) as Q.
  set (v := (df x - df y)%v) in *. set (d := (x - y)%v) in *.
  replace ((x - beta * df x) - (y - beta * df y))%v with (d - beta * v)%v by (unfold d, v; vring).
  assert (E : nsq (d - beta * v)%v = nsq d - 2 * beta * inner v d + beta * beta * nsq v) by (unfold nsq; iexpand; rewrite (inner_sym _ d v); ring).
  rewrite E. assert (V : 0 <= nsq v) by apply nsq_pos.
  assert (B1 : beta * (beta * nsq v) <= beta * (2 * inner v d)).
  { apply Rmult_le_compat_l; [exact Hb|]. 
    assert (0 <= inner v d) by (apply Rmult_le_reg_l with M; lra). apply Rle_trans with (beta * (M * inner v d)); [apply Rmult_le_compat_l; lra|]. nra. }
  lra.
Qed.

Lemma prox_apart {H : ips} D (h : H -> R) prox c x y : convex_on D h -> prox_operator D h prox -> 0 < c ->
  norm (prox x c - prox y c)%v <= norm (x - y)%v.
Proof.
  intros Ch Ph Hc.
  pose proof (prox_vi_nonexpansive _ _ _ _ _ _ (prox_operator_vi D h prox Ch Ph x c Hc) (prox_operator_vi D h prox Ch Ph y c Hc)) as Q.
  pose proof (cauchy_schwarz_norm (x - y)%v (prox x c - prox y c)%v) as C.
  rewrite <- norm_sq in Q. set (a := norm (prox x c - prox y c)%v) in *. set (b := norm (x - y)%v) in *.
  assert (0 <= a) by apply norm_pos. assert (0 <= b) by apply norm_pos.
  destruct (Req_dec a 0); [lra|]. apply Rmult_le_reg_r with a; lra.
Qed.

(** One update of each: gradient step, then, or not, the proximity operator. *)
Lemma update_apart {H : ips} D (h : H -> R) prox M (f : H -> R) df beta (b : bool) x y g : convex_on D h -> prox_operator D h prox ->
  0 < M -> smooth_convex M f df -> 0 < beta -> beta * M <= 2 ->
  norm ((if b then prox (x - beta * df x)%v beta else (x - beta * df x)%v) - (if b then prox (y - beta * g)%v beta else (y - beta * g)%v))%v
  <= norm (x - y)%v + beta * norm (df y - g)%v.
Proof.
  intros Ch Ph HM S Hb HbM.
  assert (A : norm ((x - beta * df x) - (y - beta * g))%v <= norm (x - y)%v + beta * norm (df y - g)%v).
  { rewrite <- (norm_scal_pos beta (df y - g)%v) by lra.
    replace ((x - beta * df x) - (y - beta * g))%v with (((x - beta * df x) - (y - beta * df y)) + - beta * (df y - g))%v by vring.
    apply Rle_trans with (1 := norm_triangle _ _). apply Rplus_le_compat; [apply (gradient_step_apart M f); [exact HM|exact S|lra|exact HbM]|].
    apply norm_le_nsq. right. unfold nsq. iexpand. ring. }
  destruct b; [|exact A]. apply Rle_trans with (2 := A). apply (prox_apart D h); assumption.
Qed.

(** The vanilla step in the space of the arrays, with any epoch_size. *)
Section Run.
Variables (I : Type) (grad : nat -> arr I -> arr I) (prox : arr I -> arr I -> arr I).
Variables (x0 : arr I) (eta eps : R) (ep : nat) (eu : option (R -> nat -> R)) (s : gd I).
Hypothesis Init : gd_init Vanilla x0 eta eps ep eu = Ok s.
Let x k : arr I := d_x_new (gd_after grad prox k s).
Let e k : R := d_eta (gd_after grad prox k s).
Lemma st_init : s = mk_gd Vanilla x0 x0 (full 0) (full 1) eta 0 ep eu 1 1 (fun _ => full 0) 0.
Proof. unfold gd_init in Init. cbn in Init. injection Init as <-. reflexivity. Qed.
Lemma st_old n : d_x_old (gd_after grad prox n s) = x n.
Proof. symmetry. apply after_new. rewrite st_init. reflexivity. Qed.
Lemma st_start : x 0%nat = x0. Proof. unfold x. rewrite st_init. reflexivity. Qed.
Lemma st_eta k : e 0%nat = eta /\ e (S k) = match eu with Some u => u (e k) k | None => e k end.
Proof.
  split; [unfold e; rewrite st_init; reflexivity|]. unfold e. cbn [gd_after]. unfold gd_step at 1.
  destruct (update_dir _ _ _) as [[d1 b1] m1]. destruct (update_speed _ _) as [p1 q1]. cbn [d_eta].
  destruct (after_consts grad prox k s) as (_ & _ & _ & -> & _). rewrite st_init at 1. reflexivity.
Qed.
Lemma st_step (l : list I) (complete : forall i, In i l) k : let H := fin_ips I l complete in
  x (S k) = let y := vsub (H := H) (x k) (vscal (i := H) (e k) (grad k (x k))) in
            if Nat.eqb (Nat.modulo k ep) 0 then prox y (full (e k)) else y.
Proof.
  intros H. rewrite <- st_old. cbn [gd_after]. rewrite x_step, epoch_after.
  replace (d_epoch_size s) with ep by (rewrite st_init; reflexivity).
  destruct (unit_speed grad prox k s) as [_ N]; [left|..]; try (rewrite st_init; reflexivity).
  assert (Dd : descent grad k (gd_after grad prox k s) = vsub (H := H) (x k) (vscal (i := H) (e k) (grad k (x k)))).
  { unfold descent. rewrite N. extensionality i. unfold new_dir, update_dir. rewrite class_after.
    replace (d_class s) with Vanilla by (rewrite st_init; reflexivity). cbn [fst].
    destruct (after_consts grad prox k s) as (_ & _ & _ & _ & ->). replace (d_calls s) with 0%nat by (rewrite st_init; reflexivity).
    rewrite st_old. replace (k + 0)%nat with k by lia. replace (0 + k)%nat with k by lia. unfold full, e, vsub. cbn. ring. }
  rewrite Dd, N. reflexivity.
Qed.
End Run.

Lemma two_apart {I} (l : list I) (complete : forall i, In i l) D h prox M f grad grad' (x0 y0 : arr I) eta eps eps' ep eu s t (e : nat -> R) :
  let H := fin_ips I l complete in
  convex_on (H := H) D h -> prox_operator (H := H) D h (fun y c => prox y (full c)) ->
  0 < M -> (forall k, smooth_convex (H := H) M (f k) (grad k)) ->
  gd_init Vanilla x0 eta eps ep eu = Ok s -> gd_init Vanilla y0 eta eps' ep eu = Ok t ->
  e 0%nat = eta -> (forall k, e (S k) = match eu with Some u => u (e k) k | None => e k end) -> (forall k, 0 < e k) -> (forall k, e k * M <= 2) ->
  let x k := d_x_new (gd_after grad prox k s) in
  let y k := d_x_new (gd_after grad' prox k t) in
  forall m n, (m <= n)%nat -> norm (H := H) (vsub (H := H) (x n) (y n)) <=
  norm (H := H) (vsub (H := H) (x m) (y m)) + (sum_below n (fun k => e k * norm (H := H) (vsub (H := H) (grad k (y k)) (grad' k (y k))))
   - sum_below m (fun k => e k * norm (H := H) (vsub (H := H) (grad k (y k)) (grad' k (y k))))).
Proof.
  intros H Ch Ph HM Sf Is It E0 ES Pe Be x y m n Hmn.
  assert (Ee : forall g (z0 : arr I) ez r, gd_init Vanilla z0 eta ez ep eu = Ok r -> forall k, d_eta (gd_after g prox k r) = e k).
  { intros g z0 ez r Ir. induction k as [|k IH].
    - rewrite E0. apply (st_eta I g prox _ _ _ _ _ _ Ir 0%nat).
    - destruct (st_eta I g prox _ _ _ _ _ _ Ir k) as [_ Q]. cbv beta zeta in Q. rewrite Q, IH. symmetry. apply ES. }
  induction Hmn as [|n Hmn IH]; [lra|]. cbn [sum_below].
  pose proof (st_step I grad prox _ _ _ _ _ _ Is l complete n) as Sx. pose proof (st_step I grad' prox _ _ _ _ _ _ It l complete n) as Sy.
  cbv beta zeta in Sx, Sy. rewrite (Ee _ _ _ _ Is) in Sx. rewrite (Ee _ _ _ _ It) in Sy. fold (x (S n)) (x n) in Sx. fold (y (S n)) (y n) in Sy. rewrite Sx, Sy.
  pose proof (update_apart (H := H) D h (fun y c => prox y (full c)) M (f n) (grad n) (e n) (Nat.eqb (Nat.modulo n ep) 0) (x n) (y n) (grad' n (y n)) Ch Ph HM (Sf n) (Pe n) (Be n)) as U.
  cbv beta in U. apply Rle_trans with (1 := U). clear U Sx Sy. subst H. cbv beta in *. lra.
Qed.
