(** POGM with the identity proximity operator: energy estimates and the limit of the values. *)
From Verif Require Import NPReal Py IPS Spec_Opt Spec_Lim Proof_Smooth Proof_Lim Proof_Iter Proof_PD Model_FB Proof_FB2.
From Coq Require Import List Lia ConstructiveEpsilon Classical.
Local Open Scope R_scope.

Section Pogm.
Context {H : ips}.
Variables (f : H -> R) (grad : H -> H) (beta : R).
Hypothesis Hb : 0 < beta.
Hypothesis Sf : smooth_convex (/ beta) f grad.

Lemma co x y : f x + inner (grad x) (y - x)%v + beta / 2 * nsq (grad y - grad x)%v <= f y.
Proof.
  pose proof (cocoercive_half (/ beta) f grad x y ltac:(apply Rinv_0_lt_compat, Hb) Sf) as Q.
  replace (/ (2 * / beta)) with (beta / 2) in Q by (field; lra). exact Q.
Qed.

Section Energy.
Variable xs : H.
Hypothesis Gs : grad xs = vzero.
Definition gap x := f x - beta / 2 * nsq (grad x) - f xs.

Lemma gap_pos x : 0 <= gap x.
Proof. pose proof (co xs x) as Q. rewrite Gs, inner_0_l, vsub_0_r in Q. unfold gap. lra. Qed.
Lemma gap_star x : gap x + beta * nsq (grad x) <= inner (grad x) (x - xs)%v.
Proof.
  pose proof (co x xs) as Q. rewrite Gs in Q. replace (vzero - grad x)%v with ((-1) * grad x)%v in Q by vring. rewrite nsq_scal in Q.
  replace (inner (grad x) (xs - x)%v) with (- inner (grad x) (x - xs)%v) in Q by (iexpand; ring). unfold gap. lra.
Qed.
Lemma gap_prev x p : gap x + beta * nsq (grad x) - gap p <= inner (grad x) (x - (p - beta * grad p))%v.
Proof.
  pose proof (co x p) as Q. set (g := grad x) in *. set (q := grad p) in *.
  replace (nsq (q - g)%v) with (nsq q - 2 * inner g q + nsq g) in Q by (unfold nsq; rewrite inner_sub_l, !inner_sub_r, (inner_sym H q g); ring).
  replace (inner g (p - x)%v) with (- inner g (x - p)%v) in Q by (iexpand; ring).
  replace (inner g (x - (p - beta * q))%v) with (inner g (x - p)%v + beta * inner g q) by (iexpand; ring).
  unfold gap. fold g q. lra.
Qed.
Lemma value_grad x : f x - f xs <= norm (grad x) * norm (x - xs)%v.
Proof.
  pose proof (co x xs) as Q. pose proof (nsq_pos (grad xs - grad x)%v) as P. pose proof (cauchy_schwarz_norm (grad x) (x - xs)%v) as C.
  replace (inner (grad x) (xs - x)%v) with (- inner (grad x) (x - xs)%v) in Q by (iexpand; ring).
  assert (0 <= beta / 2 * nsq (grad xs - grad x)%v) by (apply Rmult_le_pos; lra). lra.
Qed.
Lemma grad_step x : nsq (x - beta * grad x - xs)%v + beta * beta * nsq (grad x) <= nsq (x - xs)%v.
Proof.
  pose proof (gap_star x) as Q. pose proof (gap_pos x) as P.
  replace (x - beta * grad x - xs)%v with ((x - xs) - beta * grad x)%v by vring. set (d := (x - xs)%v) in *. set (g := grad x) in *.
  replace (nsq (d - beta * g)%v) with (nsq d - 2 * beta * inner g d + beta * beta * nsq g) by (unfold nsq; rewrite inner_sub_l, !inner_sub_r, !inner_scal_l, !inner_scal_r, (inner_sym H d g); ring).
  assert (beta * (beta * nsq g) <= beta * inner g d) by (apply Rmult_le_compat_l; lra). lra.
Qed.

Definition einv (t sigma : R) (x u p : H) (Rsq : R) : Prop :=
  1 <= t /\ 0 <= sigma <= 1 /\ (t = 1 \/ u = (p - beta * grad p)%v) /\
  (1 + sigma) * (t * t - t) * gap p + nsq (t * x - (t - 1) * u - xs)%v / (2 * beta) <= Rsq / (2 * beta).

Lemma core t sigma x u p Rsq : einv t sigma x u p Rsq ->
  (1 + sigma) * (t * t) * (gap x + (1 - sigma) / 2 * (beta * nsq (grad x)))
    + nsq (t * x - (t - 1) * u - (1 + sigma) * t * beta * grad x - xs)%v / (2 * beta) <= Rsq / (2 * beta).
Proof.
  intros (Ht & Hs & Hu & E). set (g := grad x). set (v := (t * x - (t - 1) * u)%v) in *.
  assert (Q : t * (gap x + beta * nsq g) * t - (t * t - t) * gap p <= t * inner g (v - xs)%v).
  { assert (Ev : (v - xs)%v = ((x - xs) + (t - 1) * (x - u))%v) by (unfold v; vring).
    rewrite Ev, inner_add_r, inner_scal_r. pose proof (gap_star x) as Q1. fold g in Q1.
    destruct Hu as [->|Hu].
    - nra.
    - pose proof (gap_prev x p) as Q2. rewrite <- Hu in Q2. fold g in Q2.
      apply (Rmult_le_compat_l t) in Q1; [|lra]. apply (Rmult_le_compat_l (t * (t - 1))) in Q2; [|apply Rmult_le_pos; lra]. lra. }
  replace (v - (1 + sigma) * t * beta * g - xs)%v with ((v - xs) - (1 + sigma) * t * beta * g)%v by vring. set (d := (v - xs)%v) in *.
  replace (nsq (d - (1 + sigma) * t * beta * g)%v) with (nsq d - 2 * ((1 + sigma) * t * beta) * inner g d + ((1 + sigma) * t * beta) * ((1 + sigma) * t * beta) * nsq g)
    by (unfold nsq; rewrite inner_sub_l, !inner_sub_r, !inner_scal_l, !inner_scal_r, (inner_sym H d g); ring).
  apply (Rmult_le_compat_l (1 + sigma)) in Q; [|lra].
  replace ((nsq d - 2 * ((1 + sigma) * t * beta) * inner g d + (1 + sigma) * t * beta * ((1 + sigma) * t * beta) * nsq g) / (2 * beta))
    with (nsq d / (2 * beta) - (1 + sigma) * (t * inner g d) + (1 + sigma) * (1 + sigma) * (t * t) * beta / 2 * nsq g) by (field; lra).
  lra.
Qed.

Lemma value t sigma x u p Rsq : einv t sigma x u p Rsq -> f x - f xs <= Rsq / (2 * beta * (t * t)).
Proof.
  intros E. pose proof (core t sigma x u p Rsq E) as C. destruct E as (Ht & Hs & _ & E).
  set (g := grad x) in *. set (P := (t * x - (t - 1) * u - xs)%v) in *.
  replace (t * x - (t - 1) * u - (1 + sigma) * t * beta * g - xs)%v with (P - (1 + sigma) * t * beta * g)%v in C by (unfold P; vring).
  set (w := ((1 + sigma) * t * beta * g)%v) in *. set (Q := (P - w)%v) in *.
  assert (B : nsq P <= Rsq).
  { assert (0 <= (1 + sigma) * (t * t - t) * gap p) by (apply Rmult_le_pos; [apply Rmult_le_pos; nra|apply gap_pos]).
    assert (X : nsq P / (2 * beta) <= Rsq / (2 * beta)) by lra. apply Rmult_le_reg_r with (/ (2 * beta)); [apply Rinv_0_lt_compat; lra|exact X]. }
  assert (W : sigma * nsq w <= sigma * (1 + sigma) * nsq P + (1 + sigma) * nsq Q).
  { replace w with (P - Q)%v by (unfold Q; vring). pose proof (nsq_pos (sigma * P + Q)%v) as S0.
    replace (nsq (sigma * P + Q)%v) with (sigma * sigma * nsq P + 2 * sigma * inner P Q + nsq Q) in S0
      by (unfold nsq; rewrite inner_add_l, !inner_add_r, !inner_scal_l, !inner_scal_r, (inner_sym H Q P); ring).
    replace (nsq (P - Q)%v) with (nsq P - 2 * inner P Q + nsq Q) by (unfold nsq; rewrite inner_sub_l, !inner_sub_r, (inner_sym H Q P); ring).
    lra. }
  assert (Nw : nsq w = (1 + sigma) * (1 + sigma) * (t * t) * (beta * beta) * nsq g) by (unfold w; rewrite nsq_scal; ring).
  assert (C' : (1 + sigma) * (t * t) * (2 * beta) * (gap x + (1 - sigma) / 2 * (beta * nsq g)) + nsq Q <= Rsq).
  { apply (Rmult_le_compat_r (2 * beta)) in C; [|lra]. rewrite Rmult_plus_distr_r in C.
    replace (nsq Q / (2 * beta) * (2 * beta)) with (nsq Q) in C by (field; lra). replace (Rsq / (2 * beta) * (2 * beta)) with Rsq in C by (field; lra). lra. }
  apply Rmult_le_reg_r with (2 * beta * (t * t)); [repeat apply Rmult_lt_0_compat; lra|].
  replace (Rsq / (2 * beta * (t * t)) * (2 * beta * (t * t))) with Rsq by (field; lra).
  apply Rmult_le_reg_l with (1 + sigma); [lra|].
  assert (Ef : f x - f xs = gap x + (1 - sigma) / 2 * (beta * nsq g) + sigma / 2 * (beta * nsq g)) by (unfold gap; fold g; field).
  rewrite Ef. rewrite Nw in W.
  assert (W' : sigma * ((1 + sigma) * (t * t) * (beta * beta) * nsq g) <= sigma * nsq P + nsq Q).
  { apply Rmult_le_reg_l with (1 + sigma); [lra|]. lra. }
  assert (sigma * nsq P <= sigma * Rsq) by (apply Rmult_le_compat_l; lra). lra.
Qed.

Lemma energy_step t sigma sigma' x u p Rsq Ql t' : einv t sigma x u p Rsq -> nsq (x - xs)%v <= Rsq - Ql / (t * t) ->
  0 <= sigma' <= sigma -> 1 < t' -> t' * t' - t' = t * t ->
  let u' := (x - beta * grad x)%v in
  let x' := (u' + (t - 1) / t' * (u' - u) + sigma * t / t' * (u' - x))%v in
  einv t' sigma' x' u' x Rsq /\ nsq (x' - xs)%v <= Rsq - (Ql + t * t * (beta * beta * nsq (grad x))) / (t' * t').
Proof.
  intros E L Hs' Ht' Et u' x'. pose proof (core t sigma x u p Rsq E) as C. destruct E as (Ht & Hs & _ & _).
  set (g := grad x) in *. set (v' := (t * x - (t - 1) * u - (1 + sigma) * t * beta * g)%v) in *.
  assert (Ev : (t' * x' - (t' - 1) * u')%v = v').
  { unfold x', v', u'. fold g. vfield. lra. }
  pose proof (gap_pos x) as Gp. pose proof (nsq_pos g) as Ng.
  assert (G2 : 0 <= (1 - sigma) / 2 * (beta * nsq g)) by (apply Rmult_le_pos; [lra|apply Rmult_le_pos; lra]).
  assert (Tt : 0 <= t * t) by nra.
  split.
  - split; [lra|]. split; [lra|]. split; [right; reflexivity|]. rewrite Ev, Et.
    assert ((1 + sigma') * (t * t) * gap x <= (1 + sigma) * (t * t) * gap x) by (apply Rmult_le_compat_r; [exact Gp|]; apply Rmult_le_compat_r; lra).
    assert (0 <= (1 + sigma) * (t * t) * ((1 - sigma) / 2 * (beta * nsq g))) by (apply Rmult_le_pos; [apply Rmult_le_pos; lra|exact G2]). lra.
  - assert (V : nsq (v' - xs)%v <= Rsq).
    { assert (0 <= (1 + sigma) * (t * t) * (gap x + (1 - sigma) / 2 * (beta * nsq g))) by (apply Rmult_le_pos; [apply Rmult_le_pos; lra|lra]).
      apply Rmult_le_reg_r with (/ (2 * beta)); [apply Rinv_0_lt_compat; lra|]. unfold Rdiv in C. lra. }
    pose proof (grad_step x) as U. fold g in U. fold u' in U.
    assert (Ex : (t' * (x' - xs))%v = ((t' - 1) * (u' - xs) + (v' - xs))%v) by (rewrite <- Ev; vring).
    set (a := (u' - xs)%v) in *. set (b := (v' - xs)%v) in *. set (c := (x' - xs)%v) in *.
    assert (K : t' * nsq c <= (t' - 1) * nsq a + nsq b).
    { assert (N1 : nsq (t' * c)%v = t' * t' * nsq c) by apply nsq_scal. rewrite Ex in N1.
      pose proof (nsq_pos (a - b)%v) as Nab.
      replace (nsq (a - b)%v) with (nsq a - 2 * inner a b + nsq b) in Nab by (unfold nsq; rewrite inner_sub_l, !inner_sub_r, (inner_sym H b a); ring).
      replace (nsq ((t' - 1) * a + b)%v) with ((t' - 1) * (t' - 1) * nsq a + 2 * (t' - 1) * inner a b + nsq b) in N1
        by (unfold nsq; rewrite inner_add_l, !inner_add_r, !inner_scal_l, !inner_scal_r, (inner_sym H b a); ring).
      apply Rmult_le_reg_l with t'; [lra|]. apply (Rmult_le_compat_l (t' - 1)) in Nab; [|lra]. lra. }
    assert (K2 : t' * nsq c <= (t' - 1) * (Rsq - Ql / (t * t) - beta * beta * nsq g) + Rsq).
    { apply Rle_trans with (1 := K). apply Rplus_le_compat; [|exact V]. apply Rmult_le_compat_l; lra. }
    apply Rmult_le_reg_l with t'; [lra|]. apply Rle_trans with (1 := K2). right.
    assert (T0 : t <> 0) by lra. replace (t' - 1) with (t * t / t') by (rewrite <- Et; field; lra). 
    assert (E1 : t * t / t' * Rsq + Rsq = t' * Rsq) by (rewrite <- Et; field; lra).
    replace (t * t / t' * (Rsq - Ql / (t * t) - beta * beta * nsq g) + Rsq) with (t * t / t' * Rsq + Rsq - (Ql + t * t * (beta * beta * nsq g)) / t') by (field; lra).
    rewrite E1. field. lra.
Qed.
End Energy.

(** * States *)
Variable prox : H -> R -> H.
Hypothesis Hid : forall y c, prox y c = y.

Definition tnext t := / 2 * (1 + sqrt (1 + 4 * t ^ 2)).
Lemma tnext_sq t : tnext t * tnext t - tnext t = t * t.
Proof.
  unfold tnext. pose proof (sqrt_sqrt (1 + 4 * t ^ 2) ltac:(nra)) as Q. set (r := sqrt (1 + 4 * t ^ 2)) in *.
  replace (/ 2 * (1 + r) * (/ 2 * (1 + r)) - / 2 * (1 + r)) with ((r * r - 1) / 4) by field. rewrite Q. field.
Qed.
Lemma tnext_grow t : 1 <= t -> t + / 2 <= tnext t.
Proof.
  intros Ht. unfold tnext. assert (2 * t <= sqrt (1 + 4 * t ^ 2)); [|lra]. rewrite <- (sqrt_Rsqr (2 * t)) by lra. apply sqrt_le_1_alt. unfold Rsqr. nra.
Qed.

Lemma update_facts s : po_beta s = beta -> 0 <= po_sigma_bar s <= 1 -> pogm_ok s -> (po_t s = 1 \/ po_x s = po_z s) ->
  let s' := pogm_update grad prox s in let u' := (po_x s - beta * grad (po_x s))%v in
  po_beta s' = beta /\ po_sigma_bar s' = po_sigma_bar s /\ pogm_ok s' /\ po_x s' = po_z s' /\ po_u s' = u' /\
  po_x s' = (u' + (po_t s - 1) / tnext (po_t s) * (u' - po_u s) + po_sigma s * po_t s / tnext (po_t s) * (u' - po_x s))%v /\
  (po_t s' = 1 \/ po_t s' = tnext (po_t s) /\ 0 <= po_sigma s' <= po_sigma s).
Proof.
  intros Eb Hs Hok Hz. cbv zeta. destruct (pogm_update_shape grad prox s ltac:(lra) Hs Hok) as (O & E1 & E2 & E3 & _).
  split; [congruence|]. split; [exact E2|]. split; [exact O|]. split; [rewrite E3; apply Hid|]. clear O E1 E2.
  destruct Hok as (T & Sg & X). rewrite E3, Hid. clear E3.
  assert (Mul : 0 <= po_sigma s * po_sigma_bar s <= po_sigma s) by (split; [apply Rmult_le_pos; lra|nra]).
  assert (A : forall b u, ((- ((po_t s - 1) / tnext (po_t s) * po_beta s / po_xi s)) * (po_x s - po_z s) + ((- po_beta s) * grad (po_x s) + po_x s)
      + (po_t s - 1) / tnext (po_t s) * ((- po_beta s) * grad (po_x s) + po_x s - u) + b * ((- po_beta s) * grad (po_x s) + po_x s - po_x s))%v
    = (po_x s - beta * grad (po_x s) + (po_t s - 1) / tnext (po_t s) * (po_x s - beta * grad (po_x s) - u) + b * (po_x s - beta * grad (po_x s) - po_x s))%v).
  { intros b u. rewrite Eb. pose proof (tnext_grow _ T) as G. generalize dependent (tnext (po_t s)). intros tn G. destruct Hz as [-> | ->].
    - replace ((1 - 1) / tn) with 0 by (field; lra). replace (0 * beta / po_xi s) with 0 by (field; lra). vring.
    - vfield. repeat split; lra. }
  unfold pogm_update. fold (tnext (po_t s)).
  repeat match goal with |- context [Rlt_dec ?u ?v] => destruct (Rlt_dec u v) end; cbn;
    (split; [rewrite Eb; vring|]); (split; [apply A|]); auto; right; split; auto; lra.
Qed.

Section Run.
Variable xs : H.
Hypothesis Gs : grad xs = vzero.

Definition sinv (Rsq Ql : R) (s : @pogm H) : Prop :=
  po_beta s = beta /\ 0 <= po_sigma_bar s <= 1 /\ pogm_ok s /\ (po_t s = 1 \/ po_x s = po_z s) /\ 0 <= Ql /\
  nsq (po_x s - xs)%v <= Rsq - Ql / (po_t s * po_t s) /\ exists p, einv xs (po_t s) (po_sigma s) (po_x s) (po_u s) p Rsq.

Lemma sinv_fresh s : po_beta s = beta -> 0 <= po_sigma_bar s <= 1 -> pogm_ok s -> po_t s = 1 -> sinv (nsq (po_x s - xs)%v) 0 s.
Proof.
  intros Eb Hs Hok Ht. unfold sinv. rewrite Ht. do 3 (split; [assumption|]). split; [left; reflexivity|]. split; [lra|]. split.
  - right. field.
  - exists vzero. destruct Hok as (_ & Sg & _). split; [lra|]. split; [exact Sg|]. split; [left; reflexivity|].
    replace (1 * po_x s - (1 - 1) * po_u s - xs)%v with (po_x s - xs)%v by vring. right. ring.
Qed.

Lemma sinv_step Rsq Ql s : sinv Rsq Ql s ->
  let s' := pogm_update grad prox s in let t' := tnext (po_t s) in let Ql' := Ql + po_t s * po_t s * (beta * beta * nsq (grad (po_x s))) in
  nsq (po_x s' - xs)%v <= Rsq - Ql' / (t' * t') /\ f (po_x s') - f xs <= Rsq / (2 * beta * (t' * t')) /\
  (po_t s' = 1 /\ sinv (nsq (po_x s' - xs)%v) 0 s' \/ po_t s' = t' /\ sinv Rsq Ql' s').
Proof.
  intros (Eb & Hs & Hok & Hz & Pq & L & p & E) s' t' Ql'.
  destruct (update_facts s Eb Hs Hok Hz) as (Eb' & Es' & Hok' & Ez & Eu & Ex & Alt). fold s' in Eb', Es', Hok', Ez, Eu, Ex, Alt.
  pose proof Hok as (T & Sg & _). pose proof (tnext_grow _ T) as G. fold t' in G, Ex, Alt. pose proof (tnext_sq (po_t s)) as Tq. fold t' in Tq.
  destruct (energy_step xs Gs (po_t s) (po_sigma s) (po_sigma s) (po_x s) (po_u s) p Rsq Ql t' E L ltac:(lra) ltac:(lra) Tq) as (E1 & E2).
  rewrite <- Ex in E1, E2. fold Ql' in E2. split; [exact E2|]. split; [apply (value xs Gs _ _ _ _ _ _ E1)|].
  destruct Alt as [R0|[R0 R1]].
  - left. split; [exact R0|]. apply sinv_fresh; try assumption. rewrite Es'. exact Hs.
  - right. split; [exact R0|]. destruct (energy_step xs Gs (po_t s) (po_sigma s) (po_sigma s') (po_x s) (po_u s) p Rsq Ql t' E L R1 ltac:(lra) Tq) as (E3 & _).
    rewrite <- Ex in E3. unfold sinv. rewrite Es', R0. do 3 (split; [assumption|]). split; [right; assumption|]. split; [|split; [assumption|]].
    + unfold Ql'. pose proof (nsq_pos (grad (po_x s))). assert (0 <= po_t s * po_t s) by nra. assert (0 <= beta * beta * nsq (grad (po_x s))) by (apply Rmult_le_pos; nra). assert (0 <= po_t s * po_t s * (beta * beta * nsq (grad (po_x s)))) by (apply Rmult_le_pos; assumption). lra.
    + rewrite Eu. exists (po_x s). exact E3.
Qed.

Lemma sinv_dist Rsq Ql s : sinv Rsq Ql s -> nsq (po_x s - xs)%v <= Rsq.
Proof.
  intros (_ & _ & (T & _) & _ & Pq & L & _). assert (0 <= Ql / (po_t s * po_t s)); [|lra].
  unfold Rdiv. apply Rmult_le_pos; [exact Pq|]. left. apply Rinv_0_lt_compat. nra.
Qed.

Lemma run_inv s n : po_beta s = beta -> 0 <= po_sigma_bar s <= 1 -> pogm_ok s -> po_t s = 1 ->
  exists Rsq Ql, Rsq <= nsq (po_x s - xs)%v /\ sinv Rsq Ql (pogm_after grad prox n s).
Proof.
  intros Eb Hs Hok Ht. induction n as [|n (Rsq & Ql & L & I)].
  - exists (nsq (po_x s - xs)%v), 0. split; [lra|]. apply sinv_fresh; assumption.
  - change (pogm_after grad prox (S n) s) with (pogm_update grad prox (pogm_after grad prox n s)).
    destruct (sinv_step Rsq Ql _ I) as (D & _ & [[T' I']|[T' I']]).
    + do 2 eexists. split; [|exact I']. apply Rle_trans with (2 := L). destruct I as (_ & _ & (T & _) & _ & Pq & _).
      pose proof (tnext_grow _ T). pose proof (nsq_pos (grad (po_x (pogm_after grad prox n s)))).
      match type of D with _ <= _ - ?a / ?b => assert (0 <= a / b) end; [|lra].
      unfold Rdiv. apply Rmult_le_pos; [|left; apply Rinv_0_lt_compat; nra].
      assert (0 <= po_t (pogm_after grad prox n s) * po_t (pogm_after grad prox n s) * (beta * beta * nsq (grad (po_x (pogm_after grad prox n s)))));
        [|lra]. apply Rmult_le_pos; [nra|]. apply Rmult_le_pos; nra.
    + do 2 eexists. split; [exact L|exact I'].
Qed.

(** The updates up to the next reset. *)
Lemma epoch s k : po_beta s = beta -> 0 <= po_sigma_bar s <= 1 -> pogm_ok s -> po_t s = 1 ->
  (forall i, (0 < i <= k)%nat -> po_t (pogm_after grad prox i s) <> 1) ->
  exists Ql, ((0 < k)%nat -> beta * beta * nsq (grad (po_x s)) <= Ql) /\ sinv (nsq (po_x s - xs)%v) Ql (pogm_after grad prox k s) /\
    1 + INR k / 2 <= po_t (pogm_after grad prox k s).
Proof.
  intros Eb Hs Hok Ht. induction k as [|k IH]; intros Nr.
  - exists 0. split; [lia|]. split; [apply sinv_fresh; assumption|]. cbn. rewrite Ht. lra.
  - destruct IH as (Ql & L & I & G); [intros i Hi; apply Nr; lia|].
    pose proof (Nr (S k) ltac:(lia)) as N1. change (pogm_after grad prox (S k) s) with (pogm_update grad prox (pogm_after grad prox k s)) in *.
    destruct (sinv_step _ Ql _ I) as (_ & _ & [[T' _]|[T' I']]); [contradiction|].
    eexists. split; [|split; [exact I'|]].
    + intros _. destruct I as (_ & _ & (T & _) & _ & Pq & _). destruct k as [|k].
      * cbn. rewrite Ht. lra.
      * specialize (L ltac:(lia)). match goal with |- _ <= _ + ?a => assert (0 <= a) end; [|lra].
        pose proof (nsq_pos (grad (po_x (pogm_after grad prox (S k) s)))). apply Rmult_le_pos; [nra|apply Rmult_le_pos; nra].
    + rewrite T', S_INR. destruct I as (_ & _ & (T & _) & _). pose proof (tnext_grow _ T). lra.
Qed.

(** The distance lost between two resets. *)
Lemma epoch_loss s k : po_beta s = beta -> 0 <= po_sigma_bar s <= 1 -> pogm_ok s -> po_t s = 1 ->
  (forall i, (0 < i <= k)%nat -> po_t (pogm_after grad prox i s) <> 1) ->
  let x' := po_x (pogm_after grad prox (S k) s) in
  exists th, 1 <= th /\ nsq (x' - xs)%v <= nsq (po_x s - xs)%v - beta * beta * nsq (grad (po_x s)) / (th * th) /\ f x' - f xs <= nsq (po_x s - xs)%v / (2 * beta * (th * th)).
Proof.
  intros Eb Hs Hok Ht Nr x'. destruct (epoch s k Eb Hs Hok Ht Nr) as (Ql & L & I & G).
  unfold x'. change (pogm_after grad prox (S k) s) with (pogm_update grad prox (pogm_after grad prox k s)). set (s' := pogm_after grad prox k s) in *.
  destruct (sinv_step _ Ql s' I) as (A & B & _). destruct I as (_ & _ & (T & _) & _ & Pq & _). pose proof (tnext_grow _ T) as G'.
  exists (tnext (po_t s')). split; [lra|]. split; [|exact B]. apply Rle_trans with (1 := A). apply Rplus_le_compat_l, Ropp_le_contravar.
  unfold Rdiv. apply Rmult_le_compat_r; [left; apply Rinv_0_lt_compat; nra|].
  destruct k as [|k].
  - change s' with s. rewrite Ht. lra.
  - specialize (L ltac:(lia)). match goal with |- _ <= _ + ?a => assert (0 <= a) end; [|lra].
    pose proof (nsq_pos (grad (po_x s'))). apply Rmult_le_pos; [nra|apply Rmult_le_pos; nra].
Qed.
End Run.

(** * The limit *)
Section Limit.
Hypothesis FD : finite_dimensional H.
Variables (s0 : @pogm H) (xs : H).
Hypothesis (Gs : grad xs = vzero) (Eb : po_beta s0 = beta) (Hs : 0 <= po_sigma_bar s0 <= 1) (Hok : pogm_ok s0) (Ht : po_t s0 = 1).
Let S n := pogm_after grad prox n s0.
Let X n := po_x (S n).

Lemma later n k : pogm_after grad prox k (S n) = S (n + k).
Proof. induction k as [|k IH]; [rewrite Nat.add_0_r; reflexivity|]. rewrite Nat.add_succ_r. change (pogm_update grad prox (pogm_after grad prox k (S n)) = pogm_update grad prox (S (n + k)%nat)). rewrite IH. reflexivity. Qed.
Lemma state_ok n : po_beta (S n) = beta /\ 0 <= po_sigma_bar (S n) <= 1 /\ pogm_ok (S n).
Proof.
  destruct (pogm_after_ok grad prox s0 n ltac:(lra) Hs Hok) as (A & B & C & _). unfold S. rewrite B, C. auto.
Qed.
Lemma closer z : grad z = vzero -> forall n k, po_t (S n) = 1 -> nsq (X (n + k) - z)%v <= nsq (X n - z)%v.
Proof.
  intros Gz n k T. destruct (state_ok n) as (A & B & C). destruct (run_inv z Gz (S n) k A B C T) as (Rsq & Ql & L & I).
  rewrite later in I. apply Rle_trans with (2 := L). apply (sinv_dist z Rsq Ql _ I).
Qed.

Hypothesis Inf : forall N, exists n, (N <= n)%nat /\ po_t (S n) = 1.

Lemma next_reset n : exists k, po_t (S (n + Datatypes.S k)) = 1 /\ forall i, (0 < i <= k)%nat -> po_t (S (n + i)) <> 1.
Proof.
  destruct (Inf (Datatypes.S n)) as (m & Hm & T).
  assert (E : exists k, po_t (S (n + Datatypes.S k)) = 1) by (exists (m - n - 1)%nat; replace (n + Datatypes.S (m - n - 1))%nat with m by lia; exact T).
  destruct E as (k & Tk). clear m Hm T. revert Tk. induction k as [k IH] using lt_wf_ind. intros Tk.
  destruct (classic (exists i, (0 < i <= k)%nat /\ po_t (S (n + i)) = 1)) as [(i & Hi & Ti)|No].
  - apply (IH (i - 1)%nat); [lia|]. replace (Datatypes.S (i - 1)) with i by lia. exact Ti.
  - exists k. split; [exact Tk|]. intros i Hi Q. apply No. exists i. auto.
Qed.

Lemma small_values e N : 0 < e -> exists n, (N <= n)%nat /\ po_t (S n) = 1 /\ f (X n) - f xs < e.
Proof.
  intros He. apply NNPP. intros No.
  assert (Big : forall n, (N <= n)%nat -> po_t (S n) = 1 -> e <= f (X n) - f xs).
  { intros n Hn T. destruct (Rle_lt_dec e (f (X n) - f xs)); [assumption|]. exfalso. apply No. exists n. auto. }
  set (D := nsq (X 0%nat - xs)%v).
  assert (Dn : forall n, nsq (X n - xs)%v <= D) by (intros n; apply (closer xs Gs 0%nat n); exact Ht).
  destruct (Inf N) as (n0 & Hn0 & T0).
  assert (Pd : 0 < D).
  { pose proof (Big n0 Hn0 T0) as B. pose proof (value_grad xs (X n0)) as V. pose proof (nsq_pos (X n0 - xs)%v) as P. specialize (Dn n0).
    destruct (Req_dec D 0) as [Z|Z]; [|unfold D in *; pose proof (nsq_pos (X 0%nat - xs)%v); lra].
    assert (Z1 : nsq (X n0 - xs)%v = 0) by lra. rewrite <- norm_sq in Z1. assert (Z2 : norm (X n0 - xs)%v = 0) by nra. rewrite Z2 in V. lra. }
  set (c := beta * beta * (e * e / D) * (2 * beta * e / D)).
  assert (Pc : 0 < c) by (unfold c; repeat apply Rmult_lt_0_compat; try apply Rinv_0_lt_compat; lra).
  assert (Fall : forall j, exists n, (N <= n)%nat /\ po_t (S n) = 1 /\ nsq (X n - xs)%v <= D - INR j * c).
  { induction j as [|j (n & Hn & T & L)].
    - exists n0. split; [exact Hn0|]. split; [exact T0|]. cbn [INR]. specialize (Dn n0). lra.
    - destruct (next_reset n) as (k & Tk & Nk). exists (n + Datatypes.S k)%nat. split; [lia|]. split; [exact Tk|].
      destruct (state_ok n) as (A & B & C). destruct (epoch_loss xs Gs (S n) k A B C T) as (th & Hth & L1 & L2).
      + intros i Hi. rewrite later. apply Nk. exact Hi.
      + rewrite later in L1, L2. fold (X (n + Datatypes.S k)) in L1, L2. fold (X n) in L1, L2.
        pose proof (Big n Hn T) as B1. pose proof (Big (n + Datatypes.S k)%nat ltac:(lia) Tk) as B2.
        pose proof (value_grad xs (X n)) as V. pose proof (Dn n) as Dn1.
        set (G := norm (grad (X n))) in *. set (d := norm (X n - xs)%v) in *.
        assert (Ed : d * d = nsq (X n - xs)%v) by apply norm_sq. assert (EG : G * G = nsq (grad (X n))) by apply norm_sq.
        assert (Pg : 0 <= G) by apply norm_pos. assert (Pn : 0 <= d) by apply norm_pos.
        assert (Tt : 0 < th * th) by nra.
        assert (I1 : 2 * beta * e / D <= / (th * th)).
        { apply Rmult_le_reg_r with (D * (th * th)); [apply Rmult_lt_0_compat; lra|].
          replace (2 * beta * e / D * (D * (th * th))) with (2 * beta * (th * th) * e) by (field; lra).
          replace (/ (th * th) * (D * (th * th))) with D by (field; nra).
          assert (Q : e <= nsq (X n - xs)%v / (2 * beta * (th * th))) by lra.
          apply (Rmult_le_compat_l (2 * beta * (th * th))) in Q; [|nra].
          replace (2 * beta * (th * th) * (nsq (X n - xs)%v / (2 * beta * (th * th)))) with (nsq (X n - xs)%v) in Q by (field; split; nra). lra. }
        assert (I2 : e * e / D <= G * G).
        { apply Rmult_le_reg_r with D; [exact Pd|]. replace (e * e / D * D) with (e * e) by (field; lra).
          assert (e <= G * d) by lra. assert (e * e <= (G * d) * (G * d)) by (apply Rmult_le_compat; lra).
          replace ((G * d) * (G * d)) with (G * G * (d * d)) in * by ring. assert (G * G * (d * d) <= G * G * D) by (apply Rmult_le_compat_l; nra). lra. }
        assert (I3 : c <= beta * beta * nsq (grad (X n)) / (th * th)).
        { unfold c. unfold Rdiv at 3. apply Rmult_le_compat.
          - apply Rmult_le_pos; [nra|]. unfold Rdiv. apply Rmult_le_pos; [nra|]. left. apply Rinv_0_lt_compat, Pd.
          - unfold Rdiv. apply Rmult_le_pos; [nra|]. left. apply Rinv_0_lt_compat, Pd.
          - apply Rmult_le_compat_l; [nra|]. rewrite <- EG. exact I2.
          - exact I1. }
        rewrite S_INR. lra. }
  destruct (archimed_cor1 (c / D) ltac:(apply Rdiv_lt_0_compat; lra)) as (j & Hj & Pj). apply lt_0_INR in Pj.
  assert (D < INR j * c).
  { apply (Rmult_lt_compat_r (INR j * D)) in Hj; [|apply Rmult_lt_0_compat; lra]. replace (/ INR j * (INR j * D)) with D in Hj by (field; lra).
    replace (c / D * (INR j * D)) with (INR j * c) in Hj by (field; lra). exact Hj. }
  destruct (Fall j) as (n & _ & _ & L). pose proof (nsq_pos (X n - xs)%v). lra.
Qed.

Lemma value_continuous u l : converges u l -> forall e, 0 < e -> exists N, forall n, (N <= n)%nat -> f l - e < f (u n).
Proof.
  intros C e He. destruct Sf as (Cf & Gf & _).
  destruct (C (e / (norm (grad l) + 1))) as (N & Q); [apply Rdiv_lt_0_compat; [exact He|pose proof (norm_pos (grad l)); lra]|].
  exists N. intros n Hn. specialize (Q n Hn). pose proof (first_order f grad Cf Gf l (u n)) as F.
  pose proof (cauchy_schwarz_norm (grad l) ((-1) * (u n - l))%v) as K. rewrite norm_scal, inner_scal_r in K.
  replace (Rabs (-1)) with 1 in K by (rewrite Rabs_left; lra). pose proof (norm_pos (grad l)) as P. pose proof (norm_pos (u n - l)%v) as P2.
  apply (Rmult_lt_compat_r (norm (grad l) + 1)) in Q; [|lra]. replace (e / (norm (grad l) + 1) * (norm (grad l) + 1)) with e in Q by (field; lra). nra.
Qed.

Lemma resets_converge : exists l, (forall z, f l <= f z) /\ converges X l.
Proof.
  assert (Min : forall z, f xs <= f z).
  { intros z. pose proof (co xs z) as Q. rewrite Gs, inner_0_l in Q. pose proof (nsq_pos (grad z - vzero)%v). assert (0 <= beta / 2 * nsq (grad z - vzero)%v) by (apply Rmult_le_pos; lra). lra. }
  assert (pick : forall k, { n : nat | po_t (S n) = 1 /\ f (X n) - f xs < / INR (Datatypes.S k) }).
  { intros k. apply constructive_indefinite_ground_description_nat.
    - intros n. destruct (Req_EM_T (po_t (S n)) 1) as [A|A]; [|right; tauto]. destruct (Rlt_dec (f (X n) - f xs) (/ INR (Datatypes.S k))) as [B|B]; [left; tauto|right; tauto].
    - destruct (small_values (/ INR (Datatypes.S k)) 0) as (n & _ & Q); [apply Rinv_0_lt_compat, lt_0_INR; lia|]. exists n. exact Q. }
  set (m := fun k => proj1_sig (pick k)).
  assert (Bd : forall k, norm (X (m k)) <= norm xs + norm (X 0%nat - xs)%v).
  { intros k. replace (X (m k)) with (xs + (X (m k) - xs))%v by vring. apply Rle_trans with (1 := norm_triangle _ _). apply Rplus_le_compat_l.
    unfold norm. apply sqrt_le_1_alt. apply (closer xs Gs 0%nat (m k)). exact Ht. }
  destruct (bounded_subsequence FD (fun k => X (m k)) _ Bd) as (phi & l & I & C).
  assert (Ml : f l <= f xs).
  { apply le_epsilon. intros e He. destruct (value_continuous _ l C (e / 2) ltac:(lra)) as (N1 & Q1).
    destruct (archimed_cor1 (e / 2) ltac:(lra)) as (N2 & Q2 & P2). set (n := Nat.max N1 N2). specialize (Q1 n ltac:(lia)). cbn in Q1.
    pose proof (proj2_sig (pick (phi n))) as [_ Q3]. fold (m (phi n)) in Q3.
    assert (/ INR (Datatypes.S (phi n)) <= / INR N2).
    { apply Rinv_le_contravar; [apply lt_0_INR; exact P2|]. apply le_INR. pose proof (idx_ge phi I n). lia. }
    lra. }
  assert (Gl : grad l = vzero).
  { pose proof (co xs l) as Q. rewrite Gs, inner_0_l, vsub_0_r in Q. pose proof (nsq_pos (grad l)) as P.
    apply nsq_0. apply Rle_antisym; [|exact P]. apply Rmult_le_reg_l with (beta / 2); lra. }
  exists l. split; [intros z; specialize (Min z); lra|].
  intros e He. destruct (C e He) as (N & Q). specialize (Q N ltac:(lia)). cbn in Q. set (r := m (phi N)) in *.
  pose proof (proj2_sig (pick (phi N))) as [Tr _]. fold (m (phi N)) in Tr. fold r in Tr.
  exists r. intros n Hn. apply Rle_lt_trans with (2 := Q). unfold norm. apply sqrt_le_1_alt.
  replace n with (r + (n - r))%nat by lia. apply closer; assumption.
Qed.
End Limit.
End Pogm.
