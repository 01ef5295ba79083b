(** Property theorems C126: Condat.iterate with reweighting. *)
From Verif Require Import NPReal Py IPS Model_SetUp Model_FB Model_PD Spec_Reweight Proof_FB2 Proof_PD.
From Coq Require Import List Lia.
Import ListNotations.
Local Open Scope R_scope.

Lemma iter_add {T} (f : T -> T) m n x : Nat.iter (m + n)%nat f x = Nat.iter m f (Nat.iter n f x).
Proof. induction m as [|m IH]; [reflexivity|]. change (f (Nat.iter (m + n)%nat f x) = f (Nat.iter m f (Nat.iter n f x))). rewrite IH. reflexivity. Qed.

Section Runs.
Context {H K : ips} {W : Type}.
Variables (grad : H -> H) (prox : H -> R -> H) (prox_dual : W -> K -> R -> K) (lop : H -> K) (ladj : K -> H).
Variable reweight : K -> W -> W.
Notation cupdate := (condat_update grad prox prox_dual lop ladj).
Notation cafter := (condat_after grad prox prox_dual lop ladj).

Lemma run_without_cost metric period n (a : alg_state (@condat H K W)) : conv a = false -> flags a = [] ->
  condat_run grad prox prox_dual lop ladj None metric false period n a = Ok (mk_alg (cafter n (data a)) [] false).
Proof.
  intros Ec Ef. unfold condat_run, run_alg. set (mx := n) at 1. clearbody mx. generalize 0%nat (@nil event).
  revert a Ec Ef. induction n as [|n IH]; intros a Ec Ef i tr.
  - cbn. destruct a as [d f c]. cbn in *. subst. reflexivity.
  - cbn [iterations_from]. unfold alg_update at 1. cbn [bind end_of_update]. unfold metrics_step at 1. cbn [bind conv].
    rewrite Ec. rewrite (IH (mk_alg (cupdate (data a)) (flags a) false) eq_refl Ef). cbn [data].
    do 2 f_equal. unfold condat_after. rewrite (iter_shift cupdate). reflexivity.
Qed.

Section Fixed.
Variables (rho sigma tau : R) (n : nat) (x0 : H) (y0 : K) (w0 : W).
Let s0 : @condat H K W := condat_init x0 y0 w0 None rho sigma tau None None None.

(** The state at the start of the j-th run. *)
Fixpoint run_start (j : nat) : @condat H K W :=
  match j with
  | O => s0
  | S j' => let s := cafter n (run_start j') in set_w s (reweight (lop (c_x s)) (c_w s))
  end.

Definition constant (s : @condat H K W) : Prop :=
  c_rho s = rho /\ c_sigma s = sigma /\ c_tau s = tau /\ c_rho_update s = None /\ c_sigma_update s = None /\ c_tau_update s = None.
Lemma constant_after s m : constant s -> constant (cafter m s) /\ c_w (cafter m s) = c_w s.
Proof.
  intros C. induction m as [|m [IH Iw]]; [auto|]. change (cafter (S m) s) with (cupdate (cafter m s)).
  destruct IH as (I1 & I2 & I3 & I4 & I5 & I6). unfold condat_update, constant. destruct (condat_prox _ _ _ _ _ _). cbn.
  rewrite I1, I2, I3, I4, I5, I6. cbn. auto 10.
Qed.
Lemma constant_start j : constant (run_start j).
Proof.
  induction j as [|j IH]; [repeat split|]. cbn [run_start]. destruct (constant_after _ n IH) as [(I1 & I2 & I3 & I4 & I5 & I6) _].
  unfold constant. cbn. auto 10.
Qed.

Lemma runs_spec : reweighted_runs grad prox prox_dual lop ladj reweight rho sigma tau n w0 x0 y0
  (fun j i => c_x (cafter i (run_start j))) (fun j i => c_y (cafter i (run_start j))) (fun j => c_w (run_start j)).
Proof.
  constructor.
  - repeat split.
  - intros j i. destruct (constant_after _ i (constant_start j)) as [(I1 & I2 & I3 & I4 & I5 & I6) Iw].
    change (cafter (S i) (run_start j)) with (cupdate (cafter i (run_start j))).
    set (s := cafter i (run_start j)) in *. unfold primal_dual_step, condat_update, condat_prox. rewrite I1, I2, I3, Iw.
    eexists. eexists. eexists. split; [reflexivity|]. split; [reflexivity|]. split; [reflexivity|]. cbn [c_x c_y]. unfold default_extra_factor.
    split; vring.
  - intros j. split; reflexivity.
  - intros j. cbn [run_start c_w set_w]. rewrite (proj2 (constant_after _ n (constant_start j))). reflexivity.
Qed.

Lemma reweightings_without_cost metric period j k : (0 < n)%nat ->
  condat_reweightings grad prox prox_dual lop ladj reweight None metric false period k n (mk_alg (cafter n (run_start j)) [] false)
  = Ok (mk_alg (cafter n (run_start (j + k)%nat)) [] false).
Proof.
  intros Hn. revert j. induction k as [|k IH]; intros j; [rewrite Nat.add_0_r; reflexivity|]. cbn [condat_reweightings data].
  assert (N : c_new (cafter n (run_start j)) = Some (c_x (cafter n (run_start j)), c_y (cafter n (run_start j)))).
  { destruct n as [|m]; [lia|]. apply (update_new grad prox prox_dual lop ladj (cafter m (run_start j))). }
  rewrite N. cbn [flags conv]. rewrite run_without_cost by reflexivity. cbn [bind data].
  change (set_w (cafter n (run_start j)) _) with (run_start (S j)). rewrite IH. do 4 f_equal. lia.
Qed.
End Fixed.
End Runs.

(** C126. Without a cost function (default cost=None) or metrics: iterate(max_iter=n,
    n_rewightings=k) does k+1 runs of n updates, each from the end of the one before with weights
    recomputed from its final point, and returns the end of the last. *)
Theorem C126_reweighted_runs :
  forall {H K : ips} {W : Type} (grad : H -> H) prox (prox_dual : W -> K -> R -> K) lop ladj reweight rho sigma tau x0 y0 w0 n, (0 < n)%nat ->
  exists X Y w, reweighted_runs grad prox prox_dual lop ladj reweight rho sigma tau n w0 x0 y0 X Y w /\
  forall metric period,
    let run nr := condat_iterate grad prox prox_dual lop ladj reweight None metric false period nr n (condat_init x0 y0 w0 None rho sigma tau None None None) in
    run None = Ok (X 0%nat n, Y 0%nat n) /\ forall k, run (Some k) = Ok (X k n, Y k n).
Proof.
  intros H K W grad prox prox_dual lop ladj reweight rho sigma tau x0 y0 w0 n Hn.
  do 3 eexists. split; [apply runs_spec|]. intros metric period. cbv zeta. unfold condat_iterate.
  rewrite run_without_cost by reflexivity. cbn [bind data].
  assert (N : forall s, c_new (condat_after grad prox prox_dual lop ladj n s)
     = Some (c_x (condat_after grad prox prox_dual lop ladj n s), c_y (condat_after grad prox prox_dual lop ladj n s))).
  { intros s. destruct n as [|m]; [lia|]. apply (update_new grad prox prox_dual lop ladj (condat_after grad prox prox_dual lop ladj m s)). }
  split; [rewrite N; reflexivity|]. intros k.
  pose proof (reweightings_without_cost grad prox prox_dual lop ladj reweight rho sigma tau n x0 y0 w0 metric period 0 k Hn) as E.
  cbn [run_start Nat.add] in E. rewrite E. cbn [bind data]. rewrite N. reflexivity.
Qed.
Print Assumptions C126_reweighted_runs.

(** n_rewightings=0, or a reweighting that leaves the weights alone, changes nothing but the number
    of updates. *)
Theorem C126_neutral_reweighting :
  forall {H K : ips} {W : Type} (grad : H -> H) prox (prox_dual : W -> K -> R -> K) lop ladj rho sigma tau x0 y0 w0 n metric period k, (0 < n)%nat ->
  let run nr m := condat_iterate grad prox prox_dual lop ladj (fun _ w => w) None metric false period nr m (condat_init x0 y0 w0 None rho sigma tau None None None) in
  run (Some k) n = run None ((k + 1) * n)%nat.
Proof.
  intros H K W grad prox prox_dual lop ladj rho sigma tau x0 y0 w0 n metric period k Hn run. unfold run.
  rewrite (iterate_plain grad prox prox_dual lop ladj (fun _ w => w) metric period ((k + 1) * n)) by nia.
  unfold condat_iterate. rewrite run_without_cost by reflexivity. cbn [bind data].
  set (s0 := condat_init x0 y0 w0 None rho sigma tau None None None).
  pose proof (reweightings_without_cost grad prox prox_dual lop ladj (fun _ w => w) rho sigma tau n x0 y0 w0 metric period 0 k Hn) as E.
  cbn [run_start Nat.add] in E. fold s0 in E. rewrite E. cbn [bind data].
  assert (R : forall j, run_start grad prox prox_dual lop ladj (fun _ w => w) rho sigma tau n x0 y0 w0 j
     = condat_after grad prox prox_dual lop ladj (j * n) s0).
  { induction j as [|j IH]; [reflexivity|]. cbn [run_start]. rewrite IH.
    set (s := condat_after grad prox prox_dual lop ladj n (condat_after grad prox prox_dual lop ladj (j * n) s0)).
    assert (Es : set_w s (c_w s) = s) by (destruct s; reflexivity). rewrite Es. unfold s, condat_after.
    rewrite <- iter_add. f_equal. }
  rewrite R.
  assert (A : condat_after grad prox prox_dual lop ladj n (condat_after grad prox prox_dual lop ladj (k * n) s0) = condat_after grad prox prox_dual lop ladj ((k + 1) * n) s0).
  { unfold condat_after. rewrite <- iter_add. f_equal. lia. }
  rewrite A. replace ((k + 1) * n)%nat with (S ((k + 1) * n - 1)) by nia.
  change (condat_after grad prox prox_dual lop ladj (S ?m) s0) with (condat_update grad prox prox_dual lop ladj (condat_after grad prox prox_dual lop ladj m s0)).
  rewrite update_new. reflexivity.
Qed.
Print Assumptions C126_neutral_reweighting.

(** One reweighting changes the point that is returned: a dual operator that subtracts its weight,
    and a reweighting that doubles it. *)
Example C126_example :
  let run nr := condat_iterate (H := R_ips) (K := R_ips) (W := R) (fun _ => 0) (fun y _ => y) (fun w y _ => y - w) (fun x => x) (fun y => y)
     (fun _ w => 2 * w) None (fun _ _ => []) false None nr 1 (condat_init (H := R_ips) (K := R_ips) 0 0 1 None 1 1 1 None None None) in
  run None = Ok (0, 1) /\ run (Some 1%nat) = Ok (-1, 2).
Proof. cbv zeta. split; cbn; do 2 f_equal; unfold default_extra_factor; field. Qed.
