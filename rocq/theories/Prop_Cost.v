(** Property theorems C18-C21: opt/cost.py. *)
From Coq Require Import Permutation.
From Verif Require Import NPReal Py Spec_Observable Model_Cost Spec_Cost Proof_Observable Proof_Cost.
Local Open Scope R_scope.

(** C18: [h] lists the costs the successive calls would compute. *)
Theorem C18_cost_list_is_every_cth_cost :
  forall cfg c h init, (0 < c)%nat -> cost_interval cfg = Some (Z.of_nat c) ->
  cost_list (cost_calls cfg (map (@Ok R) h) (cost_init init)) = every c h.
Proof. intros cfg c h init Hc Ic. exact (proj2 (cost_list_spec cfg c h init Hc Ic)). Qed.
Print Assumptions C18_cost_list_is_every_cth_cost.

(** With cost_interval=None the cost function (even one that raises) is never evaluated. *)
Theorem C18_no_interval_no_cost :
  forall cfg h calc init, cost_interval cfg = None ->
  let s := cost_calls cfg h (cost_init init) in
  snd (get_cost cfg s calc) = Ok false /\ cost_list s = [].
Proof. exact interval_none. Qed.
Print Assumptions C18_no_interval_no_cost.

Example C18_example : every 2 [10; 20; 30; 40; 50] = [20; 40].
Proof. reflexivity. Qed.

(** C19: the verdict of the call that follows the history [h]. *)
Theorem C19_verdict_is_full_window_test :
  forall cfg c w, (0 < c)%nat -> (2 <= w)%nat ->
  cost_interval cfg = Some (Z.of_nat c) -> test_range cfg = Z.of_nat w ->
  forall init h x,
  exists r, snd (get_cost cfg (cost_calls cfg (map (@Ok R) h) (cost_init init)) (Ok x)) = Ok r /\
    (r = true <-> Nat.divide c (length (h ++ [x])) /\ (0 < length (h ++ [x]))%nat /\
                  full_quiet_window w (tolerance cfg) (every c (h ++ [x]))).
Proof. exact verdict. Qed.
Print Assumptions C19_verdict_is_full_window_test.

Example C19_example : full_quiet_window 4 (1/10) [100; 50; 5; 1;   10; 10; 10; 11].
Proof.
  exists [100; 50; 5; 1], [10; 10], [10; 11]. split; [reflexivity|]. split; [exists 1%nat; reflexivity|].
  split; [reflexivity|]. split; [reflexivity|].
  unfold small_change, average; cbn [length total INR].
    replace (1 + 1) with 2 by lra.
    destruct (Rle_dec _ _) as [H|H]; [lra|].
    rewrite (Rabs_right ((10 + (11 + 0)) / 2)) by lra. rewrite Rabs_right by lra. lra.
Qed.

(** C20 *)
Theorem C20_constant_cost_converges_every_window :
  forall cfg c w v init n, (0 < c)%nat -> (2 <= w)%nat ->
  cost_interval cfg = Some (Z.of_nat c) -> test_range cfg = Z.of_nat w -> 0 <= tolerance cfg ->
  exists r, snd (get_cost cfg (cost_calls cfg (map (@Ok R) (repeat v n)) (cost_init init)) (Ok v)) = Ok r /\
    (r = true <-> Nat.divide (c * w) (S n)).
Proof. exact constant_cost. Qed.
Print Assumptions C20_constant_cost_converges_every_window.

(** Default settings: True on the 4th call. *)
Example C20_example : exists r,
  snd (get_cost (mk_cost_cfg (1/10000) (Some 1%Z) 4)
    (cost_calls (mk_cost_cfg (1/10000) (Some 1%Z) 4) (map (@Ok R) (repeat 8 3)) (cost_init 1000000)) (Ok 8)) = Ok r /\ r = true.
Proof.
  destruct (constant_cost (mk_cost_cfg (1/10000) (Some 1%Z) 4) 1 4 8 1000000 3) as (r & E & V);
    try reflexivity; try lia; [cbn; lra|].
  exists r. split; [exact E|]. apply V. exists 1%nat. reflexivity.
Qed.

(** C21 *)
Theorem C21_costobj_rejects_non_sequences :
  forall X, costobj_init (@OpsOther X) = Err TypeError.
Proof. reflexivity. Qed.
Print Assumptions C21_costobj_rejects_non_sequences.

Theorem C21_costobj_validates_operators :
  forall X (l : list (operator X)),
  match costobj_init (OpsSeq l) with
  | Ok ops => exists fs, ops = Some fs /\ l = map HasCost fs
  | Err e => exists pre f rest, l = map HasCost pre ++ f :: rest /\
      ((f = NoCost /\ e = ValueError) \/ (f = CostNotCallable /\ e = TypeError))
  end.
Proof.
  intros X l. pose proof (check_each_spec l) as H. cbn [costobj_init].
  destruct (check_each l) as [fs|e]; cbn [bind]; [exists fs; auto|exact H].
Qed.
Print Assumptions C21_costobj_validates_operators.

(** None passes the validation, and every evaluation of the cost then fails. *)
Theorem C21_no_operators_refuted :
  exists (a : operators_arg R) ops, costobj_init a = Ok ops /\ forall x, calc_cost ops x = Err TypeError.
Proof. exists OpsNone, None. split; reflexivity. Qed.
Print Assumptions C21_no_operators_refuted.
Theorem C21_none_fails_at_the_first_evaluation :
  forall X x, exists ops, costobj_init (@OpsNone X) = Ok ops /\ calc_cost ops x = Err TypeError.
Proof. intros X x. exists None. split; reflexivity. Qed.
Print Assumptions C21_none_fails_at_the_first_evaluation.

Theorem C21_cost_is_order_independent_sum :
  forall X (fs fs' : list (X -> R)) x, Permutation fs fs' ->
  exists ops ops', costobj_init (OpsSeq (map HasCost fs)) = Ok ops /\
    costobj_init (OpsSeq (map HasCost fs')) = Ok ops' /\
    calc_cost ops x = Ok (total (map (fun f => f x) fs)) /\ calc_cost ops' x = calc_cost ops x.
Proof.
  intros X fs fs' x P. exists (Some fs), (Some fs'). unfold costobj_init. rewrite !check_each_ok.
  cbn [bind calc_cost]. rewrite !rsum_total. repeat split.
  f_equal. symmetry. apply total_perm. apply Permutation_map. exact P.
Qed.
Print Assumptions C21_cost_is_order_independent_sum.

Example C21_example :
  costobj_init (OpsSeq [HasCost (fun x : R => x); NoCost; CostNotCallable]) = Err ValueError /\
  calc_cost (Some [(fun x : R => x); (fun x => 2 * x)]) 3 = Ok (3 + (2 * 3 + 0)).
Proof. split; reflexivity. Qed.
