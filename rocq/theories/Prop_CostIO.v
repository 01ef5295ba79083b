(** Property theorems C130: what a cost object prints, which cost methods it can call, and the plot
    of the costs. *)
From Verif Require Import NPReal Py Spec_Observable Model_Cost Spec_Cost Proof_Observable Proof_Cost Model_Stats Model_CostIO Spec_CostIO.
From Coq Require Import String List ZArith Lia.
Import ListNotations.
Local Open Scope R_scope.

(** A function can be called with n positional arguments and verbose=...: there is room for the
    arguments, none of them is already called verbose, verbose can be taken by name, and every
    other parameter has a default. *)
Definition accepts (n : nat) (s : signature) : Prop :=
  let rest := (skipn n (s_pos s) ++ s_kwonly s)%list in
  ((n <= List.length (s_pos s))%nat \/ s_varargs s = true) /\
  ~ In "verbose"%string (map fst (firstn n (s_pos s))) /\
  (In "verbose"%string (map fst rest) \/ s_varkw s = true) /\
  (forall name, In (name, false) rest -> name = "verbose"%string).

Lemma mem_in k l : mem k l = true <-> In k l.
Proof.
  unfold mem. rewrite existsb_exists. split.
  - intros (x & Hx & E). apply String.eqb_eq in E. subst. exact Hx.
  - intros H. exists k. split; [exact H|apply String.eqb_refl].
Qed.

Lemma bind_accepts n s : (accepts n s -> bind_call s n ["verbose"%string] = Ok tt) /\ (~ accepts n s -> bind_call s n ["verbose"%string] = Err TypeError).
Proof.
  unfold accepts, bind_call, names. cbv zeta. cbn [existsb]. rewrite !orb_false_r. set (rest := (skipn n (s_pos s) ++ s_kwonly s)%list).
  set (pre := map fst (firstn n (s_pos s))).
  assert (R1 : orb (Nat.leb n (List.length (s_pos s))) (s_varargs s) = true <-> (n <= List.length (s_pos s))%nat \/ s_varargs s = true).
  { rewrite orb_true_iff, Nat.leb_le. reflexivity. }
  assert (R2 : mem "verbose" pre = true <-> In "verbose"%string pre) by apply mem_in.
  assert (R3 : orb (mem "verbose" (map fst rest)) (s_varkw s) = true <-> In "verbose"%string (map fst rest) \/ s_varkw s = true).
  { rewrite orb_true_iff, mem_in. reflexivity. }
  assert (R4 : existsb (fun p : string * bool => negb (snd p || mem (fst p) ["verbose"%string])) rest = false <-> forall name, In (name, false) rest -> name = "verbose"%string).
  { split.
    - intros M nm Hin. destruct (String.eqb_spec nm "verbose") as [E|E]; [exact E|]. exfalso. rewrite <- not_true_iff_false in M. apply M.
      apply existsb_exists. exists (nm, false). split; [exact Hin|]. cbn. destruct (String.eqb_spec nm "verbose"); [contradiction|reflexivity].
    - intros M. apply not_true_iff_false. intros Q. apply existsb_exists in Q. destruct Q as ([nm d] & Hin & Hd). cbn in Hd.
      destruct d; [discriminate|]. rewrite (M nm Hin) in Hd. discriminate. }
  destruct (orb (Nat.leb n (List.length (s_pos s))) (s_varargs s)); cbn [negb]; [|intuition congruence].
  destruct (mem "verbose" pre); [intuition congruence|].
  destruct (orb (mem "verbose" (map fst rest)) (s_varkw s)); cbn [negb]; [|intuition congruence].
  destruct (existsb _ rest); intuition congruence.
Qed.

Lemma calc_ok {X} n v (ops : list (cost_op X)) x : Forall (fun o => accepts n (co_sig o)) ops ->
  calc_io n v ops x = (flat_map (fun o => co_out o x v) ops, Ok (rsum (map (fun o => co_val o x v) ops))).
Proof.
  intros F. unfold calc_io. assert (E : calc_list n v ops x = (flat_map (fun o => co_out o x v) ops, Ok (map (fun o => co_val o x v) ops))).
  { induction F as [|o ops Ho _ IH]; [reflexivity|]. cbn [calc_list flat_map map]. rewrite (proj1 (bind_accepts n (co_sig o)) Ho), IH. reflexivity. }
  rewrite E. reflexivity.
Qed.
Lemma calc_fail {X} n v (ops : list (cost_op X)) x : ~ Forall (fun o => accepts n (co_sig o)) ops -> snd (calc_io n v ops x) = Err TypeError.
Proof.
  intros F. unfold calc_io. assert (E : snd (calc_list n v ops x) = Err TypeError).
  { induction ops as [|o ops IH]; [exfalso; apply F; constructor|]. cbn [calc_list].
    destruct (bind_call (co_sig o) n ["verbose"%string]) as [[]|e] eqn:B.
    - destruct (calc_list n v ops x) as [out r]. cbn [snd] in *. rewrite IH; [reflexivity|]. intros Q. apply F. constructor; [|exact Q].
      destruct (Classical_Prop.classic (accepts n (co_sig o))) as [A|A]; [exact A|]. apply bind_accepts in A. congruence.
    - cbn. destruct (Classical_Prop.classic (accepts n (co_sig o))) as [A|A]; apply bind_accepts in A; congruence. }
  destruct (calc_list n v ops x) as [out r]. cbn [snd] in E. subst r. reflexivity.
Qed.

Lemma calls_snoc {X} cfg v n (ops : list (cost_op X)) xs x s :
  calls_io cfg v n ops (xs ++ [x]) s =
  let '(s1, l1) := calls_io cfg v n ops xs s in
  let '(s2, l2, _) := get_cost_io cfg v s1 (calc_io n v ops x) in (s2, (l1 ++ l2)%list).
Proof.
  revert s. induction xs as [|y xs IH]; intros s; cbn [calls_io app].
  - destruct (get_cost_io cfg v s (calc_io n v ops x)) as [[s2 l2] r]. rewrite app_nil_r. reflexivity.
  - destruct (get_cost_io cfg v s (calc_io n v ops y)) as [[s1 l1] r1]. rewrite IH. destruct (calls_io cfg v n ops xs s1) as [s2 l2].
    destruct (get_cost_io cfg v s2 (calc_io n v ops x)) as [[s3 l3] r3]. rewrite app_assoc. reflexivity.
Qed.
Lemma calls_state {X} cfg v n (ops : list (cost_op X)) xs s :
  fst (calls_io cfg v n ops xs s) = cost_calls cfg (map (fun x => snd (calc_io n v ops x)) xs) s.
Proof.
  revert s. induction xs as [|y xs IH]; intros s; [reflexivity|]. cbn [calls_io map]. unfold cost_calls. cbn [fold_left].
  unfold get_cost_io at 1. destruct (get_cost cfg s (snd (calc_io n v ops y))) as [s1 r1] eqn:E. specialize (IH s1).
  destruct (calls_io cfg v n ops xs s1) as [s2 l2]. cbn [fst] in *. exact IH.
Qed.

(** C130. verbose decides only about printing: with cost methods whose values do not depend on it, a
    cost object behaves the same with and without, exactly as the one of C18-C21. *)
Theorem C130_verbose_only_prints :
  forall X cfg verbose n (ops : list (cost_op X)) xs x init,
  Forall (fun o => accepts n (co_sig o)) ops -> (forall o y, In o ops -> co_val o y true = co_val o y false) ->
  let total y := rsum (map (fun o => co_val o y false) ops) in
  let s := fst (calls_io cfg verbose n ops xs (cost_init init)) in
  s = cost_calls cfg (map (fun y => Ok (total y)) xs) (cost_init init) /\
  snd (get_cost_io cfg verbose s (calc_io n verbose ops x)) = snd (get_cost cfg s (Ok (total x))).
Proof.
  intros X cfg v n ops xs x init F Hv total s.
  assert (E : forall y, snd (calc_io n v ops y) = Ok (total y)).
  { intros y. rewrite calc_ok by exact F. cbn [snd]. unfold total. do 2 f_equal. apply map_ext_in. intros o Ho. destruct v; [apply Hv, Ho|reflexivity]. }
  split.
  - unfold s. rewrite calls_state. f_equal. apply map_ext. exact E.
  - unfold get_cost_io. rewrite E. destruct (get_cost cfg s (Ok (total x))). reflexivity.
Qed.
Print Assumptions C130_verbose_only_prints.

(** Without verbose, and with operators that print nothing when not asked to, nothing is printed. *)
Theorem C130_quiet :
  forall X cfg n (ops : list (cost_op X)) xs s, (forall o y, In o ops -> co_out o y false = []) ->
  snd (calls_io cfg false n ops xs s) = [].
Proof.
  intros X cfg n ops xs s Ho. revert s.
  assert (Q : forall x, fst (calc_io n false ops x) = []).
  { intros x. unfold calc_io. assert (E : fst (calc_list n false ops x) = []).
    { induction ops as [|o ops IH]; [reflexivity|]. cbn [calc_list]. destruct (bind_call (co_sig o) n ["verbose"%string]); [|reflexivity].
      specialize (IH (fun o' y H => Ho o' y (or_intror H))). destruct (calc_list n false ops x) as [out r]. cbn [fst] in *. rewrite IH, (Ho o x (or_introl eq_refl)). reflexivity. }
    destruct (calc_list n false ops x). exact E. }
  induction xs as [|x xs IH]; intros s; [reflexivity|]. cbn [calls_io].
  assert (L : snd (fst (get_cost_io cfg false s (calc_io n false ops x))) = []).
  { unfold get_cost_io. destruct (get_cost cfg s (snd (calc_io n false ops x))) as [s' r]. cbn [fst snd].
    destruct (cost_interval cfg) as [k|]; [|reflexivity]. destruct (k =? 0)%Z; [reflexivity|]. destruct (iteration s mod k =? 0)%Z; [|reflexivity].
    rewrite Q. cbn [map app]. destruct (snd (calc_io n false ops x)); [|reflexivity]. unfold check_lines. destruct (_ =? _)%Z; reflexivity. }
  destruct (get_cost_io cfg false s (calc_io n false ops x)) as [[s1 l1] r1]. cbn [fst snd] in L. subst l1. specialize (IH s1).
  destruct (calls_io cfg false n ops xs s1). exact IH.
Qed.
Print Assumptions C130_quiet.

Lemma diff_relative w (tl : list R) : (2 <= w)%nat -> List.length tl = w ->
  cost_diff tl = Some (relative_change (firstn (w / 2) tl) (skipn (w / 2) tl)).
Proof.
  intros Hw L. destruct (halves_average 1 w ltac:(lia) Hw tl L) as (A & B & _). unfold cost_diff. rewrite A, B. unfold relative_change.
  destruct (Req_EM_T (around 16 (average (skipn (w / 2) tl))) 0) as [E|E].
  - apply around_zero in E. destruct (Rle_dec _ _); [reflexivity|contradiction].
  - destruct (Rle_dec _ _) as [H|H]; [apply around_zero in H; contradiction|reflexivity].
Qed.

Lemma flat_map_ext_in' {A B} (f g : A -> list B) l : (forall a, In a l -> f a = g a) -> flat_map f l = flat_map g l.
Proof. induction l as [|a l IH]; intros E; cbn; [reflexivity|]. rewrite (E a (or_introl eq_refl)), IH; [reflexivity|]. intros b Hb. apply E. right. exact Hb. Qed.

(** What is printed with verbose, in full: for every evaluation its iteration number, the output of
    the operators, the cost, and after every complete window the relative change. *)
Theorem C130_report :
  forall X cfg c w n (ops : list (cost_op X)) xs init, (0 < c)%nat -> (2 <= w)%nat ->
  cost_interval cfg = Some (Z.of_nat c) -> test_range cfg = Z.of_nat w -> Forall (fun o => accepts n (co_sig o)) ops ->
  snd (calls_io cfg true n ops xs (cost_init init)) =
  flat_map (report (fun i => LIteration (Z.of_nat i)) LOp LCost LBlank LTest (fun d => LChange (Some d))
              (fun x => flat_map (fun o => co_out o x true) ops) (fun x => rsum (map (fun o => co_val o x true) ops)) c w xs)
           (seq 1 (List.length xs / c)).
Proof.
  intros X cfg c w n ops xs init Hc Hw Ic Iw F.
  set (texts := fun x => flat_map (fun o => co_out o x true) ops). set (total := fun x => rsum (map (fun o => co_val o x true) ops)).
  set (rep := report _ _ _ _ _ _ _ _ c w).
  assert (EC : forall x, calc_io n true ops x = (texts x, Ok (total x))) by (intros x; apply calc_ok; exact F).
  induction xs as [|x xs IH] using rev_ind.
  { cbn [List.length]. rewrite Nat.div_0_l by lia. reflexivity. }
  rewrite calls_snoc. pose proof (calls_state cfg true n ops xs (cost_init init)) as Es.
  destruct (calls_io cfg true n ops xs (cost_init init)) as [s l1]. cbn [fst snd] in *.
  assert (Es' : s = ok_calls cfg (map total xs) (cost_init init)).
  { rewrite Es. unfold ok_calls. f_equal. rewrite map_map. apply map_ext. intros y. rewrite EC. reflexivity. }
  pose proof (calls_inv cfg c w Hc Hw Ic Iw init (map total xs)) as Inv. rewrite <- Es' in Inv.
  destruct Inv as (I1 & _ & win & I3 & I4 & I5). rewrite map_length in I1.
  unfold get_cost_io. rewrite EC. cbn [fst snd]. destruct (get_cost cfg s (Ok (total x))) as [s' r]. cbn [snd].
  rewrite Ic. destruct (Z.eqb_spec (Z.of_nat c) 0) as [|_]; [lia|]. rewrite I1, iter_mod by exact Hc.
  assert (Pre : forall k, (1 <= k <= List.length xs / c)%nat -> rep (xs ++ [x])%list k = rep xs k).
  { intros k Hk. assert (Hkc : (k * c <= List.length xs)%nat).
    { transitivity (List.length xs / c * c)%nat; [apply Nat.mul_le_mono_r; lia|]. pose proof (Nat.div_mod (List.length xs) c ltac:(lia)). lia. }
    unfold rep, report. rewrite nth_error_app1 by nia. destruct (nth_error xs (k * c - 1)); [|reflexivity]. do 3 f_equal.
    destruct (Nat.eqb_spec (k mod w) 0) as [E|]; [|reflexivity].
    assert (Hkw : (w <= k)%nat) by (apply Nat.mod_divide in E; [|lia]; apply Nat.divide_pos_le in E; lia).
    rewrite map_app. cbn [map]. rewrite every_snoc by exact Hc.
    assert (Le : List.length (every c (map total xs)) = (List.length xs / c)%nat) by (unfold every; rewrite map_length, seq_length, map_length; reflexivity).
    rewrite skipn_app, firstn_app, skipn_length, Le. replace (w - (List.length xs / c - (k - w)))%nat with 0%nat by lia.
    rewrite firstn_O, app_nil_r. reflexivity. }
  rewrite app_length. cbn [List.length]. rewrite Nat.add_1_r.
  destruct (Nat.eqb_spec (S (List.length xs) mod c) 0) as [E|E].
  - assert (Q : (S (List.length xs) / c = S (List.length xs / c))%nat).
    { assert (Hd := Nat.div_mod (List.length xs) c ltac:(lia)). assert (Hm := Nat.mod_upper_bound (List.length xs) c ltac:(lia)).
      assert (Hd' := Nat.div_mod (S (List.length xs)) c ltac:(lia)). rewrite E in Hd'. nia. }
    assert (Hd' := Nat.div_mod (S (List.length xs)) c ltac:(lia)). rewrite E, Q in Hd'.
    rewrite Q, seq_S, flat_map_app. rewrite (flat_map_ext_in' (rep (xs ++ [x])%list) (rep xs)) by (intros k Hk; apply in_seq in Hk; apply Pre; lia).
    rewrite <- IH. f_equal. cbn [flat_map]. rewrite app_nil_r. change (1 + List.length xs / c)%nat with (S (List.length xs / c)).
    unfold rep, report. replace (S (List.length xs / c) * c - 1)%nat with (List.length xs) by lia.
    rewrite nth_error_app2, Nat.sub_diag by lia. cbn [nth_error].
    replace (Z.of_nat (S (List.length xs / c) * c)) with (Z.of_nat (List.length xs) + 1)%Z by lia.
    cbn [app]. f_equal. f_equal. f_equal. f_equal.
    unfold check_lines. rewrite Iw, app_length. cbn [List.length]. rewrite Nat.add_1_r.
    assert (Le : List.length (every c (map total xs)) = (List.length xs / c)%nat) by (unfold every; rewrite map_length, seq_length, map_length; reflexivity).
    assert (Lk : (List.length xs / c = List.length win + List.length (test_list s))%nat) by (rewrite <- Le, I3, app_length; reflexivity).
    destruct I4 as [q Hq].
    destruct (Z.eqb_spec (Z.of_nat (S (List.length (test_list s)))) (Z.of_nat w)) as [W|W].
    + assert (Lw : List.length (test_list s ++ [total x]) = w) by (rewrite app_length; cbn; lia).
      assert (Km : (S (List.length xs / c) mod w = 0)%nat).
      { replace (S (List.length xs / c)) with ((q + 1) * w)%nat by lia. apply Nat.mod_mul. lia. }
      rewrite Km. cbn [Nat.eqb]. rewrite (diff_relative w _ Hw Lw).
      assert (Ew : firstn w (skipn (S (List.length xs / c) - w) (every c (map total (xs ++ [x])))) = (test_list s ++ [total x])%list).
      { rewrite map_app. cbn [map]. rewrite every_snoc by exact Hc. rewrite map_length. apply Nat.eqb_eq in E. rewrite E, I3, <- app_assoc.
        replace (S (List.length xs / c) - w)%nat with (List.length win + 0)%nat by lia. rewrite skipn_app, skipn_all2 by lia.
        replace (List.length win + 0 - List.length win)%nat with 0%nat by lia. cbn [skipn app]. apply firstn_all2. lia. }
      cbv zeta. rewrite Ew. reflexivity.
    + assert (Km : (S (List.length xs / c) mod w <> 0)%nat).
      { replace (S (List.length xs / c)) with (S (List.length (test_list s)) + q * w)%nat by lia. rewrite Nat.mod_add by lia. rewrite Nat.mod_small by lia. lia. }
      apply Nat.eqb_neq in Km. rewrite Km. reflexivity.
  - assert (Q : (S (List.length xs) / c = List.length xs / c)%nat).
    { assert (Hd := Nat.div_mod (List.length xs) c ltac:(lia)). assert (Hm := Nat.mod_upper_bound (List.length xs) c ltac:(lia)).
      symmetry. apply (Nat.div_unique _ _ _ (S (List.length xs mod c))); [|lia].
      destruct (Nat.eq_dec (S (List.length xs mod c)) c) as [E'|]; [|lia]. exfalso. apply E. replace (S (List.length xs)) with (S (List.length xs / c) * c)%nat by (cbn [Nat.mul]; lia). apply Nat.mod_mul. lia. }
    rewrite Q, app_nil_r, IH. apply flat_map_ext_in'. intros k Hk. apply in_seq in Hk. symmetry. apply Pre. lia.
Qed.
Print Assumptions C130_report.

(** The printed change decides: a call reports convergence exactly if it printed a change that is
    at most the tolerance. *)
Theorem C130_printed_change_decides :
  forall cfg s calc, let '(_, lines, r) := get_cost_io cfg true s calc in
  r = Ok true <-> exists d, In (LChange (Some d)) lines /\ d <= tolerance cfg.
Proof.
  intros cfg s [out v]. unfold get_cost_io, get_cost. cbn [fst snd].
  assert (No : forall d, ~ In (LChange d) (map LOp out)) by (intros d H; apply in_map_iff in H; destruct H as (t & E & _); discriminate).
  destruct (cost_interval cfg) as [k|]; [|split; [discriminate|intros (d & [] & _)]].
  destruct (k =? 0)%Z; [split; [discriminate|intros (d & [] & _)]|]. destruct (iteration s mod k =? 0)%Z; [|split; [discriminate|intros (d & [] & _)]].
  destruct v as [v|e].
  2: { split; [discriminate|]. intros (d & H & _). rewrite app_nil_r in H. apply in_app_or in H. destruct H as [[H|[]]|H]; [discriminate|]. apply No in H. destruct H. }
  unfold check_cost, check_lines. cbn [cost test_list cost_list iteration].
  assert (Red : forall l d, In (LChange (Some d)) ([LIteration (iteration s)] ++ map LOp out ++ [LCost v; LBlank] ++ l) <-> In (LChange (Some d)) l).
  { intros l d. split.
    - intros H. apply in_app_or in H. destruct H as [[H|[]]|H]; [discriminate|]. apply in_app_or in H. destruct H as [H|H]; [apply No in H; destruct H|].
      apply in_app_or in H. destruct H as [[H|[H|[]]]|H]; [discriminate..|exact H].
    - intros H. apply in_or_app. right. apply in_or_app. right. apply in_or_app. right. exact H. }
  destruct (_ =? test_range cfg)%Z.
  2: { split; [discriminate|]. intros (d & H & _). apply (Red []) in H. destruct H. }
  unfold cost_diff.
  assert (One : forall d0, (exists d, In (LChange (Some d)) ([LIteration (iteration s)] ++ map LOp out ++ [LCost v; LBlank] ++ [LTest; LChange d0; LBlank]) /\ d <= tolerance cfg)
    <-> exists d, d0 = Some d /\ d <= tolerance cfg).
  { intros d0. split.
    - intros (d & H & Hd). apply (Red [LTest; LChange d0; LBlank]) in H. destruct H as [H|[H|[H|[]]]]; try discriminate. injection H as ->. exists d. auto.
    - intros (d & -> & Hd). exists d. split; [apply (Red [LTest; LChange (Some d); LBlank]); right; left; reflexivity|exact Hd]. }
  rewrite One. clear One.
  destruct (npmean (skipn _ _)) as [t1|]; [|split; [discriminate|intros (d & H & _); discriminate]].
  destruct (Req_EM_T (around 16 t1) 0).
  { destruct (Rle_dec 0 (tolerance cfg)) as [H|H]; split; try discriminate; try reflexivity; [intros _; exists 0; auto|].
    intros (d & E & Hd). injection E as <-. contradiction. }
  destruct (npmean (firstn _ _)) as [t2|]; [|split; [discriminate|intros (d & H & _); discriminate]].
  destruct (Rle_dec _ (tolerance cfg)) as [H|H]; split; try discriminate; try reflexivity; [intros _; eexists; split; [reflexivity|exact H]|].
  intros (d & E & Hd). injection E as <-. contradiction.
Qed.
Print Assumptions C130_printed_change_decides.

(** Which cost methods can be used: an evaluation succeeds, and then gives the sum, exactly if each
    of them can be called with the point (the points, for Condat) and the keyword verbose; otherwise
    it raises TypeError. The methods of the package, which take *args and **kwargs, always can. *)
Theorem C130_signature :
  (forall X n verbose (ops : list (cost_op X)) x,
     (Forall (fun o => accepts n (co_sig o)) ops -> snd (calc_io n verbose ops x) = Ok (rsum (map (fun o => co_val o x verbose) ops))) /\
     (~ Forall (fun o => accepts n (co_sig o)) ops -> snd (calc_io n verbose ops x) = Err TypeError)) /\
  (forall n, accepts n (mk_sig [] true [] true)).
Proof.
  split.
  - intros X n v ops x. split; [intros F; rewrite calc_ok by exact F; reflexivity|apply calc_fail].
  - intros n. unfold accepts. cbn [s_pos s_varargs s_kwonly s_varkw]. rewrite firstn_nil, skipn_nil. cbn. repeat split; auto. intros nm [].
Qed.
Print Assumptions C130_signature.

(** "An operator with a method cost(x) can be used in a costObj", as in the example of the
    documentation, is false: it passes the check of the constructor and fails at the first
    evaluation. *)
Theorem C130_documented_example_refuted :
  exists (o : cost_op R) (cfg : cost_cfg) x,
    co_sig o = mk_sig [("x"%string, false)] false [] false /\
    is_ok (costobj_init (OpsSeq [HasCost (fun x => co_val o x true)])) = true /\
    get_cost_io cfg true (cost_init 1000000) (calc_io 1 true [o] x) = (cost_init 1000000, [LIteration 1], Err TypeError).
Proof.
  exists (mk_cop (mk_sig [("x"%string, false)] false [] false) (fun x _ => x ^ 2) (fun _ _ => [])), (mk_cost_cfg (1 / 10000) (Some 1%Z) 4), 2.
  split; [reflexivity|]. split; reflexivity.
Qed.
Print Assumptions C130_documented_example_refuted.

(** The plot. It needs matplotlib; it is saved to output + "_cost_function.png". Its k-th point
    (k = 0, 1, ...) shows the logarithm of the cost evaluated at iteration (k+1)*cost_interval; costs
    that are not positive give -inf or nan. *)
Theorem C130_plot :
  (forall costs output, plot_cost false costs output = Err ImportError) /\
  (forall X cfg c verbose n (ops : list (cost_op X)) xs init output, (0 < c)%nat -> cost_interval cfg = Some (Z.of_nat c) ->
     Forall (fun o => accepts n (co_sig o)) ops ->
     exists fig, plot_cost true (cost_list (fst (calls_io cfg verbose n ops xs (cost_init init)))) output = Ok fig /\
       f_name fig = match output with None => "cost_function.png" | Some o => o ++ "_cost_function.png" end%string /\
       List.length (f_points fig) = (List.length xs / c)%nat /\
       forall k x, (k < List.length xs / c)%nat -> nth_error xs ((k + 1) * c - 1) = Some x ->
         let v := rsum (map (fun o => co_val o x verbose) ops) in
         exists y, nth_error (f_points fig) k = Some (k, y) /\
           (0 < v -> y = Fin (ln v / ln 10)) /\ (v = 0 -> y = NInf) /\ (v < 0 -> y = NaN)).
Proof.
  split; [reflexivity|]. intros X cfg c v n ops xs init output Hc Ic F. eexists. split; [reflexivity|]. split; [reflexivity|].
  set (total := fun x => rsum (map (fun o => co_val o x v) ops)).
  assert (E : cost_list (fst (calls_io cfg v n ops xs (cost_init init))) = every c (map total xs)).
  { rewrite calls_state. replace (map (fun x => snd (calc_io n v ops x)) xs) with (map (@Ok R) (map total xs)).
    - apply (cost_list_spec cfg c _ init Hc Ic).
    - rewrite map_map. apply map_ext. intros x. rewrite calc_ok by exact F. reflexivity. }
  rewrite E. cbn [f_points].
  assert (Le : List.length (every c (map total xs)) = (List.length xs / c)%nat) by (unfold every; rewrite map_length, seq_length, map_length; reflexivity).
  split; [rewrite combine_length, seq_length, map_length, Nat.min_id; exact Le|].
  intros k x Hk Hx. cbv zeta. exists (flog10 (Fin (total x))).
  split.
  - assert (Q : forall (l : list fval) m k y, nth_error l k = Some y -> nth_error (combine (seq m (List.length l)) l) k = Some ((m + k)%nat, y)).
    { clear. induction l as [|a l IH]; intros m [|k] y H; try discriminate; cbn in *.
      - injection H as ->. rewrite Nat.add_0_r. reflexivity.
      - rewrite (IH (S m) k y H). do 2 f_equal. lia. }
    rewrite (Q _ 0%nat k (flog10 (Fin (total x)))); [reflexivity|]. rewrite nth_error_map. unfold every. rewrite nth_error_map.
    assert (Es : nth_error (seq 1 (List.length (map total xs) / c)) k = Some (1 + k)%nat).
    { rewrite (nth_error_nth' _ 0%nat) by (rewrite seq_length, map_length; exact Hk). rewrite seq_nth by (rewrite map_length; exact Hk). reflexivity. }
    rewrite Es. cbn [option_map]. do 3 f_equal. replace ((1 + k) * c - 1)%nat with ((k + 1) * c - 1)%nat by lia.
    apply nth_error_nth. rewrite nth_error_map, Hx. reflexivity.
  - fold (total x). unfold flog10. destruct (Rlt_dec 0 (total x)) as [P|P]; [repeat split; intros; try lra; reflexivity|].
    destruct (Req_EM_T (total x) 0); repeat split; intros; try lra; reflexivity.
Qed.
Print Assumptions C130_plot.

(** "The plot shows the cost as a function of the iteration number" is false. *)
Theorem C130_plot_by_iteration_refuted :
  exists (o : cost_op R) cfg xs i v k fig, let '(s, lines) := calls_io cfg true 1 [o] xs (cost_init 0) in
    accepts 1 (co_sig o) /\ lines = [LIteration i; LCost v; LBlank] /\ plot_cost true (cost_list s) None = Ok fig /\
    f_xlabel fig = "Iteration"%string /\ f_points fig = [(k, flog10 (Fin v))] /\ Z.of_nat k <> i.
Proof.
  exists (mk_cop (mk_sig [] true [] true) (fun x _ => x) (fun _ _ => [])), (mk_cost_cfg 0 (Some 2%Z) 4), [3; 5], 2%Z, (5 + 0), 0%nat.
  eexists. split; [apply C130_signature|]. split; [reflexivity|]. split; [reflexivity|]. split; [reflexivity|]. split; [reflexivity|]. discriminate.
Qed.
Print Assumptions C130_plot_by_iteration_refuted.

(** Two evaluations, the second completing a window. *)
Example C130_example :
  snd (calls_io (mk_cost_cfg 1 (Some 1%Z) 2) true 1 [mk_cop (mk_sig [("x"%string, false)] false [("verbose"%string, true)] false) (fun x _ => x) (fun _ v => if v : bool then [" - MINE"%string] else [])]
         [4; 2] (cost_init 0))
  = [LIteration 1; LOp " - MINE"; LCost (4 + 0); LBlank; LIteration 2; LOp " - MINE"; LCost (2 + 0); LBlank; LTest; LChange (Some 1); LBlank].
Proof.
  rewrite (C130_report R _ 1 2); [|lia|lia|reflexivity|reflexivity|].
  - cbn -[Nat.div Nat.modulo relative_change every]. unfold every. cbn -[relative_change]. do 10 f_equal.
    unfold relative_change, average, total. cbn. destruct (Rle_dec _ _) as [H|H].
    + exfalso. assert (/ 10 ^ 16 <= 1) by (rewrite <- Rinv_1; apply Rinv_le_contravar; lra). rewrite Rabs_right in H by lra. lra.
    + f_equal. f_equal. rewrite (Rabs_left (_ - _)), Rabs_right by lra. field.
  - repeat constructor; cbn; auto. + intros []; [discriminate|contradiction]. + intros nm [H|[]]. injection H. auto.
Qed.
