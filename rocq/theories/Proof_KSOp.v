(** KSupportNorm.op and KSupportNorm.cost. *)
From Verif Require Import NPReal Py Model_Signal Model_Stats Model_KSupport Spec_SVD Proof_SVD Proof_SVDMore Proof_SVDModel Spec_KSupport Proof_KSupport Proof_KSearch.
From Coq Require Import List Lia Psatz Sorted Permutation.
Import ListNotations.
Local Open Scope R_scope.

Lemma feps_pos : 0 < feps.
Proof. unfold feps. apply Rinv_0_lt_compat, pow_lt. lra. Qed.

Lemma grid_in lam w g : In g (ks_grid lam w) <->
  exists x c, In x w /\ (c = lam \/ c = lam + 1) /\ g = c / (Rabs x + feps).
Proof.
  unfold ks_grid. rewrite npunique_in, in_app_iff, !in_map_iff. split.
  - intros [(x & <- & X)|(x & <- & X)]; exists x; eexists; split; try exact X; split; try reflexivity; auto.
  - intros (x & c & X & [->| ->] & ->); [left|right]; exists x; split; auto.
Qed.
Lemma grid_pos lam w g : 0 < lam -> In g (ks_grid lam w) -> 0 < g.
Proof.
  intros L G. apply grid_in in G. destruct G as (x & c & _ & C & ->). pose proof (Rabs_pos x). pose proof feps_pos.
  apply Rdiv_lt_0_compat; [destruct C; lra|lra].
Qed.
Lemma grid_len lam w : w <> [] -> (2 <= length (ks_grid lam w))%nat.
Proof.
  intros W. destruct w as [|x w]; [contradiction|].
  assert (A : In (lam / (Rabs x + feps)) (ks_grid lam (x :: w))) by (apply grid_in; exists x, lam; cbn; auto).
  assert (B : In ((lam + 1) / (Rabs x + feps)) (ks_grid lam (x :: w))) by (apply grid_in; exists x, (lam + 1); cbn; auto).
  destruct (ks_grid lam (x :: w)) as [|g [|h G]]; cbn [length]; [destruct A| |lia].
  destruct A as [A|[]]. destruct B as [B|[]]. rewrite A in B. exfalso.
  pose proof (Rabs_pos x). pose proof feps_pos. apply (f_equal (fun v => v * (Rabs x + feps))) in B. unfold Rdiv in B.
  rewrite !Rmult_assoc, Rinv_l in B by lra. lra.
Qed.
Lemma grid_sorted lam w : StronglySorted Rlt (ks_grid lam w).
Proof. apply npunique_sorted. Qed.

Lemma div_cmp c a y : 0 < y -> (c / y <= a <-> c <= a * y).
Proof.
  intros Y. split; intros H.
  - apply (Rmult_le_compat_r y) in H; [|lra]. unfold Rdiv in H. rewrite Rmult_assoc, Rinv_l in H; lra.
  - apply (Rmult_le_reg_r y); [exact Y|]. unfold Rdiv. rewrite Rmult_assoc, Rinv_l by lra. lra.
Qed.
Lemma div_cmp2 c a y : 0 < y -> (a <= c / y <-> a * y <= c).
Proof.
  intros Y. split; intros H.
  - apply (Rmult_le_compat_r y) in H; [|lra]. unfold Rdiv in H. rewrite Rmult_assoc, Rinv_l in H; lra.
  - apply (Rmult_le_reg_r y); [exact Y|]. unfold Rdiv. rewrite Rmult_assoc, Rinv_l by lra. lra.
Qed.

Lemma in_grid_nth lam w g : In g (ks_grid lam w) -> exists j, (j < length (ks_grid lam w))%nat /\ nth j (ks_grid lam w) 0 = g.
Proof. intros H. apply (In_nth _ _ 0) in H. exact H. Qed.

Lemma first_sum lam w : 0 < lam -> w <> [] -> theta_sum lam w (nth 0 (ks_grid lam w) 0) = 0.
Proof.
  intros L W. pose proof feps_pos as E.
  assert (F : forall x, In x w -> theta1 lam (nth 0 (ks_grid lam w) 0) x = 0).
  { intros x X. destruct (in_grid_nth lam w (lam / (Rabs x + feps))) as (j & J & EJ); [apply grid_in; exists x, lam; auto|].
    pose proof (Rabs_pos x) as X0.
    assert (Q : nth 0 (ks_grid lam w) 0 <= lam / (Rabs x + feps)).
    { rewrite <- EJ. apply sorted_nth_le; [apply grid_sorted|lia]. }
    apply div_cmp2 in Q; [|lra].
    assert (P : 0 < nth 0 (ks_grid lam w) 0) by (apply (grid_pos lam w); [exact L|apply nth_In; lia]).
    rewrite theta1_clip. set (g0 := nth 0 (ks_grid lam w) 0) in *. clearbody g0. assert (g0 * Rabs x <= lam) by nra. clp. }
  set (a0 := nth 0 (ks_grid lam w) 0) in *. clearbody a0. clear W. induction w as [|x w IH]; [reflexivity|].
  rewrite theta_sum_cons, (F x (or_introl eq_refl)), IH; [ring|]. intros y Y. apply F. right. exact Y.
Qed.

Definition tau_of (lam : R) (al : fval) : R := match al with Fin a => lam / a | _ => 0 end.
Definition good_alpha (al : fval) : Prop := match al with Fin a => 0 < a | PInf => True | _ => False end.

Lemma saturate lam w g : 0 < lam -> exists A, g < A /\ theta_sum lam w A = nnz w.
Proof.
  intros L. assert (H : exists A, g < A /\ 0 < A /\ forall x, In x w -> x <> 0 -> lam + 1 <= A * Rabs x).
  { induction w as [|x w (A & GA & A0 & HA)].
    - exists (Rmax 0 g + 1). pose proof (Rmax_l 0 g). pose proof (Rmax_r 0 g). split; [lra|]. split; [lra|]. intros x [].
    - destruct (Req_EM_T x 0) as [->|N].
      + exists A. split; [exact GA|]. split; [exact A0|]. intros y [<-|Y] NY; [contradiction|auto].
      + assert (X : 0 < Rabs x) by (apply Rabs_pos_lt, N).
        exists (Rmax A ((lam + 1) / Rabs x)). pose proof (Rmax_l A ((lam + 1) / Rabs x)). pose proof (Rmax_r A ((lam + 1) / Rabs x)) as R2.
        split; [lra|]. split; [lra|]. intros y [<-|Y] NY.
        * apply div_cmp in R2; [lra|exact X].
        * specialize (HA y Y NY). pose proof (Rabs_pos y). nra. }
  destruct H as (A & GA & A0 & HA). exists A. split; [exact GA|].
  induction w as [|x w IH]; [reflexivity|]. rewrite theta_sum_cons. unfold nnz. cbn [map]. unfold rsum. cbn [fold_right].
  fold (rsum (map (fun x => if Req_EM_T x 0 then 0 else 1) w)). fold (nnz w). rewrite IH by (intros; apply HA; [right|]; assumption).
  f_equal. rewrite theta1_clip. destruct (Req_EM_T x 0) as [->|N].
  - rewrite Rabs_R0, Rmult_0_r. clp.
  - specialize (HA x (or_introl eq_refl) N). clp.
Qed.

Lemma find_alpha_close lam w k : 0 < lam -> w <> [] -> 1 <= k ->
  exists al t, ks_find_alpha lam w k = Ok al /\ good_alpha al /\ 0 <= t /\ exact_tau lam w k t /\
    forall x, In x w -> Rabs (zc lam (tau_of lam al) (Rabs x) - zc lam t (Rabs x)) <= err_const lam (length w) feps.
Proof.
  intros L W K. pose proof feps_pos as E. pose proof (grid_len lam w W) as GL. pose proof (grid_sorted lam w) as GS.
  pose proof (first_sum lam w L W) as S0.
  assert (EC : feps <= err_const lam (length w) feps).
  { unfold err_const. pose proof (pos_INR (length w)). pose proof (Rinv_0_lt_compat lam L).
    assert (0 <= INR (length w) * (1 + / lam)) by (apply Rmult_le_pos; lra). nra. }
  set (G := ks_grid lam w) in *.
  assert (GP : forall i, (i < length G)%nat -> 0 < nth i G 0) by (intros i I; apply (grid_pos lam w _ L), nth_In, I).
  unfold ks_find_alpha. fold G.
  pose proof (search_finds lam w G k GS GL) as SF. cbv beta zeta in SF. rewrite S0 in SF. specialize (SF ltac:(lra)).
  destruct SF as [[SL ->]|(i & I & SB & ->)]; cbn [bind].
  - (* the sum never exceeds k on the grid *)
    set (gl := nth (length G - 1) G 0) in *. set (gp := nth (length G - 2) G 0) in *.
    assert (GG : gp < gl) by (apply sorted_nth; [exact GS|lia]). assert (GP1 : 0 < gl) by (apply GP; lia). assert (GP2 : 0 < gp) by (apply GP; lia).
    assert (T : exists t, 0 <= t <= lam / gl /\ exact_tau lam w k t).
    { assert (LG : 0 < lam / gl) by (apply Rdiv_lt_0_compat; lra).
      destruct (Rle_dec (nnz w) k) as [N|N]; [exists 0; split; [lra|left; auto]|].
      destruct SL as [SL|SL].
      - destruct (saturate lam w gl L) as (A & GA & SA).
        destruct (theta_sum_ivt lam w k gl A GA SL ltac:(rewrite SA; lra)) as (t & TT & ST).
        exists (lam / t). assert (0 < lam / t) by (apply Rdiv_lt_0_compat; lra). split; [split; [lra|apply inv_order; lra]|].
        right. split; [assumption|]. replace (lam / (lam / t)) with t by (field; lra). exact ST.
      - exists (lam / gl). split; [lra|]. right. split; [exact LG|]. replace (lam / (lam / gl)) with gl by (field; lra). exact SL. }
    destruct T as (t & T1 & T2).
    assert (CL : forall tau x, 0 <= tau <= lam / gl -> In x w ->
              Rabs (zc lam tau (Rabs x) - zc lam t (Rabs x)) <= err_const lam (length w) feps).
    { intros tau x TA X. eapply Rle_trans; [|exact EC].
      assert (Q : (lam + 1) / (Rabs x + feps) <= gl).
      { destruct (in_grid_nth lam w ((lam + 1) / (Rabs x + feps))) as (j & J & EJ); [apply grid_in; exists x, (lam + 1); auto|].
        rewrite <- EJ. apply sorted_nth_le; [exact GS|]. fold G in J. lia. }
      pose proof (Rabs_pos x) as X0. apply div_cmp in Q; [|lra].
      assert (LG : lam / gl * (1 + lam) <= lam * (Rabs x + feps)).
      { apply (Rmult_le_reg_r gl); [exact GP1|]. replace (lam / gl * (1 + lam) * gl) with (lam * (lam + 1)) by (field; lra). nra. }
      assert (ZZ : zc lam 0 (Rabs x) - feps <= zc lam (lam / gl) (Rabs x)).
      { rewrite zc_zero by assumption. unfold zc.
        assert (XE : Rabs x = Rabs x / (1 + lam) * (1 + lam)) by (field; lra).
        assert (Rabs x / (1 + lam) - feps <= Rabs x - lam / gl).
        { set (q := Rabs x / (1 + lam)) in *. clearbody q. set (tl := lam / gl) in *. clearbody tl. rewrite XE in *. clear XE.
          apply (Rmult_le_reg_r (1 + lam)); [lra|]. nra. }
        pose proof (Rmax_l (Rabs x - lam / gl) 0). apply Rmin_glb; lra. }
      pose proof (zc_mono lam 0 tau (Rabs x) ltac:(lra)). pose proof (zc_mono lam tau (lam / gl) (Rabs x) ltac:(lra)).
      pose proof (zc_mono lam 0 t (Rabs x) ltac:(lra)). pose proof (zc_mono lam t (lam / gl) (Rabs x) ltac:(lra)).
      apply Rabs_le. lra. }
    unfold ks_interpolate. destruct (Req_EM_T 0 k) as [C|_]; [lra|].
    assert (LG : 0 < lam / gl) by (apply Rdiv_lt_0_compat; lra).
    destruct (Req_EM_T (theta_sum lam w gl) k) as [EK|NK].
    + exists (Fin gl), t. split; [reflexivity|]. split; [exact GP1|]. split; [lra|]. split; [exact T2|]. intros x X. apply CL; [cbn [tau_of]; lra|exact X].
    + destruct (Req_EM_T gl gp) as [C|_]; [lra|]. cbv zeta. rewrite !Rminus_0_r.
      set (sl := theta_sum lam w gl / (gl - gp)). set (kk := k - (0 - sl * gp)).
      assert (SS : sl * (gl - gp) = theta_sum lam w gl) by (unfold sl; field; lra).
      assert (SP : 0 <= sl).
      { apply Rmult_le_pos; [|apply Rlt_le, Rinv_0_lt_compat; lra].
        rewrite <- S0. apply theta_sum_mono, sorted_nth_le; [exact GS|lia]. }
      clearbody sl. assert (KP : 0 < kk) by (unfold kk; nra).
      unfold fdiv. destruct (Req_EM_T sl 0) as [->|NS].
      * destruct (Req_EM_T kk 0) as [C|_]; [lra|]. destruct (Rlt_dec 0 kk) as [_|C]; [|lra].
        exists PInf, t. split; [reflexivity|]. split; [exact I|]. split; [lra|]. split; [exact T2|]. intros x X. apply CL; [cbn [tau_of]; lra|exact X].
      * exists (Fin (kk / sl)), t. assert (GK : gl <= kk / sl) by (apply div_cmp2; [lra|unfold kk; lra]).
        split; [reflexivity|]. split; [cbn; lra|]. split; [lra|]. split; [exact T2|]. intros x X. apply CL; [|exact X]. cbn [tau_of].
        split; [apply Rlt_le, Rdiv_lt_0_compat; lra|apply inv_order; lra].
  - set (a := nth i G 0) in *. set (b := nth (i + 1) G 0) in *.
    assert (AB : a < b) by (apply sorted_nth; [exact GS|lia]). assert (A0 : 0 < a) by (apply GP; lia).
    assert (ZE : forall v, Rabs (v - v) <= err_const lam (length w) feps).
    { intros v. rewrite Rminus_diag_eq, Rabs_R0 by reflexivity. lra. }
    unfold ks_interpolate. destruct (Req_EM_T (theta_sum lam w a) k) as [EA|NA].
    { exists (Fin a), (lam / a). assert (0 < lam / a) by (apply Rdiv_lt_0_compat; lra). split; [reflexivity|]. split; [exact A0|]. split; [lra|].
      split; [right; split; [assumption|]; replace (lam / (lam / a)) with a by (field; lra); exact EA|]. intros x _. apply ZE. }
    destruct (Req_EM_T (theta_sum lam w b) k) as [EB|NB].
    { exists (Fin b), (lam / b). assert (0 < lam / b) by (apply Rdiv_lt_0_compat; lra). split; [reflexivity|]. split; [cbn; lra|]. split; [lra|].
      split; [right; split; [assumption|]; replace (lam / (lam / b)) with b by (field; lra); exact EB|]. intros x _. apply ZE. }
    destruct (Req_EM_T b a) as [C|_]; [lra|]. cbv zeta.
    set (Sa := theta_sum lam w a) in *. set (Sb := theta_sum lam w b) in *.
    set (sl := (Sb - Sa) / (b - a)). assert (SS : sl * (b - a) = Sb - Sa) by (unfold sl; field; lra).
    assert (SP : 0 < sl) by (apply Rdiv_lt_0_compat; lra).
    unfold fdiv. destruct (Req_EM_T sl 0) as [C|_]; [lra|].
    set (xs := (k - (Sa - sl * a)) / sl).
    assert (XE : sl * (xs - a) = k - Sa) by (unfold xs; field; lra).
    assert (XB : a <= xs <= b) by (clearbody xs; nra).
    destruct (theta_sum_ivt lam w k a b AB ltac:(fold Sa; lra) ltac:(fold Sb; lra)) as (xt & XT & ST).
    exists (Fin xs), (lam / xt). assert (0 < lam / xt) by (apply Rdiv_lt_0_compat; lra).
    split; [reflexivity|]. split; [cbn; lra|]. split; [lra|].
    split; [right; split; [assumption|]; replace (lam / (lam / xt)) with xt by (field; lra); exact ST|].
    cbn [tau_of]. apply (bracket_err lam w a b feps k xs xt); auto.
    + intros x c X C. pose proof (Rabs_pos x) as X0.
      destruct (in_grid_nth lam w (c / (Rabs x + feps))) as (j & J & EJ); [apply grid_in; exists x, c; auto|]. fold G in J, EJ.
      destruct (le_lt_dec j i) as [JI|JI].
      * left. apply div_cmp; [lra|]. rewrite <- EJ. apply sorted_nth_le; [exact GS|lia].
      * right. apply div_cmp2; [lra|]. rewrite <- EJ. apply sorted_nth_le; [exact GS|lia].
    + fold Sa Sb. lra.
    + fold Sa Sb sl. lra.
Qed.

(** One output entry for the alpha that was found. *)
Definition out_f (lam : R) (al : fval) (x : R) : R := x * theta_f lam al x / (theta_f lam al x + lam).

Lemma theta_f_range lam al x : good_alpha al -> 0 <= theta_f lam al x <= 1.
Proof.
  destruct al; cbn; try tauto; intros _; [apply theta1_range|]. destruct (Req_EM_T x 0); lra.
Qed.
Lemma out_mag lam al x : 0 < lam -> good_alpha al ->
  Rabs x * theta_f lam al x / (theta_f lam al x + lam) = zc lam (tau_of lam al) (Rabs x).
Proof.
  intros L GA. destruct al as [a| | |]; cbn in GA; try contradiction; cbn [theta_f tau_of].
  - rewrite theta1_clip. apply out_zc; [exact L|exact GA|apply Rabs_pos].
  - rewrite zc_zero by (assumption || apply Rabs_pos). destruct (Req_EM_T x 0) as [->|N]; [rewrite Rabs_R0; field; lra|].
    field. lra.
Qed.
Lemma exact_mag lam t x : 0 < lam -> 0 <= t ->
  Rabs x * exact_theta lam t x / (exact_theta lam t x + lam) = zc lam t (Rabs x).
Proof.
  intros L T. unfold exact_theta. destruct (Req_EM_T t 0) as [->|N].
  - rewrite zc_zero by (assumption || apply Rabs_pos). destruct (Req_EM_T x 0) as [->|N]; [rewrite Rabs_R0; field; lra|]. field. lra.
  - assert (0 < lam / t) by (apply Rdiv_lt_0_compat; lra). rewrite theta1_clip, out_zc by (assumption || apply Rabs_pos).
    replace (lam / (lam / t)) with t by (field; lra). reflexivity.
Qed.
Lemma exact_theta_range lam t x : 0 <= exact_theta lam t x <= 1.
Proof. unfold exact_theta. destruct (Req_EM_T t 0); [destruct (Req_EM_T x 0); lra|apply theta1_range]. Qed.

Lemma abs_diff x f g : Rabs (x * f - x * g) = Rabs (Rabs x * f - Rabs x * g).
Proof. rewrite <- !Rmult_minus_distr_l, !Rabs_mult, Rabs_Rabsolu. reflexivity. Qed.

Lemma op_close lam w k : 0 < lam -> w <> [] -> (1 <= k)%nat ->
  exists al p, ks_find_alpha lam w (INR k) = Ok al /\ good_alpha al /\
    ksup_prox k (length w) lam (ent w) p /\
    forall i, (i < length w)%nat -> Rabs (out_f lam al (ent w i) - p i) <= err_const lam (length w) feps.
Proof.
  intros L W K. destruct (find_alpha_close lam w (INR k) L W ltac:(apply (le_INR 1); exact K)) as (al & t & EA & GA & T0 & EX & CL).
  exists al, (fun i => exact_out lam t (ent w i)). split; [exact EA|]. split; [exact GA|]. split; [apply exact_is_prox; assumption|].
  intros i I. specialize (CL (ent w i) ltac:(apply nth_In, I)).
  rewrite <- (out_mag lam al _ L GA), <- (exact_mag lam t _ L T0) in CL. unfold out_f, exact_out.
  unfold Rdiv in *. rewrite !Rmult_assoc in *. rewrite abs_diff. exact CL.
Qed.

Lemma ks_op_ok beta k w f al : 0 < beta * f -> ks_find_alpha (beta * f) w (IZR (Z.min k (Z.of_nat (length w)))) = Ok al ->
  good_alpha al ->
  ks_op beta k w f = Ok (map (fun x => x * theta_f (beta * 1) al x / (theta_f (beta * 1) al x + beta * f)) w, Z.min k (Z.of_nat (length w))).
Proof.
  intros L EA GA. unfold ks_op. cbv zeta. rewrite EA. cbn [bind].
  rewrite (mapM_ok _ (fun x => x * theta_f (beta * 1) al x / (theta_f (beta * 1) al x + beta * f))); [reflexivity|].
  intros x _. unfold ks_scale. pose proof (theta_f_range (beta * 1) al x GA). destruct (Req_EM_T _ 0); [lra|reflexivity].
Qed.

Lemma ent_map g w i : (i < length w)%nat -> ent (map g w) i = g (ent w i).
Proof. intros I. unfold ent. rewrite (nth_indep _ 0 (g 0)) by (rewrite map_length; exact I). apply map_nth. Qed.

Lemma ks_op_prox beta k w : 0 < beta -> (1 <= k)%Z -> w <> [] ->
  exists r p, ks_op beta k w 1 = Ok (r, Z.min k (Z.of_nat (length w))) /\ length r = length w /\
    ksup_prox (Z.to_nat (Z.min k (Z.of_nat (length w)))) (length w) beta (ent w) p /\
    forall i, (i < length w)%nat -> Rabs (ent r i - p i) <= err_const beta (length w) feps.
Proof.
  intros B K W. set (k' := Z.min k (Z.of_nat (length w))).
  assert (K1 : (1 <= k')%Z) by (unfold k'; destruct w; [contradiction|cbn [length]; lia]).
  destruct (op_close (beta * 1) w (Z.to_nat k') ltac:(lra) W ltac:(lia)) as (al & p & EA & GA & PR & CL).
  rewrite INR_IZR_INZ, Z2Nat.id in EA by lia.
  pose proof (ks_op_ok beta k w 1 al ltac:(lra) EA GA) as OP. rewrite Rmult_1_r in *.
  eexists _, p. split; [exact OP|]. split; [apply map_length|]. split; [exact PR|].
  intros i I. rewrite ent_map by exact I. apply CL, I.
Qed.
