(** Theorems about POGM on smooth problems, C136: IdentityProx, any sigma_bar, resets included. *)
From Verif Require Import NPReal Py IPS Model_SetUp Spec_Opt Proof_Smooth Spec_Lim Proof_Lim Proof_Iter Model_FB Proof_FB2 Model_IdProx Proof_Pogm.
From Coq Require Import List Lia Classical.
Import ListNotations.
Local Open Scope R_scope.

Lemma identity_is_prox {H : ips} : prox_operator (H := H) everywhere identity_cost identity_prox.
Proof.
  intros y c Hc. apply prox_vi_is_prox. split; [exact I|]. intros z _. unfold identity_prox, identity_cost. rewrite vsub_self, inner_0_l. lra.
Qed.
(** [C136] IdentityProx is the proximity operator of the function that is zero everywhere, and its cost is that function: it adds nothing to any cost. *)
Theorem C136_identity_prox : forall (H : ips), prox_operator (H := H) everywhere (fun _ => 0) identity_prox /\ (forall (f : H -> R) x, f x + identity_cost x = f x).
Proof. intros H. split; [exact (@identity_is_prox H)|]. intros f x. unfold identity_cost. ring. Qed.
Print Assumptions C136_identity_prox.
Lemma zero_convex {H : ips} : convex_on (H := H) everywhere identity_cost.
Proof. intros x y t _ _ Ht. split; [exact I|]. unfold identity_cost. lra. Qed.

Lemma flat_at_minimiser {H : ips} (f : H -> R) grad L x : smooth_convex L f grad -> minimises everywhere f x -> grad x = vzero.
Proof.
  intros (Cf & Gf & _) M.
  assert (E : fb_map grad identity_prox 1 x = x).
  { apply (fb_map_fixed_iff everywhere f identity_cost grad identity_prox 1 x ltac:(lra) Cf Gf zero_convex identity_is_prox).
    destruct M as [_ M]. split; [exact I|]. intros z Hz. unfold identity_cost. specialize (M z Hz). lra. }
  unfold fb_map, identity_prox in E. replace (grad x) with (x - (x - 1 * grad x))%v by vring. rewrite E. apply vsub_self.
Qed.

Lemma pogm_start {H : ips} (grad : H -> H) u x y z ss bp sb s0 : pogm_init grad u x y z ss bp sb = Ok s0 ->
  po_beta s0 = step_or ss bp /\ 0 <= po_sigma_bar s0 <= 1 /\ pogm_ok s0 /\ po_t s0 = 1 /\ po_x s0 = x /\ po_x_new s0 = None.
Proof. intros E. destruct (pogm_init_ok grad _ _ _ _ _ _ _ _ E) as (A & B & C & D & F & _ & G & _). auto 10. Qed.

Lemma pogm_iterate_plain {H : ips} (grad : H -> H) prox metric period n s : (0 < n)%nat ->
  pogm_iterate grad prox None metric false period n s = Ok (po_x (pogm_after grad prox n s)).
Proof.
  intros Hn. unfold pogm_iterate.
  destruct (run_plain POGM (pogm_update grad prox) None metric false period n (mk_alg s [] false) eq_refl eq_refl eq_refl) as (s' & tr' & E & D').
  rewrite E. cbn [bind fst]. rewrite D'. cbn [data]. fold (pogm_after grad prox n s). destruct n as [|n]; [lia|].
  rewrite pogm_after_new. reflexivity.
Qed.

(** No estimate is further from a minimiser than the starting point, nor than any earlier estimate at
    which the momentum was reset (t = 1); so is x_final, whatever the cost object and the metrics. *)
Theorem C136_distance :
  forall (H : ips) (f : H -> R) grad (u x0 y z : H) ss bp sb s0 xs,
  0 < step_or ss bp -> smooth_convex (/ step_or ss bp) f grad ->
  pogm_init grad u x0 y z ss bp sb = Ok s0 -> minimises everywhere f xs ->
  let s n := pogm_after grad identity_prox n s0 in
  (forall n, norm (po_x (s n) - xs)%v <= norm (x0 - xs)%v) /\
  (forall m n, (m <= n)%nat -> po_t (s m) = 1 -> norm (po_x (s n) - xs)%v <= norm (po_x (s m) - xs)%v) /\
  (forall cost metric hm period n x, pogm_iterate grad identity_prox cost metric hm period n s0 = Ok x -> norm (x - xs)%v <= norm (x0 - xs)%v).
Proof.
  intros H f grad u x0 y z ss bp sb s0 xs Hb Sf E M s. destruct (pogm_start grad _ _ _ _ _ _ _ _ E) as (Eb & Hs & Hok & Ht & Ex & En).
  pose proof (flat_at_minimiser f grad _ xs Sf M) as Gs.
  assert (C : forall m n, (m <= n)%nat -> po_t (s m) = 1 -> norm (po_x (s n) - xs)%v <= norm (po_x (s m) - xs)%v).
  { intros m n Hn T. unfold norm. apply sqrt_le_1_alt. replace n with (m + (n - m))%nat by lia.
    apply (closer f grad (step_or ss bp) Hb Sf identity_prox (fun _ _ => eq_refl) s0 Eb Hs Hok xs Gs m (n - m) T). }
  assert (C0 : forall n, norm (po_x (s n) - xs)%v <= norm (x0 - xs)%v) by (intros n; rewrite <- Ex; apply (C 0%nat n); [lia|exact Ht]).
  split; [exact C0|]. split; [exact C|].
  intros cost metric hm period n x Q. destruct (pogm_iterate_ok grad identity_prox cost metric hm period n s0 x En Q) as (N & _ & ->). apply C0.
Qed.
Print Assumptions C136_distance.

(** The rate: t is the value reported to the metrics, at least 1 + j / 2 after j updates without reset. *)
Theorem C136_rate :
  forall (H : ips) (f : H -> R) grad (u x0 y z : H) ss bp sb s0 xs,
  let beta := step_or ss bp in
  0 < beta -> smooth_convex (/ beta) f grad ->
  pogm_init grad u x0 y z ss bp sb = Ok s0 -> minimises everywhere f xs ->
  let s n := pogm_after grad identity_prox n s0 in
  (forall n, f (po_x (s n)) - f xs <= nsq (x0 - xs)%v / (2 * beta * po_t (s n) ^ 2)) /\
  (forall m n, (m <= n)%nat -> (forall i, (m < i <= n)%nat -> po_t (s i) <> 1) ->
     f (po_x (s n)) - f xs <= 2 * nsq (x0 - xs)%v / (beta * (INR (n - m) + 2) ^ 2)) /\
  (forall n metric period, (0 < n)%nat -> pogm_iterate grad identity_prox None metric false period n s0 = Ok (po_x (s n))).
Proof.
  intros H f grad u x0 y z ss bp sb s0 xs beta Hb Sf E M s. destruct (pogm_start grad _ _ _ _ _ _ _ _ E) as (Eb & Hs & Hok & Ht & Ex & En).
  fold beta in Eb. pose proof (flat_at_minimiser f grad _ xs Sf M) as Gs.
  assert (V : forall n, 1 <= po_t (s n) /\ f (po_x (s n)) - f xs <= nsq (x0 - xs)%v / (2 * beta * po_t (s n) ^ 2)).
  { intros n. destruct (run_inv f grad beta Hb Sf identity_prox (fun _ _ => eq_refl) xs Gs s0 n Eb Hs Hok Ht) as (Rsq & Ql & L & I).
    fold (s n) in I. destruct I as (_ & _ & (T & _) & _ & _ & _ & p & I). split; [exact T|]. rewrite Ex in L.
    apply Rle_trans with (1 := value f grad beta Hb Sf xs Gs _ _ _ _ _ _ I). replace (po_t (s n) ^ 2) with (po_t (s n) * po_t (s n)) by ring.
    unfold Rdiv. apply Rmult_le_compat_r; [|exact L]. left. apply Rinv_0_lt_compat. apply Rmult_lt_0_compat; nra. }
  split; [intros n; apply V|]. split; [|intros n metric period Hn; apply pogm_iterate_plain, Hn].
  intros m n Hn Nr. destruct (V n) as [_ Vn].
  assert (G : forall j, (m + j <= n)%nat -> 1 + INR j / 2 <= po_t (s (m + j)%nat)).
  { induction j as [|j IH]; intros Hj; [cbn; rewrite Nat.add_0_r; destruct (V m) as [T _]; lra|]. specialize (IH ltac:(lia)).
    specialize (Nr (m + S j)%nat ltac:(lia)). rewrite Nat.add_succ_r in Nr |- *.
    destruct (run_inv f grad beta Hb Sf identity_prox (fun _ _ => eq_refl) xs Gs s0 (m + j) Eb Hs Hok Ht) as (Rsq & Ql & _ & I).
    destruct (sinv_step f grad beta Hb Sf identity_prox (fun _ _ => eq_refl) xs Gs Rsq Ql _ I) as (_ & _ & [[T _]|[T _]]);
      match type of T with _ = ?r => change (po_t (s (S (m + j))) = r) in T end; [contradiction|].
    rewrite T, S_INR. destruct (V (m + j)%nat) as [T1 _]. pose proof (tnext_grow _ T1). unfold s in *. lra. }
  specialize (G (n - m)%nat ltac:(lia)). replace (m + (n - m))%nat with n in G by lia. pose proof (pos_INR (n - m)) as Pi. set (j := INR (n - m)) in *.
  apply Rle_trans with (1 := Vn). set (t := po_t (s n)) in *. pose proof (nsq_pos (x0 - xs)%v) as Pn.
  assert (Tj : (j + 2) ^ 2 <= 4 * t ^ 2) by nra. assert (Pj : 0 < beta * (j + 2) ^ 2) by (apply Rmult_lt_0_compat; nra).
  replace (2 * nsq (x0 - xs)%v / (beta * (j + 2) ^ 2)) with (nsq (x0 - xs)%v * / (beta * (j + 2) ^ 2 / 2)) by (field; split; [nra|lra]).
  unfold Rdiv at 1. apply Rmult_le_compat_l; [exact Pn|]. apply Rinv_le_contravar; [lra|]. nra.
Qed.
Print Assumptions C136_rate.

(** If the momentum is reset again and again the estimates converge to a minimiser. *)
Theorem C136_resets_converge :
  forall (H : ips) (f : H -> R) grad (u x0 y z : H) ss bp sb s0,
  finite_dimensional H -> 0 < step_or ss bp -> smooth_convex (/ step_or ss bp) f grad ->
  pogm_init grad u x0 y z ss bp sb = Ok s0 -> (exists xs, minimises everywhere f xs) ->
  (forall N, exists n, (N <= n)%nat /\ po_t (pogm_after grad identity_prox n s0) = 1) ->
  exists l, minimises everywhere f l /\ converges (fun n => po_x (pogm_after grad identity_prox n s0)) l.
Proof.
  intros H f grad u x0 y z ss bp sb s0 FD Hb Sf E (xs & M) Inf. destruct (pogm_start grad _ _ _ _ _ _ _ _ E) as (Eb & Hs & Hok & Ht & Ex & En).
  pose proof (flat_at_minimiser f grad _ xs Sf M) as Gs.
  destruct (resets_converge f grad (step_or ss bp) Hb Sf identity_prox (fun _ _ => eq_refl) FD s0 xs Gs Eb Hs Hok Ht Inf) as (l & Ml & C).
  exists l. split; [split; [exact I|]; intros w _; apply Ml|exact C].
Qed.
Print Assumptions C136_resets_converge.

(** In every case the values converge to the minimum. *)
Theorem C136_values_converge :
  forall (H : ips) (f : H -> R) grad (u x0 y z : H) ss bp sb s0 xs,
  finite_dimensional H -> 0 < step_or ss bp -> smooth_convex (/ step_or ss bp) f grad ->
  pogm_init grad u x0 y z ss bp sb = Ok s0 -> minimises everywhere f xs ->
  forall e, 0 < e -> exists N, forall n metric period, (N <= n)%nat ->
    exists x, pogm_iterate grad identity_prox None metric false period n s0 = Ok x /\ f x - f xs < e.
Proof.
  intros H f grad u x0 y z ss bp sb s0 xs FD Hb Sf E M e He. set (beta := step_or ss bp) in *.
  assert (Q : exists N, forall n, (N <= n)%nat -> f (po_x (pogm_after grad identity_prox n s0)) - f xs < e).
  { destruct (classic (forall N, exists n, (N <= n)%nat /\ po_t (pogm_after grad identity_prox n s0) = 1)) as [Inf|Fin].
    - destruct (C136_resets_converge H f grad u x0 y z ss bp sb s0 FD Hb Sf E (ex_intro _ xs M) Inf) as (l & Ml & C).
      assert (El : f l = f xs) by (apply Rle_antisym; [apply Ml; exact I|apply M; exact I]).
      pose proof (flat_at_minimiser f grad _ l Sf Ml) as Gl.
      destruct (proj1 (converges_sq _ l) C (2 * beta * e)) as (N & QN); [repeat apply Rmult_lt_0_compat; lra|].
      exists N. intros n Hn. specialize (QN n Hn). set (x := po_x (pogm_after grad identity_prox n s0)) in *.
      destruct Sf as (Cf & Gf & Lf). pose proof (descent f grad (/ beta) Gf Lf l x) as D. rewrite Gl, inner_0_l in D.
      assert (B : / beta / 2 * nsq (x - l)%v < e); [|lra].
      apply Rmult_lt_reg_l with (2 * beta); [lra|]. replace (2 * beta * (/ beta / 2 * nsq (x - l)%v)) with (nsq (x - l)%v) by (field; lra). exact QN.
    - apply not_all_ex_not in Fin. destruct Fin as (m & Fin).
      destruct (C136_rate H f grad u x0 y z ss bp sb s0 xs Hb Sf E M) as (_ & R2 & _). fold beta in R2.
      set (d := nsq (x0 - xs)%v) in *. assert (Pd : 0 <= d) by apply nsq_pos.
      destruct (archimed_cor1 (beta * e / (2 * (d + 1)))) as (N & QN & PN); [apply Rdiv_lt_0_compat; [apply Rmult_lt_0_compat; lra|lra]|].
      apply lt_0_INR in PN. exists (m + N)%nat. intros n Hn.
      apply Rle_lt_trans with (1 := R2 m n ltac:(lia) ltac:(intros i Hi Ti; apply Fin; exists i; split; [lia|exact Ti])).
      assert (Hj : INR N <= INR (n - m)) by (apply le_INR; lia). set (j := INR (n - m)) in *.
      assert (Pj : INR N < (j + 2) ^ 2) by nra.
      apply Rmult_lt_reg_r with (beta * (j + 2) ^ 2); [apply Rmult_lt_0_compat; lra|].
      replace (2 * d / (beta * (j + 2) ^ 2) * (beta * (j + 2) ^ 2)) with (2 * d) by (field; split; [nra|lra]).
      apply (Rmult_lt_compat_r (INR N * (2 * (d + 1)))) in QN; [|apply Rmult_lt_0_compat; lra].
      replace (/ INR N * (INR N * (2 * (d + 1)))) with (2 * (d + 1)) in QN by (field; lra).
      replace (beta * e / (2 * (d + 1)) * (INR N * (2 * (d + 1)))) with (beta * e * INR N) in QN by (field; lra).
      assert (beta * e * INR N <= e * (beta * (j + 2) ^ 2)).
      { replace (e * (beta * (j + 2) ^ 2)) with (beta * e * (j + 2) ^ 2) by ring. apply Rmult_le_compat_l; [|lra]. left. apply Rmult_lt_0_compat; lra. }
      lra. }
  destruct Q as (N & Q). exists (S N). intros n metric period Hn. eexists. split; [apply pogm_iterate_plain; lia|]. apply Q. lia.
Qed.
Print Assumptions C136_values_converge.

(** * One variable, f(x) = k x^2 / 2 *)

Lemma quadratic_smooth k : 0 <= k <= 1 -> smooth_convex (H := R_ips) (/ 1) (fun x => k * (x * x) / 2) (fun x => k * x).
Proof.
  intros Hk. split; [|split].
  - intros x y t _ _ Ht. split; [exact I|]. cbn. assert (0 <= k * (t * (1 - t) * ((x - y) * (x - y)))); [|match goal with |- ?a <= ?b => replace b with (a + k * (t * (1 - t) * ((x - y) * (x - y))) / 2) by field end; lra].
    apply Rmult_le_pos; [lra|]. apply Rmult_le_pos; [apply Rmult_le_pos; lra|]. apply Rle_0_sqr.
  - intros x h e He. cbn. assert (Pd : 0 < e / (Rabs (k * h * h) + 1)) by (apply Rdiv_lt_0_compat; [exact He|]; pose proof (Rabs_pos (k * h * h)); lra).
    exists (mkposreal _ Pd). intros t Ht Bt. cbn in Bt. match goal with |- Rabs ?z < e => replace z with (t * (k * h * h) / 2) by (field; exact Ht) end.
    unfold Rdiv. rewrite !Rabs_mult, (Rabs_right (/ 2)) by lra. rewrite <- Rabs_mult, <- Rabs_mult. pose proof (Rabs_pos (k * h * h)) as P. pose proof (Rabs_pos t) as Pt.
    apply (Rmult_lt_compat_r (Rabs (k * h * h) + 1)) in Bt; [|lra]. replace (e / (Rabs (k * h * h) + 1) * (Rabs (k * h * h) + 1)) with e in Bt by (field; lra). nra.
  - intros x y. rewrite !norm_R. cbn. replace (k * x + -1 * (k * y)) with (k * (x + -1 * y)) by ring. rewrite Rabs_mult, (Rabs_right k) by lra.
    rewrite Rinv_1. apply Rmult_le_compat_r; [apply Rabs_pos|lra].
Qed.
Lemma quadratic_min k : 0 <= k -> minimises (H := R_ips) everywhere (fun x => k * (x * x) / 2) 0.
Proof. intros Hk. split; [exact I|]. intros z _. assert (0 <= k * (z * z)) by (apply Rmult_le_pos; nra). lra. Qed.

Definition golden := / 2 * (1 + sqrt (1 + 4 * 1 ^ 2)).
Lemma golden_sq : golden * golden = golden + 1 /\ 1 < golden.
Proof. pose proof (tnext_sq 1) as Q. pose proof (tnext_grow 1 ltac:(lra)) as G. unfold tnext in Q, G. fold golden in Q, G. lra. Qed.

Lemma first_t k : 0 <= k -> po_t (pogm_update (H := R_ips) (fun x => k * x) identity_prox (@mk_pogm R_ips 1 1 1 1 (k * 1)%R 1 1 1 1 1 None)) = golden.
Proof.
  intros Hk. unfold pogm_update. cbv zeta.
  match goal with |- context [Rlt_dec ?a 0] => assert (Ha : a = k * k) end.
  { cbn. unfold identity_prox. match goal with |- context [?a * (?b + -1 * ?b)] => replace (a * (b + -1 * b)) with 0 by ring end. ring. }
  rewrite Ha. destruct (Rlt_dec (k * k) 0) as [Q|_]; [nra|].
  match goal with |- context [Rlt_dec ?a 0] => destruct (Rlt_dec a 0) end; reflexivity.
Qed.

(** The second update may leave a minimiser that the first one has reached. *)
Theorem C136_minimisers_are_kept_refuted :
  exists (H : ips) (f : H -> R) grad (u x0 y z : H) s0,
  smooth_convex (/ 1) f grad /\ pogm_init grad u x0 y z None 1 1 = Ok s0 /\
  minimises everywhere f (po_x (pogm_after grad identity_prox 1 s0)) /\
  ~ minimises everywhere f (po_x (pogm_after grad identity_prox 2 s0)) /\
  f (po_x (pogm_after grad identity_prox 1 s0)) < f (po_x (pogm_after grad identity_prox 2 s0)).
Proof.
  destruct golden_sq as [Gq Gp]. set (k := / golden).
  assert (Hk : 0 < k < 1) by (unfold k; split; [apply Rinv_0_lt_compat; lra|rewrite <- Rinv_1; apply Rinv_lt_contravar; lra]).
  set (s0 := @mk_pogm R_ips 1 1 1 1 (k * 1)%R 1 1 1 1 1 None).
  assert (E0 : pogm_init (H := R_ips) (fun x => k * x) 1 1 1 1 None 1 1 = Ok s0).
  { unfold pogm_init. destruct (Rlt_dec 1 0); [lra|]. destruct (Rgt_dec 1 1); [lra|]. reflexivity. }
  set (s1 := pogm_after (H := R_ips) (fun x => k * x) identity_prox 1 s0).
  assert (F1 := update_facts (H := R_ips) (fun x => k * x) 1 ltac:(lra) identity_prox (fun _ _ => eq_refl) s0 eq_refl ltac:(cbn; lra)
    ltac:(unfold pogm_ok; cbn; lra) (or_introl eq_refl)). cbv zeta in F1.
  change (pogm_update (H := R_ips) (fun x => k * x) identity_prox s0) with s1 in F1.
  destruct F1 as (B1 & Sb1 & Ok1 & Z1 & U1 & X1 & _).
  assert (T1 : po_t s1 = golden) by (apply (first_t k); lra).
  change (po_x s0) with 1 in U1, X1. change (po_u s0) with 1 in X1. change (po_t s0) with 1 in X1. change (po_sigma s0) with 1 in X1. change (tnext 1) with golden in X1.
  assert (Kg : k * golden = 1) by (unfold k; field; lra).
  assert (X1' : po_x s1 = 0).
  { rewrite X1. cbn. unfold Rdiv. fold k. assert (k * k = 1 - k) by (unfold k; apply Rmult_eq_reg_r with (golden * golden); [|nra]; replace (/ golden * / golden * (golden * golden)) with 1 by (field; lra);
      rewrite Gq at 1; replace ((1 - / golden) * (golden + 1)) with (golden - / golden) by (field; lra);
      apply Rmult_eq_reg_r with golden; [|lra]; replace ((golden - / golden) * golden) with (golden * golden - 1) by (field; lra); lra). nra. }
  assert (F2 := update_facts (H := R_ips) (fun x => k * x) 1 ltac:(lra) identity_prox (fun _ _ => eq_refl) s1 B1 ltac:(rewrite Sb1; cbn; lra) Ok1 (or_intror Z1)). cbv zeta in F2.
  change (pogm_update (H := R_ips) (fun x => k * x) identity_prox s1) with (pogm_after (H := R_ips) (fun x => k * x) identity_prox 2 s0) in F2.
  destruct F2 as (_ & _ & _ & _ & _ & X2 & _). set (x2 := po_x (pogm_after (H := R_ips) (fun x => k * x) identity_prox 2 s0)) in *.
  assert (N2 : x2 < 0).
  { rewrite X2, X1', U1, T1. cbn. pose proof (tnext_grow golden ltac:(lra)) as Tg.
    assert (0 < (golden - 1) / tnext golden) by (apply Rdiv_lt_0_compat; lra). set (c := (golden - 1) / tnext golden) in *.
    match goal with |- ?z < 0 => replace z with (- (c * (1 - k))) by ring end. nra. }
  exists R_ips, (fun x => k * (x * x) / 2), (fun x => k * x), 1, 1, 1, 1, s0.
  split; [apply quadratic_smooth; lra|]. split; [exact E0|].
  assert (M1 : minimises (H := R_ips) everywhere (fun x => k * (x * x) / 2) (po_x s1)) by (rewrite X1'; apply quadratic_min; lra).
  assert (V1 : k * ((po_x s1 : R) * po_x s1) / 2 = 0) by (rewrite X1'; field).
  assert (P2 : 0 < k * ((x2 : R) * x2)) by (apply Rmult_lt_0_compat; nra).
  split; [exact M1|]. split.
  - intros [_ M]. specialize (M 0 I). change (k * ((x2 : R) * x2) / 2 <= k * (0 * 0) / 2) in M. lra.
  - change (k * ((po_x s1 : R) * po_x s1) / 2 < k * ((x2 : R) * x2) / 2). lra.
Qed.
Print Assumptions C136_minimisers_are_kept_refuted.

(** f(x) = x^2 / 2 and x_0 = 1: the first update gives t = (1 + sqrt 5) / 2 and x_1 = - 1 / t, and the bound
    |x_0|^2 / (2 t^2) of C136_rate is attained. *)
Example C136_example : exists s0, pogm_init (H := R_ips) (fun x => 1 * x) 1 1 1 1 None 1 1 = Ok s0 /\
  let s1 := pogm_after (H := R_ips) (fun x => 1 * x) identity_prox 1 s0 in
  po_t s1 = golden /\ po_x s1 = - / golden /\ 1 * (po_x s1 * po_x s1) / 2 - 1 * (0 * 0) / 2 = nsq (H := R_ips) (1 - 0)%R / (2 * 1 * po_t s1 ^ 2).
Proof.
  destruct golden_sq as [Gq Gp]. exists (@mk_pogm R_ips 1 1 1 1 (1 * 1)%R 1 1 1 1 1 None). split.
  { unfold pogm_init. destruct (Rlt_dec 1 0); [lra|]. destruct (Rgt_dec 1 1); [lra|]. reflexivity. }
  set (s0 := @mk_pogm R_ips 1 1 1 1 (1 * 1)%R 1 1 1 1 1 None). cbv zeta. set (s1 := pogm_after (H := R_ips) (fun x => 1 * x) identity_prox 1 s0).
  assert (F1 := update_facts (H := R_ips) (fun x => 1 * x) 1 ltac:(lra) identity_prox (fun _ _ => eq_refl) s0 eq_refl ltac:(cbn; lra)
    ltac:(unfold pogm_ok; cbn; lra) (or_introl eq_refl)). cbv zeta in F1.
  change (pogm_update (H := R_ips) (fun x => 1 * x) identity_prox s0) with s1 in F1.
  destruct F1 as (_ & _ & _ & _ & _ & X1 & _).
  assert (T1 : po_t s1 = golden) by (apply (first_t 1); lra).
  assert (X1' : po_x s1 = - / golden).
  { rewrite X1. change (tnext (po_t s0)) with golden. cbn. field. lra. }
  split; [exact T1|]. split; [exact X1'|]. rewrite X1', T1. unfold nsq. cbn. field. lra.
Qed.
