(** Convergence of the iterates of ForwardBackward and Condat in finite-dimensional spaces. *)
From Verif Require Import NPReal Py IPS Spec_Opt Proof_Smooth Spec_Lim Proof_Lim Model_SetUp Model_FB Proof_FB Proof_FB2 Model_PD Proof_PD.
From Coq Require Import List Lia.
Import ListNotations.
Local Open Scope R_scope.

Definition seq_continuous {H K : ips} (T : H -> K) : Prop :=
  forall u l, converges u l -> converges (fun n => T (u n)) (T l).

Lemma norm_sub_sym {H : ips} (x y : H) : norm (x - y)%v = norm (y - x)%v.
Proof. unfold norm. f_equal. apply nsq_sub_sym. Qed.

Lemma bounded_continuous {H K : ips} (T : H -> K) L : (forall x y, norm (T x - T y)%v <= L * norm (x - y)%v) -> seq_continuous T.
Proof.
  intros Lp u l C e He. assert (P : 0 < Rmax L 1) by (apply Rlt_le_trans with 1; [lra|apply Rmax_r]).
  destruct (C (e / Rmax L 1)) as (N & Q); [apply Rdiv_lt_0_compat; lra|]. exists N. intros n Hn. specialize (Q n Hn).
  apply Rle_lt_trans with (1 := Lp (u n) l). apply Rle_lt_trans with (Rmax L 1 * norm (u n - l)%v).
  - apply Rmult_le_compat_r; [apply norm_pos|apply Rmax_l].
  - apply Rmult_lt_compat_l with (r := Rmax L 1) in Q; [|exact P].
    replace (Rmax L 1 * (e / Rmax L 1)) with e in Q by (field; lra). exact Q.
Qed.

Lemma lipschitz_continuous {H : ips} L (df : H -> H) : lipschitz L df -> seq_continuous df.
Proof. intros Lp. apply (bounded_continuous df L Lp). Qed.

Lemma bounded_sq_continuous {H K : ips} B (L : H -> K) L' : adjoint L L' -> bounded_sq B L -> 0 <= B -> seq_continuous L.
Proof.
  intros A Hb HB. apply bounded_continuous with (sqrt B). intros x y. rewrite <- (adj_sub L L' A). unfold norm.
  rewrite <- sqrt_mult by (try apply inner_pos; exact HB). apply sqrt_le_1_alt. apply Hb.
Qed.

(** The adjoint has the same bound. *)
Lemma adjoint_bounded {H K : ips} B (L : H -> K) L' : adjoint L L' -> bounded_sq B L -> 0 <= B -> bounded_sq B L'.
Proof.
  intros A Hb HB y. assert (E : nsq (L' y) = inner (L (L' y)) y) by (unfold nsq; rewrite A; reflexivity).
  pose proof (cauchy_schwarz (L (L' y)) y) as C. pose proof (Hb (L' y)) as Q. rewrite <- E in C.
  pose proof (nsq_pos (L' y)) as P1. pose proof (nsq_pos y) as P2. set (a := nsq (L' y)) in *. set (b := nsq y) in *. set (c := nsq (L (L' y))) in *.
  destruct (Req_dec a 0) as [Z|N]; [rewrite Z; apply Rmult_le_pos; assumption|].
  apply Rmult_le_reg_l with a; [lra|]. apply Rle_trans with (1 := C).
  apply Rle_trans with (B * a * b); [apply Rmult_le_compat_r; assumption|]. lra.
Qed.

Lemma prox_continuous {H : ips} D (g : H -> R) prox c : 0 < c -> convex_on D g -> prox_operator D g prox -> seq_continuous (fun y => prox y c).
Proof.
  intros Hc Cg Pg. apply bounded_continuous with 1. intros x y.
  pose proof (prox_vi_nonexpansive _ _ _ _ _ _ (prox_operator_vi D g prox Cg Pg x c Hc) (prox_operator_vi D g prox Cg Pg y c Hc)) as Q.
  set (p := (prox x c - prox y c)%v) in *. pose proof (cauchy_schwarz_norm (x - y)%v p) as C. rewrite <- norm_sq in Q.
  pose proof (norm_pos p). pose proof (norm_pos (x - y)%v). rewrite Rmult_1_l.
  destruct (Req_dec (norm p) 0) as [Z|N]; [lra|]. apply Rmult_le_reg_r with (norm p); lra.
Qed.

Lemma vanishing {H : ips} (w : nat -> H) : (forall e, 0 < e -> exists N, forall n, (N <= n)%nat -> nsq (w n) < e) -> converges w vzero.
Proof.
  intros V. apply converges_sq. intros e He. destruct (V e He) as (N & Q). exists N. intros n Hn. rewrite vsub_0_r. apply Q, Hn.
Qed.

Lemma converges_prod {A B : ips} (u : nat -> prod_ips A B) (l : prod_ips A B) : converges u l ->
  converges (fun n => fst (u n)) (fst l) /\ converges (fun n => snd (u n)) (snd l).
Proof.
  intros C. split; apply converges_sq; intros e He; destruct (proj1 (converges_sq u l) C e He) as (N & Q); exists N; intros n Hn;
    specialize (Q n Hn); destruct (u n) as [x y], l as [a b]; unfold nsq in *; cbn in Q |- *;
    pose proof (inner_pos A (x - a)%v) as P1; pose proof (inner_pos B (y - b)%v) as P2; unfold vsub in *; lra.
Qed.
Lemma converges_pair {A B : ips} (u : nat -> A) (v : nat -> B) l m : converges u l -> converges v m ->
  converges (H := prod_ips A B) (fun n => (u n, v n)) (l, m).
Proof.
  intros C1 C2. apply converges_sq. intros e He.
  destruct (proj1 (converges_sq u l) C1 (e / 2) ltac:(lra)) as (N1 & Q1). destruct (proj1 (converges_sq v m) C2 (e / 2) ltac:(lra)) as (N2 & Q2).
  exists (N1 + N2)%nat. intros n Hn. specialize (Q1 n ltac:(lia)). specialize (Q2 n ltac:(lia)).
  unfold nsq in *. cbn. unfold vsub in *. lra.
Qed.

(** * ForwardBackward *)
Section FBConv.
Context {H : ips}.
Variable D : H -> Prop.
Variables (f g : H -> R) (grad : H -> H) (prox : H -> R -> H) (M beta lam : R).
Hypothesis Hb : 0 < beta.
Hypothesis HM : 0 <= M.
Hypothesis Sf : smooth_convex M f grad.
Hypothesis Cg : convex_on D g.
Hypothesis Pg : prox_operator D g prox.
Notation T := (fb_map grad prox beta).

Lemma fb_fejer y p : T p = p -> nsq (T y - p)%v + (1 - beta * M / 2) * nsq (T y - y)%v <= nsq (y - p)%v.
Proof.
  intros Fp. pose proof (prox_vi_nonexpansive _ _ _ _ _ _ (prox_operator_vi D g prox Cg Pg (y - beta * grad y)%v beta Hb)
    (prox_operator_vi D g prox Cg Pg (p - beta * grad p)%v beta Hb)) as Q.
  change (prox (y - beta * grad y)%v beta) with (T y) in Q. change (prox (p - beta * grad p)%v beta) with (T p) in Q. rewrite Fp in Q.
  pose proof (gradient_cross M f grad y (T y) p HM Sf) as G.
  set (t := T y) in *. clearbody t. set (d := (grad y - grad p)%v) in *.
  assert (E : inner (y - beta * grad y - (p - beta * grad p))%v (t - p)%v = inner (y - p)%v (t - p)%v - beta * inner d (t - p)%v)
    by (unfold d; iexpand; ring). rewrite E in Q. clearbody d.
  assert (E2 : nsq (y - p)%v = nsq (t - y)%v - nsq (t - p)%v + 2 * inner (y - p)%v (t - p)%v).
  { iexpand. rewrite (inner_sym H y p), (inner_sym H t p), (inner_sym H y t). ring. }
  assert (G2 : - (beta * M / 4) * nsq (t - y)%v <= beta * inner d (t - p)%v).
  { apply (Rmult_le_compat_l beta) in G; lra. }
  set (r := nsq (t - y)%v) in *. set (q := inner d (t - p)%v) in *. lra.
Qed.

Lemma T_continuous : seq_continuous T.
Proof.
  intros u l C. unfold fb_map. apply (prox_continuous D g prox beta Hb Cg Pg (fun n => (u n - beta * grad (u n))%v)).
  apply converges_sub_v; [exact C|]. apply converges_scal. apply (lipschitz_continuous M); [apply Sf|exact C].
Qed.

Variables (X Z : nat -> H).
Hypothesis SX : forall n, X (S n) = T (Z n).
Hypothesis SZ : forall n, Z (S n) = (X n + lam * (X (S n) - X n))%v.
Hypothesis Hl : 0 < lam <= 1.

Lemma relaxed_energy p n : T p = p ->
  (1 - lam) * nsq (X (S n) - p)%v + nsq (Z (S n) - p)%v
   + ((1 - beta * M / 2) * nsq (X (S n) - Z n)%v + lam * (1 - lam) * nsq (X (S n) - X n)%v)
  <= (1 - lam) * nsq (X n - p)%v + nsq (Z n - p)%v.
Proof.
  intros Fp. pose proof (fb_fejer (Z n) p Fp) as Q. rewrite <- SX in Q.
  assert (E : nsq (Z (S n) - p)%v = (1 - lam) * nsq (X n - p)%v + lam * nsq (X (S n) - p)%v - lam * (1 - lam) * nsq (X (S n) - X n)%v).
  { rewrite SZ. set (x := X n). set (x' := X (S n)). iexpand. rewrite (inner_sym H x p), (inner_sym H x' p), (inner_sym H x' x). ring. }
  rewrite E. set (a := nsq (X n - p)%v) in *. set (b := nsq (X (S n) - p)%v) in *. lra.
Qed.

Lemma relaxed_residual_sum p : T p = p -> beta * M < 2 -> forall n,
  (1 - beta * M / 2) * rsum (map (fun k => nsq (X (S k) - Z k)%v) (seq 0 n)) <= (1 - lam) * nsq (X 0%nat - p)%v + nsq (Z 0%nat - p)%v.
Proof.
  intros Fp HbM n. apply (residual_sum (fun n => (1 - lam) * nsq (X n - p)%v + nsq (Z n - p)%v)); [lra| |].
  - intros k. pose proof (nsq_pos (X k - p)%v). pose proof (nsq_pos (Z k - p)%v). nra.
  - intros k. pose proof (relaxed_energy p k Fp). pose proof (nsq_pos (X (S k) - X k)%v).
    assert (0 <= lam * (1 - lam) * nsq (X (S k) - X k)%v) by (apply Rmult_le_pos; [nra|assumption]). lra.
Qed.

Hypothesis FD : finite_dimensional H.
Hypothesis HbM : beta * M < 2.

Lemma relaxed_residual p : T p = p -> converges (fun n => (X (S n) - Z n)%v) vzero /\ (lam < 1 -> converges (fun n => (X (S n) - X n)%v) vzero).
Proof.
  intros Fp.
  set (a := fun n => (1 - lam) * nsq (X n - p)%v + nsq (Z n - p)%v).
  assert (Ha : forall n, 0 <= a n) by (intros n; unfold a; pose proof (nsq_pos (X n - p)%v); pose proof (nsq_pos (Z n - p)%v); nra).
  split; [|intros Hl1]; apply vanishing.
  - apply (residual_vanishes a _ (1 - beta * M / 2)); [lra|exact Ha|intros n; apply nsq_pos|].
    intros n. unfold a. pose proof (relaxed_energy p n Fp). pose proof (nsq_pos (X (S n) - X n)%v).
    assert (0 <= lam * (1 - lam) * nsq (X (S n) - X n)%v) by (apply Rmult_le_pos; [nra|assumption]). lra.
  - apply (residual_vanishes a _ (lam * (1 - lam))); [nra|exact Ha|intros n; apply nsq_pos|].
    intros n. unfold a. pose proof (relaxed_energy p n Fp). pose proof (nsq_pos (X (S n) - Z n)%v).
    assert (0 <= (1 - beta * M / 2) * nsq (X (S n) - Z n)%v) by (apply Rmult_le_pos; [lra|assumption]). lra.
Qed.

Lemma fb_converges : X 0%nat = Z 0%nat -> (exists p, T p = p) -> exists l, T l = l /\ converges X l /\ converges Z l.
Proof.
  intros E0 (p & Fp). destruct (relaxed_residual p Fp) as [R1 R2].
  assert (Lim : forall phi b, increasing_idx phi -> converges (fun n => Z (phi n)) b -> T b = b /\ converges (fun n => X (S (phi n))) b).
  { intros phi b I C. assert (C1 : converges (fun n => X (S (phi n))) b).
    { apply converges_near with (fun n => Z (phi n)); [|exact C]. apply (converges_sub _ _ phi I R1). }
    split; [|exact C1]. apply (converges_unique (fun n => X (S (phi n)))); [|exact C1].
    apply converges_ext with (fun n => T (Z (phi n))); [intros n; symmetry; apply SX|]. apply T_continuous. exact C. }
  destruct (Req_dec lam 1) as [L1|N1].
  - assert (EX : forall n, Z n = X n).
    { intros [|n]; [symmetry; exact E0|]. rewrite SZ, L1. vring. }
    destruct (fejer_converges FD Z (fun q => T q = q) (fun v => nsq v) 1 1) as (l & Fl & C).
    + lra.
    + intros v. lra.
    + intros q Fq n. pose proof (fb_fejer (Z n) q Fq) as Q. rewrite (EX (S n)), SX. pose proof (nsq_pos (T (Z n) - Z n)%v).
      assert (0 <= (1 - beta * M / 2) * nsq (T (Z n) - Z n)%v) by (apply Rmult_le_pos; [lra|assumption]). lra.
    + exists p. exact Fp.
    + intros phi b I C. apply (Lim phi b I C).
    + exists l. split; [exact Fl|]. split; [|exact C]. apply converges_ext with (2 := C). exact EX.
  - assert (L1 : lam < 1) by lra. specialize (R2 L1).
    set (U := fun n => (X n, Z n) : prod_ips H H).
    destruct (fejer_converges (fd_prod H H FD FD) U (fun q => fst q = snd q /\ T (fst q) = fst q)
       (fun v => (1 - lam) * nsq (fst v) + nsq (snd v)) (1 - lam) 1) as ([l m] & [El Fl] & C).
    + lra.
    + intros [a b]. unfold nsq. cbn. pose proof (inner_pos H a). pose proof (inner_pos H b). nra.
    + intros [q q'] [Eq Fq] n. cbn in Eq, Fq. subst q'. pose proof (relaxed_energy q n Fq) as Q.
      pose proof (nsq_pos (X (S n) - Z n)%v). pose proof (nsq_pos (X (S n) - X n)%v).
      assert (0 <= (1 - beta * M / 2) * nsq (X (S n) - Z n)%v) by (apply Rmult_le_pos; [lra|assumption]).
      assert (0 <= lam * (1 - lam) * nsq (X (S n) - X n)%v) by (apply Rmult_le_pos; [nra|assumption]).
      unfold U. cbn. unfold vsub in *. lra.
    + exists (p, p). cbn. auto.
    + intros phi [a b] I C. apply converges_prod in C. destruct C as [Ca Cb]. cbn in Ca, Cb |- *.
      destruct (Lim phi b I Cb) as [Fb Cs].
      assert (E : a = b); [|subst a; auto].
      apply (converges_unique (fun n => X (S (phi n)))); [|exact Cs].
      apply converges_near with (fun n => X (phi n)); [|exact Ca]. apply (converges_sub _ _ phi I R2).
    + cbn in El, Fl. subst m. apply converges_prod in C. destruct C as [C1 C2]. exists l. auto.
Qed.
End FBConv.

(** Strong convexity gives a geometric rate, in any space. *)
Section Strong.
Context {H : ips}.
Variable D : H -> Prop.
Variables (f g : H -> R) (grad : H -> H) (prox : H -> R -> H) (M mu beta : R).
Hypothesis Hb : 0 < beta.
Hypothesis HM : 0 <= M.
Hypothesis Sf : smooth_convex M f grad.
Hypothesis Cf : strongly_convex mu f.
Hypothesis Cg : convex_on D g.
Hypothesis Pg : prox_operator D g prox.
Notation T := (fb_map grad prox beta).

Lemma shifted_gradient : is_gradient (fun x => f x - mu / 2 * nsq x) (fun x => (grad x - mu * x)%v).
Proof.
  destruct Sf as (_ & G & _). intros x h.
  assert (Q : derivable_pt_lim (fun t => mu / 2 * nsq (x + t * h)%v) 0 (mu * inner x h)).
  { intros e He. assert (P : 0 < Rabs (mu / 2) * nsq h + 1) by (pose proof (Rabs_pos (mu / 2)); pose proof (nsq_pos h); nra).
    assert (Pe : 0 < e / (Rabs (mu / 2) * nsq h + 1)) by (apply Rdiv_lt_0_compat; lra).
    exists (mkposreal _ Pe). intros t Ht Hd. cbn in Hd. rewrite Rplus_0_l.
    replace ((mu / 2 * nsq (x + t * h)%v - mu / 2 * nsq (x + 0 * h)%v) / t - mu * inner x h) with (mu / 2 * nsq h * t).
    2:{ iexpand. rewrite (inner_sym H h x). field. exact Ht. }
    rewrite !Rabs_mult. rewrite (Rabs_pos_eq (nsq h)) by apply nsq_pos.
    apply Rle_lt_trans with ((Rabs (mu / 2) * nsq h + 1) * Rabs t).
    - apply Rmult_le_compat_r; [apply Rabs_pos|]. lra.
    - apply Rmult_lt_compat_l with (r := Rabs (mu / 2) * nsq h + 1) in Hd; [|exact P].
      replace ((Rabs (mu / 2) * nsq h + 1) * (e / (Rabs (mu / 2) * nsq h + 1))) with e in Hd by (field; lra). exact Hd. }
  rewrite inner_sub_l, inner_scal_l. apply (derivable_pt_lim_minus _ _ _ _ _ (G x h) Q).
Qed.

Lemma strong_monotone x y : mu * nsq (x - y)%v <= inner (grad x - grad y)%v (x - y)%v.
Proof.
  pose proof (first_order _ _ Cf shifted_gradient x y) as A1. pose proof (first_order _ _ Cf shifted_gradient y x) as A2.
  assert (E : inner (grad x - mu * x)%v (y - x)%v + inner (grad y - mu * y)%v (x - y)%v = mu * nsq (x - y)%v - inner (grad x - grad y)%v (x - y)%v).
  { iexpand. rewrite (inner_sym H y x). ring. }
  cbv beta in A1, A2. lra.
Qed.

Lemma fb_contraction y p : T p = p -> beta * M <= 2 -> nsq (T y - p)%v <= (1 - beta * mu * (2 - beta * M)) * nsq (y - p)%v.
Proof.
  intros Fp HbM. pose proof (prox_vi_nonexpansive _ _ _ _ _ _ (prox_operator_vi D g prox Cg Pg (y - beta * grad y)%v beta Hb)
    (prox_operator_vi D g prox Cg Pg (p - beta * grad p)%v beta Hb)) as Q.
  change (prox (y - beta * grad y)%v beta) with (T y) in Q. change (prox (p - beta * grad p)%v beta) with (T p) in Q. rewrite Fp in Q.
  set (w := (y - beta * grad y - (p - beta * grad p))%v) in *.
  assert (N1 : nsq (T y - p)%v <= nsq w).
  { pose proof (nsq_pos (T y - p - w)%v) as P. assert (E : nsq (T y - p - w)%v = nsq (T y - p)%v - 2 * inner w (T y - p)%v + nsq w).
    { set (t := (T y - p)%v). iexpand. rewrite (inner_sym H t w). ring. } lra. }
  apply Rle_trans with (1 := N1).
  pose proof (cocoercive M f grad y p HM Sf) as C. pose proof (strong_monotone y p) as S.
  assert (E : nsq w = nsq (y - p)%v - 2 * beta * inner (grad y - grad p)%v (y - p)%v + beta * beta * nsq (grad y - grad p)%v).
  { unfold w. replace (y - beta * grad y - (p - beta * grad p))%v with ((y - p) - beta * (grad y - grad p))%v by vring.
    set (a := (y - p)%v). set (d := (grad y - grad p)%v). iexpand. rewrite (inner_sym H a d). ring. }
  rewrite E. set (d := inner (grad y - grad p)%v (y - p)%v) in *. set (r := nsq (y - p)%v) in *. set (n2 := nsq (grad y - grad p)%v) in *.
  assert (B1 : beta * beta * n2 <= beta * beta * (M * d)) by (apply Rmult_le_compat_l; [nra|exact C]).
  assert (B2 : beta * (2 - beta * M) * (mu * r) <= beta * (2 - beta * M) * d) by (apply Rmult_le_compat_l; [nra|exact S]). lra.
Qed.
End Strong.
