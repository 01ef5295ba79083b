(** Lemmas for C139. *)
From Verif Require Import NPReal Py IPS Spec_Opt Proof_Smooth Spec_GD Spec_Regret Proof_Ada.
From Coq Require Import List Lia FunctionalExtensionality.
Import ListNotations.
Local Open Scope R_scope.

Lemma swap_sums {I} (l : list I) n (a : nat -> I -> R) : sum_below n (fun k => lsum l (a k)) = lsum l (fun i => sum_below n (fun k => a k i)).
Proof. induction n as [|n IH]; cbn [sum_below]; [rewrite lsum_const; ring|]. rewrite lsum_plus, IH. reflexivity. Qed.
Lemma sum_below_le n a c : (forall k, (k < n)%nat -> a k <= c k) -> sum_below n a <= sum_below n c.
Proof. induction n as [|n IH]; intros Q; cbn; [lra|]. pose proof (Q n ltac:(lia)). specialize (IH ltac:(intros; apply Q; lia)). lra. Qed.
Lemma sum_below_plus n a c : sum_below n (fun k => a k + c k) = sum_below n a + sum_below n c.
Proof. induction n as [|n IH]; cbn; [lra|]. rewrite IH. ring. Qed.
Lemma sum_below_scal n r a : sum_below n (fun k => r * a k) = r * sum_below n a.
Proof. induction n as [|n IH]; cbn; [lra|]. rewrite IH. ring. Qed.

Lemma R_vi (D : R -> Prop) (h : R -> R) (y t u : R) : convex_on (H := R_ips) D h -> 0 < t -> is_prox (H := R_ips) D (fun v => t * h v) y u ->
  D u /\ forall z, D z -> t * h u + (y - u) * (z - u) <= t * h z.
Proof.
  intros C Ht P. assert (C' : convex_on (H := R_ips) D (fun v => t * h v)).
  { intros a b r Da Db Hr. destruct (C a b r Da Db Hr) as [Q1 Q2]. split; [exact Q1|].
    apply (Rmult_le_compat_l t) in Q2; [|lra]. lra. }
  destruct (is_prox_vi (H := R_ips) D _ y u C' P) as [Du V]. split; [exact Du|]. intros z Dz. specialize (V z Dz). cbn in V. unfold vsub in V. cbn in V.
  replace ((y - u) * (z - u)) with ((y + -1 * u) * (z + -1 * u)) by ring. exact V.
Qed.

(** One entry, one update. *)
Lemma entry_regret (D : R -> Prop) (h : R -> R) (x g t u z : R) : convex_on (H := R_ips) D h -> 0 < t -> is_prox (H := R_ips) D (fun v => t * h v) (x - t * g)%R u -> D z ->
  h u - h z + g * (x - z) <= / (2 * t) * ((x - z) * (x - z) - (u - z) * (u - z)) + t / 2 * (g * g).
Proof.
  intros C Ht P Dz. destruct (R_vi D h _ t u C Ht P) as [_ V]. specialize (V z Dz).
  apply Rmult_le_reg_l with (2 * t); [lra|].
  replace (2 * t * (/ (2 * t) * ((x - z) * (x - z) - (u - z) * (u - z)) + t / 2 * (g * g))) with ((x - z) * (x - z) - (u - z) * (u - z) + t * g * (t * g)) by (field; lra).
  pose proof (Rle_0_sqr (x - u - t * g)) as Q. unfold Rsqr in Q. nra.
Qed.

Lemma root_growth eps g s : 0 < eps -> 0 <= s -> g * g / (sqrt (s + g * g) + eps) <= 2 * (sqrt (s + g * g) - sqrt s).
Proof.
  intros He Hs. assert (Pg : 0 <= g * g) by apply Rle_0_sqr.
  set (r := sqrt (s + g * g)). set (r0 := sqrt s). assert (Pr0 : 0 <= r0) by apply sqrt_pos.
  assert (Rr : r0 <= r) by (apply sqrt_le_1_alt; lra).
  assert (E : g * g = (r - r0) * (r + r0)).
  { unfold r, r0. replace ((sqrt (s + g * g) - sqrt s) * (sqrt (s + g * g) + sqrt s)) with (sqrt (s + g * g) * sqrt (s + g * g) - sqrt s * sqrt s) by ring. rewrite !sqrt_sqrt; lra. }
  apply Rmult_le_reg_r with (r + eps); [lra|]. unfold Rdiv. rewrite (Rmult_assoc (g * g)), Rinv_l, Rmult_1_r by lra. rewrite E.
  assert (0 <= r - r0) by lra. nra.
Qed.

(** One entry, n updates with the AdaGrad steps. *)
Section Entry.
Variables (D : R -> Prop) (h : R -> R) (eta eps B z : R) (x g s : nat -> R).
Hypothesis Ch : convex_on (H := R_ips) D h.
Hypothesis Heta : 0 < eta.
Hypothesis Heps : 0 < eps.
Hypothesis S0 : s 0%nat = 0.
Hypothesis SS : forall k, s (S k) = s k + g k * g k.
Hypothesis XS : forall k, is_prox (H := R_ips) D (fun v => eta / (sqrt (s (S k)) + eps) * h v) (x k - eta / (sqrt (s (S k)) + eps) * g k)%R (x (S k)).
Hypothesis Dz : D z.
Let b k := sqrt (s k) + eps.
Lemma e_s_pos k : 0 <= s k.
Proof. induction k as [|k IH]; [rewrite S0; lra|]. rewrite SS. pose proof (Rle_0_sqr (g k)) as Q. unfold Rsqr in Q. lra. Qed.
Lemma e_b_mono k : b k <= b (S k).
Proof. unfold b. apply Rplus_le_compat_r, sqrt_le_1_alt. rewrite SS. pose proof (Rle_0_sqr (g k)) as Q. unfold Rsqr in Q. lra. Qed.
Lemma e_regret n : (forall k, (k <= n)%nat -> Rabs (x k - z) <= B) ->
  sum_below n (fun k => h (x (S k)) - h z + g k * (x k - z)) <= (sqrt (s n) + eps) * (B * B) / (2 * eta) + eta * sqrt (s n).
Proof.
  intros Bd. assert (d_le : forall k, (k <= n)%nat -> (x k - z) * (x k - z) <= B * B).
  { intros k Hk. specialize (Bd k Hk). replace ((x k - z) * (x k - z)) with (Rabs (x k - z) * Rabs (x k - z)) by (rewrite <- Rabs_mult; apply Rabs_right, Rle_ge, Rle_0_sqr).
    pose proof (Rabs_pos (x k - z)). apply Rmult_le_compat; lra. }
  assert (G : forall m, (m <= n)%nat -> sum_below m (fun k => h (x (S k)) - h z + g k * (x k - z)) + b m / (2 * eta) * ((x m - z) * (x m - z)) <= b m / (2 * eta) * (B * B) + eta * sqrt (s m)).
  { induction m as [|m IH]; intros Hm.
    - cbn [sum_below]. rewrite S0, sqrt_0. specialize (d_le 0%nat ltac:(lia)).
      assert (0 <= b 0%nat / (2 * eta)) by (unfold b; pose proof (sqrt_pos (s 0%nat)); apply Rmult_le_pos; [lra|left; apply Rinv_0_lt_compat; lra]). nra.
    - cbn [sum_below]. specialize (IH ltac:(lia)). specialize (d_le m ltac:(lia)).
      assert (Pb : 0 < b (S m)) by (unfold b; pose proof (sqrt_pos (s (S m))); lra).
      assert (Ht : 0 < eta / b (S m)) by (apply Rmult_lt_0_compat; [lra|apply Rinv_0_lt_compat, Pb]).
      pose proof (entry_regret D h (x m) (g m) (eta / b (S m)) (x (S m)) z Ch Ht (XS m) Dz) as Q.
      replace (/ (2 * (eta / b (S m)))) with (b (S m) / (2 * eta)) in Q by (field; lra).
      pose proof (root_growth eps (g m) (s m) Heps (e_s_pos m)) as Rg. rewrite <- SS in Rg. fold (b (S m)) in Rg.
      replace (eta / b (S m) / 2 * (g m * g m)) with (eta / 2 * (g m * g m / b (S m))) in Q by (field; lra).
      apply (Rmult_le_compat_l (eta / 2)) in Rg; [|lra].
      assert (M : (b (S m) / (2 * eta) - b m / (2 * eta)) * ((x m - z) * (x m - z)) <= (b (S m) / (2 * eta) - b m / (2 * eta)) * (B * B)).
      { apply Rmult_le_compat_l; [|exact d_le]. pose proof (e_b_mono m). unfold Rdiv. rewrite <- Rmult_minus_distr_r. apply Rmult_le_pos; [lra|left; apply Rinv_0_lt_compat; lra]. }
      lra. }
  specialize (G n (le_n n)). fold (b n). assert (0 <= b n / (2 * eta) * ((x n - z) * (x n - z))).
  { apply Rmult_le_pos; [|apply Rle_0_sqr]. apply Rmult_le_pos; [unfold b; pose proof (sqrt_pos (s n)); lra|left; apply Rinv_0_lt_compat; lra]. }
  replace (b n * (B * B) / (2 * eta)) with (b n / (2 * eta) * (B * B)) by (field; lra). lra.
Qed.
End Entry.

(** Uniform steps, any penalty. *)
Section Uniform.
Context {H : ips}.
Variables (D : H -> Prop) (h : H -> R).
Hypothesis Ch : convex_on D h.
Lemma uniform_regret x g t u z : 0 < t -> is_prox D (fun v => t * h v) (x - t * g)%v u -> D z ->
  h u - h z + inner g (x - z)%v <= / (2 * t) * (nsq (x - z)%v - nsq (u - z)%v) + t / 2 * nsq g.
Proof.
  intros Ht P Dz. assert (C' : convex_on D (fun v => t * h v)).
  { intros a b r Da Db Hr. destruct (Ch a b r Da Db Hr) as [Q1 Q2]. split; [exact Q1|]. apply (Rmult_le_compat_l t) in Q2; [|lra]. lra. }
  destruct (is_prox_vi D _ _ u C' P) as [_ V]. specialize (V z Dz).
  apply Rmult_le_reg_l with (2 * t); [lra|].
  replace (2 * t * (/ (2 * t) * (nsq (x - z)%v - nsq (u - z)%v) + t / 2 * nsq g)) with (nsq (x - z)%v - nsq (u - z)%v + t * t * nsq g) by (field; lra).
  pose proof (nsq_pos ((x - u) - t * g)%v) as Q.
  assert (E : nsq ((x - u) - t * g)%v = nsq (x - z)%v - nsq (u - z)%v + t * t * nsq g - 2 * (inner (x - t * g - u)%v (u - z)%v) - 2 * t * inner g (x - z)%v).
  { iexpand. rewrite (inner_sym H u x), (inner_sym H g x), (inner_sym H g u), (inner_sym H z x), (inner_sym H z u). ring. }
  assert (E2 : inner (x - t * g - u)%v (z - u)%v = - inner (x - t * g - u)%v (u - z)%v) by (iexpand; ring).
  rewrite E2 in V. lra.
Qed.
Variables (x g : nat -> H) (e : nat -> R) (z : H).
Hypothesis Pe : forall k, 0 < e k.
Hypothesis XS : forall k, is_prox D (fun v => e k * h v) (x k - e k * g k)%v (x (S k)).
Hypothesis Dz : D z.
Lemma u_regret B n : (forall k, e (S k) <= e k) -> (forall k, (k <= n)%nat -> nsq (x k - z)%v <= B) ->
  sum_below (S n) (fun k => h (x (S k)) - h z + inner (g k) (x k - z)%v) <= B / (2 * e n) + / 2 * sum_below (S n) (fun k => e k * nsq (g k)).
Proof.
  intros De Bd.
  assert (G : forall m, (m <= n)%nat -> sum_below (S m) (fun k => h (x (S k)) - h z + inner (g k) (x k - z)%v) + / (2 * e m) * nsq (x (S m) - z)%v <= / (2 * e m) * B + / 2 * sum_below (S m) (fun k => e k * nsq (g k))).
  { induction m as [|m IH]; intros Hm.
    - cbn [sum_below]. pose proof (uniform_regret (x 0%nat) (g 0%nat) (e 0%nat) (x 1%nat) z (Pe 0) (XS 0) Dz) as Q.
      specialize (Bd 0%nat ltac:(lia)). apply (Rmult_le_compat_l (/ (2 * e 0%nat))) in Bd; [|left; apply Rinv_0_lt_compat; specialize (Pe 0%nat); lra]. lra.
    - specialize (IH ltac:(lia)). change (sum_below (S (S m)) ?a) with (sum_below (S m) a + a (S m)) in *. cbv beta.
      pose proof (uniform_regret (x (S m)) (g (S m)) (e (S m)) (x (S (S m))) z (Pe _) (XS _) Dz) as Q.
      specialize (Bd (S m) Hm).
      assert (M : (/ (2 * e (S m)) - / (2 * e m)) * nsq (x (S m) - z)%v <= (/ (2 * e (S m)) - / (2 * e m)) * B).
      { apply Rmult_le_compat_l; [|exact Bd]. pose proof (Pe (S m)). pose proof (De m).
        assert (/ (2 * e m) <= / (2 * e (S m))) by (apply Rinv_le_contravar; lra). lra. }
      replace (sum_below (S (S m)) (fun k => e k * nsq (g k))) with (sum_below (S m) (fun k => e k * nsq (g k)) + e (S m) * nsq (g (S m))) by reflexivity.
      replace (sum_below (S (S m)) (fun k => h (x (S k)) - h z + inner (g k) (x k - z)%v)) with (sum_below (S m) (fun k => h (x (S k)) - h z + inner (g k) (x k - z)%v) + (h (x (S (S m))) - h z + inner (g (S m)) (x (S m) - z)%v)) by reflexivity.
      lra. }
  specialize (G n (le_n n)). assert (0 <= / (2 * e n) * nsq (x (S n) - z)%v).
  { apply Rmult_le_pos; [left; apply Rinv_0_lt_compat; specialize (Pe n); lra|apply nsq_pos]. }
  unfold Rdiv. lra.
Qed.
Lemma c_regret eta n : (forall k, e k = eta) ->
  sum_below n (fun k => h (x (S k)) - h z + inner (g k) (x k - z)%v) <= nsq (x 0%nat - z)%v / (2 * eta) + eta / 2 * sum_below n (fun k => nsq (g k)).
Proof.
  intros Ce. assert (Pt : 0 < eta) by (rewrite <- (Ce 0%nat); apply Pe).
  assert (G : sum_below n (fun k => h (x (S k)) - h z + inner (g k) (x k - z)%v) + / (2 * eta) * nsq (x n - z)%v <= / (2 * eta) * nsq (x 0%nat - z)%v + eta / 2 * sum_below n (fun k => nsq (g k))).
  { induction n as [|n IH]; [cbn; lra|]. cbn [sum_below].
    pose proof (uniform_regret (x n) (g n) (e n) (x (S n)) z (Pe _) (XS _) Dz) as Q. rewrite Ce in Q. lra. }
  assert (0 <= / (2 * eta) * nsq (x n - z)%v) by (apply Rmult_le_pos; [left; apply Rinv_0_lt_compat; lra|apply nsq_pos]). unfold Rdiv. lra.
Qed.
End Uniform.

(** 1 + 1/sqrt 2 + ... + 1/sqrt n <= 2 sqrt n *)
Lemma inv_roots n : sum_below n (fun k => / sqrt (INR (S k))) <= 2 * sqrt (INR n).
Proof.
  induction n as [|n IH]; [cbn; rewrite sqrt_0; lra|]. cbn [sum_below].
  assert (P : 0 < sqrt (INR (S n))) by (apply sqrt_lt_R0, lt_0_INR; lia). pose proof (sqrt_pos (INR n)) as P0.
  assert (E : sqrt (INR (S n)) * sqrt (INR (S n)) = sqrt (INR n) * sqrt (INR n) + 1) by (rewrite !sqrt_sqrt by apply pos_INR; apply S_INR).
  enough (/ sqrt (INR (S n)) <= 2 * (sqrt (INR (S n)) - sqrt (INR n))) by lra.
  apply Rmult_le_reg_r with (sqrt (INR (S n))); [exact P|]. rewrite Rinv_l by lra.
  set (a := sqrt (INR (S n))) in *. set (c := sqrt (INR n)) in *. pose proof (Rle_0_sqr (a - c)) as Q. unfold Rsqr in Q. lra.
Qed.
