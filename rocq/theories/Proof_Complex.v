(** Lemmas for C114-C116. *)
From Coq Require Import String.
From Verif Require Import NPReal Py IPS Proof_Cost Model_Signal Model_Prox Model_Linear Spec_Prox Proof_Prox Model_Complex Spec_Complex.
From Coq Require Import List Lia.
Import ListNotations Model_Linear.
Local Open Scope R_scope.

Definition C_ips : ips := prod_ips R_ips R_ips.

Lemma cabs_modulus z : cabs z = modulus z.
Proof. unfold cabs, modulus. f_equal. ring. Qed.
Lemma norm_modulus (z : C_ips) : norm z = modulus z.
Proof. rewrite <- cabs_modulus. reflexivity. Qed.
Lemma nsq_distsq (a b : C_ips) : nsq (a - b)%v = distsq a b.
Proof. destruct a, b. unfold distsq, nsq. cbn. ring. Qed.
Lemma modulus_pos z : 0 <= modulus z.
Proof. apply sqrt_pos. Qed.
Lemma modulus_sq z : modulus z ^ 2 = fst z ^ 2 + snd z ^ 2.
Proof. unfold modulus. apply pow2_sqrt. nra. Qed.
Lemma modulus_rscale a z : modulus (rscale a z) = Rabs a * modulus z.
Proof.
  unfold modulus, rscale. cbn [fst snd].
  replace ((a * fst z) ^ 2 + (a * snd z) ^ 2) with (a ^ 2 * (fst z ^ 2 + snd z ^ 2)) by ring.
  rewrite sqrt_mult by nra. f_equal. replace (a ^ 2) with (Rsqr a) by (unfold Rsqr; ring). apply sqrt_Rsqr_abs.
Qed.
Lemma modulus_0 : modulus (0, 0) = 0.
Proof. unfold modulus. cbn [fst snd]. replace (0 ^ 2 + 0 ^ 2) with 0 by ring. apply sqrt_0. Qed.
Lemma modulus_def z : modulus z = 0 -> z = (0, 0).
Proof. intros E. pose proof (modulus_sq z) as Q. rewrite E in Q. destruct z as [a b]. cbn in Q. f_equal; nra. Qed.
Lemma modulus_parts z : Rabs (fst z) <= modulus z /\ Rabs (snd z) <= modulus z.
Proof.
  unfold modulus. rewrite <- !sqrt_Rsqr_abs. unfold Rsqr. split; apply sqrt_le_1; nra.
Qed.

(** The entry before rounding, away from the guard against division by zero. *)
Lemma csoft_block t (z : C) : 0 <= t -> z = (0, 0) \/ eps64 <= modulus z ->
  (csoft_unrounded t z : C_ips) = if Rle_dec (norm (z : C_ips)) t then vzero else (Rmax 0 (1 - t / norm (z : C_ips)) * (z : C_ips))%v.
Proof.
  intros Ht H. rewrite norm_modulus. unfold csoft_unrounded. rewrite cabs_modulus. pose proof eps64_pos as P.
  destruct (Rle_dec (modulus z) t) as [L|L].
  - change (vzero) with ((0, 0) : C). destruct H as [E|E]; [rewrite E; unfold rscale; cbn; f_equal; ring|].
    rewrite (Rmax_right eps64) by exact E. rewrite Rmax_right.
    + unfold rscale. f_equal; ring.
    + assert (1 <= t / modulus z); [|lra]. apply (Rmult_le_reg_r (modulus z)); [lra|]. unfold Rdiv. rewrite Rmult_assoc, Rinv_l by lra. lra.
  - destruct H as [E|E]; [subst; rewrite modulus_0 in L; lra|]. rewrite (Rmax_right eps64) by exact E. rewrite Rmax_comm. reflexivity.
Qed.

(** Quadratic plus norm, in any inner-product space. *)
Lemma quad_norm_prox {H : ips} a b (x z : H) : 0 <= a -> 0 <= b ->
  let q := if Rle_dec (norm x) b then vzero else (Rmax 0 (1 - b / norm x) * x)%v in
  let p := (/ (a * 2 + 1) * q)%v in
  / 2 * nsq (p - x)%v + (a * nsq p + b * norm p) + / 2 * nsq (p - z)%v
   <= / 2 * nsq (z - x)%v + (a * nsq z + b * norm z).
Proof.
  intros Ha Hb q p. set (D := a * 2 + 1). assert (HD : 0 < D) by (unfold D; lra).
  pose proof (block_prox_vi b x Hb (D * z)%v) as V. cbn zeta in V. fold q in V.
  assert (Q : q = (D * p)%v). { unfold p. fold D. vfield. lra. }
  clearbody p. subst q. rewrite Q in V. rewrite !norm_scal, (Rabs_right D) in V by lra.
  assert (V' : b * norm p + inner (x - D * p)%v (z - p)%v <= b * norm z).
  { apply (Rmult_le_reg_l D); [exact HD|].
    replace (D * (b * norm p + inner (x - D * p)%v (z - p)%v)) with (b * (D * norm p) + inner (x - D * p)%v (D * z - D * p)%v) by (iexpand; ring).
    lra. }
  assert (N : 0 <= a * nsq (z - p)%v) by (apply Rmult_le_pos; [exact Ha|apply nsq_pos]).
  assert (E : / 2 * nsq (z - x)%v + a * nsq z - (/ 2 * nsq (p - x)%v + a * nsq p + / 2 * nsq (p - z)%v)
    = a * nsq (z - p)%v - inner (x - D * p)%v (z - p)%v).
  { unfold D. iexpand. rewrite (inner_sym H z p), (inner_sym H x z), (inner_sym H x p). field. }
  lra.
Qed.

Lemma cseparable {A : Type} (pen : A -> C -> R) (P : A -> C -> C) (w : list A) (x : list C) :
  length w = length x ->
  (forall i t v, nth_error w i = Some t -> nth_error x i = Some v -> forall z,
     / 2 * distsq (P t v) v + pen t (P t v) + / 2 * distsq (P t v) z <= / 2 * distsq z v + pen t z) ->
  cstrong_minimiser (length x) (fun z => / 2 * csqdist z x + sum2 pen w z) (map2 P w x).
Proof.
  intros L H. split; [apply map2_len; exact L|].
  revert w L H. induction x as [|v x IH]; intros [|t w] L H z Lz; cbn in L, Lz; try discriminate.
  - destruct z; [|discriminate]. cbn. lra.
  - destruct z as [|z0 z]; [discriminate|]. cbn [map2]. unfold csqdist in *. cbn [sum2].
    assert (IH' := fun L' H' => IH w L' H' z ltac:(cbn in Lz; lia)).
    specialize (IH' ltac:(lia) ltac:(intros i a b Ha Hb; apply (H (S i)); assumption)).
    specialize (H 0%nat t v eq_refl eq_refl z0). cbn [sum2] in *. lra.
Qed.

(** One entry of ElasticNet; Ridge and SparseThreshold are the cases b = 0 and a = 0. *)
Lemma celastic_entry a b (v z : C) : 0 <= a -> 0 <= b -> v = (0, 0) \/ eps64 <= modulus v ->
  let p := rscale (/ (a * 2 + 1)) (csoft_unrounded b v) in
  / 2 * distsq p v + (a * modulus p ^ 2 + b * modulus p) + / 2 * distsq p z
   <= / 2 * distsq z v + (a * modulus z ^ 2 + b * modulus z).
Proof.
  intros Ha Hb Hv p. pose proof (quad_norm_prox (H := C_ips) a b v z Ha Hb) as Q. cbn zeta in Q.
  rewrite <- (csoft_block b v Hb Hv) in Q. change (@vscal C_ips (/ (a * 2 + 1)) (csoft_unrounded b v)) with (p : C_ips) in Q.
  rewrite !nsq_distsq, !norm_modulus in Q.
  assert (N : forall u : C_ips, nsq u = modulus u ^ 2) by (intros u; rewrite modulus_sq; unfold nsq; cbn; ring).
  rewrite !N in Q. exact Q.
Qed.

Lemma rscale_div (d : R) (z : C) : (fst z / d, snd z / d) = rscale (/ d) z.
Proof. unfold rscale, Rdiv. f_equal; ring. Qed.
Lemma rscale_1 z : rscale 1 z = z.
Proof. destruct z. unfold rscale. cbn. f_equal; ring. Qed.

Lemma cthresh_soft x t ts : bcast t (length x) = Ok ts -> cthresh x t "soft" = Ok (map2 csoft1 ts x).
Proof. intros E. unfold cthresh. cbn. rewrite E. reflexivity. Qed.
Lemma cthresh_hard x t ts : bcast t (length x) = Ok ts -> cthresh x t "hard" = Ok (map2 chard1 ts x).
Proof. intros E. unfold cthresh. cbn. rewrite E. reflexivity. Qed.

Lemma chard1_spec t z : chard1 t z = if Rle_dec t (modulus z) then z else (0, 0).
Proof.
  unfold chard1, geb. rewrite cabs_modulus. destruct (Rle_dec t (modulus z)); cbn [b2r].
  - apply rscale_1.
  - unfold rscale. f_equal; ring.
Qed.

Lemma csoft_shrink t z : 0 <= t -> z = (0, 0) \/ eps64 <= modulus z -> is_cshrink t z (csoft_unrounded t z).
Proof.
  intros Ht H. unfold csoft_unrounded. rewrite cabs_modulus. pose proof eps64_pos as P. pose proof (modulus_pos z).
  split.
  - rewrite modulus_rscale, Rabs_right by (apply Rle_ge, Rmax_r). destruct H as [E|E].
    + subst. rewrite modulus_0, Rmult_0_r, Rmax_left by lra. reflexivity.
    + rewrite (Rmax_right eps64) by exact E. rewrite Rmax_comm, Rmult_comm, <- RmaxRmult by lra.
      f_equal; [ring|field; lra].
  - eexists. split; [apply Rmax_r|reflexivity].
Qed.

Lemma csoft_factor t z : 0 <= t -> 0 <= Rmax (1 - t / Rmax eps64 (cabs z)) 0 <= 1.
Proof.
  intros Ht. pose proof eps64_pos. split; [apply Rmax_r|]. apply Rmax_lub; [|lra].
  assert (0 <= t / Rmax eps64 (cabs z)); [|lra]. apply Rmult_le_pos; [exact Ht|]. left. apply Rinv_0_lt_compat.
  pose proof (Rmax_l eps64 (cabs z)). lra.
Qed.

Lemma csoft1_tiny t z : 0 <= t -> modulus z < eps64 -> csoft1 t z = (0, 0).
Proof.
  intros Ht H. unfold csoft1, caround, csoft_unrounded, rscale. cbn [fst snd].
  destruct (csoft_factor t z Ht) as [F0 F1]. set (a := Rmax _ 0) in *. clearbody a.
  destruct (modulus_parts z) as [P1 P2]. pose proof eps64_small.
  f_equal; apply around_zero; rewrite Rabs_mult, (Rabs_right a) by lra.
  - pose proof (Rabs_pos (fst z)). nra.
  - pose proof (Rabs_pos (snd z)). nra.
Qed.

Lemma is_cshrink_small t z s : is_cshrink t z s -> modulus z <= t -> s = (0, 0).
Proof. intros [E _] H. apply modulus_def. rewrite E. apply Rmax_left. lra. Qed.

Lemma cshrink_unique t z s s' : is_cshrink t z s -> is_cshrink t z s' -> s = s'.
Proof.
  intros [E1 (a & Ha & S1)] [E2 (b & Hb & S2)]. subst.
  change (a * fst z, a * snd z) with (rscale a z) in *. change (b * fst z, b * snd z) with (rscale b z) in *.
  rewrite modulus_rscale in E1, E2. rewrite Rabs_right in E1, E2 by lra.
  destruct (Req_dec (modulus z) 0) as [Z|Z].
  - apply modulus_def in Z. subst. unfold rscale. cbn. f_equal; ring.
  - replace b with a; [reflexivity|]. apply (Rmult_eq_reg_r (modulus z)); [congruence|exact Z].
Qed.

Lemma csoft1_spec t z s : 0 <= t -> is_cshrink t z s ->
  Rabs (fst (csoft1 t z) - fst s) < / 10 ^ 15 /\ Rabs (snd (csoft1 t z) - snd s) < / 10 ^ 15 /\
  (modulus z <= t -> csoft1 t z = (0, 0)).
Proof.
  intros Ht S. assert (P10 : 0 < / 10 ^ 15) by (apply Rinv_0_lt_compat, pow10_pos).
  destruct (Rlt_dec (modulus z) eps64) as [H|H].
  - rewrite (csoft1_tiny t z Ht H). cbn [fst snd].
    assert (M : modulus s <= modulus z).
    { destruct S as [E _]. rewrite E. apply Rmax_lub; [apply modulus_pos|lra]. }
    destruct (modulus_parts s) as [P1 P2]. pose proof eps64_small.
    rewrite !Rminus_0_l, !Rabs_Ropp. split; [lra|]. split; [lra|reflexivity].
  - assert (E : csoft_unrounded t z = s).
    { apply (cshrink_unique t z); [|exact S]. apply csoft_shrink; [exact Ht|right; lra]. }
    unfold csoft1. rewrite E. unfold caround. cbn [fst snd].
    pose proof (around_err 15 (fst s)). pose proof (around_err 15 (snd s)).
    split; [lra|]. split; [lra|]. intros L. rewrite (is_cshrink_small t z s S L). cbn. rewrite !around_0. reflexivity.
Qed.

(** Multiplying by a number of modulus one changes the phase only. *)
Lemma modulus_cmul u z : modulus (cmul u z) = modulus u * modulus z.
Proof.
  unfold modulus, cmul. cbn [fst snd]. rewrite <- (sqrt_mult (fst u ^ 2 + snd u ^ 2) (fst z ^ 2 + snd z ^ 2)) by (apply Rplus_le_le_0_compat; apply pow2_ge_0). f_equal. ring.
Qed.
Lemma csoft_phase t u z : modulus u = 1 -> csoft_unrounded t (cmul u z) = cmul u (csoft_unrounded t z).
Proof.
  intros U. unfold csoft_unrounded. rewrite !cabs_modulus, modulus_cmul, U, Rmult_1_l.
  set (a := Rmax _ 0). unfold rscale, cmul. cbn [fst snd]. f_equal; ring.
Qed.

(** * Groups: a complex group is a real group twice as long. *)
Definition cflat (g : list C) : list R := flat_map (fun z => [fst z; snd z]) g.

Lemma cflat_length g : length (cflat g) = (2 * length g)%nat.
Proof. induction g as [|z g IH]; [reflexivity|]. cbn [cflat flat_map List.length app]. fold (cflat g). rewrite IH. lia. Qed.
Lemma cflat_dot g : rsum (map (fun z => fst z * fst z + snd z * snd z) g) = dot (cflat g) (cflat g).
Proof.
  induction g as [|z g IH]; [reflexivity|].
  change (dot (cflat (z :: g)) (cflat (z :: g))) with (fst z * fst z + (snd z * snd z + dot (cflat g) (cflat g))).
  rewrite <- IH. unfold rsum. cbn. ring.
Qed.
Lemma cnorm2_flat g : cnorm2 g = norm2 (cflat g).
Proof. unfold cnorm2, norm2. rewrite cflat_dot. reflexivity. Qed.
Lemma clength2_flat g : clength2 g = length2 (cflat g).
Proof.
  unfold clength2, length2. f_equal. induction g as [|z g IH]; [reflexivity|].
  change (sum2 Rmult (cflat (z :: g)) (cflat (z :: g))) with (fst z * fst z + (snd z * snd z + sum2 Rmult (cflat g) (cflat g))).
  rewrite <- IH. cbn [sum2]. rewrite modulus_sq. ring.
Qed.
Lemma cflat_sqdist x z : csqdist x z = sqdist (cflat x) (cflat z).
Proof.
  unfold csqdist, sqdist. revert z. induction x as [|a x IH]; intros [|b z]; try reflexivity.
  change (sum2 (fun a b => (a - b) ^ 2) (cflat (a :: x)) (cflat (b :: z)))
    with ((fst a - fst b) ^ 2 + ((snd a - snd b) ^ 2 + sum2 (fun a b => (a - b) ^ 2) (cflat x) (cflat z))).
  rewrite <- IH. cbn [sum2]. unfold distsq. ring.
Qed.
Lemma cflat_scaled w f g : cflat (map (rscale (cgroup_scale w f g)) g) = scaled w f (cflat g).
Proof.
  unfold scaled, cgroup_scale, group_scale. rewrite cnorm2_flat. set (s := Rmax 0 _). clearbody s.
  induction g as [|z g IH]; [reflexivity|].
  change (cflat (map (rscale s) (z :: g))) with (s * fst z :: s * snd z :: cflat (map (rscale s) g)).
  rewrite IH, (Rmult_comm s (fst z)), (Rmult_comm s (snd z)). reflexivity.
Qed.

Lemma cgroups_minimise ws f gs :
  length ws = length gs -> Forall (fun w => 0 <= w * f) ws ->
  Forall (fun g => clength2 g = 0 \/ eps32 <= clength2 g) gs ->
  let p := map2 (fun w g => map (rscale (cgroup_scale w f g)) g) ws gs in
  csame_shape p gs /\
  forall zs, csame_shape zs gs ->
   / 2 * cgroups_sqdist p gs + f * cweighted_lengths ws p + / 2 * cgroups_sqdist p zs
   <= / 2 * cgroups_sqdist zs gs + f * cweighted_lengths ws zs.
Proof.
  intros L N G. cbn zeta. unfold csame_shape, cgroups_sqdist, cweighted_lengths.
  revert ws L N. induction G as [|g gs Hg G IH]; intros [|w ws] L N; cbn in L; try discriminate.
  - split; [reflexivity|]. intros [|? ?] S; [cbn; lra|discriminate].
  - inversion N as [|? ? N1 N2]; subst. destruct (IH ws ltac:(congruence) N2) as [I1 I2].
    cbn [map2 map]. split.
    + f_equal; [apply map_length|exact I1].
    + intros [|z zs] S; [discriminate|]. inversion S as [[S1 S2]]. specialize (I2 zs S2). cbn [sum2].
      rewrite clength2_flat, <- norm2_length2 in Hg.
      assert (S1' : length (cflat z) = length (cflat g)) by (rewrite !cflat_length; f_equal; exact S1).
      pose proof (group_minimises w f (cflat g) (cflat z) N1 Hg S1') as M.
      rewrite <- cflat_scaled, <- !cflat_sqdist, <- !clength2_flat in M. nra.
Qed.
