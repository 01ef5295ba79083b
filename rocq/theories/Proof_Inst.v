(** Instances used by the examples and the counterexamples: functions on the real line. *)
From Verif Require Import NPReal Py IPS Spec_Opt Proof_Smooth.
From Coq Require Import List Lia.
Import ListNotations.
Local Open Scope R_scope.

(** g = |.|, whose proximity operator is soft thresholding. *)
Definition softc (y c : R) : R := if Rle_dec y (- c) then y + c else if Rle_dec y c then 0 else y - c.
Lemma soft_prox_operator : prox_operator (H := R_ips) everywhere (fun z => Rabs z) softc.
Proof.
  intros y c Hc. apply prox_vi_is_prox. split; [exact I|]. intros z _. unfold softc. cbn.
  destruct (Rle_dec y (- c)); [|destruct (Rle_dec y c)].
  - rewrite (Rabs_left1 (y + c)) by lra. pose proof (Rle_abs (- z)). rewrite Rabs_Ropp in H. nra.
  - rewrite Rabs_R0. unfold Rabs. destruct (Rcase_abs z); nra.
  - assert (Q : Rabs (y - c) = y - c) by (apply Rabs_right; lra). unfold Rminus in *. rewrite Q. pose proof (Rle_abs z). nra.
Qed.
Lemma abs_convex : convex_on (H := R_ips) everywhere (fun z => Rabs z).
Proof.
  intros x y t _ _ Ht. split; [exact I|]. cbn. 
  replace (x + t * (y + -1 * x)) with ((1 - t) * x + t * y) by ring.
  apply Rle_trans with (Rabs ((1 - t) * x) + Rabs (t * y)); [apply Rabs_triang|].
  rewrite !Rabs_mult, (Rabs_right (1 - t)), (Rabs_right t) by lra. lra.
Qed.
Lemma zero_smooth (L : R) : 0 <= L -> smooth_convex (H := R_ips) L (fun _ => 0) (fun _ => 0).
Proof.
  intros HL. split; [|split].
  - intros x y t _ _ Ht. split; [exact I|]. lra.
  - intros x h. cbn. rewrite Rmult_0_l. apply derivable_pt_lim_const.
  - intros x y. rewrite (@vsub_self R_ips 0), norm_0. apply Rmult_le_pos; [exact HL|apply norm_pos].
Qed.

(** f(x) = (x - a)^2 / 2 *)
Lemma quad_smooth (a : R) : smooth_convex (H := R_ips) 1 (fun x => (x - a) * (x - a) / 2) (fun x => x - a)%R.
Proof.
  split; [|split].
  - intros x y t _ _ Ht. split; [exact I|].
    assert (0 <= t * (1 - t) * ((x - y) * (x - y))) by (apply Rmult_le_pos; [nra|apply Rle_0_sqr]).
    cbn -[Rminus] in *. nra.
  - intros x h. cbn. intros e He. assert (Hd : 0 < e / (1 + h * h)) by (apply Rdiv_lt_0_compat; nra).
    exists (mkposreal _ Hd). cbn. intros t Ht Hb. 
    replace (((x + (0 + t) * h - a) * (x + (0 + t) * h - a) / 2 - (x + 0 * h - a) * (x + 0 * h - a) / 2) / t - (x - a) * h)
      with (t * (h * h / 2)) by (field; exact Ht).
    rewrite Rabs_mult, (Rabs_right (h * h / 2)) by nra.
    assert (Rabs t * (1 + h * h) < e).
    { apply Rmult_lt_reg_r with (/ (1 + h * h)); [apply Rinv_0_lt_compat; nra|].
      rewrite Rmult_assoc, Rinv_r, Rmult_1_r by nra. exact Hb. }
    pose proof (Rabs_pos t). nra.
  - intros x y. rewrite Rmult_1_l. cbn. unfold norm, vsub. cbn. apply sqrt_le_1_alt. nra.
Qed.

(** The prox of the zero function is the identity, the prox of the indicator of [0, oo) is max(0, .). *)
Lemma zero_prox_operator : prox_operator (H := R_ips) everywhere (fun _ => 0) (fun y _ => y).
Proof. intros y c Hc. split; [exact I|]. intros z _. pose proof (nsq_pos (H := R_ips) (vsub z y)). rewrite vsub_self. unfold nsq at 1. rewrite inner_0_l. lra. Qed.
Lemma zero_convex : convex_on (H := R_ips) everywhere (fun _ => 0).
Proof. intros x y t _ _ _. split; [exact I|]. lra. Qed.
Definition halfline (x : R_ips) : Prop := 0 <= x.
Lemma pos_prox_operator : prox_operator (H := R_ips) halfline (fun _ => 0) (fun y _ => Rmax 0 y).
Proof.
  intros y c Hc. split; [apply Rmax_l|]. intros z Hz. unfold halfline in Hz. cbn in Hz.
  unfold Rmax. destruct (Rle_dec 0 y) as [Hy|Hy]; rewrite !Rmult_0_r, !Rplus_0_l.
  - rewrite vsub_self. unfold nsq at 1. rewrite inner_0_l. pose proof (nsq_pos (H := R_ips) (vsub z y)). lra.
  - unfold nsq, vsub. cbn. nra.
Qed.
Lemma pos_convex : convex_on (H := R_ips) halfline (fun _ => 0).
Proof. intros x y t Hx Hy Ht. unfold halfline in *. cbn. split; [nra|lra]. Qed.
Lemma id_adjoint {H : ips} : adjoint (H := H) (K := H) (fun x => x) (fun x => x).
Proof. intros x y. reflexivity. Qed.
