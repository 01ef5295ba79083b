(** A verified evaluation of the default FISTA iteration on f = 0, g = |.|, step 1: interval
    arithmetic on integers with a common denominator, used to refute the O(1/k^2) bound. *)
From Coq Require Import ZArith Reals Lra Lia Psatz.
Local Open Scope R_scope.

Section Interval.
Variable S : Z.
Hypothesis HS : (0 < S)%Z.

Definition within (l h : Z) (v : R) : Prop := IZR l <= v * IZR S <= IZR h.

Lemma S_pos : 0 < IZR S. Proof. apply IZR_lt. exact HS. Qed.

Lemma div_lo a b (r : R) : (0 < b)%Z -> IZR a <= r * IZR b -> IZR (a / b) <= r.
Proof.
  intros Hb Ha. assert (Pb : 0 < IZR b) by (apply IZR_lt; exact Hb).
  apply Rmult_le_reg_r with (IZR b); [exact Pb|]. apply Rle_trans with (IZR a); [|exact Ha].
  rewrite <- mult_IZR. apply IZR_le. rewrite Z.mul_comm. apply Z.mul_div_le. exact Hb.
Qed.
Lemma div_hi a b (r : R) : (0 < b)%Z -> r * IZR b <= IZR a -> r <= IZR (a / b + 1).
Proof.
  intros Hb Ha. assert (Pb : 0 < IZR b) by (apply IZR_lt; exact Hb).
  apply Rmult_le_reg_r with (IZR b); [exact Pb|]. apply Rle_trans with (IZR a); [exact Ha|].
  rewrite <- mult_IZR. apply IZR_le. pose proof (Z.mul_succ_div_gt a b Hb). lia.
Qed.
Lemma sqrt_lo a : (0 <= a)%Z -> IZR (Z.sqrt a) <= sqrt (IZR a).
Proof.
  intros Ha. destruct (Z.sqrt_spec a Ha) as [L _]. pose proof (Z.sqrt_nonneg a).
  rewrite <- (sqrt_Rsqr (IZR (Z.sqrt a))) by (apply IZR_le; assumption).
  apply sqrt_le_1_alt. unfold Rsqr. rewrite <- mult_IZR. apply IZR_le. exact L.
Qed.
Lemma sqrt_hi a : (0 <= a)%Z -> sqrt (IZR a) <= IZR (Z.sqrt a + 1).
Proof.
  intros Ha. destruct (Z.sqrt_spec a Ha) as [_ L]. pose proof (Z.sqrt_nonneg a).
  rewrite <- (sqrt_Rsqr (IZR (Z.sqrt a + 1))) by (apply IZR_le; lia).
  apply sqrt_le_1_alt. unfold Rsqr. rewrite <- mult_IZR. apply IZR_le. lia.
Qed.

(** The real iteration. *)
Definition soft1 (z : R) : R := if Rle_dec z (-1) then z + 1 else if Rle_dec z 1 then 0 else z - 1.
Definition softS (z : Z) : Z := if Z.leb z (- S) then (z + S)%Z else if Z.leb z S then 0%Z else (z - S)%Z.

Definition rstep (s : R * R * R) : R * R * R :=
  let '(t, x, xp) := s in
  let t' := 1 + sqrt (4 * t ^ 2 + 1) * / 2 in
  (t', soft1 (x + (t - 1) / t' * (x - xp)), x).

Definition zstep (s : Z * Z * (Z * Z) * (Z * Z)) : Z * Z * (Z * Z) * (Z * Z) :=
  let '(tl, th, (xl, xh), (pl, ph)) := s in
  let tl' := (S + Z.sqrt (4 * (tl * tl) + S * S) / 2)%Z in
  let th' := (S + ((Z.sqrt (4 * (th * th) + S * S) + 1) / 2 + 1))%Z in
  let cl := ((tl - S) * S / th')%Z in
  let ch := ((th - S) * S / tl' + 1)%Z in
  let dl := (xl - ph)%Z in
  let dh := (xh - pl)%Z in
  let zl := (xl + Z.min (cl * dl) (ch * dl) / S)%Z in
  let zh := (xh + (Z.max (cl * dh) (ch * dh) / S + 1))%Z in
  (tl', th', (softS zl, softS zh), (xl, xh)).

Definition related (s : Z * Z * (Z * Z) * (Z * Z)) (r : R * R * R) : Prop :=
  let '(tl, th, (xl, xh), (pl, ph)) := s in
  let '(t, x, xp) := r in
  (S <= tl)%Z /\ within tl th t /\ within xl xh x /\ within pl ph xp.

Lemma soft1_mono a b : a <= b -> soft1 a <= soft1 b.
Proof. intros. unfold soft1. repeat destruct (Rle_dec _ _); lra. Qed.
Lemma softS_spec z : IZR (softS z) = soft1 (IZR z / IZR S) * IZR S.
Proof.
  pose proof S_pos as P. unfold softS, soft1.
  assert (E : forall a, IZR z / IZR S <= a <-> IZR z <= a * IZR S).
  { intros a. split; intros Q.
    - apply (Rmult_le_compat_r (IZR S)) in Q; [|lra]. unfold Rdiv in Q. rewrite Rmult_assoc, Rinv_l in Q by lra. lra.
    - apply Rmult_le_reg_r with (IZR S); [exact P|]. unfold Rdiv. rewrite Rmult_assoc, Rinv_l by lra. lra. }
  destruct (Rle_dec (IZR z / IZR S) (-1)) as [a|a].
  - apply E in a. destruct (Z.leb_spec z (- S)) as [b|b].
    + rewrite plus_IZR. field. lra.
    + exfalso. apply IZR_lt in b. rewrite opp_IZR in b. lra.
  - assert (a' : ~ IZR z <= -1 * IZR S) by (intros Q; apply a, E; exact Q).
    destruct (Z.leb_spec z (- S)) as [b|b]; [exfalso; apply IZR_le in b; rewrite opp_IZR in b; lra|].
    destruct (Rle_dec (IZR z / IZR S) 1) as [c|c].
    + apply E in c. destruct (Z.leb_spec z S) as [d|d]; [lra|]. exfalso. apply IZR_lt in d. lra.
    + assert (c' : ~ IZR z <= 1 * IZR S) by (intros Q; apply c, E; exact Q).
      destruct (Z.leb_spec z S) as [d|d]; [exfalso; apply IZR_le in d; lra|].
      rewrite minus_IZR. field. lra.
Qed.

Lemma within_soft l h z : within l h z -> within (softS l) (softS h) (soft1 z).
Proof.
  pose proof S_pos as P. intros [L U]. unfold within. rewrite !softS_spec.
  split; apply Rmult_le_compat_r; try lra; apply soft1_mono.
  - apply Rmult_le_reg_r with (IZR S); [exact P|]. unfold Rdiv. rewrite Rmult_assoc, Rinv_l by lra. lra.
  - apply Rmult_le_reg_r with (IZR S); [exact P|]. unfold Rdiv. rewrite Rmult_assoc, Rinv_l by lra. lra.
Qed.

Lemma mul_bounds_lo cl ch c dl d : cl <= c <= ch -> 0 <= cl -> dl <= d -> Rmin (cl * dl) (ch * dl) <= c * d.
Proof.
  intros Hc H0 Hd. destruct (Rle_dec 0 dl).
  - apply Rle_trans with (cl * dl); [apply Rmin_l|]. apply Rmult_le_compat; lra.
  - apply Rle_trans with (ch * dl); [apply Rmin_r|]. apply Rle_trans with (c * dl); nra.
Qed.
Lemma mul_bounds_hi cl ch c dh d : cl <= c <= ch -> 0 <= cl -> d <= dh -> c * d <= Rmax (cl * dh) (ch * dh).
Proof.
  intros Hc H0 Hd. destruct (Rle_dec 0 dh).
  - apply Rle_trans with (ch * dh); [|apply Rmax_r]. apply Rle_trans with (c * dh); nra.
  - apply Rle_trans with (cl * dh); [|apply Rmax_l]. apply Rle_trans with (c * dh); nra.
Qed.
Lemma IZR_min a b : IZR (Z.min a b) = Rmin (IZR a) (IZR b).
Proof.
  destruct (Z.min_spec a b) as [[Q E]|[Q E]]; rewrite E.
  - rewrite Rmin_left; [reflexivity|apply IZR_le; lia].
  - rewrite Rmin_right; [reflexivity|apply IZR_le; lia].
Qed.
Lemma IZR_max a b : IZR (Z.max a b) = Rmax (IZR a) (IZR b).
Proof.
  destruct (Z.max_spec a b) as [[Q E]|[Q E]]; rewrite E.
  - rewrite Rmax_right; [reflexivity|apply IZR_le; lia].
  - rewrite Rmax_left; [reflexivity|apply IZR_le; lia].
Qed.

Lemma zstep_sound s r : related s r -> related (zstep s) (rstep r).
Proof.
  destruct s as [[[tl th] [xl xh]] [pl ph]]. destruct r as [[t x] xp]. intros (HtS & [T1 T2] & [X1 X2] & [P1 P2]).
  pose proof S_pos as P. unfold zstep, rstep.
  set (t' := 1 + sqrt (4 * t ^ 2 + 1) * / 2).
  assert (Tl : IZR S <= IZR tl) by (apply IZR_le; exact HtS).
  assert (Ht : 1 <= t) by nra.
  (* the next t *)
  assert (Es : sqrt (4 * t ^ 2 + 1) * IZR S = sqrt (4 * (t * IZR S * (t * IZR S)) + IZR S * IZR S)).
  { rewrite <- (sqrt_Rsqr (IZR S)) at 1 by lra. rewrite <- sqrt_mult_alt by nra. f_equal. unfold Rsqr. ring. }
  assert (A : within (S + Z.sqrt (4 * (tl * tl) + S * S) / 2) (S + ((Z.sqrt (4 * (th * th) + S * S) + 1) / 2 + 1)) t').
  { unfold within, t'. rewrite Rmult_plus_distr_r, Rmult_1_l.
    replace (sqrt (4 * t ^ 2 + 1) * / 2 * IZR S) with (sqrt (4 * t ^ 2 + 1) * IZR S / 2) by field. rewrite Es.
    rewrite (plus_IZR S), (plus_IZR S). split; apply Rplus_le_compat_l.
    - apply div_lo; [lia|]. unfold Rdiv. rewrite Rmult_assoc, Rinv_l, Rmult_1_r by lra.
      apply Rle_trans with (sqrt (IZR (4 * (tl * tl) + S * S))); [apply sqrt_lo; nia|].
      apply sqrt_le_1_alt. rewrite plus_IZR, !mult_IZR. nra.
    - apply div_hi; [lia|]. unfold Rdiv. rewrite Rmult_assoc, Rinv_l, Rmult_1_r by lra.
      apply Rle_trans with (sqrt (IZR (4 * (th * th) + S * S))); [|apply sqrt_hi; nia].
      apply sqrt_le_1_alt. rewrite plus_IZR, !mult_IZR. nra. }
  set (tl' := (S + Z.sqrt (4 * (tl * tl) + S * S) / 2)%Z) in *.
  set (th' := (S + ((Z.sqrt (4 * (th * th) + S * S) + 1) / 2 + 1))%Z) in *.
  assert (Htl' : (S <= tl')%Z).
  { unfold tl'. pose proof (Z.sqrt_nonneg (4 * (tl * tl) + S * S)). pose proof (Z.div_pos (Z.sqrt (4 * (tl * tl) + S * S)) 2). lia. }
  assert (Tl' : IZR S <= IZR tl') by (apply IZR_le; exact Htl').
  destruct A as [A1 A2]. assert (Pth : 0 < IZR th') by lra. assert (Zth : (0 < th')%Z) by (apply lt_IZR; exact Pth).
  clearbody tl' th'. assert (Ht' : 1 <= t') by nra. clearbody t'. clear Es.
  (* the inertia *)
  set (c := (t - 1) / t').
  assert (Ec : c * t' = t - 1) by (unfold c; field; lra). clearbody c.
  assert (Hc0 : 0 <= c) by nra.
  set (cl := ((tl - S) * S / th')%Z). set (ch := ((th - S) * S / tl' + 1)%Z).
  assert (C1 : IZR cl <= c * IZR S).
  { apply div_lo; [exact Zth|]. rewrite mult_IZR, minus_IZR.
    apply Rle_trans with (c * t' * IZR S * IZR S); [rewrite Ec; nra|].
    replace (c * t' * IZR S * IZR S) with (c * IZR S * (t' * IZR S)) by ring.
    apply Rmult_le_compat_l; [apply Rmult_le_pos; lra|exact A2]. }
  assert (C2 : c * IZR S <= IZR ch).
  { apply div_hi; [lia|]. rewrite mult_IZR, minus_IZR.
    apply Rle_trans with (c * t' * IZR S * IZR S); [|rewrite Ec; nra].
    replace (c * t' * IZR S * IZR S) with (c * IZR S * (t' * IZR S)) by ring.
    apply Rmult_le_compat_l; [apply Rmult_le_pos; lra|exact A1]. }
  assert (C0 : 0 <= IZR cl).
  { apply IZR_le. apply Z.div_pos; [nia|exact Zth]. }
  clearbody cl ch.
  split; [exact Htl'|]. split; [split; [exact A1|exact A2]|]. split; [|split; assumption].
  apply within_soft. unfold within. rewrite !plus_IZR with (z := 1%Z) || idtac.
  assert (D : x * IZR S - xp * IZR S = (x - xp) * IZR S) by ring.
  assert (D1 : IZR (xl - ph) <= (x - xp) * IZR S) by (rewrite minus_IZR; lra).
  assert (D2 : (x - xp) * IZR S <= IZR (xh - pl)) by (rewrite minus_IZR; lra).
  set (dl := (xl - ph)%Z) in *. set (dh := (xh - pl)%Z) in *. clearbody dl dh.
  split.
  - rewrite plus_IZR, Rmult_plus_distr_r. apply Rplus_le_compat; [exact X1|].
    apply div_lo; [exact HS|]. rewrite IZR_min, !mult_IZR.
    replace (c * (x - xp) * IZR S * IZR S) with (c * IZR S * ((x - xp) * IZR S)) by ring.
    apply mul_bounds_lo; [split; assumption|assumption|assumption].
  - rewrite plus_IZR, Rmult_plus_distr_r. apply Rplus_le_compat; [exact X2|].
    apply div_hi; [exact HS|]. rewrite IZR_max, !mult_IZR.
    replace (c * (x - xp) * IZR S * IZR S) with (c * IZR S * ((x - xp) * IZR S)) by ring.
    apply (mul_bounds_hi (IZR cl)); [split; assumption|assumption|assumption].
Qed.

Lemma zstep_iter n s r : related s r -> related (Nat.iter n zstep s) (Nat.iter n rstep r).
Proof. intros Q. induction n as [|n IH]; [exact Q|]. cbn. apply zstep_sound. exact IH. Qed.
End Interval.

Definition prec : Z := (2 ^ 140)%Z.
Definition z0 : Z * Z * (Z * Z) * (Z * Z) :=
  (prec, prec, (576 * prec, 576 * prec), (577 * prec, 577 * prec))%Z.
Definition zhigh (s : Z * Z * (Z * Z) * (Z * Z)) : Z := let '(_, _, (_, xh), _) := s in xh.

Lemma zhigh_73 : Z.ltb (zhigh (Nat.iter 73 (zstep prec) z0)) (-119 * prec) = true.
Proof. vm_compute. reflexivity. Qed.

Lemma run_73 : snd (fst (Nat.iter 73 rstep (1, 576, 577))) < -119.
Proof.
  assert (HP : (0 < prec)%Z) by reflexivity.
  assert (R0 : related prec z0 (1, 576, 577)).
  { unfold related, z0, within. rewrite !mult_IZR. repeat split; try lra; try lia. }
  pose proof (zstep_iter prec HP 73 _ _ R0) as Q. pose proof zhigh_73 as L. apply Z.ltb_lt in L.
  destruct (Nat.iter 73 (zstep prec) z0) as [[[tl th] [xl xh]] [pl ph]].
  destruct (Nat.iter 73 rstep (1, 576, 577)) as [[t x] xp]. cbn [zhigh fst snd] in *.
  destruct Q as (_ & _ & [_ X1] & _). apply IZR_lt in L. rewrite mult_IZR in L.
  pose proof (S_pos prec HP) as P. apply Rmult_lt_reg_r with (IZR prec); [exact P|]. lra.
Qed.
