(** Lemmas about the array model. *)
From Verif Require Import Py Model_Array.

Lemma arr_eq_refl {A} (a : nda A) : arr_eq a a.
Proof. split; auto. Qed.

Lemma arr_eq_sym {A} (a b : nda A) : arr_eq a b -> arr_eq b a.
Proof. intros [H1 H2]; split; [auto|]. intros idx H. symmetry; apply H2. rewrite H1; auto. Qed.

Lemma arr_eq_trans {A} (a b c : nda A) : arr_eq a b -> arr_eq b c -> arr_eq a c.
Proof.
  intros [H1 H2] [H3 H4]; split; [congruence|].
  intros idx H. rewrite H2 by auto. apply H4. rewrite <- H1; auto.
Qed.

Lemma in_range_length s idx : in_range s idx -> length idx = length s.
Proof.
  revert idx; induction s as [|d s IH]; intros [|i idx]; simpl; try tauto.
  intros [_ H]. f_equal; auto.
Qed.

Lemma in_range_nth s idx :
  in_range s idx <->
  (length idx = length s /\ forall k, k < length s -> nth k idx 0 < nth k s 0).
Proof.
  revert idx; induction s as [|d s IH]; intros [|i idx]; simpl.
  - split; [|auto]. split; [auto|intros; lia].
  - split; [tauto|]. intros [H _]; discriminate.
  - split; [tauto|]. intros [H _]; discriminate.
  - rewrite IH. split.
    + intros (H1 & H2 & H3). split; [congruence|].
      intros [|k] Hk; [auto|]. apply H3; lia.
    + intros (H1 & H2). split; [apply (H2 0); lia|]. split; [congruence|].
      intros k Hk. apply (H2 (S k)); lia.
Qed.

Lemma prod_cons d s : prod (d :: s) = d * prod s.
Proof. reflexivity. Qed.

Lemma prod_nil : prod [] = 1.
Proof. reflexivity. Qed.

Ltac prod_eqb := symmetry; apply Nat.eqb_eq; rewrite ?prod_cons, ?prod_nil; nia.
Ltac ravel_eq := cbn [ravel]; rewrite ?prod_cons, ?prod_nil; nia.

Lemma ravel_lt s idx : in_range s idx -> ravel s idx < prod s.
Proof.
  revert idx; induction s as [|d s IH]; intros [|i idx]; cbn [in_range ravel]; try tauto.
  - cbn; lia.
  - rewrite prod_cons. intros [Hi Hr]. specialize (IH _ Hr). nia.
Qed.

Lemma unravel_ravel s idx : in_range s idx -> unravel s (ravel s idx) = idx.
Proof.
  revert idx; induction s as [|d s IH]; intros [|i idx]; cbn [in_range ravel unravel]; try tauto.
  intros [Hi Hr]. pose proof (ravel_lt _ _ Hr) as Hlt.
  rewrite Nat.add_comm, Nat.div_add, Nat.mod_add by lia.
  rewrite Nat.div_small, Nat.mod_small by lia. simpl. f_equal; auto.
Qed.

Lemma unravel_in_range s n : n < prod s -> in_range s (unravel s n).
Proof.
  revert n; induction s as [|d s IH]; intros n; cbn [in_range unravel]; [auto|].
  rewrite prod_cons. intros H. assert (0 < prod s) by nia. split.
  - apply Nat.div_lt_upper_bound; lia.
  - apply IH. apply Nat.mod_upper_bound. lia.
Qed.

Lemma ravel_unravel s n : n < prod s -> ravel s (unravel s n) = n.
Proof.
  revert n; induction s as [|d s IH]; intros n; cbn [ravel unravel].
  - cbn; lia.
  - rewrite prod_cons. intros H. assert (0 < prod s) by nia.
    rewrite IH by (apply Nat.mod_upper_bound; lia).
    rewrite (Nat.div_mod n (prod s)) at 3 by lia. lia.
Qed.

Ltac idx_eq := repeat (f_equal; try lia; try nia).

(** The flat position used by reshape is the lexicographic rank: it is strictly
    increasing for the lexicographic order. *)
Fixpoint lex_lt (a b : list nat) : Prop :=
  match a, b with
  | x :: a', y :: b' => x < y \/ (x = y /\ lex_lt a' b')
  | _, _ => False
  end.

Lemma ravel_lex s a b :
  in_range s a -> in_range s b -> lex_lt a b -> ravel s a < ravel s b.
Proof.
  revert a b; induction s as [|d s IH]; intros [|x a] [|y b]; cbn [in_range ravel lex_lt]; try tauto.
  intros [Hx Ha] [Hy Hb] [H|[-> H]].
  - pose proof (ravel_lt _ _ Ha). nia.
  - specialize (IH _ _ Ha Hb H). lia.
Qed.

Lemma rev_in_range s idx : in_range s idx -> in_range (rev s) (rev idx).
Proof.
  intros H. pose proof (in_range_length _ _ H) as HL.
  apply in_range_nth. rewrite !rev_length. split; [auto|].
  intros k Hk. rewrite !rev_nth by lia.
  apply in_range_nth in H. destruct H as [_ H]. rewrite HL. apply H. lia.
Qed.

Lemma transpose_invol {A} (a : nda A) : arr_eq (transpose (transpose a)) a.
Proof.
  split; cbn; [apply rev_involutive|]. intros idx _. rewrite rev_involutive. reflexivity.
Qed.

(** * Stacking blocks of equal size *)

Lemma hcat_from_spec {A} (d : nda A) h w (l : list (nda A)) : forall (acc : nda A) wacc,
  shape acc = [h; wacc] -> Forall (fun b => shape b = [h; w]) l ->
  exists M, cat_from hcat acc l = Ok M /\ shape M = [h; wacc + length l * w] /\
    (forall r c, c < wacc -> at_ M [r; c] = at_ acc [r; c]) /\
    (forall r k c, k < length l -> c < w -> at_ M [r; wacc + k * w + c] = at_ (nth k l d) [r; c]).
Proof.
  induction l as [|b l IH]; intros acc wacc Hacc Hl.
  - exists acc. cbn [cat_from length]. repeat split; auto.
    + rewrite Hacc. idx_eq.
    + intros; lia.
  - inversion Hl as [|? ? Hb Hl']; subst.
    cbn [cat_from]. unfold hcat at 1. rewrite Hacc, Hb, Nat.eqb_refl. cbn [bind].
    set (ab := mk_nda _ _).
    destruct (IH ab (wacc + w) eq_refl Hl') as (M & HM & Hs & H1 & H2).
    exists M. split; [exact HM|]. split; [rewrite Hs; cbn [length]; idx_eq|]. split.
    + intros r c Hc. rewrite H1 by lia. unfold ab; cbn [at_ nth].
      destruct (Nat.ltb_spec c wacc); [reflexivity|lia].
    + intros r k c Hk Hc. destruct k as [|k].
      * rewrite H1 by lia. unfold ab; cbn [at_ nth].
        destruct (Nat.ltb_spec (wacc + 0 * w + c) wacc); [lia|].
        replace (wacc + 0 * w + c - wacc) with c by lia. reflexivity.
      * cbn [nth]. rewrite <- H2 by (cbn [length] in Hk; lia). idx_eq.
Qed.

Lemma hstack_spec {A} (d : nda A) h w (l : list (nda A)) :
  l <> [] -> Forall (fun b => shape b = [h; w]) l ->
  exists M, hstack l = Ok M /\ shape M = [h; length l * w] /\
    (forall r k c, k < length l -> c < w -> at_ M [r; k * w + c] = at_ (nth k l d) [r; c]).
Proof.
  destruct l as [|a l]; [congruence|]. intros _ Hl. inversion Hl as [|? ? Ha Hl']; subst.
  destruct (hcat_from_spec d h w l a w Ha Hl') as (M & HM & Hs & H1 & H2).
  exists M. split; [exact HM|]. split; [rewrite Hs; cbn [length]; idx_eq|].
  intros r [|k] c Hk Hc.
  - cbn [nth]. rewrite <- H1 by lia. f_equal.
  - cbn [nth]. rewrite <- H2 by (cbn [length] in Hk; lia). idx_eq.
Qed.

Lemma vcat_from_spec {A} (d : nda A) h w (l : list (nda A)) : forall (acc : nda A) hacc,
  shape acc = [hacc; w] -> Forall (fun b => shape b = [h; w]) l ->
  exists M, cat_from vcat acc l = Ok M /\ shape M = [hacc + length l * h; w] /\
    (forall r c, r < hacc -> at_ M [r; c] = at_ acc [r; c]) /\
    (forall r k c, k < length l -> r < h -> at_ M [hacc + k * h + r; c] = at_ (nth k l d) [r; c]).
Proof.
  induction l as [|b l IH]; intros acc hacc Hacc Hl.
  - exists acc. cbn [cat_from length]. repeat split; auto.
    + rewrite Hacc. idx_eq.
    + intros; lia.
  - inversion Hl as [|? ? Hb Hl']; subst.
    cbn [cat_from]. unfold vcat at 1. rewrite Hacc, Hb, Nat.eqb_refl. cbn [bind].
    set (ab := mk_nda _ _).
    destruct (IH ab (hacc + h) eq_refl Hl') as (M & HM & Hs & H1 & H2).
    exists M. split; [exact HM|]. split; [rewrite Hs; cbn [length]; idx_eq|]. split.
    + intros r c Hc. rewrite H1 by lia. unfold ab; cbn [at_ nth].
      destruct (Nat.ltb_spec r hacc); [reflexivity|lia].
    + intros r k c Hk Hc. destruct k as [|k].
      * rewrite H1 by lia. unfold ab; cbn [at_ nth].
        destruct (Nat.ltb_spec (hacc + 0 * h + r) hacc); [lia|].
        replace (hacc + 0 * h + r - hacc) with r by lia. reflexivity.
      * cbn [nth]. rewrite <- H2 by (cbn [length] in Hk; lia). idx_eq.
Qed.

Lemma vstack_spec {A} (d : nda A) h w (l : list (nda A)) :
  l <> [] -> Forall (fun b => shape b = [h; w]) l ->
  exists M, vstack l = Ok M /\ shape M = [length l * h; w] /\
    (forall r k c, k < length l -> r < h -> at_ M [k * h + r; c] = at_ (nth k l d) [r; c]).
Proof.
  destruct l as [|a l]; [congruence|]. intros _ Hl. inversion Hl as [|? ? Ha Hl']; subst.
  destruct (vcat_from_spec d h w l a h Ha Hl') as (M & HM & Hs & H1 & H2).
  exists M. split; [exact HM|]. split; [rewrite Hs; cbn [length]; idx_eq|].
  intros r [|k] c Hk Hc.
  - cbn [nth]. rewrite <- H1 by lia. f_equal.
  - cbn [nth]. rewrite <- H2 by (cbn [length] in Hk; lia). idx_eq.
Qed.

Lemma list_nat_eqb_true a b : list_nat_eqb a b = true <-> a = b.
Proof. unfold list_nat_eqb. destruct (list_eq_dec Nat.eq_dec a b); split; congruence. Qed.

Lemma stack_spec {A} (d : nda A) s (l : list (nda A)) :
  l <> [] -> Forall (fun b => shape b = s) l ->
  exists M, stack l = Ok M /\ shape M = length l :: s /\
    (forall k idx, k < length l -> at_ M (k :: idx) = at_ (nth k l d) idx).
Proof.
  destruct l as [|a l]; [congruence|]. intros _ Hl.
  unfold stack.
  assert (Hf : forallb (fun b => list_nat_eqb (shape b) (shape a)) (a :: l) = true).
  { apply forallb_forall. intros b Hb. apply list_nat_eqb_true.
    rewrite Forall_forall in Hl. rewrite (Hl b Hb), (Hl a (or_introl eq_refl)). reflexivity. }
  rewrite Hf. eexists. split; [reflexivity|]. cbn [shape at_]. split.
  - inversion Hl; subst; reflexivity.
  - intros k idx Hk. f_equal. apply nth_indep. exact Hk.
Qed.

Lemma nth_flat_map_uniform {A B} (f : A -> list B) (m : nat) (dB : B) (dA : A) l :
  (forall a, length (f a) = m) ->
  forall i j, i < length l -> j < m -> nth (i * m + j) (flat_map f l) dB = nth j (f (nth i l dA)) dB.
Proof.
  intros Hm. induction l as [|a l IH]; intros i j Hi Hj; [cbn in Hi; lia|].
  cbn [flat_map]. destruct i as [|i].
  - rewrite app_nth1 by (rewrite Hm; lia). reflexivity.
  - rewrite app_nth2 by (rewrite Hm; nia). rewrite Hm.
    replace (S i * m + j - m) with (i * m + j) by nia.
    cbn [nth]. apply IH; [cbn in Hi; lia|lia].
Qed.

Lemma length_flat_map_uniform {A B} (f : A -> list B) (m : nat) l :
  (forall a, length (f a) = m) -> length (flat_map f l) = length l * m.
Proof.
  intros Hm. induction l as [|a l IH]; [reflexivity|].
  cbn [flat_map length]. rewrite app_length, Hm, IH. lia.
Qed.

Lemma slice0_spec {A} (a : nda A) lo hi n s :
  shape a = n :: s -> hi <= n -> lo <= hi ->
  slice0 a lo hi = map (sub0 a) (seq lo (hi - lo)).
Proof.
  intros Hs Hh Hl. unfold slice0. rewrite Hs. cbn [hd]. rewrite !Nat.min_l by lia. reflexivity.
Qed.

Lemma div_mul_add a b c : c < b -> (a * b + c) / b = a.
Proof. intros. rewrite Nat.add_comm, Nat.div_add by lia. rewrite Nat.div_small by lia. reflexivity. Qed.
Lemma mod_mul_add a b c : c < b -> (a * b + c) mod b = c.
Proof. intros. rewrite Nat.add_comm, Nat.mod_add by lia. apply Nat.mod_small; lia. Qed.
