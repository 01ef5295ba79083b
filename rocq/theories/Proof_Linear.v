From Coq Require Import String.
From Verif Require Import NPReal Py IPS Model_Array Model_NpAdjust Model_Types Spec_NpAdjust Model_Linear Spec_Linear Proof_Array Proof_NpAdjust.
Import List ListNotations.
Local Open Scope R_scope.

(** * Finite sums *)
Lemma sumn_ext n f g : (forall i, (i < n)%nat -> f i = g i) -> sumn n f = sumn n g.
Proof. induction n as [|n IH]; intros H; cbn; [reflexivity|]. rewrite IH, (H n) by (intros; try apply H; lia). reflexivity. Qed.
Lemma sumn_plus n f g : sumn n (fun i => f i + g i) = sumn n f + sumn n g.
Proof. induction n as [|n IH]; cbn; [ring|]. rewrite IH. ring. Qed.
Lemma sumn_scal n c f : sumn n (fun i => c * f i) = c * sumn n f.
Proof. induction n as [|n IH]; cbn; [ring|]. rewrite IH. ring. Qed.
Lemma sumn_0 n : sumn n (fun _ => 0) = 0.
Proof. induction n as [|n IH]; cbn; [reflexivity|]. rewrite IH. ring. Qed.
Lemma sumn_swap n m f : sumn n (fun i => sumn m (fun j => f i j)) = sumn m (fun j => sumn n (fun i => f i j)).
Proof.
  induction n as [|n IH]; cbn; [rewrite sumn_0; reflexivity|]. rewrite IH, <- sumn_plus. reflexivity.
Qed.
Lemma sumn_scal_r n c f : sumn n (fun i => f i * c) = sumn n f * c.
Proof. rewrite <- (Rmult_comm c), <- sumn_scal. apply sumn_ext. intros; ring. Qed.

(** * Matrix operator *)
Lemma c_eq (a b : C) : fst a = fst b -> snd a = snd b -> a = b.
Proof. destruct a, b; cbn; congruence. Qed.

Lemma csumn_fst n f : fst (csumn n f) = sumn n (fun i => fst (f i)).
Proof. induction n as [|n IH]; cbn; [reflexivity|]. rewrite IH. reflexivity. Qed.
Lemma csumn_snd n f : snd (csumn n f) = sumn n (fun i => snd (f i)).
Proof. induction n as [|n IH]; cbn; [reflexivity|]. rewrite IH. reflexivity. Qed.

Lemma csumn_ext n f g : (forall i, (i < n)%nat -> f i = g i) -> csumn n f = csumn n g.
Proof. induction n as [|n IH]; intros H; cbn; [reflexivity|]. rewrite IH, (H n) by (intros; try apply H; lia). reflexivity. Qed.

Lemma csumn_shift n f : csumn (S n) f = cadd (f 0%nat) (csumn n (fun i => f (S i))).
Proof.
  induction n as [|n IH]; [cbn; apply c_eq; cbn; ring|].
  cbn [csumn] in *. rewrite IH. apply c_eq; cbn; ring.
Qed.

Lemma cdot_csumn a b : length a = length b ->
  cdot a b = csumn (length a) (fun i => cmul (cconj (nth i a c0)) (nth i b c0)).
Proof.
  revert b. induction a as [|x a IH]; intros [|y b] L; cbn in L; try discriminate; [reflexivity|].
  change (length (x :: a)) with (S (length a)). rewrite csumn_shift. unfold cdot in *. cbn [combine fold_right fst snd nth].
  rewrite IH by congruence. reflexivity.
Qed.

Lemma nth_map_seq {A} (f : nat -> A) n i d : (i < n)%nat -> nth i (map f (seq 0 n)) d = f i.
Proof.
  intros H. rewrite (nth_indep _ d (f 0%nat)) by (rewrite map_length, seq_length; exact H).
  rewrite map_nth, seq_nth by exact H. reflexivity.
Qed.

Lemma csumn_swap n m f : csumn n (fun i => csumn m (fun j => f i j)) = csumn m (fun j => csumn n (fun i => f i j)).
Proof.
  apply c_eq.
  - rewrite !csumn_fst. rewrite (sumn_ext n _ (fun i => sumn m (fun j => fst (f i j)))) by (intros; apply csumn_fst).
    rewrite sumn_swap. apply sumn_ext. intros. rewrite csumn_fst. reflexivity.
  - rewrite !csumn_snd. rewrite (sumn_ext n _ (fun i => sumn m (fun j => snd (f i j)))) by (intros; apply csumn_snd).
    rewrite sumn_swap. apply sumn_ext. intros. rewrite csumn_snd. reflexivity.
Qed.

Lemma csumn_mul_r n f c : cmul (csumn n f) c = csumn n (fun i => cmul (f i) c).
Proof.
  induction n as [|n IH]; [cbn; apply c_eq; cbn; ring|]. cbn [csumn]. rewrite <- IH. apply c_eq; cbn; ring.
Qed.
Lemma csumn_mul_l n f c : cmul c (csumn n f) = csumn n (fun i => cmul c (f i)).
Proof.
  induction n as [|n IH]; [cbn; apply c_eq; cbn; ring|]. cbn [csumn]. rewrite <- IH. apply c_eq; cbn; ring.
Qed.
Lemma csumn_conj n f : cconj (csumn n f) = csumn n (fun i => cconj (f i)).
Proof. induction n as [|n IH]; [cbn; apply c_eq; cbn; ring|]. cbn [csumn]. rewrite <- IH. apply c_eq; cbn; ring. Qed.

Lemma matvec_adjoint a b x y :
  m_rows b = m_cols a -> m_cols b = m_rows a ->
  (forall i j, (i < m_rows a)%nat -> (j < m_cols a)%nat -> m_ent b j i = cconj (m_ent a i j)) ->
  length x = m_cols a -> length y = m_rows a ->
  exists u v, matvec a x = Ok u /\ matvec b y = Ok v /\ length u = m_rows a /\ length v = m_cols a /\ cdot u y = cdot x v.
Proof.
  intros R1 R2 E Lx Ly. unfold matvec. rewrite Lx, Ly, R2, !Nat.eqb_refl. eexists. eexists.
  split; [reflexivity|]. split; [reflexivity|].
  split; [rewrite map_length; apply seq_length|]. split; [rewrite map_length, seq_length; exact R1|].
  rewrite !cdot_csumn by (rewrite map_length, seq_length; congruence).
  rewrite map_length, seq_length, Lx.
  rewrite (csumn_ext (m_rows a) _ (fun i => csumn (m_cols a) (fun j => cmul (cmul (cconj (m_ent a i j)) (cconj (nth j x c0))) (nth i y c0)))).
  2:{ intros i Hi. rewrite nth_map_seq by exact Hi. rewrite csumn_conj, csumn_mul_r. apply csumn_ext. intros j _.
      apply c_eq; cbn; ring. }
  rewrite csumn_swap. apply csumn_ext. intros j Hj. rewrite R1. rewrite nth_map_seq by exact Hj.
  rewrite csumn_mul_l. apply csumn_ext. intros i Hi. rewrite (E i j Hi Hj). apply c_eq; cbn; ring.
Qed.

Lemma any_complex_false a : any_complex a = false ->
  forall i j, (i < m_rows a)%nat -> (j < m_cols a)%nat -> snd (m_ent a i j) = 0.
Proof.
  intros H i j Hi Hj. destruct (Req_EM_T (snd (m_ent a i j)) 0) as [|N]; [assumption|]. exfalso.
  assert (T : any_complex a = true); [|congruence]. unfold any_complex. apply existsb_exists. exists i.
  split; [apply in_seq; lia|]. apply existsb_exists. exists j. split; [apply in_seq; lia|].
  destruct (Req_EM_T (snd (m_ent a i j)) 0); [contradiction|reflexivity].
Qed.

Lemma matrix_adjoint a x y : length x = m_cols a -> length y = m_rows a ->
  exists u v, matrix_op a x = Ok u /\ matrix_adj_op a y = Ok v /\ length u = m_rows a /\ length v = m_cols a /\ cdot u y = cdot x v.
Proof.
  intros Lx Ly. unfold matrix_op, matrix_adj_op. destruct (any_complex a) eqn:Ec; apply matvec_adjoint; try reflexivity; try assumption.
  intros i j Hi Hj. cbn. apply c_eq; cbn; [reflexivity|]. rewrite (any_complex_false a Ec i j Hi Hj). ring.
Qed.

(** * LinearCombo *)
Lemma combo_adjoint_sum {H K : ips} (ops : list ((H -> K) * (K -> H))) x y :
  Forall (fun o => forall u v, inner (fst o u) v = inner u (snd o v)) ops ->
  length y = length ops ->
  rsum (map2 inner (combo_lin_op ops x) y) = inner x (vsum (map2 (fun v (o : (H -> K) * (K -> H)) => snd o v) y ops)).
Proof.
  intros F. unfold rsum. revert y. induction F as [|o ops Ho F IH]; intros [|v y] L; cbn in L; try discriminate.
  - cbn. rewrite inner_0_r. reflexivity.
  - cbn. rewrite inner_add_r, <- Ho. f_equal. apply IH. congruence.
Qed.

Lemma combo_mean_scale {H K : ips} (ops : list ((H -> K) * (K -> H))) x y :
  ops <> [] -> Forall (fun o => forall u v, inner (fst o u) v = inner u (snd o v)) ops ->
  length y = length ops ->
  exists r, combo_lin_adj ops None y = Ok r /\
    rsum (map2 inner (combo_lin_op ops x) y) = INR (length ops) * inner x r.
Proof.
  intros Hne F L. unfold combo_lin_adj.
  assert (Lm : length (map2 (fun v (o : (H -> K) * (K -> H)) => snd o v) y ops) = length ops) by (apply map2_length; auto).
  destruct (map2 _ y ops) as [|a l] eqn:E; [destruct ops; [contradiction|discriminate]|].
  eexists. split; [reflexivity|]. rewrite combo_adjoint_sum by assumption. rewrite E, Lm, inner_scal_r.
  assert (INR (length ops) <> 0) by (apply not_0_INR; destruct ops; [contradiction|discriminate]).
  field. assumption.
Qed.

Lemma combo_weights_adjoint {H K : ips} (ops : list ((H -> K) * (K -> H))) ws x y :
  ops <> [] -> Forall (fun o => forall u v, inner (fst o u) v = inner u (snd o v)) ops ->
  length y = length ops -> length ws = length ops ->
  exists r, combo_lin_adj ops (Some ws) y = Ok r /\
    rsum (map2 Rmult ws (map2 inner (combo_lin_op ops x) y)) = inner x r.
Proof.
  intros Hne F Ly Lw. unfold combo_lin_adj.
  assert (G : rsum (map2 Rmult ws (map2 inner (combo_lin_op ops x) y))
     = inner x (vsum (map2 (fun (vo : K * ((H -> K) * (K -> H))) w => (w * snd (snd vo) (fst vo))%v) (combine y ops) ws))).
  { clear Hne. unfold rsum. revert y ws Ly Lw. induction F as [|o ops Ho F IH]; intros [|v y] [|w ws] Ly Lw; cbn in Ly, Lw; try discriminate.
    - cbn. rewrite inner_0_r. reflexivity.
    - cbn. rewrite inner_add_r, inner_scal_r, <- Ho. f_equal. apply IH; congruence. }
  destruct ops as [|o ops]; [contradiction|]. destruct y as [|v y]; [discriminate|]. destruct ws as [|w ws]; [discriminate|].
  cbn [combine map2] in *. eexists. split; [reflexivity|]. exact G.
Qed.

(** * Convolution *)
Definition conv_at (x k : nda R) h w a b i j : R :=
  sumn h (fun p => sumn w (fun q => at_ x [p; q] *
     kz k a b (Z.of_nat i + (Z.of_nat a - 1) / 2 - Z.of_nat p) (Z.of_nat j + (Z.of_nat b - 1) / 2 - Z.of_nat q))).

Lemma convolve_spec x k h w a b : shape x = [h; w] -> shape k = [a; b] -> (0 < a)%nat -> (0 < b)%nat ->
  exists c, convolve x k = Ok c /\ shape c = [h; w] /\ forall i j, at_ c [i; j] = conv_at x k h w a b i j.
Proof.
  intros Hx Hk Ha Hb. unfold convolve. rewrite Hx, Hk.
  destruct (Nat.eqb_spec a 0); [lia|]. destruct (Nat.eqb_spec b 0); [lia|]. cbn [orb].
  eexists. split; [reflexivity|]. split; reflexivity.
Qed.

(** The half-turned kernel read at (s, t) is the kernel read at the mirrored position. *)
Lemma kz_half_turn k k' a b s t : shape k = [a; b] -> is_half_turn k k' ->
  kz k' a b s t = kz k a b (Z.of_nat a - 1 - s) (Z.of_nat b - 1 - t).
Proof.
  intros Hk [_ Ht]. specialize (Ht a b [] Hk). rewrite Hk in Ht. unfold kz.
  destruct (Z.leb_spec 0 s); destruct (Z.ltb_spec s (Z.of_nat a));
  destruct (Z.leb_spec 0 t); destruct (Z.ltb_spec t (Z.of_nat b));
  destruct (Z.leb_spec 0 (Z.of_nat a - 1 - s)); destruct (Z.ltb_spec (Z.of_nat a - 1 - s) (Z.of_nat a));
  destruct (Z.leb_spec 0 (Z.of_nat b - 1 - t)); destruct (Z.ltb_spec (Z.of_nat b - 1 - t) (Z.of_nat b));
  cbn; try lia; try reflexivity.
  rewrite <- (Ht (Z.to_nat (Z.of_nat a - 1 - s)) (Z.to_nat (Z.of_nat b - 1 - t)) []); [|cbn; lia].
  do 2 f_equal; [lia|]. f_equal. lia.
Qed.

Lemma conv_adjoint x y k k' h w a b :
  shape k = [a; b] -> is_half_turn k k' -> Nat.Odd a -> Nat.Odd b ->
  sumn h (fun i => sumn w (fun j => conv_at x k h w a b i j * at_ y [i; j])) =
  sumn h (fun i => sumn w (fun j => at_ x [i; j] * conv_at y k' h w a b i j)).
Proof.
  intros Hk Hh [a' Oa] [b' Ob].
  transitivity (sumn h (fun i => sumn w (fun j => sumn h (fun p => sumn w (fun q =>
     at_ x [p; q] * at_ y [i; j] * kz k a b (Z.of_nat i + (Z.of_nat a - 1) / 2 - Z.of_nat p) (Z.of_nat j + (Z.of_nat b - 1) / 2 - Z.of_nat q)))))).
  { apply sumn_ext. intros i _. apply sumn_ext. intros j _. unfold conv_at. rewrite <- sumn_scal_r.
    apply sumn_ext. intros p _. rewrite <- sumn_scal_r. apply sumn_ext. intros q _. ring. }
  transitivity (sumn h (fun p => sumn w (fun q => sumn h (fun i => sumn w (fun j =>
     at_ x [p; q] * at_ y [i; j] * kz k a b (Z.of_nat i + (Z.of_nat a - 1) / 2 - Z.of_nat p) (Z.of_nat j + (Z.of_nat b - 1) / 2 - Z.of_nat q)))))).
  { (* exchange (i,j) with (p,q) *)
    transitivity (sumn h (fun i => sumn h (fun p => sumn w (fun j => sumn w (fun q =>
     at_ x [p; q] * at_ y [i; j] * kz k a b (Z.of_nat i + (Z.of_nat a - 1) / 2 - Z.of_nat p) (Z.of_nat j + (Z.of_nat b - 1) / 2 - Z.of_nat q)))))).
    { apply sumn_ext. intros i _. apply sumn_swap. }
    rewrite sumn_swap. apply sumn_ext. intros p _.
    rewrite <- sumn_swap. rewrite sumn_swap.
    transitivity (sumn h (fun i => sumn w (fun q => sumn w (fun j =>
     at_ x [p; q] * at_ y [i; j] * kz k a b (Z.of_nat i + (Z.of_nat a - 1) / 2 - Z.of_nat p) (Z.of_nat j + (Z.of_nat b - 1) / 2 - Z.of_nat q))))).
    { apply sumn_ext. intros i _. apply sumn_swap. }
    apply sumn_swap. }
  apply sumn_ext. intros p _. apply sumn_ext. intros q _. unfold conv_at. rewrite <- sumn_scal.
  apply sumn_ext. intros i _. rewrite <- sumn_scal. apply sumn_ext. intros j _.
  rewrite (kz_half_turn k k' a b _ _ Hk Hh). rewrite Rmult_assoc. do 3 f_equal; subst a b.
  - replace (Z.of_nat (2 * a' + 1) - 1)%Z with (Z.of_nat a' * 2)%Z by lia. rewrite Z.div_mul by lia. lia.
  - replace (Z.of_nat (2 * b' + 1) - 1)%Z with (Z.of_nat b' * 2)%Z by lia. rewrite Z.div_mul by lia. lia.
Qed.

Definition conv_arr (x k : nda R) h w a b : nda R :=
  mk_nda [h; w] (fun idx => conv_at x k h w a b (nth 0 idx 0%nat) (nth 1 idx 0%nat)).

Lemma convolve_arr x k h w a b : shape x = [h; w] -> shape k = [a; b] -> (0 < a)%nat -> (0 < b)%nat ->
  convolve x k = Ok (conv_arr x k h w a b).
Proof.
  intros Hx Hk Ha Hb. unfold convolve. rewrite Hx, Hk.
  destruct (Nat.eqb_spec a 0); [lia|]. destruct (Nat.eqb_spec b 0); [lia|]. reflexivity.
Qed.

Lemma items_seq {A} (x : nda A) n s : shape x = n :: s -> items x = map (sub0 x) (seq 0 n).
Proof. intros E. unfold items. rewrite E. reflexivity. Qed.

Lemma combine_map_seq {A B} (f : nat -> A) (g : nat -> B) l : combine (map f l) (map g l) = map (fun i => (f i, g i)) l.
Proof. induction l as [|x l IH]; cbn; [reflexivity|]. rewrite IH. reflexivity. Qed.

Lemma mapM_map {A B X} (f : A -> res B) (g : A -> B) (h : X -> A) l :
  (forall x, In x l -> f (h x) = Ok (g (h x))) -> mapM f (map h l) = Ok (map (fun x => g (h x)) l).
Proof.
  intros H. rewrite (mapM_ok f g); [rewrite map_map; reflexivity|].
  intros y Hy. apply in_map_iff in Hy. destruct Hy as (x & <- & Hx). apply H. exact Hx.
Qed.

Definition dflt : nda R := mk_nda [] (fun _ => 0).

Lemma stack_map (f : nat -> nda R) n s : (0 < n)%nat -> (forall k, (k < n)%nat -> shape (f k) = s) ->
  exists M, stack (map f (seq 0 n)) = Ok M /\ shape M = n :: s /\
    forall k idx, (k < n)%nat -> at_ M (k :: idx) = at_ (f k) idx.
Proof.
  intros Hn Hs. destruct (stack_spec dflt s (map f (seq 0 n))) as (M & E & Sh & At).
  - rewrite <- length_zero_iff_nil, map_length, seq_length. lia.
  - apply Forall_forall. intros x Hx. apply in_map_iff in Hx. destruct Hx as (k & <- & Hk). apply in_seq in Hk. apply Hs. lia.
  - rewrite map_length, seq_length in *. exists M. split; [exact E|]. split; [exact Sh|].
    intros k idx Hk. rewrite At by exact Hk. rewrite nth_map_seq by exact Hk. reflexivity.
Qed.

Lemma sum_arrays_spec (f : nat -> nda R) m s : (0 < m)%nat -> (forall k, (k < m)%nat -> shape (f k) = s) ->
  exists M, sum_arrays (map f (seq 0 m)) = Ok M /\ shape M = s /\
    forall idx, at_ M idx = sumn m (fun k => at_ (f k) idx).
Proof.
  intros Hm Hs. destruct m as [|m]; [lia|].
  set (l := map f (seq 0 (S m))). assert (El : l = f 0%nat :: map f (seq 1 m)) by reflexivity.
  assert (Hf : forallb (fun b => list_nat_eqb (shape b) (shape (f 0%nat))) l = true).
  { apply forallb_forall. intros b Hb. apply list_nat_eqb_true. apply in_map_iff in Hb. destruct Hb as (k & <- & Hk).
    apply in_seq in Hk. rewrite !Hs by lia. reflexivity. }
  assert (U : sum_arrays l = if forallb (fun b => list_nat_eqb (shape b) (shape (f 0%nat))) l
     then Ok (mk_nda (shape (f 0%nat)) (fun idx => fold_right (fun b s => at_ b idx + s) 0 l)) else Err ValueError)
    by (rewrite El; reflexivity).
  rewrite U, Hf. eexists. split; [reflexivity|]. split; [cbn; apply Hs; lia|].
  intros idx. cbn [at_]. subst l. clear. generalize (S m) as n. intros n.
  assert (G : forall l1 l2, fold_right (fun b s => at_ b idx + s) 0 (l1 ++ l2)
     = fold_right (fun (b : nda R) s => at_ b idx + s) 0 l1 + fold_right (fun (b : nda R) s => at_ b idx + s) 0 l2).
  { induction l1 as [|b l1 IH]; intros l2; cbn; [ring|]. rewrite IH. ring. }
  induction n as [|n IH]; [reflexivity|]. rewrite seq_S, map_app, G, IH. cbn. ring.
Qed.

Lemma fc_forward x filters m a b h w : shape filters = [m; a; b] -> (0 < m)%nat -> (0 < a)%nat -> (0 < b)%nat -> shape x = [h; w] ->
  exists M, filter_convolve x filters false = Ok M /\ shape M = [m; h; w] /\
    forall f i j, (f < m)%nat -> at_ M [f; i; j] = conv_at x (sub0 filters f) h w a b i j.
Proof.
  intros Hf Hm Ha Hb Hx. unfold filter_convolve. rewrite (items_seq _ _ _ Hf).
  assert (Hs : forall k, shape (sub0 filters k) = [a; b]) by (intros; cbn; rewrite Hf; reflexivity).
  rewrite (mapM_map _ (fun k => conv_arr x k h w a b)) by (intros; apply convolve_arr; auto).
  cbn [bind]. destruct (stack_map (fun k => conv_arr x (sub0 filters k) h w a b) m [h; w]) as (M & E & Sh & At); auto.
  exists M. split; [exact E|]. split; [exact Sh|]. intros f i j Hfm. rewrite At by exact Hfm. reflexivity.
Qed.

Lemma fc_adjoint y filters rf m a b h w : shape filters = [m; a; b] -> (0 < m)%nat -> (0 < a)%nat -> (0 < b)%nat -> shape y = [m; h; w] ->
  rotate_stack filters = Ok rf -> shape rf = shape filters ->
  exists M, filter_convolve y filters true = Ok M /\ shape M = [h; w] /\
    forall i j, at_ M [i; j] = sumn m (fun f => conv_at (sub0 y f) (sub0 rf f) h w a b i j).
Proof.
  intros Hf Hm Ha Hb Hy Er Sr. unfold filter_convolve. rewrite Er. cbn [bind]. rewrite Hf in Sr.
  rewrite (items_seq _ _ _ Sr), (items_seq _ _ _ Hy), combine_map_seq.
  rewrite (mapM_map _ (fun p => conv_arr (fst p) (snd p) h w a b)).
  2:{ intros k _. apply convolve_arr; cbn; rewrite ?Hy, ?Sr; auto. }
  cbn [bind fst snd]. destruct (sum_arrays_spec (fun k => conv_arr (sub0 y k) (sub0 rf k) h w a b) m [h; w]) as (M & E & Sh & At); auto.
  exists M. split; [exact E|]. split; [exact Sh|]. intros i j. rewrite At. reflexivity.
Qed.

Lemma stack_of_results (f : nda R -> res (nda R)) (x : nda R) n s' s : shape x = n :: s' -> (0 < n)%nat ->
  (forall k, (k < n)%nat -> exists M, f (sub0 x k) = Ok M /\ shape M = s) ->
  exists M, (do l <- mapM f (items x); stack l) = Ok M /\ shape M = n :: s /\
    forall k N, (k < n)%nat -> f (sub0 x k) = Ok N -> forall idx, at_ M (k :: idx) = at_ N idx.
Proof.
  intros Hx Hn Hf. rewrite (items_seq _ _ _ Hx).
  set (g := fun e => match f e with Ok M => M | Err _ => dflt end).
  rewrite (mapM_map _ g).
  2:{ intros k Hk. apply in_seq in Hk. destruct (Hf k) as (M & E & _); [lia|]. unfold g. rewrite E. reflexivity. }
  cbn [bind]. destruct (stack_map (fun k => g (sub0 x k)) n s Hn) as (M & E & Sh & At).
  { intros k Hk. destruct (Hf k Hk) as (M & E & Sh). unfold g. rewrite E. exact Sh. }
  exists M. split; [exact E|]. split; [exact Sh|]. intros k N Hk EN idx. rewrite At by exact Hk. unfold g. rewrite EN. reflexivity.
Qed.

Lemma wavelet_adjoint filters x y n m a b h w :
  shape filters = [m; a; b] -> shape x = [n; h; w] -> shape y = [n; m; h; w] ->
  (0 < n)%nat -> (0 < m)%nat -> Nat.Odd a -> Nat.Odd b ->
  exists u v, wavelet_op filters x = Ok u /\ wavelet_adj_op filters y = Ok v /\
    shape u = [n; m; h; w] /\ shape v = [n; h; w] /\ dot4 n m h w u y = dot3 n h w x v.
Proof.
  intros Hf Hx Hy Hn Hm Oa Ob.
  assert (Ha : (0 < a)%nat) by (destruct Oa; lia). assert (Hb : (0 < b)%nat) by (destruct Ob; lia).
  destruct (rotate_stack_spec filters m a b [] Hf Hm) as (rf & Er & Sr & Ht).
  unfold wavelet_op, wavelet_adj_op, filter_convolve_stack.
  assert (Sx : forall k, shape (sub0 x k) = [h; w]) by (intros; cbn; rewrite Hx; reflexivity).
  assert (Sy : forall k, shape (sub0 y k) = [m; h; w]) by (intros; cbn; rewrite Hy; reflexivity).
  destruct (stack_of_results (fun e => filter_convolve e filters false) x n [h; w] [m; h; w] Hx Hn) as (u & Eu & Su & Au).
  { intros k _. destruct (fc_forward (sub0 x k) filters m a b h w) as (M & E & Sh & _); eauto. }
  destruct (stack_of_results (fun e => filter_convolve e filters true) y n [m; h; w] [h; w] Hy Hn) as (v & Ev & Sv & Av).
  { intros k _. destruct (fc_adjoint (sub0 y k) filters rf m a b h w) as (M & E & Sh & _); eauto. }
  exists u, v. split; [exact Eu|]. split; [exact Ev|]. split; [exact Su|]. split; [exact Sv|].
  unfold dot4, dot3. apply sumn_ext. intros k Hk.
  destruct (fc_forward (sub0 x k) filters m a b h w) as (M & EM & _ & AM); auto.
  destruct (fc_adjoint (sub0 y k) filters rf m a b h w) as (N & EN & _ & AN); auto.
  transitivity (sumn m (fun f => sumn h (fun i => sumn w (fun j => at_ (sub0 x k) [i; j] * conv_at (sub0 (sub0 y k) f) (sub0 rf f) h w a b i j)))).
  - apply sumn_ext. intros f Hfm. unfold dot2.
    rewrite <- (conv_adjoint (sub0 x k) (sub0 (sub0 y k) f) (sub0 filters f) (sub0 rf f) h w a b);
      [| cbn; rewrite Hf; reflexivity | apply Ht; exact Hfm | exact Oa | exact Ob].
    apply sumn_ext. intros i _. apply sumn_ext. intros j _. f_equal.
    cbn [sub0 at_]. rewrite (Au k M Hk EM). apply AM. exact Hfm.
  - unfold dot2. rewrite sumn_swap. apply sumn_ext. intros i _. rewrite sumn_swap. apply sumn_ext. intros j _.
    rewrite sumn_scal. f_equal. cbn [sub0 at_]. rewrite (Av k N Hk EN). rewrite AN. reflexivity.
Qed.

(** Even sizes: a 1x2 image and the 1x2 filter (1, 0). *)
Definition row2 (p q : R) (pre : nat) : list nat -> R := fun idx => if Nat.eqb (nth pre idx 0%nat) 0 then p else q.
Definition even_filter : nda R := mk_nda [1; 1; 2]%nat (row2 1 0 2).
Definition even_x : nda R := mk_nda [1; 1; 2]%nat (row2 1 0 2).
Definition even_y : nda R := mk_nda [1; 1; 1; 2]%nat (row2 1 0 3).

Lemma even_not_adjoint :
  exists u v, wavelet_op even_filter even_x = Ok u /\ wavelet_adj_op even_filter even_y = Ok v /\
    dot4 1 1 1 2 u even_y <> dot3 1 1 2 even_x v.
Proof.
  eexists. eexists. split; [reflexivity|]. split; [reflexivity|].
  unfold dot4, dot3, dot2, sumn. cbn. unfold kz, row2. cbn. lra.
Qed.

(** * GradBasic *)
Lemma grad_basic_gradient {H K : ips} (op : H -> K) (adj : K -> H) (obs : K) :
  (forall u v, op (u + v)%v = (op u + op v)%v) -> (forall u v, inner (op u) v = inner u (adj v)) ->
  forall x h, grad_basic_cost op obs (x + h)%v
    = grad_basic_cost op obs x + inner (grad_basic op adj obs x) h + / 2 * norm (op h) ^ 2.
Proof.
  intros Ha Hadj x h. unfold grad_basic_cost, grad_basic.
  rewrite (inner_sym _ (adj _) h), <- Hadj, Ha. replace (norm (obs - (op x + op h))%v ^ 2) with (nsq (obs - (op x + op h))%v) by (rewrite <- norm_sq; ring).
  replace (norm (obs - op x)%v ^ 2) with (nsq (obs - op x)%v) by (rewrite <- norm_sq; ring).
  replace (norm (op h) ^ 2) with (nsq (op h)) by (rewrite <- norm_sq; ring).
  unfold nsq. iexpand. rewrite ?(inner_sym _ (op h)). lra.
Qed.

(** * cwbReweight *)
Lemma map2_len {A B C} (f : A -> B -> C) a b : length a = length b -> length (map2 f a b) = length a.
Proof. revert b. induction a as [|x a IH]; intros [|y b] L; cbn in *; try discriminate; auto. Qed.

Lemma map2_nth' {A B C} (f : A -> B -> C) a b i da db dc : length a = length b -> (i < length a)%nat ->
  nth i (map2 f a b) dc = f (nth i a da) (nth i b db).
Proof.
  revert b i. induction a as [|x a IH]; intros [|y b] i L Hi; cbn in *; try discriminate; try lia.
  destruct i; cbn; [reflexivity|]. apply IH; lia.
Qed.

(** One call on well-formed data of the right shape. *)
Lemma reweight_step s x :
  well_formed (rw_weights s) -> length (rw_original s) = length (fa_data (rw_weights s)) -> well_formed x ->
  fa_shape x = fa_shape (rw_weights s) ->
  snd (reweight s x) = Ok tt /\
  let s' := fst (reweight s x) in
  fa_shape (rw_weights s') = fa_shape (rw_weights s) /\ rw_original s' = rw_original s /\ rw_factor s' = rw_factor s /\
  length (fa_data (rw_weights s')) = length (fa_data (rw_weights s)) /\
  forall i, (i < length (fa_data (rw_weights s)))%nat ->
    nth i (fa_data (rw_weights s')) 0 =
    nth i (fa_data (rw_weights s)) 0 * (1 / (1 + Rabs (nth i (fa_data x) 0) / (rw_factor s * nth i (rw_original s) 0))).
Proof.
  intros W Lo Wx Sh. unfold reweight. cbn [rw_weights rw_original rw_factor].
  rewrite (proj2 (list_nat_eqb_true _ _) Sh). cbn. unfold well_formed in *.
  assert (L1 : length (fa_data x) = length (fa_data (rw_weights s))) by congruence.
  assert (L2 : length (map2 (fun v t => 1 / (1 + Rabs v / t)) (fa_data x) (map (fun w => rw_factor s * w) (rw_original s))) = length (fa_data x))
    by (apply map2_len; rewrite map_length; congruence).
  repeat split; try reflexivity.
  - apply map2_len. congruence.
  - intros i Hi. rewrite (map2_nth' Rmult _ _ i 0 0 0) by (congruence || exact Hi). f_equal.
    rewrite (map2_nth' _ _ _ i 0 (rw_factor s * 0) 0) by (rewrite ?map_length; congruence || lia).
    rewrite map_nth. reflexivity.
Qed.

Lemma reweight_mismatch s x : fa_shape x <> fa_shape (rw_weights s) ->
  snd (reweight s x) = Err ValueError /\ rw_weights (fst (reweight s x)) = rw_weights s /\
  rw_original (fst (reweight s x)) = rw_original s /\ rw_factor (fst (reweight s x)) = rw_factor s.
Proof.
  intros N. unfold reweight. cbn [rw_weights].
  destruct (list_nat_eqb (fa_shape x) (fa_shape (rw_weights s))) eqn:E; [apply list_nat_eqb_true in E; contradiction|].
  repeat split; reflexivity.
Qed.

Lemma rw_run_spec : forall l s,
  well_formed (rw_weights s) -> length (rw_original s) = length (fa_data (rw_weights s)) ->
  positive_factors (rw_factor s) l ->
  let s' := rw_run s l in
  fa_shape (rw_weights s') = fa_shape (rw_weights s) /\ rw_original s' = rw_original s /\
  length (fa_data (rw_weights s')) = length (fa_data (rw_weights s)) /\ 0 < rw_factor s' /\
  forall i, (i < length (fa_data (rw_weights s)))%nat ->
    nth i (fa_data (rw_weights s')) 0 = nth i (fa_data (rw_weights s)) 0 *
      fold_right (fun c p => 1 / (1 + Rabs (nth i (snd c) 0) / (fst c * nth i (rw_original s) 0)) * p) 1
        (effective (fa_shape (rw_weights s)) (rw_factor s) l).
Proof.
  induction l as [|e l IH]; intros s W Lo [Pf F].
  - cbn. repeat split; auto. intros; ring.
  - inversion F as [|? ? He F' E1]; subst. cbn [rw_run fold_left]. change (fold_left rw_step l (rw_step s e)) with (rw_run (rw_step s e) l).
    destruct e as [x|n]; cbn [rw_step effective].
    + destruct (list_eq_dec Nat.eq_dec (fa_shape x) (fa_shape (rw_weights s))) as [Sh|Sh].
      * destruct (reweight_step s x W Lo He Sh) as (_ & S1 & O1 & F1 & L1 & N1). cbv zeta in *.
        set (s1 := fst (reweight s x)) in *. clearbody s1.
        destruct (IH s1) as (A1 & A2 & A3 & A4 & A5).
        { unfold well_formed in *. congruence. } { congruence. } { split; [rewrite F1; exact Pf|exact F']. }
        split; [congruence|]. split; [congruence|]. split; [congruence|]. split; [exact A4|].
        intros i Hi. rewrite A5 by lia. rewrite N1 by exact Hi. rewrite O1, S1, F1. cbn [fold_right fst snd]. ring.
      * destruct (reweight_mismatch s x Sh) as (_ & W1 & O1 & F1).
        set (s1 := fst (reweight s x)) in *. clearbody s1.
        destruct (IH s1) as (A1 & A2 & A3 & A4 & A5).
        { rewrite W1. exact W. } { congruence. } { split; [rewrite F1; exact Pf|exact F']. }
        rewrite W1, O1, F1 in *. repeat split; assumption.
    + apply (IH (mk_rw (rw_weights s) (rw_original s) n (rw_num s))); auto. split; [exact He|exact F'].
Qed.

Lemma factor_bounds v t : 0 < t -> 0 < 1 / (1 + Rabs v / t) <= 1 /\ (v = 0 -> 1 / (1 + Rabs v / t) = 1).
Proof.
  intros Ht. assert (Hq : 0 <= Rabs v / t).
  { apply Rmult_le_pos; [apply Rabs_pos|]. left. apply Rinv_0_lt_compat. exact Ht. }
  split; [split|].
  - apply Rdiv_lt_0_compat; lra.
  - apply Rmult_le_reg_r with (1 + Rabs v / t); [lra|]. unfold Rdiv at 1. rewrite Rmult_assoc, Rinv_l by lra. lra.
  - intros ->. rewrite Rabs_R0. unfold Rdiv. rewrite Rmult_0_l, Rplus_0_r, Rinv_1. ring.
Qed.

Lemma effective_pos sh : forall l n, positive_factors n l -> Forall (fun c => 0 < fst c) (effective sh n l).
Proof.
  induction l as [|e l IH]; intros n [P F]; cbn; [constructor|]. inversion F as [|? ? He F' E1]; subst.
  destruct e as [x|n'].
  - destruct (list_eq_dec _ _ _); [constructor; [exact P|]|]; apply IH; split; assumption.
  - apply IH. split; assumption.
Qed.

Lemma factors_product w0 i l : 0 < w0 -> Forall (fun c => 0 < fst c) l ->
  0 < fold_right (fun c p => 1 / (1 + Rabs (nth i (snd c) 0) / (fst c * w0)) * p) 1 l <= 1.
Proof.
  intros Hw. induction 1 as [|c l Hc F IH]; cbn [fold_right]; [lra|].
  destruct (factor_bounds (nth i (snd c) 0) (fst c * w0)) as [[B1 B2] _]; [apply Rmult_lt_0_compat; assumption|].
  split; [apply Rmult_lt_0_compat; [exact B1|apply IH]|]. 
  apply Rle_trans with (1 * 1); [|lra]. apply Rmult_le_compat; lra.
Qed.

Lemma reweight_closed_form w n l : well_formed w -> Forall (fun v => 0 < v) (fa_data w) -> positive_factors n l ->
  let s := rw_run (rw_init w n) l in
  fa_shape (rw_weights s) = fa_shape w /\ length (fa_data (rw_weights s)) = length (fa_data w) /\
  forall i, (i < length (fa_data w))%nat ->
    nth i (fa_data (rw_weights s)) 0 = reweighted (nth i (fa_data w) 0) i (effective (fa_shape w) n l) /\
    0 < nth i (fa_data (rw_weights s)) 0 <= nth i (fa_data w) 0.
Proof.
  intros W Pw P. destruct (rw_run_spec l (rw_init w n) W eq_refl P) as (A1 & _ & A3 & _ & A5). cbv zeta in *.
  split; [exact A1|]. split; [exact A3|]. intros i Hi. rewrite A5 by exact Hi. cbn [rw_init rw_weights rw_original rw_factor].
  split; [reflexivity|].
  assert (Hw : 0 < nth i (fa_data w) 0) by (rewrite Forall_forall in Pw; apply Pw; apply nth_In; exact Hi).
  destruct (factors_product _ i _ Hw (effective_pos (fa_shape w) l n P)) as [B1 B2].
  split; [apply Rmult_lt_0_compat; assumption|]. eapply Rle_trans; [apply Rmult_le_compat_l; [lra|exact B2]|lra].
Qed.

(** The call that follows any history. *)
Lemma reweight_after w n l x : well_formed w -> Forall (fun v => 0 < v) (fa_data w) -> positive_factors n l -> well_formed x ->
  let s := rw_run (rw_init w n) l in let s' := fst (reweight s x) in
  (fa_shape x = fa_shape w -> snd (reweight s x) = Ok tt /\
     forall i, (i < length (fa_data w))%nat ->
       nth i (fa_data (rw_weights s')) 0 <= nth i (fa_data (rw_weights s)) 0 /\
       (nth i (fa_data x) 0 = 0 -> nth i (fa_data (rw_weights s')) 0 = nth i (fa_data (rw_weights s)) 0)) /\
  (fa_shape x <> fa_shape w -> snd (reweight s x) = Err ValueError /\ rw_weights s' = rw_weights s).
Proof.
  intros W Pw P Wx. cbv zeta. destruct (rw_run_spec l (rw_init w n) W eq_refl P) as (A1 & A2 & A3 & A4 & _).
  destruct (reweight_closed_form w n l W Pw P) as (_ & _ & C). cbv zeta in *.
  set (s := rw_run (rw_init w n) l) in *. clearbody s. cbn [rw_init rw_weights rw_original] in *. split; intros Sh.
  - destruct (reweight_step s x) as (R1 & _ & _ & _ & _ & N1).
    { unfold well_formed in *. congruence. } { congruence. } { exact Wx. } { congruence. }
    split; [exact R1|]. cbv zeta in N1. intros i Hi. rewrite N1 by lia. rewrite A2.
    assert (Hw : 0 < nth i (fa_data w) 0) by (rewrite Forall_forall in Pw; apply Pw; apply nth_In; exact Hi).
    destruct (factor_bounds (nth i (fa_data x) 0) (rw_factor s * nth i (fa_data w) 0)) as [[B1 B2] B3]; [apply Rmult_lt_0_compat; assumption|].
    destruct (C i Hi) as [_ [C1 _]]. split.
    + eapply Rle_trans; [apply Rmult_le_compat_l; [lra|exact B2]|lra].
    + intros E. rewrite (B3 E). ring.
  - destruct (reweight_mismatch s x) as (R1 & R2 & _); [congruence|]. auto.
Qed.

(** * Aliasing *)
Lemma h_write_same h r v : (r < length h)%nat -> nth_error (h_write h r v) r = Some v.
Proof. revert r. induction h as [|x h IH]; intros [|r] L; cbn in *; try lia; [reflexivity|]. apply IH. lia. Qed.
Lemma h_write_other h r r' v : r <> r' -> nth_error (h_write h r v) r' = nth_error h r'.
Proof. revert r r'. induction h as [|x h IH]; intros [|r] [|r'] N; cbn; try reflexivity; try congruence. apply IH. congruence. Qed.
Lemma h_write_length h r v : length (h_write h r v) = length h.
Proof. revert r. induction h as [|x h IH]; intros [|r]; cbn; auto. Qed.

Lemma h_run_other r : forall l s, hr_weights s <> r -> nth_error (hr_heap (h_rw_run s l)) r = nth_error (hr_heap s) r.
Proof.
  induction l as [|e l IH]; intros s N; [reflexivity|]. cbn [h_rw_run fold_left]. change (fold_left h_rw_step l ?x) with (h_rw_run x l).
  unfold h_rw_step at 1. destruct (nth_error (hr_heap s) (hr_weights s)) as [[| | | |d| | | |]|]; try (apply IH; exact N).
  rewrite IH; [|exact N]. cbn. apply h_write_other. exact N.
Qed.

Lemma h_private v h r factor s l : nth_error h r = Some v -> (forall d, v <> ArrFloat d) ->
  h_rw_init h r factor = Ok s -> nth_error (hr_heap (h_rw_run s l)) r = Some v.
Proof.
  intros E N I. assert (L : (r < length h)%nat) by (apply nth_error_Some; congruence).
  assert (Q : hr_weights s <> r /\ nth_error (hr_heap s) r = Some v).
  { unfold h_rw_init, h_check_float in I. rewrite E in I.
    assert (G : forall w, match nth_error (h ++ [w]) (length h) with Some (ArrFloat d) => Ok (mk_hrw (h ++ [w]) (length h) d factor 1) | _ => Err NotModelled end = Ok s ->
              hr_weights s <> r /\ nth_error (hr_heap s) r = Some v).
    { intros w. rewrite nth_error_app2, Nat.sub_diag by lia. cbn. destruct w; try discriminate. intros Q.
      assert (Q' : s = mk_hrw (h ++ [ArrFloat l0]) (length h) l0 factor 1) by congruence. rewrite Q'. cbn. split; [lia|].
      rewrite nth_error_app1 by exact L. exact E. }
    destruct v; cbn in I; try discriminate; try (exfalso; eapply N; reflexivity); apply (G _ I). }
  destruct Q as [Q1 Q2]. rewrite h_run_other; assumption.
Qed.

Lemma h_shared_run r : forall l s d,
  hr_weights s = r -> nth_error (hr_heap s) r = Some (ArrFloat d) ->
  let s' := h_rw_run s l in
  let v := rw_run (mk_rw (mk_farr [length d] d) (hr_original s) (hr_factor s) (hr_num s)) l in
  length (hr_original s) = length d -> Forall (fun e => match e with Reweight x => well_formed x | _ => True end) l ->
  nth_error (hr_heap s') r = Some (ArrFloat (fa_data (rw_weights v))).
Proof.
  induction l as [|e l IH]; intros s d W E s' v Lo F; [exact E|]. subst s' v.
  inversion F as [|? ? He F' E1]; subst.
  cbn [h_rw_run rw_run fold_left]. change (fold_left h_rw_step l ?x) with (h_rw_run x l). change (fold_left rw_step l ?x) with (rw_run x l).
  set (v1 := rw_step (mk_rw (mk_farr [length d] d) (hr_original s) (hr_factor s) (hr_num s)) e).
  assert (L : (hr_weights s < length (hr_heap s))%nat) by (apply nth_error_Some; congruence).
  assert (V : rw_weights v1 = mk_farr [length d] (fa_data (rw_weights v1)) /\ length (fa_data (rw_weights v1)) = length d /\ rw_original v1 = hr_original s).
  { subst v1. destruct e as [x|n]; cbn [rw_step]; [|repeat split; reflexivity].
    destruct (list_eq_dec Nat.eq_dec (fa_shape x) [length d]) as [Sh|Sh].
    - destruct (reweight_step (mk_rw (mk_farr [length d] d) (hr_original s) (hr_factor s) (hr_num s)) x) as (_ & S1 & O1 & _ & L1 & _); auto.
      { unfold well_formed. cbn. lia. }
      cbv zeta in *. split; [|split; assumption].
      destruct (rw_weights (fst (reweight _ x))) as [sh dd]. cbn in *. congruence.
    - destruct (reweight_mismatch (mk_rw (mk_farr [length d] d) (hr_original s) (hr_factor s) (hr_num s)) x) as (_ & W1 & O1 & _); auto.
      rewrite W1, O1. repeat split; reflexivity. }
  destruct V as (V1 & V2 & V3).
  assert (St : h_rw_step s e = mk_hrw (h_write (hr_heap s) (hr_weights s) (ArrFloat (fa_data (rw_weights v1)))) (hr_weights s) (rw_original v1) (rw_factor v1) (rw_num v1))
    by (unfold h_rw_step; rewrite E; reflexivity).
  rewrite St. rewrite (IH (mk_hrw _ (hr_weights s) (rw_original v1) (rw_factor v1) (rw_num v1)) (fa_data (rw_weights v1))).
  - cbn [hr_original hr_factor hr_num]. rewrite V2, <- V1. destruct v1; reflexivity.
  - reflexivity.
  - cbn. apply h_write_same. exact L.
  - cbn. congruence.
  - exact F'.
Qed.

Lemma h_shared d h r factor l : nth_error h r = Some (ArrFloat d) ->
  Forall (fun e => match e with Reweight x => well_formed x | _ => True end) l ->
  exists s, h_rw_init h r factor = Ok s /\
    nth_error (hr_heap (h_rw_run s l)) r = Some (ArrFloat (fa_data (rw_weights (rw_run (rw_init (mk_farr [length d] d) factor) l)))).
Proof.
  intros E F. unfold h_rw_init, h_check_float. rewrite E. cbn [bind fst snd]. rewrite E. eexists. split; [reflexivity|].
  apply (h_shared_run r l (mk_hrw h r d factor 1) d); auto.
Qed.
