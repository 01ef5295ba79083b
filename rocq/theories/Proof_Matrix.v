(** Lemmas about math/matrix.py. *)
From Verif Require Import NPReal Py IPS Spec_Opt Model_Array Model_Matrix Spec_Matrix.
From Coq Require Import List Lia.
Import ListNotations.
Local Open Scope R_scope.

Section Span.
Context {H : ips}.
Implicit Types (l us : list H) (x v : H).

Lemma wsum_nil_r ws : weighted_sum ws (@nil H) = vzero. Proof. destruct ws; reflexivity. Qed.
Lemma wsum_app ws ws' l l' : length ws = length l ->
  weighted_sum (ws ++ ws') (l ++ l') = (weighted_sum ws l + weighted_sum ws' l')%v.
Proof.
  revert l. induction ws as [|w ws IH]; intros [|x l] L; try discriminate; cbn.
  - rewrite vadd_comm, vadd_0. reflexivity.
  - rewrite IH by (cbn in L; lia). apply vadd_assoc.
Qed.
Lemma wsum_scal a ws l : weighted_sum (map (Rmult a) ws) l = (a * weighted_sum ws l)%v.
Proof. revert l. induction ws as [|w ws IH]; intros [|x l]; cbn; try vring. rewrite IH. vring. Qed.
Lemma wsum_add ws ws' l : length ws = length l -> length ws' = length l ->
  weighted_sum (map (fun p => fst p + snd p) (combine ws ws')) l = (weighted_sum ws l + weighted_sum ws' l)%v.
Proof.
  revert ws' l. induction ws as [|w ws IH]; intros [|w' ws'] [|x l] L L'; try discriminate; cbn; [vring|].
  rewrite IH by (cbn in *; lia). vring.
Qed.

Lemma span_zero l : in_span l vzero.
Proof.
  exists (repeat 0 (length l)). split; [apply repeat_length|].
  induction l as [|x l IH]; cbn; [reflexivity|]. rewrite <- IH. vring.
Qed.
Lemma span_add l x y : in_span l x -> in_span l y -> in_span l (x + y)%v.
Proof.
  intros (ws & L & ->) (ws' & L' & ->). eexists. split; [|symmetry; apply wsum_add; assumption].
  rewrite map_length, combine_length. lia.
Qed.
Lemma span_scal l a x : in_span l x -> in_span l (a * x)%v.
Proof. intros (ws & L & ->). exists (map (Rmult a) ws). split; [rewrite map_length; exact L|]. symmetry. apply wsum_scal. Qed.
Lemma span_sub l x y : in_span l x -> in_span l y -> in_span l (x - y)%v.
Proof. intros A B. unfold vsub. apply span_add; [exact A|]. apply span_scal. exact B. Qed.
Lemma span_app_l l l' x : in_span l x -> in_span (l ++ l') x.
Proof.
  intros (ws & L & ->). destruct (span_zero l') as (w0 & L0 & Z). exists (ws ++ w0). split; [rewrite !app_length; lia|].
  rewrite wsum_app by exact L. rewrite <- Z, vadd_0. reflexivity.
Qed.
Lemma span_last l x : in_span (l ++ [x]) x.
Proof.
  destruct (span_zero l) as (w0 & L0 & Z). exists (w0 ++ [1]). split; [rewrite !app_length; cbn; lia|].
  rewrite wsum_app by exact L0. rewrite <- Z. cbn. vring.
Qed.
Lemma span_incl l l' x : (forall y, In y l -> in_span l' y) -> in_span l x -> in_span l' x.
Proof.
  intros Hl (ws & L & ->). revert ws L. induction l as [|y l IH]; intros [|w ws] L; try discriminate; cbn; [apply span_zero|].
  apply span_add; [apply span_scal, Hl; left; reflexivity|]. apply IH; [intros z Hz; apply Hl; right; exact Hz|cbn in L; lia].
Qed.
Lemma span_in l x : In x l -> in_span l x.
Proof.
  intros Hx. apply in_split in Hx. destruct Hx as (a & b & ->).
  replace (a ++ x :: b) with ((a ++ [x]) ++ b) by (rewrite <- app_assoc; reflexivity). apply span_app_l, span_last.
Qed.

Lemma inner_wsum ws l v : (forall x, In x l -> inner v x = 0) -> inner v (weighted_sum ws l) = 0.
Proof.
  revert l. induction ws as [|w ws IH]; intros [|x l] Hl; cbn; try apply inner_0_r.
  rewrite inner_add_r, inner_scal_r, Hl by (left; reflexivity). rewrite IH by (intros; apply Hl; right; assumption). ring.
Qed.

Lemma indep_snoc l x : independent (l ++ [x]) <-> independent l /\ ~ in_span l x.
Proof.
  split.
  - intros Hi. split.
    + intros ws L Z. assert (E : weighted_sum (ws ++ [0]) (l ++ [x]) = vzero).
      { rewrite wsum_app by exact L. rewrite Z. cbn. vring. }
      specialize (Hi (ws ++ [0]) ltac:(rewrite !app_length; cbn; lia) E). apply Forall_app in Hi. apply Hi.
    + intros (ws & L & E). assert (Z : weighted_sum (ws ++ [-1]) (l ++ [x]) = vzero).
      { rewrite wsum_app by exact L. rewrite <- E. cbn. vring. }
      specialize (Hi (ws ++ [-1]) ltac:(rewrite !app_length; cbn; lia) Z). apply Forall_app in Hi. destruct Hi as [_ Hi].
      inversion Hi as [|? ? E1]. lra.
  - intros [Hi Hn] ws L Z. rewrite app_length in L. cbn in L.
    destruct (@exists_last _ ws) as (ws' & w & ->). { intros ->. cbn in L. lia. }
    rewrite app_length in L. cbn in L. rewrite wsum_app in Z by lia. cbn in Z.
    destruct (Req_dec w 0) as [->|Nw].
    + apply Forall_app. split; [|constructor; auto]. apply Hi; [lia|]. rewrite <- Z. vring.
    + exfalso. apply Hn. replace x with (- / w * weighted_sum ws' l)%v; [apply span_scal; exists ws'; split; [lia|reflexivity]|].
      assert (E : (weighted_sum ws' l = (- w) * x)%v).
      { apply sub_eq0. rewrite <- Z. vring. }
      rewrite E. apply inner_ext. intros z. rewrite !inner_scal_l. field. exact Nw.
Qed.

(** The projection sum of the loop, all previous u being proper vectors. *)
Lemma proj_sum us v : (forall u, In u us -> inner u u <> 0) ->
  fold_left oadd (map (fun u => oproject u v) (map Some us)) (Some vzero)
  = Some (weighted_sum (map (fun u => inner v u / inner u u) us) us).
Proof.
  intros N. assert (G : forall us acc, (forall u, In u us -> inner u u <> 0) ->
    fold_left oadd (map (fun u => oproject u v) (map Some us)) (Some acc)
    = Some (acc + weighted_sum (map (fun u => inner v u / inner u u) us) us)%v).
  { clear us N. induction us as [|u us IH]; intros acc N; cbn; [f_equal; vring|].
    unfold project. destruct (Req_EM_T (inner u u) 0) as [E|_]; [exfalso; apply (N u); [left; reflexivity|exact E]|]. cbn.
    rewrite IH by (intros; apply N; right; assumption). f_equal. vring. }
  rewrite G by exact N. f_equal. vring.
Qed.

Lemma proj_orth us v u : orthogonal us -> (forall u, In u us -> inner u u <> 0) -> In u us ->
  inner (weighted_sum (map (fun u => inner v u / inner u u) us) us) u = inner v u.
Proof.
  induction us as [|a us IH]; intros Ho N Hu; [contradiction|]. cbn. rewrite inner_add_l, inner_scal_l.
  assert (Oa : forall y, In y us -> inner a y = 0).
  { intros y Hy. apply In_nth_error in Hy. destruct Hy as [k Hk]. apply (Ho 0%nat (S k)); [reflexivity|exact Hk|discriminate]. }
  destruct Hu as [<-|Hu].
  - rewrite (inner_sym H (weighted_sum _ _)). rewrite inner_wsum by exact Oa. field. apply N. left; reflexivity.
  - rewrite (Oa u Hu). rewrite IH; [ring| |intros; apply N; right; assumption|exact Hu].
    intros i j x y Hx Hy Hij. apply (Ho (S i) (S j)); [exact Hx|exact Hy|lia].
Qed.

(** Invariant of the loop after the rows [p] as long as no u is zero. *)
Definition gs_inv (p us : list H) : Prop :=
  length us = length p /\ orthogonal us /\ (forall u, In u us -> inner u u <> 0) /\
  (forall k, (k <= length p)%nat -> forall x, in_span (firstn k p) x <-> in_span (firstn k us) x) /\
  (forall k u v, nth_error us k = Some u -> nth_error p k = Some v -> inner u v = inner u u).

Definition gs_next (us : list H) (v : H) : H := (v - weighted_sum (map (fun u => inner v u / inner u u) us) us)%v.

Lemma gs_step us v rest : (forall u, In u us -> inner u u <> 0) ->
  gs_loop (map Some us) (v :: rest) = gs_loop (map Some (us ++ [gs_next us v])) rest.
Proof.
  intros N. cbn [gs_loop]. rewrite map_app. f_equal. f_equal. cbn. f_equal. unfold gs_next.
  destruct us as [|u us]; [cbn; f_equal; vring|]. change (map Some (u :: us)) with (Some u :: map Some us) at 1.
  cbv iota. rewrite proj_sum by exact N. reflexivity.
Qed.

Lemma next_orth us v u : orthogonal us -> (forall u, In u us -> inner u u <> 0) -> In u us -> inner (gs_next us v) u = 0.
Proof. intros O N Hu. unfold gs_next. rewrite inner_sub_l, proj_orth by assumption. ring. Qed.

Lemma next_diff us v : in_span us (v - gs_next us v)%v.
Proof.
  exists (map (fun u => inner v u / inner u u) us). split; [apply map_length|]. unfold gs_next. vring.
Qed.

Lemma gs_inv_step p us v : gs_inv p us -> inner (gs_next us v) (gs_next us v) <> 0 -> gs_inv (p ++ [v]) (us ++ [gs_next us v]).
Proof.
  intros (L & O & N & Sp & Dg) Nn. set (u := gs_next us v) in *.
  assert (Spf : forall x, in_span p x <-> in_span us x).
  { intros x. specialize (Sp (length p) ltac:(lia) x). rewrite firstn_all, <- L, firstn_all in Sp. exact Sp. }
  assert (Dv : in_span us (v - u)%v) by apply next_diff.
  split; [rewrite !app_length, L; reflexivity|]. split; [|split; [|split]].
  - intros i j x y Hx Hy Hij.
    assert (Ou : forall z, In z us -> inner u z = 0) by (intros z Hz; apply next_orth; assumption).
    assert (G : forall k z, nth_error (us ++ [u]) k = Some z -> (k < length us)%nat /\ nth_error us k = Some z \/ k = length us /\ z = u).
    { intros k z Hz. destruct (Nat.lt_ge_cases k (length us)) as [Hk|Hk].
      - left. split; [exact Hk|]. rewrite nth_error_app1 in Hz by exact Hk. exact Hz.
      - right. rewrite nth_error_app2 in Hz by exact Hk. destruct (k - length us)%nat as [|m] eqn:E; cbn in Hz.
        + injection Hz as <-. split; [lia|reflexivity].
        + destruct m; discriminate. }
    destruct (G i x Hx) as [[Hi Ex]|[Ei ->]]; destruct (G j y Hy) as [[Hj Ey]|[Ej ->]].
    + apply (O i j); assumption.
    + rewrite inner_sym. apply Ou. eapply nth_error_In; exact Ex.
    + apply Ou. eapply nth_error_In; exact Ey.
    + lia.
  - intros z Hz. apply in_app_iff in Hz. destruct Hz as [Hz|[<-|[]]]; [apply N; exact Hz|exact Nn].
  - intros k Hk x. rewrite app_length in Hk. cbn in Hk. destruct (Nat.eq_dec k (S (length p))) as [->|Ne].
    + rewrite (firstn_all2 (p ++ [v])) by (rewrite app_length; cbn; lia).
      rewrite (firstn_all2 (us ++ [u])) by (rewrite app_length; cbn; lia).
      assert (Ev : v = ((v - u) + u)%v) by vring. assert (Eu : u = (v - (v - u))%v) by vring.
      split; apply span_incl; intros y Hy; apply in_app_iff in Hy; destruct Hy as [Hy|[<-|[]]].
      * apply span_app_l, Spf, span_in, Hy.
      * rewrite Ev. apply span_add; [apply span_app_l; exact Dv|apply span_last].
      * apply span_app_l, Spf, span_in, Hy.
      * rewrite Eu. apply span_sub; [apply span_last|apply span_app_l, Spf; exact Dv].
    + rewrite !firstn_app. replace (k - length p)%nat with 0%nat by lia. replace (k - length us)%nat with 0%nat by lia.
      cbn. rewrite !app_nil_r. apply Sp. lia.
  - intros k a b Ha Hb. destruct (Nat.lt_ge_cases k (length us)) as [Hk|Hk].
    + rewrite nth_error_app1 in Ha by exact Hk. rewrite nth_error_app1 in Hb by lia. apply (Dg k); assumption.
    + rewrite nth_error_app2 in Ha by exact Hk. rewrite nth_error_app2 in Hb by lia.
      replace (length p) with (length us) in Hb by lia. destruct (k - length us)%nat as [|m]; [|destruct m; discriminate].
      cbn in Ha, Hb. injection Ha as <-. injection Hb as <-.
      destruct Dv as (ws & Lw & Ew). replace v with (u + (v - u))%v by vring. rewrite inner_add_r, Ew.
      rewrite inner_wsum; [ring|]. intros z Hz. apply next_orth; assumption.
Qed.

Lemma next_zero us v : in_span us v -> orthogonal us -> (forall u, In u us -> inner u u <> 0) -> inner (gs_next us v) (gs_next us v) = 0.
Proof.
  intros Hv O N. pose proof (next_diff us v) as D.
  assert (S : in_span us (gs_next us v)).
  { replace (gs_next us v) with (v - (v - gs_next us v))%v by vring. apply span_sub; assumption. }
  destruct S as (ws & L & E). rewrite E at 2. apply inner_wsum. intros u Hu. apply next_orth; assumption.
Qed.

(** The loop keeps what it has already produced. *)
Lemma gs_prefix (us : list (option H)) rows : exists tail, gs_loop us rows = us ++ tail /\ length tail = length rows.
Proof.
  revert us. induction rows as [|v rows IH]; intros us; [exists []; rewrite app_nil_r; split; reflexivity|].
  cbn [gs_loop]. edestruct IH as (t & E & L). rewrite E. eexists. rewrite <- app_assoc. split; [reflexivity|]. cbn. lia.
Qed.

Lemma gs_main p us rows : gs_inv p us -> independent p ->
  (independent (p ++ rows) -> exists us', gs_loop (map Some us) rows = map Some us' /\ gs_inv (p ++ rows) us') /\
  (~ independent (p ++ rows) -> exists k u, nth_error (gs_loop (map Some us) rows) k = Some (Some u) /\ inner u u = 0).
Proof.
  revert p us. induction rows as [|v rows IH]; intros p us Inv Ip.
  - rewrite app_nil_r. cbn. split; [intros _; exists us; split; [reflexivity|exact Inv]|intros C; contradiction].
  - assert (N : forall u, In u us -> inner u u <> 0) by apply Inv. rewrite gs_step by exact N.
    replace (p ++ v :: rows) with ((p ++ [v]) ++ rows) by (rewrite <- app_assoc; reflexivity).
    destruct (Req_dec (inner (gs_next us v) (gs_next us v)) 0) as [Z|Nz].
    + assert (Sv : in_span p v).
      { destruct Inv as (L & O & _ & Sp & _). specialize (Sp (length p) ltac:(lia) v). rewrite firstn_all, <- L, firstn_all in Sp. apply Sp.
        pose proof (next_diff us v) as D. apply inner_def in Z. rewrite Z in D. replace v with (v - vzero)%v by vring. exact D. }
      assert (Dep : ~ independent ((p ++ [v]) ++ rows)).
      { clear -Sv. intros Hi. assert (G : forall r, independent ((p ++ [v]) ++ r) -> independent (p ++ [v])).
        { induction r as [|r x IHr] using rev_ind; intros Hr; [rewrite app_nil_r in Hr; exact Hr|].
          rewrite app_assoc in Hr. apply indep_snoc in Hr. apply IHr, Hr. }
        apply G in Hi. apply indep_snoc in Hi. apply Hi. exact Sv. }
      split; [intros C; contradiction|]. intros _. exists (length us), (gs_next us v). split; [|exact Z].
      destruct (gs_prefix (map Some (us ++ [gs_next us v])) rows) as (t & E & _). rewrite E, map_app, <- app_assoc.
      rewrite nth_error_app2 by (rewrite map_length; lia). rewrite map_length, Nat.sub_diag. reflexivity.
    + apply IH; [apply gs_inv_step; assumption|]. apply indep_snoc. split; [exact Ip|]. intros Sv. apply Nz.
      destruct Inv as (L & O & _ & Sp & _). apply next_zero; [|exact O|exact N].
      specialize (Sp (length p) ltac:(lia) v). rewrite firstn_all, <- L, firstn_all in Sp. apply Sp. exact Sv.
Qed.

Lemma gs_inv_nil : gs_inv [] [].
Proof.
  split; [reflexivity|]. split; [intros [|i] j x y Hx; discriminate|]. split; [intros u []|]. split; [intros k _ x; rewrite !firstn_nil; tauto|]. intros [|k] u v E; discriminate.
Qed.
Definition unitv (u : H) : H := (/ norm u * u)%v.
Lemma onorm_some us : (forall u, In u us -> inner u u <> 0) -> map onormalise (map Some us) = map Some (map unitv us).
Proof.
  intros N. induction us as [|u us IH]; [reflexivity|]. cbn [map]. rewrite IH by (intros; apply N; right; assumption). f_equal.
  unfold onormalise. destruct (Req_EM_T (norm u) 0) as [Z|_]; [|reflexivity]. exfalso. apply (N u); [left; reflexivity|].
  apply norm_eq0 in Z. rewrite Z. apply inner_0_l.
Qed.
Lemma pos_norm (u : H) : inner u u <> 0 -> 0 < norm u.
Proof. intros N. pose proof (norm_pos u). destruct (Req_dec (norm u) 0) as [Z|Z]; [|lra]. exfalso. apply N. apply norm_eq0 in Z. rewrite Z. apply inner_0_l. Qed.
Lemma unit_orthonormal us : orthogonal us -> (forall u, In u us -> inner u u <> 0) -> orthonormal (map unitv us).
Proof.
  intros O N. split.
  - intros i j x y Hx Hy Hij. rewrite nth_error_map in Hx, Hy. destruct (nth_error us i) as [a|] eqn:Ea; [|discriminate].
    destruct (nth_error us j) as [b|] eqn:Eb; [|discriminate]. cbn in Hx, Hy. injection Hx as <-. injection Hy as <-.
    unfold unitv. rewrite inner_scal_l, inner_scal_r, (O i j a b Ea Eb Hij). ring.
  - intros x Hx. apply in_map_iff in Hx. destruct Hx as (u & <- & Hu). unfold unitv. rewrite inner_scal_l, inner_scal_r.
    change (inner u u) with (nsq u). rewrite <- norm_sq. field. pose proof (pos_norm u (N u Hu)). lra.
Qed.
Lemma unit_span us x : (forall u, In u us -> inner u u <> 0) -> in_span us x <-> in_span (map unitv us) x.
Proof.
  intros N. split; apply span_incl; intros y Hy.
  - replace y with (norm y * unitv y)%v; [apply span_scal, span_in, in_map, Hy|]. unfold unitv. apply inner_ext. intros z.
    rewrite !inner_scal_l. field. pose proof (pos_norm y (N y Hy)). lra.
  - apply in_map_iff in Hy. destruct Hy as (u & <- & Hu). apply span_scal, span_in, Hu.
Qed.

Lemma indep_nil : independent (@nil H).
Proof. intros [|w ws] L _; [constructor|discriminate]. Qed.
End Span.

(** * Power method *)
Section Power.
Context {H : ips}.
Variable op : H -> H.

Lemma norm_pos_neq (x : H) : norm x <> 0 -> 0 < norm x.
Proof. intros N. pose proof (norm_pos x). lra. Qed.

Lemma unit_norm (x : H) : norm x <> 0 -> norm (/ norm x * x)%v = 1.
Proof.
  intros N. apply norm_pos_neq in N. rewrite norm_scal, Rabs_right; [field; lra|].
  apply Rle_ge, Rlt_le, Rinv_0_lt_compat, N.
Qed.

Lemma pm_le L n x nrm tol r : bounded_by L op -> norm x = 1 -> pm_loop op n (Some x) nrm tol = Some r -> r <= L.
Proof.
  intros B. revert x nrm. induction n as [|n IH]; intros x nrm U; [discriminate|]. cbn [pm_loop].
  assert (Bx : norm (op x) <= L) by (pose proof (B x) as Q; rewrite U, Rmult_1_r in Q; exact Q).
  destruct (Rlt_dec _ tol); [intros E; injection E as <-; exact Bx|].
  destruct n as [|n]; [intros E; injection E as <-; exact Bx|].
  unfold ounit. destruct (Req_EM_T (norm (op x)) 0) as [Z|N]; [discriminate|].
  apply IH, unit_norm, N.
Qed.

Hypothesis hom : forall a x, op (a * x)%v = (a * op x)%v.
Hypothesis sa : self_adjoint op.

Lemma norm_step x : norm x = 1 -> norm (op x) <> 0 -> norm (op x) <= norm (op (/ norm (op x) * op x)%v).
Proof.
  intros U N. pose proof (norm_pos_neq _ N) as P. rewrite hom, norm_scal, Rabs_right by (apply Rle_ge, Rlt_le, Rinv_0_lt_compat, P).
  pose proof (cauchy_schwarz_norm x (op (op x))) as C. rewrite U, Rmult_1_l, <- (sa x (op x)) in C.
  change (inner (op x) (op x)) with (nsq (op x)) in C. rewrite <- norm_sq in C.
  apply Rmult_le_reg_l with (norm (op x)); [exact P|]. rewrite <- Rmult_assoc, Rinv_r, Rmult_1_l by exact N. exact C.
Qed.

Lemma pm_mono n x nrm tol r r' : tol <= 0 -> norm x = 1 ->
  pm_loop op (S n) (Some x) nrm tol = Some r -> pm_loop op (S (S n)) (Some x) nrm tol = Some r' -> r <= r'.
Proof.
  intros HT. revert x nrm. induction n as [|n IH]; intros x nrm U E E'.
  - cbn [pm_loop] in E, E'. destruct (Rlt_dec _ tol) as [F|_]; [pose proof (Rabs_pos (norm (op x) - nrm)); lra|].
    unfold ounit in E'. destruct (Req_EM_T (norm (op x)) 0) as [Z|N]; [discriminate|]. injection E as <-.
    destruct (Rlt_dec _ tol) as [F|_] in E'; injection E' as <-; apply norm_step; assumption.
  - remember (S n) as m. cbn [pm_loop] in E, E'. destruct (Rlt_dec _ tol) as [F|_]; [pose proof (Rabs_pos (norm (op x) - nrm)); lra|].
    subst m. unfold ounit in E, E'. destruct (Req_EM_T (norm (op x)) 0) as [Z|N]; [discriminate|].
    apply (IH _ _ (unit_norm _ N) E E').
Qed.

(** With top eigenvector v, the iterate never vanishes and n steps give at least
    L (|<x,v>| / |v|)^(1/n). *)
Lemma pm_lower L v n x nrm tol : 0 < L -> tol <= 0 -> op v = (L * v)%v -> norm x = 1 -> inner x v <> 0 ->
  exists r, pm_loop op (S n) (Some x) nrm tol = Some r /\ norm (op x) <= r /\ 0 < norm (op x) /\
    L ^ S n * Rabs (inner x v) <= r ^ S n * norm v.
Proof.
  intros HL HT Ev. revert x nrm. induction n as [|n IH]; intros x nrm U Nv.
  - cbn [pm_loop]. assert (E1 : inner (op x) v = L * inner x v) by (rewrite sa, Ev, inner_scal_r; reflexivity).
    assert (C : Rabs (inner (op x) v) <= norm (op x) * norm v).
    { unfold Rabs. destruct (Rcase_abs _); [|apply cauchy_schwarz_norm].
      pose proof (cauchy_schwarz_norm (-1 * op x)%v v) as C. rewrite inner_scal_l, norm_scal in C.
      rewrite Rabs_left in C by lra. lra. }
    rewrite E1, Rabs_mult, (Rabs_right L) in C by lra.
    assert (P : 0 < norm (op x)).
    { apply norm_pos_neq. intros Z. rewrite Z, Rmult_0_l in C. pose proof (Rabs_pos_lt _ Nv). nra. }
    destruct (Rlt_dec _ tol) as [F|_]; [pose proof (Rabs_pos (norm (op x) - nrm)); lra|].
    exists (norm (op x)). split; [reflexivity|]. split; [lra|]. split; [exact P|]. cbn. lra.
  - assert (E1 : inner (op x) v = L * inner x v) by (rewrite sa, Ev, inner_scal_r; reflexivity).
    assert (N : norm (op x) <> 0).
    { intros Z. apply norm_eq0 in Z. rewrite Z, inner_0_l in E1. symmetry in E1. apply Rmult_integral in E1. destruct E1; [lra|contradiction]. }
    pose proof (norm_pos_neq _ N) as P. set (y := (/ norm (op x) * op x)%v).
    assert (Uy : norm y = 1) by (apply unit_norm, N).
    assert (Ey : inner y v = / norm (op x) * (L * inner x v)) by (unfold y; rewrite inner_scal_l, E1; reflexivity).
    assert (Ny : inner y v <> 0).
    { rewrite Ey. apply Rmult_integral_contrapositive_currified; [apply Rinv_neq_0_compat, N|].
      apply Rmult_integral_contrapositive_currified; [lra|exact Nv]. }
    destruct (IH y (norm (op x)) Uy Ny) as (r & Er & Hr & Py & Hl).
    cbn [pm_loop]. destruct (Rlt_dec _ tol) as [F|_]; [pose proof (Rabs_pos (norm (op x) - nrm)); lra|].
    unfold ounit. destruct (Req_EM_T (norm (op x)) 0) as [Z|_]; [contradiction|]. fold y.
    change (exists r, pm_loop op (S n) (Some y) (norm (op x)) tol = Some r /\ norm (op x) <= r /\ 0 < norm (op x) /\
      L ^ S (S n) * Rabs (inner x v) <= r ^ S (S n) * norm v).
    exists r. split; [exact Er|]. pose proof (norm_step x U N) as M. fold y in M.
    split; [lra|]. split; [exact P|].
    rewrite Ey, Rabs_mult, Rabs_mult, (Rabs_right L), (Rabs_right (/ _)) in Hl
      by (first [lra | apply Rle_ge, Rlt_le, Rinv_0_lt_compat, P]).
    assert (Hl2 : L ^ S (S n) * Rabs (inner x v) <= norm (op x) * (r ^ S n * norm v)).
    { apply Rmult_le_compat_l with (r := norm (op x)) in Hl; [|lra].
      replace (norm (op x) * (L ^ S n * (/ norm (op x) * (L * Rabs (inner x v))))) with (L ^ S (S n) * Rabs (inner x v)) in Hl
        by (cbn; field; exact N). exact Hl. }
    eapply Rle_trans; [exact Hl2|].
    change (r ^ S (S n)) with (r * r ^ S n).
    assert (0 <= r ^ S n * norm v) by (apply Rmult_le_pos; [apply pow_le; lra|apply norm_pos]).
    nra.
Qed.
End Power.

(** c^(1/n) tends to 1: a lower bound of this form forces convergence. *)
Lemma root_limit L c eps : 0 < L -> 0 < c -> 0 < eps ->
  exists N, forall n r, (N <= n)%nat -> 0 <= r -> L ^ S n * c <= r ^ S n -> L - eps <= r.
Proof.
  intros HL Hc He. destruct (Rle_dec L eps) as [Q|Q]; [exists 0%nat; intros; lra|]. assert (eps < L) by lra. clear Q.
  set (q := (L - eps) / L).
  assert (Hq : 0 <= q < 1).
  { unfold q. split; [apply Rmult_le_pos; [lra|apply Rlt_le, Rinv_0_lt_compat, HL]|].
    apply Rmult_lt_reg_r with L; [exact HL|]. unfold Rdiv. rewrite Rmult_assoc, Rinv_l by lra. lra. }
  destruct (pow_lt_1_zero q ltac:(rewrite Rabs_right; lra) c Hc) as (N & HN).
  exists N. intros n r Hn Hr Hle. apply Rnot_lt_le. intros Hlt.
  assert (B : r ^ S n <= (L - eps) ^ S n) by (apply pow_incr; lra).
  specialize (HN (S n) ltac:(lia)). rewrite Rabs_right in HN by (apply Rle_ge, pow_le; lra).
  assert (E : (L - eps) ^ S n = L ^ S n * q ^ S n).
  { rewrite <- Rpow_mult_distr. f_equal. unfold q. field. lra. }
  assert (0 < L ^ S n) by (apply pow_lt, HL). rewrite E in B. nra.
Qed.

(** * Rotation *)
Lemma around_IZR k z : around k (IZR z) = IZR z.
Proof.
  unfold around. replace (IZR z * 10 ^ k) with (IZR (z * 10 ^ Z.of_nat k)).
  - rewrite rint_IZR, mult_IZR, <- (pow_IZR 10 k). field. pose proof (pow10_pos k). lra.
  - rewrite mult_IZR, <- (pow_IZR 10 k). reflexivity.
Qed.

Lemma trunc_abs x : Rabs (IZR (trunc x)) <= Rabs x.
Proof.
  destruct (Rle_dec 0 x) as [P|P].
  - destruct (trunc_nonneg x P) as [B Q]. apply IZR_le in Q. rewrite !Rabs_right by lra. lra.
  - destruct (trunc_neg x ltac:(lra)) as [B Q]. apply IZR_le in Q. rewrite Rabs_left1, Rabs_left by lra. lra.
Qed.

Lemma trunc_small x : Rabs x < 1 -> trunc x = 0%Z.
Proof.
  intros B. pose proof (trunc_abs x). assert (C : Rabs (IZR (trunc x)) < 1) by lra.
  apply Rabs_def2 in C. destruct C as [C1 C2]. apply lt_IZR in C1. apply (lt_IZR (-1)) in C2. lia.
Qed.

Lemma wrap_id n k : (k < n)%nat -> wrap_index n (Z.of_nat k) = Some k.
Proof.
  intros Hk. unfold wrap_index. destruct (Z.leb_spec (Z.of_nat n) (Z.of_nat k)); [lia|].
  destruct (Z.ltb_spec (Z.of_nat k) 0); [lia|]. destruct (Z.leb_spec 0 (Z.of_nat k)); [|lia].
  destruct (Z.ltb_spec (Z.of_nat k) (Z.of_nat n)); [|lia]. cbn. rewrite Nat2Z.id. reflexivity.
Qed.
Lemma wrap_range n k : (- Z.of_nat n <= k < 2 * Z.of_nat n)%Z -> exists i, wrap_index n k = Some i /\ (i < n)%nat.
Proof.
  intros Hk. unfold wrap_index. destruct (Z.leb_spec (Z.of_nat n) k) as [A|A].
  - destruct (Z.ltb_spec (k - Z.of_nat n) 0); [lia|]. destruct (Z.leb_spec 0 (k - Z.of_nat n)); [|lia].
    destruct (Z.ltb_spec (k - Z.of_nat n) (Z.of_nat n)); [|lia]. cbn. eexists. split; [reflexivity|]. lia.
  - destruct (Z.ltb_spec k 0) as [B|B].
    + destruct (Z.leb_spec 0 (k + Z.of_nat n)); [|lia]. destruct (Z.ltb_spec (k + Z.of_nat n) (Z.of_nat n)); [|lia].
      cbn. eexists. split; [reflexivity|]. lia.
    + destruct (Z.leb_spec 0 k); [|lia]. destruct (Z.ltb_spec k (Z.of_nat n)); [|lia]. cbn. eexists. split; [reflexivity|]. lia.
Qed.

Lemma half_bounds n : (1 <= n)%nat -> let s := Z.of_nat ((n - 1) / 2) in (2 * s <= Z.of_nat n - 1 <= 2 * s + 1)%Z.
Proof. intros Hn s. unfold s. rewrite Nat2Z.inj_div. pose proof (Z.div_mod (Z.of_nat (n - 1)) 2). pose proof (Z.mod_pos_bound (Z.of_nat (n - 1)) 2). lia. Qed.

Lemma round_err x : - / 10 ^ 10 <= around 10 x - x <= / 10 ^ 10.
Proof.
  pose proof (around_err 10 x) as E. assert (0 < / 10 ^ 10) by (apply Rinv_0_lt_compat, pow10_pos).
  set (d := / 10 ^ 10) in *. clearbody d. unfold Rabs in E. destruct (Rcase_abs _); lra.
Qed.
Lemma d10 : 0 < / 10 ^ 10 < / 1000.
Proof. split; [apply Rinv_0_lt_compat, pow10_pos|]. apply Rinv_lt_contravar; [apply Rmult_lt_0_compat; [lra|apply pow10_pos]|]. cbn. lra. Qed.

Lemma cos_sin_bound t : Rabs (around 10 (cos t)) + Rabs (around 10 (sin t)) <= 3 / 2 /\
  Rabs (around 10 (cos t)) + Rabs (around 10 (- sin t)) <= 3 / 2.
Proof.
  pose proof (round_err (cos t)) as A. pose proof (round_err (sin t)) as B. pose proof (round_err (- sin t)) as C.
  pose proof d10 as D. set (d := / 10 ^ 10) in *. clearbody d.
  pose proof (sin2_cos2 t) as E. unfold Rsqr in E. set (c := cos t) in *. set (s := sin t) in *.
  assert (Q : Rabs c + Rabs s <= 1415 / 1000).
  { assert (F : Rabs c * Rabs c + Rabs s * Rabs s = 1).
    { rewrite <- !Rabs_mult. rewrite !Rabs_right by nra. lra. }
    pose proof (Rabs_pos c). pose proof (Rabs_pos s). set (p := Rabs c) in *. set (q := Rabs s) in *. clearbody p q.
    clear - F H H0. pose proof (Rle_0_sqr (p - q)) as S. unfold Rsqr in S. apply Rnot_lt_le. intros G.
    assert ((1415 / 1000) * (1415 / 1000) < (p + q) * (p + q)) by nra. nra. }
  assert (Ra : Rabs (around 10 c) <= Rabs c + d) by (unfold Rabs in *; repeat destruct (Rcase_abs _); lra).
  assert (Rb : Rabs (around 10 s) <= Rabs s + d) by (unfold Rabs in *; repeat destruct (Rcase_abs _); lra).
  assert (Rc : Rabs (around 10 (- s)) <= Rabs s + d) by (unfold Rabs in *; repeat destruct (Rcase_abs _); lra).
  split; lra.
Qed.

Lemma coord_ok n a b p q : (1 <= n)%nat -> Rabs p + Rabs q <= 3 / 2 ->
  let s := Z.of_nat ((n - 1) / 2) in
  (- s <= a <= Z.of_nat n - 1 - s)%Z -> (- s <= b <= Z.of_nat n - 1 - s)%Z ->
  exists k, wrap_index n (trunc (IZR a * p + IZR b * q) + s) = Some k /\ (k < n)%nat.
Proof.
  intros Hn Hpq s Ha Hb. pose proof (half_bounds n Hn) as Hs. cbv zeta in Hs. fold s in Hs.
  set (M := (Z.of_nat n - 1 - s)%Z) in *.
  assert (Am : Rabs (IZR a) <= IZR M) by (rewrite <- abs_IZR; apply IZR_le; lia).
  assert (Bm : Rabs (IZR b) <= IZR M) by (rewrite <- abs_IZR; apply IZR_le; lia).
  assert (T : Rabs (IZR (trunc (IZR a * p + IZR b * q))) <= IZR M * (3 / 2)).
  { eapply Rle_trans; [apply trunc_abs|]. eapply Rle_trans; [apply Rabs_triang|]. rewrite !Rabs_mult.
    pose proof (Rabs_pos p). pose proof (Rabs_pos q). pose proof (Rabs_pos (IZR a)).
    assert (Rabs (IZR a) * Rabs p <= IZR M * Rabs p) by (apply Rmult_le_compat_r; assumption).
    assert (Rabs (IZR b) * Rabs q <= IZR M * Rabs q) by (apply Rmult_le_compat_r; assumption).
    nra. }
  rewrite <- abs_IZR in T. apply Rmult_le_compat_l with (r := 2) in T; [|lra].
  replace (2 * (IZR M * (3 / 2))) with (IZR (3 * M)) in T by (rewrite mult_IZR; lra).
  rewrite <- mult_IZR in T. apply le_IZR in T. apply wrap_range.
  assert (0 <= M)%Z by lia. destruct (Z.eq_dec (Z.of_nat n) 1); lia.
Qed.

Lemma source_ok n t i j : (i < n)%nat -> (j < n)%nat -> exists k l, rot_source n t i j = Some (k, l) /\ (k < n)%nat /\ (l < n)%nat.
Proof.
  intros Hi Hj. unfold rot_source, rot_matrix. destruct (cos_sin_bound t) as [B1 B2].
  pose proof (half_bounds n ltac:(lia)) as Hs. cbv zeta in Hs.
  destruct (coord_ok n (Z.of_nat i - Z.of_nat ((n - 1) / 2)) (Z.of_nat j - Z.of_nat ((n - 1) / 2)) (around 10 (cos t)) (around 10 (sin t)) ltac:(lia) B1) as (k & Ek & Hk); [lia|lia|].
  destruct (coord_ok n (Z.of_nat i - Z.of_nat ((n - 1) / 2)) (Z.of_nat j - Z.of_nat ((n - 1) / 2)) (around 10 (- sin t)) (around 10 (cos t)) ltac:(lia)) as (l & El & Hl); [rewrite Rplus_comm; exact B2|lia|lia|].
  rewrite Ek, El. exists k, l. repeat split; assumption.
Qed.

Lemma in_pairs n p : In p (pairs n) <-> (fst p < n /\ snd p < n)%nat.
Proof.
  unfold pairs. rewrite in_flat_map. split.
  - intros (i & Hi & Hp). apply in_map_iff in Hp. destruct Hp as (j & <- & Hj). apply in_seq in Hi, Hj. cbn. lia.
  - destruct p as [i j]. cbn. intros [Hi Hj]. exists i. split; [apply in_seq; lia|]. apply in_map_iff. exists j. split; [reflexivity|apply in_seq; lia].
Qed.

Lemma rotate_ok {A} (m : nda A) n t : shape m = [n; n] -> (1 <= n)%nat ->
  exists r, rotate_matrix m t = Ok r /\ shape r = [n; n] /\
    forall i j, (i < n)%nat -> (j < n)%nat -> exists k l, rot_source n t i j = Some (k, l) /\ (k < n)%nat /\ (l < n)%nat /\ at_ r [i; j] = at_ m [k; l].
Proof.
  intros Sh Hn. unfold rotate_matrix. rewrite Sh, Nat.eqb_refl. cbn [negb].
  destruct (Nat.eqb_spec n 0); [lia|]. 
  replace (forallb _ (pairs n)) with true.
  - eexists. split; [reflexivity|]. split; [reflexivity|]. intros i j Hi Hj. destruct (source_ok n t i j Hi Hj) as (k & l & E & Hk & Hl).
    exists k, l. split; [exact E|]. split; [exact Hk|]. split; [exact Hl|]. cbn [at_ nth]. rewrite E. reflexivity.
  - symmetry. apply forallb_forall. intros p Hp. apply in_pairs in Hp. destruct (source_ok n t (fst p) (snd p)) as (k & l & E & _); [lia|lia|].
    rewrite E. reflexivity.
Qed.

(** The source when the rounded sine and cosine are the integers zs, zc. *)
Lemma source_int n t zc zs i j : cos t = IZR zc -> sin t = IZR zs ->
  let s := Z.of_nat ((n - 1) / 2) in
  rot_source n t i j = match wrap_index n ((Z.of_nat i - s) * zc + (Z.of_nat j - s) * zs + s)%Z,
                             wrap_index n ((Z.of_nat j - s) * zc - (Z.of_nat i - s) * zs + s)%Z with
                       | Some k, Some l => Some (k, l) | _, _ => None end.
Proof.
  intros Ec Es s. unfold rot_source, rot_matrix. rewrite Ec, Es, <- opp_IZR, !around_IZR. fold s.
  rewrite <- !mult_IZR, <- !plus_IZR, !trunc_IZR.
  replace ((Z.of_nat i - s) * - zs + (Z.of_nat j - s) * zc)%Z with ((Z.of_nat j - s) * zc - (Z.of_nat i - s) * zs)%Z by ring.
  reflexivity.
Qed.
