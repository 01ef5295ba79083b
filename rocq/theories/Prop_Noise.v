(** Property theorems C93-C95: transpose_test, add_noise, gaussian_kernel. *)
From Coq Require Import String.
From Verif Require Import NPReal Py Model_Array Proof_Array Model_Noise Spec_Noise Proof_Noise.
From Coq Require Import Lia.
Import List ListNotations.
Local Open Scope string_scope.
Local Open Scope R_scope.

(** * C93 *)

(** The generator returns arrays of the requested shapes with entries in [0, 1[. *)
Definition draws (random : nat -> list nat -> nda R) : Prop :=
  forall k s, shape (random k s) = s /\ unit_interval (random k s).

(** Operators that are the transpose of each other (with the arguments given) always print 0. *)
Theorem C93_transposes_print_zero :
  forall Args random (op op_t : nda R -> option Args -> nda R) s t xa ya,
  let ya' := match ya with None => xa | Some a => Some a end in
  draws random -> maps_shapes s t (fun x => op x xa) -> maps_shapes t s (fun y => op_t y ya') ->
  transposes s t (fun x => op x xa) (fun y => op_t y ya') ->
  transpose_test random (Callable op) (Callable op_t) s xa (Some t) ya = Ok 0.
Proof.
  intros Args random op op_t s t xa ya ya' D S1 S2 T.
  rewrite (transpose_test_value random op op_t s t xa ya (proj1 (D _ _)) (proj1 (D _ _)) (S1 _ (proj1 (D _ _))) (S2 _ (proj1 (D _ _)))).
  fold ya'. rewrite <- (T _ _ (proj1 (D 0%nat s)) (proj1 (D 1%nat t))). rewrite Rminus_diag_eq, Rabs_R0 by reflexivity. reflexivity.
Qed.
Print Assumptions C93_transposes_print_zero.

(** Conversely two linear operators that print 0 for every possible draw are transposes: whenever they
    are not, some draw shows it. *)
Theorem C93_detects_linear_non_transposes :
  forall Args (op op_t : nda R -> option Args -> nda R) s t xa ya,
  let ya' := match ya with None => xa | Some a => Some a end in
  maps_shapes s t (fun x => op x xa) -> maps_shapes t s (fun y => op_t y ya') ->
  linear_map s t (fun x => op x xa) -> linear_map t s (fun y => op_t y ya') ->
  (forall random, draws random -> transpose_test random (Callable op) (Callable op_t) s xa (Some t) ya = Ok 0) ->
  transposes s t (fun x => op x xa) (fun y => op_t y ya').
Proof.
  intros Args op op_t s t xa ya ya' S1 S2 L1 L2 H. apply unit_cube_transposes; [exact L1|exact L2|].
  intros p q Sp Sq Up Uq.
  set (random := fun (k : nat) sh => if Nat.eqb k 0 then (if list_nat_eqb sh s then p else mk_nda sh (fun _ => 0)) else (if list_nat_eqb sh t then q else mk_nda sh (fun _ => 0))).
  assert (D : draws random).
  { intros k sh. unfold random, list_nat_eqb. destruct (Nat.eqb k 0).
    - destruct (list_eq_dec Nat.eq_dec sh s) as [->|N]; [split; assumption|]. split; [reflexivity|intros idx _; cbn; lra].
    - destruct (list_eq_dec Nat.eq_dec sh t) as [->|N]; [split; assumption|]. split; [reflexivity|intros idx _; cbn; lra]. }
  specialize (H random D).
  rewrite (transpose_test_value random op op_t s t xa ya (proj1 (D _ _)) (proj1 (D _ _)) (S1 _ (proj1 (D _ _))) (S2 _ (proj1 (D _ _)))) in H.
  fold ya' in H. injection H as H.
  assert (R0 : random 0%nat s = p) by (unfold random; cbn; rewrite list_nat_eqb_refl; reflexivity).
  assert (R1 : random 1%nat t = q) by (unfold random; cbn; rewrite list_nat_eqb_refl; reflexivity).
  rewrite R0, R1 in H. apply Rminus_diag_uniq. destruct (Req_dec (dot_arr t (op p xa) q - dot_arr s p (op_t q ya')) 0) as [E|N]; [exact E|].
  apply Rabs_no_R0 in N. contradiction.
Qed.
Print Assumptions C93_detects_linear_non_transposes.

(** The defaults: y_shape and y_args are taken from x. *)
Theorem C93_defaults :
  forall Args random (op op_t : operand Args) s xa,
  transpose_test random op op_t s xa None None = transpose_test random op op_t s xa (Some s) xa.
Proof. intros Args random op op_t s [a|]; reflexivity. Qed.
Print Assumptions C93_defaults.

Theorem C93_not_callable :
  forall Args random (op : operand Args) s xa t ya,
  transpose_test random NotCallable op s xa t ya = Err TypeError /\ transpose_test random op NotCallable s xa t ya = Err TypeError.
Proof. intros Args random [op|] s xa t ya; split; reflexivity. Qed.
Print Assumptions C93_not_callable.

(** A single run that prints 0 is no proof: these two operators are not transposes of each other, and
    a possible draw prints 0. *)
Theorem C93_one_run_refuted :
  exists random (op : nda R -> option unit -> nda R) s, draws random /\
    ~ transposes s s (fun x => op x None) (fun y => op y None) /\
    transpose_test random (Callable op) (Callable op) s None None None = Ok 0.
Proof.
  set (op := fun (x : nda R) (_ : option unit) => mk_nda (shape x) (fun idx => if Nat.eqb (hd 0%nat idx) 0 then at_ x [1%nat] else 0)).
  set (random := fun (k : nat) sh => mk_nda (A := R) sh (fun idx => / 2)).
  exists random, op, [2%nat].
  assert (D : draws random) by (intros k sh; split; [reflexivity|intros idx _; cbn; lra]).
  split; [exact D|]. split.
  - intros T. specialize (T (mk_nda [2%nat] (fun idx => if Nat.eqb (hd 0%nat idx) 0 then 0 else 1)) (mk_nda [2%nat] (fun idx => if Nat.eqb (hd 0%nat idx) 0 then 1 else 0)) eq_refl eq_refl).
    unfold dot_arr in T. cbn in T. lra.
  - rewrite C93_defaults. rewrite (transpose_test_value random op op [2%nat] [2%nat] None None eq_refl eq_refl eq_refl eq_refl).
    f_equal. unfold dot_arr. cbn. rewrite Rminus_diag_eq, Rabs_R0 by ring. reflexivity.
Qed.
Print Assumptions C93_one_run_refuted.

Example C93_example :
  transpose_test (fun _ s => mk_nda s (fun idx => / (1 + INR (hd 0%nat idx) + 1))) (Callable (fun x (_ : option unit) => mk_nda (shape x) (fun idx => 2 * at_ x idx)))
    (Callable (fun x _ => mk_nda (shape x) (fun idx => 3 * at_ x idx))) [2%nat] None None None = Ok (13 / 36).
Proof.
  unfold transpose_test. cbn. f_equal. unfold np_sum, ravelled. cbn. 
  replace (_ - _) with (- (13 / 36)) by field. rewrite Rabs_Ropp, Rabs_right; lra.
Qed.

(** * C94 *)

(** Gaussian noise with one standard deviation: shape kept, the input plus sigma times the draws. *)
Theorem C94_gauss_number :
  forall normal poisson x s, exists y, add_noise normal poisson x (SNum s) "gauss" = Ok y /\ shape y = shape x /\
    forall idx, in_range (shape x) idx -> at_ y idx - at_ x idx = s * at_ (normal (shape x)) idx.
Proof.
  intros normal poisson x s. eexists. split; [reflexivity|]. split; [reflexivity|]. intros idx _. cbn. ring.
Qed.
Print Assumptions C94_gauss_number.

(** One standard deviation per slice along the first axis. *)
Theorem C94_gauss_sequence :
  forall normal poisson x l, l <> [] -> hd_error (shape x) = Some (List.length l) ->
  exists y, add_noise normal poisson x (SSeq l) "gauss" = Ok y /\ shape y = shape x /\
    forall i idx, in_range (shape x) (i :: idx) -> at_ y (i :: idx) - at_ x (i :: idx) = nth i l 0 * at_ (normal (shape x)) (i :: idx).
Proof.
  intros normal poisson x l Nl E. unfold add_noise. cbn [String.eqb]. cbn.
  destruct (shape x) as [|d s] eqn:Sx; [discriminate|]. cbn in E. injection E as ->. rewrite Nat.eqb_refl. cbn.
  destruct l as [|a l]; [contradiction|]. eexists. split; [reflexivity|]. split; [reflexivity|]. intros i idx _. cbn. ring.
Qed.
Print Assumptions C94_gauss_sequence.

(** Every other number of standard deviations is refused, as is every other noise type. *)
Theorem C94_validation :
  forall normal poisson x,
  (forall l nt d s, shape x = d :: s -> List.length l <> d -> In nt ["gauss"; "poisson"] -> add_noise normal poisson x (SSeq l) nt = Err ValueError) /\
  (forall s nt, nt <> "gauss" -> nt <> "poisson" -> add_noise normal poisson x s nt = Err ValueError) /\
  (forall nt, In nt ["gauss"; "poisson"] -> add_noise normal poisson x SOther nt = Err TypeError).
Proof.
  intros normal poisson x. split; [|split].
  - intros l nt d s Sx N Hn. unfold add_noise. assert (E : negb ((nt =? "gauss") || (nt =? "poisson")) = false) by (destruct Hn as [<-|[<-|[]]]; reflexivity).
    rewrite E, Sx. apply Nat.eqb_neq in N. rewrite N. reflexivity.
  - intros s nt N1 N2. unfold add_noise. apply String.eqb_neq in N1, N2. rewrite N1, N2. reflexivity.
  - intros nt Hn. unfold add_noise. destruct Hn as [<-|[<-|[]]]; reflexivity.
Qed.
Print Assumptions C94_validation.

(** Over any family of Gaussian draws whose mean is 0 at every pixel the mean of the noisy images is
    the input, and their mean squared deviation is sigma^2 times that of the draws. *)
Lemma mean_lin {A} (l : list A) f g a b : mean l (fun w => a * f w + b * g w) = a * mean l f + b * mean l g.
Proof.
  unfold mean. unfold Rdiv. rewrite <- !Rmult_assoc, <- Rmult_plus_distr_r. f_equal.
  induction l as [|w l IH]; cbn; [ring|]. rewrite IH. ring.
Qed.
Lemma mean_const {A} (l : list A) c : l <> [] -> mean l (fun _ => c) = c.
Proof.
  intros N. unfold mean. assert (E : fold_right (fun (_ : A) s => c + s) 0 l = c * INR (List.length l)).
  { clear N. induction l as [|w l IH]; [cbn; ring|]. cbn [fold_right List.length]. rewrite S_INR, IH. ring. }
  rewrite E. field. apply not_0_INR. destruct l; [contradiction|discriminate].
Qed.
Lemma mean_ext {A} (l : list A) f g : (forall w, f w = g w) -> mean l f = mean l g.
Proof. intros H. unfold mean. f_equal. induction l as [|w l IH]; cbn; [reflexivity|]. rewrite H, IH. reflexivity. Qed.

Definition noisy (x : nda R) (s : R) (nt : string) (normal : list nat -> nda R) (poisson : nda R -> nda R) (idx : list nat) : R :=
  match add_noise normal poisson x (SNum s) nt with Ok y => at_ y idx | Err _ => 0 end.

Theorem C94_gauss_mean_and_variance :
  forall (family : list (list nat -> nda R)) poisson x s idx, family <> [] ->
  mean family (fun nrm => at_ (nrm (shape x)) idx) = 0 ->
  mean family (fun nrm => noisy x s "gauss" nrm poisson idx) = at_ x idx /\
  mean family (fun nrm => (noisy x s "gauss" nrm poisson idx - at_ x idx) ^ 2) = s ^ 2 * mean family (fun nrm => at_ (nrm (shape x)) idx ^ 2).
Proof.
  intros family poisson x s idx N Z. unfold noisy. cbn. split.
  - rewrite (mean_ext _ _ (fun nrm => 1 * (fun _ => at_ x idx) nrm + s * at_ (nrm (shape x)) idx)) by (intros; ring).
    rewrite mean_lin, (mean_const family) by exact N. rewrite Z. ring.
  - rewrite (mean_ext _ _ (fun nrm => s ^ 2 * (at_ (nrm (shape x)) idx ^ 2) + 0 * 0)) by (intros; ring).
    rewrite (mean_lin family (fun nrm => at_ (nrm (shape x)) idx ^ 2) (fun _ => 0)). cbn. ring.
Qed.
Print Assumptions C94_gauss_mean_and_variance.

(** Poisson noise: the draw has mean |x|, and the noisy image is x plus sigma times the draw. Its mean
    is x + sigma |x|, and no pixel ever drops below the input. *)
Theorem C94_poisson_is_added :
  forall (family : list (nda R -> nda R)) normal x s idx, family <> [] ->
  let lam := mk_nda (shape x) (fun i => Rabs (at_ x i)) in
  mean family (fun p => at_ (p lam) idx) = Rabs (at_ x idx) ->
  mean family (fun p => noisy x s "poisson" normal p idx) = at_ x idx + s * Rabs (at_ x idx) /\
  forall p, 0 <= s -> 0 <= at_ (p lam) idx -> at_ x idx <= noisy x s "poisson" normal p idx.
Proof.
  intros family normal x s idx N lam Z. unfold noisy. cbn. fold lam. split.
  - rewrite (mean_ext _ _ (fun p => 1 * (fun _ => at_ x idx) p + s * at_ (p lam) idx)) by (intros; ring).
    rewrite mean_lin, (mean_const family) by exact N. rewrite Z. ring.
  - intros p Hs Hp. assert (0 <= s * at_ (p lam) idx) by (apply Rmult_le_pos; assumption). lra.
Qed.
Print Assumptions C94_poisson_is_added.

(** sigma is documented for 'gauss' only, but it scales the Poisson noise as well. *)
Theorem C94_sigma_ignored_for_poisson_refuted :
  exists normal poisson x idx, in_range (shape x) idx /\
    noisy x 1 "poisson" normal poisson idx <> noisy x 2 "poisson" normal poisson idx /\
    add_noise normal poisson x (SSeq []) "poisson" = Err ValueError.
Proof.
  exists (fun s => mk_nda s (fun _ => 0)), (fun l => mk_nda (shape l) (fun _ => 3)), (mk_nda [1%nat] (fun _ => 2)), [0%nat].
  split; [cbn; lia|]. split; [|reflexivity]. unfold noisy. cbn. lra.
Qed.
Print Assumptions C94_sigma_ignored_for_poisson_refuted.

(** Noisy data with Poisson statistics would be unbiased; a pixel of value 2 has mean 4. *)
Theorem C94_poisson_unbiased_refuted :
  exists (family : list (nda R -> nda R)) normal x idx, in_range (shape x) idx /\
    mean family (fun p => at_ (p (mk_nda (shape x) (fun i => Rabs (at_ x i)))) idx) = at_ x idx /\
    mean family (fun p => noisy x 1 "poisson" normal p idx) = 2 * at_ x idx /\ at_ x idx = 2.
Proof.
  exists [(fun l => mk_nda (shape l) (fun _ => 1)); (fun l => mk_nda (shape l) (fun _ => 3))], (fun s => mk_nda s (fun _ => 0)), (mk_nda [1%nat] (fun _ => 2)), [0%nat].
  split; [cbn; lia|]. unfold noisy, mean. cbn. split; [field|]. split; [field|reflexivity].
Qed.
Print Assumptions C94_poisson_unbiased_refuted.

Example C94_example : exists y, add_noise (fun s => mk_nda s (fun idx => INR (nth 1 idx 0%nat))) (fun l => l) (mk_nda [2%nat; 2%nat] (fun _ => 5)) (SSeq [1; 2]) "gauss" = Ok y /\
  at_ y [1%nat; 1%nat] = 7 /\ at_ y [0%nat; 1%nat] = 6.
Proof. eexists. split; [reflexivity|]. cbn. split; lra. Qed.

(** * C95 *)

Lemma fold_rmax x l : (In (fold_right Rmax x l) (x :: l)) /\ (forall y, In y (x :: l) -> y <= fold_right Rmax x l).
Proof.
  induction l as [|a l [I1 I2]]; [cbn; split; [left; reflexivity|intros y [->|[]]; lra]|]. cbn [fold_right]. split.
  - apply Rmax_case; [right; left; reflexivity|destruct I1 as [E|I1]; [left; exact E|right; right; exact I1]].
  - pose proof (Rmax_l a (fold_right Rmax x l)). pose proof (Rmax_r a (fold_right Rmax x l)).
    intros y [->|[->|Hy]]; [specialize (I2 y (or_introl eq_refl)); lra|assumption|specialize (I2 y (or_intror Hy)); lra].
Qed.

Lemma ravelled_in a y : In y (ravelled a) <-> exists idx, in_range (shape a) idx /\ at_ a idx = y.
Proof.
  unfold ravelled. rewrite in_map_iff. split.
  - intros (p & <- & Hp). apply in_seq in Hp. exists (unravel (shape a) p). split; [apply unravel_in_range; lia|reflexivity].
  - intros (idx & R & <-). exists (ravel (shape a) idx). rewrite unravel_ravel by exact R. split; [reflexivity|]. apply in_seq. pose proof (ravel_lt _ _ R). lia.
Qed.

Lemma np_max_ok a : (exists idx, in_range (shape a) idx) -> exists m, np_max a = Ok m /\
  (exists idx, in_range (shape a) idx /\ at_ a idx = m) /\ forall idx, in_range (shape a) idx -> at_ a idx <= m.
Proof.
  intros (i0 & R0). assert (I0 : In (at_ a i0) (ravelled a)) by (apply ravelled_in; exists i0; split; [exact R0|reflexivity]).
  unfold np_max. destruct (ravelled a) as [|x l] eqn:E; [destruct I0|]. destruct (fold_rmax x l) as [F1 F2].
  exists (fold_right Rmax x l). split; [reflexivity|]. split.
  - rewrite <- E in F1. apply ravelled_in in F1. exact F1.
  - intros idx R. apply F2. rewrite <- E. apply ravelled_in. exists idx. split; [exact R|reflexivity].
Qed.

(** The Gaussian profile at pixel (i, j), up to normalisation. *)
Definition profile (sigma : R) (h w : nat) (idx : list nat) : R :=
  exp (- / 2 * (((INR (nth 1 idx 0%nat) - (INR w - 1) / 2) / sigma) ^ 2 + ((INR (nth 0 idx 0%nat) - (INR h - 1) / 2) / sigma) ^ 2)).

Lemma raw_profile sigma h w idx : at_ (raw_kernel sigma h w) idx = / (2 * PI * sigma ^ 2) * profile sigma h w idx.
Proof. reflexivity. Qed.

Lemma astropy_ok v52 sigma h w : 0 < sigma -> (0 < h)%nat -> (0 < w)%nat -> exists c k,
  astropy_kernel v52 sigma h w = Ok k /\ 0 < c /\ shape k = [h; w] /\ (forall idx, at_ k idx = c * profile sigma h w idx) /\
  (v52 = true -> over [h; w] (at_ k) = 1).
Proof.
  intros Hs Hh Hw. unfold astropy_kernel. destruct (Rlt_dec 0 sigma) as [_|]; [|contradiction].
  replace (Nat.eqb h 0) with false by (symmetry; apply Nat.eqb_neq; lia). replace (Nat.eqb w 0) with false by (symmetry; apply Nat.eqb_neq; lia). cbn [orb].
  set (a := / (2 * PI * sigma ^ 2)). assert (Pa : 0 < a).
  { apply Rinv_0_lt_compat. pose proof PI_RGT_0. apply Rmult_lt_0_compat; [lra|]. apply pow_lt. exact Hs. }
  assert (S : 0 < np_sum (raw_kernel sigma h w)).
  { rewrite np_sum_over. cbn [shape raw_kernel].
    eapply Rlt_le_trans; [|apply (over_term [h; w] (at_ (raw_kernel sigma h w)) [0%nat; 0%nat]); [|cbn; lia]].
    - rewrite raw_profile. apply Rmult_lt_0_compat; [exact Pa|apply exp_pos].
    - intros idx _. rewrite raw_profile. left. apply Rmult_lt_0_compat; [exact Pa|apply exp_pos]. }
  cbv zeta. destruct v52.
  - exists (a / np_sum (raw_kernel sigma h w)). eexists. split; [reflexivity|]. split; [apply Rdiv_lt_0_compat; assumption|]. split; [reflexivity|]. split.
    + intros idx. cbn [scaled at_]. rewrite raw_profile. fold a. field. lra.
    + intros _. cbn [scaled at_]. rewrite (over_ext _ _ (fun idx => / np_sum (raw_kernel sigma h w) * at_ (raw_kernel sigma h w) idx + 0 * 0)) by (intros; field; lra).
      rewrite (over_lin _ _ 0 _ (fun _ => 0)). rewrite np_sum_over. cbn [shape raw_kernel]. rewrite np_sum_over in S. cbn [shape raw_kernel] in S. field. lra.
  - exists a. eexists. split; [reflexivity|]. split; [exact Pa|]. split; [reflexivity|]. split; [intros idx; apply raw_profile|discriminate].
Qed.

Lemma profile_pos sigma h w idx : 0 < profile sigma h w idx.
Proof. apply exp_pos. Qed.

(** norm='max', whatever the version of astropy: all entries are the Gaussian profile divided by its
    largest value; they lie in ]0, 1] and the value 1 is reached. *)
Theorem C95_max_norm :
  forall v52 h w sigma, 0 < sigma -> (0 < h)%nat -> (0 < w)%nat ->
  exists k P, gaussian_kernel v52 [h; w] sigma "max" = Ok k /\ shape k = [h; w] /\
    (forall idx, in_range [h; w] idx -> at_ k idx = profile sigma h w idx / P) /\
    (forall idx, in_range [h; w] idx -> 0 < at_ k idx <= 1) /\ (exists idx, in_range [h; w] idx /\ at_ k idx = 1).
Proof.
  intros v52 h w sigma Hs Hh Hw. destruct (astropy_ok v52 sigma h w Hs Hh Hw) as (c & k & E & Pc & Sk & Ek & _).
  unfold gaussian_kernel. cbn [String.eqb]. cbn -[over]. rewrite E. cbn [bind].
  destruct (np_max_ok k) as (m & Em & (i0 & R0 & A0) & Bm); [rewrite Sk; exists [0%nat; 0%nat]; cbn; lia|]. rewrite Em. cbn [bind].
  exists (scaled m k), (profile sigma h w i0). split; [reflexivity|]. split; [exact Sk|]. rewrite Sk in *.
  pose proof (profile_pos sigma h w i0) as P0. rewrite Ek in A0. assert (Pm : 0 < m) by (rewrite <- A0; apply Rmult_lt_0_compat; assumption).
  split; [|split].
  - intros idx _. cbn [scaled at_]. rewrite Ek, <- A0. field. lra.
  - intros idx R. cbn [scaled at_]. pose proof (profile_pos sigma h w idx) as P. specialize (Bm idx R). rewrite Ek in *. split.
    + apply Rdiv_lt_0_compat; [apply Rmult_lt_0_compat; assumption|exact Pm].
    + apply (Rmult_le_reg_r m); [exact Pm|]. unfold Rdiv. rewrite Rmult_assoc, Rinv_l by lra. lra.
  - exists i0. split; [exact R0|]. cbn [scaled at_]. rewrite Ek, A0. field. lra.
Qed.
Print Assumptions C95_max_norm.

(** norm='sum': the entries are positive, proportional to the Gaussian profile, and add up to one. *)
Theorem C95_sum_norm :
  forall v52 h w sigma, 0 < sigma -> (0 < h)%nat -> (0 < w)%nat ->
  exists k c, gaussian_kernel v52 [h; w] sigma "sum" = Ok k /\ shape k = [h; w] /\ 0 < c /\
    (forall idx, in_range [h; w] idx -> at_ k idx = c * profile sigma h w idx) /\ over [h; w] (at_ k) = 1.
Proof.
  intros v52 h w sigma Hs Hh Hw. destruct (astropy_ok v52 sigma h w Hs Hh Hw) as (c & k & E & Pc & Sk & Ek & S1).
  unfold gaussian_kernel. cbn [String.eqb]. cbn -[over]. rewrite E. cbn [bind].
  destruct v52; cbn [negb].
  - exists k, c. split; [reflexivity|]. split; [exact Sk|]. split; [exact Pc|]. split; [intros idx _; apply Ek|apply S1; reflexivity].
  - assert (S : 0 < np_sum k).
    { rewrite np_sum_over, Sk. eapply Rlt_le_trans; [|apply (over_term [h; w] (at_ k) [0%nat; 0%nat]); [|cbn; lia]].
      - rewrite Ek. apply Rmult_lt_0_compat; [exact Pc|apply profile_pos].
      - intros idx _. rewrite Ek. left. apply Rmult_lt_0_compat; [exact Pc|apply profile_pos]. }
    exists (scaled (np_sum k) k), (c / np_sum k). split; [reflexivity|]. split; [exact Sk|]. split; [apply Rdiv_lt_0_compat; assumption|]. split.
    + intros idx _. cbn [scaled at_]. rewrite Ek. field. lra.
    + cbn [scaled at_]. rewrite (over_ext _ _ (fun idx => / np_sum k * at_ k idx + 0 * 0)) by (intros; field; lra).
      rewrite (over_lin _ _ 0 _ (fun _ => 0)). rewrite np_sum_over, Sk in *. field. lra.
Qed.
Print Assumptions C95_sum_norm.

(** For odd sizes the 1 of the max norm is the central pixel, and the entries are the Gaussian itself. *)
Theorem C95_odd_sizes :
  forall v52 a b sigma, 0 < sigma -> exists k, gaussian_kernel v52 [2 * a + 1; 2 * b + 1]%nat sigma "max" = Ok k /\
    forall i j, (i < 2 * a + 1)%nat -> (j < 2 * b + 1)%nat ->
    at_ k [i; j] = exp (- ((INR i - INR a) ^ 2 + (INR j - INR b) ^ 2) / (2 * sigma ^ 2)).
Proof.
  intros v52 a b sigma Hs. destruct (C95_max_norm v52 (2 * a + 1) (2 * b + 1) sigma Hs ltac:(lia) ltac:(lia)) as (k & P & E & Sk & Ep & B & (i0 & R0 & One)).
  exists k. split; [exact E|].
  assert (F : forall i j, profile sigma (2 * a + 1) (2 * b + 1) [i; j] = exp (- ((INR i - INR a) ^ 2 + (INR j - INR b) ^ 2) / (2 * sigma ^ 2))).
  { intros i j. unfold profile. cbn [nth]. f_equal. rewrite !plus_INR, !mult_INR. change (INR 2) with 2. change (INR 1) with 1. field. lra. }
  assert (C : profile sigma (2 * a + 1) (2 * b + 1) [a; b] = 1).
  { rewrite F. rewrite <- exp_0. f_equal. field. lra. }
  assert (Rc : in_range [2 * a + 1; 2 * b + 1]%nat [a; b]) by (cbn; lia).
  assert (EP : P = 1).
  { pose proof (profile_pos sigma (2 * a + 1) (2 * b + 1) i0) as P0.
    rewrite (Ep i0 R0) in One. assert (NP : P <> 0). { intros ->. unfold Rdiv in One. rewrite Rinv_0 in One. lra. }
    assert (Pi : profile sigma (2 * a + 1) (2 * b + 1) i0 = P). { apply (Rmult_eq_compat_r P) in One. unfold Rdiv in One. rewrite Rmult_assoc, Rinv_l in One by exact NP. lra. }
    assert (U : P <= 1).
    { rewrite <- Pi. unfold profile. rewrite <- exp_0. match goal with |- exp (- / 2 * ?q) <= _ => assert (0 <= q) by (apply Rplus_le_le_0_compat; apply pow2_ge_0); destruct (Req_dec q 0) as [Z|Z]; [rewrite Z, Rmult_0_r; lra|left; apply exp_increasing; lra] end. }
    assert (L : 1 <= P).
    { destruct (B [a; b] Rc) as [_ Q]. rewrite (Ep _ Rc), C in Q. apply (Rmult_le_compat_r P) in Q; [|lra]. unfold Rdiv in Q. rewrite Rmult_assoc, Rinv_l in Q by exact NP. lra. }
    lra. }
  intros i j Hi Hj. rewrite (Ep [i; j]) by (cbn; lia). rewrite F, EP. field.
Qed.
Print Assumptions C95_odd_sizes.

(** Any other norm is refused - including "none", which the error message offers - and dimensions
    beyond the second are ignored. *)
Theorem C95_validation :
  forall v52 s sigma norm, (norm <> "max" -> norm <> "sum" -> gaussian_kernel v52 s sigma norm = Err ValueError) /\
  (forall h w rest, gaussian_kernel v52 (h :: w :: rest) sigma norm = gaussian_kernel v52 [h; w] sigma norm).
Proof.
  intros v52 s sigma norm. split; [|reflexivity]. intros N1 N2. unfold gaussian_kernel. apply String.eqb_neq in N1, N2. rewrite N1, N2. reflexivity.
Qed.
Print Assumptions C95_validation.

Theorem C95_none_refuted : exists norm, norm = "none" /\ forall v52 s sigma, gaussian_kernel v52 s sigma norm = Err ValueError.
Proof. exists "none". split; [reflexivity|]. reflexivity. Qed.
Print Assumptions C95_none_refuted.

Example C95_example : exists k, gaussian_kernel true [3%nat; 3%nat] 1 "max" = Ok k /\ at_ k [1%nat; 1%nat] = 1 /\ at_ k [0%nat; 1%nat] = exp (- / 2).
Proof.
  destruct (C95_odd_sizes true 1 1 1 ltac:(lra)) as (k & E & H). exists k. split; [exact E|]. rewrite !H by lia. split.
  - rewrite <- exp_0. f_equal. lra.
  - f_equal. change (INR 0) with 0. change (INR 1) with 1. lra.
Qed.
