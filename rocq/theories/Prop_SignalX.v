(** Theorems of C150: infinite and nan entries in positive and thresh. *)
From Verif Require Import NPReal Py IPS Model_Signal Model_Stats Model_GDX Model_SignalX.
From Coq Require Import String List Lia.
Import ListNotations.
Local Open Scope R_scope.

Lemma inf_of_1 : inf_of 1 = PInf.
Proof. unfold inf_of. destruct (Rlt_dec 0 1); [reflexivity|lra]. Qed.
Lemma inf_of_m1 : inf_of (- (1)) = NInf.
Proof. unfold inf_of. destruct (Rlt_dec 0 (- (1))); [lra|]. destruct (Rlt_dec (- (1)) 0); [reflexivity|lra]. Qed.
Lemma inf_of_0 : inf_of 0 = NaN.
Proof. unfold inf_of. destruct (Rlt_dec 0 0); [lra|reflexivity]. Qed.

Lemma nth_combine {A B} (t : list A) (x : list B) i s u : nth_error t i = Some s -> nth_error x i = Some u -> nth_error (combine t x) i = Some (s, u).
Proof. revert x i. induction t as [|b t IH]; intros [|a x] [|i] Hs Hu; try discriminate; cbn in *; [congruence|]. apply IH; assumption. Qed.

(** [C150] positive, entry by entry: finite entries as on finite arrays, whatever the others are; inf and nan are kept. *)
Theorem C150_positive :
  forall x i u, nth_error x i = Some u -> exists r, nth_error (xpositive x) i = Some r /\
  (forall a, u = Fin a -> r = Fin (Rmax 0 a)) /\ (u = PInf -> r = PInf) /\ (u = NaN -> r = NaN).
Proof.
  intros x i u E. exists (xpos_thresh u). split; [apply map_nth_error; exact E|]. repeat split; [intros a ->|intros ->|intros ->].
  - unfold xpos_thresh, xbool, xgt0, gtb. cbn. f_equal. destruct (Rlt_dec 0 a); cbn [b2r]; [rewrite Rmax_right by lra|rewrite Rmax_left by lra]; ring.
  - cbn. apply inf_of_1.
  - reflexivity.
Qed.
Print Assumptions C150_positive.

(** [C150, refuted] All negative coefficients are set to zero: -inf becomes nan. *)
Theorem C150_negative_set_to_zero_refuted : forall x i, nth_error x i = Some NInf -> nth_error (xpositive x) i = Some NaN.
Proof. intros x i E. unfold xpositive. rewrite (map_nth_error _ _ _ E). unfold xpos_thresh. cbn. rewrite Ropp_0. rewrite inf_of_0. reflexivity. Qed.
Print Assumptions C150_negative_set_to_zero_refuted.

(** [C150] Hard thresholding, entry by entry: infinite entries are kept, whatever the threshold short of nan; nan entries stay; an infinite
    threshold kills finite entries, and so does nan, which makes infinite entries nan. *)
Theorem C150_hard :
  forall x t r, List.length t = List.length x -> xthresh x t "hard" = Ok r ->
  forall i u s, nth_error x i = Some u -> nth_error t i = Some s -> exists v, nth_error r i = Some v /\
  (forall a b, u = Fin a -> s = Fin b -> v = Fin (hard1 b a)) /\
  (u = PInf \/ u = NInf -> (s <> NaN -> v = u) /\ (s = NaN -> v = NaN)) /\
  (u = NaN -> v = NaN) /\
  (forall a, u = Fin a -> (s = PInf \/ s = NaN -> v = Fin 0) /\ (s = NInf -> v = u)).
Proof.
  intros x t r L E i u s Hu Hs. injection E as <-. exists (xhard s u). split.
  { apply (@map_nth_error _ _ (fun p => xhard (fst p) (snd p)) i (combine t x) (s, u)). apply nth_combine; assumption. }
  repeat split.
  - intros a b -> ->. reflexivity.
  - intros Q. destruct H as [-> | ->]; destruct s; try congruence; cbn; try apply inf_of_1; apply inf_of_m1.
  - intros ->. destruct H as [-> | ->]; cbn; rewrite ?Ropp_0; apply inf_of_0.
  - intros ->. reflexivity.
  - intros [-> | ->]; subst u; cbn; f_equal; ring.
  - intros ->. subst u. cbn. f_equal. ring.
Qed.
Print Assumptions C150_hard.

(** [C150] Soft thresholding: with a finite threshold infinite entries are kept and nan entries stay; an infinite threshold makes finite entries
    zero and infinite ones nan; a nan threshold gives nan everywhere. *)
Theorem C150_soft :
  forall x t r, List.length t = List.length x -> xthresh x t "soft" = Ok r ->
  forall i u s, nth_error x i = Some u -> nth_error t i = Some s -> exists v, nth_error r i = Some v /\
  (forall a b, u = Fin a -> s = Fin b -> v = Fin (soft1 b a)) /\
  (u = PInf \/ u = NInf -> (forall b, s = Fin b -> v = u) /\ (s = PInf -> v = NaN)) /\
  (u = NaN \/ s = NaN -> v = NaN) /\
  (forall a, u = Fin a -> s = PInf -> v = Fin 0).
Proof.
  intros x t r L E i u s Hu Hs. injection E as <-. exists (xsoft s u). split.
  { apply (@map_nth_error _ _ (fun p => xsoft (fst p) (snd p)) i (combine t x) (s, u)). apply nth_combine; assumption. }
  assert (M : Rmax (1 + - 0) 0 = 1) by (rewrite Ropp_0, Rplus_0_r; apply Rmax_left; lra).
  repeat split.
  - intros a b -> ->. reflexivity.
  - intros b ->. destruct H as [-> | ->]; unfold xsoft; cbn [xabs xmax xquot xsub xadd xopp xmul]; rewrite M, ?inf_of_1, ?inf_of_m1; reflexivity.
  - intros ->. destruct H as [-> | ->]; reflexivity.
  - intros [-> | ->]; [destruct s; reflexivity|]. destruct u; reflexivity.
  - intros a -> ->. unfold xsoft. cbn [xabs xmax xquot xsub xadd xopp xmul xround]. f_equal. rewrite Rmult_0_l. apply around_0.
Qed.
Print Assumptions C150_soft.

(** [C150, refuted] The two kinds of thresholding agree on which entries they kill: with a nan threshold the hard one returns zeros, which hides it,
    the soft one nan; with an infinite threshold the hard one keeps infinite entries. *)
Theorem C150_same_entries_refuted :
  (forall a, xthresh [Fin a] [NaN] "hard" = Ok [Fin 0] /\ xthresh [Fin a] [NaN] "soft" = Ok [NaN]) /\
  xthresh [PInf] [PInf] "hard" = Ok [PInf] /\ xthresh [PInf] [PInf] "soft" = Ok [NaN].
Proof.
  split; [intros a; split; [|reflexivity]|split; [|reflexivity]]; unfold xthresh; cbn.
  - do 3 f_equal. ring.
  - unfold xhard. cbn. rewrite inf_of_1. reflexivity.
Qed.
Print Assumptions C150_same_entries_refuted.

(** (-inf, -2, 3, nan, inf) *)
Example C150_example :
  xpositive [NInf; Fin (-2); Fin 3; NaN; PInf] = [NaN; Fin 0; Fin 3; NaN; PInf] /\
  xthresh [NInf; Fin (-2); Fin 3] [Fin 5; Fin 1; PInf] "hard" = Ok [NInf; Fin (-2); Fin 0].
Proof.
  split.
  - unfold xpositive, xpos_thresh. cbn. unfold gtb. destruct (Rlt_dec 0 (-2)); [lra|]. destruct (Rlt_dec 0 3); [|lra]. cbn [b2r].
    rewrite Ropp_0, inf_of_0, inf_of_1. repeat f_equal; ring.
  - unfold xthresh. cbn. unfold xhard. cbn. rewrite inf_of_m1. unfold geb. rewrite (Rabs_left (-2)) by lra. destruct (Rle_dec 1 (- -2)); [|lra]. cbn [b2r].
    repeat f_equal; ring.
Qed.
