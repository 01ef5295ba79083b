(** Theorems about the data types of the starting points of ADMM and FastADMM: C149. *)
From Verif Require Import Py Model_Dtype Prop_Dtype Model_DtypeAdmm.
From Coq Require Import List Lia Bool.
Import ListNotations.

(** [C149] ADMM runs from starting points of any types, whatever the optimizers and operators return; and the type of the
    multiplier has no effect on those of the two estimates. *)
Theorem C149_admm_any_type : forall oH oG A B b u v mu mu' n, exists u' v' m m',
  repeat_types (admm_types oH oG A B b) n (u, v, mu) = Ok (u', v', m) /\
  repeat_types (admm_types oH oG A B b) n (u, v, mu') = Ok (u', v', m') /\
  fits mu m /\ (0 < n -> fits b m).
Proof.
  intros oH oG A B b u v mu mu' n.
  assert (R : forall n u v mu mu', exists u' v' m m',
    repeat_types (admm_types oH oG A B b) n (u, v, mu) = Ok (u', v', m) /\
    repeat_types (admm_types oH oG A B b) n (u, v, mu') = Ok (u', v', m') /\ fits mu m).
  { clear. induction n as [|n IH]; intros u v mu mu'; [exists u, v, mu, mu'; repeat split; constructor|].
    cbn [repeat_types admm_types bind]. set (u1 := oH _ _). set (v1 := oG _ _).
    destruct (IH u1 v1 (join mu (join (join (A u1) (B v1)) b)) (join mu' (join (join (A u1) (B v1)) b))) as (a & c & m & m' & E & E' & F).
    exists a, c, m, m'. repeat split; try assumption. apply fits_join in F. apply F. }
  destruct n as [|n]; [exists u, v, mu, mu'; repeat split; try constructor; lia|].
  cbn [repeat_types admm_types bind]. set (u1 := oH _ _). set (v1 := oG _ _).
  destruct (R n u1 v1 (join mu (join (join (A u1) (B v1)) b)) (join mu' (join (join (A u1) (B v1)) b))) as (a & c & m & m' & E & E' & F).
  exists a, c, m, m'. apply fits_join in F. destruct F as [F1 F2]. apply fits_join in F2. repeat split; try assumption. intros _. apply F2.
Qed.
Print Assumptions C149_admm_any_type.

(** [C149] FastADMM, with b and mu not of an integer type: runs for ever, keeping the types of u, b and mu, exactly when the
    first new values fit those types; otherwise the first iteration raises TypeError. *)
Theorem C149_fast_admm : forall oH oG A B b u v mu reboots n, fits DReal b -> fits DReal mu ->
  let u1 := oH u (join (join (B b) u) b) in
  let v1 := oG b (join (join (A u1) u) b) in
  let fine := fits u1 u /\ fits v1 b /\ fits (A u1) mu /\ fits (B v1) mu /\ fits b mu in
  (fine -> fast_run oH oG A B b reboots (S n) (fast_start b u v mu) = Ok (fast_start b u v mu)) /\
  (~ fine -> fast_run oH oG A B b reboots (S n) (fast_start b u v mu) = Err TypeError).
Proof.
  intros oH oG A B b u v mu reboots n Rb Rm u1 v1 fine.
  assert (J : forall d e, fits d e -> fits DReal e -> join d (join (join d e) DReal) = e).
  { intros d e H K. inversion H; subst; inversion K; subst; reflexivity. }
  assert (Good : fine -> forall r, fast_types oH oG A B b r (fast_start b u v mu) = Ok (fast_start b u v mu)).
  { intros (F1 & F2 & F3 & F4 & F5) r. unfold fast_types, fast_start. cbn [tu tv tmu tvh tmuh]. fold u1. fold v1.
    set (m1 := join mu (join (join (A u1) (B v1)) b)).
    assert (F6 : fits m1 mu) by (unfold m1; rewrite !fits_join; repeat split; auto; constructor).
    rewrite (proj2 (in_place_ok u u1 u) (conj eq_refl F1)), (proj2 (in_place_ok b v1 b) (conj eq_refl F2)), (proj2 (in_place_ok mu m1 mu) (conj eq_refl F6)).
    cbn [bind]. rewrite !J by assumption. destruct r; reflexivity. }
  assert (Bad : ~ fine -> forall r, fast_types oH oG A B b r (fast_start b u v mu) = Err TypeError).
  { intros HN r. unfold fast_types, fast_start. cbn [tu tv tmu tvh tmuh]. fold u1. fold v1.
    set (m1 := join mu (join (join (A u1) (B v1)) b)).
    destruct (in_place u u1) as [q|e] eqn:E1; cbn [bind]; [|apply in_place_err in E1; destruct E1 as [-> _]; reflexivity].
    destruct (in_place b v1) as [q'|e] eqn:E2; cbn [bind]; [|apply in_place_err in E2; destruct E2 as [-> _]; reflexivity].
    destruct (in_place mu m1) as [q''|e] eqn:E3; cbn [bind]; [|apply in_place_err in E3; destruct E3 as [-> _]; reflexivity].
    exfalso. apply HN. apply in_place_ok in E1, E2, E3. destruct E3 as [_ E3]. unfold m1 in E3. rewrite !fits_join in E3. unfold fine. tauto. }
  split; intros HF; induction n as [|n IH].
  - cbn. apply Good, HF.
  - change (fast_run oH oG A B b reboots (S (S n)) (fast_start b u v mu)) with (do s' <- fast_run oH oG A B b reboots (S n) (fast_start b u v mu); fast_types oH oG A B b (reboots (S n)) s').
    rewrite IH. cbn [bind]. apply Good, HF.
  - cbn. apply Bad, HF.
  - change (fast_run oH oG A B b reboots (S (S n)) (fast_start b u v mu)) with (do s' <- fast_run oH oG A B b reboots (S n) (fast_start b u v mu); fast_types oH oG A B b (reboots (S n)) s').
    rewrite IH. reflexivity.
Qed.
Print Assumptions C149_fast_admm.

(** Optimizers that return the common type of their arguments, or at least a real one. *)
Definition exact_opt (i o : dt) : dt := join i o.
Definition real_opt (i o : dt) : dt := join DReal (join i o).

(** [C149, refuted] FastADMM accepts what ADMM accepts: from an integer u, or from a real mu with complex b, ADMM runs and FastADMM raises
    TypeError in its first iteration. *)
Theorem C149_same_starts_refuted : exists A B,
  (forall n, exists s, repeat_types (admm_types real_opt real_opt A B DReal) n (DInt, DReal, DReal) = Ok s) /\
  (forall reboots, fast_run real_opt real_opt A B DReal reboots 1 (fast_start DReal DInt DReal DReal) = Err TypeError) /\
  (forall n, exists s, repeat_types (admm_types real_opt real_opt A B DComplex) n (DComplex, DComplex, DReal) = Ok s) /\
  (forall reboots, fast_run real_opt real_opt A B DComplex reboots 1 (fast_start DComplex DComplex DComplex DReal) = Err TypeError).
Proof.
  assert (G : forall b u v m n, exists s, repeat_types (admm_types real_opt real_opt (fun d => d) (fun d => d) b) n (u, v, m) = Ok s).
  { intros b u v m n. destruct (C149_admm_any_type real_opt real_opt (fun d => d) (fun d => d) b u v m m n) as (u' & v' & m' & _ & E & _). eauto. }
  exists (fun d => d), (fun d => d). repeat split; intros; try reflexivity; apply G.
Qed.
Print Assumptions C149_same_starts_refuted.

(** [C149, refuted] A run of FastADMM that survives one iteration survives them all: with integer u and b and optimizers that keep integers, the
    first iteration succeeds, and its extrapolation makes the second raise TypeError, whatever the type of mu. With mu an integer array
    as well, the extrapolation of mu alone is enough: the optimizer for v may ignore its starting point, and B return integers. *)
Theorem C149_late_failure_refuted : exists oH oG oG' A B B',
  (forall mu, exists s, fast_run oH oG A B DInt (fun _ => false) 1 (fast_start DInt DInt DInt mu) = Ok s /\
     fast_run oH oG A B DInt (fun _ => false) 2 (fast_start DInt DInt DInt mu) = Err TypeError) /\
  (forall i i' o, oG' i o = oG' i' o) /\ (forall d, B' d = DInt) /\
  exists s, fast_run oH oG' A B' DInt (fun _ => false) 1 (fast_start DInt DInt DInt DInt) = Ok s /\
     fast_run oH oG' A B' DInt (fun _ => false) 2 (fast_start DInt DInt DInt DInt) = Err TypeError.
Proof.
  exists exact_opt, exact_opt, (fun _ o => o), (fun d => d), (fun d => d), (fun _ => DInt). split.
  - intros []; eexists; split; reflexivity.
  - repeat split. eexists. split; reflexivity.
Qed.
Print Assumptions C149_late_failure_refuted.

Example C149_example :
  fast_run real_opt real_opt (fun d => d) (fun d => d) DReal (fun k => Nat.even k) 9 (fast_start DReal DReal DInt DComplex) = Ok (mk_ft DReal DReal DComplex DReal DComplex) /\
  repeat_types (admm_types real_opt real_opt (fun d => d) (fun d => d) DInt) 3 (DInt, DInt, DInt) = Ok (DReal, DReal, DReal).
Proof. split; reflexivity. Qed.
