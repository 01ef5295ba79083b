(** Model of the data types of the arrays inside ADMM and FastADMM (the values are in Model_ADMM): the former copies its
    iterates, the latter writes them into the old arrays. *)
From Verif Require Import Py Model_Dtype.
From Coq Require Import List.
Import ListNotations.

Section Admm.
Variables opti_H opti_G : dt -> dt -> dt.      (* types of the optimizers' results, given those of init and obs *)
Variables A B : typed_op.                      (* A.op, B.op *)
Variable b : dt.

(** ADMM: types of (_u_old, _v_old, _mu_old). admm.py:153-169. *)
Definition admm_types (s : dt * dt * dt) : res (dt * dt * dt) :=
  let '(u, v, mu) := s in
  let u_new := opti_H u (join (join (B v) u) b) in                     (* :154-157 *)
  let tmp := A u_new in                                                (* :158 *)
  let v_new := opti_G v (join (join tmp u) b) in                       (* :159-162 *)
  let mu_new := join mu (join (join tmp (B v_new)) b) in               (* :164 *)
  Ok (u_new, v_new, mu_new).                                           (* :167-169 *)

(** FastADMM: types of (_u_old, _v_old, _mu_old, _v_hat, _mu_hat). *)
Record fast_t := mk_ft { tu : dt; tv : dt; tmu : dt; tvh : dt; tmuh : dt }.
(** admm.py:284-301: the starting point of v is b, the argument v is not used. *)
Definition fast_start (u v mu : dt) : fast_t := mk_ft u b mu b mu.
(** admm.py:303-336; [reboot] tells whether the test of :322 failed. *)
Definition fast_types (reboot : bool) (s : fast_t) : res fast_t :=
  let u_new := opti_H (tu s) (join (join (B (tvh s)) (tu s)) b) in     (* :305-308 *)
  let tmp := A u_new in                                                (* :309 *)
  let v_new := opti_G (tvh s) (join (join tmp (tu s)) b) in            (* :310-313 *)
  let mu_new := join (tmuh s) (join (join tmp (B v_new)) b) in         (* :315 *)
  let v_hat := if reboot then tv s else join v_new (join (join v_new (tv s)) DReal) in        (* :325, :330 *)
  let mu_hat := if reboot then tmu s else join mu_new (join (join mu_new (tmu s)) DReal) in   (* :326, :331 *)
  do u' <- in_place (tu s) u_new;                                      (* :334 *)
  do v' <- in_place (tv s) v_new;                                      (* :335 *)
  do mu' <- in_place (tmu s) mu_new;                                   (* :336 *)
  Ok (mk_ft u' v' mu' v_hat mu_hat).
(** n iterations; the test of iteration k fails when [reboots k]. *)
Fixpoint fast_run (reboots : nat -> bool) (n : nat) (s : fast_t) : res fast_t :=
  match n with 0 => Ok s | S n' => do s' <- fast_run reboots n' s; fast_types (reboots n') s' end.
End Admm.
