(** Complex data: signal/positivity.py, thresh in signal/noise.py and the proximity operators of
    opt/proximity.py that accept complex arrays. A complex number is the pair of its real and
    imaginary parts (Model_Linear.C); weights and thresholds are real. Exact reals. *)
From Coq Require Import String.
From Verif Require Import NPReal Py IPS Model_Signal Model_Prox Model_Linear.
From Coq Require Import List.
Import ListNotations Model_Linear.
Local Open Scope R_scope.

(** np.abs of a complex number. *)
Definition cabs (z : C) : R := sqrt (fst z * fst z + snd z * snd z).
(** A real number times a complex number. *)
Definition rscale (a : R) (z : C) : C := (a * fst z, a * snd z).
(** np.around rounds the real and the imaginary part. *)
Definition caround (n : nat) (z : C) : C := (around n (fst z), around n (snd z)).

(** noise.py:179-180, before rounding. *)
Definition csoft_unrounded (t : R) (z : C) : C := rscale (Rmax (1 - t / Rmax eps64 (cabs z)) 0) z.
(** noise.py:182 *)
Definition csoft1 (t : R) (z : C) : C := caround 15 (csoft_unrounded t z).
(** noise.py:184: the mask is a boolean used as a number. *)
Definition chard1 (t : R) (z : C) : C := rscale (b2r (geb (cabs z) t)) z.

(** noise.py:169-184 *)
Definition cthresh (x : list C) (t : thr) (ty : string) : res (list C) :=
  if negb (String.eqb ty "hard" || String.eqb ty "soft") then Err ValueError
  else
    do ts <- bcast t (List.length x);
    if String.eqb ty "soft" then Ok (map2 csoft1 ts x) else Ok (map2 chard1 ts x).

(** proximity.py:211-213 *)
Definition csparse_op (weights : thr) (thresh_type : string) (x : list C) (extra_factor : R) : res (list C) :=
  cthresh x (thr_scale extra_factor weights) thresh_type.

(** Multiplication of real weights with complex data, with broadcasting. *)
Definition cbmul (t : thr) (x : list C) : res (list C) :=
  do ts <- bcast t (List.length x); Ok (map2 rscale ts x).

(** proximity.py:233-235; [linear] is self._linear.op. *)
Definition csparse_cost (linear : list C -> list C) (weights : thr) (x : list C) : res R :=
  do wx <- cbmul weights (linear x); Ok (rsum (map cabs wx)).

(** proximity.py:777-779 *)
Definition cridge_op (linear : list C -> list C) (weights : thr) (x : list C) (extra_factor : R) : res (list C) :=
  let lx := linear x in
  do ts <- bcast (thr_scale 2 (thr_scale extra_factor weights)) (List.length lx);
  Ok (map2 (fun t v => (fst v / (1 + t), snd v / (1 + t))) ts lx).
(** proximity.py:799-801: the square is the complex square. *)
Definition cridge_cost (linear : list C -> list C) (weights : thr) (x : list C) : res R :=
  do v <- cbmul weights (map (fun v => cmul v v) (linear x)); Ok (rsum (map cabs v)).

(** proximity.py:863-865 *)
Definition celastic_op (alpha beta : thr) (x : list C) (extra_factor : R) : res (list C) :=
  do th <- cthresh x (thr_scale extra_factor beta) "soft";
  do ns <- bcast (thr_scale extra_factor (thr_scale 2 alpha)) (List.length x);
  Ok (map2 (fun a v => (fst v / (a + 1), snd v / (a + 1))) ns th).
(** The same before the rounding done inside thresh. *)
Definition celastic_unrounded (alpha beta f : R) (z : C) : C :=
  let s := csoft_unrounded (beta * f) z in (fst s / (alpha * 2 * f + 1), snd s / (alpha * 2 * f + 1)).
(** proximity.py:885-888 *)
Definition celastic_cost (linear : list C -> list C) (alpha beta : thr) (x : list C) : res R :=
  do a <- cbmul alpha (map (fun v => cmul v v) (linear x));
  do b <- cbmul beta (linear x);
  Ok (rsum (map2 Rplus (map cabs a) (map cabs b))).

(** np.linalg.norm of a complex vector: the square root of the sum of re^2 + im^2. *)
Definition cnorm2 (g : list C) : R := sqrt (rsum (map (fun z => fst z * fst z + snd z * snd z) g)).
(** proximity.py:1403-1410, groups as in Model_Prox.group_op. *)
Definition cgroup_scale (w f : R) (g : list C) : R := Rmax 0 (1 - w * f / Rmax (cnorm2 g) eps32).
Definition cgroup_op (weights : thr) (f : R) (groups : list (list C)) : res (list (list C)) :=
  do ws <- bcast weights (List.length groups);
  Ok (map2 (fun w g => map (rscale (cgroup_scale w f g)) g) ws groups).
(** proximity.py:1428 *)
Definition cgroup_cost (weights : thr) (groups : list (list C)) : res R :=
  do v <- bmul weights (map cnorm2 groups); Ok (rsum v).

(** positivity.py:29 on complex entries: NumPy orders complex numbers by the real part, then by
    the imaginary part, so [z > 0] is re > 0, or re = 0 and im > 0. *)
Definition cgt0 (z : C) : bool :=
  if Rlt_dec 0 (fst z) then true
  else if Req_EM_T (fst z) 0 then gtb (snd z) 0 else false.
Definition cpos_thresh (z : C) : C := rscale (b2r (cgt0 z)) z.
(** positivity.py:48-54 and 96-111 for a complex number and a complex array; proximity.py:118-131. *)
Definition cpositive (x : list C) : list C := map cpos_thresh x.
