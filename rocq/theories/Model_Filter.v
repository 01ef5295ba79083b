(** Model of signal/filter.py: gaussian_filter, mex_hat, mex_hat_dir. Exact arithmetic. *)
From Verif Require Import NPReal Py Model_Types.
Local Open Scope R_scope.

(** Element-wise arithmetic between two results of check_float: numbers and flat arrays (arrays of
    different lengths broadcast only from length 1, not modelled). *)
Definition bc2 (f : R -> R -> R) (a b : pyobj) : res pyobj :=
  match a, b with
  | PyFloat x, PyFloat y => Ok (PyFloat (f x y))
  | PyFloat x, ArrFloat l => Ok (ArrFloat (map (f x) l))
  | ArrFloat l, PyFloat y => Ok (ArrFloat (map (fun x => f x y) l))
  | ArrFloat l, ArrFloat m =>
      if Nat.eqb (length l) (length m) then Ok (ArrFloat (map (fun p => f (fst p) (snd p)) (combine l m)))
      else Err NotModelled
  | _, _ => Err NotModelled
  end.

Definition elems (v : pyobj) : list R := match v with PyFloat r => [r] | ArrFloat l => l | _ => [] end.
Definition is_zero (r : R) : bool := if Req_EM_T r 0 then true else false.
Definition is_pos (r : R) : bool := if Rlt_dec 0 r then true else false.

(** data / sigma: between two Python floats a zero divisor raises; NumPy arrays give nan or inf,
    which are not modelled. *)
Definition div_ok (a s : pyobj) : res unit :=
  match a, s with
  | PyFloat _, PyFloat y => if is_zero y then Err ZeroDivisionError else Ok tt
  | _, _ => if existsb is_zero (elems s) then Err NotModelled else Ok tt
  end.

(** filter.py:46, one data point. *)
Definition gauss_num (x s : R) : R := exp (- / 2 * (x / s) ^ 2).
(** filter.py:46-51 *)
Definition gauss_point (norm : bool) (x s : R) : R :=
  let numerator := gauss_num x s in
  if norm then numerator / (sqrt (2 * PI) * s) else numerator.

(** filter.py:43-51 *)
Definition gaussian_filter (data_point sigma : pyobj) (norm : bool) : res pyobj :=
  do d <- check_float data_point;
  do s <- check_float sigma;
  do _ <- div_ok d s;
  bc2 (gauss_point norm) d s.

(** filter.py:81-84, one data point; x ** -0.5 and pi ** -0.25 are written with square roots. *)
Definition mex_point (x s : R) : R :=
  let xs := (x / s) ^ 2 in
  let factor := 2 * / sqrt (3 * s) * / sqrt (sqrt PI) in
  factor * (1 - xs) * exp (- / 2 * xs).

(** filter.py:78-84. The power -0.5 of a negative number is a complex number (Python float) or nan
    (array): not modelled. *)
Definition mex_hat (data_point sigma : pyobj) : res pyobj :=
  do d <- check_float data_point;
  do s <- check_float sigma;
  do _ <- div_ok d s;
  if forallb is_pos (elems s) then bc2 mex_point d s else Err NotModelled.

(** filter.py:113-116 *)
Definition mex_hat_dir (data_gauss data_mex sigma : pyobj) : res pyobj :=
  do g <- check_float data_gauss;
  do s <- check_float sigma;
  do _ <- div_ok g s;
  do a <- bc2 (fun x y => - / 2 * (x / y) ^ 2) g s;
  do m <- mex_hat data_mex s;
  bc2 Rmult a m.
