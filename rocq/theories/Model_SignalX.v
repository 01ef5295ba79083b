(** Model of signal/positivity.py and of thresh in signal/noise.py on real arrays whose entries may be infinite or nan;
    finite values are exact reals as in Model_Signal. The sign of a zero is not modelled. *)
From Verif Require Import NPReal Py IPS Model_Signal Model_Stats Model_GDX.
From Coq Require Import List String.
Import ListNotations.
Local Open Scope R_scope.

(** A boolean array in a product. *)
Definition xbool (b : bool) : fval := Fin (b2r b).
(** Comparisons with nan are false. *)
Definition xge (u v : fval) : bool :=
  match u, v with
  | NaN, _ | _, NaN => false
  | PInf, _ | _, NInf => true
  | _, PInf | NInf, _ => false
  | Fin a, Fin b => geb a b
  end.
Definition xgt0 (u : fval) : bool := match u with Fin a => gtb a 0 | PInf => true | NInf | NaN => false end.
Definition xabs (u : fval) : fval := match u with Fin a => Fin (Rabs a) | PInf | NInf => PInf | NaN => NaN end.
(** np.maximum: nan if one argument is. *)
Definition xmax (u v : fval) : fval :=
  match u, v with
  | NaN, _ | _, NaN => NaN
  | PInf, _ | _, PInf => PInf
  | NInf, w | w, NInf => w
  | Fin a, Fin b => Fin (Rmax a b)
  end.
(** u / v for v positive, infinite or nan. *)
Definition xquot (u v : fval) : fval :=
  match u, v with
  | NaN, _ | _, NaN => NaN
  | Fin a, Fin b => Fin (a / b)
  | Fin _, _ => Fin 0
  | w, Fin _ => w
  | _, _ => NaN
  end.
(** np.around(u, decimals=15) *)
Definition xround (u : fval) : fval := match u with Fin a => Fin (around 15 a) | w => w end.

(** positivity.py:29 *)
Definition xpos_thresh (u : fval) : fval := xmul u (xbool (xgt0 u)).
(** positivity.py:104-111 for a numeric array (flattened) *)
Definition xpositive (x : list fval) : list fval := map xpos_thresh x.

(** noise.py:179-182 *)
Definition xsoft (t x : fval) : fval :=
  let denominator := xmax (Fin eps64) (xabs x) in
  let max_value := xmax (xsub (Fin 1) (xquot t denominator)) (Fin 0) in
  xround (xmul max_value x).
(** noise.py:184 *)
Definition xhard (t x : fval) : fval := xmul x (xbool (xge (xabs x) t)).
(** noise.py:169-184, the threshold already of the shape of the data. *)
Definition xthresh (x t : list fval) (ty : string) : res (list fval) :=
  if negb (String.eqb ty "hard" || String.eqb ty "soft") then Err ValueError
  else if String.eqb ty "soft" then Ok (map (fun p => xsoft (fst p) (snd p)) (combine t x))
  else Ok (map (fun p => xhard (fst p) (snd p)) (combine t x)).
