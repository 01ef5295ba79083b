(** Model of opt/reweight.py: cwbReweight when weights may be zero and the data infinite or nan (Model_Linear has positive weights and finite data). The
    initial weights and the threshold factors are finite; arrays of one shape, indexed by [I]. Zeros have no sign. *)
From Verif Require Import NPReal Py IPS Model_Signal Model_Stats Model_GDX Model_SignalX.
From Coq Require Import List.
Import ListNotations.
Local Open Scope R_scope.

(** |x| / b, for u = |x|. *)
Definition xratio (u : fval) (b : R) : fval :=
  match u with
  | Fin a => xdiv a (Fin b)
  | PInf => if Rlt_dec b 0 then NInf else PInf
  | NInf => if Rlt_dec b 0 then PInf else NInf
  | NaN => NaN
  end.

Section Rw.
Variable I : Type.
(** reweight.py:46-48: the weights and the copy of the first ones. *)
Record rwx := mk_rwx { rx_weights : I -> fval; rx_original : I -> R }.
Definition rwx_init (w : I -> R) : rwx := mk_rwx (fun i => Fin (w i)) w.
(** reweight.py:92-96, with thresh_factor = n *)
Definition rwx_step (s : rwx) (call : R * (I -> fval)) : rwx :=
  let '(n, x) := call in
  let thresh_weights i := n * rx_original s i in
  mk_rwx (fun i => xmul (rx_weights s i) (xdiv 1 (xadd (Fin 1) (xratio (xabs (x i)) (thresh_weights i))))) (rx_original s).
Definition rwx_run (w : I -> R) (calls : list (R * (I -> fval))) : rwx := fold_left rwx_step calls (rwx_init w).
End Rw.
Arguments mk_rwx {I}. Arguments rx_weights {I}. Arguments rx_original {I}. Arguments rwx_init {I}. Arguments rwx_step {I}. Arguments rwx_run {I}.
