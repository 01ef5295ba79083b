(** Model of opt/proximity.py: KSupportNorm. The input is the flattened array; op reshapes the
    result to the input's shape. Numbers are reals, so a float operation is exact, except that the
    infinities and NaNs of a division by zero are followed through _interpolate, _compute_theta and
    nan_to_num. *)
From Verif Require Import NPReal Py Model_Signal Model_Stats.
From Coq Require Import List Lia.
Import ListNotations.
Local Open Scope R_scope.

(** sys.float_info.epsilon *)
Definition feps : R := / 2 ^ 52.
(** proximity.py:1074 *)
Definition ks_tolerance : R := / 10 ^ 4.

(** proximity.py:949-955, the k_value setter (also run by __init__, 938-940). *)
Definition ks_set_k (k : Z) : res Z := if (k <? 1)%Z then Err ValueError else Ok k.

(** proximity.py:990-999 for one entry and a finite alpha; [lam] is beta * extra_factor. *)
Definition theta1 (lam alpha x : R) : R :=
  let ab := alpha * Rabs x - lam in
  ab * b2r (geb 1 ab && geb ab 0) + b2r (gtb (alpha * Rabs x) (lam + 1)).
(** The same for any value of alpha. inf * 0 is a NaN, which nan_to_num (997) makes 0 and which is
    not greater than anything; for a non-zero entry inf * False is a NaN too, but inf > lam + 1.
    With -inf the entry is 0 in every case, with NaN as well. *)
Definition theta_f (lam : R) (alpha : fval) (x : R) : R :=
  match alpha with
  | Fin a => theta1 lam a x
  | PInf => if Req_EM_T x 0 then 0 else 1
  | NInf => 0
  | NaN => 0
  end.
(** _compute_theta(data_abs, alpha, extra_factor).sum() *)
Definition theta_sum (lam : R) (w : list R) (alpha : R) : R := rsum (map (theta1 lam alpha) w).

(** alpha[i] *)
Definition idx (l : list R) (i : nat) : res R :=
  match nth_error l i with Some v => Ok v | None => Err IndexError end.

(** proximity.py:1024-1033. Consecutive entries of alpha differ, since they come from np.unique. *)
Definition ks_interpolate (k alpha0 alpha1 sum0 sum1 : R) : res fval :=
  if Req_EM_T sum0 k then Ok (Fin alpha0)
  else if Req_EM_T sum1 k then Ok (Fin alpha1)
  else if Req_EM_T alpha1 alpha0 then Err NotModelled
  else
    let slope := (sum1 - sum0) / (alpha1 - alpha0) in
    let b_val := sum0 - slope * alpha0 in
    Ok (fdiv (k - b_val) slope).

(** proximity.py:1088-1150, the while loop. [fuel] is alpha.shape[0] - cnt. The value is found,
    midpoint, sum0 and sum1. *)
Fixpoint ks_loop (fuel : nat) (lam : R) (w alpha : list R) (k : R) (first last prev : nat)
    (midpoint : nat) (sum0 sum1 : R) : res (bool * nat * R * R) :=
  match fuel with
  | O => Ok (false, midpoint, sum0, sum1)
  | S fuel' =>
    if Nat.leb first last then
      let mid0 := Nat.div (first + last) 2 in
      do fm <- (if Nat.eqb prev mid0 then
                  do af <- idx alpha first;
                  do al <- idx alpha last;
                  let s0 := theta_sum lam w af in
                  let s1 := theta_sum lam w al in
                  let f1 := geb ks_tolerance (Rabs (s0 - k)) in
                  let f2 := geb ks_tolerance (Rabs (s1 - k)) in
                  let d := (Z.of_nat first - Z.of_nat last)%Z in
                  let f3 := ((d =? 1) || (d =? 2))%Z && (geb k s0 && geb s1 k) in
                  Ok (f1 || f2 || f3, if f2 then (last - 1)%nat else if f1 then first else mid0)
                else Ok (false, mid0));
      let mid := snd fm in
      do a0 <- idx alpha mid;
      do a1 <- idx alpha (mid + 1);
      let s0 := theta_sum lam w a0 in
      let s1 := theta_sum lam w a1 in
      if geb k s0 && geb s1 k then Ok (true, mid, s0, s1)
      else
        let first' := if gtb k s1 then mid else first in
        let last' := if gtb k s1 then last else if gtb s0 k then mid else last in
        if fst fm then Ok (true, mid, s0, s1)
        else ks_loop fuel' lam w alpha k first' last' mid mid s0 s1
    else Ok (false, midpoint, sum0, sum1)
  end.

(** proximity.py:1068-1165: alpha[midpoint], alpha[midpoint + 1], sum0 and sum1. alpha is never
    empty (an empty input array raises IndexError at alpha[0]) and has two entries or more. *)
Definition ks_search (lam : R) (w alpha : list R) (k : R) : res (R * R * R * R) :=
  do a0 <- idx alpha 0;
  do an <- idx alpha (length alpha - 1);
  let sum0 := theta_sum lam w a0 in
  let sum1 := theta_sum lam w an in
  do r <- (if geb sum0 k then Ok (true, 0%nat, sum0, sum1)
           else if geb k sum1 then Ok (true, (length alpha - 2)%nat, sum0, sum1)
           else ks_loop (length alpha) lam w alpha k 0 (length alpha - 1) 0 0 sum0 sum1);
  let '(found, mid, s0, s1) := r in
  if found then
    do al <- idx alpha mid;
    do ar <- idx alpha (mid + 1);
    Ok (al, ar, s0, s1)
  else Err ValueError.

(** np.sort(np.unique(l)) *)
Fixpoint uinsert (a : R) (l : list R) : list R :=
  match l with
  | [] => [a]
  | b :: l' => if Req_EM_T a b then l else if Rlt_dec a b then a :: l else b :: uinsert a l'
  end.
Definition npunique (l : list R) : list R := fold_right uinsert [] l.

(** proximity.py:1188-1196 *)
Definition ks_grid (lam : R) (w : list R) : list R :=
  npunique (map (fun x => lam / (Rabs x + feps)) w ++ map (fun x => (lam + 1) / (Rabs x + feps)) w).

(** proximity.py:1185-1206 *)
Definition ks_find_alpha (lam : R) (w : list R) (k : R) : res fval :=
  do r <- ks_search lam w (ks_grid lam w) k;
  let '(a0, a1, s0, s1) := r in
  ks_interpolate k a0 a1 s0 s1.

(** proximity.py:1243-1246 for one entry: a division by zero gives inf or NaN. nan_to_num replaces
    inf by the largest float; beta * extra_factor + theta = 0 is not followed. *)
Definition ks_scale (lam th x : R) : res R :=
  if Req_EM_T (th + lam) 0 then Err NotModelled else Ok (x * th / (th + lam)).

(** proximity.py:1227-1246. [k] is self._k_value before the call; the second component of the
    value is self._k_value afterwards. The second _compute_theta (1240) leaves extra_factor at 1. *)
Definition ks_op (beta : R) (k : Z) (w : list R) (extra_factor : R) : res (list R * Z) :=
  let k' := Z.min k (Z.of_nat (length w)) in
  do alpha <- ks_find_alpha (beta * extra_factor) w (IZR k');
  do r <- mapM (fun x => ks_scale (beta * extra_factor) (theta_f (beta * 1) alpha x) x) w;
  Ok (r, k').

(** np.argsort(data_abs)[::-1] applied to data_abs. *)
Fixpoint dinsert (a : R) (l : list R) : list R :=
  match l with
  | [] => [a]
  | b :: l' => if Rle_dec b a then a :: l else b :: dinsert a l'
  end.
Definition sort_desc (l : list R) : list R := fold_right dinsert [] l.

(** proximity.py:1289-1305, the while loop. [fuel] is k - cnt; last_idx < k always holds. *)
Fixpoint q_loop (fuel : nat) (k : nat) (s : list R) (first last q_val : nat) : res nat :=
  match fuel with
  | O => Ok q_val
  | S fuel' =>
    if Nat.leb first last then
      let q := Nat.div (first + last) 2 in
      let l1_part := rsum (skipn q s) / INR (k - q) in
      do sq <- idx s q;
      do sq1 <- idx s (q + 1);
      if geb l1_part sq1 && geb sq l1_part then Ok q
      else
        let last' := if geb l1_part sq then q else last in
        let first' := if geb sq1 l1_part then q else first in
        q_loop fuel' k s first' last' q
    else Ok q_val
  end.

(** proximity.py:1271-1307. *)
Definition find_q (k : nat) (s : list R) : res nat :=
  do s0 <- idx s 0;
  if geb (rsum s / INR k) s0 then Ok 0%nat
  else
    do sk <- idx s (k - 1);
    if geb sk (rsum (skipn (k - 1) s)) then Ok (k - 1)%nat
    else q_loop k k s 0 (k - 1) (Nat.div (0 + (k - 1)) 2).

(** proximity.py:1328-1335. self._k_value is not compared with the size of the input here. *)
Definition ks_cost (beta : R) (k : Z) (w : list R) : res R :=
  let s := sort_desc (map Rabs w) in
  do q <- find_q (Z.to_nat k) s;
  Ok ((rsum (map (fun x => x ^ 2) (firstn q s)) * / 2
       + rsum (skipn q s) ^ 2 / INR (Z.to_nat k - q)) * beta).
