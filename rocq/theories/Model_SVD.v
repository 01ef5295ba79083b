(** Model of signal/svd.py, math/matrix.py (nuclear_norm) and opt/proximity.py (LowRankMatrix) on exact
    reals. The singular value decompositions themselves (scipy.linalg.svd, scipy.sparse.linalg.svds,
    np.linalg.svd) are parameters; the theorems assume their documented contract for the matrix at hand
    ([svd_result], [svds_result] in Spec_SVD.v). *)
From Coq Require Import String.
From Verif Require Import NPReal Py IPS Model_Array Model_Transform Model_Signal Model_Linear.
From Coq Require Import List Lia.
Import ListNotations.
Local Open Scope string_scope.
Local Open Scope R_scope.

Record svd_out := mk_svd { svd_u : nda R; svd_s : list R; svd_v : nda R }.

(** np.dot of two arrays with two axes. *)
Definition dot2 (a b : nda R) : res (nda R) :=
  match shape a, shape b with
  | [m; k], [k'; n] =>
      if Nat.eqb k k'
      then Ok (mk_nda [m; n] (fun idx => rsum (map (fun l => at_ a [nth 0 idx 0%nat; l] * at_ b [l; nth 1 idx 0%nat]) (seq 0 k))))
      else Err ValueError
  | _, _ => Err NotModelled
  end.
(** np.diag of a vector. *)
Definition diag (s : list R) : nda R :=
  mk_nda [length s; length s] (fun idx => if Nat.eqb (nth 0 idx 0%nat) (nth 1 idx 0%nat) then nth (nth 0 idx 0%nat) s 0 else 0).

(** svd.py:50-74 *)
Definition find_n_pc (u : nda R) (factor : R) : res nat :=
  match shape u with
  | [m; k] =>
      let p := Nat.sqrt m in
      if negb (Nat.eqb (p * p) m) then Err ValueError
      else
        do autos <- mapM (fun l =>
            let e := mk_nda [p; p] (fun idx => at_ u [nth 0 idx 0 * p + nth 1 idx 0; l]%nat) in
            convolve e (mk_nda [p; p] (fun idx => at_ e [p - 1 - nth 0 idx 0; p - 1 - nth 1 idx 0]%nat))) (seq 0 k);
        Ok (length (filter (fun a => if Rle_dec (at_ a [p / 2; p / 2]%nat ^ 2) (factor * sumn p (fun i => sumn p (fun j => at_ a [i; j] ^ 2)))
                                     then true else false) autos))
  | _ => Err NotModelled
  end.

Inductive data_arg := Ndarray (a : nda R) | NotNdarray.
(** svd.py:100-108 *)
Definition calculate_svd (svd : nda R -> svd_out) (x : data_arg) : res svd_out :=
  match x with
  | Ndarray a => if Nat.eqb (length (shape a)) 2 then Ok (svd a) else Err TypeError
  | NotNdarray => Err TypeError
  end.

(** The argument n_pc; NPOther is any other object (a float, a NumPy integer, ...). *)
Inductive npc_arg := NPNone | NPInt (z : Z) | NPStr (s : string) | NPOther.
(** What the caller sees besides the result. *)
Inductive event := WarnUsingAll | WarnNoChange | DebugPrint.

(** s[i] with Python's negative indices. *)
Definition py_index (s : list R) (i : Z) : res R :=
  let n := Z.of_nat (length s) in
  if ((- n <=? i) && (i <? n))%Z then Ok (nth (Z.to_nat (if (i <? 0)%Z then i + n else i)) s 0) else Err IndexError.

(** svd.py:156-180: the threshold used, when none is given. find_n_pc returns a NumPy integer, so its
    value is not compared with the number of singular values. *)
Definition pick_threshold (o : svd_out) (n_pc : npc_arg) : res (R * list event) :=
  let n := Z.of_nat (length (svd_s o)) in
  match n_pc with
  | NPNone => do c <- find_n_pc (svd_u o) (1 / 10); do t <- py_index (svd_s o) (Z.of_nat c - 1); Ok (t, [DebugPrint])
  | NPInt z => if (n <=? z)%Z then do t <- py_index (svd_s o) (n - 1); Ok (t, [WarnUsingAll])
               else do t <- py_index (svd_s o) (z - 1); Ok (t, [])
  | NPStr _ => do t <- py_index (svd_s o) (n - 1); Ok (t, [WarnUsingAll])
  | NPOther => Err NotModelled
  end.
(** svd.py:147-154 *)
Definition check_n_pc (n_pc : npc_arg) : bool :=
  match n_pc with NPNone => true | NPInt z => (0 <? z)%Z | NPStr s => String.eqb s "all" | NPOther => false end.

(** svd.py:147-192 *)
Definition svd_thresh (svd : nda R -> svd_out) (x : data_arg) (threshold : option thr) (n_pc : npc_arg) (ty : string) : res (nda R * list event) :=
  if negb (check_n_pc n_pc) then Err ValueError
  else
    do o <- calculate_svd svd x;
    do te <- match threshold with Some t => Ok (t, []) | None => do p <- pick_threshold o n_pc; Ok (TScalar (fst p), snd p) end;
    do s_new <- thresh (svd_s o) (fst te) ty;
    let w := if forallb (fun p => if Req_EM_T (fst p) (snd p) then true else false) (combine s_new (svd_s o)) then [WarnNoChange] else [] in
    do sv <- dot2 (diag s_new) (svd_v o);
    do r <- dot2 (svd_u o) sv;
    Ok (r, (snd te ++ w)%list).

(** svds raises ValueError unless 0 < k < min(shape), TypeError for None. *)
Definition svds_checked (svds : nda R -> nat -> svd_out) (x : nda R) (k : Z) : res svd_out :=
  match shape x with
  | [m; n] => if ((0 <? k) && (k <? Z.of_nat (Nat.min m n)))%Z then Ok (svds x (Z.to_nat k)) else Err ValueError
  | _ => Err NotModelled
  end.
(** svd.py:230-234. None: not finished within [fuel] iterations. *)
Fixpoint fast_loop (fuel : nat) (svds : nda R -> nat -> svd_out) (x : nda R) (mn : Z) (t : R) (n_vals extra_vals : Z) : option (res svd_out) :=
  match fuel with
  | O => None
  | S fuel' =>
      match svds_checked svds x n_vals with
      | Err e => Some (Err e)
      | Ok o =>
          if ((if Rle_dec (nth 0 (svd_s o) 0) t then true else false) || (n_vals =? mn - 1)%Z)%bool then Some (Ok o)
          else fast_loop fuel' svds x mn t (Z.min (n_vals + extra_vals) mn) extra_vals
      end
  end.
Definition count_nonzero (s : list R) : nat := length (filter (fun x => if Req_EM_T x 0 then false else true) s).
(** svd.py:236-249; s[-rank:] is the whole of s when rank is 0. *)
Definition fast_finish (o : svd_out) (t : R) (ty : string) : res (nda R * nat) :=
  do s_new <- thresh (svd_s o) (TScalar t) ty;
  let rank := count_nonzero s_new in
  let k := length s_new in
  let start := if Nat.eqb rank 0 then 0%nat else (k - rank)%nat in
  match shape (svd_u o), shape (svd_v o) with
  | [m; _], [_; n] =>
      do r <- dot2 (mk_nda [m; k - start]%nat (fun idx => at_ (svd_u o) [nth 0 idx 0; start + nth 1 idx 0]%nat * nth (start + nth 1 idx 0)%nat s_new 0))
                   (mk_nda [k - start; n]%nat (fun idx => at_ (svd_v o) [start + nth 0 idx 0; nth 1 idx 0]%nat));
      Ok (r, rank)
  | _, _ => Err NotModelled
  end.
(** svd.py:228-249 *)
Definition svd_thresh_coef_fast (fuel : nat) (svds : nda R -> nat -> svd_out) (x : nda R) (t : R) (n_vals : option Z) (extra_vals : Z) (ty : string)
  : option (res (nda R * nat)) :=
  match shape x with
  | [m; n] =>
      let mn := Z.of_nat (Nat.min m n) in
      match n_vals with
      | None => Some (Err TypeError)
      | Some z =>
          match fast_loop fuel svds x mn t (if (z =? -1)%Z then mn - 1 else z) extra_vals with
          | None => None
          | Some (Err e) => Some (Err e)
          | Some (Ok o) => Some (fast_finish o t ty)
          end
      end
  | _ => Some (Err NotModelled)
  end.

(** np.linalg.norm(elem): the root of the sum of the squares of all entries. *)
Definition flat {A} (a : nda A) : list A := map (fun p => at_ a (unravel (shape a) p)) (seq 0 (prod (shape a))).
Definition arr_norm (a : nda R) : R := sqrt (rsum (map (fun x => x * x) (flat a))).

(** svd.py:282-307; [operator] is None when it is not callable. *)
Definition svd_thresh_coef (svd : nda R -> svd_out) (x : data_arg) (operator : option (nda R -> res (nda R))) (t : R) (ty : string) : res (nda R) :=
  match operator with
  | None => Err TypeError
  | Some op =>
      do o <- calculate_svd svd x;
      do a <- dot2 (diag (svd_s o)) (svd_v o);
      match shape (svd_u o), shape a with
      | [m; _], [k; n] =>
          do c <- matrix2cube (svd_u o) [Nat.sqrt m; Nat.sqrt m];
          do oc <- op c;
          let ti := map arr_norm (items oc) in
          if negb (Nat.eqb (length ti * n) (k * n)) then Err ValueError
          else
            do rows <- mapM (fun l => thresh (map (fun j => at_ a [l; j]) (seq 0 n)) (TScalar (t * nth l ti 0)) ty) (seq 0 k);
            dot2 (svd_u o) (mk_nda [k; n] (fun idx => nth (nth 1 idx 0%nat) (nth (nth 0 idx 0%nat) rows []) 0))
      | _, _ => Err NotModelled
      end
  end.

(** matrix.py:117-120; [sv] are the singular values returned by np.linalg.svd. *)
Definition nuclear_norm (sv : nda R -> list R) (x : nda R) : R := rsum (sv x).

Record low_rank := mk_low_rank { lr_thresh : R; lr_type : string; lr_lowr : string; lr_rank : option Z; lr_op : option (nda R -> res (nda R)) }.
(** [rank or self.rank]: 0 counts as absent. *)
Definition py_or (a b : option Z) : option Z := match a with Some 0%Z => b | None => b | a => a end.

(** proximity.py:324-352; the second component of the result is the new value of self.rank. None: the
    loop of svd_thresh_coef_fast has not finished. *)
Definition low_rank_op (fuel : nat) (svd : nda R -> svd_out) (svds : nda R -> nat -> svd_out) (p : low_rank) (x : nda R) (extra_factor : R) (rank : option Z)
  : option (res (nda R * option Z)) :=
  let t := lr_thresh p * extra_factor in
  let back r := do c <- matrix2cube (fst r) (tl (shape x)); Ok (c, snd r) in
  if String.eqb (lr_lowr p) "standard" then
    match lr_rank p, rank with
    | None, None =>
        Some (do m <- cube2matrix x; do r <- svd_thresh svd (Ndarray m) (Some (TScalar t)) NPNone (lr_type p); back (fst r, None))
    | _, _ =>
        match cube2matrix x with
        | Err e => Some (Err e)
        | Ok m =>
            match svd_thresh_coef_fast fuel svds m t (py_or rank (lr_rank p)) 5 (lr_type p) with
            | None => None
            | Some r => Some (do r <- r; back (fst r, Some (Z.of_nat (snd r))))
            end
        end
    end
  else if String.eqb (lr_lowr p) "ngole" then
    Some (do m <- cube2matrix x; do r <- svd_thresh_coef svd (Ndarray m) (lr_op p) t (lr_type p); back (r, lr_rank p))
  else Some (Err ValueError).

(** proximity.py:373 *)
Definition low_rank_cost (sv : nda R -> list R) (p : low_rank) (x : nda R) : res R :=
  do m <- cube2matrix x; Ok (lr_thresh p * nuclear_norm sv m).
