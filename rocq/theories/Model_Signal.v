(** Model of signal/positivity.py and of thresh in signal/noise.py. Real data, exact reals. *)
From Coq Require Import String.
From Verif Require Import NPReal Py IPS.
Local Open Scope R_scope.

(** * signal/positivity.py *)

(** A Python or NumPy boolean used as a number. *)
Definition b2r (b : bool) : R := if b then 1 else 0.
Definition gtb (a b : R) : bool := if Rlt_dec b a then true else false.
Definition geb (a b : R) : bool := if Rle_dec b a then true else false.

(** positivity.py:29, element-wise. *)
Definition pos_thresh (x : R) : R := x * b2r (gtb x 0).

(** Arrays as pos_recursive sees them: a numeric array (flattened), an object array (a 2-D
    object array is identified with an object array of its rows), or - inside an object array -
    a plain Python number or list, which has no [dtype]. *)
Inductive ptree :=
| NumArr (l : list R)
| ObjArr (l : list ptree)
| NoDtype (r : R).

Definition same_length_nums (l : list ptree) : option (list (list R)) :=
  (fix go (l : list ptree) : option (list (list R)) :=
     match l with
     | [] => Some []
     | NumArr a :: l' =>
         match go l' with
         | Some rows => match rows with
                        | [] => Some [a]
                        | b :: _ => if Nat.eqb (List.length a) (List.length b) then Some (a :: rows) else None
                        end
         | None => None
         end
     | _ => None
     end) l.

(** np.array(list_of_arrays, dtype="object"): equally long arrays are merged into one 2-D
    object array (so their elements become Python numbers), others stay separate. *)
Definition np_object_array (l : list ptree) : ptree :=
  match l with
  | [] => ObjArr []
  | _ => match same_length_nums l with
         | Some rows => ObjArr (map (fun row => ObjArr (map NoDtype row)) rows)
         | None => ObjArr l
         end
  end.

(** positivity.py:48-54 *)
Fixpoint pos_recursive (t : ptree) : res ptree :=
  match t with
  | NumArr l => Ok (NumArr (map pos_thresh l))
  | ObjArr l =>
      do rs <- (fix go (l : list ptree) : res (list ptree) :=
                  match l with
                  | [] => Ok []
                  | a :: l' => do b <- pos_recursive a; do bs <- go l'; Ok (b :: bs)
                  end) l;
      Ok (np_object_array rs)
  | NoDtype _ => Err AttributeError
  end.

(** What [positive] is given: a number, something np.array turns into an array, or neither. *)
Inductive pos_arg := PosNum (r : R) | PosArr (t : ptree) | PosOther.
Inductive pos_result := RNum (r : R) | RArr (t : ptree).

(** positivity.py:96-111 (ragged=False, or an object array already). *)
Definition positive (a : pos_arg) : res pos_result :=
  match a with
  | PosOther => Err TypeError
  | PosNum r => Ok (RNum (pos_thresh r))
  | PosArr t => do t' <- pos_recursive t; Ok (RArr t')
  end.

(** The arguments given as a Python list of 1-D numeric arrays with ragged=True:
    np.array(arrays, dtype="object"), positivity.py:105-106. *)
Definition positive_ragged (arrays : list (list R)) : res pos_result :=
  positive (PosArr (np_object_array (map NumArr arrays))).

(** * signal/noise.py: thresh *)

(** A threshold: a number or a flat array. *)
Inductive thr := TScalar (t : R) | TArray (l : list R).

(** NumPy broadcasting of the threshold against flat data of length n; a longer result than the
    data (data of length 1) is not modelled. *)
Definition bcast (t : thr) (n : nat) : res (list R) :=
  match t with
  | TScalar t => Ok (repeat t n)
  | TArray l =>
      if Nat.eqb (List.length l) n then Ok l
      else match l with
           | [t] => Ok (repeat t n)
           | _ => if Nat.eqb n 1 then Err NotModelled else Err ValueError
           end
  end.

(** np.finfo(np.float64).eps *)
Definition eps64 : R := / 2 ^ 52.

(** noise.py:179-180: the value before rounding. *)
Definition soft_unrounded (t x : R) : R :=
  Rmax (1 - t / Rmax eps64 (Rabs x)) 0 * x.
(** noise.py:182 *)
Definition soft1 (t x : R) : R := around 15 (soft_unrounded t x).
(** noise.py:184 *)
Definition hard1 (t x : R) : R := x * b2r (geb (Rabs x) t).

(** noise.py:169-184 *)
Definition thresh (x : list R) (t : thr) (ty : string) : res (list R) :=
  if negb (String.eqb ty "hard" || String.eqb ty "soft") then Err ValueError
  else
    do ts <- bcast t (List.length x);
    if String.eqb ty "soft" then Ok (map2 soft1 ts x) else Ok (map2 hard1 ts x).
