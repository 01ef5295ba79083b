(** Model of check_float and check_int of base/types.py on nested lists and tuples, arrays of any
    shape, infinities, nan and integers too large for the target type (Model_Types has flat lists of
    ordinary numbers). Not modelled: rounding, strings, arrays inside lists, NumPy's limit on the
    number of dimensions. *)
From Verif Require Import NPReal Py Model_Stats.
From Coq Require Import ZArith List Lia.
Import ListNotations.
Local Open Scope R_scope.

(** A Python int or float. *)
Inductive number := NumI (z : Z) | NumF (v : fval).

(** What a list or tuple can hold: numbers, and lists or tuples. *)
Inductive tree := Leaf (n : number) | Seq (l : list tree).

(** Python objects as base/types.py distinguishes them; arrays are a shape and the entries in row
    major order. *)
Inductive nobj :=
| ONum (n : number)
| OSeq (l : list tree)                        (* list or tuple *)
| OArrF (shape : list nat) (l : list fval)    (* ndarray of a floating dtype *)
| OArrI (shape : list nat) (l : list Z)       (* ndarray of an integer dtype *)
| OOther.                                     (* anything else, NumPy integers and float32 included *)

Fixpoint same_shape (a b : list nat) : bool :=
  match a, b with
  | [], [] => true
  | x :: a', y :: b' => Nat.eqb x y && same_shape a' b'
  | _, _ => false
  end.

(** np.array: the shape of nested sequences, None when they are not rectangular. *)
Fixpoint shape_of (t : tree) : option (list nat) :=
  match t with
  | Leaf _ => Some []
  | Seq l =>
      match map shape_of l with
      | [] => Some [O]
      | None :: _ => None
      | Some s :: os =>
          if forallb (fun o => match o with Some s' => same_shape s s' | None => false end) os
          then Some (length l :: s) else None
      end
  end.

Fixpoint leaves (t : tree) : list number :=
  match t with Leaf n => [n] | Seq l => flat_map leaves l end.

(** float(n): an int that rounds to 2^1024 or more raises OverflowError. *)
Definition float_limit : Z := 2 ^ 1024 - 2 ^ 970.
Definition to_float (n : number) : res fval :=
  match n with
  | NumI z => if (Z.abs z <? float_limit)%Z then Ok (Fin (IZR z)) else Err OverflowError
  | NumF v => Ok v
  end.

(** int(v) for a float. *)
Definition py_int (v : fval) : res Z :=
  match v with
  | Fin r => Ok (trunc r)
  | NaN => Err ValueError
  | PInf | NInf => Err OverflowError
  end.

(** An element of np.array(..., dtype=int): int(n), which must fit 64 bits. *)
Definition fits64 (z : Z) : bool := ((- 2 ^ 63 <=? z) && (z <? 2 ^ 63))%Z.
Definition to_int64 (n : number) : res Z :=
  do z <- match n with NumI z => Ok z | NumF v => py_int v end;
  if fits64 z then Ok z else Err OverflowError.

(** np.array(t, dtype=...): the shape is found first, then the elements are converted in order. *)
Definition np_array {A} (conv : number -> res A) (t : tree) : res (list nat * list A) :=
  match shape_of t with
  | None => Err ValueError
  | Some s => do l <- mapM conv (leaves t); Ok (s, l)
  end.

(** astype(int) of a float: no error; what the processor gives for nan, infinities and values out of
    range is a parameter. *)
Definition cast64 (junk : fval -> Z) (v : fval) : Z :=
  match v with Fin r => if fits64 (trunc r) then trunc r else junk v | _ => junk v end.

(** base/types.py:71-82 *)
Definition check_float_n (v : nobj) : res nobj :=
  match v with
  | OOther => Err TypeError                                                     (* :71-72 *)
  | ONum (NumI z) => do x <- to_float (NumI z); Ok (ONum (NumF x))              (* :73-74 *)
  | ONum (NumF x) => Ok (ONum (NumF x))
  | OSeq l => do a <- np_array to_float (Seq l); Ok (OArrF (fst a) (snd a))     (* :75-76 *)
  | OArrI s l => Ok (OArrF s (map (fun z => Fin (IZR z)) l))                    (* :77-80 *)
  | OArrF s l => Ok (OArrF s l)
  end.

(** base/types.py:120-131 *)
Definition check_int_n (junk : fval -> Z) (v : nobj) : res nobj :=
  match v with
  | OOther => Err TypeError                                                     (* :120-121 *)
  | ONum (NumF x) => do z <- py_int x; Ok (ONum (NumI z))                       (* :122-123 *)
  | ONum (NumI z) => Ok (ONum (NumI z))
  | OSeq l => do a <- np_array to_int64 (Seq l); Ok (OArrI (fst a) (snd a))     (* :124-125 *)
  | OArrF s l => Ok (OArrI s (map (cast64 junk) l))                             (* :126-129 *)
  | OArrI s l => Ok (OArrI s l)
  end.
