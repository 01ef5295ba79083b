(** Model of base/types.py: check_float, check_int (check_npndarray is in
    Model_Obs). *)
From Verif Require Import NPReal Py.
Open Scope R_scope.

(** A number found inside a Python list or tuple. *)
Inductive num := NInt (z : Z) | NFloat (r : R).

(** Python objects, as far as the type tests of base/types.py distinguish them. Arrays are
    given by their flattened elements (the code treats every shape alike); [AObj] objects are
    everything that is not an int, float, list, tuple or ndarray.
    Simplifications: floats are exact reals (no nan, inf, overflow), integers are unbounded,
    lists and tuples are flat and hold numbers. *)
Inductive pyobj :=
| PyInt (z : Z)                    (* int; bool is a subclass of int *)
| PyFloat (r : R)
| PyList (l : list num)
| PyTuple (l : list num)
| ArrFloat (l : list R)            (* ndarray of a floating dtype *)
| ArrInt (l : list Z)              (* ndarray of an integer dtype *)
| ArrBool (l : list bool)          (* ndarray of dtype bool: neither floating nor integer *)
| ArrComplex (l : list (R * R))    (* ndarray of a complex dtype *)
| PyObj.

Definition num_float (n : num) : R := match n with NInt z => IZR z | NFloat r => r end.
Definition num_int (n : num) : Z := match n with NInt z => z | NFloat r => trunc r end.

(** base/types.py:71-82. [astype(float)] of a complex array keeps the real part. *)
Definition check_float (v : pyobj) : res pyobj :=
  match v with
  | PyObj => Err TypeError                                        (* :71-72 *)
  | PyInt z => Ok (PyFloat (IZR z))                               (* :73-74 *)
  | PyFloat r => Ok (PyFloat r)
  | PyList l | PyTuple l => Ok (ArrFloat (map num_float l))       (* :75-76 *)
  | ArrFloat l => Ok (ArrFloat l)
  | ArrInt l => Ok (ArrFloat (map IZR l))                         (* :77-80 *)
  | ArrBool l => Ok (ArrFloat (map (fun b : bool => if b then 1 else 0) l))
  | ArrComplex l => Ok (ArrFloat (map fst l))
  end.

(** base/types.py:120-131. *)
Definition check_int (v : pyobj) : res pyobj :=
  match v with
  | PyObj => Err TypeError                                        (* :120-121 *)
  | PyFloat r => Ok (PyInt (trunc r))                             (* :122-123 *)
  | PyInt z => Ok (PyInt z)
  | PyList l | PyTuple l => Ok (ArrInt (map num_int l))           (* :124-125 *)
  | ArrInt l => Ok (ArrInt l)
  | ArrFloat l => Ok (ArrInt (map trunc l))                       (* :126-129 *)
  | ArrBool l => Ok (ArrInt (map (fun b : bool => if b then 1%Z else 0%Z) l))
  | ArrComplex l => Ok (ArrInt (map (fun c => trunc (fst c)) l))
  end.

