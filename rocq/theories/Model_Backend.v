(** Model of base/backend.py: which library computes, moving arrays between libraries, torch tensors. *)
From Coq Require Import String.
From Verif Require Import NPReal Py.
From Coq Require Import List Lia.
Import ListNotations.
Local Open Scope string_scope.

(** The libraries of LIBRARIES (backend.py:26-30). *)
Inductive lib := Numpy | Cupy | TF.
Definition lib_eqb (a b : lib) : bool := match a, b with Numpy, Numpy | Cupy, Cupy | TF, TF => true | _, _ => false end.
(** What could be imported (backend.py:15-46); numpy always is. *)
Record env := mk_env { has_cupy : bool; has_tf : bool; has_torch : bool }.
(** LIBRARIES[name] : None when the name is no key, Some None when the library is missing. *)
Definition LIBRARIES (e : env) (name : string) : option (option lib) :=
  if String.eqb name "cupy" then Some (if has_cupy e then Some Cupy else None)
  else if String.eqb name "tensorflow" then Some (if has_tf e then Some TF else None)
  else if String.eqb name "numpy" then Some (Some Numpy)
  else None.

(** The kinds of objects that are passed around; a torch tensor lives on the CPU or on the GPU. *)
Inductive kind := KNumpy | KCupy | KTF | KTorch (cuda : bool) | KOther.
(** Single or double precision. *)
Inductive dtype := F32 | F64.
(** An object: the memory that holds its values, its kind, its precision and the values. *)
Record obj := mk_obj { mem : nat; okind : kind; prec : dtype; vals : list R }.

(** The text given to warn (backend.py:69-74; interface/errors.py:24-27). *)
Definition not_possible (name : string) : string :=
  name ++ " backend not possible, please ensure that the optional libraries are installed." ++ String (Ascii.ascii_of_nat 10) "" ++ "Reverting to numpy.".
(** backend.py:49-76: the module, the name and the warnings. *)
Definition get_backend (e : env) (name : string) : lib * string * list string :=
  match LIBRARIES e name with
  | Some (Some l) => (l, name, [])
  | _ => (Numpy, "numpy", [not_possible name])
  end.
(** backend.py:79-102 *)
Definition get_array_module (e : env) (x : obj) : lib :=
  if (has_tf e && match okind x with KTF => true | _ => false end)%bool then TF
  else if (has_cupy e && match okind x with KCupy => true | _ => false end)%bool then Cupy
  else Numpy.

(** txp.array(x) with new memory [m]. Numpy accepts anything but CuPy arrays, which refuse the implicit
    conversion; between CuPy, TensorFlow and torch it is not modelled. *)
Definition array_of (l : lib) (m : nat) (x : obj) : res obj :=
  match l, okind x with
  | Numpy, KCupy => Err TypeError
  | Numpy, KTorch true => Err TypeError
  | Numpy, _ => Ok (mk_obj m KNumpy (prec x) (vals x))
  | Cupy, (KNumpy | KCupy | KOther) => Ok (mk_obj m KCupy (prec x) (vals x))
  | TF, (KNumpy | KTF | KOther) => Ok (mk_obj m KTF (prec x) (vals x))
  | _, _ => Err NotModelled
  end.
(** backend.py:105-130: the warnings and the result. *)
Definition change_backend (e : env) (m : nat) (x : obj) (name : string) : list string * res obj :=
  let '(txp, _, w) := get_backend e name in
  (w, if lib_eqb (get_array_module e x) txp then Ok x else array_of txp m x).
(** backend.py:133-162; get() and data.numpy() copy to new memory. *)
Definition move_to_cpu (e : env) (m : nat) (x : obj) : res obj :=
  let xp := get_array_module e x in
  if lib_eqb xp Numpy then Ok x
  else if (has_cupy e && lib_eqb xp Cupy)%bool then Ok (mk_obj m KNumpy (prec x) (vals x))
  else if (has_tf e && lib_eqb xp TF)%bool then Ok (mk_obj m KNumpy (prec x) (vals x))
  else Err ValueError.

Section Tensors.
(** Rounding to single precision. *)
Variable f32 : R -> R.
(** .float(): nothing to do in single precision, otherwise a copy. *)
Definition to_float (m : nat) (x : obj) : obj := match prec x with F32 => x | F64 => mk_obj m (okind x) F32 (map f32 (vals x)) end.
(** backend.py:165-197; torch.Tensor copies to single precision on the CPU; dlpack shares the memory; only CuPy
    arrays have toDlpack. *)
Definition convert_to_tensor (e : env) (m : nat) (x : obj) : res obj :=
  if negb (has_torch e) then Err ImportError
  else match get_array_module e x with
       | Numpy => match okind x with
                  | KNumpy | KOther => Ok (mk_obj m (KTorch false) F32 (match prec x with F32 => vals x | F64 => map f32 (vals x) end))
                  | _ => Err NotModelled
                  end
       | Cupy => Ok (to_float m (mk_obj (mem x) (KTorch true) (prec x) (vals x)))
       | TF => Err AttributeError
       end.
(** backend.py:200-230; cp is bound only if cupy was imported; .numpy() shares the memory; only tensors have is_cuda. *)
Definition convert_to_cupy_array (e : env) (x : obj) : res obj :=
  if negb (has_torch e) then Err ImportError
  else match okind x with
       | KTorch true => if has_cupy e then Ok (mk_obj (mem x) KCupy (prec x) (vals x)) else Err NameError
       | KTorch false => Ok (mk_obj (mem x) KNumpy (prec x) (vals x))
       | _ => Err AttributeError
       end.
End Tensors.
