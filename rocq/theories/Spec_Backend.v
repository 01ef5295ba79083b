(** Specification vocabulary for backends. *)
From Coq Require Import String.
From Verif Require Import Py Model_Backend.
From Coq Require Import List.
Local Open Scope string_scope.

(** The names of the libraries, and which are installed. *)
Definition named (l : lib) (name : string) : Prop := match l with Numpy => name = "numpy" | Cupy => name = "cupy" | TF => name = "tensorflow" end.
Definition installed (e : env) (l : lib) : Prop := match l with Numpy => True | Cupy => has_cupy e = true | TF => has_tf e = true end.
(** The library an array belongs to. *)
Definition array_in (l : lib) (x : obj) : Prop := okind x = match l with Numpy => KNumpy | Cupy => KCupy | TF => KTF end.
(** An object can exist only if its library is installed. *)
Definition exists_in (e : env) (x : obj) : Prop :=
  match okind x with KCupy => has_cupy e = true | KTF => has_tf e = true | KTorch _ => has_torch e = true | _ => True end.
(** Changing one value of the memory of y changes x as well. *)
Definition shares (x y : obj) : Prop := mem x = mem y.
