(** Model of the data handling of GradParent (opt/gradient.py) with NumPy arrays as objects: array
    objects with a writeable flag look into shared buffers. *)
From Coq Require Import String.
From Verif Require Import NPReal Py.
From Coq Require Import List Arith.
Import ListNotations.
Local Open Scope R_scope.

(** Element types and the [data_type] argument. The entries of every array are kept as pairs of
    reals (the imaginary part is 0 unless the type is complex). *)
Inductive adt := I64 | F32 | F64 | C128.
Inductive want := WNone | WFloat | WFloating | WComplex | WInt.

(** np.issubdtype: float, complex and int stand for float64, complex128 and int64. *)
Definition issub (d : adt) (w : want) : bool :=
  match w, d with
  | WNone, _ | WFloat, F64 | WFloating, F32 | WFloating, F64 | WComplex, C128 | WInt, I64 => true
  | _, _ => false
  end.
Definition is_floating (d : adt) : bool := match d with F32 | F64 => true | _ => false end.

(** An array object: the buffer it looks into, the positions it shows (slices, reshapes and
    transposes are such selections), its element type, its flag, and - for a view - the array object
    that owns the buffer (NumPy makes views of views refer to the owner). *)
Record obj := mk_obj { o_buf : nat; o_idx : list nat; o_dt : adt; o_w : bool; o_base : option nat }.
Record heap := mk_heap { h_objs : list obj; h_bufs : list (list (R * R)) }.

Fixpoint update {A} (l : list A) (i : nat) (a : A) : list A :=
  match l, i with
  | [], _ => []
  | _ :: l', O => a :: l'
  | b :: l', S j => b :: update l' j a
  end.

Definition buffer (h : heap) (b : nat) : list (R * R) := nth b (h_bufs h) [].
Definition shown (h : heap) (o : obj) : list (R * R) := map (fun k => nth k (buffer h (o_buf o)) (0, 0)) (o_idx o).

(** A new array owning its buffer. *)
Definition alloc (h : heap) (d : adt) (v : list (R * R)) : heap * nat :=
  (mk_heap (h_objs h ++ [mk_obj (length (h_bufs h)) (seq 0 (length v)) d true None]) (h_bufs h ++ [v]),
   length (h_objs h)).

(** a.flags.writeable = w: NumPy refuses True for a view whose owner is read-only. *)
Definition set_flag (h : heap) (r : nat) (w : bool) : res heap :=
  match nth_error (h_objs h) r with
  | None => Err NotModelled
  | Some o =>
      let allowed := match o_base o with
                     | None => true
                     | Some b => match nth_error (h_objs h) b with Some ob => o_w ob | None => false end
                     end in
      if w && negb allowed then Err ValueError
      else Ok (mk_heap (update (h_objs h) r (mk_obj (o_buf o) (o_idx o) (o_dt o) w (o_base o))) (h_bufs h))
  end.

(** What the user passes: an array object, a list or tuple of numbers, an int or float, anything else. *)
Inductive value := VArr (r : nat) | VList (l : list R) | VNum (x : R) | VOther.

(** base/types.py:71-82 (check_float): arrays of a floating type are passed through, others are
    converted into new arrays (a complex array keeps its real part). *)
Definition check_float_h (h : heap) (v : value) : res (heap * value) :=
  match v with
  | VOther => Err TypeError
  | VNum x => Ok (h, VNum x)
  | VList l => let '(h', r) := alloc h F64 (map (fun x => (x, 0)) l) in Ok (h', VArr r)
  | VArr r =>
      match nth_error (h_objs h) r with
      | None => Err NotModelled
      | Some o => if is_floating (o_dt o) then Ok (h, VArr r)
                  else let '(h', r') := alloc h F64 (map (fun z => (fst z, 0)) (shown h o)) in Ok (h', VArr r')
      end
  end.

(** base/types.py:158-173 (check_npndarray); returns the heap and the warnings. *)
Definition check_npndarray_h (h : heap) (v : value) (w : want) (writeable verbose : bool) : res (heap * list string) :=
  match v with
  | VArr r =>
      match nth_error (h_objs h) r with
      | None => Err NotModelled
      | Some o =>
          if negb (issub (o_dt o) w) then Err TypeError
          else
            let ws := if negb writeable && verbose && o_w o then ["Making input data immutable."%string] else [] in
            do h' <- set_flag h r writeable; Ok (h', ws)
      end
  | _ => Err TypeError
  end.

(** gradient.py:97-108: the obs_data setter, also run by the constructor (gradient.py:74). The
    result is the heap, the stored array object and the warnings. *)
Definition set_obs (w : want) (writeable verbose : bool) (h : heap) (v : value) : res (heap * nat * list string) :=
  do hv <- match w with WFloat | WFloating => check_float_h h v | _ => Ok (h, v) end;
  let '(h1, v1) := hv in
  do hw <- check_npndarray_h h1 v1 w writeable verbose;
  match v1 with VArr r => Ok (fst hw, r, snd hw) | _ => Err TypeError end.

(** gradient.py:155-159: the grad setter. *)
Definition set_grad (w : want) (h : heap) (v : value) : res (heap * value) :=
  match w with WFloat | WFloating => check_float_h h v | _ => Ok (h, v) end.

(** What the rest of the program does to arrays: item assignment, taking a view, copying, making
    another gradient operator. A failing operation raises and changes nothing. Assigned values are
    stored as given (casts are not modelled). *)
Inductive event :=
| Write (r i : nat) (v : R * R)
| View (r : nat) (pos : list nat)
| Copy (r : nat)
| Grad (w : want) (writeable verbose : bool) (v : value).

Definition exec (h : heap) (e : event) : heap :=
  match e with
  | Write r i v =>
      match nth_error (h_objs h) r with
      | Some o => if o_w o then
                    match nth_error (o_idx o) i with
                    | Some k => mk_heap (h_objs h) (update (h_bufs h) (o_buf o) (update (buffer h (o_buf o)) k v))
                    | None => h
                    end
                  else h
      | None => h
      end
  | View r pos =>
      match nth_error (h_objs h) r with
      | Some o => mk_heap (h_objs h ++ [mk_obj (o_buf o) (map (fun p => nth p (o_idx o) O) pos) (o_dt o) (o_w o)
                                          (Some (match o_base o with None => r | Some b => b end))]) (h_bufs h)
      | None => h
      end
  | Copy r =>
      match nth_error (h_objs h) r with
      | Some o => fst (alloc h (o_dt o) (shown h o))
      | None => h
      end
  | Grad w wr vb v => match set_obs w wr vb h v with Ok (h', _, _) => h' | Err _ => h end
  end.
