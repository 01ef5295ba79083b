(** Model of signal/wavelet.py: execute, call_mr_transform, trim_filter, get_mr_filters. The external
    program mr_transform, the file system and the FITS files are parameters. *)
From Coq Require Import String Ascii.
From Verif Require Import NPReal Py Model_Array Model_Noise Model_Linear.
Import List ListNotations.
Local Open Scope string_scope.

(** * trim_filter *)

Definition nonzero (r : R) : bool := if Req_EM_T r 0 then false else true.
(** np.where(a != 0)[ax]: coordinates along axis ax of the non-zero entries, in row-major order. *)
Definition where_axis (a : nda R) (ax : nat) : list nat :=
  map (fun p => nth ax (unravel (shape a) p) 0%nat)
      (filter (fun p => nonzero (at_ a (unravel (shape a) p))) (seq 0 (prod (shape a)))).
(** np.min and np.max along the last axis; an empty reduction raises ValueError. *)
Definition nat_min (l : list nat) : res nat := match l with [] => Err ValueError | x :: l => Ok (fold_right Nat.min x l) end.
Definition nat_max (l : list nat) : res nat := match l with [] => Err ValueError | x :: l => Ok (fold_right Nat.max x l) end.

(** wavelet.py:192-196; a 1-D filter fails at min_idx[1]. Other numbers of axes are not modelled. *)
Definition trim_filter (a : nda R) : res (nda R) :=
  match shape a with
  | [_; _] =>
      do min0 <- nat_min (where_axis a 0);
      do min1 <- nat_min (where_axis a 1);
      do max0 <- nat_max (where_axis a 0);
      do max1 <- nat_max (where_axis a 1);
      Ok (slice2 a min0 (max0 + 1) min1 (max1 + 1))
  | [_] => do _ <- nat_min (where_axis a 0); Err IndexError
  | _ => Err NotModelled
  end.

(** * get_mr_filters *)

(** wavelet.py:235 for one entry of the shape, n >= 1; 0 becomes -1, which np.zeros rejects. *)
Definition odd_size (n : nat) : nat := (n + n mod 2 - 1)%nat.

(** wavelet.py:238-239 *)
Definition impulse (h w : nat) : nda R :=
  mk_nda [h; w] (fun idx => if (Nat.eqb (nth 0 idx 0%nat) (h / 2) && Nat.eqb (nth 1 idx 0%nat) (w / 2))%bool then 1%R else 0%R).

(** a[:-1] *)
Definition drop_last {A} (a : nda A) : nda A := mk_nda ((hd 0%nat (shape a) - 1)%nat :: tl (shape a)) (at_ a).

(** wavelet.py:234-251; [mr] is call_mr_transform with the given options. *)
Definition get_mr_filters (mr : nda R -> res (nda R)) (data_shape : list nat) (coarse trim : bool) : res (nda R) :=
  match data_shape with
  | [h; w] =>
      if (Nat.eqb h 0 || Nat.eqb w 0)%bool then Err ValueError
      else
        do mr_filters <- mr (impulse (odd_size h) (odd_size w));                    (* :242 *)
        do mr_filters <- (if trim then do l <- mapM trim_filter (items mr_filters); stack l   (* :244-245 *)
                          else Ok mr_filters);
        if coarse then Ok mr_filters else Ok (drop_last mr_filters)                 (* :248-251 *)
  | _ => Err NotModelled
  end.

(** * execute and call_mr_transform *)

(** str.split(): maximal runs of characters that are not white space (ASCII part and Latin-1). *)
Definition is_space (c : ascii) : bool :=
  let n := nat_of_ascii c in
  ((Nat.leb 9 n && Nat.leb n 13) || (Nat.leb 28 n && Nat.leb n 32) || Nat.eqb n 133 || Nat.eqb n 160)%bool.
Fixpoint split_from (cur : string) (s : string) : list string :=
  match s with
  | EmptyString => if String.eqb cur "" then [] else [cur]
  | String c s' => if is_space c then (if String.eqb cur "" then [] else [cur]) ++ split_from "" s'
                   else split_from (cur ++ String c "") s'
  end%list.
Definition split (s : string) : list string := split_from "" s.

(** word in stdout *)
Definition contains (w s : string) : bool := match String.index 0 w s with Some _ => true | None => false end.

Section Call.
(** Contents of FITS files are arrays here; [file] is any other content. *)
Variable content : Type.
Variable of_array : nda R -> content.          (* what fits.writeto stores *)
Variable to_array : content -> option (nda R). (* fits.getdata; None raises OSError *)
Definition fs := string -> option content.
Definition put (f : fs) (n : string) (c : option content) : fs := fun m => if String.eqb m n then c else f m.

(** Running a command: the new file system, stdout and stderr. *)
Variable run : list string -> fs -> fs * string * string.

Inductive command_arg := Str (s : string) | NotStr.
(** wavelet.py:58-66. An empty command line makes Popen raise (IndexError). *)
Definition execute (c : command_arg) (f : fs) : fs * res (string * string) :=
  match c with
  | NotStr => (f, Err TypeError)
  | Str s => match split s with
             | [] => (f, Err IndexError)
             | args => let '(f', out, err) := run args f in (f', Ok (out, err))
             end
  end.

(** os.remove *)
Definition remove (f : fs) (n : string) : fs * res unit :=
  match f n with Some _ => (put f n None, Ok tt) | None => (f, Err OSError) end.

(** wavelet.py:157 *)
Definition reports_error (out : string) : bool := (contains "bad" out || contains "Error" out || contains "Sorry" out)%bool.

(** The data argument: an ndarray or anything else. *)
Inductive image_arg := Image (a : nda R) | NoImage.
(** opt: one string or a list of strings. *)
Inductive opt_arg := OptStr (s : string) | OptList (l : list string).

(** wavelet.py:130-173, astropy being installed; [installed] is the outcome of is_executable, [unique]
    the unique string. astype(input_data.dtype) is the identity on real data. *)
Definition call_mr_transform (installed : bool) (unique : string) (input_data : image_arg) (opt : opt_arg) (path : string)
    (remove_files : bool) (f : fs) : fs * res (nda R) :=
  match input_data with
  | NoImage => (f, Err ValueError)
  | Image a =>
    if negb (Nat.eqb (List.length (shape a)) 2) then (f, Err ValueError)                     (* :130-131 *)
    else if negb installed then (f, Err OSError)                                             (* :136 *)
    else
      let file_name := path ++ "mr_temp_" ++ unique in                                       (* :142-144 *)
      let file_fits := file_name ++ ".fits" in
      let file_mr := file_name ++ ".mr" in
      match f file_fits with
      | Some _ => (f, Err OSError)                                                           (* writeto does not overwrite *)
      | None =>
        let f := put f file_fits (Some (of_array a)) in                                      (* :147 *)
        let opts := match opt with OptStr s => split s | OptList l => l end in               (* :149-150 *)
        let command_line := String.concat " " ("mr_transform" :: opts ++ [file_fits; file_mr])%list in  (* :153 *)
        match execute (Str command_line) f with
        | (f, Err e) => (f, Err e)
        | (f, Ok (out, _)) =>
          if reports_error out then                                                          (* :157-162 *)
            match remove f file_fits with
            | (f, Err e) => (f, Err e)
            | (f, Ok _) => (f, Err RuntimeError)
            end
          else
            match f file_mr with                                                             (* :165 *)
            | None => (f, Err OSError)
            | Some c =>
              match to_array c with
              | None => (f, Err OSError)
              | Some r =>
                if remove_files then                                                         (* :168-170 *)
                  match remove f file_fits with
                  | (f, Err e) => (f, Err e)
                  | (f, Ok _) => match remove f file_mr with
                                 | (f, Err e) => (f, Err e)
                                 | (f, Ok _) => (f, Ok r)
                                 end
                  end
                else (f, Ok r)
              end
            end
        end
      end
  end.
End Call.
