(** Model of interface/log.py and interface/errors.py over a small model of Python's logging, warnings and
    file streams. *)
From Coq Require Import String Ascii.
From Verif Require Import Py.
From Coq Require Import List Arith.
Import ListNotations.
Local Open Scope string_scope.

(** A FileHandler: its stream and the file that it opened. *)
Record handler := mk_handler { sid : nat; hfile : string }.

(** The process: files, handlers attached to each logger, next stream, position of each stream, whether
    logging.captureWarnings(True) is in force, and what was written to stdout and stderr. *)
Record world := mk_world {
  files : string -> option string;
  loggers : string -> list handler;
  next : nat;
  pos : nat -> nat;
  captured : bool;
  out : string;
  err : string }.

Definition set_files w x := mk_world x (loggers w) (next w) (pos w) (captured w) (out w) (err w).
Definition set_loggers w x := mk_world (files w) x (next w) (pos w) (captured w) (out w) (err w).
Definition print_out w s := mk_world (files w) (loggers w) (next w) (pos w) (captured w) (out w ++ s) (err w).
Definition print_err w s := mk_world (files w) (loggers w) (next w) (pos w) (captured w) (out w) (err w ++ s).

Definition upd {A} (f : string -> A) (n : string) (a : A) : string -> A := fun m => if String.eqb m n then a else f m.
Definition updn {A} (f : nat -> A) (n : nat) (a : A) : nat -> A := fun m => if Nat.eqb m n then a else f m.

(** Writing at a position of a file: a gap beyond the end is filled with NUL characters. *)
Fixpoint nuls (n : nat) : string := match n with O => "" | S n => String Ascii.zero (nuls n) end.
Definition write_at (p : nat) (s c : string) : string :=
  substring 0 p (c ++ nuls (p - String.length c)) ++ s ++
  substring (p + String.length s) (String.length c - (p + String.length s)) c.

(** StreamHandler.emit: write the formatted record and flush. *)
Definition emit (line : string) (w : world) (h : handler) : world :=
  let c := match files w (hfile h) with Some c => c | None => "" end in
  mk_world (upd (files w) (hfile h) (Some (write_at (pos w (sid h)) line c))) (loggers w) (next w)
           (updn (pos w) (sid h) (pos w (sid h) + String.length line)) (captured w) (out w) (err w).

(** The ancestors of a logger, nearest first: the non-empty prefixes of its name that end before a dot. *)
Fixpoint anc (pre s : string) : list string :=
  match s with
  | EmptyString => []
  | String c s' => anc (pre ++ String c "") s' ++ (if (Ascii.eqb c "." && negb (String.eqb pre ""))%bool then [pre] else [])
  end%list.
Definition ancestors (n : string) : list string := anc "" n.

(** Handlers that see a record of logger n (all loggers propagate; the root logger has no handler). *)
Definition reached (w : world) (n : string) : list handler := flat_map (loggers w) (n :: ancestors n).

Definition nl : string := String (ascii_of_nat 10) "".
(** The format of log.py:40-43, [t] being the time stamp. *)
Definition line (t msg : string) : string := t ++ " " ++ msg ++ nl.

(** A record of level INFO: lost when no handler sees it. *)
Definition info (t n msg : string) (w : world) : world := fold_left (emit (line t msg)) (reached w n) w.

Section Log.
(** Whether a file can be opened for writing. *)
Variable writable : string -> bool.

(** log.py:31-58; logging.getLogger returns the same logger for the same name. *)
Definition set_up_log (t filename : string) (verbose : bool) (w : world) : world * res string :=
  let filename := filename ++ ".log" in                                                       (* :31 *)
  let w := if verbose then print_out w ("Preparing log file: " ++ filename ++ nl) else w in    (* :33-34 *)
  let w := mk_world (files w) (loggers w) (next w) (pos w) true (out w) (err w) in             (* :37 *)
  if negb (writable filename) then (w, Err OSError)                                           (* :46 *)
  else
    let h := mk_handler (next w) filename in
    let w := mk_world (upd (files w) filename (Some "")) (loggers w) (S (next w)) (updn (pos w) (next w) 0)
                      (captured w) (out w) (err w) in
    let w := set_loggers w (upd (loggers w) filename (loggers w filename ++ [h])%list) in      (* :51-53 *)
    (info t filename "The log file has been set-up." w, Ok filename).                         (* :56 *)
End Log.

(** Logger.removeHandler *)
Fixpoint drop (i : nat) (l : list handler) : list handler :=
  match l with [] => [] | h :: l => if Nat.eqb (sid h) i then l else h :: drop i l end.
(** log.py:81-82: the loop walks the list that it shortens; [i] is the position of the iterator. *)
Fixpoint close_loop (fuel i : nat) (l : list handler) : list handler :=
  match fuel with
  | O => l
  | S fuel => match nth_error l i with
              | None => l
              | Some h => close_loop fuel (S i) (drop (sid h) l)
              end
  end.

(** log.py:74-82 for the logger named n. The iterator moves at most as often as there are handlers. *)
Definition close_log (t n : string) (verbose : bool) (w : world) : world :=
  let w := if verbose then print_out w ("Closing log file: " ++ n ++ nl) else w in
  let w := info t n "The log file has been closed." w in
  set_loggers w (upd (loggers w) n (close_loop (List.length (loggers w n)) 0 (loggers w n))).

Section Errors.
(** What warnings.showwarning writes for a message, and the coloured words. *)
Variable stock : string -> string.
Variables WARNING ERROR : string.

(** warnings.warn for a message that the filters let through. Captured, it is a record of the logger
    py.warnings, to which logging has attached a handler that does nothing. *)
Definition python_warning (t msg : string) (w : world) : world :=
  if captured w then fold_left (emit (line t (stock msg))) (reached w "py.warnings") w
  else print_err w (stock msg).

(** errors.py:34-44 *)
Definition warn (t msg : string) (log : option string) (w : world) : world :=
  let w := print_err w (WARNING ++ ": " ++ msg ++ nl) in
  match log with Some _ => python_warning t msg w | None => w end.

(** errors.py:61-73; [tb] is the traceback of the exception being handled, if any. log.exception is a
    record of level ERROR: without a handler it goes to stderr. *)
Definition catch_error (t msg : string) (tb : option string) (log : option string) (w : world) : world :=
  let w := print_err w (ERROR ++ ": " ++ msg ++ nl) in
  match log with
  | None => w
  | Some n =>
      let text := "ERROR: " ++ msg ++ nl ++ match tb with Some s => s | None => "NoneType: None" end in
      match reached w n with
      | [] => print_err w (text ++ nl)
      | hs => fold_left (emit (line t text)) hs w
      end
  end.
End Errors.

(** errors.py:92-96; [isfile] is os.path.isfile. *)
Definition file_name_error (isfile : string -> bool) (name : string) : res unit :=
  match name with
  | EmptyString => Err OSError
  | String c _ => if Ascii.eqb c "-" then Err OSError else if isfile name then Ok tt else Err OSError
  end.

(** errors.py:136-152; [is_exe] is errors.py:115, [path] the variable PATH, already cut at its colons.
    os.path.split gives a non-empty head exactly when the name has a slash. *)
Fixpoint has_slash (s : string) : bool := match s with "" => false | String c s => (Ascii.eqb c "/" || has_slash s)%bool end.
Fixpoint ends_slash (s : string) : bool :=
  match s with "" => false | String c "" => Ascii.eqb c "/" | String _ s => ends_slash s end.
(** os.path.join, the second part having no slash *)
Definition join (d n : string) : string := if (String.eqb d "" || ends_slash d)%bool then d ++ n else d ++ "/" ++ n.
Inductive name_arg := Name (s : string) | NotName.
Definition is_executable (is_exe : string -> bool) (path : option (list string)) (n : name_arg) : res unit :=
  match n with
  | NotName => Err TypeError
  | Name n =>
      if has_slash n then (if is_exe n then Ok tt else Err OSError)
      else match path with
           | None => Err KeyError
           | Some ds => if existsb (fun d => is_exe (join d n)) ds then Ok tt else Err OSError
           end
  end.
