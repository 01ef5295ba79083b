(** Model of base/observable.py: class Observable and class MetricObserver. *)
From Verif Require Import NPReal Py.

(** Signals and observers are identified by numbers (Python compares them with [==]);
    [K] is the type of the keyword data of a notification. *)

(** observable.py:33-44: the attributes of an Observable. [_observers] is a dict. *)
Record obsv := mk_obsv {
  allowed : list nat;
  observers : nat -> option (list nat);
  locked : bool }.

Definition dict_set {V} (d : nat -> option V) (k : nat) (v : V) : nat -> option V :=
  fun k' => if Nat.eqb k' k then Some v else d k'.

Definition memb (x : nat) (l : list nat) : bool := existsb (Nat.eqb x) l.

(** observable.py:33-44 *)
Definition obsv_init (signals : list nat) : obsv :=
  mk_obsv signals (fold_left (fun d s => dict_set d s []) signals (fun _ => None)) false.

(** observable.py:128-145 *)
Definition is_allowed_signal (o : obsv) (sig : nat) : res unit :=
  if memb sig (allowed o) then Ok tt else Err ValueError.

(** observable.py:148-159 *)
Definition add_observer_priv (o : obsv) (sig ob : nat) : res obsv :=
  match observers o sig with
  | None => Err KeyError
  | Some l => if memb ob l then Ok o
              else Ok (mk_obsv (allowed o) (dict_set (observers o) sig (l ++ [ob])) (locked o))
  end.

(** observable.py:46-60 *)
Definition add_observer (o : obsv) (sig ob : nat) : res obsv :=
  do _ <- is_allowed_signal o sig; add_observer_priv o sig ob.

(** list.remove: drops the first occurrence. *)
Fixpoint remove_first (x : nat) (l : list nat) : list nat :=
  match l with
  | [] => []
  | y :: l' => if Nat.eqb x y then l' else y :: remove_first x l'
  end.

(** observable.py:162-174 *)
Definition remove_observer_priv (o : obsv) (sig ob : nat) : res obsv :=
  match observers o sig with
  | None => Err KeyError
  | Some l => if memb ob l
              then Ok (mk_obsv (allowed o) (dict_set (observers o) sig (remove_first ob l)) (locked o))
              else Ok o
  end.

(** The methods an Observable has (observable.py:33-174); looking up anything else is an
    AttributeError. *)
Inductive method := M_is_allowed_signal | M_is_allowed_event.
Definition lookup_signal_check (m : method) : option (obsv -> nat -> res unit) :=
  match m with
  | M_is_allowed_signal => Some is_allowed_signal
  | M_is_allowed_event => None
  end.

(** observable.py:62-76: calls [self._is_allowed_event], which does not exist. *)
Definition remove_observer (o : obsv) (sig ob : nat) : res obsv :=
  match lookup_signal_check M_is_allowed_event with
  | None => Err AttributeError
  | Some check => do _ <- check o sig; remove_observer_priv o sig ob
  end.

Section Notify.
Variable K : Type.

(** One entry of the call log: observer, and the signal object it received. *)
Definition call : Type := nat * nat * K.

(** What an observer may do when called: notify (from inside), register an observer, raise. *)
Inductive action :=
| ANotify (sig : nat) (kw : K)
| AAdd (sig ob : nat)
| ARaise (e : exn).

(** Observer behaviour: what it does may depend on everything that has been called so far
    (hence on any internal state of the observers). *)
Variable beh : list call -> nat -> list action.

Inductive retval := RNone | RFalse.

Definition outcome (A : Type) : Type := obsv * list call * res A.

(** Run the actions of one observer call; [notif] is what self.notify_observers does. *)
Fixpoint run_actions (notif : obsv -> list call -> nat -> K -> outcome retval)
    (acts : list action) (o : obsv) (log : list call) : outcome unit :=
  match acts with
  | [] => (o, log, Ok tt)
  | ANotify s kw :: rest =>
      match notif o log s kw with
      | (o', log', Ok _) => run_actions notif rest o' log'
      | (o', log', Err e) => (o', log', Err e)
      end
  | AAdd s ob :: rest =>
      match add_observer o s ob with
      | Ok o' => run_actions notif rest o' log
      | Err e => (o, log, Err e)
      end
  | ARaise e :: _ => (o, log, Err e)
  end.

Definition set_lock (b : bool) (o : obsv) : obsv := mk_obsv (allowed o) (observers o) b.

(** observable.py:78-111. [fuel] bounds recursion (Python iterates over the live list, so an
    observer that keeps registering new observers would loop for ever); running out of fuel
    is [NotModelled]. *)
Fixpoint notify (fuel : nat) (o : obsv) (log : list call) (sig : nat) (kw : K) {struct fuel}
  : outcome retval :=
  match fuel with
  | 0 => (o, log, Err NotModelled)
  | S f =>
      if locked o then (o, log, Ok RFalse)                        (* :95-96 *)
      else
        let o1 := set_lock true o in                              (* :98 *)
        match observers o1 sig with                               (* :108 *)
        | None => (o1, log, Err KeyError)
        | Some _ => notify_loop f 0 o1 log sig kw
        end
  end
(** The for loop at observable.py:108-109 and the unlock at :111; [i] is the list position. *)
with notify_loop (fuel : nat) (i : nat) (o : obsv) (log : list call) (sig : nat) (kw : K) {struct fuel}
  : outcome retval :=
  match fuel with
  | 0 => (o, log, Err NotModelled)
  | S f =>
      match observers o sig with
      | None => (o, log, Err KeyError)
      | Some l =>
          match nth_error l i with
          | None => (set_lock false o, log, Ok RNone)
          | Some ob =>
              let log1 := log ++ [(ob, sig, kw)] in
              match run_actions (notify f) (beh log1 ob) o log1 with
              | (o', log', Ok _) => notify_loop f (S i) o' log' sig kw
              | (o', log', Err e) => (o', log', Err e)
              end
          end
      end
  end.
End Notify.
Arguments notify {K}. Arguments notify_loop {K}. Arguments run_actions {K}.
Arguments ANotify {K}. Arguments AAdd {K}. Arguments ARaise {K}.

(** * MetricObserver, observable.py:177-287 *)
Open Scope R_scope.

(** observable.py:206-225 *)
Record mobs := mk_mobs {
  list_iters : list nat; list_dates : list R; list_values : list R; converge_flag : bool }.
Definition mobs_init : mobs := mk_mobs [] [] [] false.

Record mcfg (V : Type) := mk_mcfg {
  metric : (nat -> option V) -> res R;      (* keyword arguments to metric value *)
  mapping : list (nat * option nat);        (* dict items *)
  cst_kwargs : list (nat * V);
  early_stopping : bool; wind : Z; eps : R }.
Arguments metric {V}. Arguments mapping {V}. Arguments cst_kwargs {V}.
Arguments early_stopping {V}. Arguments wind {V}. Arguments eps {V}.

(** The attributes of a signal object that matter: its [idx] and the other ones. *)
Record sigobj (V : Type) := mk_sigobj { sig_idx : option nat; sig_attr : nat -> option V }.
Arguments sig_idx {V}. Arguments sig_attr {V}.

(** Python [l[a:b]] with step 1 ([None] = missing bound). *)
Definition norm_idx (n : Z) (a : Z) : Z :=
  if (a <? 0)%Z then Z.max 0 (n + a) else Z.min n a.
Definition pyslice {A} (l : list A) (a : Z) (b : option Z) : list A :=
  let n := Z.of_nat (length l) in
  let a' := norm_idx n a in
  let b' := match b with None => n | Some b => norm_idx n b end in
  firstn (Z.to_nat (b' - a')) (skipn (Z.to_nat a') l).

(** observable.py:251-264. A comparison with nan is False; x/0 is inf or nan, hence False. *)
Definition is_converge {V} (c : mcfg V) (m : mobs) : mobs :=
  if (Z.of_nat (length (list_values m)) <? wind c)%Z then m
  else
    let start_idx := (- wind c)%Z in
    let mid_idx := (- (wind c / 2))%Z in
    let old_mean := npmean (pyslice (list_values m) start_idx (Some mid_idx)) in
    let current_mean := npmean (pyslice (list_values m) mid_idx None) in
    let flag :=
      match old_mean, current_mean with
      | Some o, Some n =>
          if Req_EM_T o 0 then false
          else if Rlt_dec (Rabs (o - n) / Rabs o) (eps c) then true else false
      | _, _ => false
      end in
    mk_mobs (list_iters m) (list_dates m) (list_values m) flag.

(** observable.py:238-241 *)
Fixpoint build_kwargs {V} (mp : list (nat * option nat)) (s : sigobj V) (kw : nat -> option V)
  : res (nat -> option V) :=
  match mp with
  | [] => Ok kw
  | (key, None) :: rest => build_kwargs rest s kw
  | (key, Some target) :: rest =>
      match sig_attr s key with
      | None => Err AttributeError
      | Some v => build_kwargs rest s (dict_set kw target v)
      end
  end.

(** observable.py:227-249; [date] is what time.time() returns. The state is returned together
    with the outcome because an exception leaves the appended entries behind. *)
Definition mobs_call {V} (c : mcfg V) (m : mobs) (s : sigobj V) (date : R) : mobs * res unit :=
  match build_kwargs (mapping c) s (fun _ => None) with
  | Err e => (m, Err e)
  | Ok kw =>
      let kw := fold_left (fun d kv => dict_set d (fst kv) (snd kv)) (cst_kwargs c) kw in (* :242 *)
      match sig_idx s with
      | None => (m, Err AttributeError)
      | Some idx =>
          let m1 := mk_mobs (list_iters m ++ [idx]) (list_dates m ++ [date])
                            (list_values m) (converge_flag m) in  (* :243-244 *)
          match metric c kw with
          | Err e => (m1, Err e)
          | Ok v =>
              let m2 := mk_mobs (list_iters m1) (list_dates m1)
                                (list_values m1 ++ [v]) (converge_flag m1) in (* :246 *)
              (if early_stopping c then is_converge c m2 else m2, Ok tt)
          end
      end
  end.

(** A history of notifications, the exceptions being handled by the caller. *)
Definition mobs_run {V} (c : mcfg V) (h : list (sigobj V * R)) (m : mobs) : mobs :=
  fold_left (fun m e => fst (mobs_call c m (fst e) (snd e))) h m.

Record mresult := mk_mresult { r_time : list R; r_index : list nat; r_values : list R }.
(** observable.py:266-287 *)
Definition retrieve_metrics (m : mobs) : mresult :=
  mk_mresult (match list_dates m with [] => [] | d :: _ => map (fun t => t - d) (list_dates m) end)
             (list_iters m) (list_values m).
