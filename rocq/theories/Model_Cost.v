(** Model of opt/cost.py: CostParent and costObj. Costs are exact reals; printing and
    plotting are in Model_CostIO. *)
From Verif Require Import NPReal Py.
Local Open Scope R_scope.

(** cost.py:75-92 *)
Record cost_cfg := mk_cost_cfg {
  tolerance : R; cost_interval : option Z; test_range : Z }.
Record cost_st := mk_cost_st {
  cost : R; cost_list : list R; iteration : Z; test_list : list R }.
Definition cost_init (initial_cost : R) : cost_st := mk_cost_st initial_cost [] 1 [].

(** cost.py:94-141. nan (mean of an empty list) makes the final comparison False. *)
Definition check_cost (c : cost_cfg) (s : cost_st) : cost_st * bool :=
  let tl := test_list s ++ [cost s] in                                     (* :108 *)
  if (Z.of_nat (length tl) =? test_range c)%Z then                         (* :113 *)
    let half := (length tl / 2)%nat in
    let t1 := npmean (skipn half tl) in                                    (* :115-118 *)
    let t2 := npmean (firstn half tl) in                                   (* :120-123 *)
    let result :=
      match t1 with
      | None => false
      | Some t1 =>
          if Req_EM_T (around 16 t1) 0 then                                (* :125, :128 *)
            if Rle_dec 0 (tolerance c) then true else false
          else
            match t2 with
            | None => false
            | Some t2 => if Rle_dec (Rabs (t1 - t2) / Rabs t1) (tolerance c) then true else false
            end
      end in
    (mk_cost_st (cost s) (cost_list s) (iteration s) [], result)           (* :131, :139 *)
  else (mk_cost_st (cost s) (cost_list s) (iteration s) tl, false).

(** cost.py:157-201; [calc] is what self._calc_cost(x) does when it is called. *)
Definition get_cost (c : cost_cfg) (s : cost_st) (calc : res R) : cost_st * res bool :=
  let tick (s : cost_st) := mk_cost_st (cost s) (cost_list s) (iteration s + 1) (test_list s) in
  let compute :=
    match calc with
    | Err e => (s, Err e)
    | Ok v =>
        let s1 := mk_cost_st v (cost_list s ++ [v]) (iteration s) (test_list s) in  (* :188-189 *)
        let '(s2, r) := check_cost c s1 in                                           (* :196 *)
        (tick s2, Ok r)
    end in
  match cost_interval c with                                               (* :176-178 *)
  | None => (tick s, Ok false)
  | Some k =>
      if (k =? 0)%Z then (s, Err ZeroDivisionError)
      else if (iteration s mod k =? 0)%Z then compute else (tick s, Ok false)
  end.

(** A sequence of calls; exceptions are handled by the caller. *)
Definition cost_calls (c : cost_cfg) (h : list (res R)) (s : cost_st) : cost_st :=
  fold_left (fun s v => fst (get_cost c s v)) h s.

(** * costObj *)

(** An operator as costObj sees it: no [cost] attribute, a non-callable one, or a method. *)
Inductive operator (X : Type) := NoCost | CostNotCallable | HasCost (f : X -> R).
Arguments NoCost {X}. Arguments CostNotCallable {X}. Arguments HasCost {X}.

(** The [operators] argument: None, a list/tuple/array of operators, or something else. *)
Inductive operators_arg (X : Type) := OpsNone | OpsSeq (l : list (operator X)) | OpsOther.
Arguments OpsNone {X}. Arguments OpsSeq {X}. Arguments OpsOther {X}.

(** cost.py:291-294 *)
Fixpoint check_each {X} (l : list (operator X)) : res (list (X -> R)) :=
  match l with
  | [] => Ok []
  | NoCost :: _ => Err ValueError
  | CostNotCallable :: _ => Err TypeError
  | HasCost f :: l' => do fs <- check_each l'; Ok (f :: fs)
  end.

(** cost.py:263-294; the result is the list iterated over by _calc_cost, if any. *)
Definition costobj_init {X} (a : operators_arg X) : res (option (list (X -> R))) :=
  match a with
  | OpsNone => Ok None
  | OpsOther => Err TypeError
  | OpsSeq l => do fs <- check_each l; Ok (Some fs)
  end.

(** cost.py:296-314: np.sum of the list; iterating over None is a TypeError. *)
Definition calc_cost {X} (ops : option (list (X -> R))) (x : X) : res R :=
  match ops with
  | None => Err TypeError
  | Some fs => Ok (rsum (map (fun f => f x) fs))
  end.
