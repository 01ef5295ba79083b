(** Model of opt/algorithms/admm.py: ADMMcostObj, ADMM, FastADMM. The observations passed to the
    two optimizers add the variable u to elements of the constraint space, so u, b and mu must have
    one shape; they live in the inner-product space H, v in K (broadcasting between different shapes
    is not modelled). Arithmetic is exact; operators and optimizers are functions. *)
From Coq Require Import String.
From Verif Require Import NPReal Py IPS Model_SetUp Model_FB.
From Coq Require Import List Lia.
Import ListNotations.
Local Open Scope string_scope.
Local Open Scope R_scope.

(** * ADMMcostObj *)

(** Values of the options of a cost object. *)
Inductive cval := VFloat (r : R) | VInt (z : Z) | VStr (s : string) | VBool (b : bool) | VNone.

(** Attributes set by CostParent.__init__, cost.py:75-92. *)
Record cost_options := mk_opts {
  o_initial_cost : cval; o_tolerance : cval; o_cost_interval : cval; o_test_range : cval;
  o_verbose : cval; o_plot_output : cval }.
Definition default_options : cost_options :=
  mk_opts (VFloat (10 ^ 6)) (VFloat (/ 10 ^ 4)) (VInt 1) (VInt 4) (VBool true) VNone.

(** CostParent.__init__ called with positional arguments only. *)
Definition cost_parent_positional (args : list cval) : res cost_options :=
  let d := default_options in
  let arg i v := nth i args v in
  if Nat.leb (List.length args) 6
  then Ok (mk_opts (arg 0%nat (o_initial_cost d)) (arg 1%nat (o_tolerance d)) (arg 2%nat (o_cost_interval d))
             (arg 3%nat (o_test_range d)) (arg 4%nat (o_verbose d)) (arg 5%nat (o_plot_output d)))
  else Err TypeError.

(** admm.py:36: iterating over the dictionary of keyword arguments gives its keys. *)
Definition admm_cost_init (kwargs : list (string * cval)) : res cost_options :=
  cost_parent_positional (map (fun kv => VStr (fst kv)) kwargs).

(** admm.py:61-65 *)
Definition admm_calc_cost {H K : ips} (f : H -> R) (g : K -> R) (A : H -> H) (B : K -> H) (b : H) (tau : R)
    (u : H) (v : K) : R :=
  let cost := f u in
  let cost := cost + g v in
  cost + tau * norm (A u + B v - b)%v.

(** * ADMM *)

Section ADMM.
Context {H K : ips}.
Variables (A : H -> H) (B : K -> H) (b : H).
Variable opti_H : H -> H -> H.     (* optimizers[0](init, obs) *)
Variable opti_G : K -> H -> K.     (* optimizers[1](init, obs) *)

Record admm := mk_admm {
  ad_u_old : H; ad_u_new : H; ad_v_old : K; ad_v_new : K; ad_mu_old : H; ad_mu_new : H }.

(** admm.py:145-151 *)
Definition admm_init (u : H) (v : K) (mu : H) : admm := mk_admm u u v v mu mu.

(** admm.py:154-169 *)
Definition admm_update (s : admm) : admm :=
  let u_new := opti_H (ad_u_old s) (B (ad_v_old s) + ad_u_old s - b)%v in            (* :154-157 *)
  let tmp := A u_new in                                                              (* :158 *)
  let v_new := opti_G (ad_v_old s) (tmp + ad_u_old s - b)%v in                       (* :159-162 *)
  let mu_new := (ad_mu_old s + (tmp + B v_new - b))%v in                             (* :164 *)
  mk_admm u_new u_new v_new v_new mu_new mu_new.

Definition admm_after (n : nat) (s : admm) : admm := Nat.iter n admm_update s.

(** admm.py:187-194: u_final (= x_final) and v_final. *)
Definition admm_iterate (cost : option (nat -> admm -> bool)) (metric : nat -> admm -> list bool)
    (has_metrics : bool) (period : option Z) (max_iter : nat) (s : admm) : res (H * K) :=
  do p <- run_alg (alg_update Model_SetUp.ADMM (fun _ => admm_update) cost) conv (alg_metrics metric)
            has_metrics period max_iter (mk_alg s [] false);
  Ok (ad_u_new (data (fst p)), ad_v_new (data (fst p))).
End ADMM.

(** * FastADMM: the constructor passes v=b, so v has the shape of b. *)

(** Floats that may be infinite: only _c_old = np.inf needs it. *)
Inductive xfloat := Fin (r : R) | PInf.
(** c < eta * x; eta * inf is inf, nan or -inf. *)
Definition lt_scaled (c eta : R) (x : xfloat) : bool :=
  match x with
  | Fin r => if Rlt_dec c (eta * r) then true else false
  | PInf => if Rlt_dec 0 eta then true else false
  end.
(** x / eta, used by the restart; division by zero is not modelled. *)
Definition xdiv (x : xfloat) (eta : R) : xfloat := match x with Fin r => Fin (r / eta) | PInf => PInf end.

Section FADMM.
Context {H : ips}.
Variables (A B : H -> H) (b : H).
Variables opti_H opti_G : H -> H -> H.

Record fadmm := mk_fadmm {
  fa_u_old : H; fa_u_new : H; fa_v_old : H; fa_v_new : H; fa_mu_old : H; fa_mu_new : H;
  fa_v_hat : H; fa_mu_hat : H; fa_c_old : xfloat; fa_c_new : xfloat;
  fa_eta : R; fa_alpha_old : R; fa_alpha_new : R; fa_tau : R; fa_has_cost : bool }.

(** admm.py:284-301. tau is not passed to ADMM.__init__, whose default 1 is used; v is replaced by b. *)
Definition fadmm_init (u v mu : H) (has_cost : bool) (alpha eta tau : R) : fadmm :=
  mk_fadmm u u b b mu mu b mu PInf (Fin 0) eta alpha alpha 1 has_cost.

(** admm.py:304-340. In the else branch _v_hat and _mu_hat are bound to the arrays _v_old and
    _mu_old, which :335-336 then overwrite with the new values. The misspelt attribute at :340 is
    read first and does not exist. *)
Definition fadmm_update (s : fadmm) : res fadmm :=
  let u_new := opti_H (fa_u_old s) (B (fa_v_hat s) + fa_u_old s - b)%v in            (* :305-308 *)
  let tmp := A u_new in                                                              (* :309 *)
  let v_new := opti_G (fa_v_hat s) (tmp + fa_u_old s - b)%v in                       (* :310-313 *)
  let mu_new := (fa_mu_hat s + (tmp + B v_new - b))%v in                             (* :315 *)
  let c_new := norm (mu_new - fa_mu_hat s)%v + fa_tau s * norm (B (v_new - fa_v_hat s)%v) in   (* :318-321 *)
  let s' :=
    if lt_scaled c_new (fa_eta s) (fa_c_old s) then                                  (* :322-326 *)
      let alpha_new := 1 + sqrt (1 + 4 * fa_alpha_old s ^ 2) in
      let beta := (alpha_new - 1) / fa_alpha_old s in
      mk_fadmm u_new u_new v_new v_new mu_new mu_new
        (v_new + beta * (v_new - fa_v_old s))%v (mu_new + beta * (mu_new - fa_mu_old s))%v
        (fa_c_old s) (Fin c_new) (fa_eta s) (fa_alpha_old s) alpha_new (fa_tau s) (fa_has_cost s)
    else                                                                             (* :328-332 *)
      mk_fadmm u_new u_new v_new v_new mu_new mu_new v_new mu_new
        (fa_c_old s) (xdiv (fa_c_old s) (fa_eta s)) (fa_eta s) (fa_alpha_old s) 1 (fa_tau s) (fa_has_cost s) in
  if fa_has_cost s then Err AttributeError else Ok s'.

Fixpoint fadmm_after (n : nat) (s : fadmm) : res fadmm :=
  match n with O => Ok s | S n' => do s1 <- fadmm_after n' s; fadmm_update s1 end.

(** iterate, inherited from ADMM: admm.py:176-194. Without cost function converge stays False. *)
Definition fadmm_iterate (metric : nat -> fadmm -> list bool) (has_metrics : bool) (period : option Z)
    (max_iter : nat) (s : fadmm) : res (H * H) :=
  do p <- run_alg (fun _ a => do d <- fadmm_update (data a); Ok (mk_alg d (flags a) (conv a))) conv
            (alg_metrics metric) has_metrics period max_iter (mk_alg s [] false);
  Ok (fa_u_new (data (fst p)), fa_v_new (data (fst p))).
End FADMM.
