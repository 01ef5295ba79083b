(** Model of opt/algorithms/forward_backward.py: FISTA, ForwardBackward, GenForwardBackward and
    POGM. The variables are elements of a real inner-product space, arithmetic is exact; the
    gradient operator is the function x |-> grad.grad after get_grad(x), the proximity operator
    the function (y, c) |-> prox.op(y, extra_factor=c). Printing, backends and the type checks of
    the constructors (_check_input_data, _check_param: ndarray and float) are not modelled; user
    supplied parameter updates are functions of the number of updates done so far and of the
    current value, which covers stateful deterministic callables. *)
From Coq Require Import String SpecFloat.
From Verif Require Import NPReal Py IPS Model_SetUp.
From Coq Require Import List Lia.
Import ListNotations.
Local Open Scope string_scope.
Local Open Scope R_scope.

(** * FISTA *)

Inductive fmode :=
| Regular (p_lazy q_lazy r_lazy : R)
| CD (a_cd : R) (n : nat).

(** Attributes of a FISTA object. min_beta, s_greedy and xi_restart are only read by code that
    runs when they have been checked not to be None; 0 stands for None. *)
Record fista := mk_fista {
  f_mode : fmode; f_strategy : option string;
  f_min_beta : R; f_s : R; f_xi : R;
  f_t_now : R; f_t_prev : R; f_delta0 : option R; f_safeguard : bool }.

Record fista_args := mk_fargs {
  a_strategy : option string; a_min_beta : option R; a_s : option R; a_xi : option R;
  a_acd : option R; a_p : R; a_q : R; a_r : R }.
(** forward_backward.py:63-74 *)
Definition default_fista_args : fista_args := mk_fargs None None None None None 1 1 4.

(** forward_backward.py:53-61, without None *)
Definition strategy_names : list string :=
  ["adaptive"; "adaptive-i"; "adaptive-1"; "adaptive-ii"; "adaptive-2"; "greedy"].

Definition is_regular (m : fmode) : bool := match m with Regular _ _ _ => true | CD _ _ => false end.

(** forward_backward.py:156-174 *)
Definition check_restart_params (m : fmode) (strategy : option string) (min_beta s xi : option R) : res unit :=
  match strategy with
  | None => Ok tt
  | Some name =>
      if negb (is_regular m) then Err ValueError
      else
        let greedy_params_check :=
          match min_beta, s with
          | None, _ | _, None => true
          | Some _, Some s => if Rle_dec s 1 then true else false
          end in
        if (String.eqb name "greedy" && greedy_params_check)%bool then Err ValueError
        else match xi with
             | None => Err ValueError
             | Some xi => if Rge_dec xi 1 then Err ValueError else Ok tt
             end
  end.

Definition or0 (o : option R) : R := match o with Some r => r | None => 0 end.

(** forward_backward.py:75-113. For an unknown strategy the error message is built by
    ", ".join of a tuple that contains None, which raises TypeError (:107). *)
Definition fista_init (a : fista_args) : res fista :=
  do m <- match a_acd a with
          | None => Ok (Regular (a_p a) (a_q a) (a_r a))
          | Some acd => if Rgt_dec acd 2 then Ok (CD acd 0) else Err ValueError
          end;
  if match a_strategy a with None => true | Some s => existsb (String.eqb s) strategy_names end
  then
    do _ <- check_restart_params m (a_strategy a) (a_min_beta a) (a_s a) (a_xi a);
    Ok (mk_fista m (a_strategy a) (or0 (a_min_beta a)) (or0 (a_s a)) (or0 (a_xi a)) 1 1 None false)
  else Err TypeError.

Definition set_t_now (f : fista) (t : R) : fista :=
  mk_fista (f_mode f) (f_strategy f) (f_min_beta f) (f_s f) (f_xi f) t (f_t_prev f) (f_delta0 f) (f_safeguard f).
Definition scale_r (f : fista) : fista :=
  mk_fista (match f_mode f with Regular p q r => Regular p q (r * f_xi f) | m => m end)
    (f_strategy f) (f_min_beta f) (f_s f) (f_xi f) (f_t_now f) (f_t_prev f) (f_delta0 f) (f_safeguard f).
Definition set_greedy (f : fista) (d : option R) (g : bool) : fista :=
  mk_fista (f_mode f) (f_strategy f) (f_min_beta f) (f_s f) (f_xi f) (f_t_now f) (f_t_prev f) d g.

(** forward_backward.py:204-224 *)
Definition is_restart {H : ips} (f : fista) (z_old x_new x_old : H) : fista * bool :=
  match f_strategy f with
  | None => (f, false)                                                                   (* :206-207 *)
  | Some name =>
      let criterion := if Rge_dec (inner (z_old - x_new)%v (x_new - x_old)%v) 0 then true else false in  (* :209 *)
      let f1 := if (criterion && String.prefix "adaptive" name)%bool then scale_r f else f in    (* :211-213 *)
      let f2 := if (criterion && (String.eqb name "adaptive-ii" || String.eqb name "adaptive-2"))%bool
                then set_t_now f1 1 else f1 in                                            (* :214-215 *)
      let f3 := if String.eqb name "greedy" then                                          (* :217-222 *)
                  let cur_delta := norm (x_new - x_old)%v in
                  match f_delta0 f2 with
                  | None => set_greedy f2 (Some (f_s f2 * cur_delta)) (f_safeguard f2)
                  | Some d0 => set_greedy f2 (Some d0) (if Rge_dec cur_delta d0 then true else false)
                  end
                else f2 in
      (f3, criterion)
  end.

(** forward_backward.py:243-247 *)
Definition update_beta (f : fista) (beta : R) : R :=
  if f_safeguard f then Rmax (beta * f_xi f) (f_min_beta f) else beta.

(** forward_backward.py:271-285 *)
Definition update_lambda (f : fista) : fista * R :=
  if match f_strategy f with Some name => String.eqb name "greedy" | None => false end then (f, 2)
  else
    let t_prev := f_t_now f in
    let '(m, t_now) :=
      match f_mode f with
      | Regular p q r => (Regular p q r, p + sqrt (r * t_prev ^ 2 + q) * / 2)
      | CD a n => (CD a (S n), (INR n + a - 1) / a)
      end in
    (mk_fista m (f_strategy f) (f_min_beta f) (f_s f) (f_xi f) t_now t_prev (f_delta0 f) (f_safeguard f),
     1 + (t_prev - 1) / t_now).

(** n successive calls of update_lambda: the values returned, oldest first, and the object. *)
Fixpoint lambdas (n : nat) (f : fista) : list R * fista :=
  match n with
  | O => ([], f)
  | S n' => let '(f1, l) := update_lambda f in let '(ls, f2) := lambdas n' f1 in (l :: ls, f2)
  end.

(** * ForwardBackward *)

Section FB.
Context {H : ips}.
Variable grad : H -> H.
Variable prox : H -> R -> H.

(** The methods installed by the constructor: those of a FISTA object, or the user's. *)
Inductive fb_rule :=
| RFista (f : fista)
| RUser (beta_update lambda_update : option (nat -> R -> R)).

(** Attributes of a ForwardBackward object; [fb_new] holds (_x_new, _z_new), which do not exist
    before the first update. *)
Record fb := mk_fb {
  fb_x_old : H; fb_z_old : H; fb_new : option (H * H);
  fb_beta : R; fb_lambda : R; fb_the_rule : fb_rule; fb_calls : nat }.

Inductive lambda_arg := LFista (a : fista_args) | LCall (f : option (nat -> R -> R)).

(** "step_size or param": None and 0 are false. *)
Definition step_or (step_size : option R) (param : R) : R :=
  match step_size with
  | Some s => if Req_EM_T s 0 then param else s
  | None => param
  end.

(** forward_backward.py:357-412 with auto_iterate=False. *)
Definition fb_init (x : H) (step_size : option R) (beta_param lambda_param : R)
    (beta_update : option (nat -> R -> R)) (lambda_update : lambda_arg) : res fb :=
  do rule <- match lambda_update with
             | LFista a => do f <- fista_init a; Ok (RFista f)          (* :401-405 *)
             | LCall lu => Ok (RUser beta_update lu)                    (* :406-409 *)
             end;
  Ok (mk_fb x x None (step_or step_size beta_param) lambda_param rule 0).

Definition apply_update (u : option (nat -> R -> R)) (n : nat) (v : R) : R :=
  match u with Some f => f n v | None => v end.

(** forward_backward.py:422-428 and 440-459; the convergence test is in Model_SetUp. *)
Definition fb_update (s : fb) : fb :=
  let y_old := (fb_z_old s - fb_beta s * grad (fb_z_old s))%v in                          (* :441-442 *)
  let x_new := prox y_old (fb_beta s) in                                                  (* :445 *)
  let z_new := (fb_x_old s + fb_lambda s * (x_new - fb_x_old s))%v in                     (* :448 *)
  let '(rule1, restart) :=                                                                (* :451 *)
    match fb_the_rule s with
    | RFista f => let '(f1, r) := is_restart f (fb_z_old s) x_new (fb_x_old s) in (RFista f1, r)
    | RUser bu lu => (RUser bu lu, false)
    end in
  let z_new := if restart : bool then x_new else z_new in                                 (* :452 *)
  let '(rule2, beta, lam) :=                                                              (* :422-428 *)
    match rule1 with
    | RFista f => let '(f1, l) := update_lambda f in (RFista f1, update_beta f (fb_beta s), l)
    | RUser bu lu => (RUser bu lu, apply_update bu (fb_calls s) (fb_beta s), apply_update lu (fb_calls s) (fb_lambda s))
    end in
  mk_fb x_new z_new (Some (x_new, z_new)) beta lam rule2 (S (fb_calls s)).

(** The object after n updates. *)
Definition fb_after (n : nat) (s : fb) : fb := Nat.iter n fb_update s.

(** forward_backward.py:480-485: the loop of Model_SetUp, then x_final = _z_new. [cost] is the
    verdict of the cost object on the n-th update, [metric] the observers' flags. *)
Definition fb_iterate (cost : option (nat -> fb -> bool)) (metric : nat -> fb -> list bool)
    (has_metrics : bool) (period : option Z) (max_iter : nat) (s : fb) : res H :=
  do p <- run_alg (alg_update ForwardBackward (fun _ => fb_update) cost) conv (alg_metrics metric)
            has_metrics period max_iter (mk_alg s [] false);
  match fb_new (data (fst p)) with
  | Some (_, z) => Ok z
  | None => Err AttributeError
  end.
End FB.

(** * GenForwardBackward *)

(** forward_backward.py:664-691 on exact reals; [None] is weights=None. Weights that are not a
    list of floats are rejected before (:669-675, not modelled). *)
Definition gfb_weights (n_prox : nat) (weights : option (list R)) : res (list R) :=
  let ws := match weights with None => repeat (1 / INR n_prox) n_prox | Some w => w end in
  if negb (Nat.eqb (List.length ws) n_prox) then Err ValueError
  else if Req_EM_T (rsum ws) 1 then Ok ws else Err ValueError.

(** The same for weights=None in binary64: 1.0 / n, n times, summed by np.sum, which for fewer than
    eight elements adds them one after the other to 0.0. Longer arrays are not modelled (np.sum
    adds them in blocks). *)
Definition b64_of_nat (n : nat) : spec_float := binary_normalize 53 1024 (Z.of_nat n) 0 false.
Definition gfb_weights_b64 (n_prox : nat) : res (list spec_float) :=
  if Nat.leb 8 n_prox then Err NotModelled
  else if Nat.eqb n_prox 0 then Err ZeroDivisionError
  else
    let ws := repeat (SFdiv 53 1024 (b64_of_nat 1) (b64_of_nat n_prox)) n_prox in
    if SFeqb (fold_left (SFadd 53 1024) ws (S754_zero false)) (b64_of_nat 1) then Ok ws else Err ValueError.

Section GFB.
Context {H : ips}.
Variable grad : H -> H.
Variable proxs : list (H -> R -> H).

Record gfb := mk_gfb {
  g_x_old : H; g_x_new : option H; g_z : list H; g_weights : list R;
  g_gamma : R; g_lambda : R; g_calls : nat;
  g_gamma_update : option (nat -> R -> R); g_lambda_update : option (nat -> R -> R) }.

(** forward_backward.py:589-640 *)
Definition gfb_init (x : H) (step_size : option R) (gamma_param lambda_param : R)
    (gamma_update lambda_update : option (nat -> R -> R)) (weights : option (list R)) : res gfb :=
  do ws <- gfb_weights (List.length proxs) weights;
  Ok (mk_gfb x None (repeat x (List.length proxs)) ws (step_or step_size gamma_param) lambda_param 0
        gamma_update lambda_update).

Fixpoint vsum_list (l : list H) : H := match l with [] => vzero | x :: l' => (x + vsum_list l')%v end.

(** forward_backward.py:700-706 and 718-740. The gradient is evaluated once, at x_old, which the loop over i
    does not modify. *)
Definition gfb_update (s : gfb) : gfb :=
  let x := g_x_old s in
  let g := grad x in
  let z' := map2 (fun (pw : (H -> R -> H) * R) z_i =>
      let z_temp := (2 * x - z_i - g_gamma s * g)%v in
      let z_prox := fst pw z_temp (g_gamma s / snd pw) in
      (z_i + g_lambda s * (z_prox - x))%v) (combine proxs (g_weights s)) (g_z s) in
  let x_new := vsum_list (map2 (fun z_i w_i => (w_i * z_i)%v) z' (g_weights s)) in
  mk_gfb x_new (Some x_new) z' (g_weights s)
    (apply_update (g_gamma_update s) (g_calls s) (g_gamma s))
    (apply_update (g_lambda_update s) (g_calls s) (g_lambda s)) (S (g_calls s))
    (g_gamma_update s) (g_lambda_update s).

Definition gfb_after (n : nat) (s : gfb) : gfb := Nat.iter n gfb_update s.

(** forward_backward.py:759-764 *)
Definition gfb_iterate (cost : option (nat -> gfb -> bool)) (metric : nat -> gfb -> list bool)
    (has_metrics : bool) (period : option Z) (max_iter : nat) (s : gfb) : res H :=
  do p <- run_alg (alg_update GenForwardBackward (fun _ => gfb_update) cost) conv (alg_metrics metric)
            has_metrics period max_iter (mk_alg s [] false);
  match g_x_new (data (fst p)) with Some x => Ok x | None => Err AttributeError end.
End GFB.

(** * POGM *)

Section POGM.
Context {H : ips}.
Variable grad : H -> H.
Variable prox : H -> R -> H.

Record pogm := mk_pogm {
  po_u : H; po_x : H; po_y : H; po_z : H; po_g : H;
  po_t : R; po_sigma : R; po_xi : R; po_beta : R; po_sigma_bar : R; po_x_new : option H }.

(** forward_backward.py:875-920 *)
Definition pogm_init (u x y z : H) (step_size : option R) (beta_param sigma_bar : R) : res pogm :=
  if Rlt_dec sigma_bar 0 then Err ValueError
  else if Rgt_dec sigma_bar 1 then Err ValueError
  else Ok (mk_pogm u x y z (grad x) 1 1 1 (step_or step_size beta_param) sigma_bar None).

(** forward_backward.py:936-987 *)
Definition pogm_update (s : pogm) : pogm :=
  let gr := grad (po_x s) in
  let u_new := ((- po_beta s) * gr + po_x s)%v in                                          (* :937-940 *)
  let t_new := / 2 * (1 + sqrt (1 + 4 * po_t s ^ 2)) in                                    (* :943 *)
  let t_shifted_ratio := (po_t s - 1) / t_new in
  let sigma_t_ratio := po_sigma s * po_t s / t_new in
  let beta_xi := t_shifted_ratio * po_beta s / po_xi s in
  let z := ((- beta_xi) * (po_x s - po_z s) + u_new + t_shifted_ratio * (u_new - po_u s)
            + sigma_t_ratio * (u_new - po_x s))%v in                                       (* :946-952 *)
  let xi := po_beta s * (1 + t_shifted_ratio + sigma_t_ratio) in                           (* :955 *)
  let x_new := prox z xi in                                                                (* :958 *)
  let g_new := ((/ xi) * (z - x_new) + gr)%v in                                            (* :963-965 *)
  let y_new := ((- po_beta s) * g_new + po_x s)%v in                                       (* :969-970 *)
  let '(t_new, sigma) :=                                                                   (* :973-980 *)
    if Rlt_dec (inner ((-1) * g_new)%v (y_new - po_y s)%v) 0 then (1, 1)
    else if Rlt_dec (inner g_new (po_g s)) 0 then (t_new, po_sigma s * po_sigma_bar s)
    else (t_new, po_sigma s) in
  mk_pogm u_new x_new y_new z g_new t_new sigma xi (po_beta s) (po_sigma_bar s) (Some x_new).

Definition pogm_after (n : nat) (s : pogm) : pogm := Nat.iter n pogm_update s.

(** forward_backward.py:1008-1013 *)
Definition pogm_iterate (cost : option (nat -> pogm -> bool)) (metric : nat -> pogm -> list bool)
    (has_metrics : bool) (period : option Z) (max_iter : nat) (s : pogm) : res H :=
  do p <- run_alg (alg_update POGM (fun _ => pogm_update) cost) conv (alg_metrics metric)
            has_metrics period max_iter (mk_alg s [] false);
  match po_x_new (data (fst p)) with Some x => Ok x | None => Err AttributeError end.
End POGM.
