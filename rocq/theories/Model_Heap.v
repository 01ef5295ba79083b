(** The updates of opt/algorithms on a heap of arrays: which array objects each attribute refers to,
    which statements make a new array and which write into an existing one.  Values are vectors of an
    inner-product space, arithmetic is exact; the scalar parameters are treated as in Model_FB and
    Model_PD.  Operators are callables that receive a reference to an array and return a reference:
    the returned array can be the argument itself (modopt.opt.linear.Identity,
    modopt.opt.proximity.IdentityProx), a new array, or an array the operator keeps and reuses. *)
From Verif Require Import NPReal Py IPS Model_SetUp Model_FB Model_PD Model_ADMM.
From Coq Require Import List.
Import ListNotations.
Local Open Scope R_scope.

(** Who made an array: the code calling the algorithm, the algorithm, or operator number k. *)
Inductive owner := Caller | Alg | Oper (k : nat).

Section Heap.
Context {V : Type}.

(** The arrays made so far are 0 .. next - 1. *)
Record heap := mk_heap { next : nat; cells : nat -> owner * V }.
Definition rd (h : heap) (r : nat) : V := snd (cells h r).
Definition own (h : heap) (r : nat) : owner := fst (cells h r).

(** The value of a NumPy expression is stored in a new array, with reference [next h]. *)
Definition alloc (h : heap) (v : V) : heap :=
  mk_heap (S (next h)) (fun q => if Nat.eqb q (next h) then (Alg, v) else cells h q).

(** np.copyto(r, v), and r += ... *)
Definition wr (h : heap) (r : nat) (v : V) : heap :=
  mk_heap (next h) (fun q => if Nat.eqb q r then (own h r, v) else cells h q).

(** Operators with one array argument, and with two (the optimizers of ADMM). *)
Definition hop : Type := heap -> nat -> heap * nat.
Definition hop2 : Type := heap -> nat -> nat -> heap * nat.
End Heap.
Arguments heap : clear implicits.
Arguments hop : clear implicits.
Arguments hop2 : clear implicits.

(** * ForwardBackward *)
Section FB.
Context {H : ips}.
Variable gop : hop H.                  (* get_grad; the reference is that of grad.grad *)
Variable pop : R -> hop H.             (* prox.op(., extra_factor) *)

Record h_fb := mk_h_fb {
  hf_heap : heap H; hf_x_old : nat; hf_z_old : nat; hf_new : option (nat * nat);
  hf_beta : R; hf_lambda : R; hf_rule : fb_rule; hf_calls : nat }.

(** forward_backward.py:366-367: two copies of the array x, reference [x]. *)
Definition h_fb_init (h : heap H) (x : nat) (step_size : option R) (beta_param lambda_param : R)
    (beta_update : option (nat -> R -> R)) (lambda_update : lambda_arg) : res h_fb :=
  do rule <- match lambda_update with
             | LFista a => do f <- fista_init a; Ok (RFista f)
             | LCall lu => Ok (RUser beta_update lu)
             end;
  let h1 := alloc h (rd h x) in
  let h2 := alloc h1 (rd h1 x) in
  Ok (mk_h_fb h2 (next h) (next h1) None (step_or step_size beta_param) lambda_param rule 0).

(** forward_backward.py:440-459.  :452 makes _z_new the same object as _x_new. *)
Definition h_fb_update (s : h_fb) : h_fb :=
  let '(h1, g) := gop (hf_heap s) (hf_z_old s) in                                          (* :441 *)
  let h2 := alloc h1 (rd h1 (hf_z_old s) - hf_beta s * rd h1 g)%v in                       (* :442, y_old *)
  let '(h3, x_new) := pop (hf_beta s) h2 (next h1) in                                      (* :445 *)
  let h4 := alloc h3 (rd h3 (hf_x_old s) + hf_lambda s * (rd h3 x_new - rd h3 (hf_x_old s)))%v in  (* :448, z_new *)
  let '(rule1, restart) :=                                                                 (* :451 *)
    match hf_rule s with
    | RFista f => let '(f1, r) := is_restart f (rd h4 (hf_z_old s)) (rd h4 x_new) (rd h4 (hf_x_old s)) in (RFista f1, r)
    | RUser bu lu => (RUser bu lu, false)
    end in
  let z_new := if restart : bool then x_new else next h3 in                                (* :452 *)
  let h5 := alloc h4 (rd h4 x_new) in                                                      (* :455, x_old *)
  let h6 := alloc h5 (rd h5 z_new) in                                                      (* :456, z_old *)
  let '(rule2, beta, lam) :=                                                               (* :422-428 *)
    match rule1 with
    | RFista f => let '(f1, l) := update_lambda f in (RFista f1, update_beta f (hf_beta s), l)
    | RUser bu lu => (RUser bu lu, apply_update bu (hf_calls s) (hf_beta s), apply_update lu (hf_calls s) (hf_lambda s))
    end in
  mk_h_fb h6 (next h4) (next h5) (Some (x_new, z_new)) beta lam rule2 (S (hf_calls s)).

Definition h_fb_after (n : nat) (s : h_fb) : h_fb := Nat.iter n h_fb_update s.

(** The values the attributes refer to. *)
Definition fb_values (s : h_fb) : fb :=
  mk_fb (rd (hf_heap s) (hf_x_old s)) (rd (hf_heap s) (hf_z_old s))
    (match hf_new s with Some (x, z) => Some (rd (hf_heap s) x, rd (hf_heap s) z) | None => None end)
    (hf_beta s) (hf_lambda s) (hf_rule s) (hf_calls s).
End FB.

(** * GenForwardBackward *)
Section GFB.
Context {H : ips}.
Variable gop : hop H.
Variable pops : list (R -> hop H).

(** The rows of the array _z are separate references; nothing else refers to them. *)
Record h_gfb := mk_h_gfb {
  hg_heap : heap H; hg_x_old : nat; hg_x_new : option nat; hg_z : list nat; hg_weights : list R;
  hg_gamma : R; hg_lambda : R; hg_calls : nat;
  hg_gamma_update : option (nat -> R -> R); hg_lambda_update : option (nat -> R -> R) }.

(** n new arrays with the value v *)
Fixpoint alloc_n (n : nat) (h : heap H) (v : H) : heap H * list nat :=
  match n with
  | O => (h, [])
  | S n' => let '(h1, l) := alloc_n n' (alloc h v) v in (h1, next h :: l)
  end.

(** forward_backward.py:598 and 630: a copy of x, then np.array([x_old, ..., x_old]). *)
Definition h_gfb_init (h : heap H) (x : nat) (step_size : option R) (gamma_param lambda_param : R)
    (gamma_update lambda_update : option (nat -> R -> R)) (weights : option (list R)) : res h_gfb :=
  do ws <- gfb_weights (List.length pops) weights;
  let h1 := alloc h (rd h x) in
  let '(h2, zs) := alloc_n (List.length pops) h1 (rd h1 (next h)) in
  Ok (mk_h_gfb h2 (next h) None zs ws (step_or step_size gamma_param) lambda_param 0 gamma_update lambda_update).

(** forward_backward.py:722-728, the loop over i. *)
Fixpoint h_gfb_loop (x g : nat) (gamma lam : R) (ps : list (R -> hop H)) (ws : list R) (zs : list nat) (h : heap H) : heap H :=
  match ps, ws, zs with
  | p :: ps, w :: ws, z :: zs =>
      let h1 := alloc h (2 * rd h x - rd h z - gamma * rd h g)%v in                       (* z_temp *)
      let '(h2, z_prox) := p (gamma / w) h1 (next h) in
      let h3 := wr h2 z (rd h2 z + lam * (rd h2 z_prox - rd h2 x))%v in                   (* self._z[i] += *)
      h_gfb_loop x g gamma lam ps ws zs h3
  | _, _, _ => h
  end.

(** forward_backward.py:718-740 *)
Definition h_gfb_update (s : h_gfb) : h_gfb :=
  let '(h1, g) := gop (hg_heap s) (hg_x_old s) in
  let h2 := h_gfb_loop (hg_x_old s) g (hg_gamma s) (hg_lambda s) pops (hg_weights s) (hg_z s) h1 in
  let h3 := alloc h2 (vsum_list (map2 (fun z_i w_i => (w_i * z_i)%v) (map (rd h2) (hg_z s)) (hg_weights s))) in   (* :731, x_new *)
  let h4 := wr h3 (hg_x_old s) (rd h3 (next h2)) in                                        (* :737 *)
  mk_h_gfb h4 (hg_x_old s) (Some (next h2)) (hg_z s) (hg_weights s)
    (apply_update (hg_gamma_update s) (hg_calls s) (hg_gamma s))
    (apply_update (hg_lambda_update s) (hg_calls s) (hg_lambda s)) (S (hg_calls s))
    (hg_gamma_update s) (hg_lambda_update s).

Definition h_gfb_after (n : nat) (s : h_gfb) : h_gfb := Nat.iter n h_gfb_update s.

Definition gfb_values (s : h_gfb) : gfb :=
  mk_gfb (rd (hg_heap s) (hg_x_old s)) (match hg_x_new s with Some x => Some (rd (hg_heap s) x) | None => None end)
    (map (rd (hg_heap s)) (hg_z s)) (hg_weights s) (hg_gamma s) (hg_lambda s) (hg_calls s)
    (hg_gamma_update s) (hg_lambda_update s).
End GFB.

(** * POGM *)
Section POGM.
Context {H : ips}.
Variable gop : hop H.
Variable pop : R -> hop H.

Record h_pogm := mk_h_pogm {
  hp_heap : heap H; hp_u : nat; hp_x : nat; hp_y : nat; hp_z : nat; hp_g : nat;
  hp_t : R; hp_sigma : R; hp_xi : R; hp_beta : R; hp_sigma_bar : R; hp_x_new : option nat }.

(** forward_backward.py:887-890 and 918-919: copies of the four arrays; _g_old is the very object
    the gradient operator holds as its attribute grad. *)
Definition h_pogm_init (h : heap H) (u x y z : nat) (step_size : option R) (beta_param sigma_bar : R) : res h_pogm :=
  if Rlt_dec sigma_bar 0 then Err ValueError
  else if Rgt_dec sigma_bar 1 then Err ValueError
  else
    let h1 := alloc h (rd h u) in let h2 := alloc h1 (rd h1 x) in
    let h3 := alloc h2 (rd h2 y) in let h4 := alloc h3 (rd h3 z) in
    let '(h5, g) := gop h4 (next h1) in
    Ok (mk_h_pogm h5 (next h) (next h1) (next h2) (next h3) g 1 1 1 (step_or step_size beta_param) sigma_bar None).

(** forward_backward.py:936-987.  The arrays built in several statements (:938-940, :949-952,
    :963-965, :969-970: an expression, then += or /= on its result) are new arrays nobody else refers
    to; they are allocated here with their final value, read in the same order. *)
Definition h_pogm_update (s : h_pogm) : h_pogm :=
  let '(h1, gr) := gop (hp_heap s) (hp_x s) in                                             (* :937 *)
  let h2 := alloc h1 ((- hp_beta s) * rd h1 gr + rd h1 (hp_x s))%v in                      (* :939-940, u_new *)
  let u_new := next h1 in
  let t_new := / 2 * (1 + sqrt (1 + 4 * hp_t s ^ 2)) in                                    (* :943 *)
  let t_shifted_ratio := (hp_t s - 1) / t_new in
  let sigma_t_ratio := hp_sigma s * hp_t s / t_new in
  let beta_xi := t_shifted_ratio * hp_beta s / hp_xi s in
  let h3 := alloc h2 ((- beta_xi) * (rd h2 (hp_x s) - rd h2 (hp_z s)) + rd h2 u_new
                      + t_shifted_ratio * (rd h2 u_new - rd h2 (hp_u s))
                      + sigma_t_ratio * (rd h2 u_new - rd h2 (hp_x s)))%v in               (* :949-952, z *)
  let z := next h2 in
  let xi := hp_beta s * (1 + t_shifted_ratio + sigma_t_ratio) in                           (* :955 *)
  let '(h4, x_new) := pop xi h3 z in                                                       (* :958 *)
  let h5 := alloc h4 ((/ xi) * (rd h4 z - rd h4 x_new) + rd h4 gr)%v in                    (* :963-965, g_new *)
  let g_new := next h4 in
  let h6 := alloc h5 ((- hp_beta s) * rd h5 g_new + rd h5 (hp_x s))%v in                   (* :969-970, y_new *)
  let y_new := next h5 in
  let '(t_new, sigma) :=                                                                   (* :973-980 *)
    if Rlt_dec (inner ((-1) * rd h6 g_new)%v (rd h6 y_new - rd h6 (hp_y s))%v) 0 then (1, 1)
    else if Rlt_dec (inner (rd h6 g_new) (rd h6 (hp_g s))) 0 then (t_new, hp_sigma s * hp_sigma_bar s)
    else (t_new, hp_sigma s) in
  let h7 := wr h6 (hp_u s) (rd h6 u_new) in                                                (* :984 *)
  let h8 := wr h7 (hp_x s) (rd h7 x_new) in                                                (* :985 *)
  let h9 := wr h8 (hp_g s) (rd h8 g_new) in                                                (* :986 *)
  let h10 := wr h9 (hp_y s) (rd h9 y_new) in                                               (* :987 *)
  mk_h_pogm h10 (hp_u s) (hp_x s) (hp_y s) z (hp_g s) t_new sigma xi (hp_beta s) (hp_sigma_bar s) (Some x_new).

Definition h_pogm_after (n : nat) (s : h_pogm) : h_pogm := Nat.iter n h_pogm_update s.

Definition pogm_values (s : h_pogm) : pogm :=
  let v := rd (hp_heap s) in
  mk_pogm (v (hp_u s)) (v (hp_x s)) (v (hp_y s)) (v (hp_z s)) (v (hp_g s)) (hp_t s) (hp_sigma s) (hp_xi s) (hp_beta s)
    (hp_sigma_bar s) (match hp_x_new s with Some x => Some (v x) | None => None end).
End POGM.

(** * Condat.  Primal and dual arrays live on the same heap. *)
Section Condat.
Context {H K : ips}.
Variable gop : hop (H + K).
Variable pop : R -> hop (H + K).
Variable dop : R -> hop (H + K).       (* prox_dual.op *)
Variables lop ladj : hop (H + K).      (* linear.op, linear.adj_op *)

Definition rdH (h : heap (H + K)) (r : nat) : H := match rd h r with inl v => v | inr _ => vzero end.
Definition rdK (h : heap (H + K)) (r : nat) : K := match rd h r with inr v => v | inl _ => vzero end.

Record h_condat := mk_h_condat {
  hc_heap : heap (H + K); hc_x : nat; hc_y : nat; hc_new : option (nat * nat);
  hc_rho : R; hc_sigma : R; hc_tau : R; hc_calls : nat;
  hc_rho_update : option (nat -> R -> R); hc_sigma_update : option (nat -> R -> R);
  hc_tau_update : option (nat -> R -> R) }.

(** primal_dual.py:109-110 *)
Definition h_condat_init (h : heap (H + K)) (x y : nat) (step_size : option R) (rho sigma tau : R)
    (rho_update sigma_update tau_update : option (nat -> R -> R)) : h_condat :=
  let h1 := alloc h (rd h x) in
  let h2 := alloc h1 (rd h1 y) in
  mk_h_condat h2 (next h) (next h1) None rho sigma (step_or step_size tau) 0 rho_update sigma_update tau_update.

(** primal_dual.py:186-214.  In :189-193 the first difference is computed before linear.adj_op is
    called. *)
Definition h_condat_update (s : h_condat) : h_condat :=
  let x := hc_x s in let y := hc_y s in
  let '(h1, g) := gop (hc_heap s) x in                                                     (* :187 *)
  let d := (rdH h1 x - hc_tau s * rdH h1 g)%v in
  let '(h2, a) := ladj h1 y in
  let h3 := alloc h2 (inl (d - hc_tau s * rdH h2 a)%v) in
  let '(h4, x_prox) := pop default_extra_factor h3 (next h2) in                            (* :189-193 *)
  let h5 := alloc h4 (inl (2 * rdH h4 x_prox - rdH h4 x)%v) in
  let '(h6, l) := lop h5 (next h4) in
  let h7 := alloc h6 (inr (rdK h6 y + hc_sigma s * rdK h6 l)%v) in                         (* :196, y_temp *)
  let y_temp := next h6 in
  let h8 := alloc h7 (inr (/ hc_sigma s * rdK h7 y_temp)%v) in
  let '(h9, q) := dop (1 / hc_sigma s) h8 (next h7) in
  let h10 := alloc h9 (inr (rdK h9 y_temp - hc_sigma s * rdK h9 q)%v) in                   (* :198-201, y_prox *)
  let y_prox := next h9 in
  let h11 := alloc h10 (inl (hc_rho s * rdH h10 x_prox + (1 - hc_rho s) * rdH h10 x)%v) in (* :204, x_new *)
  let h12 := alloc h11 (inr (hc_rho s * rdK h11 y_prox + (1 - hc_rho s) * rdK h11 y)%v) in (* :205, y_new *)
  let h13 := wr h12 x (rd h12 (next h10)) in                                               (* :210 *)
  let h14 := wr h13 y (rd h13 (next h11)) in                                               (* :211 *)
  mk_h_condat h14 x y (Some (next h10, next h11))
    (apply_update (hc_rho_update s) (hc_calls s) (hc_rho s))
    (apply_update (hc_sigma_update s) (hc_calls s) (hc_sigma s))
    (apply_update (hc_tau_update s) (hc_calls s) (hc_tau s))
    (S (hc_calls s)) (hc_rho_update s) (hc_sigma_update s) (hc_tau_update s).

Definition h_condat_after (n : nat) (s : h_condat) : h_condat := Nat.iter n h_condat_update s.

Definition condat_values (s : h_condat) : condat (H := H) (K := K) unit :=
  mk_condat (rdH (hc_heap s) (hc_x s)) (rdK (hc_heap s) (hc_y s))
    (match hc_new s with Some (x, y) => Some (rdH (hc_heap s) x, rdK (hc_heap s) y) | None => None end)
    (hc_rho s) (hc_sigma s) (hc_tau s) (hc_calls s) tt (hc_rho_update s) (hc_sigma_update s) (hc_tau_update s).
End Condat.

(** * ADMM, with u, v and the constraint in the same space *)
Section ADMM.
Context {H : ips}.
Variables aop bop : hop H.             (* A.op, B.op *)
Variable b : nat.                      (* the array b *)
Variables hopti gopti : hop2 H.        (* optimizers[0](init, obs), optimizers[1](init, obs) *)

Record h_admm := mk_h_admm {
  ha_heap : heap H; ha_u_old : nat; ha_u_new : nat; ha_v_old : nat; ha_v_new : nat; ha_mu_old : nat; ha_mu_new : nat }.

(** admm.py:146-151 *)
Definition h_admm_init (h : heap H) (u v mu : nat) : h_admm :=
  let h1 := alloc h (rd h u) in let h2 := alloc h1 (rd h1 u) in
  let h3 := alloc h2 (rd h2 v) in let h4 := alloc h3 (rd h3 v) in
  let h5 := alloc h4 (rd h4 mu) in let h6 := alloc h5 (rd h5 mu) in
  mk_h_admm h6 (next h) (next h1) (next h2) (next h3) (next h5) (next h4).

(** admm.py:153-169 *)
Definition h_admm_update (s : h_admm) : h_admm :=
  let u := ha_u_old s in let v := ha_v_old s in
  let '(h1, bv) := bop (ha_heap s) v in
  let h2 := alloc h1 (rd h1 bv + rd h1 u - rd h1 b)%v in
  let '(h3, u_new) := hopti h2 u (next h1) in                                              (* :154-157 *)
  let '(h4, tmp) := aop h3 u_new in                                                        (* :158 *)
  let h5 := alloc h4 (rd h4 tmp + rd h4 u - rd h4 b)%v in
  let '(h6, v_new) := gopti h5 v (next h4) in                                              (* :159-162 *)
  let '(h7, bv') := bop h6 v_new in
  let h8 := alloc h7 (rd h7 (ha_mu_old s) + (rd h7 tmp + rd h7 bv' - rd h7 b))%v in        (* :164 *)
  let h9 := alloc h8 (rd h8 u_new) in                                                      (* :167 *)
  let h10 := alloc h9 (rd h9 v_new) in                                                     (* :168 *)
  let h11 := alloc h10 (rd h10 (next h7)) in                                               (* :169 *)
  mk_h_admm h11 (next h8) u_new (next h9) v_new (next h10) (next h7).

Definition h_admm_after (n : nat) (s : h_admm) : h_admm := Nat.iter n h_admm_update s.

Definition admm_values (s : h_admm) : admm (H := H) (K := H) :=
  let w := rd (ha_heap s) in
  mk_admm (w (ha_u_old s)) (w (ha_u_new s)) (w (ha_v_old s)) (w (ha_v_new s)) (w (ha_mu_old s)) (w (ha_mu_new s)).
End ADMM.
