(** The updates of opt/algorithms/gradient_descent.py and of FastADMM (opt/algorithms/admm.py) on the
    heap of arrays of Model_Heap.  Scalars are treated as in Model_GD and Model_ADMM; the float speed of
    VanillaGenericGradOpt and MomentumGradOpt is stored as a constant array.  SAGA's _grad_memory is one
    array nothing else refers to: its rows stay values. *)
From Verif Require Import NPReal Py IPS Model_SetUp Model_GD Model_ADMM Model_Heap.
From Coq Require Import List.
Import ListNotations.
Local Open Scope R_scope.

(** * Gradient descent *)
Section GD.
Variable I : Type.
Notation arr := (arr I).
Variable gop : nat -> hop arr.         (* the k-th call of get_grad; the reference is that of grad.grad *)
Variable pop : hop2 arr.               (* prox.op(x, extra_factor) *)

Record h_gd := mk_h_gd {
  hd_heap : heap arr; hd_class : gd_class;
  hd_x_old : nat; hd_x_new : nat; hd_dir : nat; hd_speed : nat;
  hd_eta : R; hd_eps : R; hd_epoch_size : nat; hd_eta_update : option (R -> nat -> R);
  hd_beta_pow : R; hd_gamma_pow : R; hd_memory : nat -> arr; hd_calls : nat }.

(** gradient_descent.py:96-99 (two copies of x and two new arrays), :245, :352; the checks as in [gd_init]. *)
Definition h_gd_init (h : heap arr) (c : gd_class) (x : nat) (eta eps : R) (epoch_size : nat)
    (eta_update : option (R -> nat -> R)) : res h_gd :=
  let h1 := alloc h (rd h x) in                                                            (* :96 *)
  let h2 := alloc h1 (rd h1 x) in                                                          (* :97 *)
  let h3 := alloc h2 (match c with Vanilla | Momentum _ => full 1 | _ => full 0 end) in    (* :98 *)
  let h4 := alloc h3 (full 0) in                                                           (* :99 *)
  let eps' := match c with Vanilla | Momentum _ => 0 | _ => eps end in
  let ok := match c with
            | RMSprop g => in_range_closed g
            | Adam g b => in_range_open g && in_range_open b
            | _ => true
            end in
  if ok then Ok (mk_h_gd h4 c (next h) (next h1) (next h3) (next h2) eta eps' epoch_size eta_update 1 1 (fun _ => full 0) 0)
  else Err ValueError.

(** _update_grad_dir: :172 binds _dir_grad to the operator's array; :364, :418-420 and :463 make a new
    array, and :464 copies the gradient into a row of _grad_memory. *)
Definition h_update_dir (s : h_gd) (idx : nat) (h : heap arr) (g : nat) : heap arr * nat * R * (nat -> arr) :=
  match hd_class s with
  | Momentum beta => (alloc h (fun i => beta * rd h (hd_dir s) i + rd h g i), next h, hd_beta_pow s, hd_memory s)
  | Adam gamma beta =>
      let bp := hd_beta_pow s * beta in
      (alloc h (fun i => 1 / (1 - bp) * (beta * rd h (hd_dir s) i + (1 - beta) * rd h g i)), next h, bp, hd_memory s)
  | Saga =>
      let cycle := Nat.modulo idx (hd_epoch_size s) in
      let h1 := alloc h (fun i => rd h (hd_dir s) i - hd_memory s cycle i + rd h g i) in
      (h1, next h, hd_beta_pow s, (fun c => if Nat.eqb c cycle then rd h1 g else hd_memory s c))
  | _ => (h, g, hd_beta_pow s, hd_memory s)
  end.

(** _update_grad_speed: :276 is +=, in the array; :322-324 and :425-427 make a new array. *)
Definition h_update_speed (s : h_gd) (h : heap arr) (g : nat) : heap arr * nat * R :=
  match hd_class s with
  | Ada => (wr h (hd_speed s) (fun i => rd h (hd_speed s) i + Rabs (rd h g i) ^ 2), hd_speed s, hd_gamma_pow s)
  | RMSprop gamma =>
      (alloc h (fun i => gamma * rd h (hd_speed s) i + (1 - gamma) * Rabs (rd h g i) ^ 2), next h, hd_gamma_pow s)
  | Adam gamma beta =>
      let gp := hd_gamma_pow s * gamma in
      (alloc h (fun i => 1 / (1 - gp) * (gamma * rd h (hd_speed s) i + (1 - gamma) * Rabs (rd h g i) ^ 2)), next h, gp)
  | _ => (h, hd_speed s, hd_gamma_pow s)
  end.

(** :146-156 for epoch_size > 0 *)
Definition h_gd_step (idx : nat) (s : h_gd) : h_gd :=
  let '(h1, g) := gop (hd_calls s) (hd_heap s) (hd_x_old s) in                             (* :146 *)
  let '(h2, dir, bp, mem) := h_update_dir s idx h1 g in                                    (* :147 *)
  let '(h3, speed, gp) := h_update_speed s h2 g in                                         (* :148 *)
  let h4 := alloc h3 (fun i => hd_eta s / (sqrt (rd h3 speed i) + hd_eps s)) in            (* :149, step *)
  let h5 := alloc h4 (fun i => rd h4 (hd_x_old s) i - rd h4 (next h3) i * rd h4 dir i) in  (* :150, x_new *)
  let epoch := Nat.eqb (Nat.modulo idx (hd_epoch_size s)) 0 in                             (* :151 *)
  let '(h6, dir') :=                                                                       (* :152, :229, :368 *)
    if epoch then match hd_class s with Momentum _ => (alloc h5 (full 0), next h5) | _ => (h5, dir) end
    else (h5, dir) in
  let '(h7, x_new) := if epoch then pop h6 (next h4) (next h3) else (h6, next h4) in       (* :153, :194 *)
  let h8 := alloc h7 (rd h7 x_new) in                                                      (* :154 *)
  let eta := match hd_eta_update s with Some u => u (hd_eta s) idx | None => hd_eta s end in      (* :155-156 *)
  mk_h_gd h8 (hd_class s) (next h7) x_new dir' speed eta (hd_eps s) (hd_epoch_size s) (hd_eta_update s) bp gp mem
    (S (hd_calls s)).

(** Updates with the given values of idx, the most recent first. *)
Fixpoint h_gd_run_idx (l : list nat) (s : h_gd) : h_gd :=
  match l with [] => s | idx :: l' => h_gd_step idx (h_gd_run_idx l' s) end.

(** What the attributes hold. *)
Definition gd_values (s : h_gd) : gd I :=
  let w := rd (hd_heap s) in
  mk_gd (hd_class s) (w (hd_x_old s)) (w (hd_x_new s)) (w (hd_dir s)) (w (hd_speed s)) (hd_eta s) (hd_eps s)
    (hd_epoch_size s) (hd_eta_update s) (hd_beta_pow s) (hd_gamma_pow s) (hd_memory s) (hd_calls s).
End GD.
Arguments mk_h_gd {I}. Arguments h_gd_init {I}. Arguments h_gd_step {I}. Arguments h_gd_run_idx {I}. Arguments gd_values {I}.
Arguments h_update_dir {I}. Arguments h_update_speed {I}.
Arguments hd_heap {I}. Arguments hd_class {I}. Arguments hd_x_old {I}. Arguments hd_x_new {I}. Arguments hd_dir {I}.
Arguments hd_speed {I}. Arguments hd_eta {I}. Arguments hd_eps {I}. Arguments hd_epoch_size {I}. Arguments hd_eta_update {I}.
Arguments hd_beta_pow {I}. Arguments hd_gamma_pow {I}. Arguments hd_memory {I}. Arguments hd_calls {I}.

(** * FastADMM *)
Section FADMM.
Context {H : ips}.
Variables aop bop : hop H.             (* A.op, B.op *)
Variable b : nat.                      (* the array b *)
Variables hopti gopti : hop2 H.        (* optimizers[0](init, obs), optimizers[1](init, obs) *)

Record h_fadmm := mk_h_fadmm {
  hfa_heap : heap H; hfa_u_old : nat; hfa_u_new : nat; hfa_v_old : nat; hfa_v_new : nat; hfa_mu_old : nat; hfa_mu_new : nat;
  hfa_v_hat : nat; hfa_mu_hat : nat; hfa_c_old : xfloat; hfa_c_new : xfloat;
  hfa_eta : R; hfa_alpha_old : R; hfa_alpha_new : R; hfa_tau : R; hfa_has_cost : bool }.

(** admm.py:281-301 (v=b is passed on), :146-151; :300-301 copy again. *)
Definition h_fadmm_init (h : heap H) (u mu : nat) (has_cost : bool) (alpha eta : R) : h_fadmm :=
  let h1 := alloc h (rd h u) in let h2 := alloc h1 (rd h1 u) in
  let h3 := alloc h2 (rd h2 b) in let h4 := alloc h3 (rd h3 b) in
  let h5 := alloc h4 (rd h4 mu) in let h6 := alloc h5 (rd h5 mu) in
  let h7 := alloc h6 (rd h6 (next h3)) in let h8 := alloc h7 (rd h7 (next h4)) in
  mk_h_fadmm h8 (next h) (next h1) (next h2) (next h3) (next h5) (next h4) (next h6) (next h7) PInf (Fin 0) eta alpha alpha 1 has_cost.

(** admm.py:304-340.  The else branch makes _v_hat and _mu_hat the same objects as _v_old and _mu_old;
    np.copyto then writes into those. *)
Definition h_fadmm_update (s : h_fadmm) : res h_fadmm :=
  let u := hfa_u_old s in let v := hfa_v_old s in let m := hfa_mu_old s in
  let vh := hfa_v_hat s in let mh := hfa_mu_hat s in
  let '(h1, bv) := bop (hfa_heap s) vh in
  let h2 := alloc h1 (rd h1 bv + rd h1 u - rd h1 b)%v in
  let '(h3, u_new) := hopti h2 u (next h1) in                                              (* :305-308 *)
  let '(h4, tmp) := aop h3 u_new in                                                        (* :309 *)
  let h5 := alloc h4 (rd h4 tmp + rd h4 u - rd h4 b)%v in
  let '(h6, v_new) := gopti h5 vh (next h4) in                                             (* :310-313 *)
  let '(h7, bv') := bop h6 v_new in
  let h8 := alloc h7 (rd h7 mh + (rd h7 tmp + rd h7 bv' - rd h7 b))%v in                   (* :315 *)
  let mu_new := next h7 in
  let n1 := norm (rd h8 mu_new - rd h8 mh)%v in                                            (* :318 *)
  let h9 := alloc h8 (rd h8 v_new - rd h8 vh)%v in
  let '(h10, bd) := bop h9 (next h8) in
  let c_new := n1 + hfa_tau s * norm (rd h10 bd) in                                        (* :319-321 *)
  let '(h12, vh', mh', c', alpha_new) :=
    if lt_scaled c_new (hfa_eta s) (hfa_c_old s) then                                      (* :322-326 *)
      let alpha_new := 1 + sqrt (1 + 4 * hfa_alpha_old s ^ 2) in
      let beta := (alpha_new - 1) / hfa_alpha_old s in
      let h11 := alloc h10 (rd h10 v_new + beta * (rd h10 v_new - rd h10 v))%v in
      let h12 := alloc h11 (rd h11 mu_new + beta * (rd h11 mu_new - rd h11 m))%v in
      (h12, next h10, next h11, Fin c_new, alpha_new)
    else (h10, v, m, xdiv (hfa_c_old s) (hfa_eta s), 1) in                                 (* :328-332 *)
  let h13 := wr h12 u (rd h12 u_new) in                                                    (* :334 *)
  let h14 := wr h13 v (rd h13 v_new) in                                                    (* :335 *)
  let h15 := wr h14 m (rd h14 mu_new) in                                                   (* :336 *)
  if hfa_has_cost s then Err AttributeError                                                (* :338-340 *)
  else Ok (mk_h_fadmm h15 u u_new v v_new m mu_new vh' mh' (hfa_c_old s) c' (hfa_eta s) (hfa_alpha_old s) alpha_new
             (hfa_tau s) (hfa_has_cost s)).

Fixpoint h_fadmm_after (n : nat) (s : h_fadmm) : res h_fadmm :=
  match n with O => Ok s | S n' => do s1 <- h_fadmm_after n' s; h_fadmm_update s1 end.

Definition fadmm_values (s : h_fadmm) : fadmm (H := H) :=
  let w := rd (hfa_heap s) in
  mk_fadmm (w (hfa_u_old s)) (w (hfa_u_new s)) (w (hfa_v_old s)) (w (hfa_v_new s)) (w (hfa_mu_old s)) (w (hfa_mu_new s))
    (w (hfa_v_hat s)) (w (hfa_mu_hat s)) (hfa_c_old s) (hfa_c_new s) (hfa_eta s) (hfa_alpha_old s) (hfa_alpha_new s)
    (hfa_tau s) (hfa_has_cost s).
End FADMM.
