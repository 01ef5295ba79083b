(** Model of opt/linear/base.py (MatrixOperator, LinearCombo), opt/linear/wavelet.py
    (WaveletConvolve), math/convolve.py, signal/wavelet.py (filter_convolve,
    filter_convolve_stack), opt/gradient.py (GradBasic) and opt/reweight.py. *)
From Coq Require Import String.
From Verif Require Import NPReal Py IPS Model_Array Model_NpAdjust Model_Types.
Import List ListNotations.
Local Open Scope R_scope.

(** Sum of the first n terms. *)
Fixpoint sumn (n : nat) (f : nat -> R) : R :=
  match n with
  | O => 0
  | S m => sumn m f + f m
  end.

(** * MatrixOperator *)

(** Complex numbers as pairs. *)
Definition C : Type := (R * R)%type.
Definition cadd (a b : C) : C := (fst a + fst b, snd a + snd b).
Definition cmul (a b : C) : C := (fst a * fst b - snd a * snd b, fst a * snd b + snd a * fst b).
Definition cconj (a : C) : C := (fst a, - snd a).
Definition c0 : C := (0, 0).
Fixpoint csumn (n : nat) (f : nat -> C) : C :=
  match n with
  | O => c0
  | S m => cadd (csumn m f) (f m)
  end.

(** A 2-D array with a real or complex dtype; real arrays have zero imaginary parts. *)
Record mat := mk_mat { m_rows : nat; m_cols : nat; m_ent : nat -> nat -> C }.
Definition m_T (a : mat) : mat := mk_mat (m_cols a) (m_rows a) (fun i j => m_ent a j i).
Definition m_conj (a : mat) : mat := mk_mat (m_rows a) (m_cols a) (fun i j => cconj (m_ent a i j)).

(** array @ x for a vector x; a length mismatch is a ValueError. *)
Definition matvec (a : mat) (x : list C) : res (list C) :=
  if Nat.eqb (List.length x) (m_cols a)
  then Ok (map (fun i => csumn (m_cols a) (fun j => cmul (m_ent a i j) (nth j x c0))) (seq 0 (m_rows a)))
  else Err ValueError.

(** np.any(np.iscomplex(array)): some entry has a non-zero imaginary part. *)
Definition any_complex (a : mat) : bool :=
  existsb (fun i => existsb (fun j => if Req_EM_T (snd (m_ent a i j)) 0 then false else true) (seq 0 (m_cols a)))
          (seq 0 (m_rows a)).

(** base.py:79-86, vectors x only. *)
Definition matrix_op (a : mat) (x : list C) : res (list C) := matvec a x.
Definition matrix_adj_op (a : mat) (x : list C) : res (list C) :=
  if any_complex a then matvec (m_conj (m_T a)) x else matvec (m_T a) x.

(** * LinearCombo *)
Section Combo.
Context {H K : ips}.

(** base.py:225-246; every operator maps to the same space here. *)
Definition combo_lin_op (ops : list ((H -> K) * (K -> H))) (x : H) : list K := map (fun o => fst o x) ops.

Definition vsum (l : list H) : H := fold_right vadd vzero l.

(** base.py:248-279: zip stops at the shortest of data, operators and weights; np.mean over the
    list (a nan for the empty list, not modelled). *)
Definition combo_lin_adj (ops : list ((H -> K) * (K -> H))) (weights : option (list R)) (y : list K) : res H :=
  match weights with
  | None => match map2 (fun v (o : (H -> K) * (K -> H)) => snd o v) y ops with
            | [] => Err NotModelled
            | l => Ok (/ INR (List.length l) * vsum l)%v
            end
  | Some ws => match map2 (fun (vo : K * ((H -> K) * (K -> H))) w => (w * snd (snd vo) (fst vo))%v) (combine y ops) ws with
               | [] => Err NotModelled
               | l => Ok (vsum l)
               end
  end.
End Combo.

(** base.py:146-223, on the number of operators and the weights' kind. [Some (n, is_float)] are
    n weights of a floating dtype or not. All operators have op and adj_op. *)
Definition combo_check (n_ops : nat) (weights : option (nat * bool)) : res unit :=
  if Nat.eqb n_ops 0 then Err ValueError
  else match weights with
       | None => Ok tt
       | Some (n, is_float) =>
           if Nat.eqb n 0 then Err ValueError
           else if negb (Nat.eqb n n_ops) then Err ValueError
           else if negb is_float then Err TypeError
           else Ok tt
       end.

(** * Convolution *)

(** A kernel extended by 0 outside its support. *)
Definition kz (k : nda R) (a b : nat) (s t : Z) : R :=
  if ((0 <=? s) && (s <? Z.of_nat a) && (0 <=? t) && (t <? Z.of_nat b))%Z
  then at_ k [Z.to_nat s; Z.to_nat t] else 0.

(** convolve.py:80-99 with method="scipy": scipy.signal.fftconvolve(x, k, mode="same") is the full
    convolution cropped to the shape of x starting at (size(k)-1)//2 in each axis. Exact
    arithmetic, non-empty 2-D images. *)
Definition convolve (x k : nda R) : res (nda R) :=
  match shape x, shape k with
  | [h; w], [a; b] =>
      if (Nat.eqb a 0 || Nat.eqb b 0)%bool then Err NotModelled
      else Ok (mk_nda [h; w] (fun idx =>
        sumn h (fun p => sumn w (fun q =>
          at_ x [p; q] * kz k a b (Z.of_nat (nth 0 idx 0%nat) + (Z.of_nat a - 1) / 2 - Z.of_nat p)
                                  (Z.of_nat (nth 1 idx 0%nat) + (Z.of_nat b - 1) / 2 - Z.of_nat q)))))
  | sx, sk => if Nat.eqb (List.length sx) (List.length sk) then Err NotModelled else Err ValueError
  end.

(** The arrays a[0], a[1], ... *)
Definition items {A} (a : nda A) : list (nda A) := map (sub0 a) (seq 0 (hd 0%nat (shape a))).

(** np.sum(list of arrays, axis=0) for arrays of one shape. *)
Definition sum_arrays (l : list (nda R)) : res (nda R) :=
  match l with
  | [] => Err NotModelled
  | a :: _ => if forallb (fun b => list_nat_eqb (shape b) (shape a)) l
              then Ok (mk_nda (shape a) (fun idx => fold_right (fun b s => at_ b idx + s) 0 l))
              else Err ValueError
  end.

(** signal/wavelet.py:304-313. *)
Definition filter_convolve (input_data filters : nda R) (filter_rot : bool) : res (nda R) :=
  if filter_rot then
    do rf <- rotate_stack filters;
    do l <- mapM (fun cf => convolve (fst cf) (snd cf)) (combine (items input_data) (items rf));
    sum_arrays l
  else
    do l <- mapM (convolve input_data) (items filters); stack l.

(** signal/wavelet.py:360-366. *)
Definition filter_convolve_stack (input_data filters : nda R) (filter_rot : bool) : res (nda R) :=
  do l <- mapM (fun e => filter_convolve e filters filter_rot) (items input_data); stack l.

(** opt/linear/wavelet.py:47-58. *)
Definition wavelet_op (filters x : nda R) : res (nda R) := filter_convolve_stack x filters false.
Definition wavelet_adj_op (filters y : nda R) : res (nda R) := filter_convolve_stack y filters true.

(** * GradBasic *)

(** opt/gradient.py:259 (the value stored in grad) and :280. *)
Definition grad_basic {H K : ips} (op : H -> K) (trans_op : K -> H) (obs : K) (x : H) : H :=
  trans_op (op x - obs)%v.
Definition grad_basic_cost {H K : ips} (op : H -> K) (obs : K) (x : H) : R :=
  / 2 * norm (obs - op x)%v ^ 2.

(** * cwbReweight *)

(** An array as reweight.py sees it: shape and row-major data. *)
Record farr := mk_farr { fa_shape : list nat; fa_data : list R }.

(** reweight.py:45-50. *)
Record rw_state := mk_rw { rw_weights : farr; rw_original : list R; rw_factor : R; rw_num : Z }.
Definition rw_init (weights : farr) (factor : R) : rw_state := mk_rw weights (fa_data weights) factor 1.

(** reweight.py:77-96. The state is returned next to the outcome. *)
Definition reweight (s : rw_state) (x : farr) : rw_state * res unit :=
  let s1 := mk_rw (rw_weights s) (rw_original s) (rw_factor s) (rw_num s + 1)%Z in     (* :80 *)
  if list_nat_eqb (fa_shape x) (fa_shape (rw_weights s1)) then
    let thresh_weights := map (fun w => rw_factor s1 * w) (rw_original s1) in          (* :89 *)
    let mult := map2 (fun v t => 1 / (1 + Rabs v / t)) (fa_data x) thresh_weights in   (* :91-93 *)
    (mk_rw (mk_farr (fa_shape (rw_weights s1)) (map2 Rmult (fa_data (rw_weights s1)) mult))
           (rw_original s1) (rw_factor s1) (rw_num s1), Ok tt)
  else (s1, Err ValueError).

(** What the user's program does with a cwbReweight object: call reweight (an exception is
    caught by the user) or set the public attribute thresh_factor. *)
Inductive rw_event := Reweight (x : farr) | SetFactor (n : R).
Definition rw_step (s : rw_state) (e : rw_event) : rw_state :=
  match e with
  | Reweight x => fst (reweight s x)
  | SetFactor n => mk_rw (rw_weights s) (rw_original s) n (rw_num s)
  end.
Definition rw_run (s : rw_state) (l : list rw_event) : rw_state := fold_left rw_step l s.

(** Aliasing. A heap of Python objects; a reference is an index. check_float (types.py:71-82)
    returns the very same object for an array of a floating dtype and allocates a new array
    otherwise. 1-D weights. *)
Definition h_check_float (h : list pyobj) (r : nat) : res (list pyobj * nat) :=
  match nth_error h r with
  | None => Err NotModelled
  | Some (ArrFloat _) => Ok (h, r)
  | Some v => do w <- check_float v; Ok (h ++ [w], List.length h)
  end.

(** A list with its r-th entry replaced. *)
Fixpoint h_write (h : list pyobj) (r : nat) (v : pyobj) : list pyobj :=
  match h, r with
  | [], _ => []
  | _ :: h', O => v :: h'
  | x :: h', S r' => x :: h_write h' r' v
  end.

(** The object as stored on the heap: self.weights is a reference, original_weights is a private
    copy (np.copy, reweight.py:47). *)
Record h_rw := mk_hrw { hr_heap : list pyobj; hr_weights : nat; hr_original : list R; hr_factor : R; hr_num : Z }.

(** reweight.py:45-50 on the heap; weights must become an array. *)
Definition h_rw_init (h : list pyobj) (r : nat) (factor : R) : res h_rw :=
  do hw <- h_check_float h r;
  match nth_error (fst hw) (snd hw) with
  | Some (ArrFloat d) => Ok (mk_hrw (fst hw) (snd hw) d factor 1)
  | _ => Err NotModelled
  end.

(** reweight.py:77-96 on the heap: line 91 multiplies the referenced array in place. *)
Definition h_rw_step (s : h_rw) (e : rw_event) : h_rw :=
  match nth_error (hr_heap s) (hr_weights s) with
  | Some (ArrFloat d) =>
      let v := rw_step (mk_rw (mk_farr [List.length d] d) (hr_original s) (hr_factor s) (hr_num s)) e in
      mk_hrw (h_write (hr_heap s) (hr_weights s) (ArrFloat (fa_data (rw_weights v)))) (hr_weights s)
             (rw_original v) (rw_factor v) (rw_num v)
  | _ => s
  end.
Definition h_rw_run (s : h_rw) (l : list rw_event) : h_rw := fold_left h_rw_step l s.
