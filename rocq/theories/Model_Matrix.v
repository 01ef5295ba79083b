(** Model of math/matrix.py: project, gram_schmidt, rot_matrix, rotate, PowerMethod. Exact reals; a
    vector holding nan (after a division by zero) is [None]. nuclear_norm is in Model_SVD. *)
From Verif Require Import NPReal Py IPS Model_Array.
From Coq Require Import List Lia.
Import ListNotations.
Local Open Scope R_scope.

Section GramSchmidt.
Context {H : ips}.

(** matrix.py:153. np.inner does not conjugate; this is the real case. *)
Definition project (u v : H) : option H :=
  if Req_EM_T (inner u u) 0 then None else Some (inner v u / inner u u * u)%v.

Definition osub (a b : option H) : option H :=
  match a, b with Some x, Some y => Some (x - y)%v | _, _ => None end.
Definition oadd (a b : option H) : option H :=
  match a, b with Some x, Some y => Some (x + y)%v | _, _ => None end.
Definition oproject (u : option H) (v : H) : option H :=
  match u with Some u => project u v | None => None end.

(** u_now / np.linalg.norm(u_now, 2), matrix.py:72 *)
Definition onormalise (u : option H) : option H :=
  match u with
  | Some u => if Req_EM_T (norm u) 0 then None else Some (/ norm u * u)%v
  | None => None
  end.

(** matrix.py:65-72: the loop over the rows, [us] being u_vec. *)
Fixpoint gs_loop (us : list (option H)) (rows : list H) : list (option H) :=
  match rows with
  | [] => us
  | v :: rest =>
      let u_now :=
        match us with
        | [] => Some v                                                                     (* :69 *)
        | _ => osub (Some v) (fold_left oadd (map (fun u => oproject u v) us) (Some vzero)) (* :67 *)
        end in
      gs_loop (us ++ [u_now]) rest
  end.

Inductive gs_result := GSOne (rows : list (option H)) | GSBoth (u e : list (option H)).
Inductive gs_opt := Orthonormal | Orthogonal | Both | OtherOpt.

(** matrix.py:56-82 *)
Definition gram_schmidt (rows : list H) (opt : gs_opt) : res gs_result :=
  let us := gs_loop [] rows in
  let es := map onormalise us in
  match opt with
  | OtherOpt => Err ValueError
  | Orthonormal => Ok (GSOne es)
  | Orthogonal => Ok (GSOne us)
  | Both => Ok (GSBoth us es)
  end.
End GramSchmidt.
Arguments gs_result : clear implicits.

(** The same for complex vectors of length n, given by their entries; np.inner(a, b) is the sum of
    a_i b_i without conjugation, np.linalg.norm the Hermitian norm. Division by a complex number. *)
Definition cplx : Type := (R * R)%type.
Definition c_mul (a b : cplx) : cplx := (fst a * fst b - snd a * snd b, fst a * snd b + snd a * fst b).
Definition c_add (a b : cplx) : cplx := (fst a + fst b, snd a + snd b).
Definition c_sub (a b : cplx) : cplx := (fst a - fst b, snd a - snd b).
Definition c_abs2 (a : cplx) : R := fst a ^ 2 + snd a ^ 2.
Definition c_div (a b : cplx) : cplx :=
  ((fst a * fst b + snd a * snd b) / c_abs2 b, (snd a * fst b - fst a * snd b) / c_abs2 b).
Definition np_inner (a b : list cplx) : cplx := fold_right c_add (0, 0) (map (fun p => c_mul (fst p) (snd p)) (combine a b)).
(** project, matrix.py:153, when the denominator is not 0. *)
Definition c_project (u v : list cplx) : list cplx := map (c_mul (c_div (np_inner v u) (np_inner u u))) u.
(** The second row of u_vec, matrix.py:67. *)
Definition c_second (v0 v1 : list cplx) : list cplx := map (fun p => c_sub (fst p) (snd p)) (combine v1 (c_project v0 v1)).

(** matrix.py:187-193: rows of the 2x2 matrix. *)
Definition rot_matrix (angle : R) : (R * R) * (R * R) :=
  ((around 10 (cos angle), around 10 (- sin angle)), (around 10 (sin angle), around 10 (cos angle))).

(** One coordinate of new_index, :250-251, followed by NumPy's treatment of negative indices;
    None: out of range. *)
Definition wrap_index (n : nat) (k : Z) : option nat :=
  let k := if (Z.of_nat n <=? k)%Z then (k - Z.of_nat n)%Z else k in
  let k := if (k <? 0)%Z then (k + Z.of_nat n)%Z else k in
  if ((0 <=? k)%Z && (k <? Z.of_nat n)%Z)%bool then Some (Z.to_nat k) else None.

(** The pixel of the input that pixel (i, j) of the output shows, :244-251. *)
Definition rot_source (n : nat) (angle : R) (i j : nat) : option (nat * nat) :=
  let shift := Z.of_nat ((n - 1) / 2) in
  let a := IZR (Z.of_nat i - shift) in let b := IZR (Z.of_nat j - shift) in
  let '((r00, r01), (r10, r11)) := rot_matrix angle in
  match wrap_index n (trunc (a * r00 + b * r10) + shift), wrap_index n (trunc (a * r01 + b * r11) + shift) with
  | Some k, Some l => Some (k, l)
  | _, _ => None
  end.

Definition pairs (n : nat) : list (nat * nat) := flat_map (fun i => map (fun j => (i, j)) (seq 0 n)) (seq 0 n).

(** matrix.py:237-253 for 2-D arrays with at least one pixel. *)
Definition rotate_matrix {A} (m : nda A) (angle : R) : res (nda A) :=
  match shape m with
  | [] | [_] => Err IndexError
  | [h; w] =>
      if negb (Nat.eqb h w) then Err ValueError
      else if Nat.eqb h 0 then Err NotModelled
      else if forallb (fun p => match rot_source h angle (fst p) (snd p) with Some _ => true | None => false end) (pairs h)
      then Ok (mk_nda [h; w] (fun idx => match rot_source h angle (nth 0 idx 0%nat) (nth 1 idx 0%nat) with
                                         | Some (k, l) => at_ m [k; l] | None => at_ m idx end))
      else Err IndexError
  | _ => Err NotModelled
  end.

(** * PowerMethod *)
Section Power.
Context {H : ips}.
Variable op : H -> H.

Definition ounit (x : H) : option H := if Req_EM_T (norm x) 0 then None else Some (/ norm x * x)%v.

(** matrix.py:356-376, [n] iterations left. A nan vector stays nan (the operator is supposed to use
    its input). Result: x_new_norm, None for nan. *)
Fixpoint pm_loop (n : nat) (x_old : option H) (x_old_norm tol : R) : option R :=
  match n, x_old with
  | O, _ => None
  | S _, None => None
  | S n', Some x =>
      let x_new := op x in
      let x_new_norm := norm x_new in
      if Rlt_dec (Rabs (x_new_norm - x_old_norm)) tol then Some x_new_norm                 (* :365-369 *)
      else match n' with
           | O => Some x_new_norm
           | S _ => pm_loop n' (ounit x_new) x_new_norm tol                                (* :375-376 *)
           end
  end.

(** matrix.py:347-378; x0 is the random start. With max_iter = 0 x_new_norm is never bound. *)
Definition get_spec_rad (x0 : H) (tol : R) (max_iter : nat) (extra_factor : R) : res (option R) :=
  match max_iter with
  | O => Err UnboundLocalError
  | _ => Ok (option_map (fun r => r * extra_factor) (pm_loop max_iter (ounit x0) (norm x0) tol))
  end.

(** matrix.py:299-327: the rng argument is not stored; default_rng gets None and draws a start from
    [entropy], the state of the operating system. *)
Definition pm_rng_attribute {Seed : Type} (rng : option Seed) : option Seed := None.
Definition initial_x {Seed Ent : Type} (draw : option Seed -> Ent -> H) (rng : option Seed) (entropy : Ent) : H :=
  draw (pm_rng_attribute rng) entropy.
End Power.
