(** Model of signal/validation.py (transpose_test), signal/noise.py (add_noise) and math/stats.py
    (gaussian_kernel). Exact arithmetic; the random numbers drawn by a generator are parameters. *)
From Coq Require Import String.
From Verif Require Import NPReal Py Model_Array.
Import List ListNotations.
Local Open Scope string_scope.
Local Open Scope R_scope.

(** All entries of an array in row-major order; np.sum and np.max (ValueError on an empty array). *)
Definition ravelled (a : nda R) : list R := map (fun p => at_ a (unravel (shape a) p)) (seq 0 (prod (shape a))).
Definition np_sum (a : nda R) : R := fold_right Rplus 0 (ravelled a).
Definition np_max (a : nda R) : res R :=
  match ravelled a with [] => Err ValueError | x :: l => Ok (fold_right Rmax x l) end.

(** np.multiply of two arrays of one shape; broadcasting of different shapes is not modelled. *)
Definition multiply (a b : nda R) : res (nda R) :=
  if list_nat_eqb (shape a) (shape b) then Ok (mk_nda (shape a) (fun idx => at_ a idx * at_ b idx)) else Err NotModelled.

(** * transpose_test *)

(** An operator argument: a function of the array and of the extra arguments, or something that cannot
    be called. *)
Inductive operand (Args : Type) := Callable (f : nda R -> option Args -> nda R) | NotCallable.
Arguments Callable {Args} f.
Arguments NotCallable {Args}.

(** validation.py:59-81. [random k s] is the array of shape s returned by the k-th call of
    rng.random. The result is the printed number. *)
Definition transpose_test {Args} (random : nat -> list nat -> nda R) (operator operator_t : operand Args)
    (x_shape : list nat) (x_args : option Args) (y_shape : option (list nat)) (y_args : option Args) : res R :=
  match operator, operator_t with
  | Callable op, Callable op_t =>
      let y_shape := match y_shape with None => x_shape | Some s => s end in       (* :62-63 *)
      let y_args := match y_args with None => x_args | Some a => Some a end in     (* :65-66 *)
      let x_val := random 0%nat x_shape in                                         (* :72 *)
      let y_val := random 1%nat y_shape in                                         (* :73 *)
      do mx <- multiply (op x_val x_args) y_val;
      let mx_y := np_sum mx in                                                     (* :76 *)
      do xm <- multiply x_val (op_t y_val y_args);
      let x_mty := np_sum xm in                                                    (* :79 *)
      Ok (Rabs (mx_y - x_mty))                                                     (* :82 *)
  | _, _ => Err TypeError                                                          (* :59-60 *)
  end.

(** * add_noise *)

(** The sigma argument: an int or float, a list, tuple or 1-D array, or anything else that cannot be
    iterated over (for instance a NumPy float32 scalar or None). *)
Inductive sigma_arg := SNum (s : R) | SSeq (l : list R) | SOther.

(** noise.py:70-97. [normal s] is the array of shape s drawn by rng.standard_normal, [poisson lam] the
    array drawn by rng.poisson(lam). A sequence of sigmas with an empty first axis is not modelled. *)
Definition add_noise (normal : list nat -> nda R) (poisson : nda R -> nda R) (input_data : nda R)
    (sigma : sigma_arg) (noise_type : string) : res (nda R) :=
  if negb (String.eqb noise_type "gauss" || String.eqb noise_type "poisson") then Err ValueError   (* :75-78 *)
  else
    do _ <- match sigma with                                                                       (* :80-84 *)
            | SSeq l => match shape input_data with
                        | [] => Err IndexError
                        | d :: _ => if negb (Nat.eqb (List.length l) d) then Err ValueError else Ok tt
                        end
            | _ => Ok tt
            end;
    let random := if String.eqb noise_type "gauss" then normal (shape input_data)                  (* :86-90 *)
                  else poisson (mk_nda (shape input_data) (fun idx => Rabs (at_ input_data idx))) in
    match sigma with
    | SNum s => Ok (mk_nda (shape input_data) (fun idx => at_ input_data idx + s * at_ random idx)) (* :92-93 *)
    | SSeq [] => Err NotModelled
    | SSeq l => Ok (mk_nda (shape input_data)                                                      (* :95-97 *)
                      (fun idx => at_ input_data idx + nth (hd 0%nat idx) l 0 * at_ random idx))
    | SOther => Err TypeError
    end.

(** * gaussian_kernel *)

(** astropy's Gaussian2DKernel(sigma, x_size=w, y_size=h): the Gaussian sampled at the pixel centres
    around the middle of the image (an assumption about that package). From version 5.2 on it is
    divided by its sum. sigma > 0 and positive sizes only. *)
Definition raw_kernel (sigma : R) (h w : nat) : nda R :=
  mk_nda [h; w] (fun idx =>
    / (2 * PI * sigma ^ 2) *
    exp (- / 2 * (((INR (nth 1 idx 0%nat) - (INR w - 1) / 2) / sigma) ^ 2 + ((INR (nth 0 idx 0%nat) - (INR h - 1) / 2) / sigma) ^ 2))).
Definition scaled (c : R) (a : nda R) : nda R := mk_nda (shape a) (fun idx => at_ a idx / c).
Definition astropy_kernel (v52 : bool) (sigma : R) (h w : nat) : res (nda R) :=
  if Rlt_dec 0 sigma then
    if (Nat.eqb h 0 || Nat.eqb w 0)%bool then Err NotModelled
    else let k := raw_kernel sigma h w in Ok (if v52 then scaled (np_sum k) k else k)
  else Err NotModelled.

(** stats.py:60-77, astropy being installed; [v52] says whether its version is at least 5.2. *)
Definition gaussian_kernel (v52 : bool) (data_shape : list nat) (sigma : R) (norm : string) : res (nda R) :=
  if negb (String.eqb norm "max" || String.eqb norm "sum") then Err ValueError         (* :63-64 *)
  else match data_shape with                                                           (* :66-68 *)
       | h :: w :: _ =>
           do kernel <- astropy_kernel v52 sigma h w;
           if String.eqb norm "max" then do m <- np_max kernel; Ok (scaled m kernel)   (* :70-71 *)
           else if negb v52 then Ok (scaled (np_sum kernel) kernel)                    (* :73-74 *)
           else Ok kernel                                                              (* :76-77 *)
       | _ => Err IndexError
       end.
