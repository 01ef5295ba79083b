(** Model of math/convolve.py with method="astropy" (astropy.convolution.convolve_fft), convolve_stack,
    and of the filter convolutions of signal/wavelet.py and opt/linear/wavelet.py with either method. *)
From Coq Require Import String.
From Verif Require Import NPReal Py Model_Array Model_NpAdjust Model_Linear.
Import List ListNotations.
Local Open Scope R_scope.

(** Position in a kernel of a entries of the offset d on a circle of n >= a pixels. convolve_fft pads the
    kernel with zeros to n entries such that entry a//2 lands on n//2, and ifftshift moves entry n//2 to
    the origin. *)
Definition wrap (n a : nat) (d : Z) : Z :=
  ((d + Z.of_nat (n / 2)) mod Z.of_nat n - Z.of_nat (n / 2) + Z.of_nat (a / 2))%Z.

(** convolve_fft(x, k, boundary="wrap", crop=False, nan_treatment="fill", normalize_kernel=False) on
    non-empty 2-D arrays without nan: circular convolution on the larger of the two shapes, where the
    image is centred among zeros if the kernel is larger. Exact arithmetic. *)
Definition convolve_fft (x k : nda R) : res (nda R) :=
  match shape x, shape k with
  | [h; w], [a; b] =>
      if (Nat.eqb h 0 || Nat.eqb w 0 || Nat.eqb a 0 || Nat.eqb b 0)%bool then Err NotModelled
      else
        let H := Nat.max h a in let W := Nat.max w b in
        Ok (mk_nda [H; W] (fun idx =>
          sumn h (fun p => sumn w (fun q =>
            at_ x [p; q] * kz k a b (wrap H a (Z.of_nat (nth 0 idx 0%nat) - Z.of_nat (p + (H / 2 - h / 2))))
                                    (wrap W b (Z.of_nat (nth 1 idx 0%nat) - Z.of_nat (q + (W / 2 - w / 2))))))))
  | _, _ => Err NotModelled
  end.

(** convolve.py:80-100. [import_astropy] says whether astropy could be imported. *)
Definition convolve_m (import_astropy : bool) (method : string) (x k : nda R) : res (nda R) :=
  if negb (Nat.eqb (List.length (shape x)) (List.length (shape k))) then Err ValueError            (* :80-81 *)
  else if negb (String.eqb method "astropy" || String.eqb method "scipy") then Err ValueError      (* :83-84 *)
  else
    let method := if import_astropy then method else "scipy"%string in                             (* :86-87 *)
    if String.eqb method "astropy" then convolve_fft x k                                           (* :89-97 *)
    else convolve x k.                                                                             (* :99-100 *)

(** convolve.py:153-161: zip stops at the shorter stack. *)
Definition convolve_stack (conv : nda R -> nda R -> res (nda R)) (input_data kernel : nda R) (rot_kernel : bool) : res (nda R) :=
  do k <- (if rot_kernel then rotate_stack kernel else Ok kernel);
  do l <- mapM (fun p => conv (fst p) (snd p)) (combine (items input_data) (items k));
  stack l.

(** signal/wavelet.py:304-313 with the convolution as a parameter. *)
Definition filter_convolve_m (conv : nda R -> nda R -> res (nda R)) (input_data filters : nda R) (filter_rot : bool) : res (nda R) :=
  if filter_rot then
    do rf <- rotate_stack filters;
    do l <- mapM (fun cf => conv (fst cf) (snd cf)) (combine (items input_data) (items rf));
    sum_arrays l
  else
    do l <- mapM (conv input_data) (items filters); stack l.

(** signal/wavelet.py:360-366. *)
Definition filter_convolve_stack_m (conv : nda R -> nda R -> res (nda R)) (input_data filters : nda R) (filter_rot : bool) : res (nda R) :=
  do l <- mapM (fun e => filter_convolve_m conv e filters filter_rot) (items input_data); stack l.

(** opt/linear/wavelet.py:48-60: WaveletConvolve(filters, method). *)
Definition wavelet_op_m (import_astropy : bool) (method : string) (filters x : nda R) : res (nda R) :=
  filter_convolve_stack_m (convolve_m import_astropy method) x filters false.
Definition wavelet_adj_op_m (import_astropy : bool) (method : string) (filters y : nda R) : res (nda R) :=
  filter_convolve_stack_m (convolve_m import_astropy method) y filters true.
