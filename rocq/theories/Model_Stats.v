(** Model of math/stats.py (mad, sigma_mad, mse, psnr, psnr_stack) and math/metrics.py
    (min_max_normalize, _preprocess_input, mse, snr, psnr, nrmse) on exact reals. Images are given
    by their pixels in row-major order; both images of a pair have the same shape and
    at least one pixel (min and max of no data raise, and the mean of no data is nan). Division by
    zero and nan are modelled; rounding and overflow are not. gaussian_kernel is in
    Model_Noise, ssim in Model_SSIM. *)
From Verif Require Import NPReal Py IPS Model_Prox.
From Coq Require Import List Lia.
Import ListNotations.
Local Open Scope R_scope.

(** Result of a NumPy float computation. *)
Inductive fval := Fin (r : R) | PInf | NInf | NaN.

(** Division; the only zero divisors here are +0. *)
Definition fdiv (a b : R) : fval :=
  if Req_EM_T b 0 then (if Req_EM_T a 0 then NaN else if Rlt_dec 0 a then PInf else NInf) else Fin (a / b).
Definition log10 (x : R) : R := ln x / ln 10.
(** np.log10 *)
Definition flog10 (v : fval) : fval :=
  match v with
  | Fin x => if Rlt_dec 0 x then Fin (log10 x) else if Req_EM_T x 0 then NInf else NaN
  | PInf => PInf
  | _ => NaN
  end.
(** Multiplication by a positive constant. *)
Definition fscale (c : R) (v : fval) : fval := match v with Fin x => Fin (c * x) | v => v end.
(** a - v *)
Definition frsub (a : R) (v : fval) : fval :=
  match v with Fin x => Fin (a - x) | PInf => NInf | NInf => PInf | NaN => NaN end.

Definition mean (l : list R) : R := rsum l / INR (length l).
Definition lmax (l : list R) : R := fold_right Rmax (hd 0 l) l.
Definition lmin (l : list R) : R := fold_right Rmin (hd 0 l) l.
Definition norm2l (l : list R) : R := sqrt (rsum (map (fun x => x * x) l)).

(** np.median: the middle of the sorted data, or the mean of the two middle ones; nan when empty. *)
Definition median (l : list R) : option R :=
  let n := length l in let s := npsort l in
  if Nat.eqb n 0 then None
  else if Nat.odd n then Some (nth (n / 2) s 0)
  else Some ((nth (n / 2 - 1) s 0 + nth (n / 2) s 0) / 2).

(** stats.py:117 *)
Definition mad (l : list R) : option R :=
  match median l with None => None | Some m => median (map (fun x => Rabs (x - m)) l) end.
(** stats.py:304 *)
Definition sigma_mad (l : list R) : option R := option_map (Rmult (14826 / 10000)) (mad l).

(** stats.py:146, non-empty data. *)
Definition mse (a b : list R) : R := mean (map2 (fun x y => (x - y) ^ 2) a b).
(** The same for arrays of dtype uint8: the difference and the square are taken modulo 256. *)
Definition mse_u8 (a b : list Z) : R :=
  mean (map2 (fun x y => IZR (((x - y) mod 256) ^ 2 mod 256)) a b).

Inductive psnr_method := Starck | Wiki | OtherMethod.

(** stats.py:204-215; [rows] is data1.shape[0]. np.max of no data raises ValueError. *)
Definition psnr (rows : nat) (a b : list R) (m : psnr_method) (max_pix : R) : res fval :=
  match m with
  | Starck =>
      match a with
      | [] => Err ValueError
      | _ => Ok (fscale 20 (flog10 (fdiv (INR rows * Rabs (lmax a - lmin a)) (norm2l (map2 Rminus a b)))))
      end
  | Wiki => Ok (frsub (20 * log10 max_pix) (fscale 10 (flog10 (Fin (mse a b)))))
  | OtherMethod => Err ValueError
  end.

(** stats.py:260-265: stacks as lists of images (rows, pixels); [nd1], [nd2] the numbers of axes. *)
Definition psnr_stack {A} (nd1 nd2 : nat) (metric : list fval -> A) (s1 s2 : list (nat * list R)) (m : psnr_method) : res A :=
  if negb (Nat.eqb nd1 3 && Nat.eqb nd2 3) then Err ValueError
  else do l <- mapM (fun p => psnr (fst (fst p)) (snd (fst p)) (snd (snd p)) m 255) (combine s1 s2);
       Ok (metric l).

(** * math/metrics.py *)
(** A pixel as (real part, imaginary part); np.abs. *)
Definition px := (R * R)%type.
Definition magnitude (p : px) : R := sqrt (fst p ^ 2 + snd p ^ 2).

(** metrics.py:37-40; None: every entry is nan (0/0). *)
Definition min_max_normalize (l : list R) : option (list R) :=
  if Req_EM_T (lmax l - lmin l) 0 then None
  else Some (map (fun x => (x - lmin l) / (lmax l - lmin l)) l).

Inductive mask_arg := MNone | MArr (m : list R) | MOther.

(** metrics.py:72-84 *)
Definition preprocess (test ref : list px) (mask : mask_arg) : res (option (list R) * option (list R) * option (list R)) :=
  let t := min_max_normalize (map magnitude test) in
  let r := min_max_normalize (map magnitude ref) in
  match mask with
  | MOther => Err ValueError
  | MNone => Ok (t, r, None)
  | MArr m => Ok (t, r, Some m)
  end.

Definition apply_mask (mask : option (list R)) (x : list R) : list R :=
  match mask with None => x | Some m => map2 Rmult m x end.
Definition real_px (l : list R) : list px := map (fun x => (x, 0)) l.

(** metrics.py:231-237 *)
Definition m_mse (test ref : list px) (mask : mask_arg) : res fval :=
  do p <- preprocess test ref mask;
  let '(t, r, m) := p in
  match t, r with
  | Some t, Some r => Ok (Fin (mean (map (fun d => d * d) (map2 Rminus (apply_mask m t) (apply_mask m r)))))
  | _, _ => Ok NaN
  end.

(** a / v and v / b of non-negative numbers *)
Definition fdiv_r (a : R) (v : fval) : fval := match v with Fin b => fdiv a b | _ => NaN end.
Definition fdiv_l (v : fval) (b : R) : fval := match v with Fin a => fdiv a b | _ => NaN end.
Definition fsqrt (v : fval) : fval := match v with Fin a => Fin (sqrt a) | v => v end.

(** metrics.py:157-165: only test is masked. *)
Definition m_snr (test ref : list px) (mask : mask_arg) : res fval :=
  do p <- preprocess test ref mask;
  let '(t, r, m) := p in
  match t, r with
  | Some t, Some r =>
      let t := apply_mask m t in
      let num := mean (map (fun x => x * x) t) in
      do deno <- m_mse (real_px t) (real_px r) MNone;
      Ok (fscale 10 (flog10 (fdiv_r num deno)))
  | _, _ => Ok NaN
  end.

(** metrics.py:192-201 *)
Definition m_psnr (test ref : list px) (mask : mask_arg) : res fval :=
  do p <- preprocess test ref mask;
  let '(t, r, m) := p in
  match t, r with
  | Some t, Some r =>
      let t := apply_mask m t in let r := apply_mask m r in
      let num := lmax (map Rabs t) in
      do deno <- m_mse (real_px t) (real_px r) MNone;
      Ok (fscale 10 (flog10 (fdiv_r num deno)))
  | _, _ => Ok NaN
  end.

(** metrics.py:261-271 *)
Definition m_nrmse (test ref : list px) (mask : mask_arg) : res fval :=
  do p <- preprocess test ref mask;
  let '(t, r, m) := p in
  match t, r with
  | Some t, Some r =>
      let t := apply_mask m t in let r := apply_mask m r in
      do e <- m_mse (real_px t) (real_px r) MNone;
      Ok (fdiv_l (fsqrt e) (sqrt (mean (map (fun x => x * x) t))))
  | _, _ => Ok NaN
  end.
