(** Model of opt/linear/wavelet.py: WaveletTransform, CPUWaveletTransform on 2D images with the Haar wavelet
    (PyWavelets by contract), and the regrouping of coefficients in TorchWaveletTransform and
    CupyWaveletTransform. *)
From Coq Require Import String.
From Verif Require Import NPReal Py.
From Coq Require Import List Lia.
Import ListNotations.
Local Open Scope R_scope.

(** * PyWavelets, Haar wavelet, mode "symmetric" *)

(** A 2D array: its sizes and its entries. *)
Record block := mk_block { rows : nat; cols : nat; ent : nat -> nat -> R }.

(** Half of a size, rounded up. *)
Definition half (n : nat) : nat := ((n + 1) / 2)%nat.
(** The two channels of a signal of length n; an odd signal is extended by its last value. *)
Definition lo (n : nat) (x : nat -> R) (k : nat) : R := (x (2 * k)%nat + x (Nat.min (2 * k + 1) (n - 1))) / sqrt 2.
Definition hi (n : nat) (x : nat -> R) (k : nat) : R := (x (2 * k)%nat - x (Nat.min (2 * k + 1) (n - 1))) / sqrt 2.
(** The signal with the two given channels, always of even length. *)
Definition up (a d : nat -> R) (m : nat) : R :=
  if Nat.even m then (a (m / 2)%nat + d (m / 2)%nat) / sqrt 2 else (a (m / 2)%nat - d (m / 2)%nat) / sqrt 2.

(** pywt.dwtn: one level on both axes; the names give the channel along axis 0, then axis 1. *)
Definition aa (b : block) : block := mk_block (half (rows b)) (half (cols b)) (fun i j => lo (rows b) (fun p => lo (cols b) (ent b p) j) i).
Definition ad (b : block) : block := mk_block (half (rows b)) (half (cols b)) (fun i j => lo (rows b) (fun p => hi (cols b) (ent b p) j) i).
Definition da (b : block) : block := mk_block (half (rows b)) (half (cols b)) (fun i j => hi (rows b) (fun p => lo (cols b) (ent b p) j) i).
Definition dd (b : block) : block := mk_block (half (rows b)) (half (cols b)) (fun i j => hi (rows b) (fun p => hi (cols b) (ent b p) j) i).
(** pywt.idwtn *)
Definition idwt2 (a h v d : block) : block :=
  mk_block (2 * rows a) (2 * cols a) (fun i j =>
    up (fun l => up (fun k => ent a k l) (fun k => ent v k l) i) (fun l => up (fun k => ent h k l) (fun k => ent d k l) i) j).

(** pywt.wavedecn, as the list of arrays that ravel_coeffs concatenates. *)
Fixpoint wavedec (level : nat) (b : block) : list block :=
  match level with O => [b] | S l => wavedec l (aa b) ++ [ad b; da b; dd b] end.

(** pywt's _match_coeff_dims: an approximation larger by one is cropped. *)
Definition match_dims (a d : block) : res block :=
  if ((Nat.eqb (rows a) (rows d) || Nat.eqb (rows a) (rows d + 1)) && (Nat.eqb (cols a) (cols d) || Nat.eqb (cols a) (cols d + 1)))%bool
  then Ok (mk_block (rows d) (cols d) (ent a)) else Err ValueError.
(** pywt.waverecn; the detail arrays of one level have the same sizes. *)
Fixpoint waverec (a : block) (ds : list block) : res block :=
  match ds with
  | [] => Ok a
  | h :: v :: d :: ds => do a <- match_dims a h; waverec (idwt2 a h v d) ds
  | _ => Err NotModelled
  end.

(** pywt.ravel_coeffs and unravel_coeffs; an array of the wrong size cannot be reshaped. *)
Definition flat (b : block) : list R := flat_map (fun i => map (ent b i) (seq 0 (cols b))) (seq 0 (rows b)).
Fixpoint cut (c : list R) (shapes : list (nat * nat)) : res (list block) :=
  match shapes with
  | [] => Ok []
  | (h, w) :: s =>
      if Nat.ltb (List.length c) (h * w) then Err ValueError
      else do r <- cut (skipn (h * w) c) s; Ok (mk_block h w (fun i j => nth (i * w + j) c 0) :: r)
  end.

(** * CPUWaveletTransform *)

(** The attributes that matter: the options and what the last op stored (coeffs_slices, raw_coeffs_shape);
    no attribute verbose is ever set. *)
Record cpu := mk_cpu { c_level : nat; c_batch : nat; c_shapes : option (list (nat * nat)) }.

(** wavelet.py:154-209, for a valid wavelet name and decimated=True; the stored shapes do not exist yet. *)
Definition cpu_new (level n_batch : nat) : cpu := mk_cpu level n_batch None.
(** wavelet.py:226-241; the evaluation of self.verbose fails for more than one batch. *)
Definition cpu_op (o : cpu) (data : block) : cpu * res (list R) :=
  if Nat.ltb 1 (c_batch o) then (o, Err AttributeError)
  else let l := wavedec (c_level o) data in
       (mk_cpu (c_level o) (c_batch o) (Some (map (fun b => (rows b, cols b)) l)), Ok (flat_map flat l)).
(** wavelet.py:258-278 *)
Definition cpu_adj_op (o : cpu) (coeffs : list R) : res block :=
  if Nat.ltb 1 (c_batch o) then Err AttributeError
  else match c_shapes o with
       | None => Err AttributeError
       | Some s => do l <- cut coeffs s;
                   match l with [] => Err NotModelled | a :: ds => waverec a ds end
       end.

(** * WaveletTransform *)

(** wavelet.py:87-108: which operator is built, and its boundary mode ([cpu_mode] is the value in kwargs,
    which cannot hold mode since that is a parameter of its own). *)
Inductive operator := Cupy (mode : string) | CPU (mode : string).
Definition wavelet_transform (compute_backend mode : string) (ptwt_available pywt_available : bool) : res operator :=
  if (String.eqb compute_backend "cupy" && ptwt_available)%bool then Ok (Cupy mode)
  else if (String.eqb compute_backend "numpy" && pywt_available)%bool then Ok (CPU "symmetric")
  else Err ValueError.

(** * TorchWaveletTransform and CupyWaveletTransform *)

(** range(start, stop, step) *)
Definition range (start stop step : nat) : list nat := map (fun j => (start + step * j)%nat) (seq 0 ((stop - start + (step - 1)) / step)).
(** wavelet.py:324-335, :347-359: [c0] + [cc for c in cs for cc in c] *)
Definition flatten {T} (c : T * list (list T)) : list T := fst c :: concat (snd c).
(** wavelet.py:380-383, :387-390 (k = 3), :397-403, :407-410 (k = 7, the keys being in ptwt's order) *)
Definition regroup {T} (k : nat) (l : list T) : res (T * list (list T)) :=
  match l with
  | [] => Err IndexError
  | c0 :: _ => Ok (c0, map (fun i => map (fun j => nth (i + j) l c0) (seq 0 k)) (range 1 (List.length l - (k - 1)) k))
  end.

(** A tensor: a shape and its flat contents. *)
Definition tensor (T : Type) := (list nat * list T)%type.
Definition numel (s : list nat) : nat := fold_right Nat.mul 1%nat s.
(** wavelet.py:450-463: the shapes and the concatenation; :480-487: cutting it again. *)
Definition cupy_flatten {T} (l : list (tensor T)) : list (list nat) * list T := (map fst l, concat (map snd l)).
Fixpoint cupy_split {T} (shapes : list (list nat)) (data : list T) : res (list (tensor T)) :=
  match shapes with
  | [] => Ok []
  | s :: ss => if Nat.ltb (List.length data) (numel s) then Err ValueError
               else do r <- cupy_split ss (skipn (numel s) data); Ok ((s, firstn (numel s) data) :: r)
  end.
(** wavelet.py:313-314: a batch axis is added to data of the operator's own shape. *)
Definition add_batch {T} (shape : list nat) (x : tensor T) : tensor T := if list_eq_dec Nat.eq_dec (fst x) shape then (1%nat :: fst x, snd x) else x.

Section Cupy.
Context {T : Type}.
(** The decomposition and reconstruction of ptwt on batched tensors, with k arrays per level. *)
Variable k : nat.
Variable dec : tensor T -> tensor T * list (list (tensor T)).
Variable rec : tensor T * list (list (tensor T)) -> tensor T.
(** wavelet.py:435-463: the new coeffs_shape and the coefficients. *)
Definition cupy_op (shape : list nat) (x : tensor T) : list (list nat) * list T := cupy_flatten (flatten (dec (add_batch shape x))).
(** wavelet.py:465-487; coeffs_shape is None before the first op. *)
Definition cupy_adj_op (coeffs_shape : option (list (list nat))) (data : list T) : res (tensor T) :=
  match coeffs_shape with
  | None => Err TypeError
  | Some shapes => do l <- cupy_split shapes data; do c <- regroup k l; Ok (rec c)
  end.
End Cupy.
