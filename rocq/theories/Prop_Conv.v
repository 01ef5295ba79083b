(** Property theorems C96-C97: convolution with method="astropy", and convolve_stack. *)
From Coq Require Import String.
From Verif Require Import NPReal Py Model_Array Proof_Array Model_NpAdjust Proof_NpAdjust Spec_NpAdjust Model_Linear Spec_Linear Proof_Linear Model_Conv Proof_Conv.
From Coq Require Import Lia ZArith.
Import List ListNotations.
Local Open Scope string_scope.
Local Open Scope R_scope.

Lemma astropy_method x k : List.length (shape x) = List.length (shape k) -> convolve_m true "astropy" x k = convolve_fft x k.
Proof. intros E. unfold convolve_m. rewrite E, Nat.eqb_refl. reflexivity. Qed.
Lemma scipy_method b x k : List.length (shape x) = List.length (shape k) -> convolve_m b "scipy" x k = convolve x k.
Proof. intros E. unfold convolve_m. rewrite E, Nat.eqb_refl. destruct b; reflexivity. Qed.

Lemma astropy_ok h w a b x k : (0 < a <= h)%nat -> (0 < b <= w)%nat -> shape x = [h; w] -> shape k = [a; b] ->
  exists y, convolve_m true "astropy" x k = Ok y /\ shape y = [h; w] /\ forall i j, at_ y [i; j] = circ_at x k h w a b i j.
Proof. intros Ha Hb Hx Hk. rewrite astropy_method by (rewrite Hx, Hk; reflexivity). apply convolve_fft_arr; assumption. Qed.
Lemma scipy_ok v h w a b x k : (0 < a)%nat -> (0 < b)%nat -> shape x = [h; w] -> shape k = [a; b] ->
  exists y, convolve_m v "scipy" x k = Ok y /\ shape y = [h; w] /\ forall i j, at_ y [i; j] = conv_at x k h w a b i j.
Proof. intros Ha Hb Hx Hk. rewrite scipy_method by (rewrite Hx, Hk; reflexivity). apply convolve_spec; assumption. Qed.

(** * C96 *)

(** Circular convolution commutes with circular shifts of the image. *)
Theorem C96_shift_equivariant :
  forall x x' k h w a b s t, shape x = [h; w] -> shape x' = [h; w] -> shape k = [a; b] -> (0 < a <= h)%nat -> (0 < b <= w)%nat ->
  (forall p q, (p < h)%nat -> (q < w)%nat -> at_ x' [(p + s) mod h; (q + t) mod w]%nat = at_ x [p; q]) ->
  exists y y', convolve_m true "astropy" x k = Ok y /\ convolve_m true "astropy" x' k = Ok y' /\ shape y = [h; w] /\ shape y' = [h; w] /\
    forall i j, (i < h)%nat -> (j < w)%nat -> at_ y' [(i + s) mod h; (j + t) mod w]%nat = at_ y [i; j].
Proof.
  intros x x' k h w a b s t Hx Hx' Hk Ha Hb E. destruct (astropy_ok h w a b x k Ha Hb Hx Hk) as (y & Ey & Sy & Ay).
  destruct (astropy_ok h w a b x' k Ha Hb Hx' Hk) as (y' & Ey' & Sy' & Ay'). exists y, y'. do 4 (split; [assumption|]).
  intros i j Hi Hj. rewrite Ay, Ay'. apply circ_shift; [lia|lia|exact E].
Qed.
Print Assumptions C96_shift_equivariant.

(** The sum of the pixels is multiplied by the sum of the kernel. *)
Theorem C96_total :
  forall x k h w a b, shape x = [h; w] -> shape k = [a; b] -> (0 < a <= h)%nat -> (0 < b <= w)%nat ->
  exists y, convolve_m true "astropy" x k = Ok y /\ shape y = [h; w] /\ total h w y = total h w x * total a b k.
Proof.
  intros x k h w a b Hx Hk Ha Hb. destruct (astropy_ok h w a b x k Ha Hb Hx Hk) as (y & Ey & Sy & Ay). exists y. split; [exact Ey|]. split; [exact Sy|].
  rewrite <- circ_total by assumption. unfold total. apply sumn_ext. intros i _. apply sumn_ext. intros j _. apply Ay.
Qed.
Print Assumptions C96_total.

(** The adjoint of WaveletConvolve(filters, method="astropy"), filters of odd sizes up to the image's. *)
Theorem C96_adjoint_odd :
  forall filters x y n m a b h w,
  shape filters = [m; a; b] -> shape x = [n; h; w] -> shape y = [n; m; h; w] ->
  (0 < n)%nat -> (0 < m)%nat -> Nat.Odd a -> Nat.Odd b -> (a <= h)%nat -> (b <= w)%nat ->
  exists u v, wavelet_op_m true "astropy" filters x = Ok u /\ wavelet_adj_op_m true "astropy" filters y = Ok v /\
    shape u = [n; m; h; w] /\ shape v = [n; h; w] /\ dot4 n m h w u y = dot3 n h w x v.
Proof.
  intros filters x y n m a b h w Hf Hx Hy Hn Hm Oa Ob Ha Hb. assert (0 < a)%nat by (destruct Oa; lia). assert (0 < b)%nat by (destruct Ob; lia).
  unfold wavelet_op_m, wavelet_adj_op_m.
  apply (bank_stack_adjoint (convolve_m true "astropy") h w a b (fun x k => circ_at x k h w a b)); try assumption.
  - intros x0 k S1 S2. apply astropy_ok; try assumption; lia.
  - intros x0 y0 k k' S1 S2. apply circ_adjoint; assumption.
Qed.
Print Assumptions C96_adjoint_odd.

Theorem C96_adjoint_refuted :
  exists filters x y u v,
  shape filters = [1; 1; 2]%nat /\ shape x = [1; 1; 2]%nat /\ shape y = [1; 1; 1; 2]%nat /\
  wavelet_op_m true "astropy" filters x = Ok u /\ wavelet_adj_op_m true "astropy" filters y = Ok v /\ dot4 1 1 1 2 u y <> dot3 1 1 2 x v.
Proof.
  exists even_filter, even_x, even_y. eexists. eexists. do 3 (split; [reflexivity|]). split; [reflexivity|]. split; [reflexivity|].
  unfold dot4, dot3, dot2, sumn. cbn. unfold kz, wrap, row2. cbn. change (Pos.to_nat 1) with 1%nat. cbn. lra.
Qed.
Print Assumptions C96_adjoint_refuted.

(** For odd kernels both methods agree at the pixels that the kernel does not carry over the border. *)
Theorem C96_methods_agree_inside :
  forall x k h w c d, shape x = [h; w] -> shape k = [2 * c + 1; 2 * d + 1]%nat -> (2 * c + 1 <= h)%nat -> (2 * d + 1 <= w)%nat ->
  exists y z, convolve_m true "astropy" x k = Ok y /\ convolve_m true "scipy" x k = Ok z /\ shape y = [h; w] /\ shape z = [h; w] /\
    forall i j, (c <= i < h - c)%nat -> (d <= j < w - d)%nat -> at_ y [i; j] = at_ z [i; j].
Proof.
  intros x k h w c d Hx Hk Hc Hd. destruct (astropy_ok h w (2 * c + 1) (2 * d + 1) x k) as (y & Ey & Sy & Ay); [lia|lia|assumption|assumption|].
  destruct (scipy_ok true h w (2 * c + 1) (2 * d + 1) x k) as (z & Ez & Sz & Az); [lia|lia|assumption|assumption|].
  exists y, z. do 4 (split; [assumption|]). intros i j Hi Hj. rewrite Ay, Az. apply circ_inside; assumption.
Qed.
Print Assumptions C96_methods_agree_inside.

(** A 1x3 image with a pixel at its left end. *)
Definition pixel3 : nda R := mk_nda [1; 3]%nat (fun idx => if Nat.eqb (nth 1 idx 0%nat) 0 then 1 else 0).
Definition kernel3 : nda R := mk_nda [1; 3]%nat (fun idx => INR (nth 1 idx 0%nat)).
Theorem C96_methods_agree_refuted :
  exists x k y z, convolve_m true "astropy" x k = Ok y /\ convolve_m true "scipy" x k = Ok z /\ shape y = shape z /\
    at_ y [0; 2]%nat <> at_ z [0; 2]%nat /\ total 1 3 z <> total 1 3 x * total 1 3 k.
Proof.
  exists pixel3, (mk_nda [1; 3]%nat (fun idx => INR (1 + nth 1 idx 0%nat))). eexists. eexists. split; [reflexivity|]. split; [reflexivity|]. split; [reflexivity|].
  unfold total, sumn. cbn. unfold kz, wrap. cbn. change (Pos.to_nat 1) with 1%nat. change (Pos.to_nat 2) with 2%nat. cbn. split; lra.
Qed.
Print Assumptions C96_methods_agree_refuted.

(** Validation; and without astropy the method silently becomes "scipy". *)
Theorem C96_validation :
  forall v method x k,
  (List.length (shape x) <> List.length (shape k) -> convolve_m v method x k = Err ValueError) /\
  (method <> "astropy" -> method <> "scipy" -> convolve_m v method x k = Err ValueError) /\
  convolve_m false "astropy" x k = convolve_m false "scipy" x k.
Proof.
  intros v method x k. split; [|split; [|reflexivity]].
  - intros N. unfold convolve_m. apply Nat.eqb_neq in N. rewrite N. reflexivity.
  - intros N1 N2. unfold convolve_m. apply String.eqb_neq in N1, N2. rewrite N1, N2. destruct (negb _); reflexivity.
Qed.
Print Assumptions C96_validation.

(** A kernel larger than the image: the result has the kernel's shape, not the data's. *)
Theorem C96_shape_refuted :
  exists x k y, shape x = [1; 1]%nat /\ convolve_m true "astropy" x k = Ok y /\ shape y = [1; 3]%nat.
Proof. exists (mk_nda [1; 1]%nat (fun _ => 1)), kernel3. eexists. split; [reflexivity|]. split; reflexivity. Qed.
Print Assumptions C96_shape_refuted.

(** The docstring's example: centre and corner of convolve(a, b, method='astropy'). *)
Example C96_example : exists y,
  convolve_m true "astropy" (mk_nda [3; 3]%nat (fun i => IZR (Z.of_nat (3 * nth 0 i 0 + nth 1 i 0)%nat)))
                            (mk_nda [3; 3]%nat (fun i => IZR (Z.of_nat (10 + 3 * nth 0 i 0 + nth 1 i 0)%nat))) = Ok y /\
  at_ y [1; 1]%nat = 444 /\ at_ y [0; 0]%nat = 534 /\ at_ y [0; 1]%nat = 525.
Proof.
  eexists. split; [reflexivity|]. unfold sumn. cbn. unfold kz, wrap. cbn. change (Pos.to_nat 1) with 1%nat. change (Pos.to_nat 2) with 2%nat. cbn.
  repeat split; lra.
Qed.

(** * C97 *)

(** Image i is convolved with kernel i, with either method; scipy: *)
Theorem C97_scipy_values :
  forall v x ks n a b h w, shape x = [n; h; w] -> shape ks = [n; a; b] -> (0 < n)%nat -> (0 < a)%nat -> (0 < b)%nat ->
  exists M, convolve_stack (convolve_m v "scipy") x ks false = Ok M /\ shape M = [n; h; w] /\
    forall f, (f < n)%nat -> exists y, convolve_m v "scipy" (sub0 x f) (sub0 ks f) = Ok y /\ forall i j, at_ M [f; i; j] = at_ y [i; j].
Proof.
  intros v x ks n a b h w Hx Hk Hn Ha Hb.
  destruct (stack_values (convolve_m v "scipy") h w a b (fun x k => conv_at x k h w a b)
     (fun x k S1 S2 => scipy_ok v h w a b x k Ha Hb S1 S2) x ks n n Hx Hk) as (M & E & SM & AM); [rewrite Nat.min_id; exact Hn|].
  rewrite Nat.min_id in *. exists M. split; [exact E|]. split; [exact SM|]. intros f Hf.
  destruct (scipy_ok v h w a b (sub0 x f) (sub0 ks f) Ha Hb) as (y & Ey & _ & Ay); [cbn; rewrite Hx; reflexivity|cbn; rewrite Hk; reflexivity|].
  exists y. split; [exact Ey|]. intros i j. rewrite AM by exact Hf. symmetry. apply Ay.
Qed.
Print Assumptions C97_scipy_values.

Theorem C97_astropy_values :
  forall x ks n a b h w, shape x = [n; h; w] -> shape ks = [n; a; b] -> (0 < n)%nat -> (0 < a <= h)%nat -> (0 < b <= w)%nat ->
  exists M, convolve_stack (convolve_m true "astropy") x ks false = Ok M /\ shape M = [n; h; w] /\
    forall f, (f < n)%nat -> exists y, convolve_m true "astropy" (sub0 x f) (sub0 ks f) = Ok y /\ forall i j, at_ M [f; i; j] = at_ y [i; j].
Proof.
  intros x ks n a b h w Hx Hk Hn Ha Hb.
  destruct (stack_values (convolve_m true "astropy") h w a b (fun x k => circ_at x k h w a b)
     (fun x k S1 S2 => astropy_ok h w a b x k Ha Hb S1 S2) x ks n n Hx Hk) as (M & E & SM & AM); [rewrite Nat.min_id; exact Hn|].
  rewrite Nat.min_id in *. exists M. split; [exact E|]. split; [exact SM|]. intros f Hf.
  destruct (astropy_ok h w a b (sub0 x f) (sub0 ks f) Ha Hb) as (y & Ey & _ & Ay); [cbn; rewrite Hx; reflexivity|cbn; rewrite Hk; reflexivity|].
  exists y. split; [exact Ey|]. intros i j. rewrite AM by exact Hf. symmetry. apply Ay.
Qed.
Print Assumptions C97_astropy_values.

(** For kernels of odd sizes rot_kernel=True gives the adjoint, image by image, with either method. *)
Theorem C97_rot_kernel_is_adjoint :
  forall method x y ks n a b h w, In method ["scipy"; "astropy"] ->
  shape x = [n; h; w] -> shape y = [n; h; w] -> shape ks = [n; a; b] -> (0 < n)%nat ->
  Nat.Odd a -> Nat.Odd b -> (a <= h)%nat -> (b <= w)%nat ->
  exists u v, convolve_stack (convolve_m true method) x ks false = Ok u /\ convolve_stack (convolve_m true method) y ks true = Ok v /\
    shape u = [n; h; w] /\ shape v = [n; h; w] /\
    forall f, (f < n)%nat -> dot2 h w (sub0 u f) (sub0 y f) = dot2 h w (sub0 x f) (sub0 v f).
Proof.
  intros method x y ks n a b h w Hm Hx Hy Hk Hn Oa Ob Ha Hb. assert (0 < a)%nat by (destruct Oa; lia). assert (0 < b)%nat by (destruct Ob; lia).
  destruct Hm as [<-|[<-|[]]].
  - apply (stack_rot_adjoint _ h w a b (fun x k => conv_at x k h w a b)); try assumption.
    + intros x0 k S1 S2. apply scipy_ok; assumption.
    + intros x0 y0 k k' S1 S2. apply conv_adjoint; assumption.
  - apply (stack_rot_adjoint _ h w a b (fun x k => circ_at x k h w a b)); try assumption.
    + intros x0 k S1 S2. apply astropy_ok; try assumption; lia.
    + intros x0 y0 k k' S1 S2. apply circ_adjoint; assumption.
Qed.
Print Assumptions C97_rot_kernel_is_adjoint.

(** Stacks of different lengths are not rejected: the surplus images are dropped. *)
Theorem C97_surplus_images_dropped :
  forall v x ks n m a b h w, shape x = [n; h; w] -> shape ks = [m; a; b] -> (0 < m <= n)%nat -> (0 < a)%nat -> (0 < b)%nat ->
  exists M, convolve_stack (convolve_m v "scipy") x ks false = Ok M /\ shape M = [m; h; w].
Proof.
  intros v x ks n m a b h w Hx Hk Hn Ha Hb.
  destruct (stack_values (convolve_m v "scipy") h w a b (fun x k => conv_at x k h w a b)
     (fun x k S1 S2 => scipy_ok v h w a b x k Ha Hb S1 S2) x ks n m Hx Hk) as (M & E & SM & AM); [lia|].
  rewrite Nat.min_r in * by lia. exists M. split; assumption.
Qed.
Print Assumptions C97_surplus_images_dropped.

Theorem C97_lengths_checked_refuted :
  exists x ks M, shape x = [2; 1; 1]%nat /\ shape ks = [1; 1; 1]%nat /\ convolve_stack (convolve_m true "scipy") x ks false = Ok M /\ shape M = [1; 1; 1]%nat.
Proof.
  exists (mk_nda [2; 1; 1]%nat (fun _ => 1)), (mk_nda [1; 1; 1]%nat (fun _ => 1)). eexists. do 2 (split; [reflexivity|]). split; reflexivity.
Qed.
Print Assumptions C97_lengths_checked_refuted.

Example C97_example : exists M,
  convolve_stack (convolve_m true "scipy") (mk_nda [2; 1; 1]%nat (fun i => INR (3 + nth 0 i 0%nat))) (mk_nda [2; 1; 1]%nat (fun i => INR (10 + nth 0 i 0%nat))) false = Ok M /\
  at_ M [0; 0; 0]%nat = 30 /\ at_ M [1; 0; 0]%nat = 44.
Proof. eexists. split; [reflexivity|]. unfold sumn. cbn. unfold kz. cbn. split; lra. Qed.
