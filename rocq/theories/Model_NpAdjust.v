(** Model of base/np_adjust.py. *)
From Verif Require Import Py Model_Array.

(** base/np_adjust.py:52: [np.rot90(x, 2)] flips axes 0 and 1 (ValueError below 2-D). *)
Definition rotate {A} (a : nda A) : res (nda A) :=
  match shape a with
  | h :: w :: s =>
      Ok (mk_nda (shape a) (fun idx => match idx with
            | i :: j :: r => at_ a ((h - 1 - i) :: (w - 1 - j) :: r)
            | _ => at_ a idx end))
  | _ => Err ValueError
  end.

(** base/np_adjust.py:97: [np.array([rotate(array) for array in input_data])]. *)
Definition rotate_stack {A} (a : nda A) : res (nda A) :=
  match shape a with
  | [] => Err TypeError                              (* iteration over a 0-d array *)
  | n :: _ => do l <- mapM rotate (map (sub0 a) (seq 0 n)); stack l
  end.

(** The kinds of [padding] argument that base/np_adjust.py:149-156 distinguishes. *)
Inductive padding := PInt (p : Z) | PSeq (l : list Z) | POther.

(** base/np_adjust.py:147-164. [np.pad(x, ((p,p),(q,q)), 'constant')] needs a 2-D
    array and non-negative widths (ValueError otherwise); [zero] is the dtype's 0. *)
Definition pad2d {A} (zero : A) (a : nda A) (pad : padding) : res (nda A) :=
  do l <- match pad with
          | PInt p => Ok [p]
          | PSeq l => Ok l
          | POther => Err ValueError
          end;
  let l := match l with [p] => [p; p] | _ => l end in (* :158-159 *)
  match l with
  | p :: q :: _ =>
      match shape a with
      | [h; w] =>
          if (p <? 0)%Z || (q <? 0)%Z then Err ValueError
          else
            let p := Z.to_nat p in let q := Z.to_nat q in
            Ok (mk_nda [h + 2 * p; w + 2 * q] (fun idx =>
                  let i := nth 0 idx 0 in let j := nth 1 idx 0 in
                  if (p <=? i) && (i <? h + p) && (q <=? j) && (j <? w + q)
                  then at_ a [i - p; j - q] else zero))
      | _ => Err ValueError
      end
  | _ => Err IndexError
  end.

(** base/np_adjust.py:281-283. *)
Definition fancy_transpose {A} (a : nda A) (r : Z) : nda A :=
  np_transpose a (roll 0 (seq 0 (length (shape a))) r).

(** base/np_adjust.py:187 and :210. *)
Definition ftr {A} (a : nda A) : nda A := fancy_transpose a 1.
Definition ftl {A} (a : nda A) : nda A := fancy_transpose a (-1).
