(** Model of base/transform.py. *)
From Verif Require Import NPReal Py Model_Array.
Open Scope nat_scope.

(** base/transform.py:53-66. Simplification: [layout] is a pair. *)
Definition cube2map {A} (cube : nda A) (layout : nat * nat) : res (nda A) :=
  let (l0, l1) := layout in
  if negb (length (shape cube) =? 3) then Err ValueError        (* :53-54 *)
  else if negb (nth 0 (shape cube) 0 =? l0 * l1) then Err ValueError (* :56-59 *)
  else
    do rows <- mapM (fun e => hstack (slice0 cube (l1 * e) (l1 * (e + 1)))) (seq 0 l0); (* :61-64 *)
    vstack rows.                                                 (* :66 *)

(** base/transform.py:116-135, for a 2-D map and positive layout entries
    (a zero entry makes NumPy divide by zero: not modelled). *)
Definition map2cube {A} (m : nda A) (layout : nat * nat) : res (nda A) :=
  let (l0, l1) := layout in
  match shape m with
  | [h; w] =>
      if (l0 =? 0) || (l1 =? 0) then Err NotModelled
      else if negb (h mod l0 =? 0) && negb (w mod l1 =? 0)       (* np.all(shape % layout) :116 *)
      then Err ValueError
      else
        let d0 := h / l0 in let d1 := w / l1 in                  (* :122 *)
        stack (flat_map (fun i => map (fun j =>                  (* :124-135 *)
                 slice2 m (i * d0) ((i + 1) * d0) (j * d1) ((j + 1) * d1)) (seq 0 l1)) (seq 0 l0))
  | _ => Err NotModelled
  end.

(** base/transform.py:172-195, for a 2-D map and positive layout entries. *)
Definition map2matrix {A} (m : nda A) (layout : nat * nat) : res (nda A) :=
  let (l0, l1) := layout in
  match shape m with
  | [h; w] =>
      if (l0 =? 0) || (l1 =? 0) then Err NotModelled
      else
        let im := h / l0 in                                      (* (shape // layout)[0] :175 *)
        do cols <- mapM (fun i =>                                (* :180-193 *)
            reshape (slice2 m (im * (i / l1)) (im * (i / l1 + 1))
                              (im * (i mod l1)) (im * (i mod l1 + 1)))
                    [im * im])
          (seq 0 (l0 * l1));
        do st <- stack cols;
        Ok (transpose st)                                        (* :195 *)
  | _ => Err NotModelled
  end.

(** Assignment [m[lo0:hi0, lo1:hi1] = v] with slices clamped to the array. *)
Definition assign2 {A} (m : nda A) (lo0 hi0 lo1 hi1 : nat) (v : nda A) : res (nda A) :=
  match shape m, shape v with
  | [h; w], [vh; vw] =>
      let a0 := min lo0 h in let b0 := min hi0 h in
      let a1 := min lo1 w in let b1 := min hi1 w in
      if (b0 - a0 =? vh) && (b1 - a1 =? vw) then
        Ok (mk_nda [h; w] (fun idx =>
              let i := nth 0 idx 0 in let j := nth 1 idx 0 in
              if (a0 <=? i) && (i <? b0) && (a1 <=? j) && (j <? b1)
              then at_ v [i - a0; j - a1] else at_ m idx))
      else if (vh =? 1) && (vw =? 1) then Err NotModelled        (* NumPy would broadcast *)
      else Err ValueError
  | _, _ => Err NotModelled
  end.

(** base/transform.py:232-254. [data_map.astype(int)] truncates every pixel. *)
Definition matrix2map (mat : nda R) (mh mw : nat) : res (nda Z) :=
  match shape mat with
  | [rows; cols] =>
      let im := Nat.sqrt rows in                                 (* :235 *)
      if im =? 0 then Err NotModelled
      else
        let l1 := mw / im in                                     (* layout[1] :236 *)
        do temp <- reshape mat [im; im; cols];                   (* :241 *)
        do r <- fold_left (fun acc i => do m <- acc;             (* :243-252 *)
            if l1 =? 0 then Err NotModelled else
            assign2 m (im * (i / l1)) (im * (i / l1 + 1))
                      (im * (i mod l1)) (im * (i mod l1 + 1))
                    (mk_nda [im; im] (fun idx => at_ temp [nth 0 idx 0; nth 1 idx 0; i])))
          (seq 0 cols) (Ok (mk_nda [mh; mw] (fun _ => 0%R)));    (* :239 *)
        Ok (mk_nda (shape r) (fun idx => trunc (at_ r idx)))     (* :254 *)
  | _ => Err NotModelled
  end.

(** base/transform.py:288-290. *)
Definition cube2matrix {A} (cube : nda A) : res (nda A) :=
  match shape cube with
  | [] => Err IndexError
  | n :: s => do r <- reshape cube [n; prod s]; Ok (transpose r)
  end.

(** base/transform.py:334. *)
Definition matrix2cube {A} (mat : nda A) (im_shape : list nat) : res (nda A) :=
  match nth_error (shape mat) 1 with
  | None => Err IndexError
  | Some c => reshape (transpose mat) (c :: im_shape)
  end.
