(** Python-level vocabulary shared by every model: exceptions as values. *)
From Coq Require Export List Arith ZArith Bool Lia.
Export ListNotations.

(** Exception classes the modelled code (or the NumPy call it makes) can raise.
    [NotModelled] marks a branch of the real code that the model deliberately
    does not follow; no theorem concludes anything about such a branch. *)
Inductive exn : Type :=
| TypeError | ValueError | KeyError | IndexError | AttributeError
| ZeroDivisionError | OverflowError | UnboundLocalError | OSError | RuntimeError | ImportError | NameError
| NotModelled.

Inductive res (A : Type) : Type :=
| Ok (a : A)
| Err (e : exn).
Arguments Ok {A} a.
Arguments Err {A} e.

Definition bind {A B} (m : res A) (f : A -> res B) : res B :=
  match m with Ok a => f a | Err e => Err e end.

Notation "'do' x <- m ; f" := (bind m (fun x => f))
  (at level 200, x name, m at level 100, f at level 200).

(** [[f(x) for x in l]] where [f] may raise: stops at the first exception. *)
Fixpoint mapM {A B} (f : A -> res B) (l : list A) : res (list B) :=
  match l with
  | [] => Ok []
  | a :: l' => do b <- f a; do bs <- mapM f l'; Ok (b :: bs)
  end.

Definition is_ok {A} (m : res A) : bool :=
  match m with Ok _ => true | Err _ => false end.

Lemma mapM_ok {A B} (f : A -> res B) (g : A -> B) l :
  (forall a, In a l -> f a = Ok (g a)) -> mapM f l = Ok (map g l).
Proof.
  induction l as [|a l IH]; intros H; cbn [mapM map]; [reflexivity|].
  rewrite (H a (or_introl eq_refl)). cbn [bind].
  rewrite IH by (intros; apply H; right; assumption). reflexivity.
Qed.
