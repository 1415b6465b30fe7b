(** Model of the operators that [WordSet] (nmd/nmd_word_set.py:56) inherits from
    [collections.abc.MutableSet] and does not define itself; the bodies are those
    of [Set] and [MutableSet] in CPython's _collections_abc.py.  See
    WordSetModel.v for [|=], [-=], [<=], [==] and [isdisjoint]. *)
From Coq Require Import ZArith NArith List Bool Arith.
From Verif Require Import Num Py PyDict NmdSpec NmdModel IndexModel WordSetSpec WordSetModel.
Import ListNotations.

Section Model.
Variable rnd : Qcanon.Qc -> Qcanon.Qc.
Variable casefold : str -> str.

(** The right operand: the set itself, another [WordSet], another [Set] or
    another iterable (with the values they give), or an object that is neither
    and has no reflected operators. *)
Inductive operand := OSelf | OWords (other : wordset) | OSet (values : list pyval) | OIter (values : list pyval) | OOther.

(** What iterating over the operand gives. *)
Definition values_of (st : wordset) (x : operand) : list pyval :=
  match x with OSelf => map PStr (ws_iter st) | OWords other => map PStr (ws_iter other) | OSet l | OIter l => l | OOther => [] end.
Definition is_set (x : operand) : bool := match x with OSelf | OWords _ | OSet _ => true | _ => false end.

(** [Set._from_iterable]: [cls(it)].  The parameters of the constructor are
    keyword-only, nmd/nmd_word_set.py:71-76; the iterable is a generator and is
    not started. *)
Definition from_iterable : result wordset := Err TypeError.

(** [__and__], [__or__]; [NotImplemented] ends in a TypeError *)
Definition ws_and (st : wordset) (x : operand) : result wordset :=
  match x with OOther => Err TypeError | _ => from_iterable end.
Definition ws_or (st : wordset) (x : operand) : result wordset :=
  match x with OOther => Err TypeError | _ => from_iterable end.

(** [__sub__] *)
Definition ws_sub (st : wordset) (x : operand) : result wordset :=
  match x with
  | OOther => Err TypeError
  | OIter _ => _ <- from_iterable ;; from_iterable
  | _ => from_iterable
  end.

(** [__xor__]: [(self - other) | (other - self)] *)
Definition ws_xor (st : wordset) (x : operand) : result wordset :=
  match x with
  | OOther => Err TypeError
  | OIter _ => other <- from_iterable ;; _ <- ws_sub st (OWords other) ;; _ <- ws_sub other OSelf ;; from_iterable
  | _ => a <- ws_sub st x ;; b <- from_iterable ;; ws_or a (OWords b)
  end.

(** [__iand__]: [for value in (self - it): self.discard(value)] *)
Definition ws_iand (o : order) (st : wordset) (x : operand) : wordset * result answer :=
  match ws_sub st x with
  | Ok diff => ws_isub casefold o st (map PStr (ws_iter diff))
  | Err e => (st, Err e)
  end.

(** the loop of [__ixor__] *)
Fixpoint toggle_all (o : order) (st : wordset) (it : list pyval) : wordset * result answer :=
  match it with
  | [] => (st, Ok ANone)
  | v :: rest =>
      match ws_contains casefold st v with
      | Err e => (st, Err e)
      | Ok b => match (if b then ws_discard casefold o st v else ws_add rnd casefold o st v) with
                | (st, Ok _) => toggle_all o st rest
                | (st, Err e) => (st, Err e)
                end
      end
  end.

(** [__ixor__].  Iterating over a non-iterable raises a TypeError, as does
    [_from_iterable]. *)
Definition ws_ixor (o : order) (st : wordset) (x : operand) : wordset * result answer :=
  match x with
  | OSelf => (ws_clear st, Ok ANone)
  | OWords _ | OSet _ => toggle_all o st (values_of st x)
  | OIter _ | OOther => match from_iterable with Ok other => toggle_all o st (map PStr (ws_iter other)) | Err e => (st, Err e) end
  end.

(** [__ior__] and [__isub__] with any operand *)
Definition ws_ior_any (o : order) (st : wordset) (x : operand) : wordset * result answer :=
  match x with OOther => (st, Err TypeError) | _ => ws_ior rnd casefold o st (values_of st x) end.
Definition ws_isub_any (o : order) (st : wordset) (x : operand) : wordset * result answer :=
  match x with
  | OSelf => (ws_clear st, Ok ANone)
  | OOther => (st, Err TypeError)
  | _ => ws_isub casefold o st (values_of st x)
  end.

(** [__lt__], [__ge__], [__gt__] on two sets; [!=] is the negation of [__eq__] *)
Definition ws_lt (a b : wordset) : result bool := if (ws_len a <? ws_len b)%nat then ws_le casefold a b else Ok false.
Definition ws_ge (a b : wordset) : result bool := if (ws_len a <? ws_len b)%nat then Ok false else all_in casefold a (ws_iter b).
Definition ws_gt (a b : wordset) : result bool := if (ws_len b <? ws_len a)%nat then ws_ge a b else Ok false.
Definition ws_ne (a b : wordset) : result bool := r <- ws_eq casefold a b ;; Ok (negb r).

End Model.
