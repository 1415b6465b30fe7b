(** Model of the read-only properties and of [__repr__] of nmd/nmd_word_set.py. *)
From Coq Require Import ZArith NArith List Bool String.
From Verif Require Import Num Py PyDict Ex NmdSpec WordSetSpec WordSetModel DawgModel.
Import ListNotations.
Open Scope string_scope.
Open Scope list_scope.

(** nmd/nmd_word_set.py:460-473, the properties [ngram_sizes] and
    [case_sensitive]; [unicode_normalizer] is the field [ws_normalizer]. *)
Definition ngram_sizes (st : wordset) : list Z := ws_n_list st.
Definition case_sensitive (st : wordset) : bool := ws_case_sensitive st.

(** Which object the normalizer is: line 479 asks for its truth value, lines
    481-486 for its identity, which the functions of the model do not have.
    [KOther] carries [__name__] or, without one, the [repr] of the object. *)
Inductive nz_kind := KNone | KNfc | KNfkc | KStrip | KOther (name : str).

(** nmd/nmd_word_set.py:478-488 *)
Definition norm_name (k : nz_kind) : str :=
  match k with
  | KNone => w_ "None" | KNfc => w_ "NFC" | KNfkc => w_ "NFKC" | KStrip => w_ "NFD_STRIP_MARKS" | KOther name => name
  end.

(** [repr] of a tuple of positive ints. *)
Definition tuple_repr (l : list Z) : str :=
  match l with
  | [] => w_ "()"
  | z :: l => w_ "(" ++ decimal (Z.to_nat z) ++ flat_map (fun y => w_ ", " ++ decimal (Z.to_nat y)) l ++
      (match l with [] => w_ "," | _ => [] end) ++ w_ ")"
  end.
(** [repr] of a bool. *)
Definition bool_repr (b : bool) : str := if b then w_ "True" else w_ "False".

(** nmd/nmd_word_set.py:476-496, [__repr__]; [cls] is [self.__class__.__name__]. *)
Definition ws_repr (cls : str) (k : nz_kind) (st : wordset) : str :=
  cls ++ w_ "(" ++ w_ "ngram_sizes=" ++ tuple_repr (ngram_sizes st) ++ w_ ", " ++ w_ "case_sensitive=" ++ bool_repr (case_sensitive st) ++ w_ ", " ++
  w_ "unicode_normalizer=" ++ norm_name k ++ w_ ", " ++ w_ "size=" ++ decimal (ws_len st) ++ w_ ")".
