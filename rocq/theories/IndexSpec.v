(** What a user of [WordList] relies on, stated without reference to the
    index structures. *)
From Coq Require Import ZArith NArith QArith Qcanon List Bool.
From Verif Require Import Num Py PyDict NmdSpec.
Import ListNotations.

(** [g] is an n-gram of [w]: for [n > 1] a substring of length [n] of the
    word between its markers, otherwise one of its characters. *)
Definition has_gram (n : Z) (w g : str) : Prop :=
  if (1 <? n)%Z then (exists a b, padded w = a ++ g ++ b) /\ zlen g = n
  else exists c, g = [c] /\ In c w.

(** The two words have an n-gram in common. *)
Definition shares (n : Z) (w1 w2 : str) : Prop := exists g, has_gram n w1 g /\ has_gram n w2 g.

(** The words a lookup of [q] is about: those sharing an n-gram with it for
    one of the configured sizes and, when filtering is on, one of size [fn]. *)
Definition candidate (nl : list Z) (fn : Z) (q w : str) : Prop :=
  (exists n, In n nl /\ shares n q w) /\ (fn = 0%Z \/ shares fn q w).

(** Number of n-grams of a word that the score of size [n] divides by. *)
Definition size (n : Z) (w : str) : Z := if (1 <? n)%Z then (zlen w + 3 - n)%Z else (zlen w + 2)%Z.

(** The word has exactly one n-gram of size [n]. *)
Definition single_gram (n : Z) (w : str) : Prop :=
  if (1 <? n)%Z then (zlen w + 2)%Z = n else zlen w = 1%Z.
