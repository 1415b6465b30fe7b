(** Specification of the n-gram mover's distance, following the equation in
    the comment of nmd/nmd_core.py: independent of the program. *)
From Coq Require Import ZArith NArith QArith Qcanon List Permutation.
From Verif Require Import Num PyDict EmdSpec.
Import ListNotations.
Open Scope Qc_scope.

(** Strings are lists of code points. *)
Definition str := list N.

(** A word between its start and end markers. *)
Definition padded (w : str) : str := [2%N] ++ w ++ [3%N].

(** Number of n-grams: every window of length [n] of the padded word. *)
Definition gram_count (n : nat) (w : str) : nat := (length w + 2 + 1 - n)%nat.

(** The n-gram starting at index [i]. *)
Definition gram_at (n : nat) (w : str) (i : nat) : str := firstn n (skipn i (padded w)).

(** All n-grams, in order of occurrence. *)
Definition grams (n : nat) (w : str) : list str := map (gram_at n w) (seq 0 (gram_count n w)).

(** Position of index [i], scaled so that the last n-gram is at 1. *)
Definition position (n : nat) (w : str) (i : nat) : Qc :=
  qn i / qn (Nat.max 1 (gram_count n w - 1)).

(** Positions at which n-gram [g] occurs. *)
Definition positions (n : nat) (w : str) (g : str) : list Qc :=
  map (position n w) (filter (fun i => if eqd (gram_at n w i) g then true else false) (seq 0 (gram_count n w))).

(** All distinct n-grams of two words. *)
Definition all_grams (n : nat) (w1 w2 : str) : list str := nodup eqd (grams n w1 ++ grams n w2).

(** [d] is the n-gram mover's distance: the sum of the earth mover's
    distances of the positions of each n-gram. *)
Definition is_nmd (n : nat) (w1 w2 : str) (d : Qc) : Prop :=
  exists e : str -> Qc,
    (forall g, is_emd (positions n w1 g) (positions n w2 g) (e g)) /\
    d = qsum (map e (all_grams n w1 w2)).

(** Number of n-grams in common, counted with multiplicity. *)
Definition shared_count (n : nat) (w1 w2 : str) : nat :=
  list_sum (map (fun g => Nat.min (count_occ eqd (grams n w1) g) (count_occ eqd (grams n w2) g))
                (all_grams n w1 w2)).

(** Some n-gram occurs in both words. *)
Definition share_gram (n : nat) (w1 w2 : str) : Prop :=
  exists g, In g (grams n w1) /\ In g (grams n w2).

(** No marker characters. *)
Definition clean (w : str) : Prop := ~ In 2%N w /\ ~ In 3%N w.
