(** Specification of the distance between two bags of words. *)
From Coq Require Import ZArith NArith QArith Qcanon List Permutation.
From Verif Require Import Num PyDict EmdSpec NmdSpec.
Import ListNotations.
Open Scope Qc_scope.

(** [x] is the cost of replacing one word by another: their n-gram mover's
    distance divided by the number of n-grams; 1 if they share none.  When the
    two n-gram counts (which may be negative) add up to 0, whether they differ. *)
Definition word_cost (n : nat) (w1 w2 : str) (x : Qc) : Prop :=
  if (length w1 + length w2 + 6 =? 2 * n)%nat then x = (if eqd w1 w2 then 0 else 1)
  else (share_gram n w1 w2 -> exists d, is_nmd n w1 w2 d /\ x = d / qn (gram_count n w1 + gram_count n w2)) /\
       (~ share_gram n w1 w2 -> x = 1).

(** [ps] pairs up words of the two bags; words are left over in one bag only. *)
Definition pairing {A} (a b : list A) (ps : list (A * A)) : Prop :=
  exists la lb, Permutation a (map fst ps ++ la) /\ Permutation b (map snd ps ++ lb) /\ (la = [] \/ lb = []).

Definition pair_cost {A} (c : A -> A -> Qc) (ps : list (A * A)) : Qc := qsum (map (fun p => c (fst p) (snd p)) ps).

(** [d] is the distance: the cheapest pairing, plus 1 for each word left over. *)
Definition is_bow (n : nat) (a b : list str) (d : Qc) : Prop :=
  exists c, (forall w1 w2, word_cost n w1 w2 (c w1 w2)) /\
  exists ps, pairing a b ps /\ (forall qs, pairing a b qs -> pair_cost c ps <= pair_cost c qs) /\
    d = qn (Nat.max (length a) (length b) - Nat.min (length a) (length b)) + pair_cost c ps.
