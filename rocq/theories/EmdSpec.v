(** Specification of the one-dimensional earth mover's distance with unit
    penalty for unmatched points.  Independent of any program: it speaks of
    pairings of points only. *)
From Coq Require Import ZArith QArith Qcanon List Permutation.
From Verif Require Import Num.
Import ListNotations.
Open Scope Qc_scope.

(** Sum of a list of numbers. *)
Fixpoint qsum (l : list Qc) : Qc :=
  match l with [] => 0 | a :: l' => a + qsum l' end.

(** [is_matching xs ys pairs restx resty]: [pairs] pairs some of the points of
    [xs] with distinct points of [ys]; [restx] and [resty] are the points left
    over.  Lists are read as multisets. *)
Definition is_matching (xs ys : list Qc) (pairs : list (Qc * Qc)) (restx resty : list Qc) : Prop :=
  Permutation xs (map fst pairs ++ restx) /\ Permutation ys (map snd pairs ++ resty).

(** Cost of moving the paired points. *)
Definition move_cost (pairs : list (Qc * Qc)) : Qc :=
  qsum (map (fun p => qabs (fst p - snd p)) pairs).

(** [matching_cost xs ys c]: some pairing costs [c], counting 1 for every
    unmatched point. *)
Definition matching_cost (xs ys : list Qc) (c : Qc) : Prop :=
  exists pairs restx resty,
    is_matching xs ys pairs restx resty /\
    c = move_cost pairs + qn (length restx) + qn (length resty).

(** [d] is the earth mover's distance: the least cost of a pairing. *)
Definition is_emd (xs ys : list Qc) (d : Qc) : Prop :=
  matching_cost xs ys d /\ forall c, matching_cost xs ys c -> d <= c.

(** All positions within the unit interval. *)
Definition in_unit (l : list Qc) : Prop := Forall (fun x => 0 <= x <= 1) l.
