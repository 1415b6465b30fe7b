(** What [extended_edit_distance] is meant to compute: the cost of the cheapest
    alignment with jumps (CDER), plus a penalty for how unevenly the
    hypothesis is visited. *)
From Coq Require Import ZArith QArith Qcanon List Bool.
From Verif Require Import Num.
Import ListNotations.
Open Scope Qc_scope.

Section Spec.
Context {A : Type}.
Variables (same : A -> A -> bool) (space : A -> bool).
Variables (deletion insertion substitution jump : Qc).
Variables (hyp ref : list A).

(** [aligned i j c]: an alignment of the first [i] characters of the reference
    that stands after the first [j] characters of the hypothesis, at cost [c].
    It starts at the front, or anywhere for 1; before any character of the
    hypothesis an insertion costs 1; it may jump anywhere after a space of the
    reference. *)
Inductive aligned : nat -> nat -> Qc -> Prop :=
| at_front : aligned 0 0 0
| at_start : forall j, (1 <= j <= length hyp)%nat -> aligned 0 j 1
| by_deletion : forall i j c, aligned i j c -> (1 <= i)%nat -> (j < length hyp)%nat -> aligned i (S j) (c + deletion)
| by_insertion : forall i j c, aligned i j c -> (i < length ref)%nat -> aligned (S i) j (c + if Nat.eqb j 0 then 1 else insertion)
| by_substitution : forall i j c a b, aligned i j c -> nth_error ref i = Some a -> nth_error hyp j = Some b ->
    aligned (S i) (S j) (c + if same a b then 0 else substitution)
| by_jump : forall i j j' c a, aligned (S i) j c -> nth_error ref i = Some a -> space a = true -> (j' <= length hyp)%nat ->
    aligned (S i) j' (c + jump).

Definition least_cost (i j : nat) (c : Qc) : Prop := aligned i j c /\ forall c', aligned i j c' -> c <= c'.

(** The place visited at a row: the first of the cheapest ones. *)
Definition visited (cost : nat -> Qc) (v : nat) : Prop :=
  (v <= length hyp)%nat /\ (forall j, (j <= length hyp)%nat -> cost v <= cost j) /\ (forall j, (j < v)%nat -> cost v < cost j).

(** How far the numbers of visits are from 1, summed up over all places. *)
Definition uneven (visits : list nat) : Qc :=
  fold_right (fun j s => qabs (qn (count_occ Nat.eq_dec visits j) - 1) + s) 0 (seq 0 (S (length hyp))).

End Spec.
