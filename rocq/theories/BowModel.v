(** Model of nmd/nmd_bow.py. *)
From Coq Require Import ZArith NArith QArith Qcanon List Bool.
From Verif Require Import Num Py PyDict EmdSpec NmdSpec NmdModel.
Import ListNotations.
Open Scope Qc_scope.

(** An argument [bag_of_words]: a string (whose characters are the words) or
    another iterable. *)
Inductive bag := BStr (s : str) | BIter (l : list pyval).

(** nmd/nmd_bow.py:28-29, [list(bag)] *)
Definition bag_list (b : bag) : list pyval := match b with BStr s => map (fun c => PStr [c]) s | BIter l => l end.

(** [word_1 != word_2] for two strings; only used after both were accepted as
    strings. *)
Definition differ (v1 v2 : pyval) : Qc :=
  match v1, v2 with PStr a, PStr b => if eqd a b then 0 else 1 | _, _ => 1 end.

Section Bow.
Variable rnd : Qc -> Qc.
(** scipy.optimize.linear_sum_assignment: row and column indices *)
Variable solver : list (list Qc) -> list nat * list nat.

(** nmd/nmd_bow.py:36-39 *)
Definition cost (n word_1 word_2 : pyval) : result Qc :=
  match ngram_movers_distance rnd word_1 word_2 n false true with
  | Err ZeroDivisionError => Ok (differ word_1 word_2)
  | r => r
  end.

(** nmd/nmd_bow.py:32-40 *)
Definition cost_matrix (n : pyval) (b1 b2 : list pyval) : result (list (list Qc)) :=
  mapM (fun word_1 => mapM (fun word_2 => cost n word_1 word_2) b2) b1.

(** nmd/nmd_bow.py:41-44 *)
Definition assign (costs : list (list Qc)) : list nat * list nat :=
  match costs with [] => ([], []) | _ => solver costs end.

(** nmd/nmd_bow.py:49-50, 53-54 *)
Definition add_costs (op : Qc -> Qc -> Qc) (costs : list (list Qc)) (idxs : list nat * list nat) (out : Qc) : result Qc :=
  foldM (fun out ij =>
    row <- py_get costs (Z.of_nat (fst ij)) ;;
    c <- py_get row (Z.of_nat (snd ij)) ;;
    Ok (rnd (op out c))) (combine (fst idxs) (snd idxs)) out.

(** nmd/nmd_bow.py:9-59 *)
Definition bow_ngram_movers_distance (bag_1 bag_2 : bag) (n : pyval) (invert normalize : bool) : result Qc :=
  let b1 := bag_list bag_1 in
  let b2 := bag_list bag_2 in
  costs <- cost_matrix n b1 b2 ;;
  let idxs := assign costs in
  out <- (if invert then add_costs Qcminus costs idxs (qz (Z.min (zlen b1) (zlen b2)))
          else add_costs Qcplus costs idxs (qz (Z.abs (zlen b1 - zlen b2)))) ;;
  if normalize then
    if (Z.max (zlen b1) (zlen b2) =? 0)%Z then Err ZeroDivisionError
    else Ok (rnd (out / qz (Z.max (zlen b1) (zlen b2))))
  else Ok out.

End Bow.

(** The documented behaviour of linear_sum_assignment: every row and column at
    most once, as many pairs as fit, least total. *)
Definition valid_assignment (rows cols : nat) (r : list nat * list nat) : Prop :=
  NoDup (fst r) /\ NoDup (snd r) /\
  length (fst r) = Nat.min rows cols /\ length (snd r) = Nat.min rows cols /\
  Forall (fun i => (i < rows)%nat) (fst r) /\ Forall (fun j => (j < cols)%nat) (snd r).

Definition assignment_total (costs : list (list Qc)) (r : list nat * list nat) : Qc :=
  qsum (map (fun ij => nth (snd ij) (nth (fst ij) costs []) 0) (combine (fst r) (snd r))).

Definition valid_solver (solver : list (list Qc) -> list nat * list nat) : Prop :=
  forall costs cols, Forall (fun row => length row = cols) costs -> valid_assignment (length costs) cols (solver costs).

Definition optimal_solver (solver : list (list Qc) -> list nat * list nat) : Prop :=
  valid_solver solver /\
  forall costs cols, Forall (fun row => length row = cols) costs ->
  forall r, valid_assignment (length costs) cols r -> assignment_total costs (solver costs) <= assignment_total costs r.
