(** Model of experiments/edit_distance.py ([edit_distance],
    [damerau_levenshtein_distance]) and of experiments/automata.py
    ([levenshtein], [BKNode]).

    Sequences are lists over any type with decidable equality.  The doctests
    are left out; [extended_edit_distance] is in EedModel. *)
From Coq Require Import ZArith List Bool.
From Verif Require Import Py PyDict.
Import ListNotations.
Open Scope Z_scope.

(** [enumerate(l)] *)
Definition enum {A} (l : list A) : list (nat * A) := combine (seq 0 (length l)) l.

Section Edit.
Context {A : Type} `{EqDec A}.

(** experiments/edit_distance.py:7-12, the body of the loop over [s2]; [min] of
    a triple *)
Definition edit_row (s1 : list A) (distances : list Z) (e2 : nat * A) : result (list Z) :=
  let (i2, c2) := e2 in
  foldM (fun distances_ (e1 : nat * A) =>
    let (i1, c1) := e1 in
    if eqd c1 c2 then
      d <- py_get distances (Z.of_nat i1) ;; Ok (distances_ ++ [d])
    else
      a <- py_get distances (Z.of_nat i1) ;;
      b <- py_get distances (Z.of_nat i1 + 1) ;;
      l <- py_get distances_ (-1) ;;
      Ok (distances_ ++ [1 + Z.min (Z.min a b) l])) (enum s1) [Z.of_nat i2 + 1].

(** experiments/edit_distance.py:1-14 *)
Definition edit_distance (s1 s2 : list A) : result Z :=
  let '(s1, s2) := if zlen s2 <? zlen s1 then (s2, s1) else (s1, s2) in
  distances <- foldM (edit_row s1) (enum s2) (py_range 0 (zlen s1 + 1)) ;;
  py_get distances (-1).

(** experiments/automata.py:304-312, the body of the loop over [s1] *)
Definition levenshtein_row (s2 : list A) (previous_row : list Z) (e1 : nat * A) : result (list Z) :=
  let (idx_1, char_1) := e1 in
  foldM (fun current_row (e2 : nat * A) =>
    let (idx_2, char_2) := e2 in
    a <- py_get previous_row (Z.of_nat idx_2 + 1) ;;
    b <- py_get current_row (Z.of_nat idx_2) ;;
    d <- py_get previous_row (Z.of_nat idx_2) ;;
    let insertions := a + 1 in
    let deletions := b + 1 in
    let substitutions := d + (if eqd char_1 char_2 then 0 else 1) in
    Ok (current_row ++ [Z.min (Z.min insertions deletions) substitutions])) (enum s2) [Z.of_nat idx_1 + 1].

(** experiments/automata.py:298-315; the recursive call exchanges the arguments *)
Definition levenshtein (s1 s2 : list A) : result Z :=
  let '(s1, s2) := if zlen s1 <? zlen s2 then (s2, s1) else (s1, s2) in
  match s1 with
  | [] => Ok (zlen s2)
  | _ =>
      row <- foldM (levenshtein_row s2) (enum s1) (py_range 0 (zlen s2 + 1)) ;;
      py_get row (-1)
  end.

(** experiments/edit_distance.py:56-57, the condition *)
Definition transposed (seq1 seq2 : list A) (x y : Z) : result bool :=
  if (0 <? x) && (0 <? y) then
    a <- py_get seq1 x ;; b <- py_get seq2 (y - 1) ;;
    if eqd a b then
      c <- py_get seq1 (x - 1) ;; d <- py_get seq2 y ;;
      if eqd c d then Ok (if eqd a d then false else true) else Ok false
    else Ok false
  else Ok false.

(** experiments/edit_distance.py:50-58, the body of the loop over [y];
    [twoago] is [None] in the first row *)
Definition damerau_cell (seq1 seq2 : list A) (x : Z) (twoago : option (list Z)) (oneago : list Z) (thisrow : list Z) (y : Z) : result (list Z) :=
  o <- py_get oneago y ;;
  l <- py_get thisrow (y - 1) ;;
  d <- py_get oneago (y - 1) ;;
  a <- py_get seq1 x ;; b <- py_get seq2 y ;;
  let delcost := o + 1 in
  let addcost := l + 1 in
  let subcost := d + (if eqd a b then 0 else 1) in
  thisrow <- py_set thisrow y (Z.min (Z.min delcost addcost) subcost) ;;
  cond <- transposed seq1 seq2 x y ;;
  if cond then
    match twoago with
    | None => Err TypeError
    | Some twoago =>
        t <- py_get thisrow y ;;
        w <- py_get twoago (y - 2) ;;
        py_set thisrow y (Z.min t (w + 1))
    end
  else Ok thisrow.

(** experiments/edit_distance.py:45-58 *)
Definition damerau_row (seq1 seq2 : list A) (st : option (list Z) * list Z) (x : Z) : result (option (list Z) * list Z) :=
  let (oneago, thisrow) := st in
  row <- foldM (damerau_cell seq1 seq2 x oneago thisrow) (py_range 0 (zlen seq2)) (repeat 0 (length seq2) ++ [x + 1]) ;;
  Ok (Some thisrow, row).

(** experiments/edit_distance.py:17-60 *)
Definition damerau_levenshtein_distance (seq1 seq2 : list A) : result Z :=
  r <- foldM (damerau_row seq1 seq2) (py_range 0 (zlen seq1)) (None, py_range 1 (zlen seq2 + 1) ++ [0]) ;;
  py_get (snd r) (zlen seq2 - 1).

(** ** experiments/automata.py:318-343, [BKNode] *)
Inductive bk := BKNode (term : list A) (children : list (Z * bk)).

Definition bk_term (n : bk) := let (t, _) := n in t.
Definition bk_children (n : bk) := let (_, c) := n in c.

(** experiments/automata.py:319-321 *)
Definition bk_new (term : list A) : bk := BKNode term [].

(** experiments/automata.py:323-328; the node is returned as it is afterwards *)
Fixpoint bk_insert (n : bk) (other : list A) : result bk :=
  match n with
  | BKNode term children =>
      distance <- levenshtein term other ;;
      children' <- (fix go (l : list (Z * bk)) : result (list (Z * bk)) :=
        match l with
        | [] => Ok [(distance, bk_new other)]
        | (d, child) :: l' =>
            if d =? distance then child' <- bk_insert child other ;; Ok ((d, child') :: l')
            else l'' <- go l' ;; Ok ((d, child) :: l'')
        end) children ;;
      Ok (BKNode term children')
  end.

(** experiments/automata.py:330-338: the words added to [output_set], in the
    order in which they are added, and the counter that is returned.  The loop
    over [range(max(0, distance - k), distance + k + 1)] looks up each number
    among the children. *)
Fixpoint bk_search_ (n : bk) (term : list A) (k : Z) : result (list (list A) * Z) :=
  match n with
  | BKNode own children =>
      distance <- levenshtein own term ;;
      let found := if distance <=? k then [own] else [] in
      let results := (fix go (l : list (Z * bk)) : list (Z * result (list (list A) * Z)) :=
        match l with [] => [] | (d, child) :: l' => (d, bk_search_ child term k) :: go l' end) children in
      foldM (fun (st : list (list A) * Z) dist_ =>
        match dget dist_ results with
        | None => Ok st
        | Some r => res <- r ;; Ok (fst st ++ fst res, snd st + snd res)
        end) (py_range (Z.max 0 (distance - k)) (distance + k + 1)) (found, 1)
  end.

(** experiments/automata.py:340-343; a set, as the list of what was added *)
Definition bk_search (n : bk) (term : list A) (k : Z) : result (list (list A)) :=
  r <- bk_search_ n term k ;; Ok (fst r).
End Edit.
Arguments bk : clear implicits.
