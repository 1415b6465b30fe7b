(** Model of experiments/find_replace_trie.py, [Trie.levenshtein_lookup] and
    [Trie.damerau_levenshtein_lookup].

    [word] is given as the list of its characters, which are compared with the
    tokens of the trie.  Costs and [distance] are numbers computed with exactly
    (ints, or floats as long as no operation rounds).  The generator is run to
    its end without the trie changing meanwhile. *)
From Coq Require Import ZArith QArith Qcanon List Bool.
From Verif Require Import Num Py PyDict TrieModel EditModel.
Import ListNotations.
Open Scope Qc_scope.

Section Lookup.
Context {T V K : Type} `{EqDec T}.
Variable detokenizer : list T -> K.
(** the costs *)
Variables insertion_cost deletion_cost substitution_cost transposition_cost : Qc.

(** [min(row)] *)
Definition row_min (row : list Qc) : result Qc :=
  match row with [] => Err ValueError | x :: l => Ok (fold_left qmin l x) end.

(** experiments/find_replace_trie.py:659 and 745, the condition;
    [word[idx_2 - 1]] and [_path[-1]] *)
Definition swapped (word path : list T) (key : T) (idx_2 : nat) (char_2 : T) : result bool :=
  match path with
  | [] => Ok false
  | _ =>
      if (idx_2 =? 0)%nat then Ok false else
      c <- py_get word (Z.of_nat idx_2 - 1) ;;
      if eqd key c then p <- py_get path (-1) ;; Ok (if eqd p char_2 then true else false) else Ok false
  end.

(** experiments/find_replace_trie.py:649-664, one character of the word *)
Definition lev_cell (word path : list T) (table : list (list Qc)) (key : T) (next_row : list Qc) (e : nat * T) : result (list Qc) :=
  let (idx_2, char_2) := e in
  if eqd key char_2 then
    row <- py_get table (-1) ;;
    v <- py_get row (Z.of_nat idx_2) ;;
    py_set next_row (Z.of_nat idx_2 + 1) v
  else
    row <- py_get table (-1) ;;
    a <- py_get row (Z.of_nat idx_2 + 1) ;;
    b <- py_get next_row (Z.of_nat idx_2) ;;
    d <- py_get row (Z.of_nat idx_2) ;;
    let insertions := a + insertion_cost in
    let deletions := b + deletion_cost in
    let substitutions := d + substitution_cost in
    cond <- swapped word path key idx_2 char_2 ;;
    if cond then
      row2 <- py_get table (-2) ;;
      s <- py_get row2 (Z.of_nat idx_2 - 1) ;;
      py_set next_row (Z.of_nat idx_2 + 1) (qmin (qmin (qmin insertions deletions) substitutions) (s + transposition_cost))
    else py_set next_row (Z.of_nat idx_2 + 1) (qmin (qmin insertions deletions) substitutions).

(** experiments/find_replace_trie.py:639-665, [_levenshtein_iter] *)
Definition lev_row (word path : list T) (table : list (list Qc)) (key : T) : result (list Qc) :=
  next_row <- py_set (repeat 0 (List.length word + 1)) 0 (qz (zlen table) * insertion_cost) ;;
  foldM (lev_cell word path table key) (enum word) next_row.

(** experiments/find_replace_trie.py:632 *)
Definition lev_first (word : list T) : list Qc := map (fun d => qz d * deletion_cost) (py_range 0 (zlen word + 1)).

(** experiments/find_replace_trie.py:734-750 *)
Definition dam_cell (word path : list T) (table : list (list Qc)) (key : T) (next_row : list Qc) (e : nat * T) : result (list Qc) :=
  let (idx_2, char_2) := e in
  if eqd key char_2 then
    row <- py_get table (-1) ;;
    v <- py_get row (Z.of_nat idx_2 - 1) ;;
    py_set next_row (Z.of_nat idx_2) v
  else
    row <- py_get table (-1) ;;
    a <- py_get row (Z.of_nat idx_2) ;;
    b <- py_get next_row (Z.of_nat idx_2 - 1) ;;
    d <- py_get row (Z.of_nat idx_2 - 1) ;;
    let insertions := a + insertion_cost in
    let deletions := b + deletion_cost in
    let substitutions := d + substitution_cost in
    cond <- swapped word path key idx_2 char_2 ;;
    if cond then
      row2 <- py_get table (-2) ;;
      s <- py_get row2 (Z.of_nat idx_2 - 2) ;;
      py_set next_row (Z.of_nat idx_2) (qmin (qmin (qmin insertions deletions) substitutions) (s + transposition_cost))
    else py_set next_row (Z.of_nat idx_2) (qmin (qmin insertions deletions) substitutions).

(** experiments/find_replace_trie.py:724-751, [_damerau_levenshtein_iter] *)
Definition dam_row (word path : list T) (table : list (list Qc)) (key : T) : result (list Qc) :=
  row <- py_get table (-1) ;;
  v <- py_get row (-1) ;;
  next_row <- py_set (repeat 0 (List.length word + 1)) (-1) (v + insertion_cost) ;;
  foldM (dam_cell word path table key) (enum word) next_row.

(** experiments/find_replace_trie.py:717 *)
Definition dam_first (word : list T) : list Qc := map (fun d => qz d * deletion_cost) (py_range 1 (zlen word + 1)) ++ [0].

(** experiments/find_replace_trie.py:667-690 and 753-774.  [next_row_of] is the
    inner function and [last_index] the index of the last character's cell.
    The lists of keys and the stack are kept with the end to pop from first, as
    in [items_loop]. *)
Fixpoint lookup_loop (next_row_of : list T -> list (list Qc) -> T -> result (list Qc)) (last_index : Z) (distance : Qc)
  (fuel : nat) (path : list T) (table : list (list Qc)) (stack : list (node T V * list T)) (out : list (list T)) : result (list (list T)) :=
  match fuel with
  | O => Err RuntimeError
  | S fuel' =>
      match stack with
      | [] => Ok out
      | (head, key :: keys) :: stack' =>
          match dget key (children head) with
          | None => Err KeyError
          | Some next_head =>
              next_row <- next_row_of path table key ;;
              m <- row_min next_row ;;
              if qleb m distance then
                l <- py_get next_row last_index ;;
                lookup_loop next_row_of last_index distance fuel' (path ++ [key]) (table ++ [next_row])
                  ((next_head, rev (dkeys (children next_head))) :: (head, keys) :: stack')
                  (if qleb l distance then match value next_head with Some _ => out ++ [path ++ [key]] | None => out end else out)
              else lookup_loop next_row_of last_index distance fuel' path table ((head, keys) :: stack') out
          end
      | (head, []) :: stack' =>
          match path with
          | _ :: _ => lookup_loop next_row_of last_index distance fuel' (removelast path) (removelast table) stack' out
          | [] => match table, stack' with [_], [] => Ok out | _, _ => Err AssertionError end
          end
      end
  end.

(** The assertions of lines 621-628; [char_tokenizer] is the value of the first *)
Definition lookup_checks (char_tokenizer : bool) (word : list T) (distance : Qc) : result unit :=
  guard (negb char_tokenizer) AssertionError ;;;
  guard (qltb distance 0) AssertionError ;;;
  guard (match word with [] => true | _ => false end) AssertionError ;;;
  guard (qltb insertion_cost 0) AssertionError ;;;
  guard (qltb deletion_cost 0) AssertionError ;;;
  guard (qltb substitution_cost 0) AssertionError.

(** experiments/find_replace_trie.py:607-690: the keys yielded *)
Definition levenshtein_lookup (char_tokenizer : bool) (t : trie T V) (word : list T) (distance : Qc) : result (list K) :=
  lookup_checks char_tokenizer word distance ;;;
  l <- lookup_loop (lev_row word) (-1) distance (S (2 * size (root t))) [] [lev_first word]
         [(root t, rev (dkeys (children (root t))))] [] ;;
  Ok (map detokenizer l).

(** experiments/find_replace_trie.py:692-776 *)
Definition damerau_levenshtein_lookup (char_tokenizer : bool) (t : trie T V) (word : list T) (distance : Qc) : result (list K) :=
  lookup_checks char_tokenizer word distance ;;;
  guard (qltb transposition_cost 0) AssertionError ;;;
  l <- lookup_loop (dam_row word) (-2) distance (S (2 * size (root t))) [] [dam_first word]
         [(root t, rev (dkeys (children (root t))))] [] ;;
  Ok (map detokenizer l).
End Lookup.
