(** Model of the rest of experiments/find_replace_trie.py: slices with steps
    and open ends, deletion of slices, [fromkeys], the class [Match]. *)
From Coq Require Import ZArith NArith List Bool.
From Verif Require Import Py PyDict NmdSpec TrieSpec TrieModel.
Import ListNotations.

(** [l[::step]]: the builtin.  For a positive step the elements whose index is
    a multiple of it, for a negative one the same from the other end. *)
Definition every {A} (k : nat) (l : list A) : list A :=
  map snd (filter (fun iv => Nat.eqb (Nat.modulo (fst iv) k) 0) (combine (seq 0 (List.length l)) l)).
Definition stride {A} (step : option Z) (l : list A) : result (list A) :=
  match step with
  | None => Ok l
  | Some 0%Z => Err ValueError
  | Some (Zpos p) => Ok (every (Pos.to_nat p) l)
  | Some (Zneg p) => Ok (every (Pos.to_nat p) (rev l))
  end.

Section Trie.
Context {T V K : Type} `{EqDec T}.
Variable tokenizer : K -> list T.
Variable detokenizer : list T -> K.
Variable ltb_key : K -> K -> bool.

(** experiments/find_replace_trie.py:294-301; [None] is a missing end of the
    slice, with which a key cannot be compared *)
Fixpoint slice_loop (start stop : option K) (items : list (K * V)) (out : list (K * V)) : result (list (K * V)) :=
  match items with
  | [] => Ok out
  | (key, value) :: items' =>
      match stop with
      | None => Err TypeError
      | Some b =>
          if negb (ltb_key key b) then Ok out
          else match start with
               | None => Err TypeError
               | Some a => if negb (ltb_key key a) then slice_loop start stop items' (out ++ [(key, value)])
                           else slice_loop start stop items' out
               end
      end
  end.

Definition item_slice_step (t : trie T V) (start stop : option K) (step : option Z) : result (list (K * V)) :=
  l <- items detokenizer t ;; out <- slice_loop start stop l [] ;; stride step out.

(** experiments/find_replace_trie.py:304-305 *)
Definition getslice_step (t : trie T V) (start stop : option K) (step : option Z) : result (list V) :=
  l <- item_slice_step t start stop step ;; Ok (map snd l).

(** experiments/find_replace_trie.py:384-385, the loop *)
Fixpoint pop_all (t : trie T V) (l : list (K * V)) : trie T V * result unit :=
  match l with
  | [] => (t, Ok tt)
  | (key, _) :: l' =>
      match pop tokenizer detokenizer t (Some key) with
      | (t', Ok _) => pop_all t' l'
      | (t', Err e) => (t', Err e)
      end
  end.

(** experiments/find_replace_trie.py:382-385, [del trie[start:stop:step]] *)
Definition delslice (t : trie T V) (start stop : option K) (step : option Z) : trie T V * result unit :=
  match item_slice_step t start stop step with
  | Ok l => pop_all t l
  | Err e => (t, Err e)
  end.

(** experiments/find_replace_trie.py:144-155, with any tokenizer in place of
    the two that the constructor makes *)
Definition fromkeys_sorted (leb : T -> T -> bool) (keys : list K) (default : V) (sort : bool) : trie T V :=
  let t := update tokenizer new_trie (map (fun key => (key, default)) keys) in
  if sort then sort_keys leb true t else t.

(** ** [Match]: a match of TrieModel, [(start, end, str)] *)

(** experiments/find_replace_trie.py:55-58 *)
Definition match_getitem (x : match_ (K := K)) (group_index : Z) : result K :=
  if negb (group_index =? 0)%Z then Err IndexError else Ok (snd x).
(** experiments/find_replace_trie.py:60-61 *)
Definition match_group (x : match_ (K := K)) (group_index : Z) : result K := match_getitem x group_index.
(** experiments/find_replace_trie.py:63-66 *)
Definition match_start_of (x : match_ (K := K)) (group_index : Z) : result nat :=
  if negb (group_index =? 0)%Z then Err IndexError else Ok (fst (fst x)).
(** experiments/find_replace_trie.py:68-71 *)
Definition match_end_of (x : match_ (K := K)) (group_index : Z) : result nat :=
  if negb (group_index =? 0)%Z then Err IndexError else Ok (snd (fst x)).
(** experiments/find_replace_trie.py:73-76 *)
Definition match_span (x : match_ (K := K)) (group_index : Z) : result (nat * nat) :=
  if negb (group_index =? 0)%Z then Err IndexError else Ok (fst x).
(** experiments/find_replace_trie.py:78-79; [len] of a negative number is a
    ValueError *)
Definition match_dunder_len (x : match_ (K := K)) : result Z :=
  let n := (Z.of_nat (snd (fst x)) - Z.of_nat (fst (fst x)))%Z in
  if (n <? 0)%Z then Err ValueError else Ok n.
(** experiments/find_replace_trie.py:81-82 *)
Definition match_str (x : match_ (K := K)) : K := snd x.

End Trie.
