(** Model of [Trie.nbytes], experiments/find_replace_trie.py:232-255. *)
From Coq Require Import ZArith NArith List Bool.
From Verif Require Import Py PyDict TrieModel.
Import ListNotations.
Open Scope Z_scope.

(** [id] of the objects a trie consists of.  A node is named by the tokens on
    the way to it; [id_value] is the id of its REPLACEMENT ([_NOTHING] is one
    object for all nodes) and [id_key] the id of the token under which its
    parent has it. *)
Record ids (T : Type) := {
  id_self : nat; id_length : nat; id_tokenizer : nat; id_detokenizer : nat;
  id_node : list T -> nat; id_value : list T -> nat; id_key : list T -> nat }.
Arguments id_self {T}. Arguments id_length {T}. Arguments id_tokenizer {T}. Arguments id_detokenizer {T}.
Arguments id_node {T}. Arguments id_value {T}. Arguments id_key {T}.

Section Nbytes.
Context {T V : Type} `{EqDec T}.
Variable i : ids T.
(** [sys.getsizeof] of the object with an id *)
Variable getsizeof : nat -> Z.

Definition seen_in (o : nat) (l : list nat) : bool := existsb (Nat.eqb o) l.

(** experiments/find_replace_trie.py:240-243 *)
Definition count_first (acc : Z * list nat) (o : nat) : result (Z * list nat) :=
  let (total_bytes, seen_ids) := acc in
  if seen_in o seen_ids then Err AssertionError else Ok (total_bytes + getsizeof o, seen_ids ++ [o]).

(** experiments/find_replace_trie.py:250-253 *)
Definition count_once (acc : Z * list nat) (o : nat) : Z * list nat :=
  let (total_bytes, seen_ids) := acc in
  if seen_in o seen_ids then acc else (total_bytes + getsizeof o, seen_ids ++ [o]).

(** experiments/find_replace_trie.py:245-255; the stack is kept with its top
    first; [None] if [fuel] rounds are not enough *)
Fixpoint bytes_loop (fuel : nat) (stack : list (list T * node T V)) (acc : Z * list nat) : option Z :=
  match fuel with
  | O => None
  | S fuel =>
      match stack with
      | [] => Some (fst acc)
      | (p, n) :: stack =>
          bytes_loop fuel (rev (map (fun kc => (p ++ [fst kc], snd kc)) (children n)) ++ stack)
            (fold_left count_once (id_node i p :: id_value i p :: map (fun kc => id_key i (p ++ [fst kc])) (children n)) acc)
      end
  end.

(** experiments/find_replace_trie.py:232-255 *)
Definition nbytes (fuel : nat) (t : trie T V) : result (option Z) :=
  acc <- foldM count_first [id_self i; id_length i; id_tokenizer i; id_detokenizer i] (0, []) ;;
  Ok (bytes_loop fuel [([], root t)] acc).

End Nbytes.
