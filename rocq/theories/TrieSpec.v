(** What a [Trie] should do, without reference to the tree. *)
From Coq Require Import ZArith List Bool Permutation Sorted.
From Verif Require Import Py PyDict.
Import ListNotations.

(** ** A dict from token sequences to values *)
Section Dict.
Context {T V K : Type} `{EqDec T}.
Variable tokenizer : K -> list T.
Variable detokenizer : list T -> K.

Inductive op :=
| SetItem (k : K) (v : V)
| SetDefault (k : K) (v : V)
| Pop (k : option K)
| Del (k : option K)
| GetItem (k : K)
| Get (k : K) (default : V)
| Contains (k : K)
| Items
| Len
| SortKeys (leb : T -> T -> bool) (ascending : bool).

Inductive outcome :=
| Done
| Value (v : V)
| Bool (b : bool)
| Item (k : K) (v : V)
| Listed (l : list (K * V))
| Count (z : Z)
| Raised (e : exn).

Definition same (m m' : list T -> option V) : Prop := forall ts, m' ts = m ts.
Definition changed (m : list T -> option V) (ts : list T) (v : option V) (m' : list T -> option V) : Prop :=
  forall us, m' us = if eqd us ts then v else m us.

(** Some key other than the empty one. *)
Definition some_key (m : list T -> option V) : Prop := exists ts, ts <> [] /\ m ts <> None.

(** [l] lists the keys satisfying [P] with their values, each once. *)
Definition lists_keys (P : list T -> Prop) (m : list T -> option V) (l : list (list T * V)) : Prop :=
  NoDup (map fst l) /\ forall ts v, In (ts, v) l <-> P ts /\ m ts = Some v.

(** One operation on a dict: the outcome and the dict afterwards.  The empty
    key is special: [items] leaves it out, [len] fails when it is present, and
    [pop] and [del] think the dict is empty when there is no other key. *)
Inductive dict_step (m : list T -> option V) : op -> outcome -> (list T -> option V) -> Prop :=
| d_set k v m' : changed m (tokenizer k) (Some v) m' -> dict_step m (SetItem k v) Done m'
| d_default_old k v x m' : m (tokenizer k) = Some x -> same m m' -> dict_step m (SetDefault k v) (Value x) m'
| d_default_new k v m' : m (tokenizer k) = None -> changed m (tokenizer k) (Some v) m' -> dict_step m (SetDefault k v) (Value v) m'
| d_pop k v m' : m (tokenizer k) = Some v -> some_key m -> changed m (tokenizer k) None m' -> dict_step m (Pop (Some k)) (Item k v) m'
| d_pop_missing k m' : m (tokenizer k) = None \/ ~ some_key m -> same m m' -> dict_step m (Pop (Some k)) (Raised KeyError) m'
| d_pop_first ts v m' : ts <> [] -> m ts = Some v -> changed m ts None m' -> dict_step m (Pop None) (Item (detokenizer ts) v) m'
| d_pop_empty m' : ~ some_key m -> same m m' -> dict_step m (Pop None) (Raised KeyError) m'
| d_del k m' : m (tokenizer k) <> None -> some_key m -> changed m (tokenizer k) None m' -> dict_step m (Del (Some k)) Done m'
| d_del_missing k m' : m (tokenizer k) = None \/ ~ some_key m -> same m m' -> dict_step m (Del (Some k)) (Raised KeyError) m'
| d_del_none m' : same m m' -> dict_step m (Del None) (Raised KeyError) m'
| d_getitem k v m' : m (tokenizer k) = Some v -> same m m' -> dict_step m (GetItem k) (Value v) m'
| d_getitem_missing k m' : m (tokenizer k) = None -> same m m' -> dict_step m (GetItem k) (Raised KeyError) m'
| d_get k d v m' : m (tokenizer k) = Some v -> same m m' -> dict_step m (Get k d) (Value v) m'
| d_get_missing k d m' : m (tokenizer k) = None -> same m m' -> dict_step m (Get k d) (Value d) m'
| d_contains k b m' : (b = true <-> m (tokenizer k) <> None) -> same m m' -> dict_step m (Contains k) (Bool b) m'
| d_items l m' : lists_keys (fun ts => ts <> []) m l -> same m m' ->
    dict_step m Items (Listed (map (fun kv => (detokenizer (fst kv), snd kv)) l)) m'
| d_len l m' : m [] = None -> lists_keys (fun _ => True) m l -> same m m' -> dict_step m Len (Count (zlen l)) m'
| d_len_fails m' : m [] <> None -> same m m' -> dict_step m Len (Raised AssertionError) m'
| d_sort leb asc m' : same m m' -> dict_step m (SortKeys leb asc) Done m'.

(** A history of operations with their outcomes. *)
Inductive dict_run : (list T -> option V) -> list op -> list outcome -> Prop :=
| r_nil m : dict_run m [] []
| r_cons m m' o os r rs : dict_step m o r m' -> dict_run m' os rs -> dict_run m (o :: os) (r :: rs).

End Dict.
Arguments op : clear implicits.
Arguments outcome : clear implicits.

(** ** Lexicographic order of token sequences: a sequence comes before its
    extensions. *)
Inductive lex {T} (le : T -> T -> Prop) : list T -> list T -> Prop :=
| lex_nil l : lex le [] l
| lex_first a b x y : le a b -> a <> b -> lex le (a :: x) (b :: y)
| lex_rest a x y : lex le x y -> lex le (a :: x) (a :: y).

(** ** Leftmost-longest scanning with a dict of token sequences *)
Section Scan.
Context {T V : Type}.
Variable m : list T -> option V.

(** [k] is the longest non-empty key that starts the text [k ++ rest]. *)
Definition longest_key (k rest : list T) (v : V) : Prop :=
  k <> [] /\ m k = Some v /\ forall k' rest', k' ++ rest' = k ++ rest -> (length k < length k')%nat -> m k' = None.

(** No non-empty key starts the text [l]. *)
Definition no_key (l : list T) : Prop := forall k rest, k ++ rest = l -> k <> [] -> m k = None.

(** The text with every leftmost-longest key replaced. *)
Inductive rewritten (value_tokens : V -> list T) : list T -> list T -> Prop :=
| rw_nil : rewritten value_tokens [] []
| rw_key k rest v out : longest_key k rest v -> rewritten value_tokens rest out ->
    rewritten value_tokens (k ++ rest) (value_tokens v ++ out)
| rw_copy x rest out : no_key (x :: rest) -> rewritten value_tokens rest out -> rewritten value_tokens (x :: rest) (x :: out).

(** The leftmost-longest matches of a text that starts at position [pos]. *)
Inductive scanned : nat -> list T -> list (nat * nat * list T) -> Prop :=
| sc_nil pos : scanned pos [] []
| sc_key pos k rest v ms : longest_key k rest v -> scanned (pos + length k) rest ms ->
    scanned pos (k ++ rest) ((pos, (pos + length k)%nat, k) :: ms)
| sc_skip pos x rest ms : no_key (x :: rest) -> scanned (S pos) rest ms -> scanned pos (x :: rest) ms.

(** The text from [s] to [e] is a key. *)
Definition occurs (text : list T) (s e : nat) (k : list T) : Prop :=
  (s < e)%nat /\ (exists a b, text = a ++ k ++ b /\ length a = s /\ (s + length k)%nat = e) /\ m k <> None.
End Scan.

(** Matches in ascending order that do not overlap, and how much of the text
    they cover. *)
Definition disjoint {K} (l : list (nat * nat * K)) : Prop := StronglySorted (fun a b => (snd (fst a) <= fst (fst b))%nat) l.
Definition covered_length {K} (l : list (nat * nat * K)) : nat := list_sum (map (fun a => (snd (fst a) - fst (fst a))%nat) l).
