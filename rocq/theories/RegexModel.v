(** Model of experiments/find_replace_trie.py, [Trie.to_regex] (410-579) and
    the function [to_regex] (1109-1121), for Python 3.7 or later.

    Tokens are strings (a lower-cased character may have more than one
    character).  The regular expressions with which the code rewrites its
    result are given as trees, and are run by [ways] (RegexSpec.v). *)
From Coq Require Import ZArith NArith List Bool String.
From Verif Require Import Py PyDict TrieModel Ex.
From Verif Require Import RegexSpec.
Import ListNotations.
Open Scope string_scope.
Open Scope list_scope.
Open Scope N_scope.

Definition eqs (a b : str) : bool := if list_eq_dec N.eq_dec a b then true else false.

(** ** Strings *)

Fixpoint starts (old s : str) : bool :=
  match old, s with
  | [], _ => true
  | a :: old', b :: s' => (a =? b) && starts old' s'
  | _, [] => false
  end.

(** [old in s] *)
Fixpoint has (old s : str) : bool := starts old s || match s with [] => false | _ :: s' => has old s' end.

(** [s.replace(old, new)] for a non-empty [old]; [skip] characters of the last
    occurrence are still to be passed over. *)
Fixpoint replace_from (old new : str) (skip : nat) (s : str) : str :=
  match s with
  | [] => []
  | c :: s' =>
      match skip with
      | S k => replace_from old new k s'
      | O => if starts old s then new ++ replace_from old new (List.length old - 1) s' else c :: replace_from old new O s'
      end
  end.
Definition replace (old new s : str) : str := replace_from old new O s.

(** [re.escape] (Python 3.7 or later) escapes these characters:
    <<()[]{}?*+-|^$\.&~#>> and space, tab, newline, return, vertical tab, form
    feed. *)
Definition special : str := w_ "()[]{}?*+-|^$\.&~# " ++ [9; 10; 13; 11; 12].
Definition re_escape (s : str) : str := flat_map (fun c => if existsb (N.eqb c) special then [92; c] else [c]) s.

Section Regex.
(** [\s] and [\w] *)
Variables is_space is_word : N -> bool.

(** ** [re.sub] with a pattern [before(group)after] that does not match the
    empty string *)
Record pattern := { p_before : rx; p_group : rx; p_after : rx }.

(** The first match: the text of the group and the length of the match. *)
Definition first_match (p : pattern) (z : place) : option (str * nat) :=
  hd_error (flat_map (fun z1 => flat_map (fun z2 => map (fun z3 : place =>
    (firstn (List.length (snd z1) - List.length (snd z2)) (snd z1), (List.length (snd z) - List.length (snd z3))%nat))
    (ways is_word (p_after p) z2)) (ways is_word (p_group p) z1)) (ways is_word (p_before p) z)).

Fixpoint re_sub_from (p : pattern) (repl : str -> result str) (skip : nat) (before s : str) : result str :=
  match s with
  | [] => Ok []
  | c :: s' =>
      match skip with
      | S k => re_sub_from p repl k (c :: before) s'
      | O =>
          match first_match p (before, s) with
          | Some (g, n) => r <- repl g ;; rest <- re_sub_from p repl (n - 1) (c :: before) s' ;; Ok (r ++ rest)
          | None => rest <- re_sub_from p repl O (c :: before) s' ;; Ok (c :: rest)
          end
      end
  end.
Definition re_sub (p : pattern) (repl : str -> result str) (s : str) : result str := re_sub_from p repl O [] s.

Definition lit (s : string) : rx := cat (map (fun c => Chr (N.eqb c)) (w_ s)).
Definition one_of (s : string) : rx := Chr (fun c => existsb (N.eqb c) (w_ s)).
Definition none_of (s : string) : rx := Chr (fun c => negb (existsb (N.eqb c) (w_ s))).
Definition star (r : rx) : rx := Opt (Plus r).
Definition times (n : nat) (r : rx) : rx := cat (repeat r n).
Definition any_char : rx := Chr (fun c => negb (c =? 10)).
Definition hex : rx := one_of "0123456789abcdefABCDEF".
Definition oct : rx := one_of "01234567".

(** experiments/find_replace_trie.py:536 (here and below a space is added after a star),
    <<(?:\\(?:U[0-9a-fA-F]{8}|u[0-9a-fA-F]{4}|x[0-9a-fA-F]{2}|[0-7]{2,3}|.)|[^\\])>> *)
Definition C : rx :=
  Or (Cat (lit "\") (alternate [Cat (lit "U") (times 8 hex); Cat (lit "u") (times 4 hex); Cat (lit "x") (times 2 hex);
                         Cat (times 2 oct) (Opt oct); any_char]))
     (none_of "\").

(** 539: <<(?<!\\)\(\?:({C}(?:\|{C})* )\)>> *)
Definition pattern1 : pattern := {| p_before := Cat (NotAfter 92) (lit "(?:"); p_group := Cat C (star (Cat (lit "|") C)); p_after := lit ")" |}.
(** 543: <<(?<!\\)\(\?:(\[[^\[\]]* [^\[\]\\]\])\)>> *)
Definition pattern2 : pattern := {| p_before := Cat (NotAfter 92) (lit "(?:");
  p_group := cat [lit "["; star (none_of "[]"); none_of "[]\"; lit "]"]; p_after := lit ")" |}.
(** 547: <<(?<!\\)\(\?:(\[[^\[\]]* [^\[\]\\]\]\?)\)\??>> *)
Definition pattern3 : pattern := {| p_before := Cat (NotAfter 92) (lit "(?:");
  p_group := cat [lit "["; star (none_of "[]"); none_of "[]\"; lit "]"; lit "?"]; p_after := Cat (lit ")") (Opt (lit "?")) |}.
(** 551: <<(?<!\\)\[({C})\]>> *)
Definition pattern4 : pattern := {| p_before := Cat (NotAfter 92) (lit "["); p_group := C; p_after := lit "]" |}.
(** 554: <<\(\?:({C})\)>> *)
Definition pattern5 : pattern := {| p_before := lit "(?:"; p_group := C; p_after := lit ")" |}.

(** experiments/find_replace_trie.py:501-529, [char_group], the body of the
    loop; the test [char == ''] is never true *)
Definition char_group_step (st : str * bool * bool * nat) (char : N) : result (str * bool * bool * nat) :=
  let '(out, sep, escaped, unicode) := st in
  match unicode with
  | S u => _ <- guard sep AssertionError ;; Ok (out ++ [char], match u with O => true | S _ => sep end, escaped, u)
  | O =>
      if escaped then
        _ <- guard sep AssertionError ;;
        if existsb (N.eqb char) (w_ "1234567890") then Ok (out ++ [char], sep, false, 2%nat) else Ok (out ++ [char], true, false, O)
      else if char =? 92 then _ <- guard sep AssertionError ;; Ok (out ++ [92], sep, true, O)
      else if char =? 124 then _ <- guard (negb sep) AssertionError ;; Ok (out, false, escaped, O)
      else _ <- guard sep AssertionError ;; Ok (out ++ [char], true, escaped, O)
  end.

(** experiments/find_replace_trie.py:492-532 *)
Definition char_group (group : str) : result str :=
  st <- foldM char_group_step group (w_ "[", false, false, O) ;;
  let '(out, sep, _, _) := st in
  _ <- guard (negb sep) AssertionError ;; Ok (out ++ w_ "]").

(** experiments/find_replace_trie.py:491-554 *)
Definition simplified (s : str) : result str :=
  s <- re_sub pattern1 char_group s ;;
  s <- re_sub pattern2 Ok s ;;
  s <- re_sub pattern3 Ok s ;;
  s <- re_sub pattern4 Ok s ;;
  re_sub pattern5 Ok s.

(** experiments/find_replace_trie.py:452-461: the quotes and what replaces
    them after a backslash *)
Definition quotes : list (N * N) :=
  [(0x2035, 39); (0x2032, 39); (0x2018, 39); (0x2019, 39); (0x60, 39); (0xb4, 39); (0x201d, 34); (0x201c, 34); (0x301d, 34); (0x301e, 34)].

(** experiments/find_replace_trie.py:442-465, one token of a key *)
Definition regex_token (fuzzy_quotes fuzzy_spaces fffd_any : bool) (key : str) : str :=
  let key := if fuzzy_spaces then map (fun c => if is_space c then 32 else c) key else key in
  let key := re_escape key in
  let key := if fuzzy_quotes then fold_left (fun key q => replace [92; fst q] ([91; 92; fst q; snd q; 93]) key) quotes key else key in
  if fffd_any then replace [0xfffd] (w_ ".") key else key.

Section Loop.
Context {V : Type}.
Variable token : str -> str.

(** experiments/find_replace_trie.py:429-485, the loop.  [parts] and [stack]
    are kept with their last element first, like the keys of a stack entry.
    The loop is run with enough fuel. *)
Fixpoint parts_loop (fuel : nat) (parts : list (list str)) (stack : list (node str V * list str)) : result (list (list str)) :=
  match fuel with
  | O => Err RuntimeError
  | S fuel' =>
      match stack with
      | [] => Ok parts
      | (head, key :: keys) :: stack' =>
          match dget key (children head), parts with
          | Some next, last :: parts' =>
              let last := match last with [] => last | _ => last ++ [w_ "|"] end in
              parts_loop fuel' ([] :: (last ++ [token key]) :: parts') ((next, rev (dkeys (children next))) :: (head, keys) :: stack')
          | None, _ => Err KeyError
          | _, [] => Err IndexError
          end
      | (head, []) :: stack' =>
          match parts with
          | [] => Err IndexError
          | [] :: parts' => parts_loop fuel' parts' stack'
          | current :: last :: parts' =>
              let added := match value head with
                           | Some _ => [w_ "(?:"] ++ current ++ [w_ ")?"]
                           | None => if negb (List.length (children head) =? 1)%nat then [w_ "(?:"] ++ current ++ [w_ ")"] else current
                           end in
              parts_loop fuel' ((last ++ added) :: parts') stack'
          | _ :: [] => Err IndexError
          end
      end
  end.

Definition raw_pattern (t : trie str V) : result str :=
  parts <- parts_loop (2 * size (root t) + 1) [[]; []] [(root t, rev (dkeys (children (root t))))] ;;
  match parts with [p] => Ok (List.concat p) | _ => Err AssertionError end.
End Loop.

(** experiments/find_replace_trie.py:557-564.  The comparison is with
    [_pattern[3:]], as in the code. *)
Definition wrapped (boundary : bool) (s : str) : result str :=
  if eqs (skipn 3 s) (w_ "(?:") then
    _ <- guard (negb (eqs (skipn (List.length s - 1) s) (w_ ")"))) AssertionError ;;
    Ok (if boundary then w_ "(?:\b" ++ removelast (skipn 3 s) ++ w_ "\b)" else s)
  else if boundary then Ok (w_ "(?:\b" ++ s ++ w_ "\b)")
  else Ok (w_ "(?:" ++ s ++ w_ ")").

(** experiments/find_replace_trie.py:570-574 *)
Fixpoint spaces_loop (fuel : nat) (s : str) : result str :=
  match fuel with
  | O => Err RuntimeError
  | S fuel' =>
      if has (w_ "\s\s") s then
        spaces_loop fuel' (if has (w_ "\s\s+") s then replace (w_ "\s\s+") (w_ "\s+") s else replace (w_ "\s\s") (w_ "\s+") s)
      else Ok s
  end.

(** experiments/find_replace_trie.py:566-576 *)
Definition spaced (fuzzy_spaces : bool) (s : str) : result str :=
  if fuzzy_spaces then
    let s := replace (w_ "\ ") (w_ "\s") s in
    _ <- guard (has (w_ " ") s) AssertionError ;; spaces_loop (S (List.length s)) s
  else Ok (replace (w_ "\ ") (w_ " ") s).

Record options := { fuzzy_quotes : bool; fuzzy_spaces : bool; fffd_any : bool; simplify : bool; boundary : bool }.

(** experiments/find_replace_trie.py:410-579, [Trie.to_regex] *)
Definition to_regex {V} (tokenizer : str -> list str) (t : trie str V) (o : options) : result str :=
  let test := w_ "test-test test" in
  _ <- guard (negb (if list_eq_dec (list_eq_dec N.eq_dec) (tokenizer test) (map (fun c => [c]) test) then true else false)) AssertionError ;;
  s <- raw_pattern (regex_token (fuzzy_quotes o) (fuzzy_spaces o) (fffd_any o)) t ;;
  s <- (if simplify o then simplified s else Ok s) ;;
  s <- wrapped (boundary o) s ;;
  spaced (fuzzy_spaces o) s.

(** experiments/find_replace_trie.py:199-211, the tokenizers for
    [tokenizer=None]; [lower] is [str.lower] of one character *)
Definition char_tokenizer (lower : N -> str) (lowercase : bool) (s : str) : list str := map (fun c => if lowercase then lower c else [c]) s.

(** experiments/find_replace_trie.py:144-155, [Trie.fromkeys] without [sort];
    the default value is the empty string *)
Definition fromkeys (lower : N -> str) (keys : list str) (case_sensitive : bool) : trie str str :=
  update (char_tokenizer lower (negb case_sensitive)) new_trie (map (fun key => (key, [])) keys).

(** experiments/find_replace_trie.py:1109-1121, the function [to_regex] *)
Definition strings_to_regex (lower : N -> str) (keys : list str) (case_sensitive : bool) (o : options) : result str :=
  to_regex (char_tokenizer lower (negb case_sensitive)) (fromkeys lower keys case_sensitive) o.
End Regex.
