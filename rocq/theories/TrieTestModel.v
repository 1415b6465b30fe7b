(** Model of tests/test_find_replace_trie.py and of [self_test],
    experiments/find_replace_trie.py:1124-1262.  [test_unicode_spaces] (17-29)
    and lines 1126-1135 of [self_test] check the library [re] only and are not
    modelled, nor is the [print] of line 1229. *)
From Coq Require Import ZArith NArith List Bool String.
From Verif Require Import Py PyDict NmdSpec IndexModel TrieSpec TrieModel TrieSliceModel Props_Trie Ex.
From Verif Require Import RegexSpec RegexModel.
Import ListNotations.
Open Scope string_scope.
Open Scope list_scope.
Open Scope N_scope.

(** [assert b] *)
Definition assert_ (b : bool) : result unit := if b then Ok tt else Err AssertionError.
Definition same_strs (a b : list str) : bool := if list_eq_dec (list_eq_dec N.eq_dec) a b then true else false.
Definition mem (l : list str) (s : str) : bool := if in_dec (list_eq_dec N.eq_dec) s l then true else false.

(** [' '.join(l)] *)
Fixpoint spaced_join (l : list str) : str :=
  match l with [] => [] | [s] => s | s :: l' => s ++ 32 :: spaced_join l' end.

(** tests/test_find_replace_trie.py:48-54 and
    experiments/find_replace_trie.py:1150-1154 *)
Definition letters : str := w_ "abcde".
Definition letter_permutations : list str :=
  flat_map (fun a => flat_map (fun b => flat_map (fun c => map (fun d => [a; b; c; d]) letters) letters) letters) letters.

(** tests/test_find_replace_trie.py:57-60 and
    experiments/find_replace_trie.py:1157-1160 *)
Definition punctuation : str := w_ "`~!@#$%^&*()-=_+[]{}\|;':" ++ [34] ++ w_ ",./<>?" ++ [0].
Definition punctuation_permutations : list str :=
  flat_map (fun a => flat_map (fun b => map (fun c => [a; b; c]) punctuation) punctuation) punctuation.

Definition permutations : list str := letter_permutations ++ punctuation_permutations.

Section Tests.
(** [\s], [\w] and [str.lower] of one character *)
Variables is_space is_word : N -> bool.
Variable lower : N -> str.

(** [Trie.fromkeys(keys)] *)
Definition trie_of (keys : list str) : trie str str := fromkeys lower keys true.

(** [re.compile(p).findall(text)] for an expression that has no groups that
    capture and does not match the empty string; [re.error] is an Exception.
    RegexSpec.compile knows the syntax that [to_regex] produces. *)
Definition re_findall (p text : str) : result (list str) :=
  match compile is_space p with
  | Some r => Ok (map snd (RegexSpec.finditer is_word r text))
  | None => Err Exception
  end.

(** tests/test_find_replace_trie.py:76-78: [assert item in chosen],
    [chosen.remove(item)] *)
Definition cross_off (chosen : list str) (item : str) : result (list str) :=
  if mem chosen item then Ok (List.remove (list_eq_dec N.eq_dec) item chosen) else Err AssertionError.

Definition fuzz_options : options :=
  {| fuzzy_quotes := false; fuzzy_spaces := true; fffd_any := true; simplify := true; boundary := false |}.

(** tests/test_find_replace_trie.py:64-81 and
    experiments/find_replace_trie.py:1164-1173, the body of the loop: [choices]
    are the results of [random.choice], [o] is the order in which the set
    [chosen] is iterated. *)
Definition fuzz_round (permutations choices : list str) (o : order) : result unit :=
  let chosen := nodup (list_eq_dec N.eq_dec) choices in
  let t := trie_of (o_str o chosen) in
  n <- trie_len join t ;;
  _ <- assert_ (n =? zlen chosen)%Z ;;
  p <- to_regex is_space is_word (char_tokenizer lower false) t fuzz_options ;;
  found <- re_findall p (spaced_join permutations) ;;
  chosen <- foldM cross_off found chosen ;;
  assert_ (List.length chosen =? 0)%nat.

(** tests/test_find_replace_trie.py:63: the loop *)
Definition fuzz_test (permutations : list str) (rounds : list (list str * order)) : result unit :=
  foldM (fun _ r => fuzz_round permutations (fst r) (snd r)) rounds tt.

(** ** The tests without random numbers *)

Definition pair (k v : string) : str * str := (w_ k, w_ v).
Definition translates (t : trie str str) (text out : str) : result unit :=
  s <- translate chars join chars t text ;; assert_ (eqs s out).
Definition finds (t : trie str str) (text : string) (overlapping : bool) (out : list string) : result unit :=
  l <- findall chars join t (w_ text) overlapping ;; assert_ (same_strs l (map w_ out)).
Definition has_length (t : trie str str) (n : Z) : result unit :=
  z <- trie_len join t ;; assert_ (z =? n)%Z.
Definition repeated (c : string) (n : nat) : str := List.concat (repeat (w_ c) n).

(** tests/test_find_replace_trie.py:31-44, [test_trie_update_with_tuples];
    experiments/find_replace_trie.py:1138-1145 *)
Definition test_tuples : result unit :=
  _ <- has_length new_trie 0 ;;
  let t := update chars new_trie [pair "asd" "111"; pair "hjk" "222"; pair "dfgh" "3333"; pair "ghjkl;" "44444"; pair "jkl" "!"] in
  _ <- has_length t 5 ;;
  _ <- translates t (w_ "erasdfghjkll") (w_ "er111fg222ll") ;;
  _ <- translates t (w_ "erasdfghjkl;jkl;") (w_ "er111f44444!;") ;;
  _ <- translates t (w_ "erassdfghjkl;jkl;") (w_ "erass3333!;!;") ;;
  translates t (w_ "ersdfghjkll") (w_ "ers3333!l").

(** tests/test_find_replace_trie.py:83-87, [test_trie_update_with_dict];
    experiments/find_replace_trie.py:1176-1178 *)
Definition test_dict : result unit :=
  translates (update chars new_trie [pair "a" "b"; pair "b" "c"; pair "c" "d"; pair "d" "a"]) (w_ "acbd") (w_ "bdca").

(** [trie.root[k1][k2]...] *)
Definition below (t : trie str str) (path : string) : result (node str str) :=
  match walk (chars (w_ path)) (root t) with Some n => Ok n | None => Err KeyError end.
Definition delete (t : trie str str) (k : str) : result (trie str str) :=
  let (t, r) := delitem chars join t (Some k) in _ <- r ;; Ok t.

(** tests/test_find_replace_trie.py:89-139, [test_trie_operations];
    experiments/find_replace_trie.py:1181-1221.  The value [4] of line 123 is
    written as the string "4"; it is not looked at. *)
Definition test_operations : result unit :=
  let t := update chars new_trie [pair "aa" "2"; pair "aaa" "3"; (repeated "a" 22, w_ "~"); pair "bbbb" "!"] in
  _ <- has_length t 4 ;;
  _ <- assert_ (negb (contains chars t (repeated "a" 7))) ;;
  let t := setitem chars t (repeated "a" 7) (w_ "7") in
  _ <- has_length t 5 ;;
  _ <- translates t (repeated "a" 12 ++ w_ "b" ++ repeated "a" 28) (w_ "732b~33") ;;
  _ <- translates t (repeated "a" 40) (w_ "~773a") ;;
  _ <- translates t (repeated "a" 45) (w_ "~~a") ;;
  _ <- translates t (repeated "a" 25) (w_ "~3") ;;
  _ <- translates t (repeated "a" 60) (w_ "~~772") ;;
  t <- delete t (w_ "bbbb") ;;
  _ <- assert_ (negb (dmem (w_ "b") (children (root t)))) ;;
  _ <- has_length t 4 ;;
  t <- delete t (repeated "a" 7) ;;
  _ <- has_length t 3 ;;
  _ <- assert_ (contains chars t (w_ "aaa")) ;;
  _ <- assert_ (negb (contains chars t (repeated "a" 7))) ;;
  _ <- assert_ (contains chars t (repeated "a" 22)) ;;
  let t := setitem chars t (w_ "aaaa") (w_ "4") in
  _ <- has_length t 4 ;;
  t <- delete t (repeated "a" 22) ;;
  _ <- has_length t 3 ;;
  _ <- assert_ (contains chars t (w_ "aaa")) ;;
  _ <- assert_ (negb (contains chars t (repeated "a" 7))) ;;
  _ <- assert_ (negb (contains chars t (repeated "a" 22))) ;;
  n <- below t "aaa" ;;
  _ <- assert_ (List.length (children n) =? 1)%nat ;;
  n <- below t "aaaa" ;;
  _ <- assert_ (List.length (children n) =? 0)%nat ;;
  let (t, r) := delslice chars join str_ltb t (Some (w_ "aaa")) (Some (w_ "bbb")) None in
  _ <- r ;;
  p <- to_regex is_space is_word chars t {| fuzzy_quotes := true; fuzzy_spaces := true; fffd_any := true; simplify := true; boundary := false |} ;;
  _ <- assert_ (eqs p (w_ "(?:aa)")) ;;
  has_length t 1.

(** experiments/find_replace_trie.py:1224-1262 *)
Definition scar : trie str str := trie_of (map w_ ["mad"; "gas"; "scar"; "madagascar"; "scare"; "care"; "car"; "career"; "error"; "err"; "are"]).
Definition together : trie str str :=
  trie_of (map w_ ["to"; "toga"; "get"; "her"; "here"; "there"; "gather"; "together"; "hear"; "the"; "he"; "ear"]).
Definition specials : trie str str :=
  trie_of (map w_ ["|"; "\"; "\|"; "|\"; "["; "()"; "(][)"; "|||"; "***"; "*.*"; "**|"; "\'\'"; "(?:?)"] ++ [[0]]).
Definition span_is (x : match_ (K := str)) (a b : nat) : bool := (match_start x =? a)%nat && (match_end x =? b)%nat.

Definition self_test_end : result unit :=
  _ <- has_length scar 11 ;;
  _ <- finds scar "madagascareerror" false ["madagascar"; "error"] ;;
  _ <- finds scar "madagascareerror" true ["mad"; "gas"; "madagascar"; "scar"; "car"; "scare"; "care"; "are"; "career"; "err"; "error"] ;;
  _ <- has_length together 12 ;;
  _ <- finds together "togethere" false ["together"] ;;
  _ <- finds together "togethere" true ["to"; "get"; "the"; "he"; "together"; "her"; "there"; "here"] ;;
  _ <- finds together "togethear" false ["to"; "get"; "hear"] ;;
  _ <- finds together "togethear" true ["to"; "get"; "the"; "he"; "hear"; "ear"] ;;
  _ <- has_length specials 14 ;;
  p <- to_regex is_space is_word chars specials {| fuzzy_quotes := true; fuzzy_spaces := true; fffd_any := true; simplify := true; boundary := false |} ;;
  l <- re_findall p (w_ "***|\||||") ;;
  _ <- assert_ (same_strs l (map w_ ["***"; "|\"; "|||"; "|"])) ;;
  let t := trie_of [w_ "asdf"] in
  _ <- has_length t 1 ;;
  ms <- TrieModel.finditer chars join t (w_ "asdfasdfqweasdf") false ;;
  match ms with
  | [x; y; z] => assert_ (span_is x 0 4 && span_is y 4 8 && span_is z 11 15)
  | _ => Err AssertionError
  end.

(** tests/test_find_replace_trie.py:141-155, the test that is commented out *)
Definition test_commented_out : result unit :=
  _ <- has_length scar 11 ;;
  _ <- finds scar "madagascareerror" false ["madagascar"; "error"] ;;
  finds scar "madagascareerror" true ["mad"; "gas"; "madagascar"; "scar"; "car"; "scare"; "care"; "car"; "career"; "error"].

End Tests.
