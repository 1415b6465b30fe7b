(** Model of experiments/tokenizer.py.

    A generator is the list of what it yields when run to the end; [unicodedata]
    is a parameter: [is_text] answers [is_text_char] (any function at all), and
    [is_white] answers [str.isspace] for one character, which [str.strip] uses. *)
From Coq Require Import ZArith NArith List Bool.
From Verif Require Import Py NmdSpec IndexModel.
Import ListNotations.
Open Scope nat_scope.

(** experiments/tokenizer.py:16-22; [start_pos] can be None in the code *)
Inductive category := WORD | WHITESPACE | PUNCTUATION.
Record token := Token { text : str; start_pos : option nat; cat : category }.

Definition is_word (t : token) : bool := match cat t with WORD => true | _ => false end.

(** experiments/tokenizer.py:24-75 *)
Definition UNICODE_SPACES : list N := [9; 10; 11; 12; 13; 32; 133; 160; 5760; 8192; 8193; 8194; 8195; 8196; 8197; 8198; 8199; 8200; 8201; 8202; 8232; 8233; 8239; 8287; 12288;
  28; 29; 30; 31; 6158; 8203; 8204; 8205; 8288; 65279; 10240]%N.
(** experiments/tokenizer.py:106-139 *)
Definition CLOSING_PUNCTUATION : list N := [33; 46; 58; 59; 63; 161; 191; 894; 1417; 1748; 8230; 8252; 8253; 8263; 8264; 8265; 12290; 65042; 65044; 65045; 65046; 65106; 65108; 65109; 65110; 65111;
  65281; 65294; 65306; 65307; 65311; 65377]%N.
(** experiments/tokenizer.py:141-145 *)
Definition APOSTROPHES : list N := [39; 8217; 65287]%N.
(** experiments/tokenizer.py:435-440 *)
Definition CLOSERS : list N := [34; 65282; 41; 65289; 62; 65310; 93; 65341; 125; 65373; 8221]%N.

(** [s in chars], for a set of one-character strings *)
Definition str_in (s : str) (chars : list N) : bool := match s with [c] => existsb (N.eqb c) chars | _ => false end.

(** experiments/tokenizer.py:177-178 *)
Definition is_space_char (c : N) : bool := existsb (N.eqb c) UNICODE_SPACES.

(** experiments/tokenizer.py:181-251; [x :: ...] for [yield x] *)
Definition joined (a b c : token) : token := Token (text a ++ text b ++ text c) (start_pos a) WORD.
Definition yield (x : token) (rest : result (list token)) : result (list token) := l <- rest ;; Ok (x :: l).

Fixpoint merge_loop (wait : bool) (_1 _2 _3 : option token) (tokens : list token) : result (list token) :=
  match tokens with
  | [] =>
      match _3 with
      | Some c => match _1, _2 with Some a, Some b => Ok [joined a b c] | _, _ => Err TypeError (* AttributeError *) end
      | None => match _2 with
                | Some b => match _1 with Some a => Ok [a; b] | None => Err TypeError (* would yield None *) end
                | None => match _1 with Some a => Ok [a] | None => Ok [] end
                end
      end
  | t :: ts =>
      if wait then yield t (merge_loop (is_word t || str_in (text t) APOSTROPHES) _1 _2 _3 ts)
      else match _1 with
      | None => if is_word t then merge_loop wait (Some t) _2 _3 ts else yield t (merge_loop (str_in (text t) APOSTROPHES) _1 _2 _3 ts)
      | Some a =>
          match _2 with
          | None =>
              _ <- guard (is_word t) AssertionError ;;
              if str_in (text t) APOSTROPHES then merge_loop wait _1 (Some t) _3 ts
              else yield a (yield t (merge_loop wait None _2 _3 ts))
          | Some b =>
              match _3 with
              | None =>
                  if is_word t then merge_loop wait _1 _2 (Some t) ts
                  else yield a (yield b (yield t (merge_loop (str_in (text t) APOSTROPHES) None None _3 ts)))
              | Some c =>
                  _ <- guard (is_word t) AssertionError ;;
                  if negb (str_in (text t) APOSTROPHES) then yield (joined a b c) (yield t (merge_loop wait None None None ts))
                  else yield a (yield b (yield c (yield t (merge_loop true None None None ts))))
              end
          end
      end
  end.
Definition merge_apostrophes_into_words (tokens : list token) : result (list token) := merge_loop false None None None tokens.

Definition start_tokens : nat * str * option nat * list token := (0, [], None, []).
Definition start_strings : str * list str := ([], []).

Section Tok.
Variable is_text : N -> bool.

(** experiments/tokenizer.py:254-273 *)
Definition all_strings_step (st : str * list str) (c : N) : str * list str :=
  let (word_buffer, out) := st in
  if is_text c then (word_buffer ++ [c], out)
  else (([], (match word_buffer with [] => out | _ => out ++ [word_buffer] end) ++ [[c]])).
Definition unicode_tokenize_all_strings (s : str) : list str :=
  let (word_buffer, out) := fold_left all_strings_step s start_strings in
  match word_buffer with [] => out | _ => out ++ [word_buffer] end.

(** experiments/tokenizer.py:276-308; [idx] is the first component of the state *)
Definition flush (word_buffer : str) (start_idx : option nat) (out : list token) : list token :=
  match word_buffer with [] => out | _ => out ++ [Token word_buffer start_idx WORD] end.
Definition all_tokens_step (st : nat * str * option nat * list token) (c : N) : nat * str * option nat * list token :=
  let '(idx, word_buffer, start_idx, out) := st in
  if is_text c then
    match word_buffer with
    | [] => (S idx, [c], Some idx, out)
    | _ => (S idx, word_buffer ++ [c], start_idx, out)
    end
  else if is_space_char c then (S idx, [], start_idx, flush word_buffer start_idx out ++ [Token [c] (Some idx) WHITESPACE])
  else (S idx, [], start_idx, flush word_buffer start_idx out ++ [Token [c] (Some idx) PUNCTUATION]).
Definition unicode_tokenize_all_tokens (s : str) : list token :=
  let '(_, word_buffer, start_idx, out) := fold_left all_tokens_step s start_tokens in flush word_buffer start_idx out.

(** experiments/tokenizer.py:311-325 *)
Definition word_strings_step (st : str * list str) (c : N) : str * list str :=
  let (word_buffer, out) := st in
  if is_text c then (word_buffer ++ [c], out)
  else match word_buffer with [] => (word_buffer, out) | _ => ([], out ++ [word_buffer]) end.
Definition unicode_tokenize_word_strings (s : str) : list str :=
  let (word_buffer, out) := fold_left word_strings_step s start_strings in
  match word_buffer with [] => out | _ => out ++ [word_buffer] end.

(** experiments/tokenizer.py:328-347 *)
Definition word_tokens_step (st : nat * str * option nat * list token) (c : N) : nat * str * option nat * list token :=
  let '(idx, word_buffer, start_idx, out) := st in
  if is_text c then
    match word_buffer with
    | [] => (S idx, [c], Some idx, out)
    | _ => (S idx, word_buffer ++ [c], start_idx, out)
    end
  else match word_buffer with [] => (S idx, word_buffer, start_idx, out) | _ => (S idx, [], start_idx, out ++ [Token word_buffer start_idx WORD]) end.
Definition unicode_tokenize_word_tokens (s : str) : list token :=
  let '(_, word_buffer, start_idx, out) := fold_left word_tokens_step s start_tokens in flush word_buffer start_idx out.

(** experiments/tokenizer.py:350-395, with [as_tokens] and without it *)
Definition unicode_tokenize_tokens (s : str) (words_only merge_apostrophe_word : bool) : result (list token) :=
  if negb merge_apostrophe_word then Ok (if words_only then unicode_tokenize_word_tokens s else unicode_tokenize_all_tokens s)
  else l <- merge_apostrophes_into_words (unicode_tokenize_all_tokens s) ;; Ok (if words_only then filter is_word l else l).
Definition unicode_tokenize_strings (s : str) (words_only merge_apostrophe_word : bool) : result (list str) :=
  if negb merge_apostrophe_word then Ok (if words_only then unicode_tokenize_word_strings s else unicode_tokenize_all_strings s)
  else l <- merge_apostrophes_into_words (unicode_tokenize_all_tokens s) ;; Ok (map text (if words_only then filter is_word l else l)).

(** [str.strip()] *)
Variable is_white : N -> bool.
Fixpoint lstrip (s : str) : str := match s with [] => [] | c :: s' => if is_white c then lstrip s' else s end.
Definition strip (s : str) : str := rev (lstrip (rev (lstrip s))).

(** [s.split(sep)] for a non-empty [sep]: [acc] is the piece so far *)
Fixpoint starts_with (sep s : str) : option str :=
  match sep, s with
  | [], _ => Some s
  | a :: sep', b :: s' => if (a =? b)%N then starts_with sep' s' else None
  | _, [] => None
  end.
Fixpoint split_loop (sep : str) (fuel : nat) (acc s : str) : list str :=
  match fuel with
  | O => [acc]
  | S fuel' =>
      match starts_with sep s with
      | Some rest => acc :: split_loop sep fuel' [] rest
      | None => match s with [] => [acc] | c :: s' => split_loop sep fuel' (acc ++ [c]) s' end
      end
  end.
Definition py_split (s sep : str) : list str := split_loop sep (S (length s)) [] s.

(** The argument [split_newline]: True, a string or False. *)
Inductive splitting := Newlines | Separator (sep : str) | Whole.

(** experiments/tokenizer.py:412-418; the empty string is false *)
Definition paragraphs (s : str) (split_newline : splitting) : list str :=
  match split_newline with
  | Newlines => map strip (py_split s [10%N])
  | Separator ((_ :: _) as sep) => map strip (py_split s sep)
  | _ => [strip s]
  end.

(** experiments/tokenizer.py:421-444 *)
Definition sentence_step (st : list token * bool * list (list token)) (t : token) : list token * bool * list (list token) :=
  let '(buffer, closed, out) := st in
  let buffer := buffer ++ [t] in
  if closed && (match cat t with WHITESPACE => true | _ => false end) then ([], false, match buffer with [] => out | _ => out ++ [buffer] end)
  else (buffer, if negb (str_in (text t) CLOSERS) then str_in (text t) CLOSING_PUNCTUATION else closed, out).
Definition sentences_of (tokens : list token) : list (list token) :=
  let '(buffer, _, out) := fold_left sentence_step tokens ([], false, []) in match buffer with [] => out | _ => out ++ [buffer] end.

(** experiments/tokenizer.py:398-444 *)
Definition sentence_split_tokens (s : str) (split_newline : splitting) (merge_apostrophe_word : bool) : result (list (list token)) :=
  l <- mapM (fun para => tokens <- unicode_tokenize_tokens para false merge_apostrophe_word ;; Ok (sentences_of tokens)) (paragraphs s split_newline) ;; Ok (concat l).

(** experiments/tokenizer.py:447-466 *)
Definition sentence_split (s : str) (split_newline : splitting) (merge_apostrophe_word : bool) : result (list str) :=
  l <- sentence_split_tokens s split_newline merge_apostrophe_word ;;
  Ok (filter (fun sentence => match sentence with [] => false | _ => true end) (map (fun ts => strip (concat (map text ts))) l)).

(** [l[i:]], and [zip( *lists)] until the first list ends *)
Fixpoint heads {A} (ls : list (list A)) : option (list A * list (list A)) :=
  match ls with
  | [] => Some ([], [])
  | [] :: _ => None
  | (x :: l) :: ls' => match heads ls' with Some (xs, rest) => Some (x :: xs, l :: rest) | None => None end
  end.
Fixpoint zip_loop {A} (fuel : nat) (ls : list (list A)) : list (list A) :=
  match fuel with
  | O => []
  | S fuel' => match heads ls with Some (xs, rest) => xs :: zip_loop fuel' rest | None => [] end
  end.
Definition zip_star {A} (ls : list (list A)) : list (list A) := match ls with [] => [] | l :: _ => zip_loop (S (length l)) ls end.

(** experiments/tokenizer.py:477-505; the sentences are split at newlines (the default) *)
Definition n_grams_of {A} (n : nat) (words : list A) : list (list A) := zip_star (map (fun i => skipn i words) (seq 0 n)).
Definition word_n_grams (s : str) (n : Z) (split_sentences merge_apostrophe_word : bool) : result (list (list str)) :=
  _ <- guard (negb (n >=? 2)%Z) AssertionError ;;
  if split_sentences then
    l <- sentence_split_tokens s Newlines merge_apostrophe_word ;;
    Ok (flat_map (fun ts => n_grams_of (Z.to_nat n) (map text (filter is_word ts))) l)
  else
    words <- unicode_tokenize_strings s true merge_apostrophe_word ;;
    Ok (n_grams_of (Z.to_nat n) words).
End Tok.

(** A slice [s[i:j]] with [0 <= i]: a negative [j] counts from the end *)
Definition slice_from (s : str) (i j : Z) : str :=
  let j := (if j <? 0 then Z.max 0 (j + zlen s) else j)%Z in py_slice s (Z.to_nat i) (Z.to_nat j).

(** experiments/tokenizer.py:469-474 *)
Definition text_n_grams (s : str) (n : Z) : list str := map (fun i => slice_from s i (i + n)%Z) (py_range 0 (zlen s - n + 1)).
