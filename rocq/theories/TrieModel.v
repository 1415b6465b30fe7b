(** Model of experiments/find_replace_trie.py, class [Trie].

    [T] is the type of tokens (hashable objects), [V] the type of stored values
    and [K] the type of keys and texts.  The tokenizer and the detokenizer are
    total functions [K -> list T] and [list T -> K]. *)
From Coq Require Import ZArith NArith QArith Qcanon List Bool.
From Verif Require Import Num Py PyDict.
Import ListNotations.

Section Node.
Context {T V : Type} `{EqDec T}.

(** experiments/find_replace_trie.py:154-160, [class Node(dict)]: the dict of
    children in insertion order, and REPLACEMENT ([None] is [_NOTHING]). *)
Inductive node := Node (value : option V) (children : list (T * node)).

Definition value (n : node) : option V := let (v, _) := n in v.
Definition children (n : node) : list (T * node) := let (_, c) := n in c.
Definition new_node : node := Node None [].

(** experiments/find_replace_trie.py:202-203; [length] is the attribute. *)
Record trie := { root : node; length : Z }.
Definition new_trie : trie := {| root := new_node; length := 0 |}.

(** experiments/find_replace_trie.py:283-287, 306-310: [head = head[token]] for
    each token. *)
Fixpoint walk (tokens : list T) (head : node) : option node :=
  match tokens with
  | [] => Some head
  | token :: tokens' =>
      match dget token (children head) with
      | None => None
      | Some next => walk tokens' next
      end
  end.

(** experiments/find_replace_trie.py:332-337: [head.setdefault(token, Node())]
    for each token, then [head.REPLACEMENT = value]. *)
Fixpoint put (tokens : list T) (v : V) (head : node) : node :=
  match tokens with
  | [] => Node (Some v) (children head)
  | token :: tokens' =>
      let next := match dget token (children head) with Some next => next | None => new_node end in
      Node (value head) (dset token (put tokens' v next) (children head))
  end.

(** experiments/find_replace_trie.py:352-376: from the leaf upwards.  Returns
    the changed node and whether the loop over the breadcrumbs is still
    running when it gets to this node's parent. *)
Fixpoint remove (tokens : list T) (head : node) : node * bool :=
  match tokens with
  | [] => (Node None (children head), true)
  | token :: tokens' =>
      match dget token (children head) with
      | None => (head, false) (* not reached: the path was traced before *)
      | Some next =>
          let (next', running) := remove tokens' next in
          if running && (match children next' with [] => true | _ => false end)
          then (Node (value head) (ddel token (children head)),
                match value head with None => true | Some _ => false end)
          else (Node (value head) (dset token next' (children head)), false)
      end
  end.

(** Number of nodes, used to bound loops. *)
Fixpoint size (n : node) : nat :=
  match n with Node _ cs => S ((fix go l := match l with [] => 0%nat | (_, c) :: l' => (size c + go l')%nat end) cs) end.

(** experiments/find_replace_trie.py:391-408, the loop.  The list [keys] of a
    stack entry is kept in reverse, so that [pop(-1)] takes its head; the
    stack likewise.  The loop is run with enough fuel. *)
Fixpoint items_loop (fuel : nat) (path : list T) (stack : list (node * list T)) (out : list (list T * V)) : result (list (list T * V)) :=
  match fuel with
  | O => Err RuntimeError
  | S fuel' =>
      match stack with
      | [] => Ok out
      | (head, key :: keys) :: stack' =>
          match dget key (children head) with
          | None => Err KeyError
          | Some next =>
              items_loop fuel' (path ++ [key]) ((next, rev (dkeys (children next))) :: (head, keys) :: stack')
                (match value next with Some v => out ++ [(path ++ [key], v)] | None => out end)
          end
      | (head, []) :: stack' =>
          match path with
          | _ :: _ => items_loop fuel' (removelast path) stack' out
          | [] => match stack' with [] => Ok out | _ => Err AssertionError end
          end
      end
  end.

Definition items_tokens (t : trie) : result (list (list T * V)) :=
  items_loop (S (2 * size (root t))) [] [(root t, rev (dkeys (children (root t))))] [].

(** experiments/find_replace_trie.py:272-280: every node gets its children
    re-inserted in the order of [sorted(..., reverse=ascending, key=compare)].
    [leb] is the comparison of [compare(token)]; nodes are independent of each
    other, so the stack is replaced by recursion. *)
Definition sorted_keys (leb : T -> T -> bool) (ascending : bool) (l : list (T * node)) : list (T * node) :=
  isort (fun a b => if ascending then leb (fst b) (fst a) else leb (fst a) (fst b)) l.

Fixpoint sort_node (leb : T -> T -> bool) (ascending : bool) (n : node) : node :=
  match n with
  | Node v cs => Node v (sorted_keys leb ascending (map (fun tc => (fst tc, sort_node leb ascending (snd tc))) cs))
  end.

Definition sort_keys (leb : T -> T -> bool) (ascending : bool) (t : trie) : trie :=
  {| root := sort_node leb ascending (root t); length := length t |}.

End Node.

Arguments node : clear implicits.
Arguments trie : clear implicits.

Section Trie.
Context {T V K : Type} `{EqDec T}.
Variable tokenizer : K -> list T.
Variable detokenizer : list T -> K.

(** experiments/find_replace_trie.py:282-288 *)
Definition contains (t : trie T V) (key : K) : bool :=
  match walk (tokenizer key) (root t) with
  | None => false
  | Some head => match value head with None => false | Some _ => true end
  end.

(** experiments/find_replace_trie.py:303-313, for a key that is not a slice *)
Definition getitem (t : trie T V) (key : K) : result V :=
  match walk (tokenizer key) (root t) with
  | None => Err KeyError
  | Some head => match value head with None => Err KeyError | Some v => Ok v end
  end.

(** experiments/find_replace_trie.py:315-319 *)
Definition get (t : trie T V) (key : K) (default : V) : result V :=
  match getitem t key with Err KeyError => Ok default | r => r end.

(** experiments/find_replace_trie.py:331-338 *)
Definition setitem (t : trie T V) (key : K) (v : V) : trie T V :=
  {| root := put (tokenizer key) v (root t);
     length := match walk (tokenizer key) (root t) with
               | Some head => match value head with None => length t + 1 | Some _ => length t end
               | None => length t + 1 end |}.

(** experiments/find_replace_trie.py:321-329: when the key has a value its
    path exists, and nothing is created. *)
Definition setdefault (t : trie T V) (key : K) (v : V) : trie T V * V :=
  match getitem t key with
  | Ok v' => (t, v')
  | Err _ => ({| root := put (tokenizer key) v (root t); length := length t + 1 |}, v)
  end.

(** experiments/find_replace_trie.py:391-408 *)
Definition items (t : trie T V) : result (list (K * V)) :=
  l <- items_tokens t ;; Ok (map (fun kv => (detokenizer (fst kv), snd kv)) l).

(** experiments/find_replace_trie.py:340-380; [key = None] pops the first item *)
Definition pop (t : trie T V) (key : option K) : trie T V * result (K * V) :=
  match children (root t) with
  | [] => (t, Err KeyError)
  | _ =>
      match (match key with
             | Some k => Ok k
             | None => l <- items t ;; match l with [] => Err StopIteration | (k, _) :: _ => Ok k end
             end) with
      | Err e => (t, Err e)
      | Ok k =>
          match walk (tokenizer k) (root t) with
          | None => (t, Err KeyError)
          | Some head =>
              match value head with
              | None => (t, Err KeyError)
              | Some v => ({| root := fst (remove (tokenizer k) (root t)); length := length t - 1 |}, Ok (k, v))
              end
          end
      end
  end.

(** experiments/find_replace_trie.py:382-389, for a key that is not a slice *)
Definition delitem (t : trie T V) (key : option K) : trie T V * result unit :=
  match key with
  | None => (t, Err KeyError)
  | Some k => let (t', r) := pop t (Some k) in (t', _ <- r ;; Ok tt)
  end.

(** experiments/find_replace_trie.py:290-292 *)
Definition trie_len (t : trie T V) : result Z :=
  l <- items t ;; if (length t =? zlen l)%Z then Ok (length t) else Err AssertionError.

(** experiments/find_replace_trie.py:588-605 (and 231-232), without printing *)
Definition update (t : trie T V) (replacements : list (K * V)) : trie T V :=
  fold_left (fun t kv => setitem t (fst kv) (snd kv)) replacements t.

(** experiments/find_replace_trie.py:294-301 with [step=None]; [ltb_key a b] is
    [a < b] for keys. *)
Definition item_slice (ltb_key : K -> K -> bool) (t : trie T V) (start stop : K) : result (list (K * V)) :=
  l <- items t ;;
  Ok ((fix go l out := match l with
    | [] => out
    | (k, v) :: l' => if negb (ltb_key k stop) then out
                      else if negb (ltb_key k start) then go l' (out ++ [(k, v)]) else go l' out
    end) l []).

(** experiments/find_replace_trie.py:304-305, [trie[start:stop]] *)
Definition getslice (ltb_key : K -> K -> bool) (t : trie T V) (start stop : K) : result (list V) :=
  l <- item_slice ltb_key t start stop ;; Ok (map snd l).

(** ** Scanning *)

(** [min(d) if d else default] for a dict with integer keys *)
Definition min_key {A} (d : list (nat * A)) (default : nat) : nat :=
  match dkeys d with [] => default | k :: ks => fold_left Nat.min ks k end.

(** [while output_buffer and output_buffer[0][0] < pos: output_buffer.popleft()];
    the tokens taken off and the rest *)
Fixpoint take_before (pos : nat) (buffer : list (nat * T)) : list T * list (nat * T) :=
  match buffer with
  | [] => ([], [])
  | (i, token) :: buffer' =>
      if (i <? pos)%nat then let (ts, rest) := take_before pos buffer' in (token :: ts, rest) else ([], buffer)
  end.

(** [del d[k]] for every [k] of a set that is in [d] *)
Definition remove_keys {A} (ks : list nat) (d : list (nat * A)) : list (nat * A) := fold_left (fun d k => ddel k d) ks d.

(** [range(span_start + 1, index + 1)] *)
Definition inside (span_start index : nat) : list nat := seq (S span_start) (index - span_start).

Section Translate.
(** [self.tokenizer(match_replacement)] *)
Variable value_tokens : V -> list T.

(** experiments/find_replace_trie.py:818-833, one pass of the loop over spans;
    the sets are lists *)
Definition span_step (index : nat) (item : T)
  (st : list (nat * node T V) * list (nat * (nat * V)) * list nat * list nat) (span : nat * node T V) :=
  let '(spans, matches, matches_to_remove, spans_to_remove) := st in
  let (span_start, span_head) := span in
  match dget item (children span_head) with
  | Some new_head =>
      let spans' := dset span_start new_head spans in
      match value new_head with
      | Some v => (spans', dset span_start (S index, v) matches,
                   matches_to_remove ++ inside span_start index, spans_to_remove ++ inside span_start index)
      | None => (spans', matches, matches_to_remove, spans_to_remove)
      end
  | None => (spans, matches, matches_to_remove, spans_to_remove ++ [span_start])
  end.

(** experiments/find_replace_trie.py:848-862 *)
Fixpoint emit_matches (fuel first_span index : nat) (buffer : list (nat * T)) (matches : list (nat * (nat * V))) (out : list T)
  : result (list (nat * T) * list (nat * (nat * V)) * list T) :=
  match fuel with
  | O => Err RuntimeError
  | S fuel' =>
      let first_match := min_key matches index in
      if (first_match <? first_span)%nat then
        match dget first_match matches with
        | None => Err KeyError
        | Some (match_end, replacement) =>
            let (before, buffer1) := take_before first_match buffer in
            let (_, buffer2) := take_before match_end buffer1 in
            emit_matches fuel' first_span index buffer2 (ddel first_match matches) (out ++ before ++ value_tokens replacement)
        end
      else Ok (buffer, matches, out)
  end.

(** experiments/find_replace_trie.py:806-866, the body of the loop over tokens *)
Definition translate_step (head : node T V)
  (st : list (nat * T) * list (nat * (nat * V)) * list (nat * node T V) * list T) (index_item : nat * T) :=
  let '(buffer, matches, spans, out) := st in
  let (index, item) := index_item in
  let buffer := buffer ++ [(index, item)] in
  let spans := dset index head spans in
  let '(spans, matches, matches_to_remove, spans_to_remove) := fold_left (span_step index item) spans (spans, matches, [], []) in
  let matches := remove_keys matches_to_remove matches in
  let spans := remove_keys spans_to_remove spans in
  let first_span := min_key spans index in
  r <- emit_matches (S (List.length matches)) first_span index buffer matches out ;;
  let '(buffer, matches, out) := r in
  let (before, buffer) := take_before first_span buffer in
  Ok (buffer, matches, spans, out ++ before).

(** experiments/find_replace_trie.py:868-880 *)
Fixpoint translate_end (matches : list (nat * (nat * V))) (buffer : list (nat * T)) (out : list T) : list T :=
  match matches with
  | [] => out ++ map snd buffer
  | (match_start, (match_end, replacement)) :: matches' =>
      let (before, buffer1) := take_before match_start buffer in
      let (_, buffer2) := take_before match_end buffer1 in
      translate_end matches' buffer2 (out ++ before ++ value_tokens replacement)
  end.

(** experiments/find_replace_trie.py:793-880; [sorted(matches.items())] is by
    the start, the keys being different *)
Definition translate_tokens (t : trie T V) (tokens : list T) : result (list T) :=
  r <- foldM (translate_step (root t)) (combine (seq 0 (List.length tokens)) tokens) ([], [], [], []) ;;
  let '(buffer, matches, spans, out) := r in
  Ok (translate_end (isort (fun a b => (fst a <=? fst b)%nat) matches) buffer out).

(** experiments/find_replace_trie.py:1044-1050 *)
Definition translate (t : trie T V) (text : K) : result K :=
  l <- translate_tokens t (tokenizer text) ;; Ok (detokenizer l).
End Translate.

(** experiments/find_replace_trie.py:31-71, [Match]: start, end, matched text *)
Definition match_ : Type := nat * nat * K.

(** experiments/find_replace_trie.py:906-923 *)
Definition find_step (allow_overlapping : bool) (index : nat) (item : T)
  (st : list (nat * (node T V * list T)) * list (nat * (nat * list T)) * list nat * list nat) (span : nat * (node T V * list T)) :=
  let '(spans, matches, matches_to_remove, spans_to_remove) := st in
  let '(span_start, (span_head, span_seq)) := span in
  match dget item (children span_head) with
  | Some new_head =>
      let span_seq := span_seq ++ [item] in
      let spans' := dset span_start (new_head, span_seq) spans in
      match value new_head with
      | Some _ => (spans', dset span_start (S index, span_seq) matches,
                   (if allow_overlapping then matches_to_remove else matches_to_remove ++ inside span_start index), spans_to_remove)
      | None => (spans', matches, matches_to_remove, spans_to_remove)
      end
  | None => (spans, matches, matches_to_remove, spans_to_remove ++ [span_start])
  end.

(** experiments/find_replace_trie.py:934-941 *)
Fixpoint yield_matches (fuel : nat) (allow_overlapping : bool) (first_span : nat) (matches : list (nat * (nat * list T)))
  (out : list match_) : result (list (nat * (nat * list T)) * list match_) :=
  match fuel with
  | O => Err RuntimeError
  | S fuel' =>
      match matches with
      | [] => Ok (matches, out)
      | _ =>
          let match_start := min_key matches 0 in
          if (match_start <? first_span)%nat || allow_overlapping then
            match dget match_start matches with
            | None => Err KeyError
            | Some (match_end, match_sequence) =>
                yield_matches fuel' allow_overlapping first_span (ddel match_start matches)
                  (out ++ [(match_start, match_end, detokenizer match_sequence)])
            end
          else Ok (matches, out)
      end
  end.

(** experiments/find_replace_trie.py:898-941 *)
Definition finditer_step (allow_overlapping : bool) (head : node T V)
  (st : list (nat * (nat * list T)) * list (nat * (node T V * list T)) * list match_) (index_item : nat * T) :=
  let '(matches, spans, out) := st in
  let (index, item) := index_item in
  let spans := dset index (head, []) spans in
  let '(spans, matches, matches_to_remove, spans_to_remove) := fold_left (find_step allow_overlapping index item) spans (spans, matches, [], []) in
  let matches := remove_keys matches_to_remove matches in
  let spans := remove_keys matches_to_remove spans in
  let spans := remove_keys spans_to_remove spans in
  let first_span := min_key spans index in
  r <- yield_matches (S (List.length matches)) allow_overlapping first_span matches out ;;
  let '(matches, out) := r in
  Ok (matches, spans, out).

(** experiments/find_replace_trie.py:882-945; all the matches the generator
    yields *)
Definition finditer (t : trie T V) (input : K) (allow_overlapping : bool) : result (list match_) :=
  let tokens := tokenizer input in
  r <- foldM (finditer_step allow_overlapping (root t)) (combine (seq 0 (List.length tokens)) tokens) ([], [], []) ;;
  let '(matches, spans, out) := r in
  Ok (out ++ map (fun m => (fst m, fst (snd m), detokenizer (snd (snd m)))) (isort (fun a b => (fst a <=? fst b)%nat) matches)).

(** experiments/find_replace_trie.py:947-959 *)
Definition search (t : trie T V) (input : K) (allow_overlapping : bool) : result (option match_) :=
  l <- finditer t input allow_overlapping ;; Ok (hd_error l).

(** experiments/find_replace_trie.py:961-966 *)
Definition findall (t : trie T V) (input : K) (allow_overlapping : bool) : result (list K) :=
  l <- finditer t input allow_overlapping ;; Ok (map snd l).

(** experiments/find_replace_trie.py:80-81, [Match.__len__], [start], [end] *)
Definition match_start (x : match_) : nat := fst (fst x).
Definition match_end (x : match_) : nat := snd (fst x).
Definition match_len (x : match_) : nat := (match_end x - match_start x)%nat.

(** experiments/find_replace_trie.py:992-1001: the best way to reach this end;
    [best_value] is (total, -start) with (0, -end) at first, kept here as
    (total, start).  [bisect.bisect_right] on an ascending list counts the
    elements that are at most the argument. *)
Definition best_step (ends : list nat) (values : list (nat * list match_)) (st : (nat * nat) * option (list match_)) (m : match_) : result ((nat * nat) * option (list match_)) :=
  let '(best_total, best_start, best_match) := st in
  v <- py_get values (Z.of_nat (List.length (filter (fun e => (e <=? match_start m)%nat) ends)) - 1) ;;
  let (prev_value, prev_match) := v in
  let new_total := (prev_value + match_len m)%nat in
  if (best_total <? new_total)%nat || ((best_total =? new_total)%nat && (match_start m <? best_start)%nat)
  then Ok ((new_total, match_start m), Some (m :: prev_match))
  else Ok st.

(** experiments/find_replace_trie.py:986-989: the matches with this end, at the
    front *)
Fixpoint take_end (end_ : nat) (l : list match_) : list match_ :=
  match l with [] => [] | m :: l' => if (match_end m =? end_)%nat then m :: take_end end_ l' else [] end.

(** experiments/find_replace_trie.py:981-1010, the loop; [matches] is in the
    order in which they are popped; a chain of nested tuples is the list of its
    matches, the last one first *)
Fixpoint longest_loop (fuel : nat) (matches : list match_) (ends : list nat) (values : list (nat * list match_)) : result (list nat * list (nat * list match_)) :=
  match fuel with
  | O => Err RuntimeError
  | S fuel' =>
      match matches with
      | [] => Ok (ends, values)
      | m0 :: _ =>
          let end_ := match_end m0 in
          if negb (last ends 0 <? end_)%nat then Err AssertionError else
          let group := take_end end_ matches in
          r <- foldM (best_step ends values) group ((0, end_)%nat, None) ;;
          let '(best_total, _, best_match) := r in
          match best_match with
          | None => Err AssertionError
          | Some best_match =>
              let (prev_value, _) := last values (0%nat, []) in
              let matches' := skipn (List.length group) matches in
              if (prev_value <? best_total)%nat
              then longest_loop fuel' matches' (ends ++ [end_]) (values ++ [(best_total, best_match)])
              else longest_loop fuel' matches' ends values
          end
      end
  end.

(** [sorted(matches, reverse=True, key=lambda m: (m.end(), m.start()))], to be
    popped from its end *)
Definition by_end_start (a b : match_) : bool :=
  (match_end a <? match_end b)%nat || ((match_end a =? match_end b)%nat && (match_start a <=? match_start b)%nat).
Definition by_start_end (a b : match_) : bool :=
  (match_start a <? match_start b)%nat || ((match_start a =? match_start b)%nat && (match_end a <=? match_end b)%nat).

(** experiments/find_replace_trie.py:972-1019, [longest_increasing_subsequence] *)
Definition longest_increasing_subsequence (matches : list match_) : result (list match_) :=
  match matches with
  | [] => Ok []
  | _ =>
      r <- longest_loop (S (List.length matches)) (rev (isort (fun a b => by_end_start b a) matches)) [0%nat] [(0%nat, [])] ;;
      let (_, values) := r in
      Ok (rev (snd (last values (0%nat, []))))
  end.

(** experiments/find_replace_trie.py:1024-1035 *)
Definition cluster_step (st : list match_ * list match_ * nat) (m : match_) : result (list match_ * list match_ * nat) :=
  let '(out, cluster, cluster_end) := st in
  if (match cluster with [] => true | _ => false end) || (match_start m <? cluster_end)%nat
  then Ok (out, cluster ++ [m], Nat.max cluster_end (match_end m))
  else l <- longest_increasing_subsequence cluster ;; Ok (out ++ l, [m], Nat.max cluster_end (match_end m)).

(** experiments/find_replace_trie.py:968-1042; the matches whose strings are
    returned, and the strings *)
Definition longest_matches (t : trie T V) (input : K) : result (list match_) :=
  l <- finditer t input true ;;
  r <- foldM cluster_step (isort by_start_end l) ([], [], 0%nat) ;;
  let '(out, cluster, _) := r in
  rest <- longest_increasing_subsequence cluster ;;
  Ok (out ++ rest).

Definition findall_longest (t : trie T V) (input : K) : result (list K) :=
  l <- longest_matches t input ;; Ok (map snd l).

End Trie.
