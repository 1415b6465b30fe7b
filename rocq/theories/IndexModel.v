(** Model of nmd/nmd_index.py: [get_n_grams], [num_grams], [mean] and the
    classes [ApproxWordListV5] and [ApproxWordListV6] ([WordList]).

    Conventions.
    - [rnd] rounds the result of each floating-point operation (see Float64).
    - [casefold] stands for [str.casefold]; nothing is assumed here.
    - [mean] stands for [mean(_, dim)] (lines 36-37); [dim] enters nowhere
      else.  [mean1] below is the function for [dim = 1], the default.
    - Iterating over a Python set visits its elements in an unspecified order
      (for strings it changes from process to process): an [order] says which
      one, and every call takes its own.
    - [lru_cache] (lines 15 and 28) is not modelled: both functions are pure
      and no caller mutates the cached lists. *)
From Coq Require Import ZArith NArith QArith Qcanon List Bool Permutation.
From Verif Require Import Num Py PyDict EmdModel NmdSpec NmdModel.
Import ListNotations.
Open Scope Qc_scope.

(** nmd/nmd_index.py:15-25 *)
Definition get_n_grams (word : str) (n : Z) : list str :=
  if (1 <? n)%Z then
    let word := 2%N :: word ++ [3%N] in
    map (fun idx => py_slice word (Z.to_nat idx) (Z.to_nat (idx + n)))
        (py_range 0 (zlen word - n + 1))
  else map (fun c => [c]) word.

(** nmd/nmd_index.py:28-33, with the default [num_flag_chars=2] *)
Definition num_grams (len_word n : Z) : Z :=
  if (1 <? n)%Z then (len_word + 2 + 1 - n)%Z else (len_word + 2)%Z.

(** [sum(l)], a left fold from the int 0 *)
Definition fsum (rnd : Qc -> Qc) (l : list Qc) : Qc := fold_left (fun a x => rnd (a + x)) l 0.

(** nmd/nmd_index.py:36-37 with [dim = 1]: raising to the power 1 changes
    nothing.  Never called on an empty list. *)
Definition mean1 (rnd : Qc -> Qc) (l : list Qc) : Qc := rnd (fsum rnd l / qz (zlen l)).

(** [Counter(l)] *)
Definition counter (l : list str) : dict str Z :=
  fold_left (fun d g => dset g (match dget g d with Some c => c + 1 | None => 1 end)%Z d) l [].

(** [enumerate(l)] *)
Definition enumerate {A} (l : list A) : list (Z * A) := combine (map Z.of_nat (seq 0 (length l))) l.

(** [l[i] += v] *)
Definition list_iadd (add : Qc -> Qc -> Qc) (l : list Qc) (i : Z) (v : Qc) : result (list Qc) :=
  old <- py_get l i ;; py_set l i (add old v).

(** [c.most_common(k)]: [heapq.nlargest(k, c.items(), key=itemgetter(1))],
    documented as [sorted(..., reverse=True)[:k]], which keeps the order of
    equal elements. *)
Definition most_common {V} (leb : V -> V -> bool) (k : Z) (d : dict nat V) : list (nat * V) :=
  firstn (Z.to_nat k) (isort (fun a b => leb (snd b) (snd a)) d).

(** Comparison of tuples of two numbers. *)
Definition pair_leb (a b : Qc * Qc) : bool :=
  qltb (fst a) (fst b) || (qeqb (fst a) (fst b) && qleb (snd a) (snd b)).

(** Comparison of strings by code points. *)
Fixpoint str_leb (a b : str) : bool :=
  match a, b with
  | [], _ => true
  | _ :: _, [] => false
  | x :: a', y :: b' => (x <? y)%N || ((x =? y)%N && str_leb a' b')
  end.

(** The order in which one call iterates over its sets. *)
Record order := { o_str : list str -> list str; o_int : list Z -> list Z }.

Definition fair (o : order) : Prop :=
  (forall l, Permutation (o_str o l) l) /\ (forall l, Permutation (o_int o l) l).

(** The attributes of a word list, nmd/nmd_index.py:423-451 (V6), 196-224 (V5). *)
Record wordlist := {
  n_list : list Z;
  case_insensitive : bool;
  filter_n : Z;
  word_indices : dict str nat;
  word_list : list str;
  word_lens : list Z;
  word_num_grams : list (list Z);
  ngram_filter : dict str (list nat);        (* sets as lists without repetition *)
  ngram_counts : dict str (list (nat * Z));
  ngram_positions : dict str (list (nat * list Qc))
}.

(** Argument [n] of the constructor. *)
Inductive n_arg := NInt (z : Z) | NIter (l : list Z) | NOther.

(** nmd/nmd_index.py:416-451 (V6) and 189-224 (V5), [__init__].
    Simplified: an iterable [n] holds ints only, and [filter_n] is an int. *)
Definition wl_init (n : n_arg) (case_sensitive : pyval) (fn : Z) : result wordlist :=
  nl <- match n with
        | NInt z => if (0 <? z)%Z then Ok [z] else Err AssertionError
        | NIter l => let l := isort Z.leb (nodup eqd l) in
                     if forallb (fun z => 0 <? z)%Z l then Ok l else Err AssertionError
        | NOther => Err TypeError
        end ;;
  match as_int case_sensitive with
  | None => Err TypeError
  | Some c => Ok {| n_list := nl; case_insensitive := (c =? 0)%Z; filter_n := fn;
                    word_indices := []; word_list := []; word_lens := []; word_num_grams := [];
                    ngram_filter := []; ngram_counts := []; ngram_positions := [] |}
  end.

(** nmd/nmd_index.py:453-455, [vocabulary] *)
Definition vocabulary (st : wordlist) : list str := isort str_leb (word_list st).

(** [d.setdefault(k, set()).add(v)] *)
Definition dset_add (k : str) (v : nat) (d : dict str (list nat)) : dict str (list nat) :=
  if in_dec eqd v (dgetl k d) then d else dappend k v d.

Section Model.
Variable rnd : Qc -> Qc.
Variable casefold : str -> str.
Variable mean : list Qc -> Qc.

Definition fold_case (st : wordlist) (w : str) : str := if case_insensitive st then casefold w else w.

(** nmd/nmd_index.py:457-485 (V6) and 230-258 (V5), [_resolve_word_index].
    The new state is returned also when one of the assertions at the end
    fails. *)
Definition resolve_word_index (st : wordlist) (v : pyval) (auto_add : bool) : wordlist * result (option nat) :=
  match v with
  | PStr w =>
      if (zlen w =? 0)%Z then (st, Err ValueError) else
      let w := fold_case st w in
      match dget w (word_indices st) with
      | Some i => (st, Ok (Some i))
      | None =>
          if auto_add then
            let idx := length (word_list st) in
            let st' := {| n_list := n_list st; case_insensitive := case_insensitive st; filter_n := filter_n st;
                          word_indices := dset w idx (word_indices st);
                          word_list := word_list st ++ [w];
                          word_lens := word_lens st ++ [zlen w];
                          word_num_grams := word_num_grams st ++ [map (num_grams (zlen w)) (n_list st)];
                          ngram_filter := ngram_filter st;
                          ngram_counts := ngram_counts st;
                          ngram_positions := ngram_positions st |} in
            (st',
             if (Nat.eqb (length (word_indices st')) (length (word_list st')) && Nat.eqb (length (word_list st')) (idx + 1))
             then match nth_error (word_list st') idx, nth_error (word_lens st') idx with
                  | Some w', Some l' =>
                      if eqd w' w then if (l' =? zlen w)%Z then Ok (Some idx) else Err AssertionError
                      else Err AssertionError
                  | _, _ => Err IndexError
                  end
             else Err AssertionError)
          else (st, Ok None)
      end
  | _ => (st, Err TypeError)
  end.

(** nmd/nmd_index.py:512-517: locations of the n-grams of an added word. *)
Definition add_locations (n_grams : list str) : dict str (list Qc) :=
  if (1 <? zlen n_grams)%Z then
    fold_left (fun d e => dappend (snd e) (rnd (qz (fst e) / qz (zlen n_grams - 1))) d) (enumerate n_grams) []
  else match n_grams with
       | [] => []
       | g :: _ => dappend g 0 []
       end.

(** nmd/nmd_index.py:505-507 *)
Definition add_filter (o : order) (w : str) (idx : nat) (st : wordlist) : wordlist :=
  if (filter_n st =? 0)%Z then st else
  {| n_list := n_list st; case_insensitive := case_insensitive st; filter_n := filter_n st;
     word_indices := word_indices st; word_list := word_list st; word_lens := word_lens st;
     word_num_grams := word_num_grams st;
     ngram_filter := fold_left (fun d g => dset_add g idx d)
                       (o_str o (nodup eqd (get_n_grams w (filter_n st)))) (ngram_filter st);
     ngram_counts := ngram_counts st; ngram_positions := ngram_positions st |}.

(** nmd/nmd_index.py:509-522.  The assertion of line 520 cannot fail: every
    value of the dictionary was just appended to. *)
Definition add_grams (o : order) (w : str) (idx : nat) (st : wordlist) : wordlist :=
  let items := flat_map (fun n => add_locations (get_n_grams w n)) (o_int o (nodup eqd (n_list st))) in
  {| n_list := n_list st; case_insensitive := case_insensitive st; filter_n := filter_n st;
     word_indices := word_indices st; word_list := word_list st; word_lens := word_lens st;
     word_num_grams := word_num_grams st; ngram_filter := ngram_filter st;
     ngram_counts := fold_left (fun d it => dappend (fst it) (idx, zlen (snd it)) d) items (ngram_counts st);
     ngram_positions := fold_left (fun d it => dappend (fst it) (idx, snd it) d) items (ngram_positions st) |}.

(** nmd/nmd_index.py:487-524 (V6) and 260-297 (V5), [add_word].  The second
    component says whether it returned [self] or raised. *)
Definition add_word (o : order) (st : wordlist) (v : pyval) : wordlist * result unit :=
  match v with
  | PStr w =>
      if (zlen w =? 0)%Z then (st, Err ValueError) else
      let w := fold_case st w in
      if dmem w (word_indices st) then (st, Ok tt) else
      if existsb (N.eqb 2) w || existsb (N.eqb 3) w then (st, Err AssertionError) else
      match resolve_word_index st (PStr w) true with
      | (st, Ok (Some idx)) => (add_grams o w idx (add_filter o w idx st), Ok tt)
      | (st, Ok None) => (st, Err TypeError)    (* not reachable: auto_add *)
      | (st, Err e) => (st, Err e)
      end
  | _ => (st, Err TypeError)
  end.

(** nmd/nmd_index.py:539-542: the words let through by the n-gram filter. *)
Definition filter_set (o : order) (st : wordlist) (w : str) : list nat :=
  if (filter_n st =? 0)%Z then [] else
  flat_map (fun g => dgetl g (ngram_filter st)) (o_str o (nodup eqd (get_n_grams w (filter_n st)))).

(** nmd/nmd_index.py:549-557: one step of the counting loop.  Without
    [normalize] the scores are ints, otherwise floats. *)
Definition count_step (st : wordlist) (w : str) (normalize : bool) (poss : list nat) (n_idx n : Z) (count : Z)
    (ms : dict nat (list Qc)) (e : nat * Z) : result (dict nat (list Qc)) :=
  let '(i, other_count) := e in
  if negb (filter_n st =? 0)%Z && negb (if in_dec eqd i poss then true else false) then Ok ms else
  let ms := if dmem i ms then ms else dset i (repeat 0 (length (n_list st))) ms in
  l <- (if normalize then
          ng <- py_get (word_num_grams st) (Z.of_nat i) ;;
          k <- py_get ng n_idx ;;
          let denominator := (num_grams (zlen w) n + k)%Z in
          if (denominator =? 0)%Z then Err ZeroDivisionError else
          list_iadd (fun a b => rnd (a + b)) (dgetl i ms) n_idx (rnd (qz (Z.min count other_count) / qz denominator))
        else list_iadd Qcplus (dgetl i ms) n_idx (qz (Z.min count other_count))) ;;
  Ok (dset i l ms).

(** nmd/nmd_index.py:544-557 *)
Definition min_scores (st : wordlist) (w : str) (normalize : bool) (poss : list nat) : result (dict nat (list Qc)) :=
  foldM (fun ms ne => let '(n_idx, n) := ne in
    foldM (fun ms gc => let '(g, count) := gc in
      foldM (count_step st w normalize poss n_idx n count) (dgetl g (ngram_counts st)) ms)
      (counter (get_n_grams w n)) ms)
    (enumerate (n_list st)) [].

(** nmd/nmd_index.py:563-573: the words that can be among the best [top_k].
    Doubling is exact. *)
Definition prune (top_k : Z) (ms : dict nat (list Qc)) : result (list nat) :=
  let scores := isort (fun a b => qleb b a) (map mean (dvals ms)) in
  min_acceptable <- py_get scores (Z.min top_k (zlen scores) - 1) ;;
  Ok (map fst (filter (fun e => qleb min_acceptable (mean (map (fun x => x * qz 2) (snd e)))) ms)).

(** nmd/nmd_index.py:578-581: locations of the n-grams of the query. *)
Definition query_locations (n_grams : list str) : result (dict str (list Qc)) :=
  foldM (fun d e => if (zlen n_grams - 1 =? 0)%Z then Err ZeroDivisionError
                    else Ok (dappend (snd e) (rnd (qz (fst e) / qz (zlen n_grams - 1))) d))
    (enumerate n_grams) [].

(** nmd/nmd_index.py:585-589 *)
Definition match_step (st : wordlist) (poss : list nat) (n_idx : Z) (locs : list Qc)
    (m : dict nat (list Qc)) (e : nat * list Qc) : result (dict nat (list Qc)) :=
  let '(i, other_locs) := e in
  if in_dec eqd i poss then
    let m := if dmem i m then m else dset i (repeat 0 (length (n_list st))) m in
    l <- list_iadd (fun a b => rnd (a + b)) (dgetl i m) n_idx (qz (zlen locs + zlen other_locs)) ;;
    e <- emd_1d_dp rnd locs other_locs ;;
    l <- list_iadd (fun a b => rnd (a - b)) l n_idx e ;;
    Ok (dset i l m)
  else Ok m.

(** nmd/nmd_index.py:575-589 *)
Definition matches (st : wordlist) (w : str) (poss : list nat) : result (dict nat (list Qc)) :=
  foldM (fun m ne => let '(n_idx, n) := ne in
    locs <- query_locations (get_n_grams w n) ;;
    foldM (fun m gl => let '(g, l) := gl in
      foldM (match_step st poss n_idx l) (dgetl g (ngram_positions st)) m) locs m)
    (enumerate (n_list st)) [].

(** nmd/nmd_index.py:592-601: the scores of one word, normalized. *)
Definition norm_scores (st : wordlist) (w : str) (normalize : bool) (e : nat * list Qc) : result (nat * list Qc) :=
  let '(i, scores) := e in
  other_len <- py_get (word_lens st) (Z.of_nat i) ;;
  if normalize then
    l <- mapM (fun ne => let '(n_idx, n) := ne in
                 s <- py_get scores n_idx ;;
                 let d := (num_grams (zlen w) n + num_grams other_len n)%Z in
                 if (d =? 0)%Z then Err ZeroDivisionError else Ok (rnd (s / qz d)))
           (enumerate (n_list st)) ;;
    Ok (i, l)
  else Ok (i, scores).

(** nmd/nmd_index.py:526-604 (V6) and 299-376 (V5), [__lookup_similarity].
    The assertion of line 536 is established by both callers. *)
Definition lookup_similarity (o : order) (st : wordlist) (w : str) (top_k : Z) (normalize : bool)
    : result (dict nat Qc) :=
  ms <- min_scores st w normalize (filter_set o st w) ;;
  match ms with
  | [] => Ok []
  | _ =>
      poss <- prune top_k ms ;;
      m <- matches st w poss ;;
      m <- mapM (norm_scores st w normalize) m ;;
      Ok (map (fun e => (fst e, mean (snd e))) m)
  end.

(** nmd/nmd_index.py:614-626 (V6) and 386-398 (V5): checks of [lookup]. *)
Definition lookup_checks (st : wordlist) (word top_k : pyval) : result (str * Z) :=
  match word with
  | PStr w =>
      if (zlen w =? 0)%Z then Err ValueError else
      match as_int top_k with
      | None => Err TypeError
      | Some k =>
          if (k <=? 0)%Z then Err ValueError else
          let w := fold_case st w in
          if existsb (N.eqb 2) w || existsb (N.eqb 3) w then Err AssertionError else Ok (w, k)
      end
  | _ => Err TypeError
  end.

(** nmd/nmd_index.py:606-634, [ApproxWordListV6.lookup]: the model reads the
    state and returns a result only, as the method assigns no attribute. *)
Definition lookup (o : order) (st : wordlist) (word top_k : pyval) (normalize : bool)
    : result (list (str * (Qc * Qc))) :=
  wk <- lookup_checks st word top_k ;;
  let '(w, k) := wk in
  sims <- lookup_similarity o st w k normalize ;;
  c <- mapM (fun e =>
         other <- py_get (word_list st) (Z.of_nat (fst e)) ;;
         s <- ngram_movers_distance rnd (PStr w) (PStr other) (PInt 2) true normalize ;;
         Ok (fst e, (snd e, s))) (most_common qleb (k * 2) sims) ;;
  mapM (fun e => other <- py_get (word_list st) (Z.of_nat (fst e)) ;; Ok (other, snd e))
    (most_common pair_leb k c).

(** nmd/nmd_index.py:378-412, [ApproxWordListV5.lookup] *)
Definition lookup_v5 (o : order) (st : wordlist) (word top_k : pyval) (normalize invert : bool)
    : result (list (str * Qc)) :=
  wk <- lookup_checks st word top_k ;;
  let '(w, k) := wk in
  sims <- lookup_similarity o st w k normalize ;;
  out <- mapM (fun e => other <- py_get (word_list st) (Z.of_nat (fst e)) ;;
           Ok (other, if invert then snd e else rnd ((if normalize then 1 else 0) - snd e)))
           (most_common qleb (k * 2) sims) ;;
  Ok (isort (fun a b => qleb (snd b) (snd a)) out).

(** ** Histories *)

(** The state after a sequence of [add_word] calls. *)
Definition run (st : wordlist) (calls : list (order * pyval)) : wordlist :=
  fold_left (fun st c => fst (add_word (fst c) st (snd c))) calls st.

End Model.
