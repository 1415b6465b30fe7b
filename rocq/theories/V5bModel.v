(** Model of [ApproxWordListV5b], experiments/gemini_optimized_v5.py:26-502.

    The attributes are those of [wordlist] (IndexModel): [word_to_index],
    [index_to_word], [index_to_word_length], [index_to_num_grams],
    [ngram_filter_index], [ngram_counts_index] and [ngram_positions_index] are
    [word_indices], [word_list], [word_lens], [word_num_grams],
    [ngram_filter], [ngram_counts] and [ngram_positions]; [filter_n] is 0 for
    [None].  A BitMap (a set, where pyroaring is missing) is a list.

    [rnd], [casefold], [mean] and [order] are as in IndexModel; of an [order]
    only the one for strings is used.  [get_n_grams], [num_grams] and [mean]
    are imported by the file from nmd/nmd_index.py. *)
From Coq Require Import ZArith NArith QArith Qcanon List Bool Permutation.
From Verif Require Import Num Py PyDict EmdModel NmdSpec NmdModel IndexModel.
Import ListNotations.
Open Scope Qc_scope.

(** Lines 60-73: the sizes.  Simplified as in IndexModel: an iterable holds
    ints only. *)
Definition sizes5b (n : n_arg) : result (list Z) :=
  match n with
  | NInt z => if (z <=? 0)%Z then Err ValueError else Ok [z]
  | NIter l =>
      let unique_sizes := isort Z.leb (nodup eqd l) in
      match unique_sizes with
      | [] => Err TypeError
      | _ => if existsb (fun z => z <=? 0)%Z unique_sizes then Err TypeError else Ok unique_sizes
      end
  | NOther => Err TypeError
  end.

(** Lines 43-111, [__init__].  [filter_n] may be any value. *)
Definition init5b (n : n_arg) (case_sensitive filter_n : pyval) : result wordlist :=
  nl <- sizes5b n ;;
  cs <- match case_sensitive with PBool b => Ok b | _ => Err TypeError end ;;
  fn <- match filter_n with
        | PNone => Ok 0%Z
        | _ => match as_int filter_n with
               | Some z => if (z <=? 0)%Z then Err ValueError else Ok z
               | None => Err ValueError
               end
        end ;;
  Ok {| n_list := nl; case_insensitive := negb cs; filter_n := fn;
        word_indices := []; word_list := []; word_lens := []; word_num_grams := [];
        ngram_filter := []; ngram_counts := []; ngram_positions := [] |}.

(** Lines 493-495, [__len__] *)
Definition len5b (st : wordlist) : Z := zlen (word_list st).

(** Lines 198 and 476: the reserved characters *)
Definition marked (w : str) : bool := existsb (N.eqb 2) w || existsb (N.eqb 3) w.

Section Model.
Variable rnd : Qc -> Qc.
Variable casefold : str -> str.
Variable mean : list Qc -> Qc.

(** Lines 497-502, [__contains__]; [_normalize_word] (lines 135-140) is
    [fold_case]. *)
Definition contains5b (st : wordlist) (v : pyval) : bool :=
  match v with
  | PStr w => dmem (fold_case casefold st w) (word_indices st)
  | _ => false
  end.

(** Lines 142-174, [_resolve_word_index].  The word is used as it is. *)
Definition resolve5b (st : wordlist) (v : pyval) (auto_add : bool) : wordlist * option nat :=
  match v with
  | PStr w =>
      if (zlen w =? 0)%Z then (st, None) else
      match dget w (word_indices st) with
      | Some i => (st, Some i)
      | None =>
          if auto_add then
            let idx := length (word_list st) in
            ({| n_list := n_list st; case_insensitive := case_insensitive st; filter_n := filter_n st;
                word_indices := dset w idx (word_indices st);
                word_list := word_list st ++ [w];
                word_lens := word_lens st ++ [zlen w];
                word_num_grams := word_num_grams st ++ [map (num_grams (zlen w)) (n_list st)];
                ngram_filter := ngram_filter st;
                ngram_counts := ngram_counts st;
                ngram_positions := ngram_positions st |}, Some idx)
          else (st, None)
      end
  | _ => (st, None)
  end.

(** Lines 222-226 and 294-301: n-grams and their locations. *)
Definition locations5b (n_grams : list str) : dict str (list Qc) :=
  let divisor := qz (Z.max 1 (zlen n_grams - 1)) in
  fold_left (fun d e => dappend (snd e) (rnd (qz (fst e) / divisor)) d) (enumerate n_grams) [].

(** Lines 208-214 *)
Definition add_filter5b (o : order) (w : str) (idx : nat) (st : wordlist) : wordlist :=
  if (filter_n st =? 0)%Z then st else
  {| n_list := n_list st; case_insensitive := case_insensitive st; filter_n := filter_n st;
     word_indices := word_indices st; word_list := word_list st; word_lens := word_lens st;
     word_num_grams := word_num_grams st;
     ngram_filter := fold_left (fun d g => dset_add g idx d)
                       (o_str o (nodup eqd (get_n_grams w (filter_n st)))) (ngram_filter st);
     ngram_counts := ngram_counts st; ngram_positions := ngram_positions st |}.

(** Lines 216-234: one size.  The two inverted indices are the state. *)
Definition add_size5b (w : str) (idx : nat) (cp : dict str (list (nat * Z)) * dict str (list (nat * list Qc))) (n : Z) :=
  let n_grams := get_n_grams w n in
  if (zlen n_grams =? 0)%Z then cp else
  fold_left (fun cp it => (dappend (fst it) (idx, zlen (snd it)) (fst cp), dappend (fst it) (idx, snd it) (snd cp)))
    (locations5b n_grams) cp.

Definition add_grams5b (w : str) (idx : nat) (st : wordlist) : wordlist :=
  let cp := fold_left (add_size5b w idx) (n_list st) (ngram_counts st, ngram_positions st) in
  {| n_list := n_list st; case_insensitive := case_insensitive st; filter_n := filter_n st;
     word_indices := word_indices st; word_list := word_list st; word_lens := word_lens st;
     word_num_grams := word_num_grams st; ngram_filter := ngram_filter st;
     ngram_counts := fst cp; ngram_positions := snd cp |}.

(** Lines 177-235, [add_word].  The second component says whether it returned
    [self] or raised. *)
Definition add_word5b (o : order) (st : wordlist) (v : pyval) : wordlist * result unit :=
  match v with
  | PStr w =>
      if (zlen w =? 0)%Z then (st, Err ValueError) else
      let w := fold_case casefold st w in
      if (zlen w =? 0)%Z then (st, Err ValueError) else
      if marked w then (st, Err ValueError) else
      if dmem w (word_indices st) then (st, Ok tt) else
      match resolve5b st (PStr w) true with
      | (st, Some idx) => (add_grams5b w idx (add_filter5b o w idx st), Ok tt)
      | (st, None) => (st, Err TypeError)    (* not reachable: the word is a non-empty string *)
      end
  | _ => (st, Err ValueError)
  end.

(** Lines 270-274 and 305-322: the words let through by the filter; none where
    line 274, 313 or 322 returns. *)
Definition candidates5b (o : order) (st : wordlist) (w : str) : list nat :=
  if (filter_n st =? 0)%Z then seq 0 (length (word_list st))
  else flat_map (fun g => dgetl g (ngram_filter st)) (o_str o (nodup eqd (get_n_grams w (filter_n st)))).

(** Lines 342-357: one step of the counting loop. *)
Definition count_step5b (st : wordlist) (query_num : Z) (normalize : bool) (cands : list nat) (n_idx : Z) (count : Z)
    (ms : dict nat (list Qc)) (e : nat * Z) : result (dict nat (list Qc)) :=
  let '(i, other_count) := e in
  if in_dec eqd i cands then
    ng <- py_get (word_num_grams st) (Z.of_nat i) ;;
    other_num <- py_get ng n_idx ;;
    let denominator := (query_num + other_num)%Z in
    if (0 <? denominator)%Z then
      let shared := Z.min count other_count in
      let contribution := if normalize then rnd (qz shared / qz denominator) else rnd (qz shared) in
      let ms := if dmem i ms then ms else dset i (repeat 0 (length (n_list st))) ms in
      l <- list_iadd (fun a b => rnd (a + b)) (dgetl i ms) n_idx contribution ;;
      Ok (dset i l ms)
    else Ok ms
  else Ok ms.

(** Lines 324-357.  A size for which the query has 0 n-grams is not in
    [query_counters] (lines 288 and 335). *)
Definition min_scores5b (st : wordlist) (w : str) (normalize : bool) (cands : list nat) : result (dict nat (list Qc)) :=
  foldM (fun ms ne => let '(n_idx, n) := ne in
    let query_num := num_grams (zlen w) n in
    if (query_num =? 0)%Z then Ok ms else
    foldM (fun ms gc => let '(g, count) := gc in
      foldM (count_step5b st query_num normalize cands n_idx count) (dgetl g (ngram_counts st)) ms)
      (counter (get_n_grams w n)) ms)
    (enumerate (n_list st)) [].

(** Lines 362-389: the finalists.  [heapq.nlargest(k, l)] is documented as
    [sorted(l, reverse=True)[:k]]; doubling is exact. *)
Definition finalists5b (top_k : Z) (ms : dict nat (list Qc)) : result (list nat) :=
  let combined := map mean (dvals ms) in
  let actual_k := Z.min top_k (zlen combined) in
  if (actual_k =? 0)%Z then Ok [] else
  threshold <- py_get (firstn (Z.to_nat actual_k) (isort (fun a b => qleb b a) combined)) (-1) ;;
  Ok (map fst (filter (fun e => qleb threshold (mean (map (fun x => x * qz 2) (snd e)))) ms)).

(** Lines 409-428: one step of the scoring loop. *)
Definition match_step5b (st : wordlist) (query_num : Z) (normalize : bool) (finalists : list nat) (n_idx : Z) (locs : list Qc)
    (m : dict nat (list Qc)) (e : nat * list Qc) : result (dict nat (list Qc)) :=
  let '(i, other_locs) := e in
  if in_dec eqd i finalists then
    d <- emd_1d_dp rnd locs other_locs ;;
    let contribution := rnd (rnd (qz (zlen locs + zlen other_locs)) - d) in
    let bump v :=
      let m := if dmem i m then m else dset i (repeat 0 (length (n_list st))) m in
      l <- list_iadd (fun a b => rnd (a + b)) (dgetl i m) n_idx v ;; Ok (dset i l m) in
    if normalize then
      ng <- py_get (word_num_grams st) (Z.of_nat i) ;;
      other_num <- py_get ng n_idx ;;
      let denominator := (query_num + other_num)%Z in
      if (0 <? denominator)%Z then bump (rnd (contribution / qz denominator)) else Ok m
    else bump contribution
  else Ok m.

(** Lines 394-428; for the sizes left out see lines 288 and 402. *)
Definition matches5b (st : wordlist) (w : str) (normalize : bool) (finalists : list nat) : result (dict nat (list Qc)) :=
  foldM (fun m ne => let '(n_idx, n) := ne in
    let query_num := num_grams (zlen w) n in
    if (query_num =? 0)%Z then Ok m else
    foldM (fun m gl => let '(g, l) := gl in
      foldM (match_step5b st query_num normalize finalists n_idx l) (dgetl g (ngram_positions st)) m)
      (locations5b (get_n_grams w n)) m)
    (enumerate (n_list st)) [].

(** Lines 237-437, [__lookup_similarity]; the early returns are those of lines
    267, 274, 313, 316, 322, 360 and 392. *)
Definition lookup_similarity5b (o : order) (st : wordlist) (w : str) (top_k : Z) (normalize : bool)
    : result (dict nat Qc) :=
  if (zlen w =? 0)%Z then Ok [] else
  match candidates5b o st w with
  | [] => Ok []
  | cands =>
      ms <- min_scores5b st w normalize cands ;;
      match ms with
      | [] => Ok []
      | _ =>
          finalists <- finalists5b top_k ms ;;
          match finalists with
          | [] => Ok []
          | _ =>
              m <- matches5b st w normalize finalists ;;
              Ok (map (fun e => (fst e, mean (snd e))) m)
          end
      end
  end.

(** Lines 440-491, [lookup] *)
Definition lookup5b (o : order) (st : wordlist) (word top_k : pyval) (normalize : bool) : result (list (str * Qc)) :=
  match word with
  | PStr w =>
      if (zlen w =? 0)%Z then Err ValueError else
      match as_int top_k with
      | None => Err ValueError
      | Some k =>
          if (k <=? 0)%Z then Err ValueError else
          let w := fold_case casefold st w in
          if (zlen w =? 0)%Z then Ok [] else
          if marked w then Ok [] else
          c <- lookup_similarity5b o st w k normalize ;;
          mapM (fun e => other <- py_get (word_list st) (Z.of_nat (fst e)) ;; Ok (other, snd e)) (most_common qleb k c)
      end
  | _ => Err ValueError
  end.

(** The state after a sequence of [add_word] calls. *)
Definition run5b (st : wordlist) (calls : list (order * pyval)) : wordlist :=
  fold_left (fun st c => fst (add_word5b (fst c) st (snd c))) calls st.

End Model.
