(** Model of [ApproxWordListV3], nmd/nmd_index.py:40-185.

    Conventions as in IndexModel: [rnd] rounds each floating-point result,
    [casefold] stands for [str.casefold], [mean] for the average of lines
    153-154 with the given [dim], and an [order] says how a call iterates
    over the set of sizes. *)
From Coq Require Import ZArith NArith QArith Qcanon List Bool Permutation.
From Verif Require Import Num Py PyDict EmdModel NmdSpec NmdModel IndexModel.
Import ListNotations.
Open Scope Qc_scope.

(** The attributes, nmd/nmd_index.py:42-60. *)
Record wordlist3 := {
  v_n_list : list Z;
  v_words : list str;                              (* __vocabulary *)
  v_indices : dict str nat;                        (* __vocab_indices *)
  v_grams : dict str (list (nat * list Qc));       (* __n_gram_indices *)
  v_insensitive : bool                             (* __case_insensitive *)
}.

(** nmd/nmd_index.py:41-60, [__init__].  Simplified: an iterable [n] holds
    ints only.  The sizes are kept as given. *)
Definition v3_init (n : n_arg) (case_sensitive : pyval) : result wordlist3 :=
  nl <- match n with NInt z => Ok [z] | NIter l => Ok l | NOther => Err TypeError end ;;
  match as_int case_sensitive with
  | None => Err TypeError
  | Some c => Ok {| v_n_list := nl; v_words := []; v_indices := []; v_grams := []; v_insensitive := (c =? 0)%Z |}
  end.

(** nmd/nmd_index.py:62-64, [vocabulary]: the property reads itself.  [limit]
    is the number of nested calls that the interpreter still allows;
    RecursionError is a RuntimeError. *)
Fixpoint v3_vocabulary (limit : nat) (st : wordlist3) : result (list str) :=
  match limit with
  | O => Err RuntimeError
  | S limit => l <- v3_vocabulary limit st ;; Ok (isort str_leb l)
  end.

(** [l[i:j]] with [0 <= i]; a negative [j] counts from the end. *)
Definition slice_z {A} (l : list A) (i j : Z) : list A :=
  py_slice l (Z.to_nat i) (Z.to_nat (if (j <? 0)%Z then (zlen l + j)%Z else j)).

(** [[f'\2{word}\3'[i:i + n] for i in range(num_grams(len(word), n))]],
    nmd/nmd_index.py:113 and 137. *)
Definition flagged_grams (word : str) (n : Z) : list str :=
  map (fun i => slice_z (2%N :: word ++ [3%N]) i (i + n)) (py_range 0 (num_grams (zlen word) n)).

Section Model.
Variable rnd : Qc -> Qc.
Variable casefold : str -> str.
Variable mean : list Qc -> Qc.

Definition v_fold (st : wordlist3) (w : str) : str := if v_insensitive st then casefold w else w.

(** nmd/nmd_index.py:66-91, [_resolve_word_index] *)
Definition v3_resolve (st : wordlist3) (v : pyval) (auto_add : bool) : wordlist3 * result (option nat) :=
  match v with
  | PStr w =>
      if (zlen w =? 0)%Z then (st, Err ValueError) else
      let w := v_fold st w in
      match dget w (v_indices st) with
      | Some i => (st, Ok (Some i))
      | None =>
          if auto_add then
            let idx := length (v_words st) in
            let st' := {| v_n_list := v_n_list st; v_words := v_words st ++ [w]; v_indices := dset w idx (v_indices st);
                          v_grams := v_grams st; v_insensitive := v_insensitive st |} in
            (st',
             if Nat.eqb (length (v_indices st')) (length (v_words st')) && Nat.eqb (length (v_words st')) (idx + 1)
             then match nth_error (v_words st') idx with
                  | Some w' => if eqd w' w then Ok (Some idx) else Err AssertionError
                  | None => Err IndexError
                  end
             else Err AssertionError)
          else (st, Ok None)
      end
  | _ => (st, Err TypeError)
  end.

(** nmd/nmd_index.py:111-116 *)
Definition word_grams3 (w : str) (n : Z) : list str :=
  if (1 <? n)%Z then flagged_grams w n else map (fun c => [c]) w.

(** nmd/nmd_index.py:118-123; [add_locations] (IndexModel) models the same
    lines of the later classes. *)
Definition locations3 (n_grams : list str) : dict str (list Qc) :=
  if (1 <? zlen n_grams)%Z then
    fold_left (fun d e => dappend (snd e) (rnd (qz (fst e) / qz (zlen n_grams - 1))) d) (enumerate n_grams) []
  else match n_grams with
       | [] => []
       | g :: _ => dappend g 0 []
       end.

(** nmd/nmd_index.py:93-128, [add_word] *)
Definition v3_add_word (o : order) (st : wordlist3) (v : pyval) : wordlist3 * result unit :=
  match v with
  | PStr w =>
      if (zlen w =? 0)%Z then (st, Err ValueError) else
      let w := v_fold st w in
      if dmem w (v_indices st) then (st, Ok tt) else
      if existsb (N.eqb 2) w || existsb (N.eqb 3) w then (st, Err AssertionError) else
      match v3_resolve st (PStr w) true with
      | (st, Ok (Some idx)) =>
          let items := flat_map (fun n => locations3 (word_grams3 w n)) (o_int o (nodup eqd (v_n_list st))) in
          ({| v_n_list := v_n_list st; v_words := v_words st; v_indices := v_indices st;
              v_grams := fold_left (fun d it => dappend (fst it) (idx, snd it) d) items (v_grams st);
              v_insensitive := v_insensitive st |}, Ok tt)
      | (st, Ok None) => (st, Err TypeError)    (* not reachable: auto_add *)
      | (st, Err e) => (st, Err e)
      end
  | _ => (st, Err TypeError)
  end.

(** nmd/nmd_index.py:138-140; [query_locations] (IndexModel) models the same
    lines of the later classes. *)
Definition query_locations3 (n_grams : list str) : result (dict str (list Qc)) :=
  foldM (fun d e => if (zlen n_grams - 1 =? 0)%Z then Err ZeroDivisionError
                    else Ok (dappend (snd e) (rnd (qz (fst e) / qz (zlen n_grams - 1))) d))
    (enumerate n_grams) [].

(** nmd/nmd_index.py:143-147 *)
Definition match_step3 (st : wordlist3) (n_idx : Z) (locs : list Qc)
    (m : dict nat (list Qc)) (e : nat * list Qc) : result (dict nat (list Qc)) :=
  let '(i, other_locs) := e in
  let m := if dmem i m then m else dset i (repeat 0 (length (v_n_list st))) m in
  e <- emd_1d_dp rnd locs other_locs ;;
  l <- list_iadd (fun a b => rnd (a + b)) (dgetl i m) n_idx (rnd (qz (Z.max (zlen locs) (zlen other_locs)) - e)) ;;
  Ok (dset i l m).

(** nmd/nmd_index.py:134-147 *)
Definition matches3 (st : wordlist3) (w : str) : result (dict nat (list Qc)) :=
  foldM (fun m ne => let '(n_idx, n) := ne in
    locs <- query_locations3 (flagged_grams w n) ;;
    foldM (fun m gl => let '(g, l) := gl in
      foldM (match_step3 st n_idx l) (dgetl g (v_grams st)) m) locs m)
    (enumerate (v_n_list st)) [].

(** nmd/nmd_index.py:152 *)
Definition norm_scores3 (st : wordlist3) (w : str) (e : nat * list Qc) : result (nat * list Qc) :=
  let '(i, scores) := e in
  l <- mapM (fun ne => let '(n_idx, n) := ne in
               s <- py_get scores n_idx ;;
               let d := num_grams (zlen w) n in
               if (d =? 0)%Z then Err ZeroDivisionError else Ok (rnd (s / qz d)))
         (enumerate (v_n_list st)) ;;
  Ok (i, l).

(** nmd/nmd_index.py:130-157, [__lookup] *)
Definition lookup3_scores (st : wordlist3) (w : str) : result (dict nat Qc) :=
  m <- matches3 st w ;;
  m <- mapM (norm_scores3 st w) m ;;
  Ok (map (fun e => (fst e, mean (snd e))) m).

(** nmd/nmd_index.py:159-185, [lookup].  Simplified: [top_k] is an int. *)
Definition lookup3 (st : wordlist3) (v : pyval) (top_k : Z) : result (list (str * Qc * Qc)) :=
  match v with
  | PStr w =>
      if (zlen w =? 0)%Z then Err ValueError else
      let w := v_fold st w in
      if existsb (N.eqb 2) w || existsb (N.eqb 3) w then Err AssertionError else
      counter <- lookup3_scores st w ;;
      _ <- py_get (most_common qleb 1 counter) 0 ;;
      let top_k := if (top_k =? 0)%Z || (top_k <? 0)%Z then zlen counter else top_k in
      out <- mapM (fun e =>
               other <- py_get (v_words st) (Z.of_nat (fst e)) ;;
               s <- ngram_movers_distance rnd (PStr w) (PStr other) (PInt 2) true true ;;
               Ok (other, snd e, s)) (most_common qleb (top_k * 2) counter) ;;
      Ok (firstn (Z.to_nat top_k) out)
  | _ => Err TypeError
  end.

(** The state after a sequence of [add_word] calls. *)
Definition run3 (st : wordlist3) (calls : list (order * pyval)) : wordlist3 :=
  fold_left (fun st c => fst (v3_add_word (fst c) st (snd c))) calls st.

End Model.
