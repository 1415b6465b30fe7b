(** Model of nmd/nmd_word_set.py: the class [WordSet].

    Conventions and simplifications.
    - [rnd] rounds the result of each floating-point operation (see Float64).
    - [casefold] stands for [str.casefold]; nothing is assumed about it.
    - A unicode normalizer is a pure function on strings that returns a string
      or raises ([None]); a normalizer with state, or one returning something
      else than a string, is not modelled.
    - A BitMap is the ascending list of its members, which is the order in
      which it iterates.  That ids must stay below 2^32 is not modelled.
    - Iterating over a Python set visits its elements in an unspecified order:
      an [order] says which one, and every call takes its own.
    - [__repr__] (lines 476-496) and the demonstration code (501-532) are not
      modelled. *)
From Coq Require Import ZArith NArith QArith Qcanon List Bool Permutation.
From Verif Require Import Num Py PyDict EmdModel NmdSpec NmdModel IndexModel WordSetSpec.
Import ListNotations.
Open Scope Qc_scope.

(** ** BitMap of pyroaring *)

(** [b.add(i)] *)
Fixpoint bm_add (i : nat) (b : list nat) : list nat :=
  match b with
  | [] => [i]
  | j :: b' => if (i <? j)%nat then i :: b else if (i =? j)%nat then b else j :: bm_add i b'
  end.
(** [b.discard(i)] *)
Definition bm_discard (i : nat) (b : list nat) : list nat := filter (fun j => negb (j =? i)%nat) b.
(** [a.update(b)] *)
Definition bm_update (a b : list nat) : list nat := fold_left (fun a i => bm_add i a) b a.

(** ** State *)

(** The dictionary built by [_compute_word_info], line 168. *)
Record winfo := {
  norm_len : Z;
  num_grams_of : list Z;
  ngrams_pos : dict str (list Qc);
  filter_grams : list str                     (* a set, as a list without repetition *)
}.

(** The attributes, nmd/nmd_word_set.py:95-132. *)
Record wordset := {
  ws_case_sensitive : bool;
  ws_normalizer : option (str -> option str);
  ws_n_list : list Z;
  ws_filter_n : option Z;
  to_id : dict str nat;
  to_original : dict nat str;
  next_id : nat;
  word_info : dict nat winfo;
  filter_index : dict str (list nat)
}.

(** The attributes that change. *)
Definition put (st : wordset) (ids : dict str nat) (orig : dict nat str) (nx : nat)
    (info : dict nat winfo) (ix : dict str (list nat)) : wordset :=
  {| ws_case_sensitive := ws_case_sensitive st; ws_normalizer := ws_normalizer st;
     ws_n_list := ws_n_list st; ws_filter_n := ws_filter_n st;
     to_id := ids; to_original := orig; next_id := nx; word_info := info; filter_index := ix |}.

(** Argument [unicode_normalizer]: [None], a callable, something else. *)
Inductive nz_arg := ZNone | ZCall (f : str -> option str) | ZOther.

(** Argument [ngram_sizes]: an int, an iterable, something else.  An element
    of the iterable is given by [int(val)], [None] if that raises TypeError
    or ValueError. *)
Inductive sizes_arg := SInt (z : Z) | SIter (l : list (option Z)) | SOther.

(** The ints, if no conversion raised. *)
Fixpoint all_ints (l : list (option Z)) : option (list Z) :=
  match l with
  | [] => Some []
  | None :: _ => None
  | Some z :: l' => match all_ints l' with Some zs => Some (z :: zs) | None => None end
  end.

(** nmd/nmd_word_set.py:101-113 *)
Definition check_sizes (a : sizes_arg) : result (list Z) :=
  match a with
  | SInt z => if (z <=? 0)%Z then Err ValueError else Ok [z]
  | SIter l =>
      match all_ints l with
      | None => Err TypeError
      | Some zs =>
          let u := isort Z.leb (nodup eqd zs) in
          if Nat.eqb (length u) 0 || existsb (fun z => z <=? 0)%Z u then Err TypeError   (* line 108 re-raised by 111 *)
          else Ok u
      end
  | SOther => Err TypeError
  end.

(** nmd/nmd_word_set.py:118-122 *)
Definition effective_filter (nl : list Z) : result (option Z) :=
  if in_dec eqd 3%Z nl then Ok (Some 3%Z)
  else min_n <- py_get nl 0 ;; Ok (if (min_n <=? 4)%Z then Some min_n else None).

(** nmd/nmd_word_set.py:71-132, [__init__] *)
Definition ws_init (case_sensitive : pyval) (nz : nz_arg) (sizes : sizes_arg) : result wordset :=
  cs <- match case_sensitive with PBool b => Ok b | _ => Err TypeError end ;;
  f <- match nz with ZNone => Ok None | ZCall f => Ok (Some f) | ZOther => Err TypeError end ;;
  nl <- check_sizes sizes ;;
  fn <- effective_filter nl ;;
  Ok {| ws_case_sensitive := cs; ws_normalizer := f; ws_n_list := nl; ws_filter_n := fn;
        to_id := []; to_original := []; next_id := 0; word_info := []; filter_index := [] |}.

(** nmd/nmd_word_set.py:151-159, [_get_n_grams_list] *)
Definition get_n_grams_list (text : str) (n : Z) : list str :=
  if (n <=? 0)%Z then [] else
  let padded_text := 2%N :: text ++ [3%N] in
  let num := (zlen padded_text - n + 1)%Z in
  if (num <=? 0)%Z then [] else
  map (fun i => py_slice padded_text (Z.to_nat i) (Z.to_nat (i + n))) (py_range 0 num).

(** nmd/nmd_word_set.py:161-166, [_get_num_grams] *)
Definition get_num_grams (len_text n : Z) : Z :=
  if (n <=? 0)%Z then 0%Z else Z.max 0 (len_text + 2 - n + 1).

(** Truth value of the filter size, lines 188, 227, 252, 336: [None] and 0 are
    false. *)
Definition filtering (st : wordset) : option Z :=
  match ws_filter_n st with Some n => if (n =? 0)%Z then None else Some n | None => None end.

(** Argument [min_similarity]: [None], a number, anything else (also NaN and
    the infinities). *)
Inductive ms_arg := MNone | MNum (q : Qc) | MOther.

Section Model.
Variable rnd : Qc -> Qc.
Variable casefold : str -> str.

(** nmd/nmd_word_set.py:136-149, [_normalize_word] *)
Definition normalize_word (st : wordset) (word : str) : result str :=
  let word := if ws_case_sensitive st then word else casefold word in
  word <- match ws_normalizer st with
          | Some f => match f word with Some u => Ok u | None => Err ValueError end
          | None => Ok word
          end ;;
  if existsb (N.eqb 0) word then Err ValueError else Ok word.

(** nmd/nmd_word_set.py:175-184: positions of all n-grams.  [float(max(..))]
    is exact. *)
Definition compute_positions (nl : list Z) (w : str) : dict str (list Qc) :=
  fold_left (fun d n =>
    let n_grams_list := get_n_grams_list w n in
    if (0 <? zlen n_grams_list)%Z then
      let divisor := qz (Z.max 1 (zlen n_grams_list - 1)) in
      fold_left (fun d e => dappend (snd e) (rnd (qz (fst e) / divisor)) d) (enumerate n_grams_list) d
    else d) nl [].

(** nmd/nmd_word_set.py:168-191, [_compute_word_info] *)
Definition compute_word_info (st : wordset) (w : str) : winfo :=
  {| norm_len := zlen w;
     num_grams_of := map (get_num_grams (zlen w)) (ws_n_list st);
     ngrams_pos := compute_positions (ws_n_list st) w;
     filter_grams := match filtering st with Some n => nodup eqd (get_n_grams_list w n) | None => [] end |}.

(** nmd/nmd_word_set.py:229-232 *)
Definition index_add (i : nat) (ix : dict str (list nat)) (g : str) : dict str (list nat) :=
  let ix := if dmem g ix then ix else dset g [] ix in
  dset g (bm_add i (dgetl g ix)) ix.

(** nmd/nmd_word_set.py:195-232, [add] *)
Definition ws_add (o : order) (st : wordset) (v : pyval) : wordset * result answer :=
  match v with
  | PStr w =>
      if Nat.eqb (length w) 0 then (st, Err ValueError) else
      match normalize_word st w with
      | Err e => (st, Err e)
      | Ok u =>
          if Nat.eqb (length u) 0 then (st, Err ValueError) else
          if dmem u (to_id st) then (st, Ok ANone) else
          let word_id := next_id st in
          let info := compute_word_info st u in
          (put st (dset u word_id (to_id st)) (dset word_id w (to_original st)) (word_id + 1)
             (dset word_id info (word_info st))
             (match filtering st with
              | Some _ => fold_left (index_add word_id) (o_str o (filter_grams info)) (filter_index st)
              | None => filter_index st
              end), Ok ANone)
      end
  | _ => (st, Err TypeError)
  end.

(** nmd/nmd_word_set.py:255-259 *)
Definition index_discard (i : nat) (ix : dict str (list nat)) (g : str) : dict str (list nat) :=
  match dget g ix with
  | Some bitmap => let bitmap := bm_discard i bitmap in
                   match bitmap with [] => ddel g ix | _ => dset g bitmap ix end
  | None => ix
  end.

(** nmd/nmd_word_set.py:234-259, [discard].  The state is returned as it
    stands when the deletion of line 248 or the [pop] of 249 raises. *)
Definition ws_discard (o : order) (st : wordset) (v : pyval) : wordset * result answer :=
  match v with
  | PStr w =>
      match normalize_word st w with
      | Err e => (st, Err e)
      | Ok u =>
          match dget u (to_id st) with
          | None => (st, Ok ANone)
          | Some word_id =>
              let st := put st (ddel u (to_id st)) (to_original st) (next_id st) (word_info st) (filter_index st) in
              if dmem word_id (to_original st) then
                let st := put st (to_id st) (ddel word_id (to_original st)) (next_id st) (word_info st) (filter_index st) in
                match dget word_id (word_info st) with
                | None => (st, Err KeyError)
                | Some info =>
                    (put st (to_id st) (to_original st) (next_id st) (ddel word_id (word_info st))
                       (match filtering st with
                        | Some _ => fold_left (index_discard word_id) (o_str o (filter_grams info)) (filter_index st)
                        | None => filter_index st
                        end), Ok ANone)
                end
              else (st, Err KeyError)
          end
      end
  | _ => (st, Err TypeError)
  end.

(** nmd/nmd_word_set.py:261-266, [__contains__] *)
Definition ws_contains (st : wordset) (v : pyval) : result bool :=
  match v with
  | PStr w => u <- normalize_word st w ;; Ok (dmem u (to_id st))
  | _ => Ok false
  end.

(** nmd/nmd_word_set.py:268-270, [__len__] *)
Definition ws_len (st : wordset) : nat := length (to_id st).

(** nmd/nmd_word_set.py:272-274, [__iter__] *)
Definition ws_iter (st : wordset) : list str := dvals (to_original st).

(** nmd/nmd_word_set.py:278-288, [remove] *)
Definition ws_remove (o : order) (st : wordset) (v : pyval) : wordset * result answer :=
  match v with
  | PStr w =>
      match normalize_word st w with
      | Err e => (st, Err e)
      | Ok u => if dmem u (to_id st) then ws_discard o st v else (st, Err KeyError)
      end
  | _ => (st, Err TypeError)
  end.

(** nmd/nmd_word_set.py:290-296, [clear] *)
Definition ws_clear (st : wordset) : wordset := put st [] [] 0 [] [].

(** [pop], inherited from collections.abc.MutableSet: the first word of the
    iteration is discarded and returned. *)
Definition ws_pop (o : order) (st : wordset) : wordset * result answer :=
  match ws_iter st with
  | [] => (st, Err KeyError)
  | w :: _ => let '(st', r) := ws_discard o st (PStr w) in (st', rmap (fun _ => AWord w) r)
  end.

(** One call. *)
Definition ws_call (o : order) (st : wordset) (c : command) : wordset * result answer :=
  match c with
  | CAdd v => ws_add o st v
  | CDiscard v => ws_discard o st v
  | CRemove v => ws_remove o st v
  | CPop => ws_pop o st
  | CClear => (ws_clear st, Ok ANone)
  end.

(** ** [find_similar] *)

(** [d[k]] *)
Definition dict_get {K V} `{EqDec K} (k : K) (d : dict K V) : result V :=
  match dget k d with Some v => Ok v | None => Err KeyError end.

(** nmd/nmd_word_set.py:376-379 and 392-398: the loop over common n-grams.
    [len(q_pos) + len(w_pos)] is an int. *)
Definition contributions (q w : dict str (list Qc)) : result Qc :=
  let q_fewer := (length q <=? length w)%nat in
  let iter_keys := if q_fewer then dkeys q else dkeys w in
  let check_dict := if q_fewer then w else q in
  foldM (fun total g =>
    if dmem g check_dict then
      q_pos <- dict_get g q ;;
      w_pos <- dict_get g w ;;
      e <- emd_1d_dp rnd q_pos w_pos ;;
      Ok (rnd (total + rnd (qz (zlen q_pos + zlen w_pos) - e)))
    else Ok total) iter_keys 0.

(** [sum] of a tuple of ints *)
Definition zsum (l : list Z) : Z := fold_left Z.add l 0%Z.

(** nmd/nmd_word_set.py:367-406: the loop over candidates.  The loop of lines
    381-389 has no effect. *)
Definition score_step (st : wordset) (query_info : winfo) (acc : list (Qc * nat)) (word_id : nat)
    : result (list (Qc * nat)) :=
  info <- dict_get word_id (word_info st) ;;
  total <- contributions (ngrams_pos query_info) (ngrams_pos info) ;;
  let factor := (zsum (num_grams_of query_info) + zsum (num_grams_of info))%Z in
  if (0 <? factor)%Z then
    let approx := qmax 0 (qmin 1 (rnd (total / qz factor))) in
    Ok (acc ++ [(- approx, word_id)])
  else Ok acc.

(** Comparison of the tuples [(score, id)]. *)
Definition scored_leb (a b : Qc * nat) : bool :=
  qltb (fst a) (fst b) || (qeqb (fst a) (fst b) && (snd a <=? snd b)%nat).

(** nmd/nmd_word_set.py:361-447: scoring, sorting and formatting. *)
Definition rank (st : wordset) (u : str) (target_ids : list nat) (k : Z) : result (list (str * Qc)) :=
  scores <- foldM (score_step st (compute_word_info st u)) target_ids [] ;;
  let scores := isort scored_leb scores in
  mapM (fun e => w <- dict_get (snd e) (to_original st) ;; Ok (w, - fst e)) (firstn (Z.to_nat k) scores).

(** nmd/nmd_word_set.py:317-323: checks of the arguments. *)
Definition check_find (query k : pyval) (min_similarity : ms_arg) : result (str * Z) :=
  match query with
  | PStr q =>
      match as_int k with
      | Some k => if (k <=? 0)%Z then Err ValueError else
                  match min_similarity with
                  | MNone => Ok (q, k)
                  | MNum t => if qleb 0 t && qleb t 1 then Ok (q, k) else Err ValueError
                  | MOther => Err ValueError
                  end
      | None => Err ValueError
      end
  | _ => Err TypeError
  end.

(** nmd/nmd_word_set.py:300-447, [find_similar]: the model reads the state and
    returns a result only, as the method assigns no attribute. *)
Definition find_similar (o : order) (st : wordset) (query k : pyval) (min_similarity : ms_arg)
    : result (list (str * Qc)) :=
  qk <- check_find query k min_similarity ;;
  let '(q, k) := qk in
  if Nat.eqb (length q) 0 || Nat.eqb (length (to_id st)) 0 then Ok [] else
  u <- normalize_word st q ;;
  if Nat.eqb (length u) 0 then Ok [] else
  match filtering st with
  | Some n =>
      match o_str o (nodup eqd (get_n_grams_list u n)) with
      | [] => Ok []
      | gs =>
          let candidate_bitmap := fold_left (fun b g => bm_update b (dgetl g (filter_index st))) gs [] in
          match candidate_bitmap with
          | [] => Ok []
          | _ => rank st u candidate_bitmap k
          end
      end
  | None => rank st u (dkeys (word_info st)) k
  end.

(** nmd/nmd_word_set.py:449-456, [suggest] *)
Definition suggest (o : order) (st : wordset) (query k : pyval) : result (list str) :=
  rmap (map fst) (find_similar o st query k MNone).

(** ** Operators inherited from collections.abc

    The bodies are those of [Set] and [MutableSet] in CPython's
    _collections_abc.py. *)

(** [__ior__] ([s |= it]): adds every value of the iterable. *)
Fixpoint ws_ior (o : order) (st : wordset) (it : list pyval) : wordset * result answer :=
  match it with
  | [] => (st, Ok ANone)
  | v :: rest => match ws_add o st v with
                 | (st, Ok _) => ws_ior o st rest
                 | (st, Err e) => (st, Err e)
                 end
  end.

(** [__isub__] ([s -= it]) for an iterable other than the set itself:
    discards every value. *)
Fixpoint ws_isub (o : order) (st : wordset) (it : list pyval) : wordset * result answer :=
  match it with
  | [] => (st, Ok ANone)
  | v :: rest => match ws_discard o st v with
                 | (st, Ok _) => ws_isub o st rest
                 | (st, Err e) => (st, Err e)
                 end
  end.

(** [all(v in other for v in l)], stopping at the first one missing *)
Fixpoint all_in (other : wordset) (l : list str) : result bool :=
  match l with
  | [] => Ok true
  | w :: rest => b <- ws_contains other (PStr w) ;; if b then all_in other rest else Ok false
  end.

(** [__le__] on two sets *)
Definition ws_le (a b : wordset) : result bool :=
  if (ws_len b <? ws_len a)%nat then Ok false else all_in b (ws_iter a).

(** [__eq__] on two sets *)
Definition ws_eq (a b : wordset) : result bool :=
  if (ws_len a =? ws_len b)%nat then ws_le a b else Ok false.

(** [isdisjoint] *)
Fixpoint ws_isdisjoint (st : wordset) (it : list pyval) : result bool :=
  match it with
  | [] => Ok true
  | v :: rest => b <- ws_contains st v ;; if b then Ok false else ws_isdisjoint st rest
  end.

(** The other operators are in WordSetOpsModel.v. *)

(** ** Histories *)

(** The state and the answers after a sequence of calls. *)
Fixpoint ws_run (st : wordset) (calls : list (order * command)) : wordset * list (result answer) :=
  match calls with
  | [] => (st, [])
  | (o, c) :: rest =>
      let '(st1, r) := ws_call o st c in
      let '(st2, rs) := ws_run st1 rest in (st2, r :: rs)
  end.

End Model.
