(** Model of experiments/automata.py: [NFA], [DFA], [levenshtein_automaton],
    [find_all_matches], [Matcher].

    A set is a list without duplicates.  Where the code iterates over a set or
    pops from one, the order is that of [arrange], an arbitrary rearrangement. *)
From Coq Require Import ZArith NArith List Bool.
From Verif Require Import Py PyDict NmdSpec IndexModel EditModel.
Import ListNotations.

(** ** Sets *)
Section Sets.
Context {A : Type} `{EqDec A}.
Definition smem (x : A) (s : list A) : bool := if in_dec eqd x s then true else false.
Definition sadd (s : list A) (x : A) : list A := if smem x s then s else s ++ [x].
(** [s.update(t)] *)
Definition supdate (s t : list A) : list A := fold_left sadd t s.
(** [s.difference(t)] *)
Definition sdiff (s t : list A) : list A := filter (fun x => negb (smem x t)) s.
(** [s == t] for sets *)
Definition seqb (s t : list A) : bool := forallb (fun x => smem x t) s && forallb (fun x => smem x s) t.
End Sets.

(** experiments/automata.py:20, [State] *)
Definition state : Type := Z * Z.

(** The keys of the dicts of transitions: a character, [NFA.EPSILON] or
    [NFA.ANY] (experiments/automata.py:33-34). *)
Inductive label := Char (c : N) | EPSILON | ANY.
#[global] Instance EqDec_label : EqDec label.
Proof. intros x y. unfold EqDec. decide equality. apply N.eq_dec. Defined.

(** experiments/automata.py:36-38 *)
Record nfa := { transitions : list (state * list (label * list state)); final_states : list state }.
Definition new_nfa : nfa := {| transitions := []; final_states := [] |}.

(** [self.transitions.get(state, dict())] *)
Definition state_transitions (n : nfa) (q : state) : list (label * list state) :=
  match dget q (transitions n) with Some d => d | None => [] end.
(** ... [.get(label, set())] *)
Definition targets (n : nfa) (q : state) (l : label) : list state :=
  match dget l (state_transitions n q) with Some s => s | None => [] end.

(** experiments/automata.py:47-52 *)
Definition add_transition (n : nfa) (src : state) (input_char : label) (dest : state) : nfa :=
  {| transitions := dset src (dset input_char (sadd (targets n src input_char) dest) (state_transitions n src)) (transitions n);
     final_states := final_states n |}.

(** experiments/automata.py:54-55 *)
Definition add_final_state (n : nfa) (q : state) : nfa :=
  {| transitions := transitions n; final_states := sadd (final_states n) q |}.

(** experiments/automata.py:57-58 *)
Definition is_final_dfa_state (n : nfa) (qs : list state) : bool := existsb (fun q => smem q (final_states n)) qs.

Section Run.
Variable arrange : forall A, list A -> list A.

(** experiments/automata.py:65-70; enough fuel is given below *)
Fixpoint expand_loop (n : nfa) (fuel : nat) (frontier states : list state) : result (list state) :=
  match fuel with
  | O => Err RuntimeError
  | S fuel' =>
      match arrange state frontier with
      | [] => Ok states
      | q :: rest =>
          let new_states := sdiff (targets n q EPSILON) states in
          expand_loop n fuel' (supdate rest new_states) (supdate states new_states)
      end
  end.

(** The states that transitions lead to. *)
Definition all_targets (n : nfa) : list state := flat_map (fun e => flat_map snd (snd e)) (transitions n).

(** experiments/automata.py:60-71 *)
Definition expand_epsilon (n : nfa) (states : list state) : result (list state) :=
  expand_loop n (S (length states + length (all_targets n))) states states.

(** experiments/automata.py:40-45 *)
Definition start_dfa_state (n : nfa) : result (list state) := expand_epsilon n [(0, 0)%Z].

(** experiments/automata.py:73-82 *)
Definition next_dfa_state (n : nfa) (qs : list state) (input_char : label) : result (list state) :=
  expand_epsilon n (fold_left (fun dest q => supdate (supdate dest (targets n q input_char)) (targets n q ANY)) (arrange state qs) []).

(** experiments/automata.py:84-92 *)
Definition get_inputs (n : nfa) (qs : list state) : list label :=
  fold_left (fun inputs q => supdate inputs (dkeys (state_transitions n q))) (arrange state qs) [].

(** experiments/automata.py:134-140 *)
Record dfa := { start_state : nat; dtransitions : list (nat * list (N * nat)); defaults : list (nat * nat); dfinal_states : list nat }.

Definition labels_of (d : dfa) (src : option nat) : list (N * nat) :=
  match src with None => [] | Some src => match dget src (dtransitions d) with Some l => l | None => [] end end.
Definition default_of (d : dfa) (src : option nat) : option nat := match src with None => None | Some src => dget src (defaults d) end.

(** experiments/automata.py:142-147 *)
Definition dfa_add_transition (d : dfa) (src : nat) (c : N) (dest : nat) : dfa :=
  {| start_state := start_state d; dtransitions := dset src (dset c dest (labels_of d (Some src))) (dtransitions d);
     defaults := defaults d; dfinal_states := dfinal_states d |}.
(** experiments/automata.py:149-153 *)
Definition set_default_transition (d : dfa) (src dest : nat) : dfa :=
  {| start_state := start_state d; dtransitions := dtransitions d; defaults := dset src dest (defaults d); dfinal_states := dfinal_states d |}.
(** experiments/automata.py:155-158 *)
Definition dfa_add_final_state (d : dfa) (q : nat) : dfa :=
  {| start_state := start_state d; dtransitions := dtransitions d; defaults := defaults d; dfinal_states := sadd (dfinal_states d) q |}.

(** [dfa_node_ids]: a dict with frozen sets as keys *)
Definition ids := list (list state * nat).
Definition id_of (m : ids) (qs : list state) : option nat := option_map snd (find (fun e => seqb (fst e) qs) m).
(** [dfa_node_ids[qs]] on the defaultdict (experiments/automata.py:105): the
    counter is at the number of keys *)
Definition node_id (m : ids) (qs : list state) : ids * nat :=
  match id_of m qs with Some i => (m, i) | None => (m ++ [(qs, length m)], length m) end.

(** experiments/automata.py:112-123, one input; the end of [frontier] to pop from is first *)
Definition dfa_step (n : nfa) (current : list state) (st : ids * dfa * list (list state)) (input_char : label) : result (ids * dfa * list (list state)) :=
  let '(m, d, frontier) := st in
  next <- next_dfa_state n current input_char ;;
  let '(m, d, frontier) :=
    match id_of m next with
    | Some _ => (m, d, frontier)
    | None => if is_final_dfa_state n next then let (m', i) := node_id m next in (m', dfa_add_final_state d i, next :: frontier) else (m, d, next :: frontier)
    end in
  let (m, i) := node_id m current in
  let (m, j) := node_id m next in
  Ok (m, match input_char with ANY => set_default_transition d i j | Char c => dfa_add_transition d i c j | EPSILON => d (* not reached *) end, frontier).

(** experiments/automata.py:109-123 *)
Fixpoint dfa_loop (n : nfa) (fuel : nat) (st : ids * dfa * list (list state)) : result dfa :=
  match fuel with
  | O => Err RuntimeError
  | S fuel' =>
      let '(m, d, frontier) := st in
      match frontier with
      | [] => Ok d
      | current :: frontier =>
          st' <- foldM (dfa_step n current) (arrange label (sdiff (get_inputs n current) [EPSILON])) (m, d, frontier) ;;
          dfa_loop n fuel' st'
      end
  end.

(** experiments/automata.py:94-125 *)
Definition to_dfa (fuel : nat) (n : nfa) : result dfa :=
  start <- start_dfa_state n ;;
  let (m, i) := node_id [] start in
  dfa_loop n fuel (m, {| start_state := i; dtransitions := []; defaults := []; dfinal_states := [] |}, [start]).
End Run.

(** experiments/automata.py:160-163 *)
Definition is_final (d : dfa) (q : option nat) : bool := match q with Some q => smem q (dfinal_states d) | None => false end.

(** experiments/automata.py:165-170 *)
Definition next_state (d : dfa) (src : option nat) (c : N) : option nat :=
  match dget c (labels_of d src) with Some q => Some q | None => default_of d src end.

(** [chr(i)] *)
Definition chr (i : N) : result N := if (i <? 1114112)%N then Ok i else Err ValueError.

(** experiments/automata.py:203-218 *)
Definition find_next_edge (d : dfa) (q : option nat) (transition : option N) : result (option N) :=
  next_allowed <- match transition with None => Ok 0%N | Some c => chr (c + 1) end ;;
  if dmem next_allowed (labels_of d q) || (match default_of d q with Some _ => true | None => false end) then Ok (Some next_allowed)
  else match filter (fun l => next_allowed <=? l)%N (dkeys (labels_of d q)) with
       | [] => Ok None
       | l :: ls => Ok (Some (fold_left N.min ls l))
       end.

(** experiments/automata.py:180-186, for the characters from position [char_idx]
    on; the top of [stack] is first.  [not state] holds for None and for 0. *)
Fixpoint evaluate (d : dfa) (done rest : str) (q : option nat) (stack : list (str * option nat * option N)) : option nat * list (str * option nat * option N) :=
  match rest with
  | [] => (q, (done, q, None) :: stack)
  | c :: rest' =>
      let stack' := (done, q, Some c) :: stack in
      let q' := next_state d q c in
      match q' with
      | None | Some O => (q', stack')
      | Some (S _) => evaluate d (done ++ [c]) rest' q' stack'
      end
  end.

(** experiments/automata.py:193-201 *)
Fixpoint wall (d : dfa) (fuel : nat) (stack : list (str * option nat * option N)) : result (option str) :=
  match fuel with
  | O => Err RuntimeError
  | S fuel' =>
      match stack with
      | [] => Ok None
      | (path, q, c) :: stack' =>
          e <- find_next_edge d q c ;;
          match e with
          | None => wall d fuel' stack'
          | Some c' =>
              let q' := next_state d q c' in
              if is_final d q' then Ok (Some (path ++ [c'])) else wall d fuel' ((path ++ [c'], q', None) :: stack')
          end
      end
  end.

(** experiments/automata.py:172-201 *)
Definition next_valid_string (d : dfa) (fuel : nat) (input_str : str) : result (option str) :=
  let (q, stack) := evaluate d [] input_str (Some (start_state d)) [] in
  if is_final d q then Ok (Some input_str) else wall d fuel stack.

(** experiments/automata.py:221-238 *)
Definition levenshtein_automaton (word : str) (k : Z) : nfa :=
  let n := fold_left (fun n e => fold_left (fun n dist =>
      let index := Z.of_nat (fst e) in
      let n := add_transition n (index, dist) (Char (snd e)) (index + 1, dist)%Z in
      if (dist <? k)%Z then
        let n := add_transition n (index, dist) ANY (index, dist + 1)%Z in
        let n := add_transition n (index, dist) EPSILON (index + 1, dist + 1)%Z in
        add_transition n (index, dist) ANY (index + 1, dist + 1)%Z
      else n) (py_range 0 (k + 1)) n) (enum word) new_nfa in
  fold_left (fun n dist =>
    let n := if (dist <? k)%Z then add_transition n (zlen word, dist) ANY (zlen word, dist + 1)%Z else n in
    add_final_state n (zlen word, dist)) (py_range 0 (k + 1)) n.

(** [bisect.bisect_left(a, x, lo)] (Lib/bisect.py) *)
Fixpoint bisect_left_loop (a : list str) (x : str) (fuel lo hi : nat) : result nat :=
  match fuel with
  | O => Err RuntimeError
  | S fuel' =>
      if (lo <? hi)%nat then
        let mid := Nat.div (lo + hi) 2 in
        y <- py_get a (Z.of_nat mid) ;;
        if negb (str_leb x y) then bisect_left_loop a x fuel' (S mid) hi else bisect_left_loop a x fuel' lo mid
      else Ok lo
  end.
Definition bisect_left (a : list str) (x : str) (lo : nat) : result nat := bisect_left_loop a x (S (length a)) lo (length a).

(** experiments/automata.py:281-296; the state is [prev] ([probes] is only counted) *)
Definition matcher (entries : list str) (prev : nat) (word : str) : result (option str * nat) :=
  pos <- bisect_left entries word prev ;;
  if (pos <? length entries)%nat then w <- py_get entries (Z.of_nat pos) ;; Ok (Some w, pos) else Ok (None, pos).

(** experiments/automata.py:253-261, the loop; [S] is the state of [lookup_func]
    and [None] and the empty string are false *)
Section Matches.
Context {S : Type}.
Variable lookup_func : S -> str -> result (option str * S).

Fixpoint matches_loop (d : dfa) (fuel : nat) (s : S) (match_ : option str) (out : list str) : result (list str) :=
  match fuel with
  | O => Err RuntimeError
  | Datatypes.S fuel' =>
      match match_ with
      | None | Some [] => Ok out
      | Some m =>
          r <- lookup_func s m ;;
          match r with
          | (None, _) | (Some [], _) => Ok out
          | (Some next_word, s') =>
              if eqd m next_word then
                m' <- next_valid_string d fuel' (next_word ++ [0%N]) ;;
                matches_loop d fuel' s' m' (out ++ [m])
              else
                m' <- next_valid_string d fuel' next_word ;;
                matches_loop d fuel' s' m' out
          end
      end
  end.

(** experiments/automata.py:241-261 *)
Definition find_all_matches (arrange : forall A, list A -> list A) (fuel : nat) (word : str) (k : Z) (s : S) : result (list str) :=
  d <- to_dfa arrange fuel (levenshtein_automaton word k) ;;
  m <- next_valid_string d fuel [0%N] ;;
  matches_loop d fuel s m [].
End Matches.
