(** Regular expressions as Python's [re] reads and runs them: the part of the
    syntax that [Trie.to_regex] produces, and backtracking matching.

    This file models the library, not a function of /repo. *)
From Coq Require Import ZArith NArith List Bool.
From Verif Require Import Py.
Import ListNotations.
Open Scope N_scope.

Definition str := list N.

(** A text with a position in it: what is before (backwards) and what is
    after. *)
Definition place : Type := str * str.

Inductive rx :=
| Empty                        (* matches the empty string *)
| Chr (p : N -> bool)          (* one character *)
| Cat (a b : rx)
| Or (a b : rx)
| Opt (a : rx)                 (* a?, greedy *)
| Plus (a : rx)                (* a+, greedy *)
| Edge                         (* \b *)
| NotAfter (c : N).            (* (?<!c) *)

Section Match.
(** [\s] and [\w] *)
Variables is_space is_word : N -> bool.

Definition word_at (l : str) : bool := match l with [] => false | c :: _ => is_word c end.

(** One or more steps, as many as possible first; a step that does not advance
    ends it. *)
Fixpoint iterate (step : place -> list place) (n : nat) (z : place) : list place :=
  match n with
  | O => []
  | S n' => flat_map (fun z' => (if (length (snd z') <? length (snd z))%nat then iterate step n' z' else []) ++ [z']) (step z)
  end.

(** All the ways to match at a place, in the order in which backtracking finds
    them: the places after the match. *)
Fixpoint ways (r : rx) (z : place) : list place :=
  match r with
  | Empty => [z]
  | Chr p => match snd z with c :: s => if p c then [(c :: fst z, s)] else [] | [] => [] end
  | Cat a b => flat_map (ways b) (ways a z)
  | Or a b => ways a z ++ ways b z
  | Opt a => ways a z ++ [z]
  | Plus a => iterate (ways a) (S (length (snd z))) z
  | Edge => if Bool.eqb (word_at (fst z)) (word_at (snd z)) then [] else [z]
  | NotAfter c => match fst z with b :: _ => if b =? c then [] else [z] | [] => [z] end
  end.

(** [r.match(text, pos)]: the end of the match that is reported *)
Definition first_way (r : rx) (z : place) : option place := hd_error (ways r z).

(** [text[i:j]] can be matched: [before], [text[i:j]], [after]. *)
Definition can_match (r : rx) (before w after : str) : Prop := In (rev w ++ rev before, after) (ways r (rev before, w ++ after)).

(** [r.fullmatch(text)] *)
Definition fullmatch (r : rx) (text : str) : Prop := can_match r [] text [].

(** [r.finditer(text)] for an expression that does not match the empty string:
    start, end and text of the matches.  [skip] characters of the last match
    are still to be passed over. *)
Fixpoint find_from (r : rx) (skip : nat) (pos : nat) (before s : str) : list (nat * nat * str) :=
  match s with
  | [] => []
  | c :: s' =>
      match skip with
      | S k => find_from r k (S pos) (c :: before) s'
      | O =>
          match first_way r (before, s) with
          | Some (_, rest) =>
              let n := (length s - length rest)%nat in
              match n with
              | O => find_from r O (S pos) (c :: before) s'
              | S k => (pos, (pos + n)%nat, firstn n s) :: find_from r k (S pos) (c :: before) s'
              end
          | None => find_from r O (S pos) (c :: before) s'
          end
      end
  end.

Definition finditer (r : rx) (text : str) : list (nat * nat * str) := find_from r O O [] text.

(** ** Reading an expression *)

Definition letter_or_digit (c : N) : bool :=
  ((48 <=? c) && (c <=? 57)) || ((65 <=? c) && (c <=? 90)) || ((97 <=? c) && (c <=? 122)).

(** A backslash and a character, outside a set.  Of the escapes with letters
    only [\s] and [\b] are known here. *)
Definition escape (c : N) : option rx :=
  if c =? 115 then Some (Chr is_space)
  else if c =? 98 then Some Edge
  else if letter_or_digit c then None
  else Some (Chr (N.eqb c)).

(** ... and in a set *)
Definition set_escape (c : N) : option (N -> bool) :=
  if c =? 115 then Some is_space else if letter_or_digit c then None else Some (N.eqb c).

(** Characters with a meaning that is not known here: [*], [{], [^], [$], and
    in a set [[], [^], [-], [&], [|], [~]. *)
Definition unknown (c : N) : bool := existsb (N.eqb c) [42; 123; 94; 36].
Definition unknown_in_set (c : N) : bool := existsb (N.eqb c) [91; 94; 45; 38; 124; 126].

Definition cat (items : list rx) : rx := fold_right Cat Empty items.
Fixpoint alternate (alternatives : list rx) : rx :=
  match alternatives with [] => Empty | [a] => a | a :: l => Or a (alternate l) end.

(** What is open: the finished alternatives and the items of the current one,
    both backwards. *)
Definition close (alternatives items : list rx) : rx := alternate (rev (cat (rev items) :: alternatives)).

(** [stack]: the enclosing groups; [can]: may a [?] or [+] follow; [set]: the
    items of the set we are in. [None]: not an expression of this kind. *)
Fixpoint parse (stack : list (list rx * list rx)) (alternatives items : list rx) (can : bool) (set : option (list (N -> bool))) (s : str) : option rx :=
  match set with
  | Some ps =>
      match s with
      | [] => None
      | c :: s1 =>
          if c =? 93 then (* ] *)
            match ps with
            | [] => None
            | _ => parse stack alternatives (Chr (fun x => existsb (fun p => p x) ps) :: items) true None s1
            end
          else if c =? 92 then (* \ *)
            match s1 with
            | [] => None
            | d :: s2 => match set_escape d with Some p => parse stack alternatives items can (Some (ps ++ [p])) s2 | None => None end
            end
          else if unknown_in_set c then None
          else parse stack alternatives items can (Some (ps ++ [N.eqb c])) s1
      end
  | None =>
      match s with
      | [] => match stack with [] => Some (close alternatives items) | _ => None end
      | c :: s1 =>
          if c =? 40 then (* ( *)
            match s1 with
            | q :: d :: s2 => if (q =? 63) && (d =? 58) then parse ((alternatives, items) :: stack) [] [] false None s2 else None
            | _ => None
            end
          else if c =? 41 then (* ) *)
            match stack with
            | (a, i) :: stack' => parse stack' a (close alternatives items :: i) true None s1
            | [] => None
            end
          else if c =? 124 then parse stack (cat (rev items) :: alternatives) [] false None s1 (* | *)
          else if c =? 63 then (* ? *)
            match items with r :: i => if can then parse stack alternatives (Opt r :: i) false None s1 else None | [] => None end
          else if c =? 43 then (* + *)
            match items with r :: i => if can then parse stack alternatives (Plus r :: i) false None s1 else None | [] => None end
          else if c =? 91 then parse stack alternatives items false (Some []) s1 (* [ *)
          else if c =? 46 then parse stack alternatives (Chr (fun x => negb (x =? 10)) :: items) true None s1 (* . *)
          else if c =? 92 then (* \ *)
            match s1 with
            | [] => None
            | d :: s2 => match escape d with Some r => parse stack alternatives (r :: items) (negb (d =? 98)) None s2 | None => None end
            end
          else if unknown c then None
          else parse stack alternatives (Chr (N.eqb c) :: items) true None s1
      end
  end.

(** [re.compile(s)] *)
Definition compile (s : str) : option rx := parse [] [] [] false None s.
End Match.
