(** Model of experiments/dawg.py.

    Nodes live in a heap, a list; a reference to a node is its position.  The
    attribute [id] of the node at position [i] is [ident i]: ids are handed
    out by a counter that all graphs share, so all that is known is that
    they differ.  [repr] is Python's [repr] on one-letter strings ([py_repr]).  Recursive
    methods take the recursion limit as an argument and raise a RuntimeError
    (Python's RecursionError is one) when it is reached. *)
From Coq Require Import ZArith NArith List Bool.
From Verif Require Import Num Py PyDict NmdSpec IndexModel.
Import ListNotations.

(** Decimal digits of a number, as in [format]. *)
Fixpoint uint_chars (d : Decimal.uint) : list N :=
  match d with
  | Decimal.Nil => []
  | Decimal.D0 d => 48%N :: uint_chars d | Decimal.D1 d => 49%N :: uint_chars d
  | Decimal.D2 d => 50%N :: uint_chars d | Decimal.D3 d => 51%N :: uint_chars d
  | Decimal.D4 d => 52%N :: uint_chars d | Decimal.D5 d => 53%N :: uint_chars d
  | Decimal.D6 d => 54%N :: uint_chars d | Decimal.D7 d => 55%N :: uint_chars d
  | Decimal.D8 d => 56%N :: uint_chars d | Decimal.D9 d => 57%N :: uint_chars d
  end.
Definition decimal (n : nat) : str := uint_chars (Nat.to_uint n).

(** Hexadecimal, the last [k] digits. *)
Definition hex_digit (d : N) : N := if (d <? 10)%N then (48 + d)%N else (87 + d)%N.
Fixpoint hex (k : nat) (c : N) : str :=
  match k with O => [] | S k => hex k (c / 16)%N ++ [hex_digit (c mod 16)%N] end.

(** [repr(c)] for a string of one character, as CPython's [unicode_repr] does
    it; [printable] is [str.isprintable].  (Numbers from 2^32 on are no
    characters.) *)
Definition escaped (printable : N -> bool) (c : N) : str :=
  if (c =? 92)%N then [92; 92]%N
  else if (c =? 9)%N then [92; 116]%N
  else if (c =? 10)%N then [92; 110]%N
  else if (c =? 13)%N then [92; 114]%N
  else if printable c || (4294967296 <=? c)%N then [c]
  else if (c <? 256)%N then [92; 120]%N ++ hex 2 c
  else if (c <? 65536)%N then [92; 117]%N ++ hex 4 c
  else [92; 85]%N ++ hex 8 c.
Definition py_repr (printable : N -> bool) (c : N) : str :=
  if (c =? 39)%N then [34; 39; 34]%N else [39%N] ++ escaped printable c ++ [39%N].

(** experiments/dawg.py:16-27, the attributes of a node.  [is_terminal_node]
    is 0 or 1. *)
Record node := {
  terminal : nat;
  edges : dict N nat;
  leaf_count : option nat;
  final_edges : option (list (N * nat))
}.

Definition new_node : node := {| terminal := 0; edges := []; leaf_count := None; final_edges := None |}.

Definition heap := list node.

(** [sorted(node.edges.items())]: the labels are distinct, so the nodes are
    never compared. *)
Definition sorted_edges (nd : node) : list (N * nat) := isort (fun a b => N.leb (fst a) (fst b)) (edges nd).

(** Every reference points to a node: the error is not reachable. *)
Definition get_node (h : heap) (i : nat) : result node :=
  match nth_error h i with Some nd => Ok nd | None => Err KeyError end.

Definition set_node (h : heap) (i : nat) (nd : node) : heap := list_set h i nd.

Section Model.
Context {D : Type}.
Variables (repr : N -> str) (ident : nat -> nat).

(** "DAWGNode(terminal=" and ", edges={" *)
Definition text_terminal : str := [68; 65; 87; 71; 78; 111; 100; 101; 40; 116; 101; 114; 109; 105; 110; 97; 108; 61]%N.
Definition text_edges : str := [44; 32; 101; 100; 103; 101; 115; 61; 123]%N.

(** experiments/dawg.py:44-50, [__str__].  [edge_info[1:-1]] drops the first
    and the last character. *)
Definition edge_text (e : N * nat) : str := [32%N] ++ repr (fst e) ++ [58%N; 32%N] ++ decimal (ident (snd e)) ++ [44%N].
Definition node_str (nd : node) : str :=
  let edge_info := flat_map edge_text (sorted_edges nd) in
  text_terminal ++ decimal (terminal nd) ++ text_edges ++ removelast (tl edge_info) ++ [125%N].

(** experiments/dawg.py:91-102.  The end of the list [unchecked_nodes] is the
    head of [unchecked]. *)
Record dawg := {
  previous : str;
  nodes : heap;
  root : nat;
  unchecked : list (nat * N * nat);
  minimized : dict str nat;
  data : list D
}.

Definition dawg_init : dawg :=
  {| previous := []; nodes := [new_node]; root := 0; unchecked := []; minimized := []; data := [] |}.

(** experiments/dawg.py:110-116. *)
Fixpoint common_prefix_len (a b : str) : nat :=
  match a, b with
  | x :: a, y :: b => if N.eqb x y then S (common_prefix_len a b) else 0
  | _, _ => 0
  end.

(** experiments/dawg.py:154-162, the body of the loop. *)
Definition minimize_one (g : dawg) : result dawg :=
  match unchecked g with
  | [] => Err IndexError
  | (parent, letter, child) :: rest =>
      nd <- get_node (nodes g) child ;;
      match dget (node_str nd) (minimized g) with
      | Some same =>
          p <- get_node (nodes g) parent ;;
          let p' := {| terminal := terminal p; edges := dset letter same (edges p);
                       leaf_count := leaf_count p; final_edges := final_edges p |} in
          Ok {| previous := previous g; nodes := set_node (nodes g) parent p'; root := root g; unchecked := rest;
                minimized := minimized g; data := data g |}
      | None =>
          Ok {| previous := previous g; nodes := nodes g; root := root g; unchecked := rest;
                minimized := dset (node_str nd) child (minimized g); data := data g |}
      end
  end.

(** experiments/dawg.py:151-162. *)
Definition minimize_unchecked (g : dawg) (prefix_len : nat) : result dawg :=
  foldM (fun g _ => minimize_one g) (repeat tt (length (unchecked g) - prefix_len)) g.

(** experiments/dawg.py:132-136.  The state is the heap, the stack and the
    current node. *)
Definition add_letter (st : heap * list (nat * N * nat) * nat) (letter : N) : result (heap * list (nat * N * nat) * nat) :=
  let '(h, unch, i) := st in
  let next := length h in
  nd <- get_node h i ;;
  let nd' := {| terminal := terminal nd; edges := dset letter next (edges nd);
                leaf_count := leaf_count nd; final_edges := final_edges nd |} in
  Ok (set_node h i nd' ++ [new_node], (i, letter, next) :: unch, next).

(** experiments/dawg.py:104-142. *)
Definition insert_body (g : dawg) (w : str) (v : D) : result dawg :=
  let k := common_prefix_len w (previous g) in
  g <- minimize_unchecked g k ;;
  let start := match unchecked g with (_, _, child) :: _ => child | [] => root g end in
  st <- foldM add_letter (skipn k w) (nodes g, unchecked g, start) ;;
  let '(h, unch, i) := st in
  nd <- get_node h i ;;
  let nd' := {| terminal := 1; edges := edges nd; leaf_count := leaf_count nd; final_edges := final_edges nd |} in
  Ok {| previous := w; nodes := set_node h i nd'; root := root g; unchecked := unch;
        minimized := minimized g; data := data g ++ [v] |}.

Definition insert (g : dawg) (w : str) (v : D) : result dawg :=
  if str_leb w (previous g) then Err AssertionError else insert_body g w v.

(** experiments/dawg.py:29-42, [DAWGNode.finalize]. *)
Fixpoint finalize_node (limit : nat) (h : heap) (i : nat) : result heap :=
  match limit with
  | O => Err RuntimeError
  | S limit =>
      nd <- get_node h i ;;
      match leaf_count nd with
      | Some _ => Ok h
      | None =>
          let start := if Nat.eqb (terminal nd) 0 then 0 else 1 in
          let h := set_node h i {| terminal := terminal nd; edges := edges nd; leaf_count := Some start; final_edges := final_edges nd |} in
          h <- foldM (fun h e =>
                 h <- finalize_node limit h (snd e) ;;
                 child <- get_node h (snd e) ;;
                 self <- get_node h i ;;
                 match leaf_count self, leaf_count child with
                 | Some a, Some b =>
                     Ok (set_node h i {| terminal := terminal self; edges := edges self; leaf_count := Some (a + b); final_edges := final_edges self |})
                 | _, _ => Err TypeError
                 end) (sorted_edges nd) h ;;
          self <- get_node h i ;;
          Ok (set_node h i {| terminal := terminal self; edges := edges self; leaf_count := leaf_count self;
                              final_edges := Some (sorted_edges self) |})
      end
  end.

(** experiments/dawg.py:144-149. *)
Definition finalize (limit : nat) (g : dawg) : result dawg :=
  g <- minimize_unchecked g 0 ;;
  h <- finalize_node limit (nodes g) (root g) ;;
  Ok {| previous := previous g; nodes := h; root := root g; unchecked := unchecked g; minimized := minimized g; data := data g |}.

(** experiments/dawg.py:182-192, the loop of [step]: the counter and the node
    reached, or [None]. *)
Fixpoint step_loop (h : heap) (here : node) (es : list (N * nat)) (skipped : nat) (c : N) : result (option (nat * nat)) :=
  match es with
  | [] => Ok None
  | (label, child) :: es =>
      if N.eqb c label then Ok (Some (skipped + terminal here, child)) else
      nd <- get_node h child ;;
      match leaf_count nd with
      | Some k => step_loop h here es (skipped + k) c
      | None => Err TypeError
      end
  end.

Definition step (h : heap) (partial : nat * nat) (c : N) : result (option (nat * nat)) :=
  here <- get_node h (snd partial) ;;
  match final_edges here with
  | None => Err TypeError
  | Some es => step_loop h here es (fst partial) c
  end.

(** experiments/dawg.py:168-171. *)
Fixpoint walk (h : heap) (partial : nat * nat) (w : str) : result (option (nat * nat)) :=
  match w with
  | [] => Ok (Some partial)
  | c :: w => r <- step h partial c ;;
              match r with None => Ok None | Some partial => walk h partial w end
  end.

(** experiments/dawg.py:164-175. *)
Definition index (g : dawg) (w : str) : result Z :=
  r <- walk (nodes g) (0, root g) w ;;
  match r with
  | None => Ok (-1)%Z
  | Some (skipped, i) =>
      nd <- get_node (nodes g) i ;;
      Ok (if Nat.eqb (terminal nd) 0 then (-1)%Z else Z.of_nat skipped)
  end.

(** experiments/dawg.py:177-180. *)
Definition lookup (g : dawg) (w : str) : result (option D) :=
  i <- index g w ;;
  if (0 <=? i)%Z then v <- py_get (data g) i ;; Ok (Some v) else Ok None.

(** experiments/dawg.py:210-211. *)
Definition contains (g : dawg) (w : str) : result bool := i <- index g w ;; Ok (0 <=? i)%Z.

(** experiments/dawg.py:58-63, run to the end. *)
Fixpoint node_iter (limit : nat) (h : heap) (i : nat) : result (list str) :=
  match limit with
  | O => Err RuntimeError
  | S limit =>
      nd <- get_node h i ;;
      rest <- mapM (fun e => l <- node_iter limit h (snd e) ;; Ok (map (cons (fst e)) l)) (sorted_edges nd) ;;
      Ok ((if Nat.eqb (terminal nd) 0 then [] else [[]]) ++ concat rest)
  end.

(** experiments/dawg.py:203-205, 213-217. *)
Definition iter (limit : nat) (g : dawg) : result (list str) := node_iter limit (nodes g) (root g).
Definition items (limit : nat) (g : dawg) : result (list (str * D)) := l <- iter limit g ;; Ok (combine l (data g)).

(** experiments/dawg.py:65-72.  Falling off the end returns [None], and
    [label + None] is a TypeError. *)
Fixpoint getitem_loop (getitem : nat -> Z -> result (option str)) (h : heap) (es : list (N * nat)) (k : Z) : result (option str) :=
  match es with
  | [] => Ok None
  | (label, child) :: es =>
      c <- get_node h child ;;
      match leaf_count c with
      | None => Err TypeError
      | Some n =>
          if (k <? Z.of_nat n)%Z then
            r <- getitem child k ;;
            match r with Some s => Ok (Some (label :: s)) | None => Err TypeError end
          else getitem_loop getitem h es (k - Z.of_nat n)%Z
      end
  end.

Fixpoint node_getitem (limit : nat) (h : heap) (i : nat) (k : Z) : result (option str) :=
  match limit with
  | O => Err RuntimeError
  | S limit =>
      nd <- get_node h i ;;
      let k := (k - Z.of_nat (terminal nd))%Z in
      if (k =? -1)%Z then Ok (Some []) else
      match final_edges nd with
      | None => Err TypeError
      | Some es => getitem_loop (node_getitem limit h) h es k
      end
  end.

(** experiments/dawg.py:222-224. *)
Definition get_index (limit : nat) (g : dawg) (k : Z) : result (option str) :=
  if (k <? zlen (data g))%Z then node_getitem limit (nodes g) (root g) k else Err AssertionError.

(** experiments/dawg.py:194-201. *)
Definition count_nodes (g : dawg) : nat := length (minimized g).
Definition count_edges (g : dawg) : result nat :=
  foldM (fun count i => nd <- get_node (nodes g) i ;;
           match final_edges nd with Some es => Ok (count + length es) | None => Err TypeError end)
    (map snd (minimized g)) 0.

(** A sequence of calls of [insert]; a refused one has no effect. *)
Definition run_inserts (calls : list (str * D)) (g : dawg) : dawg :=
  fold_left (fun g c => match insert g (fst c) (snd c) with Ok g' => g' | Err _ => g end) calls g.

End Model.
Arguments dawg D : clear implicits.
