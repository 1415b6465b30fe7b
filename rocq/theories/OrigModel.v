(** Model of experiments/dawg-orig.py.

    As in DawgModel.v nodes live in a heap, a list, a reference to a node is
    its position, and [ident i] is the attribute [id] of the node at position
    [i]: a counter shared by all graphs of the process hands out the ids, so all
    that is known is that they differ.  Recursion takes Python's limit as an
    argument. *)
From Coq Require Import ZArith NArith List Bool.
From Verif Require Import Num Py PyDict NmdSpec IndexModel DawgModel.
Import ListNotations.

(** experiments/dawg-orig.py:26-34, the attributes of a node. *)
Record onode := { final : bool; oedges : dict N nat; count : nat }.
Definition new_onode : onode := {| final := false; oedges := []; count := 0 |}.
Definition oheap := list onode.

(** Every reference points to a node: the error is not reachable. *)
Definition get_onode (h : oheap) (i : nat) : result onode :=
  match nth_error h i with Some nd => Ok nd | None => Err KeyError end.
Definition set_onode (h : oheap) (i : nat) (nd : onode) : oheap := list_set h i nd.

Section Model.
Context {D : Type}.
(** [hash] is the hash of a string, any function. *)
Variables (hash : str -> Z) (ident : nat -> nat).

(** experiments/dawg-orig.py:36-47, [__str__]: '1' or '0', then label and id
    of each edge in the order of the dictionary, joined by '_'. *)
Definition onode_str (nd : onode) : str :=
  (if final nd then 49%N else 48%N) :: flat_map (fun e => 95%N :: fst e :: 95%N :: decimal (ident (snd e))) (oedges nd).

(** experiments/dawg-orig.py:69-83.  The end of the list [uncheckedNodes] is
    the head of [ounchecked].  An entry of the dictionary [minimizedNodes] is the
    hash its key had when it was put in, the key (a node) and the value. *)
Record odawg := {
  oprevious : str;
  onodes : oheap;
  oroot : nat;
  ounchecked : list (nat * N * nat);
  ominimized : list (Z * nat * nat);
  odata : list D
}.

Definition odawg_init : odawg :=
  {| oprevious := []; onodes := [new_onode]; oroot := 0; ounchecked := []; ominimized := []; odata := [] |}.

(** [minimizedNodes[child]], as CPython looks it up: the first entry with the
    same hash whose key is the node itself or equal to it, [__eq__]
    (experiments/dawg-orig.py:49-53) comparing the strings the two nodes have
    now. *)
Fixpoint find_node (h : oheap) (child : nat) (cd : onode) (mn : list (Z * nat * nat)) : result (option nat) :=
  match mn with
  | [] => Ok None
  | (hs, key, value) :: mn =>
      if Z.eqb hs (hash (onode_str cd)) then
        if Nat.eqb key child then Ok (Some value) else
        kd <- get_onode h key ;;
        if eqd (onode_str kd) (onode_str cd) then Ok (Some value) else find_node h child cd mn
      else find_node h child cd mn
  end.

(** experiments/dawg-orig.py:126-134, the body of the loop. *)
Definition ominimize_one (g : odawg) : result odawg :=
  match ounchecked g with
  | [] => Err IndexError
  | (parent, letter, child) :: rest =>
      cd <- get_onode (onodes g) child ;;
      r <- find_node (onodes g) child cd (ominimized g) ;;
      match r with
      | Some same =>
          p <- get_onode (onodes g) parent ;;
          let p' := {| final := final p; oedges := dset letter same (oedges p); count := count p |} in
          Ok {| oprevious := oprevious g; onodes := set_onode (onodes g) parent p'; oroot := oroot g; ounchecked := rest;
                ominimized := ominimized g; odata := odata g |}
      | None =>
          Ok {| oprevious := oprevious g; onodes := onodes g; oroot := oroot g; ounchecked := rest;
                ominimized := ominimized g ++ [(hash (onode_str cd), child, child)]; odata := odata g |}
      end
  end.

(** experiments/dawg-orig.py:124-134. *)
Definition ominimize (g : odawg) (downTo : nat) : result odawg :=
  foldM (fun g _ => ominimize_one g) (repeat tt (length (ounchecked g) - downTo)) g.

(** experiments/dawg-orig.py:109-113. *)
Definition oadd_letter (st : oheap * list (nat * N * nat) * nat) (letter : N) : result (oheap * list (nat * N * nat) * nat) :=
  let '(h, unch, i) := st in
  let next := length h in
  nd <- get_onode h i ;;
  let nd' := {| final := final nd; oedges := dset letter next (oedges nd); count := count nd |} in
  Ok (set_onode h i nd' ++ [new_onode], (i, letter, next) :: unch, next).

(** experiments/dawg-orig.py:85-116.  Lines 90-94 compute the length of the
    common prefix. *)
Definition oinsert (g : odawg) (w : str) (v : D) : result odawg :=
  if str_leb w (oprevious g) then Err Exception else
  let k := common_prefix_len w (oprevious g) in
  g <- ominimize g k ;;
  let start := match ounchecked g with (_, _, child) :: _ => child | [] => oroot g end in
  st <- foldM oadd_letter (skipn k w) (onodes g, ounchecked g, start) ;;
  let '(h, unch, i) := st in
  nd <- get_onode h i ;;
  let nd' := {| final := true; oedges := oedges nd; count := count nd |} in
  Ok {| oprevious := w; onodes := set_onode h i nd'; oroot := oroot g; ounchecked := unch;
        ominimized := ominimized g; odata := odata g ++ [v] |}.

(** experiments/dawg-orig.py:55-67. *)
Fixpoint num_reachable (limit : nat) (h : oheap) (i : nat) : result (oheap * nat) :=
  match limit with
  | O => Err RuntimeError
  | S limit =>
      nd <- get_onode h i ;;
      if negb (Nat.eqb (count nd) 0) then Ok (h, count nd) else
      r <- foldM (fun st e => r <- num_reachable limit (fst st) (snd e) ;; Ok (fst r, snd st + snd r))
             (oedges nd) (h, if final nd then 1 else 0) ;;
      self <- get_onode (fst r) i ;;
      Ok (set_onode (fst r) i {| final := final self; oedges := oedges self; count := snd r |}, snd r)
  end.

(** experiments/dawg-orig.py:118-123. *)
Definition finish (limit : nat) (g : odawg) : result odawg :=
  g <- ominimize g 0 ;;
  r <- num_reachable limit (onodes g) (oroot g) ;;
  Ok {| oprevious := oprevious g; onodes := fst r; oroot := oroot g; ounchecked := ounchecked g; ominimized := ominimized g; odata := odata g |}.

(** experiments/dawg-orig.py:141-146, the inner loop: the counter and the node
    reached.  If no label fits, the node stays the same; the test before the
    loop excludes this. *)
Fixpoint olookup_loop (h : oheap) (i : nat) (here : onode) (es : list (N * nat)) (skipped : nat) (c : N) : result (nat * nat) :=
  match es with
  | [] => Ok (skipped, i)
  | (label, child) :: es =>
      if N.eqb label c then Ok (if final here then skipped + 1 else skipped, child) else
      nd <- get_onode h child ;;
      olookup_loop h i here es (skipped + count nd) c
  end.

(** experiments/dawg-orig.py:136-149.  [sorted(node.edges.items())]: the labels
    are distinct, so the nodes are never compared.  [None] is returned for a
    word that is not found, and is also what is returned for one whose data is
    [None]. *)
Fixpoint olookup_from (g : odawg) (i skipped : nat) (w : str) : result (option D) :=
  here <- get_onode (onodes g) i ;;
  match w with
  | [] => if final here then v <- py_get (odata g) (Z.of_nat skipped) ;; Ok (Some v) else Ok None
  | c :: w =>
      if dmem c (oedges here) then
        r <- olookup_loop (onodes g) i here (isort (fun a b => N.leb (fst a) (fst b)) (oedges here)) skipped c ;;
        olookup_from g (snd r) (fst r) w
      else Ok None
  end.
Definition olookup (g : odawg) (w : str) : result (option D) := olookup_from g (oroot g) 0 w.

(** experiments/dawg-orig.py:151-158. *)
Definition node_count (g : odawg) : nat := length (ominimized g).
Definition edge_count (g : odawg) : result nat :=
  foldM (fun n e => nd <- get_onode (onodes g) (snd (fst e)) ;; Ok (n + length (oedges nd))) (ominimized g) 0.

(** A sequence of calls of [insert]; a refused one has no effect. *)
Definition orun (calls : list (str * D)) (g : odawg) : odawg :=
  fold_left (fun g c => match oinsert g (fst c) (snd c) with Ok g' => g' | Err _ => g end) calls g.

End Model.
Arguments odawg D : clear implicits.

(** experiments/dawg-orig.py:182-208 without the printing: [words] are the words
    of the dictionary file; the answers to the words of the command line. *)
Definition script (hash : str -> Z) (ident : nat -> nat) (limit : nat) (words queries : list str) : result (list (option str)) :=
  g <- foldM (fun g w => oinsert (D := str) hash ident g w (rev w)) (isort str_leb words) odawg_init ;;
  g <- finish hash ident limit g ;;
  mapM (olookup g) queries.
