(** Model of nmd/nmd_core.py: [ngram_movers_distance]. *)
From Coq Require Import ZArith NArith QArith Qcanon List Bool.
From Verif Require Import Num Py PyDict EmdModel NmdSpec.
Import ListNotations.
Open Scope Qc_scope.

(** Python values, as far as the [isinstance] checks of the library can tell
    them apart.  [bool] is a subclass of [int]. *)
Inductive pyval : Type :=
| PStr (s : str)
| PInt (z : Z)
| PBool (b : bool)
| PNone
| POther.

(** [isinstance(v, int)] and the value *)
Definition as_int (v : pyval) : option Z :=
  match v with PInt z => Some z | PBool b => Some (if b then 1 else 0)%Z | _ => None end.

(** nmd/nmd_core.py:22-25 and 27-30: checks on one word. *)
Definition check_word (v : pyval) : result str :=
  match v with
  | PStr s => if existsb (N.eqb 2) s || existsb (N.eqb 3) s then Err ValueError else Ok s
  | _ => Err TypeError
  end.

(** nmd/nmd_core.py:32-35: checks on [n]. *)
Definition check_n (v : pyval) : result Z :=
  match as_int v with
  | Some n => if (n <? 2)%Z then Err ValueError else Ok n
  | None => Err TypeError
  end.

Section Rounding.
Variable rnd : Qc -> Qc.

(** nmd/nmd_core.py:50-52 and 53-55: n-gram locations of a padded word.
    [max(1, num_grams - 1)] is an int; the quotient is rounded. *)
Definition locations (w : str) (n num : Z) : dict str (list Qc) :=
  fold_left (fun d idx =>
      dappend (py_slice w (Z.to_nat idx) (Z.to_nat (idx + n)))
              (rnd (qz idx / qz (Z.max 1 (num - 1)))) d)
    (py_range 0 num) [].

(** nmd/nmd_core.py:65-68: one iteration of the similarity loop. *)
Definition sim_step (loc2 : dict str (list Qc)) (s : Qc) (item : str * list Qc) : result Qc :=
  let '(g, l1) := item in
  match dget g loc2 with
  | Some l2 =>
      let s := rnd (s + qz (zlen l1 + zlen l2)) in
      e <- emd_1d_dp rnd l1 l2 ;;
      Ok (rnd (s - e))
  | None => Ok s
  end.

(** nmd/nmd_core.py:42-74, after the checks. *)
Definition nmd_body (word_1 word_2 : str) (n : Z) (invert normalize : bool) : result Qc :=
  let w1 := 2%N :: word_1 ++ [3%N] in
  let w2 := 2%N :: word_2 ++ [3%N] in
  let num1 := (zlen w1 - n + 1)%Z in
  let num2 := (zlen w2 - n + 1)%Z in
  let loc1 := locations w1 n num1 in
  let loc2 := locations w2 n num2 in
  similarity <- foldM (sim_step loc2) loc1 0 ;;
  let output := if invert then similarity else rnd (qz (num1 + num2) - similarity) in
  if normalize then
    if (num1 + num2 =? 0)%Z then Err ZeroDivisionError
    else Ok (rnd (output / qz (num1 + num2)))
  else Ok output.

(** nmd/nmd_core.py:4-74, [ngram_movers_distance]. *)
Definition ngram_movers_distance (word_1 word_2 n : pyval) (invert normalize : bool) : result Qc :=
  w1 <- check_word word_1 ;;
  w2 <- check_word word_2 ;;
  k <- check_n n ;;
  nmd_body w1 w2 k invert normalize.

End Rounding.
