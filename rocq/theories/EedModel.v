(** Model of [extended_edit_distance], experiments/edit_distance.py:63-167.

    [rnd] rounds each floating-point result, [isspace] is [str.isspace] of one
    character.  The costs are finite floats.  The debugging output is left
    out. *)
From Coq Require Import ZArith NArith QArith Qcanon List Bool.
From Verif Require Import Num Py NmdSpec EditModel.
Import ListNotations.
Open Scope Qc_scope.

Section Model.
Variable rnd : Qc -> Qc.
Variable isspace : N -> bool.
Variables (deletion insertion substitution jump rho : Qc).

(** experiments/edit_distance.py:120-129.  [next_row] grows instead of being
    filled: a cell is read only after it was written. *)
Definition eed_row (hyp : str) (row : list Qc) (ref_char : N) : result (list Qc) :=
  r0 <- py_get row 0 ;;
  foldM (fun next_row (e : nat * N) =>
    let '(hyp_idx, hyp_char) := e in
    a <- py_get next_row (Z.of_nat hyp_idx) ;;
    b <- py_get row (Z.of_nat hyp_idx) ;;
    c <- py_get row (Z.of_nat hyp_idx + 1) ;;
    let m := qmin (qmin (rnd (a + deletion)) (rnd (b + if N.eqb ref_char hyp_char then 0 else substitution))) (rnd (c + insertion)) in
    Ok (next_row ++ [m])) (enum hyp) [rnd (r0 + 1)].

(** Line 132: the minimum of pairs, compared by cost and then by index. *)
Definition pair_min (p q : Qc * nat) : Qc * nat :=
  if qltb (fst q) (fst p) || (qeqb (fst q) (fst p) && Nat.ltb (snd q) (snd p)) then q else p.
Definition min_cost (row : list Qc) : result (Qc * nat) :=
  match map (fun e => (snd e, fst e)) (enum row) with
  | [] => Err ValueError
  | p :: l => Ok (fold_left pair_min l p)
  end.

(** Lines 119-150; the state is [row] and [visit_coverage]. *)
Definition eed_step (hyp : str) (st : list Qc * list Qc) (ref_char : N) : result (list Qc * list Qc) :=
  let '(row, visit_coverage) := st in
  next_row <- eed_row hyp row ref_char ;;
  m <- min_cost next_row ;;
  let '(cost, idx) := m in
  v <- py_get visit_coverage (Z.of_nat idx) ;;
  visit_coverage <- py_set visit_coverage (Z.of_nat idx) (rnd (v + 1)) ;;
  let next_row := if isspace ref_char
                  then let long_jump_cost := rnd (jump + cost) in map (fun x => qmin x long_jump_cost) next_row
                  else next_row in
  Ok (next_row, visit_coverage).

(** Lines 63-167. *)
Definition extended_edit_distance (hyp ref : str) : result Qc :=
  let hyp := [32%N] ++ hyp ++ [32%N] in
  let ref := [32%N] ++ ref ++ [32%N] in
  let visit_coverage := repeat 0 (length hyp + 1) in
  let row := [0] ++ repeat 1 (length hyp) in
  st <- foldM (eed_step hyp) ref (row, visit_coverage) ;;
  let '(row, visit_coverage) := st in
  errors <- py_get row (-1) ;;
  let weighted_coverage := rnd (rho * fold_left (fun s v => rnd (s + qabs (rnd (v - 1)))) visit_coverage 0) in
  let divisor := rnd (rnd (qz (zlen ref)) + weighted_coverage) in
  if qeqb divisor 0 then Err ZeroDivisionError else
  Ok (qmin 1 (rnd (rnd (errors + weighted_coverage) / divisor))).

End Model.
