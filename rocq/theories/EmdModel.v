(** Model of nmd/emd_1d.py: [emd_1d_slow] and [emd_1d_dp].

    Numbers are rationals.  Every floating point operation [op a b] of the
    code is written [rnd (op a b)], for an arbitrary function [rnd]; exact
    arithmetic is [rnd := fun x => x].  Comparisons, [min] and [abs] are exact
    in IEEE arithmetic and are not rounded. *)
From Coq Require Import ZArith QArith Qcanon List.
From Verif Require Import Num Py.
Import ListNotations.
Open Scope Qc_scope.

(** Python's [sorted] on numbers. *)
Definition qsort : list Qc -> list Qc := isort qleb.

(** [min(a, b, c)] *)
Definition qmin3 (a b c : Qc) : Qc := qmin (qmin a b) c.

Section Rounding.
Variable rnd : Qc -> Qc.

(** nmd/emd_1d.py:79-89, the body of the inner loop: computes
    [curr_dp_row[j]] from the neighbouring cells. *)
Definition dp_cell (x y prev : list Qc) (i : Z) (curr : list Qc) (j : Z) : result (list Qc) :=
  xi <- py_get x (i - 1) ;;
  yj <- py_get y (j - 1) ;;
  p1 <- py_get prev (j - 1) ;;
  p2 <- py_get prev j ;;
  c1 <- py_get curr (j - 1) ;;
  let match_cost := rnd (qabs (rnd (xi - yj)) + p1) in
  let leave_x_cost := rnd (1 + p2) in
  let leave_y_cost := rnd (1 + c1) in
  py_set curr j (qmin3 match_cost leave_x_cost leave_y_cost).

(** nmd/emd_1d.py:72-93, the body of the outer loop.  The state is the pair of
    row buffers [(prev_dp_row, curr_dp_row)], swapped at the end. *)
Definition dp_row (x y : list Qc) (rows : list Qc * list Qc) (i : Z) : result (list Qc * list Qc) :=
  let '(prev, curr) := rows in
  curr0 <- py_set curr 0 (qz i) ;;
  curr' <- foldM (dp_cell x y prev i) (py_range 1 (zlen y + 1)) curr0 ;;
  Ok (curr', prev).

(** nmd/emd_1d.py:28-98, [emd_1d_dp].  [float(j)] is exact for the row lengths
    considered and is written [qz j]. *)
Definition emd_1d_dp (positions_x positions_y : list Qc) : result Qc :=
  let x0 := qsort positions_x in
  let y0 := qsort positions_y in
  let '(x, y) := (if Z.gtb (zlen x0) (zlen y0) then (y0, x0) else (x0, y0)) in
  let prev := map qz (py_range 0 (zlen y + 1)) in
  let curr := prev in
  rows <- foldM (dp_row x y) (py_range 1 (zlen x + 1)) (prev, curr) ;;
  py_get (fst rows) (zlen y).

(** [itertools.combinations(l, k)]: all sub-sequences of length [k], in order. *)
Fixpoint combinations (k : nat) (l : list Qc) : list (list Qc) :=
  match k, l with
  | O, _ => [[]]
  | S _, [] => []
  | S k', a :: l' => map (cons a) (combinations k' l') ++ combinations k l'
  end.

(** The generator [abs(x - y) for x, y in zip(xs, ys)] of nmd/emd_1d.py:22. *)
Fixpoint zip_abs (xs ys : list Qc) : list Qc :=
  match xs, ys with
  | a :: xs', b :: ys' => qabs (rnd (a - b)) :: zip_abs xs' ys'
  | _, _ => []
  end.

(** Python's [sum]: left fold from 0. *)
Definition py_sum (l : list Qc) : Qc := fold_left (fun a b => rnd (a + b)) l 0.

(** Python's [min] of a non-empty list given as head and tail. *)
Definition py_min (a : Qc) (l : list Qc) : Qc := fold_left qmin l a.

(** nmd/emd_1d.py:8-25, [emd_1d_slow].  [len(x) - len(y)] is an exact int. *)
Definition emd_1d_slow (positions_x positions_y : list Qc) : Qc :=
  let '(px, py) := (if Z.ltb (zlen positions_x) (zlen positions_y)
                    then (positions_y, positions_x) else (positions_x, positions_y)) in
  let px := qsort px in
  let py := qsort py in
  let costs := map (fun comb => py_sum (zip_abs comb py)) (combinations (length py) px) in
  rnd (qz (zlen px - zlen py) + py_min (qz (zlen py)) costs).

End Rounding.

(** Exact arithmetic. *)
Definition exact (q : Qc) : Qc := q.
