(** Model of experiments/correctness-test.py. *)
From Coq Require Import ZArith QArith Qcanon List Bool.
From Verif Require Import Num Py EmdModel HybridModel.
Import ListNotations.
Open Scope Qc_scope.

Section Rounding.
Variable rnd : Qc -> Qc.

(** experiments/correctness-test.py:63-76, the body of the inner loop *)
Definition opt_cell (x y prev : list Qc) (i : Z) (curr : list Qc) (j : Z) : result (list Qc) :=
  xi <- py_get x (i - 1) ;;
  yj <- py_get y (j - 1) ;;
  p1 <- py_get prev (j - 1) ;;
  let match_cost := rnd (qabs (rnd (xi - yj)) + p1) in
  p2 <- py_get prev j ;;
  let leave_x_cost := rnd (1 + p2) in
  c1 <- py_get curr (j - 1) ;;
  let leave_y_cost := rnd (1 + c1) in
  py_set curr j (qmin3 match_cost leave_x_cost leave_y_cost).

(** experiments/correctness-test.py:57-80, the body of the outer loop *)
Definition opt_row (x y : list Qc) (rows : list Qc * list Qc) (i : Z) : result (list Qc * list Qc) :=
  let '(prev, curr) := rows in
  curr0 <- py_set curr 0 (qz i) ;;
  curr' <- foldM (opt_cell x y prev i) (py_range 1 (zlen y + 1)) curr0 ;;
  Ok (curr', prev).

(** experiments/correctness-test.py:15-85, [emd_1d_dp_optimized] *)
Definition emd_1d_dp_optimized (positions_x positions_y : list Qc) : result Qc :=
  let x0 := qsort positions_x in
  let y0 := qsort positions_y in
  let '(x, y) := (if Z.gtb (zlen x0) (zlen y0) then (y0, x0) else (x0, y0)) in
  let prev := map qz (py_range 0 (zlen y + 1)) in
  let curr := prev in
  rows <- foldM (opt_row x y) (py_range 1 (zlen x + 1)) (prev, curr) ;;
  py_get (fst rows) (zlen y).

(** [math.isclose(a, b, rel_tol=.., abs_tol=..)] of the Python library, for
    finite numbers and tolerances that are not negative *)
Definition isclose (rel_tol abs_tol a b : Qc) : bool :=
  qeqb a b ||
  let diff := qabs (rnd (b - a)) in
  qleb diff (qabs (rnd (rel_tol * b))) || qleb diff (qabs (rnd (rel_tol * a))) || qleb diff abs_tol.

(** experiments/correctness-test.py:88-195, [check_correct_emd_1d].  The
    arguments are lists of numbers, so that the four [isinstance] checks
    pass.  [rel_tol] is the default of [math.isclose]. *)
Definition check_correct_emd_1d (rel_tol : Qc) (positions_x positions_y : list Qc) (tolerance : Qc) : result Qc :=
  if negb (forallb (fun x => qleb 0 x && qleb x 1) positions_x) then Err AssertionError else
  if negb (forallb (fun y => qleb 0 y && qleb y 1) positions_y) then Err AssertionError else
  result_fast_original <- emd_1d_old rnd positions_x positions_y ;;
  result_dp <- emd_1d_dp rnd positions_x positions_y ;;
  result_dp_opt <- emd_1d_dp_optimized positions_x positions_y ;;
  result_hybrid <- emd_1d_hybrid rnd positions_x positions_y ;;
  if qltb tolerance 0 then Err ValueError else
  let dp_matches := isclose rel_tol tolerance result_fast_original result_dp in
  let dp_opt_matches := isclose rel_tol tolerance result_fast_original result_dp_opt in
  let hybrid_matches := isclose rel_tol tolerance result_fast_original result_hybrid in
  if negb dp_matches then Err AssertionError else
  if negb dp_opt_matches then Err AssertionError else
  if negb hybrid_matches then Err AssertionError else
  Ok result_fast_original.
End Rounding.
