(** Model of tests/test_emd_correctness.py, and of the loops of
    experiments/correctness-test.py. *)
From Coq Require Import ZArith QArith Qcanon List Bool.
From Verif Require Import Num Py EmdModel HybridModel CheckModel.
Import ListNotations.
Open Scope Qc_scope.

Section Rounding.
Variable rnd : Qc -> Qc.
(** The default [rel_tol] of [math.isclose], and the float [1e-9]. *)
Variables rel_tol nano : Qc.

(** tests/test_emd_correctness.py:18-88, [emd_1d_dp_optimized]: the same text
    as experiments/correctness-test.py:15-85, modelled in CheckModel.v *)

(** tests/test_emd_correctness.py:91-121, [check_emd_implementations].  A
    negative tolerance is refused by [math.isclose]. *)
Definition check_emd_implementations (positions_x positions_y : list Qc) (tolerance : Qc) : result Qc :=
  result_fast_original <- emd_1d_old rnd positions_x positions_y ;;
  result_dp <- emd_1d_dp rnd positions_x positions_y ;;
  result_dp_opt <- emd_1d_dp_optimized rnd positions_x positions_y ;;
  result_hybrid <- emd_1d_hybrid rnd positions_x positions_y ;;
  if qltb tolerance 0 then Err ValueError else
  if negb (isclose rnd rel_tol tolerance result_fast_original result_dp) then Err AssertionError else
  if negb (isclose rnd rel_tol tolerance result_fast_original result_dp_opt) then Err AssertionError else
  if negb (isclose rnd rel_tol tolerance result_fast_original result_hybrid) then Err AssertionError else
  Ok result_fast_original.

(** A loop whose body returns nothing. *)
Definition for_each {A} (l : list A) (body : A -> result unit) : result unit :=
  foldM (fun _ a => body a) l tt.

(** tests/test_emd_correctness.py:134-135 and
    experiments/correctness-test.py:202-203 *)
Definition base_positions (num : Z) : list Qc :=
  map (fun i => if Z.gtb num 1 then rnd (qz i / qz (num - 1)) else rnd (1 / qz 2)) (py_range 0 num).

(** tests/test_emd_correctness.py:127-141, [sample_data]; the code has
    [num_x = 3] and [num_y = 9] *)
Definition sample_data (num_x num_y : Z) : list Qc * list Qc :=
  let xs_base := base_positions num_x in
  let ys_base := base_positions num_y in
  (xs_base ++ xs_base ++ xs_base, ys_base).

(** [assert math.isclose(a, b, abs_tol=1e-9)] *)
Definition assert_close (a b : Qc) : result unit :=
  if isclose rnd rel_tol nano a b then Ok tt else Err AssertionError.

(** tests/test_emd_correctness.py:159-175, [test_symmetry] *)
Definition test_symmetry (data : list Qc * list Qc) : result unit :=
  let '(xs, ys) := data in
  for_each (py_range 1 4) (fun x_len =>
  for_each (py_range 1 4) (fun y_len =>
  for_each (firstn 3 (combinations (Z.to_nat x_len) xs)) (fun x_combi =>
  for_each (firstn 3 (combinations (Z.to_nat y_len) ys)) (fun y_combi =>
    result_xy <- check_emd_implementations x_combi y_combi nano ;;
    result_yx <- check_emd_implementations y_combi x_combi nano ;;
    assert_close result_xy result_yx)))).

(** tests/test_emd_correctness.py:191-207, [test_comprehensive] *)
Definition test_comprehensive (data : list Qc * list Qc) : result unit :=
  let '(xs, ys) := data in
  for_each (py_range 1 4) (fun x_len =>
  for_each (py_range 1 4) (fun y_len =>
  for_each (firstn 3 (combinations (Z.to_nat x_len) xs)) (fun x_combi =>
  for_each (firstn 3 (combinations (Z.to_nat y_len) ys)) (fun y_combi =>
    _ <- check_emd_implementations x_combi y_combi nano ;; Ok tt)))).

(** A decimal number of the source, [n / d]. *)
Definition lit (n : Z) (d : Z) : Qc := rnd (qz n / qz d).

(** tests/test_emd_correctness.py:143-150, [test_input_validation]; lines
    152-157 are a comment *)
Definition test_input_validation : result unit :=
  _ <- check_emd_implementations [lit 1 10; lit 5 10; lit 9 10] [lit 2 10; lit 4 10; lit 6 10; lit 8 10] nano ;; Ok tt.

(** tests/test_emd_correctness.py:177-190, [test_edge_cases] *)
Definition test_edge_cases : result unit :=
  _ <- check_emd_implementations [] [lit 5 10] nano ;;
  _ <- check_emd_implementations [lit 5 10] [] nano ;;
  result <- check_emd_implementations [lit 5 10] [lit 5 10] nano ;;
  _ <- assert_close result 0 ;;
  result' <- check_emd_implementations [lit 2 10] [lit 8 10] nano ;;
  assert_close result' (lit 6 10).

(** experiments/correctness-test.py:211-226, the sweep of the script *)
Definition script_sweep (data : list Qc * list Qc) : result unit :=
  let '(xs, ys) := data in
  for_each (py_range 0 (zlen xs + 1)) (fun x_len =>
  for_each (py_range 0 (zlen ys + 1)) (fun y_len =>
  for_each (combinations (Z.to_nat x_len) xs) (fun x_combi =>
  for_each (combinations (Z.to_nat y_len) ys) (fun y_combi =>
    result_xy <- check_correct_emd_1d rnd rel_tol x_combi y_combi nano ;;
    result_yx <- check_correct_emd_1d rnd rel_tol y_combi x_combi nano ;;
    assert_close result_xy result_yx)))).
End Rounding.
