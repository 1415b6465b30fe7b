(** Python's [sum] of floats since version 3.12, and the functions of
    nmd/emd_1d.py and nmd/nmd_index.py that use it.

    The other models take [sum] to be a left fold of rounded additions, as in
    earlier versions.  Here the functions that call [sum] on floats are written
    once more with the summation as a parameter [add_up]; everything they share
    with the earlier models is taken from there. *)
From Coq Require Import ZArith QArith Qcanon List Bool.
From Verif Require Import Num Py EmdModel HybridModel CheckModel TestSuiteModel.
Import ListNotations.
Open Scope Qc_scope.

Section Rounding.
Variable rnd : Qc -> Qc.

(** CPython 3.12 and later, Python/bltinmodule.c, [builtin_sum_impl]: one step of the loop over
    floats.  [c] is the compensation. *)
Definition sum_step (s : Qc * Qc) (x : Qc) : Qc * Qc :=
  let '(f, c) := s in
  let t := rnd (f + x) in
  (t, if qleb (qabs x) (qabs f) then rnd (c + rnd (rnd (f - t) + x)) else rnd (c + rnd (rnd (x - t) + f))).

(** [sum(l)] for a list of floats: the first one is added to the int 0, the
    others are added up with the compensation, which is added at the end
    unless it is zero. *)
Definition py_sum_new (l : list Qc) : Qc :=
  match l with
  | [] => 0
  | x :: l' => let '(f, c) := fold_left sum_step l' (rnd (0 + x), 0) in if qeqb c 0 then f else rnd (f + c)
  end.

(** nmd/nmd_index.py:36-37 with [dim = 1].  An int among the floats is 0 or
    counts n-grams; it is treated as a float. *)
Definition mean_new (l : list Qc) : Qc := rnd (py_sum_new l / qz (zlen l)).

Variable add_up : list Qc -> Qc.

(** nmd/emd_1d.py:8-25, [emd_1d_slow] *)
Definition emd_1d_slow_with (positions_x positions_y : list Qc) : Qc :=
  let '(px, py) := (if Z.ltb (zlen positions_x) (zlen positions_y)
                    then (positions_y, positions_x) else (positions_x, positions_y)) in
  let px := qsort px in
  let py := qsort py in
  let costs := map (fun comb => add_up (zip_abs rnd comb py)) (combinations (length py) px) in
  rnd (qz (zlen px - zlen py) + py_min (qz (zlen py)) costs).

(** nmd/emd_1d.py:101-332, [emd_1d_hybrid] *)
Definition emd_1d_hybrid_with (positions_x positions_y : list Qc) : result Qc :=
  let '(px, py) := (if Z.ltb (zlen positions_x) (zlen positions_y)
                    then (positions_y, positions_x) else (positions_x, positions_y)) in
  match py with
  | [] => Ok (qz (zlen px))
  | [y] => single_y rnd px y
  | _ =>
      let px := rev (qsort px) in
      let py := rev (qsort py) in
      if (zlen px =? zlen py)%Z then Ok (add_up (zip_abs rnd px py))
      else let '(xs, ys) := drop_common (rev px) (rev py) in hybrid_rest rnd xs ys
  end.

(** nmd/emd_1d.py:471-534: the body of the component loop (old) *)
Definition old_component_with (s : list point) (st : Z * Qc) (c : Z * Z) : result (Z * Qc) :=
  let '(last_seen, d) := st in
  let '(lo, hi) := c in
  let d := if (last_seen + 1 <? lo)%Z then rnd (d + qz (lo - last_seen - 1)) else d in
  let cx := component s lo hi false in
  let cy := component s lo hi true in
  g <- greedy_small_old rnd cy cx d ;;
  let '(cy, cx, d) := g in
  g <- greedy_large_old rnd (rev cy) (rev cx) d ;;
  let '(cy, cx, d) := g in
  let cy := rev cy in
  let cx := rev cx in
  d <- match cy with
       | [] => Ok (rnd (d + qz (zlen cx)))
       | [y] =>
           m <- min_of (map (fun x => qabs (rnd (x - y))) cx) ;;
           Ok (rnd (d + rnd (rnd (m + qz (zlen cx)) - 1)))
       | _ =>
           let costs := map (fun comb => add_up (zip_abs rnd comb cy)) (combinations (length cy) cx) in
           Ok (rnd (d + rnd (rnd (py_min (qz (zlen cy)) costs + qz (zlen cx)) - qz (zlen cy))))
       end ;;
  Ok (hi, d).

(** nmd/emd_1d.py:406-540 *)
Definition old_rest_with (xs ys : list Qc) : result Qc :=
  match ys with
  | [] => Ok (qz (zlen xs))
  | [y] => single_y rnd xs y
  | _ =>
      let locs := merge_points xs ys in
      s <- foldM (old_component_with locs) (components locs) ((-1)%Z, 0) ;;
      let '(last_seen, d) := s in
      Ok (if (last_seen + 1 <? zlen locs)%Z then rnd (d + qz (zlen locs - last_seen - 1)) else d)
  end.

(** nmd/emd_1d.py:335-540, [emd_1d_old] *)
Definition emd_1d_old_with (positions_x positions_y : list Qc) : result Qc :=
  let '(px, py) := (if Z.ltb (zlen positions_x) (zlen positions_y)
                    then (positions_y, positions_x) else (positions_x, positions_y)) in
  match py with
  | [] => Ok (qz (zlen px))
  | [y] => single_y rnd px y
  | _ =>
      let px := rev (qsort px) in
      let py := rev (qsort py) in
      if (zlen px =? zlen py)%Z then Ok (add_up (zip_abs rnd px py))
      else let '(xs, ys) := drop_common (rev px) (rev py) in old_rest_with xs ys
  end.

(** tests/test_emd_correctness.py:91-121, [check_emd_implementations] *)
Definition check_emd_implementations_with (rel_tol : Qc) (positions_x positions_y : list Qc) (tolerance : Qc) : result Qc :=
  result_fast_original <- emd_1d_old_with positions_x positions_y ;;
  result_dp <- emd_1d_dp rnd positions_x positions_y ;;
  result_dp_opt <- emd_1d_dp_optimized rnd positions_x positions_y ;;
  result_hybrid <- emd_1d_hybrid_with positions_x positions_y ;;
  if qltb tolerance 0 then Err ValueError else
  if negb (isclose rnd rel_tol tolerance result_fast_original result_dp) then Err AssertionError else
  if negb (isclose rnd rel_tol tolerance result_fast_original result_dp_opt) then Err AssertionError else
  if negb (isclose rnd rel_tol tolerance result_fast_original result_hybrid) then Err AssertionError else
  Ok result_fast_original.
End Rounding.
