(** Model of nmd/emd_1d.py: [emd_1d_hybrid] and [emd_1d_old]. *)
From Coq Require Import ZArith QArith Qcanon List Bool.
From Verif Require Import Num Py EmdModel.
Import ListNotations.
Open Scope Qc_scope.

(** [min] of a generator: ValueError when it is empty. *)
Definition min_of (l : list Qc) : result Qc :=
  match l with [] => Err ValueError | a :: l' => Ok (py_min a l') end.

(** nmd/emd_1d.py:151-169 (hybrid), 387-404 (old): drop the points common to
    both lists.  The code pops from the end of lists sorted in descending
    order and builds ascending lists; here both lists are ascending and
    consumed from the front. *)
Fixpoint drop_common (xs : list Qc) : list Qc -> list Qc * list Qc :=
  match xs with
  | [] => fun ys => ([], ys)
  | x :: xs' =>
      fix inner (ys : list Qc) : list Qc * list Qc :=
        match ys with
        | [] => (x :: xs', [])
        | y :: ys' =>
            if qltb x y then let '(a, b) := drop_common xs' (y :: ys') in (x :: a, b)
            else if qltb y x then let '(a, b) := inner ys' in (a, y :: b)
            else drop_common xs' ys'
        end
  end.

(** A point and whether it comes from the second list. *)
Notation point := (Qc * bool)%type.

(** Comparison of the tuples [(loc, is_y)], [False < True]. *)
Definition point_leb (a b : point) : bool :=
  qltb (fst a) (fst b) || (qeqb (fst a) (fst b) && (negb (snd a) || snd b)).

(** nmd/emd_1d.py:183 (hybrid), 424 (old) *)
Definition merge_points (xs ys : list Qc) : list point :=
  isort point_leb (map (fun loc => (loc, false)) xs ++ map (fun loc => (loc, true)) ys).

(** State of a range scan: counter [n], [current_left] (or [current_right]),
    and [component_ranges] so far. *)
Definition scan := (Z * option Z * list (Z * Z))%type.

(** nmd/emd_1d.py:190-198 (hybrid), 431-439 (old): one iteration. *)
Definition scan_fwd (s : scan) (idx : Z) (is_y : bool) : scan :=
  let '(n, cur, ranges) := s in
  if is_y then ((n + 1)%Z, match cur with None => Some idx | Some _ => cur end, ranges)
  else if (0 <? n)%Z then
    if (n - 1 =? 0)%Z
    then ((n - 1)%Z, None, ranges ++ [(match cur with Some l => l | None => 0%Z end, idx)])
    else ((n - 1)%Z, cur, ranges)
  else s.

(** nmd/emd_1d.py:187-200 (hybrid), 428-441 (old): forward ranges. *)
Definition forward_ranges (locs : list point) : list (Z * Z) :=
  let '(_, cur, ranges) :=
    fold_left (fun s e => scan_fwd s (fst e) (snd (snd e)))
              (combine (py_range 0 (zlen locs)) locs) (0%Z, None, []) in
  match cur with Some l => ranges ++ [(l, (zlen locs - 1)%Z)] | None => ranges end.

(** nmd/emd_1d.py:206-214 (hybrid), 447-455 (old): one iteration. *)
Definition scan_bwd (s : scan) (idx : Z) (is_y : bool) : scan :=
  let '(n, cur, ranges) := s in
  if is_y then ((n + 1)%Z, match cur with None => Some idx | Some _ => cur end, ranges)
  else if (0 <? n)%Z then
    if (n - 1 =? 0)%Z
    then ((n - 1)%Z, None, ranges ++ [(idx, match cur with Some r => r | None => 0%Z end)])
    else ((n - 1)%Z, cur, ranges)
  else s.

(** nmd/emd_1d.py:203-216 (hybrid), 444-457 (old): backward ranges. *)
Definition backward_ranges (locs : list point) : list (Z * Z) :=
  let '(_, cur, ranges) :=
    fold_left (fun s e => scan_bwd s (fst e) (snd (snd e)))
              (rev (combine (py_range 0 (zlen locs)) locs)) (0%Z, None, []) in
  match cur with Some r => ranges ++ [(0%Z, r)] | None => ranges end.

(** Comparison of the tuples [(lo, hi)]. *)
Definition range_leb (a b : Z * Z) : bool :=
  (fst a <? fst b)%Z || ((fst a =? fst b)%Z && (snd a <=? snd b)%Z).

(** nmd/emd_1d.py:220-226 (hybrid), 463-469 (old): merge overlapping ranges.
    The code sorts in reverse and pops from the end while it processes the
    components; processing does not touch the ranges, so all components are
    computed first here. *)
Fixpoint merge_ranges (cur : Z * Z) (rest : list (Z * Z)) : list (Z * Z) :=
  match rest with
  | [] => [cur]
  | (l, r) :: rest' =>
      if (l <=? snd cur)%Z then merge_ranges (fst cur, Z.max (snd cur) r) rest'
      else cur :: merge_ranges (l, r) rest'
  end.

Definition components (locs : list point) : list (Z * Z) :=
  match isort range_leb (forward_ranges locs ++ backward_ranges locs) with
  | [] => []
  | c :: rest => merge_ranges c rest
  end.

(** The points of one kind with index in [lo .. hi], ascending:
    nmd/emd_1d.py:240-241 (hybrid); 476-477 (old) builds the same lists in
    descending order. *)
Definition component (locs : list point) (lo hi : Z) (is_y : bool) : list Qc :=
  map (fun e => fst (snd e))
    (filter (fun e => (lo <=? fst e)%Z && (fst e <=? hi)%Z && Bool.eqb (snd (snd e)) is_y)
       (combine (py_range 0 (zlen locs)) locs)).

(** Number of x points with index in [from .. upto - 1]: nmd/emd_1d.py:232-236,
    326-330 (hybrid). *)
Definition count_x (locs : list point) (from upto : Z) : Z :=
  zlen (filter (fun e => (from <=? fst e)%Z && (fst e <? upto)%Z && negb (snd (snd e)))
       (combine (py_range 0 (zlen locs)) locs)).

Section Rounding.
Variable rnd : Qc -> Qc.

(** nmd/emd_1d.py:130-135 and 175-178 (hybrid), 369-370 and 413-414 (old):
    a single y. *)
Definition single_y (xs : list Qc) (y : Qc) : result Qc :=
  m <- min_of (map (fun x => qabs (rnd (x - y))) xs) ;;
  Ok (rnd (rnd (m + qz (zlen xs)) - 1)).

(** nmd/emd_1d.py:246-260: greedy matching at the smaller end (hybrid). *)
Fixpoint greedy_small (cy cx : list Qc) (d : Qc) : list Qc * list Qc * Qc :=
  match cy, cx with
  | y :: cy', x :: cx' =>
      if qleb y x then greedy_small cy' cx' (rnd (d + qabs (rnd (x - y))))
      else match cx' with
           | x1 :: _ =>
               if qltb y x1 && qleb (rnd (y - x)) (rnd (x1 - y))
               then greedy_small cy' cx' (rnd (d + qabs (rnd (y - x))))
               else (cy, cx, d)
           | [] => (cy, cx, d)
           end
  | _, _ => (cy, cx, d)
  end.

(** nmd/emd_1d.py:263-277: greedy matching at the larger end (hybrid).  The
    lists are given in descending order, so that [x[-1]] is the head. *)
Fixpoint greedy_large (cy cx : list Qc) (d : Qc) : list Qc * list Qc * Qc :=
  match cy, cx with
  | y :: cy', x :: cx' =>
      if qleb x y then greedy_large cy' cx' (rnd (d + qabs (rnd (y - x))))
      else match cx' with
           | x1 :: _ =>
               if qltb x1 y && qleb (rnd (x - y)) (rnd (y - x1))
               then greedy_large cy' cx' (rnd (d + qabs (rnd (y - x))))
               else (cy, cx, d)
           | [] => (cy, cx, d)
           end
  | _, _ => (cy, cx, d)
  end.

(** nmd/emd_1d.py:308-315: one row of the fallback table; unlike [emd_1d_dp]
    the finished row is copied. *)
Definition dp_row_copy (x y : list Qc) (rows : list Qc * list Qc) (i : Z) : result (list Qc * list Qc) :=
  let '(prev, curr) := rows in
  curr0 <- py_set curr 0 (qz i) ;;
  curr' <- foldM (dp_cell rnd x y prev i) (py_range 1 (zlen y + 1)) curr0 ;;
  Ok (curr', curr').

(** nmd/emd_1d.py:293-318: the dynamic programming fallback (hybrid). *)
Definition dp_fallback (cx cy : list Qc) : result Qc :=
  let '(x, y) := (if Z.gtb (zlen cx) (zlen cy) then (cy, cx) else (cx, cy)) in
  let prev := map qz (py_range 0 (zlen y + 1)) in
  let curr := map (fun _ => 0) (py_range 0 (zlen y + 1)) in
  rows <- foldM (dp_row_copy x y) (py_range 1 (zlen x + 1)) (prev, curr) ;;
  py_get (fst rows) (zlen y).

(** nmd/emd_1d.py:228-322: the body of the component loop (hybrid).  The state
    is [(last_seen, distance)]. *)
Definition hybrid_component (locs : list point) (s : Z * Qc) (c : Z * Z) : result (Z * Qc) :=
  let '(last_seen, d) := s in
  let '(lo, hi) := c in
  let d := if (last_seen + 1 <? lo)%Z
           then rnd (d + qz (count_x locs (last_seen + 1) lo)) else d in
  let cx := component locs lo hi false in
  let cy := component locs lo hi true in
  let '(cy, cx, d) := greedy_small cy cx d in
  let '(cy, cx, d) := greedy_large (rev cy) (rev cx) d in
  let cy := rev cy in
  let cx := rev cx in
  d <- (if (zlen cy =? 0)%Z then Ok (rnd (d + qz (zlen cx)))
        else if (zlen cx =? 0)%Z then Ok d
        else e <- dp_fallback cx cy ;; Ok (rnd (d + e))) ;;
  Ok (hi, d).

(** nmd/emd_1d.py:171-332: after the common points are gone (hybrid). *)
Definition hybrid_rest (xs ys : list Qc) : result Qc :=
  match ys with
  | [] => Ok (qz (zlen xs))
  | [y] => single_y xs y
  | _ =>
      let locs := merge_points xs ys in
      s <- foldM (hybrid_component locs) (components locs) ((-1)%Z, 0) ;;
      let '(last_seen, d) := s in
      Ok (if (last_seen + 1 <? zlen locs)%Z
          then rnd (d + qz (count_x locs (last_seen + 1) (zlen locs))) else d)
  end.

(** nmd/emd_1d.py:101-332, [emd_1d_hybrid]. *)
Definition emd_1d_hybrid (positions_x positions_y : list Qc) : result Qc :=
  let '(px, py) := (if Z.ltb (zlen positions_x) (zlen positions_y)
                    then (positions_y, positions_x) else (positions_x, positions_y)) in
  match py with
  | [] => Ok (qz (zlen px))
  | [y] => single_y px y
  | _ =>
      let px := rev (qsort px) in
      let py := rev (qsort py) in
      if (zlen px =? zlen py)%Z then Ok (py_sum rnd (zip_abs rnd px py))
      else let '(xs, ys) := drop_common (rev px) (rev py) in hybrid_rest xs ys
  end.

(** nmd/emd_1d.py:480-494: greedy matching at the smaller end (old).  There is
    no check that x is non-empty.  The code keeps the lists descending and
    pops from the end; here they are ascending. *)
Fixpoint greedy_small_old (cy cx : list Qc) (d : Qc) : result (list Qc * list Qc * Qc) :=
  match cy with
  | [] => Ok (cy, cx, d)
  | y :: cy' =>
      match cx with
      | [] => Err IndexError
      | x :: cx' =>
          if qleb y x then greedy_small_old cy' cx' (rnd (d + rnd (x - y)))
          else match cx' with
               | x1 :: _ =>
                   if qltb y x1 && qleb (rnd (y - x)) (rnd (x1 - y))
                   then greedy_small_old cy' cx' (rnd (d + rnd (y - x)))
                   else Ok (cy, cx, d)
               | [] => Ok (cy, cx, d)
               end
      end
  end.

(** nmd/emd_1d.py:497-515: greedy matching at the larger end (old), lists
    descending.  The last comparison of the second branch is, as written in
    the code, [x[-1] - y[-1] <= y[-1] - x[-1]]. *)
Fixpoint greedy_large_old (cy cx : list Qc) (d : Qc) : result (list Qc * list Qc * Qc) :=
  match cy with
  | [] => Ok (cy, cx, d)
  | y :: cy' =>
      match cx with
      | [] => Err IndexError
      | x :: cx' =>
          if qleb x y then greedy_large_old cy' cx' (rnd (d + rnd (y - x)))
          else match cx' with
               | x1 :: _ =>
                   if qltb x1 y && qleb (rnd (x - y)) (rnd (y - x))
                   then greedy_large_old cy' cx' (rnd (d + rnd (y - x)))
                   else Ok (cy, cx, d)
               | [] => Ok (cy, cx, d)
               end
      end
  end.

(** nmd/emd_1d.py:471-534: the body of the component loop (old). *)
Definition old_component (s : list point) (st : Z * Qc) (c : Z * Z) : result (Z * Qc) :=
  let '(last_seen, d) := st in
  let '(lo, hi) := c in
  let d := if (last_seen + 1 <? lo)%Z then rnd (d + qz (lo - last_seen - 1)) else d in
  let cx := component s lo hi false in
  let cy := component s lo hi true in
  g <- greedy_small_old cy cx d ;;
  let '(cy, cx, d) := g in
  g <- greedy_large_old (rev cy) (rev cx) d ;;
  let '(cy, cx, d) := g in
  let cy := rev cy in
  let cx := rev cx in
  d <- match cy with
       | [] => Ok (rnd (d + qz (zlen cx)))
       | [y] =>
           m <- min_of (map (fun x => qabs (rnd (x - y))) cx) ;;
           Ok (rnd (d + rnd (rnd (m + qz (zlen cx)) - 1)))
       | _ =>
           let costs := map (fun comb => py_sum rnd (zip_abs rnd comb cy)) (combinations (length cy) cx) in
           Ok (rnd (d + rnd (rnd (py_min (qz (zlen cy)) costs + qz (zlen cx)) - qz (zlen cy))))
       end ;;
  Ok (hi, d).

(** nmd/emd_1d.py:406-540: after the common points are gone (old). *)
Definition old_rest (xs ys : list Qc) : result Qc :=
  match ys with
  | [] => Ok (qz (zlen xs))
  | [y] => single_y xs y
  | _ =>
      let locs := merge_points xs ys in
      s <- foldM (old_component locs) (components locs) ((-1)%Z, 0) ;;
      let '(last_seen, d) := s in
      Ok (if (last_seen + 1 <? zlen locs)%Z then rnd (d + qz (zlen locs - last_seen - 1)) else d)
  end.

(** nmd/emd_1d.py:335-540, [emd_1d_old]. *)
Definition emd_1d_old (positions_x positions_y : list Qc) : result Qc :=
  let '(px, py) := (if Z.ltb (zlen positions_x) (zlen positions_y)
                    then (positions_y, positions_x) else (positions_x, positions_y)) in
  match py with
  | [] => Ok (qz (zlen px))
  | [y] => single_y px y
  | _ =>
      let px := rev (qsort px) in
      let py := rev (qsort py) in
      if (zlen px =? zlen py)%Z then Ok (py_sum rnd (zip_abs rnd px py))
      else let '(xs, ys) := drop_common (rev px) (rev py) in old_rest xs ys
  end.

End Rounding.
