(** [emd_1d_hybrid] and [emd_1d_old] under any lawful rounding, on any input. *)
From Coq Require Import ZArith QArith Qcanon List Permutation Sorted Lia Bool.
From Verif Require Import Num Py Float64 EmdSpec EmdModel EmdProofs EmdFloatProofs EmdSlowProofs HybridModel FlowProofs GreedyProofs HybridProofs.
Import ListNotations.
Open Scope Qc_scope.

(** The part shared by both functions, after the arguments are ordered. *)
Definition front (rnd : Qc -> Qc) (rest : list Qc -> list Qc -> result Qc) (px py : list Qc) : result Qc :=
  match py with
  | [] => Ok (qz (zlen px))
  | [y] => single_y rnd px y
  | _ =>
      let px := rev (qsort px) in
      let py := rev (qsort py) in
      if (zlen px =? zlen py)%Z then Ok (py_sum rnd (zip_abs rnd px py))
      else let '(xs, ys) := drop_common (rev px) (rev py) in rest xs ys
  end.
Definition ordered (rnd : Qc -> Qc) (rest : list Qc -> list Qc -> result Qc) (px py : list Qc) : result Qc :=
  if Z.ltb (zlen px) (zlen py) then front rnd rest py px else front rnd rest px py.

Lemma hybrid_ordered rnd xs ys : emd_1d_hybrid rnd xs ys = ordered rnd (hybrid_rest rnd) xs ys.
Proof. unfold emd_1d_hybrid, ordered. destruct (Z.ltb _ _); reflexivity. Qed.
Lemma old_ordered rnd xs ys : emd_1d_old rnd xs ys = ordered rnd (old_rest rnd) xs ys.
Proof. unfold emd_1d_old, ordered. destruct (Z.ltb _ _); reflexivity. Qed.

Lemma min_of_perm l l' : Permutation l l' -> min_of l = min_of l'.
Proof.
  intros P. destruct l as [|a l], l' as [|b l'].
  - reflexivity.
  - apply Permutation_nil in P. discriminate.
  - symmetry in P. apply Permutation_nil in P. discriminate.
  - unfold min_of. f_equal. destruct (py_min_in a l) as [I1 M1], (py_min_in b l') as [I2 M2].
    assert (H1 := M1 _ (Permutation_in _ (Permutation_sym P) I2)).
    assert (H2 := M2 _ (Permutation_in _ P I1)). clear - H1 H2. qclra.
Qed.

Section Any.
Variable rnd : Qc -> Qc.
Variable rest : list Qc -> list Qc -> result Qc.

Lemma single_y_perm xs xs' y : Permutation xs xs' -> single_y rnd xs y = single_y rnd xs' y.
Proof.
  intros P. unfold single_y. rewrite (min_of_perm _ _ (Permutation_map _ P)). unfold zlen.
  rewrite (Permutation_length P). reflexivity.
Qed.
Lemma front_perm xs xs' ys ys' : Permutation xs xs' -> Permutation ys ys' -> front rnd rest xs ys = front rnd rest xs' ys'.
Proof.
  intros P Q. unfold front. destruct ys as [|y [|y2 ys]].
  - apply Permutation_nil in Q. subst. unfold zlen. rewrite (Permutation_length P). reflexivity.
  - apply Permutation_length_1_inv in Q. subst. apply single_y_perm; auto.
  - rewrite (qsort_perm_eq _ _ P), (qsort_perm_eq _ _ Q).
    apply Permutation_length in Q. destruct ys' as [|z [|z2 ys']]; try (simpl in Q; lia). reflexivity.
Qed.
Lemma ordered_perm xs xs' ys ys' : Permutation xs xs' -> Permutation ys ys' -> ordered rnd rest xs ys = ordered rnd rest xs' ys'.
Proof.
  intros P Q. unfold ordered, zlen. rewrite (Permutation_length P), (Permutation_length Q).
  rewrite (front_perm _ _ _ _ P Q), (front_perm _ _ _ _ Q P). reflexivity.
Qed.

Hypothesis odd : forall a, rnd (- a) = - rnd a.
Lemma rnd_abs_comm a b : qabs (rnd (a - b)) = qabs (rnd (b - a)).
Proof. replace (a - b) with (- (b - a)) by ring. rewrite odd. apply qabs_opp. Qed.
Lemma ordered_sym xs ys : ordered rnd rest xs ys = ordered rnd rest ys xs.
Proof.
  unfold ordered. destruct (Z.ltb (zlen xs) (zlen ys)) eqn:E1, (Z.ltb (zlen ys) (zlen xs)) eqn:E2; try reflexivity; [lia|].
  assert (L : length xs = length ys) by (unfold zlen in *; lia). unfold front.
  destruct xs as [|x [|x2 xs]], ys as [|y [|y2 ys]]; try (simpl in L; lia); auto.
  - unfold single_y. cbn [map]. rewrite (rnd_abs_comm x y). reflexivity.
  - remember (x :: x2 :: xs) as X. remember (y :: y2 :: ys) as Y. clear HeqX HeqY E1 E2.
    cbv zeta. unfold zlen. rewrite !rev_length, !qsort_length, L, Z.eqb_refl. f_equal. f_equal. 
    generalize (rev (qsort X)) (rev (qsort Y)). clear - odd. intros l. induction l as [|a l IH]; intros [|b l']; try reflexivity.
    cbn [zip_abs]. rewrite IH. f_equal. apply rnd_abs_comm.
Qed.
End Any.

Section Lawful.
Variable rnd : Qc -> Qc.
Hypothesis R : lawful rnd.

Lemma py_sum_nonneg l : Forall (fun a => 0 <= a) l -> 0 <= py_sum rnd l.
Proof.
  assert (H : forall c, 0 <= c -> Forall (fun a => 0 <= a) l -> 0 <= fold_left (fun a b => rnd (a + b)) l c).
  { induction l as [|a l IH]; intros c Hc F; simpl; auto. inversion F; subst. apply IH; auto.
    apply rnd_nonneg; auto. clear - Hc H1. qclra. }
  apply H, Qcle_refl.
Qed.
Lemma zip_abs_nonneg xs : forall ys, Forall (fun a => 0 <= a) (zip_abs rnd xs ys).
Proof. induction xs as [|x xs IH]; intros [|y ys]; simpl; constructor; auto. apply qabs_nonneg. Qed.

Lemma min_of_nonneg l m : Forall (fun a => 0 <= a) l -> min_of l = Ok m -> 0 <= m.
Proof.
  destruct l as [|a l]; [discriminate|]. intros F H. unfold min_of in H. injection H as <-.
  destruct (py_min_in a l) as [I _]. rewrite Forall_forall in F. auto.
Qed.

Lemma rnd_count_sub m a b : small a -> (b <= a)%nat -> 0 <= m -> 0 <= rnd (rnd (m + qn a) - qn b).
Proof.
  intros S H Hm. apply rnd_nonneg; auto.
  assert (qn a <= rnd (m + qn a)) by (apply rnd_ge_qn; auto; clear - Hm; qclra).
  apply qn_le in H. clear - H H0. qclra.
Qed.

Lemma single_y_ok xs y : xs <> [] -> small (length xs) -> exists d, single_y rnd xs y = Ok d /\ 0 <= d.
Proof.
  intros N S. unfold single_y. destruct xs as [|x xs]; [contradiction|].
  destruct (min_of (map (fun x => qabs (rnd (x - y))) (x :: xs))) as [m|e] eqn:E; [|discriminate].
  cbn [bind]. eexists. split; [reflexivity|]. apply (rnd_count_sub m _ 1); auto; [simpl; lia|].
  eapply min_of_nonneg; [|exact E]. apply Forall_map, Forall_forall. intros. apply qabs_nonneg.
Qed.

Lemma rnd_add_nonneg d a : 0 <= d -> 0 <= a -> 0 <= rnd (d + a).
Proof. intros. apply rnd_nonneg; auto. clear - H H0. qclra. Qed.

Lemma greedy_small_nonneg cy : forall cx d, 0 <= d ->
  let '(_, _, d') := greedy_small rnd cy cx d in 0 <= d'.
Proof.
  induction cy as [|y cy IH]; intros [|x cx] d H; try exact H. cbn [greedy_small].
  destruct (qleb y x); [apply IH, rnd_add_nonneg; auto using qabs_nonneg|].
  destruct cx as [|x1 cx]; [exact H|]. destruct (_ && _); [apply IH, rnd_add_nonneg; auto using qabs_nonneg|exact H].
Qed.
Lemma greedy_large_nonneg cy : forall cx d, 0 <= d ->
  let '(_, _, d') := greedy_large rnd cy cx d in 0 <= d'.
Proof.
  induction cy as [|y cy IH]; intros [|x cx] d H; try exact H. cbn [greedy_large].
  destruct (qleb x y); [apply IH, rnd_add_nonneg; auto using qabs_nonneg|].
  destruct cx as [|x1 cx]; [exact H|]. destruct (_ && _); [apply IH, rnd_add_nonneg; auto using qabs_nonneg|exact H].
Qed.

Lemma dp_fallback_ok cx cy : exists d, dp_fallback rnd cx cy = Ok d /\ 0 <= d.
Proof.
  assert (main : forall x y, exists d,
     (rows <- foldM (dp_row_copy rnd x y) (py_range 1 (zlen x + 1))
                (map qz (py_range 0 (zlen y + 1)), map (fun _ => 0) (py_range 0 (zlen y + 1))) ;;
      py_get (fst rows) (zlen y)) = Ok d /\ 0 <= d).
  { intros x y. rewrite <- (row_0 rnd x y).
    replace (py_range 1 (zlen x + 1)) with (map Z.of_nat (seq 1 (length x))).
    2:{ rewrite <- py_range_nat. f_equal. unfold zlen. lia. }
    destruct (dp_copy_outer rnd x y (length x) (map (fun _ => 0) (py_range 0 (zlen y + 1)))) as (o & _ & E).
    { lia. } { rewrite map_length, py_range_length. unfold zlen. lia. }
    rewrite E. cbn [bind fst]. unfold zlen. rewrite (py_get_nat _ _ 0) by (rewrite row_length; lia).
    eexists. split; [reflexivity|]. rewrite nth_row by lia. apply edp_nonneg; auto. }
  unfold dp_fallback. destruct (Z.gtb _ _); apply main.
Qed.

Lemma qz_nonneg z : (0 <= z)%Z -> 0 <= qz z.
Proof. intros H. change 0 with (qz 0). apply (proj1 (qz_le 0 z)). auto. Qed.

Lemma hybrid_body_total L last d lo hi : 0 <= d ->
  exists d', hybrid_component rnd L (last, d) (lo, hi) = Ok (hi, d') /\ 0 <= d'.
Proof.
  intros Hd. unfold hybrid_component.
  assert (D : 0 <= (if (last + 1 <? lo)%Z then rnd (d + qz (count_x L (last + 1) lo)) else d)).
  { destruct (_ <? _)%Z; auto. apply rnd_add_nonneg; auto. apply qz_nonneg, zlen_nonneg. }
  set (d0 := if (last + 1 <? lo)%Z then _ else d) in *. clearbody d0. clear d Hd.
  set (cy := component L lo hi true). set (cx := component L lo hi false).
  pose proof (greedy_small_nonneg cy cx d0 D) as D1. destruct (greedy_small rnd cy cx d0) as [[cy1 cx1] d1].
  pose proof (greedy_large_nonneg (rev cy1) (rev cx1) d1 D1) as D2. destruct (greedy_large rnd (rev cy1) (rev cx1) d1) as [[cy2 cx2] d2].
  destruct (zlen (rev cy2) =? 0)%Z; [|destruct (zlen (rev cx2) =? 0)%Z]; cbn [bind].
  - eexists. split; [reflexivity|]. apply rnd_add_nonneg; auto. apply qz_nonneg, zlen_nonneg.
  - eexists. split; [reflexivity|]. auto.
  - destruct (dp_fallback_ok (rev cx2) (rev cy2)) as (e & E & He). rewrite E. cbn [bind].
    eexists. split; [reflexivity|]. apply rnd_add_nonneg; auto.
Qed.

Lemma hybrid_rest_ok xs ys : (length ys <= length xs)%nat -> small (length xs) ->
  exists d, hybrid_rest rnd xs ys = Ok d /\ 0 <= d.
Proof.
  intros Len S. unfold hybrid_rest. destruct ys as [|y [|y' ys']] eqn:E.
  - eexists. split; [reflexivity|]. apply qz_nonneg, zlen_nonneg.
  - apply single_y_ok; auto. destruct xs; [simpl in Len; lia|discriminate].
  - rewrite <- E. clear E. set (L := merge_points xs ys).
    assert (H : forall cs last d, 0 <= d -> exists last' d', foldM (hybrid_component rnd L) cs (last, d) = Ok (last', d') /\ 0 <= d').
    { induction cs as [|[lo hi] cs IH]; intros last d Hd; [eexists _, _; split; [reflexivity|auto]|].
      cbn [foldM]. destruct (hybrid_body_total L last d lo hi Hd) as (d' & B & Hd'). rewrite B. cbn [bind]. auto. }
    destruct (H (components L) (-1)%Z 0 (Qcle_refl 0)) as (last & d & F & Hd). rewrite F. cbn [bind].
    destruct (last + 1 <? zlen L)%Z; eexists; split; try reflexivity; auto.
    apply rnd_add_nonneg; auto. apply qz_nonneg, zlen_nonneg.
Qed.

Lemma lawful_order a b : rnd (a - b) <= rnd (b - a) -> a <= b.
Proof.
  intros H. replace (b - a) with (- (a - b)) in H by ring. rewrite (rnd_odd _ R) in H.
  destruct (qleb a b) eqn:E; [clear - E; qclra|]. exfalso.
  assert (0 <= rnd (a - b)) by (apply rnd_nonneg; auto; clear - E; qclra).
  assert (Z : rnd (a - b) = 0) by (clear - H H0; qclra).
  apply (rnd_zero _ R) in Z. clear - Z E. qclra.
Qed.

Lemma old_body_total L (S : small (length L)) Pre G C T last d : 
  L = Pre ++ G ++ C ++ T -> zlen Pre = (last + 1)%Z -> ys_of G = [] -> (net C <= 0)%Z -> 0 <= d ->
  exists d', old_component rnd L (last, d) ((last + 1 + zlen G)%Z, (last + zlen G + zlen C)%Z)
     = Ok ((last + zlen G + zlen C)%Z, d') /\ 0 <= d'.
Proof.
  intros HL Hlen YG NC Hd. unfold old_component.
  assert (D : 0 <= (if (last + 1 <? last + 1 + zlen G)%Z then rnd (d + qz (last + 1 + zlen G - last - 1)) else d)).
  { destruct (_ <? _)%Z; auto. apply rnd_add_nonneg; auto. apply qz_nonneg. pose proof (zlen_nonneg G). lia. }
  set (d0 := if (last + 1 <? last + 1 + zlen G)%Z then _ else d) in *. clearbody d0. clear d Hd.
  rewrite !(component_slice L (Pre ++ G) C T) by (rewrite ?zlen_app, ?HL, ?app_assoc; auto; lia).
  assert (SX : (length (xs_of C) <= length L)%nat).
  { rewrite HL, !app_length. assert (length (xs_of C) <= length C)%nat by (unfold xs_of; rewrite map_length; clear; induction C as [|[? []] C IH]; simpl; lia). lia. }
  rewrite net_len in NC. unfold zlen in NC.
  set (cy := ys_of C) in *. set (cx := xs_of C) in *. clearbody cy cx.
  assert (HP : forall d a, 0 <= d -> 0 <= a -> 0 <= rnd (d + rnd a)).
  { intros. apply rnd_add_nonneg; auto. apply rnd_nonneg; auto. }
  assert (G1 : forall cy cx d, (length cy <= length cx)%nat -> 0 <= d ->
     exists cy' cx' d', greedy_small_old rnd cy cx d = Ok (cy', cx', d') /\ (length cy' <= length cx' <= length cx)%nat /\ 0 <= d').
  { clear - R HP. induction cy as [|y cy IH]; intros cx d H Pd; [eexists _, _, _; split; [reflexivity|auto]|].
    destruct cx as [|x cx]; [simpl in H; lia|]. assert (H0 : (length cy <= length cx)%nat) by (simpl in H; lia).
    cbn [greedy_small_old]. destruct (qleb y x) eqn:E.
    - destruct (IH cx (rnd (d + rnd (x - y))) H0) as (a & b & c & E1 & E2 & E3); [apply HP; auto; clear - E; qclra|].
      exists a, b, c. repeat split; auto; simpl; lia.
    - destruct cx as [|x1 cx]; [eexists _, _, _; split; [reflexivity|auto]|].
      destruct (_ && _); [|eexists _, _, _; split; [reflexivity|auto]].
      destruct (IH (x1 :: cx) (rnd (d + rnd (y - x))) H0) as (a & b & c & E1 & E2 & E3); [apply HP; auto; clear - E; qclra|].
      exists a, b, c. repeat split; auto; simpl in *; lia. }
  assert (G2 : forall cy cx d, (length cy <= length cx)%nat -> 0 <= d ->
     exists cy' cx' d', greedy_large_old rnd cy cx d = Ok (cy', cx', d') /\ (length cy' <= length cx' <= length cx)%nat /\ 0 <= d').
  { clear - R HP. induction cy as [|y cy IH]; intros cx d H Pd; [eexists _, _, _; split; [reflexivity|auto]|].
    destruct cx as [|x cx]; [simpl in H; lia|]. assert (H0 : (length cy <= length cx)%nat) by (simpl in H; lia).
    cbn [greedy_large_old]. destruct (qleb x y) eqn:E.
    - destruct (IH cx (rnd (d + rnd (y - x))) H0) as (a & b & c & E1 & E2 & E3); [apply HP; auto; clear - E; qclra|].
      exists a, b, c. repeat split; auto; simpl; lia.
    - destruct cx as [|x1 cx]; [eexists _, _, _; split; [reflexivity|auto]|].
      destruct (qltb x1 y && qleb (rnd (x - y)) (rnd (y - x))) eqn:E2; [|eexists _, _, _; split; [reflexivity|auto]].
      exfalso. apply andb_true_iff in E2. destruct E2 as [_ E2]. apply qleb_le, lawful_order in E2. clear - E E2. qclra. }
  destruct (G1 cy cx d0 ltac:(lia) D) as (cy1 & cx1 & d1 & E1 & L1 & D1). rewrite E1. cbn [bind].
  destruct (G2 (rev cy1) (rev cx1) d1 ltac:(rewrite !rev_length; lia) D1) as (cy2 & cx2 & d2 & E2 & L2 & D2). rewrite E2. cbn [bind].
  rewrite !rev_length in L2. rewrite <- (rev_length cy2), <- (rev_length cx2) in L2.
  assert (S2 : small (length (rev cx2))) by (unfold small in *; lia).
  set (cy3 := rev cy2) in *. set (cx3 := rev cx2) in *. clearbody cy3 cx3.
  destruct cy3 as [|y [|y' cy3]]; cbn [bind].
  - eexists. split; [reflexivity|]. apply rnd_add_nonneg; auto. apply qz_nonneg, zlen_nonneg.
  - destruct (single_y_ok cx3 y) as (e & E & He); auto; [destruct cx3; [simpl in L2; lia|discriminate]|].
    unfold single_y in E. destruct (min_of _) as [m|]; [|discriminate]. cbn [bind] in *.
    eexists. split; [reflexivity|]. apply rnd_add_nonneg; auto. injection E as <-. auto.
  - eexists. split; [reflexivity|]. apply rnd_add_nonneg; auto.
    apply (rnd_count_sub _ (length cx3) (length (y :: y' :: cy3))); auto; [lia|].
    set (costs := map _ _). destruct (py_min_spec costs (qz (zlen (y :: y' :: cy3)))) as [[->|I] _].
    + apply qz_nonneg, zlen_nonneg.
    + set (m := py_min _ _) in *. clearbody m. unfold costs in I. apply in_map_iff in I. destruct I as (c & <- & _).
      apply py_sum_nonneg, zip_abs_nonneg.
Qed.

Lemma old_rest_ok xs ys : (length ys <= length xs)%nat -> small (length xs + length ys) ->
  exists d, old_rest rnd xs ys = Ok d /\ 0 <= d.
Proof.
  intros Len S. unfold old_rest. destruct ys as [|y [|y' ys']] eqn:E.
  - eexists. split; [reflexivity|]. apply qz_nonneg, zlen_nonneg.
  - apply single_y_ok; [destruct xs; [simpl in Len; lia|discriminate]|unfold small in *; lia].
  - rewrite <- E in *. clear E. set (L := merge_points xs ys).
    assert (SL : small (length L)).
    { unfold L, merge_points. rewrite isort_length, app_length, !map_length. auto. }
    destruct (loop_total_shape L (old_component rnd L) (merged_net xs ys Len) (fun d => 0 <= d) (old_body_total L SL)
       (components L) [] (-1) 0 [] L) as (last & d & F & Hd); auto.
    + intros ? ? [].
    + apply components_spec.
    + apply Qcle_refl.
    + rewrite F. cbn [bind]. destruct (last + 1 <? zlen L)%Z eqn:E; eexists; split; try reflexivity; auto.
      apply rnd_add_nonneg; auto. apply qz_nonneg. lia.
Qed.

Lemma front_ok rest xs ys : (length ys <= length xs)%nat -> small (length xs + length ys) ->
  (forall a b, (length b <= length a)%nat -> small (length a + length b) -> exists d, rest a b = Ok d /\ 0 <= d) ->
  exists d, front rnd rest xs ys = Ok d /\ 0 <= d.
Proof.
  intros Len S HR. unfold front. destruct ys as [|y [|y' ys']] eqn:E.
  - eexists. split; [reflexivity|]. apply qz_nonneg, zlen_nonneg.
  - apply single_y_ok; [destruct xs; [simpl in Len; lia|discriminate]|unfold small in *; lia].
  - rewrite <- E in *. clear E. cbv zeta. destruct (_ =? _)%Z.
    + eexists. split; [reflexivity|]. apply py_sum_nonneg, zip_abs_nonneg.
    + rewrite !rev_involutive.
      destruct (drop_common_spec _ (qsort xs) (qsort ys) (le_n _) (qsort_sorted xs) (qsort_sorted ys)) as (a & b & c & ED & P1 & P2 & _).
      rewrite ED. apply Permutation_length in P1, P2. rewrite qsort_length, app_length in P1, P2.
      apply HR; [lia|unfold small in *; lia].
Qed.

Lemma ordered_ok rest xs ys : small (length xs + length ys) ->
  (forall a b, (length b <= length a)%nat -> small (length a + length b) -> exists d, rest a b = Ok d /\ 0 <= d) ->
  exists d, ordered rnd rest xs ys = Ok d /\ 0 <= d.
Proof.
  intros S HR. unfold ordered. destruct (Z.ltb _ _) eqn:E; unfold zlen in E; apply front_ok; auto; try lia.
  rewrite Nat.add_comm. auto.
Qed.

Lemma ordered_self rest xs ys : Permutation xs ys -> ordered rnd rest xs ys = Ok 0.
Proof.
  intros P. rewrite <- (ordered_perm rnd rest xs xs xs ys) by auto.
  unfold ordered. rewrite Z.ltb_irrefl. unfold front. destruct xs as [|x [|x2 xs]].
  - reflexivity.
  - unfold single_y. cbn [map min_of py_min bind fold_left].
    replace (x - x) with 0 by ring. rewrite (rnd_0 rnd R). change (qabs 0) with 0. change (qz (zlen [x])) with 1.
    rewrite Qcplus_0_l, (rnd_1 rnd R). replace (1 - 1) with 0 by ring. rewrite (rnd_0 rnd R). reflexivity.
  - cbv zeta. rewrite Z.eqb_refl. f_equal. generalize (rev (qsort (x :: x2 :: xs))). intros l.
    unfold py_sum. induction l as [|a l IH]; [reflexivity|]. cbn [zip_abs fold_left].
    replace (a - a) with 0 by ring. rewrite (rnd_0 rnd R). change (qabs 0) with 0. rewrite Qcplus_0_l, (rnd_0 rnd R). exact IH.
Qed.
End Lawful.
