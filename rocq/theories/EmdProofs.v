(** Proofs about [emd_1d_dp]: refinement of the array program to a structural
    recursion, optimality against [EmdSpec], metric properties. *)
From Coq Require Import ZArith QArith Qcanon List Permutation Sorted Lia.
From Verif Require Import Num Py EmdSpec EmdModel.
Import ListNotations.
Open Scope Qc_scope.

(** ** Sorting numbers *)

Lemma qleb_total a b : qleb a b = true \/ qleb b a = true.
Proof. destruct (qleb a b) eqn:E; auto. right. qclra. Qed.
Lemma qleb_trans a b c : qleb a b = true -> qleb b c = true -> qleb a c = true.
Proof. intros. qclra. Qed.
Lemma qleb_antisym a b : qleb a b = true -> qleb b a = true -> a = b.
Proof. intros. qclra. Qed.
#[export] Hint Resolve qleb_total qleb_trans qleb_antisym : qsort.

Lemma qsort_perm l : Permutation (qsort l) l.
Proof. apply isort_perm. Qed.
Lemma qsort_length l : length (qsort l) = length l.
Proof. apply isort_length. Qed.
Lemma qsort_sorted l : StronglySorted (fun a b => a <= b) (qsort l).
Proof.
  assert (H : StronglySorted (fun a b => qleb a b = true) (qsort l)).
  { apply isort_sorted; eauto with qsort. }
  revert H. generalize (qsort l). induction 1; constructor; auto.
  eapply Forall_impl; [|apply H0]. intros b Hb. apply qleb_le; auto.
Qed.
Lemma qsort_perm_eq l1 l2 : Permutation l1 l2 -> qsort l1 = qsort l2.
Proof. apply isort_perm_eq; eauto with qsort. Qed.

(** ** Structural recursion *)

Section Rnd.
Variable rnd : Qc -> Qc.

Fixpoint edp (xs : list Qc) : list Qc -> Qc :=
  match xs with
  | [] => fun ys => qn (length ys)
  | a :: xs' =>
      fix go (ys : list Qc) : Qc :=
        match ys with
        | [] => qn (length (a :: xs'))
        | b :: ys' => qmin3 (rnd (qabs (rnd (a - b)) + edp xs' ys'))
                            (rnd (1 + edp xs' (b :: ys')))
                            (rnd (1 + go ys'))
        end
  end.

Lemma edp_nil_l ys : edp [] ys = qn (length ys).
Proof. reflexivity. Qed.
Lemma edp_nil_r xs : edp xs [] = qn (length xs).
Proof. destruct xs; reflexivity. Qed.
Lemma edp_cons a xs b ys :
  edp (a :: xs) (b :: ys) =
  qmin3 (rnd (qabs (rnd (a - b)) + edp xs ys)) (rnd (1 + edp xs (b :: ys))) (rnd (1 + edp (a :: xs) ys)).
Proof. reflexivity. Qed.

Definition cell (x y : list Qc) (i j : nat) : Qc := edp (rev (firstn i x)) (rev (firstn j y)).
Definition row (x y : list Qc) (i : nat) : list Qc := map (cell x y i) (seq 0 (S (length y))).

Lemma firstn_snoc {A} (l : list A) i d :
  (i < length l)%nat -> firstn (S i) l = firstn i l ++ [nth i l d].
Proof.
  revert i; induction l as [|a l IH]; intros [|i] H; simpl in *; try lia; auto.
  f_equal. apply IH. lia.
Qed.

Lemma rev_firstn_S {A} (l : list A) i d :
  (i < length l)%nat -> rev (firstn (S i) l) = nth i l d :: rev (firstn i l).
Proof. intros H. rewrite (firstn_snoc l i d H), rev_app_distr. reflexivity. Qed.

Lemma cell_0_l x y j : (j <= length y)%nat -> cell x y 0 j = qn j.
Proof. intros H. unfold cell. simpl. rewrite rev_length, firstn_length_le; auto. Qed.
Lemma cell_0_r x y i : (i <= length x)%nat -> cell x y i 0 = qn i.
Proof. intros H. unfold cell. simpl. rewrite edp_nil_r, rev_length, firstn_length_le; auto. Qed.
Lemma cell_SS x y i j :
  (i < length x)%nat -> (j < length y)%nat ->
  cell x y (S i) (S j) =
  qmin3 (rnd (qabs (rnd (nth i x 0 - nth j y 0)) + cell x y i j))
        (rnd (1 + cell x y i (S j))) (rnd (1 + cell x y (S i) j)).
Proof.
  intros Hi Hj. unfold cell.
  rewrite (rev_firstn_S x i 0 Hi), (rev_firstn_S y j 0 Hj), edp_cons.
  reflexivity.
Qed.

Lemma row_length x y i : length (row x y i) = S (length y).
Proof. unfold row. rewrite map_length, seq_length. reflexivity. Qed.

Lemma nth_row x y i j : (j <= length y)%nat -> nth j (row x y i) 0 = cell x y i j.
Proof.
  intros H. unfold row.
  rewrite (nth_indep _ 0 (cell x y i 0%nat)) by (rewrite map_length, seq_length; lia).
  rewrite map_nth, seq_nth by lia. reflexivity.
Qed.

(** The inner loop fills the current row from left to right. *)
Definition mixed x y i k (old : list Qc) : list Qc :=
  map (cell x y i) (seq 0 (S k)) ++ skipn (S k) old.

Lemma mixed_length x y i k old :
  (k <= length y)%nat -> length old = S (length y) -> length (mixed x y i k old) = S (length y).
Proof.
  intros Hk Hl. unfold mixed. rewrite app_length, map_length, seq_length, skipn_length. lia.
Qed.

Lemma nth_mixed x y i k old j : (j <= k)%nat -> nth j (mixed x y i k old) 0 = cell x y i j.
Proof.
  intros H. unfold mixed. rewrite app_nth1 by (rewrite map_length, seq_length; lia).
  rewrite (nth_indep _ 0 (cell x y i 0%nat)) by (rewrite map_length, seq_length; lia).
  rewrite map_nth, seq_nth by lia. reflexivity.
Qed.

Lemma skipn_cons_nth {A} (l : list A) i d :
  (i < length l)%nat -> skipn i l = nth i l d :: skipn (S i) l.
Proof.
  revert i; induction l as [|a l IH]; intros [|i] H; simpl in *; try lia; auto.
  apply IH. lia.
Qed.

Lemma mixed_step x y i k old :
  (S k <= length y)%nat -> length old = S (length y) ->
  list_set (mixed x y i k old) (S k) (cell x y i (S k)) = mixed x y i (S k) old.
Proof.
  intros Hk Hl. unfold mixed.
  rewrite (skipn_cons_nth old (S k) 0) by lia.
  pose proof (list_set_app (map (cell x y i) (seq 0 (S k))) (skipn (S (S k)) old) (nth (S k) old 0)
                (cell x y i (S k))) as E.
  rewrite map_length, seq_length in E. rewrite E.
  rewrite (seq_S (S k) 0), map_app, <- app_assoc. reflexivity.
Qed.

Lemma dp_cell_step x y i k old :
  (i < length x)%nat -> (k < length y)%nat -> length old = S (length y) ->
  dp_cell rnd x y (row x y i) (Z.of_nat (S i)) (mixed x y (S i) k old) (Z.of_nat (S k))
  = Ok (mixed x y (S i) (S k) old).
Proof.
  intros Hi Hk Hl. unfold dp_cell.
  replace (Z.of_nat (S i) - 1)%Z with (Z.of_nat i) by lia.
  replace (Z.of_nat (S k) - 1)%Z with (Z.of_nat k) by lia.
  rewrite (py_get_nat x i 0) by auto. cbn [bind].
  rewrite (py_get_nat y k 0) by auto. cbn [bind].
  rewrite (py_get_nat _ k 0) by (rewrite row_length; lia). cbn [bind].
  rewrite (py_get_nat _ (S k) 0) by (rewrite row_length; lia). cbn [bind].
  rewrite (py_get_nat _ k 0) by (rewrite mixed_length; lia). cbn [bind].
  rewrite py_set_nat by (rewrite mixed_length; lia).
  rewrite !nth_row by lia. rewrite nth_mixed by lia.
  rewrite <- cell_SS by auto. rewrite mixed_step by (auto; lia). reflexivity.
Qed.

Lemma dp_inner x y i old k :
  (i < length x)%nat -> (k <= length y)%nat -> length old = S (length y) ->
  foldM (dp_cell rnd x y (row x y i) (Z.of_nat (S i))) (map Z.of_nat (seq 1 k)) (mixed x y (S i) 0 old)
  = Ok (mixed x y (S i) k old).
Proof.
  intros Hi Hk Hl. induction k as [|k IH]; [reflexivity|].
  rewrite seq_S, map_app, foldM_app, IH by lia. cbn [bind].
  cbn [map]. cbn [foldM].
  replace (1 + k)%nat with (S k) by lia. rewrite dp_cell_step by (auto; lia). reflexivity.
Qed.

Lemma mixed_full x y i old : length old = S (length y) -> mixed x y i (length y) old = row x y i.
Proof.
  intros Hl. unfold mixed, row. rewrite skipn_all2 by lia. apply app_nil_r.
Qed.

Lemma dp_row_step x y i old :
  (i < length x)%nat -> length old = S (length y) ->
  dp_row rnd x y (row x y i, old) (Z.of_nat (S i)) = Ok (row x y (S i), row x y i).
Proof.
  intros Hi Hl. unfold dp_row.
  change 0%Z with (Z.of_nat 0). rewrite py_set_nat by lia. cbn [bind].
  replace (list_set old 0 (qz (Z.of_nat (S i)))) with (mixed x y (S i) 0 old).
  2:{ unfold mixed. destruct old as [|o old]; [discriminate|]. cbn [list_set seq map app skipn].
      rewrite cell_0_r by lia. reflexivity. }
  unfold zlen. replace (Z.of_nat (length y) + 1)%Z with (Z.of_nat 1 + Z.of_nat (length y))%Z by lia.
  change 1%Z with (Z.of_nat 1) at 1. rewrite py_range_nat.
  rewrite dp_inner by auto. cbn [bind]. rewrite mixed_full by auto. reflexivity.
Qed.

Lemma dp_outer x y k old :
  (k <= length x)%nat -> length old = S (length y) ->
  exists old', length old' = S (length y) /\
  foldM (dp_row rnd x y) (map Z.of_nat (seq 1 k)) (row x y 0, old) = Ok (row x y k, old').
Proof.
  intros Hk Hl. induction k as [|k IH].
  - exists old. split; auto.
  - destruct IH as (old' & Hl' & E); [lia|].
    exists (row x y k). split; [apply row_length|].
    rewrite seq_S, map_app, foldM_app, E. cbn [bind map]. cbn [foldM].
    replace (1 + k)%nat with (S k) by lia. rewrite dp_row_step by (auto; lia). reflexivity.
Qed.

Lemma row_0 x y : row x y 0 = map qz (py_range 0 (zlen y + 1)).
Proof.
  unfold zlen. replace (Z.of_nat (length y) + 1)%Z with (Z.of_nat 0 + Z.of_nat (S (length y)))%Z by lia.
  change 0%Z with (Z.of_nat 0) at 1. rewrite py_range_nat, map_map. unfold row.
  apply map_ext_in. intros j Hj. apply in_seq in Hj. rewrite cell_0_l by lia. reflexivity.
Qed.

(** The array program computes the structural recursion on the (reversed)
    sorted lists, shorter one first. *)
Lemma emd_1d_dp_edp_swapped xs ys :
  emd_1d_dp rnd xs ys =
  Ok (if (length ys <? length xs)%nat then edp (rev (qsort ys)) (rev (qsort xs))
      else edp (rev (qsort xs)) (rev (qsort ys))).
Proof.
  unfold emd_1d_dp.
  assert (main : forall x y,
    (rows <- foldM (dp_row rnd x y) (py_range 1 (zlen x + 1))
        (map qz (py_range 0 (zlen y + 1)), map qz (py_range 0 (zlen y + 1))) ;;
     py_get (fst rows) (zlen y)) = Ok (edp (rev x) (rev y))).
  { intros x y. rewrite <- (row_0 x y).
    unfold zlen. replace (Z.of_nat (length x) + 1)%Z with (Z.of_nat 1 + Z.of_nat (length x))%Z by lia.
    change 1%Z with (Z.of_nat 1) at 1. rewrite py_range_nat.
    destruct (dp_outer x y (length x) (row x y 0)) as (old' & _ & E); auto using row_length.
    rewrite E. cbn [bind fst]. rewrite (py_get_nat _ _ 0) by (rewrite row_length; lia).
    rewrite nth_row by lia. unfold cell. rewrite !firstn_all. reflexivity. }
  unfold zlen. rewrite !qsort_length.
  replace (Z.gtb (Z.of_nat (length xs)) (Z.of_nat (length ys))) with (length ys <? length xs)%nat.
  2:{ rewrite Z.gtb_ltb. destruct (Nat.ltb_spec (length ys) (length xs)), (Z.ltb_spec (Z.of_nat (length ys)) (Z.of_nat (length xs))); lia. }
  destruct (length ys <? length xs)%nat; apply main.
Qed.

End Rnd.

(** ** Symmetry, for every odd rounding *)

Lemma qmin_comm a b : qmin a b = qmin b a.
Proof. qclra. Qed.
Lemma qmin3_swap a b c : qmin3 a b c = qmin3 a c b.
Proof. unfold qmin3. qclra. Qed.
Lemma qabs_opp a : qabs (- a) = qabs a.
Proof. qclra. Qed.
Lemma qabs_sub_comm a b : qabs (a - b) = qabs (b - a).
Proof. qclra. Qed.
Lemma qabs_nonneg a : 0 <= qabs a.
Proof. qclra. Qed.

Lemma edp_sym rnd (odd : forall a, rnd (- a) = - rnd a) xs ys : edp rnd xs ys = edp rnd ys xs.
Proof.
  revert ys; induction xs as [|a xs IHx]; intros ys.
  - rewrite edp_nil_r. reflexivity.
  - induction ys as [|b ys IHy]; [reflexivity|].
    rewrite !edp_cons, qmin3_swap, !IHx, IHy.
    replace (qabs (rnd (a - b))) with (qabs (rnd (b - a))); auto.
    replace (a - b) with (- (b - a)) by qclra. rewrite odd, qabs_opp. reflexivity.
Qed.

Lemma emd_1d_dp_edp rnd (odd : forall a, rnd (- a) = - rnd a) xs ys :
  emd_1d_dp rnd xs ys = Ok (edp rnd (rev (qsort xs)) (rev (qsort ys))).
Proof.
  rewrite emd_1d_dp_edp_swapped. destruct (_ <? _)%nat; auto. rewrite edp_sym; auto.
Qed.

Lemma emd_1d_dp_perm rnd xs xs' ys ys' :
  Permutation xs xs' -> Permutation ys ys' -> emd_1d_dp rnd xs ys = emd_1d_dp rnd xs' ys'.
Proof.
  intros P1 P2. rewrite !emd_1d_dp_edp_swapped.
  rewrite (qsort_perm_eq _ _ P1), (qsort_perm_eq _ _ P2).
  rewrite (Permutation_length P1), (Permutation_length P2). reflexivity.
Qed.

(** ** Optimality in exact arithmetic *)

Notation E := (edp exact).

Lemma edp_cons_exact a xs b ys :
  E (a :: xs) (b :: ys) =
  qmin (qmin (qabs (a - b) + E xs ys) (1 + E xs (b :: ys))) (1 + E (a :: xs) ys).
Proof. reflexivity. Qed.

Lemma qsum_app l1 l2 : qsum (l1 ++ l2) = qsum l1 + qsum l2.
Proof. induction l1; simpl; [qclra|]. rewrite IHl1. qclra. Qed.
Lemma qsum_perm l1 l2 : Permutation l1 l2 -> qsum l1 = qsum l2.
Proof. induction 1; simpl; auto; try qclra; congruence. Qed.
Lemma qsum_nonneg l : Forall (fun a => 0 <= a) l -> 0 <= qsum l.
Proof. induction 1; simpl; [qclra|qclra]. Qed.

Lemma move_cost_cons p ps : move_cost (p :: ps) = qabs (fst p - snd p) + move_cost ps.
Proof. reflexivity. Qed.
Lemma move_cost_app p1 p2 : move_cost (p1 ++ p2) = move_cost p1 + move_cost p2.
Proof. unfold move_cost. rewrite map_app, qsum_app. reflexivity. Qed.
Lemma move_cost_perm p1 p2 : Permutation p1 p2 -> move_cost p1 = move_cost p2.
Proof. intros P. unfold move_cost. apply qsum_perm, Permutation_map, P. Qed.
Lemma move_cost_nonneg p : 0 <= move_cost p.
Proof.
  unfold move_cost. apply qsum_nonneg. apply Forall_map, Forall_forall.
  intros; apply qabs_nonneg.
Qed.

Lemma is_matching_perm_pairs xs ys p p' rx rx' ry ry' :
  Permutation p p' -> Permutation rx rx' -> Permutation ry ry' ->
  is_matching xs ys p rx ry -> is_matching xs ys p' rx' ry'.
Proof.
  intros P Px Py [H1 H2]. split.
  - rewrite H1, (Permutation_map fst P), Px. reflexivity.
  - rewrite H2, (Permutation_map snd P), Py. reflexivity.
Qed.

Lemma edp_realized xs ys : matching_cost xs ys (E xs ys).
Proof.
  revert ys; induction xs as [|a xs IHx]; intros ys.
  - exists [], [], ys. split; [split; reflexivity|].
    rewrite edp_nil_l. unfold move_cost. simpl. qclra.
  - induction ys as [|b ys IHy].
    + exists [], (a :: xs), []. split; [split; reflexivity|].
      rewrite edp_nil_r. unfold move_cost. cbn [map qsum length]. qclra.
    + rewrite edp_cons_exact.
      match goal with |- matching_cost _ _ (qmin (qmin ?u ?v) ?w) =>
        assert (H : qmin (qmin u v) w = u \/ qmin (qmin u v) w = v \/ qmin (qmin u v) w = w) end.
      { unfold qmin. repeat destruct (qleb _ _); auto. }
      destruct H as [-> | [-> | ->]].
      * destruct (IHx ys) as (p & rx & ry & [P1 P2] & Ec). rewrite Ec.
        exists ((a, b) :: p), rx, ry. split.
        -- split; simpl; rewrite ?P1, ?P2; reflexivity.
        -- rewrite move_cost_cons. simpl. qclra.
      * destruct (IHx (b :: ys)) as (p & rx & ry & [P1 P2] & Ec). rewrite Ec.
        exists p, (a :: rx), ry. split.
        -- split; auto. rewrite P1. apply Permutation_middle.
        -- cbn [length]. qclra.
      * destruct IHy as (p & rx & ry & [P1 P2] & Ec). rewrite Ec.
        exists p, rx, (b :: ry). split.
        -- split; auto. rewrite P2. apply Permutation_middle.
        -- cbn [length]. qclra.
Qed.

(** Descending lists. *)
Notation desc := (StronglySorted (fun a b : Qc => b <= a)).

Lemma in_map_fst_split {A B} a (p : list (A * B)) :
  In a (map fst p) -> exists b p1 p2, p = p1 ++ (a, b) :: p2.
Proof.
  intros H. apply in_map_iff in H. destruct H as ([a' b] & <- & H).
  apply in_split in H. destruct H as (p1 & p2 & ->). exists b, p1, p2. reflexivity.
Qed.
Lemma in_map_snd_split {A B} b (p : list (A * B)) :
  In b (map snd p) -> exists a p1 p2, p = p1 ++ (a, b) :: p2.
Proof.
  intros H. apply in_map_iff in H. destruct H as ([a b'] & <- & H).
  apply in_split in H. destruct H as (p1 & p2 & ->). exists a, p1, p2. reflexivity.
Qed.

Lemma matching_length xs ys p rx ry :
  is_matching xs ys p rx ry ->
  length xs = (length p + length rx)%nat /\ length ys = (length p + length ry)%nat.
Proof.
  intros [H1 H2]. apply Permutation_length in H1, H2.
  rewrite app_length, map_length in H1, H2. auto.
Qed.

(** Matching the largest element of each side together, or leaving one of them
    out, is never worse. *)
Lemma edp_minimal n : forall xs ys p rx ry,
  (length xs + length ys <= n)%nat -> desc xs -> desc ys ->
  is_matching xs ys p rx ry ->
  E xs ys <= move_cost p + qn (length rx) + qn (length ry).
Proof.
  induction n as [|n IH]; intros xs ys p rx ry Hn Dx Dy M.
  - destruct xs, ys; simpl in Hn; try lia.
    apply matching_length in M. simpl in M.
    pose proof (move_cost_nonneg p). rewrite edp_nil_l. simpl.
    pose proof (qn_nonneg (length rx)). pose proof (qn_nonneg (length ry)). qclra.
  - destruct xs as [|a xs].
    { apply matching_length in M as [Hx Hy]. rewrite edp_nil_l. simpl in Hx.
      pose proof (move_cost_nonneg p). pose proof (qn_nonneg (length rx)).
      assert (length ry = length ys) as -> by lia. qclra. }
    destruct ys as [|b ys].
    { apply matching_length in M as [Hx Hy]. rewrite edp_nil_r. simpl in Hy.
      pose proof (move_cost_nonneg p). pose proof (qn_nonneg (length ry)).
      assert (length rx = length (a :: xs)) as -> by lia. qclra. }
    rewrite edp_cons_exact.
    set (u := qabs (a - b) + E xs ys). set (v := 1 + E xs (b :: ys)). set (w := 1 + E (a :: xs) ys).
    apply StronglySorted_inv in Dx as Dx'. destruct Dx' as [Dx' Fa].
    apply StronglySorted_inv in Dy as Dy'. destruct Dy' as [Dy' Fb].
    rewrite Forall_forall in Fa, Fb. simpl in Hn.
    destruct M as [M1 M2].
    assert (Ia : In a (map fst p ++ rx)) by (eapply Permutation_in; [apply M1|left; auto]).
    assert (Ib : In b (map snd p ++ ry)) by (eapply Permutation_in; [apply M2|left; auto]).
    apply in_app_iff in Ia. apply in_app_iff in Ib.
    destruct Ia as [Ia|Ia].
    2:{ apply in_split in Ia. destruct Ia as (r1 & r2 & ->).
        assert (Hv : v <= 1 + (move_cost p + qn (length (r1 ++ r2)) + qn (length ry))).
        { unfold v. enough (E xs (b :: ys) <= move_cost p + qn (length (r1 ++ r2)) + qn (length ry)) by qclra.
          apply IH; auto; [simpl; lia|]. split; auto.
          apply Permutation_cons_inv with a. rewrite M1, !app_assoc. symmetry. apply Permutation_middle. }
        rewrite app_length in *. cbn [length]. rewrite !qn_add in *. qclra. }
    destruct Ib as [Ib|Ib].
    2:{ apply in_split in Ib. destruct Ib as (r1 & r2 & ->).
        assert (Hw : w <= 1 + (move_cost p + qn (length rx) + qn (length (r1 ++ r2)))).
        { unfold w. enough (E (a :: xs) ys <= move_cost p + qn (length rx) + qn (length (r1 ++ r2))) by qclra.
          apply IH; auto; [simpl; lia|]. split; auto.
          apply Permutation_cons_inv with b. rewrite M2, !app_assoc. symmetry. apply Permutation_middle. }
        rewrite app_length in *. cbn [length]. rewrite !qn_add in *. qclra. }
    enough (Hu : u <= move_cost p + qn (length rx) + qn (length ry)) by qclra.
    (* both are matched *)
    assert (step : forall p', is_matching (a :: xs) (b :: ys) ((a, b) :: p') rx ry ->
              u <= qabs (a - b) + move_cost p' + qn (length rx) + qn (length ry)).
    { intros p' [N1 N2]. unfold u.
      enough (E xs ys <= move_cost p' + qn (length rx) + qn (length ry)) by qclra.
      apply IH; auto; [lia|]. simpl in N1, N2. split.
      - apply Permutation_cons_inv with a. exact N1.
      - apply Permutation_cons_inv with b. exact N2. }
    apply in_map_fst_split in Ia. destruct Ia as (b' & p1 & p2 & Ep).
    assert (Pp : Permutation p ((a, b') :: p1 ++ p2)) by (rewrite Ep; symmetry; apply Permutation_middle).
    clear Ep. rewrite (move_cost_perm _ _ Pp), move_cost_cons. cbn [fst snd].
    assert (Ib' : In b (map snd ((a, b') :: p1 ++ p2))).
    { eapply Permutation_in; [apply Permutation_map, Pp|exact Ib]. }
    assert (MM : is_matching (a :: xs) (b :: ys) ((a, b') :: p1 ++ p2) rx ry).
    { eapply is_matching_perm_pairs; [apply Pp| | |split; eauto]; reflexivity. }
    destruct Ib' as [E'|Ib'].
    { simpl in E'. subst b'. specialize (step _ MM). qclra. }
    apply in_map_snd_split in Ib'. destruct Ib' as (a' & q1 & q2 & Eq).
    assert (Pq : Permutation (p1 ++ p2) ((a', b) :: q1 ++ q2)) by (rewrite Eq; symmetry; apply Permutation_middle).
    clear Eq. rewrite (move_cost_perm _ _ Pq), move_cost_cons. cbn [fst snd].
    assert (MQ : is_matching (a :: xs) (b :: ys) ((a, b') :: (a', b) :: q1 ++ q2) rx ry).
    { eapply is_matching_perm_pairs; [| | |apply MM]; auto. }
    assert (Ha' : a' <= a).
    { destruct MQ as [N1 _]. simpl in N1. apply Permutation_cons_inv in N1.
      assert (In a' xs) by (eapply Permutation_in; [symmetry; apply N1|left; auto]). auto. }
    assert (Hb' : b' <= b).
    { destruct MQ as [_ N2]. simpl in N2.
      assert (In b' (b :: ys)) by (eapply Permutation_in; [symmetry; apply N2|left; auto]).
      destruct H as [->|H]; [apply Qcle_refl|auto]. }
    assert (S1 := step ((a', b') :: q1 ++ q2)).
    rewrite move_cost_cons in S1. cbn [fst snd] in S1.
    assert (X : qabs (a - b) + qabs (a' - b') <= qabs (a - b') + qabs (a' - b)).
    { clear - Ha' Hb'. qclra. }
    enough (u <= qabs (a - b) + (qabs (a' - b') + move_cost (q1 ++ q2)) + qn (length rx) + qn (length ry)) by qclra.
    apply S1. destruct MQ as [N1 N2]. split; [exact N1|]. rewrite N2. simpl. apply perm_swap.
Qed.

(** ** Facts about the specification *)

Lemma matching_cost_perm xs xs' ys ys' c :
  Permutation xs xs' -> Permutation ys ys' -> matching_cost xs ys c -> matching_cost xs' ys' c.
Proof.
  intros P1 P2 (p & rx & ry & [M1 M2] & E). exists p, rx, ry. split; auto.
  split; [rewrite <- P1|rewrite <- P2]; auto.
Qed.

Lemma is_emd_perm xs xs' ys ys' d :
  Permutation xs xs' -> Permutation ys ys' -> is_emd xs ys d -> is_emd xs' ys' d.
Proof.
  intros P1 P2 [H1 H2]. split.
  - eapply matching_cost_perm; eauto.
  - intros c Hc. apply H2. eapply matching_cost_perm; [symmetry; eauto|symmetry; eauto|auto].
Qed.

Lemma is_emd_unique xs ys d d' : is_emd xs ys d -> is_emd xs ys d' -> d = d'.
Proof. intros [H1 H2] [H3 H4]. apply H2 in H3. apply H4 in H1. qclra. Qed.

Lemma rev_desc l : StronglySorted (fun a b : Qc => a <= b) l -> desc (rev l).
Proof.
  induction 1 as [|a l Hs IH Ha]; simpl; [constructor|].
  assert (G : forall l', desc l' -> Forall (fun b => a <= b) l' -> desc (l' ++ [a])).
  { clear. induction 1 as [|b l' Hs IH Hb]; simpl; intros F.
    - repeat constructor.
    - inversion F; subst. constructor; auto. apply Forall_app. split; auto. }
  apply G; auto. apply Forall_rev. auto.
Qed.

Definition emd (xs ys : list Qc) : Qc := E (rev (qsort xs)) (rev (qsort ys)).

Lemma emd_is_emd xs ys : is_emd xs ys (emd xs ys).
Proof.
  apply (is_emd_perm (rev (qsort xs)) xs (rev (qsort ys)) ys).
  - rewrite <- Permutation_rev. apply qsort_perm.
  - rewrite <- Permutation_rev. apply qsort_perm.
  - split; [apply edp_realized|].
    intros c (p & rx & ry & M & ->).
    eapply edp_minimal; eauto; apply rev_desc, qsort_sorted.
Qed.

Lemma exact_odd a : exact (- a) = - exact a.
Proof. reflexivity. Qed.

Lemma emd_1d_dp_exact xs ys : emd_1d_dp exact xs ys = Ok (emd xs ys).
Proof. apply emd_1d_dp_edp. apply exact_odd. Qed.

Lemma emd_unique xs ys d : is_emd xs ys d -> emd xs ys = d.
Proof. intros H. eapply is_emd_unique; [apply emd_is_emd|exact H]. Qed.

Lemma emd_le xs ys c : matching_cost xs ys c -> emd xs ys <= c.
Proof. apply emd_is_emd. Qed.

Lemma emd_perm xs xs' ys ys' : Permutation xs xs' -> Permutation ys ys' -> emd xs ys = emd xs' ys'.
Proof. intros. apply emd_unique. apply (is_emd_perm xs' xs ys' ys); try symmetry; auto. apply emd_is_emd. Qed.

Lemma matching_cost_sym xs ys c : matching_cost xs ys c -> matching_cost ys xs c.
Proof.
  intros (p & rx & ry & [M1 M2] & E).
  exists (map (fun q => (snd q, fst q)) p), ry, rx. split.
  - split; rewrite map_map; cbn [fst snd]; auto.
  - rewrite E. unfold move_cost. rewrite map_map. cbn [fst snd].
    rewrite (map_ext (fun x => qabs (fst x - snd x)) (fun x => qabs (snd x - fst x))) by (intros; apply qabs_sub_comm).
    qclra.
Qed.

Lemma emd_sym xs ys : emd xs ys = emd ys xs.
Proof. unfold emd. apply edp_sym, exact_odd. Qed.

Lemma matching_cost_nonneg xs ys c : matching_cost xs ys c -> 0 <= c.
Proof.
  intros (p & rx & ry & M & ->). pose proof (move_cost_nonneg p).
  pose proof (qn_nonneg (length rx)). pose proof (qn_nonneg (length ry)). qclra.
Qed.

Lemma emd_nonneg xs ys : 0 <= emd xs ys.
Proof. eapply matching_cost_nonneg, emd_is_emd. Qed.

Lemma move_cost_zero p : move_cost p <= 0 -> map fst p = map snd p.
Proof.
  induction p as [|[a b] p IH]; intros H; simpl; auto.
  rewrite move_cost_cons in H. cbn [fst snd] in H.
  pose proof (move_cost_nonneg p). pose proof (qabs_nonneg (a - b)).
  assert (move_cost p <= 0) by (clear - H H1; qclra).
  assert (a = b). { assert (qabs (a - b) <= 0) by (clear - H H0; qclra). clear - H3; qclra. }
  subst. f_equal; auto.
Qed.

Lemma qn_le_0 n : qn n <= 0 -> n = 0%nat.
Proof. intros H. rewrite <- qn_0 in H. apply qn_le in H. lia. Qed.

Lemma move_cost_diag xs : move_cost (map (fun x => (x, x)) xs) = 0.
Proof.
  induction xs as [|a xs IH]; [reflexivity|]. cbn [map]. rewrite move_cost_cons, IH. cbn [fst snd]. qclra.
Qed.

Lemma emd_zero_iff xs ys : emd xs ys = 0 <-> Permutation xs ys.
Proof.
  split.
  - intros H. destruct (emd_is_emd xs ys) as [(p & rx & ry & [M1 M2] & E) _].
    rewrite H in E. pose proof (move_cost_nonneg p).
    pose proof (qn_nonneg (length rx)). pose proof (qn_nonneg (length ry)).
    assert (Z1 : qn (length rx) <= 0) by (clear - E H0 H1 H2; qclra).
    assert (Z2 : qn (length ry) <= 0) by (clear - E H0 H1 H2; qclra).
    assert (Z3 : move_cost p <= 0) by (clear - E H0 H1 H2; qclra).
    apply qn_le_0 in Z1, Z2. apply length_zero_iff_nil in Z1, Z2. subst.
    apply move_cost_zero in Z3. rewrite M1, M2, Z3. reflexivity.
  - intros P. pose proof (emd_nonneg xs ys).
    assert (emd xs ys <= 0); [|clear - H H0; qclra].
    apply emd_le. exists (map (fun x => (x, x)) xs), [], []. split.
    + split; rewrite map_map; cbn [fst snd]; rewrite map_id, app_nil_r; [reflexivity|symmetry; auto].
    + rewrite move_cost_diag. cbn [length]. qclra.
Qed.

(** Composition of matchings. *)
Lemma compose_matchings p : forall rx ry q ry' rz,
  Permutation (map snd p ++ ry) (map fst q ++ ry') ->
  exists m r1 r2, is_matching (map fst p ++ rx) (map snd q ++ rz) m r1 r2 /\
    move_cost m + qn (length r1) + qn (length r2) <=
    (move_cost p + qn (length rx) + qn (length ry)) + (move_cost q + qn (length ry') + qn (length rz)).
Proof.
  induction p as [|[a b] p IH]; intros rx ry q ry' rz P.
  - exists [], rx, (map snd q ++ rz). split; [split; reflexivity|].
    simpl in P. apply Permutation_length in P. rewrite app_length, map_length in *.
    pose proof (move_cost_nonneg q) as Hq. pose proof (qn_nonneg (length ry')) as Hr.
    rewrite P. rewrite !qn_add. change (move_cost []) with 0. clear - Hq Hr. qclra.
  - assert (I : In b (map fst q ++ ry')) by (eapply Permutation_in; [apply P|left; auto]).
    apply in_app_iff in I. destruct I as [I|I].
    + apply in_map_fst_split in I. destruct I as (c & q1 & q2 & ->).
      destruct (IH rx ry (q1 ++ q2) ry' rz) as (m & r1 & r2 & [M1 M2] & C).
      { apply Permutation_cons_inv with b. cbn [map snd app] in P. rewrite P.
        rewrite !map_app. cbn [map fst]. rewrite <- !app_assoc. symmetry. apply Permutation_middle. }
      exists ((a, c) :: m), r1, r2. split.
      * split; simpl.
        -- rewrite M1. reflexivity.
        -- rewrite <- M2, !map_app. cbn [map snd]. rewrite <- !app_assoc. symmetry. apply Permutation_middle.
      * rewrite (move_cost_perm (q1 ++ (b, c) :: q2) ((b, c) :: q1 ++ q2)) by (symmetry; apply Permutation_middle).
        rewrite !move_cost_cons. cbn [fst snd].
        assert (T : qabs (a - c) <= qabs (a - b) + qabs (b - c)) by (clear; qclra).
        revert C T. generalize (move_cost m), (move_cost p), (move_cost (q1 ++ q2)), (qabs (a - c)), (qabs (a - b)), (qabs (b - c)).
        clear. intros. qclra.
    + apply in_split in I. destruct I as (s1 & s2 & ->).
      destruct (IH rx ry q (s1 ++ s2) rz) as (m & r1 & r2 & [M1 M2] & C).
      { apply Permutation_cons_inv with b. cbn [map snd app] in P. rewrite P.
        rewrite !app_assoc. symmetry. apply Permutation_middle. }
      exists m, (a :: r1), r2. split.
      * split; auto. simpl. rewrite M1. apply Permutation_middle.
      * rewrite move_cost_cons. cbn [fst snd]. rewrite app_length in *. cbn [length]. rewrite !qn_add, !qn_S in *.
        pose proof (qabs_nonneg (a - b)) as Hab. revert C Hab.
        generalize (move_cost m), (move_cost p), (move_cost q), (qabs (a - b)).
        clear. intros. qclra.
Qed.

Lemma emd_triangle xs ys zs : emd xs zs <= emd xs ys + emd ys zs.
Proof.
  destruct (emd_is_emd xs ys) as [(p & rx & ry & [M1 M2] & ->) _].
  destruct (emd_is_emd ys zs) as [(q & ry' & rz & [N1 N2] & ->) _].
  destruct (compose_matchings p rx ry q ry' rz) as (m & r1 & r2 & M & C).
  { rewrite <- M2, <- N1. reflexivity. }
  eapply Qcle_trans; [|exact C]. apply emd_le. exists m, r1, r2. split; auto.
  destruct M as [L1 L2]. split; [rewrite M1, <- L1|rewrite N2, <- L2]; reflexivity.
Qed.

(** Bounds. *)
Lemma emd_upper xs ys : emd xs ys <= qn (length xs + length ys).
Proof.
  apply emd_le. exists [], xs, ys. split; [split; reflexivity|].
  change (move_cost []) with 0. qclra.
Qed.

Lemma emd_lower xs ys : qn (length xs) - qn (length ys) <= emd xs ys.
Proof.
  destruct (emd_is_emd xs ys) as [(p & rx & ry & M & ->) _].
  apply matching_length in M. destruct M as [-> ->]. rewrite !qn_add.
  pose proof (move_cost_nonneg p). pose proof (qn_nonneg (length ry)). qclra.
Qed.

Lemma zip_matching xs ys :
  is_matching xs ys (combine xs ys) (skipn (length ys) xs) (skipn (length xs) ys).
Proof.
  split.
  - revert ys; induction xs as [|a xs IH]; intros [|b ys]; simpl; auto.
  - revert ys; induction xs as [|a xs IH]; intros [|b ys]; simpl; auto.
Qed.

Definition close (r : Qc) (xs ys : list Qc) : Prop :=
  forall x y, In x xs -> In y ys -> qabs (x - y) <= r.

Lemma move_cost_close r xs ys p :
  close r xs ys -> (forall q, In q p -> In (fst q) xs /\ In (snd q) ys) ->
  move_cost p <= r * qn (length p).
Proof.
  intros C. induction p as [|q p IH]; intros H.
  - cbn [length]. change (move_cost []) with 0. rewrite qn_0, Qcmult_0_r; apply Qcle_refl.
  - rewrite move_cost_cons. cbn [length]. rewrite qn_S.
    assert (move_cost p <= r * qn (length p)) by (apply IH; intros; apply H; right; auto).
    destruct (H q) as [H1 H2]; [left; auto|]. specialize (C _ _ H1 H2).
    replace (r * (qn (length p) + 1)) with (r * qn (length p) + r) by ring.
    revert H0 C. generalize (r * qn (length p)), (move_cost p), (qabs (fst q - snd q)). clear. intros. qclra.
Qed.

Lemma matching_in xs ys p rx ry :
  is_matching xs ys p rx ry -> forall q, In q p -> In (fst q) xs /\ In (snd q) ys.
Proof.
  intros [M1 M2] q Hq. split.
  - eapply Permutation_in; [symmetry; apply M1|]. apply in_app_iff. left. apply in_map; auto.
  - eapply Permutation_in; [symmetry; apply M2|]. apply in_app_iff. left. apply in_map; auto.
Qed.

Lemma in_unit_close xs ys : in_unit xs -> in_unit ys -> close 1 xs ys.
Proof.
  intros Hx Hy x y Ix Iy. unfold in_unit in *. rewrite Forall_forall in Hx, Hy.
  destruct (Hx _ Ix), (Hy _ Iy). clear - H H0 H1 H2. qclra.
Qed.

Lemma emd_close_upper xs ys : close 1 xs ys -> emd xs ys <= qn (Nat.max (length xs) (length ys)).
Proof.
  intros C. pose proof (zip_matching xs ys) as M.
  assert (H : emd xs ys <= move_cost (combine xs ys) + qn (length (skipn (length ys) xs)) + qn (length (skipn (length xs) ys))).
  { apply emd_le. do 3 eexists. split; eauto. }
  eapply Qcle_trans; [exact H|].
  pose proof (move_cost_close _ _ _ _ C (matching_in _ _ _ _ _ M)) as L.
  rewrite combine_length in L. rewrite !skipn_length.
  replace (Nat.max (length xs) (length ys)) with
    (Nat.min (length xs) (length ys) + (length xs - length ys) + (length ys - length xs))%nat by lia.
  rewrite !qn_add. clear - L. qclra.
Qed.
