(** [emd_1d_slow]: the best full matching, capped. *)
From Coq Require Import ZArith QArith Qcanon List Permutation Sorted Lia.
From Verif Require Import Num Py EmdSpec EmdModel EmdProofs.
Import ListNotations.
Open Scope Qc_scope.

Lemma py_sum_exact l : forall a, fold_left (fun a b => exact (a + b)) l a = a + qsum l.
Proof. induction l; intros b; simpl; [qclra|]. rewrite IHl. unfold exact. qclra. Qed.

Lemma py_min_spec l : forall a, (py_min a l = a \/ In (py_min a l) l) /\ py_min a l <= a /\ forall c, In c l -> py_min a l <= c.
Proof.
  unfold py_min. induction l as [|b l IH]; intros a; simpl.
  - repeat split; auto using Qcle_refl. intros c [].
  - destruct (IH (qmin a b)) as (H1 & H2 & H3). repeat split.
    + destruct H1 as [->|H1]; auto. unfold qmin. destruct (qleb a b); auto.
    + clear - H2. qclra.
    + intros c [<-|Hc]; auto. clear - H2. qclra.
Qed.

Lemma zip_abs_combine xs ys : qsum (zip_abs exact xs ys) = move_cost (combine xs ys).
Proof. revert ys; induction xs; intros [|b ys]; simpl; auto. rewrite IHxs. reflexivity. Qed.

Lemma combinations_length k l c : In c (combinations k l) -> length c = k.
Proof.
  revert k c; induction l as [|a l IH]; intros [|k] c H; simpl in H; try tauto.
  - destruct H as [<-|[]]; auto.
  - destruct H as [<-|[]]; auto.
  - apply in_app_iff in H. destruct H as [H|H]; auto.
    apply in_map_iff in H. destruct H as (c' & <- & H). simpl. f_equal. auto.
Qed.

Lemma combinations_sub k l c : In c (combinations k l) -> exists r, Permutation l (c ++ r).
Proof.
  revert k c; induction l as [|a l IH]; intros [|k] c H; simpl in H; try tauto.
  - destruct H as [<-|[]]. exists []. auto.
  - destruct H as [<-|[]]. exists (a :: l). auto.
  - apply in_app_iff in H. destruct H as [H|H].
    + apply in_map_iff in H. destruct H as (c' & <- & H). apply IH in H. destruct H as [r H].
      exists r. simpl. auto.
    + apply IH in H. destruct H as [r H]. exists (a :: r). rewrite H. apply Permutation_middle.
Qed.

Notation asc := (StronglySorted (fun a b : Qc => a <= b)).

Lemma full_matching_combination xs : forall ys p rx,
  asc xs -> asc ys -> is_matching xs ys p rx [] ->
  exists c, In c (combinations (length ys) xs) /\ move_cost (combine c ys) <= move_cost p.
Proof.
  induction xs as [|a xs IH]; intros ys p rx Ax Ay M.
  - pose proof (matching_length _ _ _ _ _ M) as [H1 H2]. simpl in H1, H2.
    assert (p = []) by (destruct p; auto; simpl in H1; lia). subst p.
    assert (ys = []) by (destruct ys; auto; simpl in H2; lia). subst ys.
    exists []. split; [left; auto|apply Qcle_refl].
  - destruct ys as [|b ys].
    { exists []. split; [left; auto|]. simpl. apply move_cost_nonneg. }
    cbn [length combinations].
    apply StronglySorted_inv in Ax. destruct Ax as [Ax Fa].
    assert (Ay0 := Ay). apply StronglySorted_inv in Ay. destruct Ay as [Ay Fb].
    rewrite Forall_forall in Fa, Fb.
    destruct M as [M1 M2]. rewrite app_nil_r in M2.
    assert (Ia : In a (map fst p ++ rx)) by (eapply Permutation_in; [apply M1|left; auto]).
    apply in_app_iff in Ia. destruct Ia as [Ia|Ia].
    2:{ apply in_split in Ia. destruct Ia as (r1 & r2 & ->).
        destruct (IH (b :: ys) p (r1 ++ r2)) as (c & Hc & C); auto.
        - split; [|rewrite app_nil_r; auto].
          apply Permutation_cons_inv with a. rewrite M1, !app_assoc. symmetry. apply Permutation_middle.
        - exists c. split; auto. apply in_app_iff. right. exact Hc. }
    assert (step : forall p', Permutation (a :: xs) (a :: map fst p' ++ rx) -> Permutation (b :: ys) (b :: map snd p') ->
       exists c, In c (map (cons a) (combinations (length ys) xs) ++ combinations (S (length ys)) xs) /\
                 move_cost (combine c (b :: ys)) <= qabs (a - b) + move_cost p').
    { intros p' N1 N2. apply Permutation_cons_inv in N1, N2.
      destruct (IH ys p' rx) as (c & Hc & C); auto.
      - split; auto. rewrite app_nil_r. auto.
      - exists (a :: c). split; [apply in_app_iff; left; apply in_map; auto|].
        cbn [combine]. rewrite move_cost_cons. cbn [fst snd]. clear - C. qclra. }
    apply in_map_fst_split in Ia. destruct Ia as (b' & p1 & p2 & Ep).
    assert (Pp : Permutation p ((a, b') :: p1 ++ p2)) by (rewrite Ep; symmetry; apply Permutation_middle).
    clear Ep. rewrite (move_cost_perm _ _ Pp), move_cost_cons. cbn [fst snd].
    rewrite (Permutation_map fst Pp) in M1. rewrite (Permutation_map snd Pp) in M2.
    cbn [map fst snd app] in M1, M2.
    assert (Ib : In b (b' :: map snd (p1 ++ p2))) by (eapply Permutation_in; [apply M2|left; auto]).
    destruct Ib as [->|Ib]; [apply step; auto|].
    apply in_map_snd_split in Ib. destruct Ib as (a' & q1 & q2 & Eq).
    assert (Pq : Permutation (p1 ++ p2) ((a', b) :: q1 ++ q2)) by (rewrite Eq; symmetry; apply Permutation_middle).
    clear Eq. rewrite (move_cost_perm _ _ Pq), move_cost_cons. cbn [fst snd].
    rewrite (Permutation_map fst Pq) in M1. rewrite (Permutation_map snd Pq) in M2.
    cbn [map fst snd app] in M1, M2.
    assert (Ha' : a <= a').
    { apply Permutation_cons_inv in M1.
      assert (In a' xs) by (eapply Permutation_in; [symmetry; apply M1|left; auto]). auto. }
    assert (Hb' : b <= b').
    { assert (In b' (b :: ys)) by (eapply Permutation_in; [symmetry; apply M2|left; auto]).
      destruct H as [->|H]; [apply Qcle_refl|auto]. }
    destruct (step ((a', b') :: q1 ++ q2)) as (c & Hc & C).
    + exact M1.
    + rewrite M2. apply perm_swap.
    + exists c. split; auto. rewrite move_cost_cons in C. cbn [fst snd] in C.
      assert (X : qabs (a - b) + qabs (a' - b') <= qabs (a - b') + qabs (a' - b)).
      { clear - Ha' Hb'. qclra. }
      clear - X C. qclra.
Qed.

(** A matching that leaves a point of each side unmatched can be extended. *)
Lemma extend_matching xs ys n : forall p rx ry,
  close (Q2Qc 2) xs ys -> (length ys <= length xs)%nat ->
  is_matching xs ys p rx ry -> length ry = n ->
  exists p' rx', is_matching xs ys p' rx' [] /\
    move_cost p' + qn (length rx') <= move_cost p + qn (length rx) + qn (length ry).
Proof.
  induction n as [|n IH]; intros p rx ry C Hl M Hn.
  - apply length_zero_iff_nil in Hn. subst ry. exists p, rx. split; auto. cbn [length]. qclra.
  - destruct ry as [|b ry]; [discriminate|].
    pose proof (matching_length _ _ _ _ _ M) as [L1 L2].
    destruct rx as [|a rx]; [simpl in *; lia|].
    assert (M' : is_matching xs ys ((a, b) :: p) rx ry).
    { destruct M as [M1 M2]. split; simpl; [rewrite M1|rewrite M2]; symmetry; apply Permutation_middle. }
    destruct (IH _ _ _ C Hl M') as (p' & rx' & Mp & Cp); [simpl in Hn; lia|].
    exists p', rx'. split; auto. rewrite move_cost_cons in Cp. cbn [fst snd] in Cp.
    assert (D : qabs (a - b) <= Q2Qc 2).
    { destruct (matching_in _ _ _ _ _ M' (a, b)) as [I1 I2]; [left; auto|]. apply C; auto. }
    cbn [length]. rewrite !qn_S. clear - Cp D. qclra.
Qed.

(** General meaning of [emd_1d_slow], without any restriction on positions,
    longer list first. *)
Lemma slow_value xs ys :
  (length ys <= length xs)%nat ->
  let d := qn (length xs) - qn (length ys) in
  (emd_1d_slow exact xs ys = qn (length xs) \/
   exists p rx, is_matching xs ys p rx [] /\ emd_1d_slow exact xs ys = d + move_cost p) /\
  emd_1d_slow exact xs ys <= qn (length xs) /\
  forall p rx, is_matching xs ys p rx [] -> emd_1d_slow exact xs ys <= d + move_cost p.
Proof.
  intros Hl d. unfold emd_1d_slow.
  destruct (Z.ltb_spec (zlen xs) (zlen ys)) as [H|_]; [unfold zlen in H; lia|].
  unfold zlen. rewrite !qsort_length.
  rewrite qz_sub. fold (qn (length xs)) (qn (length ys)). fold d.
  set (f := fun comb => py_sum exact (zip_abs exact comb (qsort ys))).
  assert (Hf : forall c, f c = move_cost (combine c (qsort ys))).
  { intros c. unfold f, py_sum. rewrite py_sum_exact, zip_abs_combine. qclra. }
  set (m := py_min (qn (length ys)) (map f (combinations (length ys) (qsort xs)))).
  destruct (py_min_spec (map f (combinations (length ys) (qsort xs))) (qn (length ys))) as (H1 & H2 & H3).
  fold m in H1, H2, H3. unfold exact at 1 2 3 4. repeat split.
  - destruct H1 as [H1|H1].
    + left. rewrite H1. unfold d. qclra.
    + right. apply in_map_iff in H1. destruct H1 as (c & Ec & Hc).
      assert (Lc := combinations_length _ _ _ Hc).
      destruct (combinations_sub _ _ _ Hc) as [r Pr].
      exists (combine c (qsort ys)), r. split; [|rewrite <- Hf, Ec; reflexivity].
      split.
      * rewrite <- (qsort_perm xs), Pr. apply Permutation_app_tail.
        assert (E : map fst (combine c (qsort ys)) = c).
        { clear - Lc. assert (length c = length (qsort ys)) by (rewrite qsort_length; auto). clear Lc.
          revert H. generalize (qsort ys). induction c; intros [|b l] H; simpl in *; try lia; auto. f_equal. apply IHc. lia. }
        rewrite E. reflexivity.
      * rewrite app_nil_r.
        assert (E : map snd (combine c (qsort ys)) = qsort ys).
        { clear - Lc. assert (length c = length (qsort ys)) by (rewrite qsort_length; auto). clear Lc.
          revert H. generalize (qsort ys). induction c; intros [|b l] H; simpl in *; try lia; auto. f_equal. apply IHc. lia. }
        rewrite E. symmetry. apply qsort_perm.
  - unfold d. clear - H2. qclra.
  - intros p rx M.
    destruct (full_matching_combination (qsort xs) (qsort ys) p rx) as (c & Hc & C); try apply qsort_sorted.
    + destruct M as [M1 M2]. split; [rewrite <- M1|rewrite <- M2]; apply qsort_perm.
    + rewrite qsort_length in Hc. specialize (H3 (f c) (in_map f _ _ Hc)). rewrite Hf in H3.
      clear - H3 C. qclra.
Qed.

Lemma slow_swap xs ys : (length xs < length ys)%nat -> emd_1d_slow exact xs ys = emd_1d_slow exact ys xs.
Proof.
  intros H. unfold emd_1d_slow.
  destruct (Z.ltb_spec (zlen xs) (zlen ys)) as [_|H2]; [|unfold zlen in H2; lia].
  destruct (Z.ltb_spec (zlen ys) (zlen xs)) as [H2|_]; [unfold zlen in H2; lia|].
  reflexivity.
Qed.

Lemma close_sym r xs ys : close r xs ys -> close r ys xs.
Proof. intros C x y Hx Hy. rewrite qabs_sub_comm. apply C; auto. Qed.

Lemma slow_eq_emd xs ys : close 1 xs ys -> emd_1d_slow exact xs ys = emd xs ys.
Proof.
  assert (main : forall xs ys, (length ys <= length xs)%nat -> close 1 xs ys -> emd_1d_slow exact xs ys = emd xs ys).
  { clear. intros xs ys Hl C. symmetry. apply emd_unique.
    destruct (slow_value xs ys Hl) as (H1 & H2 & H3).
    assert (U := emd_close_upper xs ys C). rewrite Nat.max_l in U by auto.
    assert (Hle : emd_1d_slow exact xs ys <= emd xs ys).
    { destruct (emd_is_emd xs ys) as [(p & rx & ry & M & Ec) _].
      destruct (extend_matching xs ys (length ry) p rx ry) as (p' & rx' & M' & C'); auto.
      { intros x y Hx Hy. specialize (C x y Hx Hy). clear - C. qclra. }
      specialize (H3 _ _ M'). apply matching_length in M'. destruct M' as [L1 L2].
      cbn [length] in L2. rewrite Nat.add_0_r in L2. rewrite L1, L2, qn_add in H3.
      rewrite Ec. clear - H3 C'. qclra. }
    assert (Hge : emd xs ys <= emd_1d_slow exact xs ys).
    { destruct H1 as [H1|(p & rx & M & H1)]; [rewrite H1; auto|].
      rewrite H1. apply emd_le. exists p, rx, []. split; auto.
      apply matching_length in M. destruct M as [-> ->]. rewrite !qn_add. cbn [length].
      clear. qclra. }
    assert (Eq : emd_1d_slow exact xs ys = emd xs ys) by (clear - Hle Hge; qclra).
    rewrite Eq. apply emd_is_emd. }
  intros C. destruct (le_lt_dec (length ys) (length xs)) as [H|H]; auto.
  rewrite slow_swap, emd_sym by auto. apply main; [lia|]. apply close_sym; auto.
Qed.
