(** [ngram_movers_distance] under any lawful rounding. *)
From Coq Require Import ZArith NArith QArith Qcanon List Bool Permutation Lia.
From Verif Require Import Num Py ListAux PyDict Float64 EmdSpec EmdModel EmdProofs EmdFloatProofs NmdSpec NmdModel NmdProofs.
Import ListNotations.
Open Scope Qc_scope.

Lemma list_sum_count_le (l ks : list str) :
  NoDup ks -> (list_sum (map (fun g => count_occ eqd l g) ks) <= length l)%nat.
Proof.
  intros N. induction l as [|a l IH].
  - assert (list_sum (map (fun g => count_occ eqd (@nil str) g) ks) = 0)%nat as ->; [|simpl; lia].
    apply list_sum_zero_iff. intros x Hx. apply in_map_iff in Hx. destruct Hx as (g & <- & _). reflexivity.
  - cbn [length].
    assert (Hs : (list_sum (map (fun g => count_occ eqd (a :: l) g) ks) <=
                 list_sum (map (fun g => count_occ eqd l g) ks) + count_occ eqd ks a)%nat).
    { clear IH. induction ks as [|k ks IH]; [simpl; lia|].
      inversion N; subst. specialize (IH H2). cbn [map list_sum fold_right] in *.
      change (fold_right Nat.add 0%nat) with list_sum in *. cbn [count_occ] in *.
      destruct (eqd a k), (eqd k a); try congruence; lia. }
    assert (count_occ eqd ks a <= 1)%nat by (apply (NoDup_count_occ eqd); auto). lia.
Qed.

Section Lawful.
Variable rnd : Qc -> Qc.
Hypothesis L : lawful rnd.

Definition load (loc2 : dict str (list Qc)) (it : str * list Qc) : nat :=
  match dget (fst it) loc2 with Some l2 => length (snd it) + length l2 | None => 0 end.

Lemma small_le a b : (a <= b)%nat -> small b -> small a.
Proof. unfold small. lia. Qed.

Lemma sim_loop_bounds loc2 items : forall s K,
  (forall g l, In (g, l) items -> in_unit l) ->
  (forall g l, dget g loc2 = Some l -> in_unit l) ->
  small (K + list_sum (map (load loc2) items)) -> 0 <= s -> s <= qn K ->
  exists s', foldM (sim_step rnd loc2) items s = Ok s' /\
    0 <= s' /\ s' <= qn (K + list_sum (map (load loc2) items)).
Proof.
  induction items as [|[g l1] items IH]; intros s K U1 U2 S H0 HK.
  - exists s. simpl. rewrite Nat.add_0_r. auto.
  - cbn [foldM]. unfold sim_step at 1.
    cbn [map list_sum fold_right] in *. change (fold_right Nat.add 0%nat) with list_sum in *.
    assert (El : load loc2 (g, l1) = match dget g loc2 with Some l2 => (length l1 + length l2)%nat | None => 0%nat end) by reflexivity.
    rewrite El in *. clear El. cbn [fst snd] in *.
    destruct (dget g loc2) as [l2|] eqn:E.
    + destruct (dp_float_value rnd L l1 l2) as (e & He & _). rewrite He. cbn [bind].
      assert (S1 : small (length l1 + length l2)) by (eapply small_le; [|exact S]; lia).
      assert (Ue : e <= qn (Nat.max (length l1) (length l2))).
      { eapply (dp_float_unit rnd L); eauto. apply (U1 g). left; auto. }
      assert (Ge : 0 <= e) by (eapply (dp_float_bounds rnd L); eauto).
      assert (Em : qn (Nat.max (length l1) (length l2)) <= qn (length l1 + length l2)) by (apply qn_le; lia).
      assert (Ez : qz (zlen l1 + zlen l2) = qn (length l1 + length l2)).
      { unfold qn, zlen. f_equal. lia. }
      rewrite Ez. set (A := (length l1 + length l2)%nat) in *.
      assert (T1 : qn A <= rnd (s + qn A)) by (apply rnd_ge_qn; auto; clear - H0; qclra).
      assert (T2 : rnd (s + qn A) <= qn (K + A)).
      { apply rnd_le_qn; auto; [eapply small_le; [|exact S]; lia|]. rewrite qn_add. clear - HK. qclra. }
      destruct (IH (rnd (rnd (s + qn A) - e)) (K + A)%nat) as (s' & E' & B1 & B2).
      * intros; eapply U1; right; eauto.
      * auto.
      * eapply small_le; [|exact S]. lia.
      * apply rnd_nonneg; auto. clear - T1 Ue Em. qclra.
      * apply rnd_le_qn; auto; [eapply small_le; [|exact S]; lia|]. clear - T2 Ge. qclra.
      * exists s'. rewrite Nat.add_assoc. auto.
    + cbn [bind]. destruct (IH s K) as (s' & E' & B1 & B2); auto.
      * intros; eapply U1; right; eauto.
      * exists s'. auto.
Qed.

Lemma occ_unit n w g l : dget g (group (occ rnd n w)) = Some l -> in_unit l.
Proof.
  intros H. apply dget_In, group_item in H. destruct H as [-> _]. rewrite occ_select.
  pose proof (positions_unit n w g) as U. apply Forall_map. eapply Forall_impl; [|exact U].
  intros q [H0 H1]. split.
  - apply rnd_nonneg; auto.
  - rewrite <- (rnd_1 rnd L). apply (rnd_mono _ L); auto.
Qed.

Lemma load_total n w1 w2 :
  (list_sum (map (load (group (occ rnd n w2))) (group (occ rnd n w1))) <= gram_count n w1 + gram_count n w2)%nat.
Proof.
  set (ks := dkeys (group (occ rnd n w1))).
  assert (N : NoDup ks) by apply group_wf.
  assert (H : (list_sum (map (load (group (occ rnd n w2))) (group (occ rnd n w1))) <=
     list_sum (map (fun g => count_occ eqd (grams n w1) g) ks) + list_sum (map (fun g => count_occ eqd (grams n w2) g) ks))%nat).
  { unfold ks, dkeys.
    assert (I : forall g l, In (g, l) (group (occ rnd n w1)) -> length l = count_occ eqd (grams n w1) g).
    { intros g l Hl. apply group_item in Hl. destruct Hl as [-> _]. rewrite occ_select, map_length. apply positions_length. }
    revert I. clear N ks. generalize (group (occ rnd n w1)).
    intros items. induction items as [|[g l'] items IH]; intros I; [simpl; lia|].
    cbn [map list_sum fold_right fst]. change (fold_right Nat.add 0%nat) with list_sum.
    assert (load (group (occ rnd n w2)) (g, l') <= count_occ eqd (grams n w1) g + count_occ eqd (grams n w2) g)%nat.
    { unfold load. cbn [fst snd]. destruct (dget g (group (occ rnd n w2))) as [l2|] eqn:E; [|lia].
      apply dget_In, group_item in E. destruct E as [-> _]. rewrite occ_select, map_length, positions_length.
      rewrite (I g l') by (left; auto). lia. }
    assert (IH' := IH (fun g l Hl => I g l (or_intror Hl))). lia. }
  pose proof (list_sum_count_le (grams n w1) ks N). pose proof (list_sum_count_le (grams n w2) ks N).
  rewrite grams_length in *. lia.
Qed.

Lemma sim_float n w1 w2 :
  small (gram_count n w1 + gram_count n w2) ->
  exists s, foldM (sim_step rnd (group (occ rnd n w2))) (group (occ rnd n w1)) 0 = Ok s /\
    0 <= s /\ s <= qn (gram_count n w1 + gram_count n w2).
Proof.
  intros S. destruct (sim_loop_bounds (group (occ rnd n w2)) (group (occ rnd n w1)) 0 0) as (s & E & B1 & B2).
  - intros g l H. apply In_dget in H; [|apply group_wf]. eapply occ_unit; eauto.
  - intros g l H. eapply occ_unit; eauto.
  - eapply small_le; [|exact S]. apply load_total.
  - apply Qcle_refl.
  - apply Qcle_refl.
  - exists s. repeat split; auto. eapply Qcle_trans; [exact B2|]. apply qn_le. apply load_total.
Qed.

Lemma sim_loop_self loc2 items : forall K,
  (forall g l, In (g, l) items -> dget g loc2 = Some l) ->
  small (K + list_sum (map (fun it => 2 * length (snd it))%nat items)) ->
  foldM (sim_step rnd loc2) items (qn K) = Ok (qn (K + list_sum (map (fun it => 2 * length (snd it))%nat items))).
Proof.
  induction items as [|[g l] items IH]; intros K H S.
  - simpl. rewrite Nat.add_0_r. reflexivity.
  - cbn [foldM]. unfold sim_step at 1. rewrite (H g l) by (left; auto).
    assert (emd_1d_dp rnd l l = Ok 0) as -> by (apply dp_float_zero_iff; auto).
    cbn [bind map list_sum fold_right snd] in *. change (fold_right Nat.add 0%nat) with list_sum in *.
    assert (qz (zlen l + zlen l) = qn (2 * length l)) as ->.
    { unfold qn, zlen. f_equal. lia. }
    rewrite <- qn_add.
    assert (S1 : small (K + 2 * length l)) by (eapply small_le; [|exact S]; lia).
    rewrite (rnd_qn rnd L _ S1).
    replace (qn (K + 2 * length l) - 0) with (qn (K + 2 * length l)) by (clear; qclra).
    rewrite (rnd_qn rnd L _ S1). rewrite IH.
    + f_equal. f_equal. lia.
    + intros. apply H. right; auto.
    + eapply small_le; [|exact S]. lia.
Qed.

Lemma group_self_total n w :
  list_sum (map (fun it => 2 * length (snd it))%nat (group (occ rnd n w))) = (gram_count n w + gram_count n w)%nat.
Proof.
  apply qn_inj. rewrite qn_list_sum, map_map.
  rewrite (qsum_map_ext _ (fun it => qn (length (positions n w (fst it))) + qn (length (positions n w (fst it))))).
  - rewrite qsum_map_add, <- (map_map fst (fun g => qn (length (positions n w g)))).
    rewrite positions_total.
    + rewrite qn_add. reflexivity.
    + apply group_wf.
    + intros g Hg. apply (proj2 (group_keys _ _)). rewrite occ_keys. auto.
  - intros [g l] Hl. cbn [fst snd]. apply group_item in Hl. destruct Hl as [-> _].
    rewrite occ_select, map_length, <- qn_add. f_equal. lia.
Qed.

(** Range under rounding, and self-distance, for [n] not longer than the
    padded words. *)
Lemma nmd_float_range n w1 w2 invert normalize :
  (n <= length w1 + 2)%nat -> (n <= length w2 + 2)%nat ->
  small (gram_count n w1 + gram_count n w2) ->
  exists d, nmd_body rnd w1 w2 (Z.of_nat n) invert normalize = Ok d /\
    0 <= d /\ d <= (if normalize then 1 else qn (gram_count n w1 + gram_count n w2)).
Proof.
  intros H1 H2 S. unfold nmd_body.
  assert (E : forall w, (zlen (2%N :: w ++ [3%N]) - Z.of_nat n + 1)%Z = num n w).
  { intros w. unfold num, zlen. cbn [length]. rewrite app_length. cbn [length]. lia. }
  rewrite !E, !locations_group.
  destruct (sim_float n w1 w2 S) as (s & Es & B1 & B2). rewrite Es. cbn [bind].
  rewrite !num_pos_count by auto. rewrite <- Nat2Z.inj_add.
  fold (qn (gram_count n w1 + gram_count n w2)).
  set (T := (gram_count n w1 + gram_count n w2)%nat) in *.
  assert (HT : (0 < T)%nat) by (unfold T, gram_count; lia).
  set (out := if invert then s else rnd (qn T - s)).
  assert (O1 : 0 <= out). { unfold out. destruct invert; auto. apply rnd_nonneg; auto. clear - B2. qclra. }
  assert (O2 : out <= qn T). { unfold out. destruct invert; auto. apply rnd_le_qn; auto. clear - B1. qclra. }
  destruct normalize.
  - destruct (Z.eqb_spec (Z.of_nat T) 0); [lia|].
    exists (rnd (out / qn T)). split; [reflexivity|]. split.
    + apply rnd_nonneg; auto. apply qdiv_nonneg; auto. apply qn_pos; auto.
    + rewrite <- (rnd_1 rnd L). apply (rnd_mono _ L). apply qdiv_le_1; auto. apply qn_pos; auto.
  - exists out. auto.
Qed.

Lemma nmd_float_self n w normalize :
  (n <= length w + 2)%nat -> small (gram_count n w + gram_count n w) ->
  nmd_body rnd w w (Z.of_nat n) false normalize = Ok 0 /\
  nmd_body rnd w w (Z.of_nat n) true true = Ok 1.
Proof.
  intros H S. unfold nmd_body.
  assert (E : forall w, (zlen (2%N :: w ++ [3%N]) - Z.of_nat n + 1)%Z = num n w).
  { intros w0. unfold num, zlen. cbn [length]. rewrite app_length. cbn [length]. lia. }
  rewrite !E, !locations_group. rewrite <- qn_0.
  rewrite sim_loop_self; rewrite ?group_self_total; auto.
  2:{ intros g l Hl. apply In_dget; auto. apply group_wf. }
  cbn [bind]. rewrite !num_pos_count by auto. rewrite <- Nat2Z.inj_add.
  rewrite Nat.add_0_l. set (T := (gram_count n w + gram_count n w)%nat) in *.
  fold (qn T). assert (HT : (0 < T)%nat) by (unfold T, gram_count; lia).
  replace (qn T - qn T) with 0 by (clear; qclra). rewrite (rnd_0 rnd L).
  destruct (Z.eqb_spec (Z.of_nat T) 0) as [Z0|Z0]; [lia|].
  assert (Hq : qn T <> 0). { pose proof (qn_pos T HT) as P. intros Hq. rewrite Hq in P. discriminate. }
  split.
  - destruct normalize; auto. replace (0 / qn T) with 0 by (field; auto). rewrite (rnd_0 rnd L). reflexivity.
  - replace (qn T / qn T) with 1 by (field; auto). rewrite (rnd_1 rnd L). reflexivity.
Qed.

End Lawful.
