(** What [lookup] returns. *)
From Coq Require Import ZArith NArith QArith Qcanon List Bool Permutation Lia Sorted.
From Verif Require Import Num Py ListAux PyDict Float64 EmdSpec EmdModel EmdProofs EmdFloatProofs
  NmdSpec NmdModel NmdProofs NmdFloatProofs IndexSpec IndexModel IndexProofs IndexLoops.
Import ListNotations.
Open Scope Qc_scope.

(** ** Averages *)

Notation all_le := (Forall2 Qcle).
Notation nonneg := (Forall (fun x => 0 <= x)).

(** What is used of [mean(_, dim)]: it is a monotone average of non-negative
    scores. *)
Record averaging (mean : list Qc -> Qc) : Prop := {
  mean_mono : forall a b, nonneg a -> all_le a b -> mean a <= mean b;
  mean_zero : forall n, small (S n) -> mean (repeat 0 (S n)) = 0;
  mean_one : forall n, small (S n) -> mean (repeat 1 (S n)) = 1
}.

(** Strictly monotone as well. *)
Record strict_averaging (mean : list Qc -> Qc) : Prop := {
  strict_avg :> averaging mean;
  mean_strict : forall a b, nonneg a -> all_le a b -> a <> b -> mean a < mean b
}.

Lemma fsum_mono rnd a b : lawful rnd -> all_le a b -> forall s t, s <= t ->
  fold_left (fun a x => rnd (a + x)) a s <= fold_left (fun a x => rnd (a + x)) b t.
Proof.
  intros L. induction 1 as [|x y a b Hxy H IH]; intros s t Hst; simpl; auto.
  apply IH. apply (rnd_mono _ L). clear - Hxy Hst. qclra.
Qed.

Lemma all_le_length a b : all_le a b -> length a = length b.
Proof. induction 1; simpl; auto. Qed.

Lemma qdiv_mono a b c : 0 <= c -> a <= b -> a / c <= b / c.
Proof.
  intros Hc H. destruct (qc_eq_dec c 0) as [->|N].
  - unfold Qcdiv. assert (/ (0:Qc) = 0) by (apply Qc_is_canon; reflexivity). rewrite H0, !Qcmult_0_r. apply Qcle_refl.
  - assert (0 < c). { apply Qcnot_le_lt. intros C. apply N. clear - C Hc. qclra. }
    unfold Qcdiv. apply Qcmult_le_compat_r; auto. apply qinv_nonneg; auto.
Qed.

Lemma qdiv_self c : 0 < c -> c / c = 1.
Proof. intros H. unfold Qcdiv. apply Qcmult_inv_r. intros E. rewrite E in H. clear - H. qclra. Qed.

Lemma qdiv_0 c : 0 / c = 0.
Proof. unfold Qcdiv. ring. Qed.

Lemma fsum_repeat rnd (L : lawful rnd) m : forall k, small (k + m) ->
  fold_left (fun a x => rnd (a + x)) (repeat 1 m) (qn k) = qn (k + m).
Proof.
  induction m as [|m IH]; intros k S; simpl.
  - rewrite Nat.add_0_r. reflexivity.
  - rewrite <- qn_1, <- qn_add. rewrite (rnd_qn rnd L) by (eapply small_le; [|exact S]; lia).
    rewrite IH by (eapply small_le; [|exact S]; lia). f_equal. lia.
Qed.

Lemma fsum_zeros rnd (L : lawful rnd) m : fold_left (fun a x => rnd (a + x)) (repeat 0 m) 0 = 0.
Proof.
  induction m as [|m IH]; simpl; auto. replace (0 + 0 : Qc) with (0 : Qc) by ring. rewrite (rnd_0 rnd L). auto.
Qed.

Lemma mean1_averaging rnd : lawful rnd -> averaging (mean1 rnd).
Proof.
  intros L. split.
  - intros a b _ H. unfold mean1, zlen. rewrite (all_le_length _ _ H). apply (rnd_mono _ L). apply qdiv_mono.
    + fold (qn (length b)). apply qn_nonneg.
    + apply fsum_mono; auto. apply Qcle_refl.
  - intros n S. unfold mean1, fsum. rewrite fsum_zeros by auto. rewrite qdiv_0. apply (rnd_0 rnd L).
  - intros n S. unfold mean1, fsum. rewrite <- qn_0 at 1. rewrite fsum_repeat by auto.
    unfold zlen. rewrite repeat_length. fold (qn (Datatypes.S n)). rewrite Nat.add_0_l, qdiv_self; [apply (rnd_1 rnd L)|]. apply qn_pos. lia.
Qed.

Lemma fsum_exact_cons l : forall s, fold_left (fun a x => exact (a + x)) l s = s + qsum l.
Proof.
  induction l as [|x l IH]; intros s; simpl.
  - ring.
  - rewrite IH. unfold exact. ring.
Qed.

Lemma qsum_strict a b : all_le a b -> a <> b -> qsum a < qsum b.
Proof.
  induction 1 as [|x y a b Hxy H IH]; intros N; [congruence|]. simpl.
  assert (Hs : qsum a <= qsum b).
  { clear - H. induction H; simpl; [apply Qcle_refl|]. clear - H IHForall2. generalize dependent (qsum l). generalize dependent (qsum l'). intros. qclra. }
  destruct (qc_eq_dec x y) as [->|Nxy].
  - assert (a <> b) by congruence. specialize (IH H0). clear - IH. generalize dependent (qsum a). generalize dependent (qsum b). intros. qclra.
  - assert (x < y). { apply Qcnot_le_lt. intros C. apply Nxy. clear - C Hxy. qclra. }
    clear - H0 Hs. generalize dependent (qsum a). generalize dependent (qsum b). intros. qclra.
Qed.

Lemma mean1_strict : strict_averaging (mean1 exact).
Proof.
  split; [apply mean1_averaging, lawful_exact|].
  intros a b _ H N. unfold mean1, fsum. rewrite !fsum_exact_cons. unfold exact, zlen. rewrite (all_le_length _ _ H).
  assert (Hb : (0 < length b)%nat).
  { destruct b; [|simpl; lia]. inversion H; subst. congruence. }
  fold (qn (length b)). pose proof (qsum_strict a b H N) as Q.
  unfold Qcdiv. apply Qcmult_lt_compat_r.
  - assert (0 <= / qn (length b)) by (apply qinv_nonneg, qn_pos; auto).
    apply Qcnot_le_lt. intros C. assert (E : / qn (length b) = 0) by (clear - H0 C; qclra).
    assert (qn (length b) * / qn (length b) = 1). { apply Qcmult_inv_r. intros E2. pose proof (qn_pos _ Hb). rewrite E2 in H1. clear - H1. qclra. }
    rewrite E in H1. clear - H1. rewrite Qcmult_0_r in H1. discriminate.
  - clear - Q. generalize dependent (qsum a). generalize dependent (qsum b). intros. qclra.
Qed.

(** ** The best of a list *)

Section Best.
Context {A V : Type} (leb : V -> V -> bool) (key : A -> V).
Hypothesis total : forall a b, leb a b = true \/ leb b a = true.
Hypothesis trans : forall a b c, leb a b = true -> leb b c = true -> leb a c = true.

Definition best (l : list A) : list A := isort (fun a b => leb (key b) (key a)) l.

Lemma best_perm l : Permutation (best l) l.
Proof. apply isort_perm. Qed.

Lemma best_sorted l : StronglySorted (fun a b => leb (key b) (key a) = true) (best l).
Proof. apply isort_sorted; [intros; apply total|intros a b c H1 H2; eapply trans; eauto]. Qed.

Lemma sorted_app_le (R : A -> A -> Prop) l1 l2 : StronglySorted R (l1 ++ l2) -> forall x y, In x l1 -> In y l2 -> R x y.
Proof.
  induction l1 as [|a l1 IH]; simpl; intros H x y Hx Hy; [contradiction|].
  inversion H; subst. destruct Hx as [->|Hx]; auto.
  rewrite Forall_forall in H3. apply H3, in_app_iff; auto.
Qed.

Lemma sorted_firstn (R : A -> A -> Prop) l k : StronglySorted R l -> StronglySorted R (firstn k l).
Proof.
  intros H. revert k. induction H as [|a l H IH Ha]; intros [|k]; simpl; try constructor; auto.
  rewrite Forall_forall in *. intros x Hx. apply Ha. rewrite <- (firstn_skipn k l). apply in_app_iff; auto.
Qed.

Lemma best_rest l k x y : In x (firstn k (best l)) -> In y l -> ~ In y (firstn k (best l)) -> leb (key y) (key x) = true.
Proof.
  intros Hx Hy Ny. pose proof (best_sorted l) as S. rewrite <- (firstn_skipn k (best l)) in S.
  eapply sorted_app_le in S; eauto. eapply Permutation_in in Hy; [|symmetry; apply best_perm].
  rewrite <- (firstn_skipn k (best l)) in Hy. apply in_app_iff in Hy. tauto.
Qed.

Lemma best_firstn_incl l k x : In x (firstn k (best l)) -> In x l.
Proof.
  intros H. eapply Permutation_in; [apply best_perm|]. rewrite <- (firstn_skipn k (best l)). apply in_app_iff. auto.
Qed.
End Best.

Lemma isort_map {A B} (leb : B -> B -> bool) (f : A -> B) l :
  isort leb (map f l) = map f (isort (fun a b => leb (f a) (f b)) l).
Proof.
  unfold isort. induction l as [|a l IH]; simpl; auto. rewrite IH. clear IH.
  induction (fold_right (insert (fun a b => leb (f a) (f b))) [] l) as [|b m IH]; simpl; auto.
  destruct (leb (f a) (f b)); simpl; auto. f_equal. auto.
Qed.

Lemma NoDup_firstn {A} (l : list A) k : NoDup l -> NoDup (firstn k l).
Proof.
  intros H. rewrite <- (firstn_skipn k l) in H. apply NoDup_app_inv in H. tauto.
Qed.

Lemma map_firstn {A B} (f : A -> B) l k : map f (firstn k l) = firstn k (map f l).
Proof. revert k; induction l; intros [|k]; simpl; auto. f_equal; auto. Qed.

Lemma qleb_total a b : qleb a b = true \/ qleb b a = true.
Proof. rewrite !qleb_le. destruct (Qclt_le_dec a b); auto using Qclt_le_weak. Qed.
Lemma qleb_trans a b c : qleb a b = true -> qleb b c = true -> qleb a c = true.
Proof. rewrite !qleb_le. apply Qcle_trans. Qed.

Lemma pair_leb_iff a b : pair_leb a b = true <-> fst a < fst b \/ (fst a = fst b /\ snd a <= snd b).
Proof. unfold pair_leb. rewrite orb_true_iff, andb_true_iff, qltb_lt, qeqb_eq, qleb_le. reflexivity. Qed.
Lemma pair_leb_total a b : pair_leb a b = true \/ pair_leb b a = true.
Proof.
  rewrite !pair_leb_iff. destruct a as [a1 a2], b as [b1 b2]. simpl.
  destruct (Qc_dec a1 b1) as [[H|H]|H]; auto. subst.
  destruct (Qclt_le_dec a2 b2); auto using Qclt_le_weak.
Qed.
Lemma pair_leb_trans a b c : pair_leb a b = true -> pair_leb b c = true -> pair_leb a c = true.
Proof.
  rewrite !pair_leb_iff. destruct a as [a1 a2], b as [b1 b2], c as [c1 c2]. simpl.
  intros [H|[-> H]] [H'|[-> H']].
  - left. eapply Qclt_trans; eauto.
  - auto.
  - auto.
  - right. split; auto. eapply Qcle_trans; eauto.
Qed.
Lemma pair_leb_fst a b : pair_leb a b = true -> fst a <= fst b.
Proof. rewrite pair_leb_iff. intros [H|[-> _]]; [apply Qclt_le_weak; auto|apply Qcle_refl]. Qed.

(** ** Integers up to [T] are exact and distances are pinched *)

Record faithful_upto (rnd : Qc -> Qc) (T : nat) : Prop := {
  fu_int : forall m, (m <= T)%nat -> rnd (qn m) = qn m;
  fu_emd : forall l1 l2 e, (length l1 + length l2 <= T)%nat -> in_unit l1 -> in_unit l2 ->
    emd_1d_dp rnd l1 l2 = Ok e ->
    qn (length l1 - length l2) <= e /\ qn (length l2 - length l1) <= e /\ e <= qn (Nat.max (length l1) (length l2))
}.

Lemma lawful_faithful rnd T : lawful rnd -> small T -> faithful_upto rnd T.
Proof.
  intros L S. split.
  - intros m Hm. apply (rnd_qn rnd L). eapply small_le; eauto.
  - intros l1 l2 e H U1 U2 E. assert (S1 : small (length l1 + length l2)) by (eapply small_le; eauto).
    destruct (dp_float_bounds rnd L l1 l2 e S1 E) as (_ & _ & B1 & B2). repeat split; auto.
    eapply (dp_float_unit rnd L); eauto.
Qed.

Lemma exact_faithful T : faithful_upto exact T.
Proof.
  split; [reflexivity|]. intros l1 l2 e _ U1 U2 E. rewrite emd_1d_dp_exact in E.
  assert (E' : emd l1 l2 = e) by congruence. rewrite <- E'. repeat split.
  - pose proof (emd_lower l1 l2) as H. pose proof (emd_nonneg l1 l2) as H0.
    destruct (Nat.le_gt_cases (length l1) (length l2)) as [C|C].
    + replace (length l1 - length l2)%nat with 0%nat by lia. auto.
    + assert (E2 : qn (length l1) = qn (length l1 - length l2) + qn (length l2)) by (rewrite <- qn_add; f_equal; lia).
      clear - H E2. qclra.
  - pose proof (emd_lower l2 l1) as H. rewrite emd_sym in H. pose proof (emd_nonneg l1 l2) as H0.
    destruct (Nat.le_gt_cases (length l2) (length l1)) as [C|C].
    + replace (length l2 - length l1)%nat with 0%nat by lia. auto.
    + assert (E2 : qn (length l2) = qn (length l2 - length l1) + qn (length l1)) by (rewrite <- qn_add; f_equal; lia).
      clear - H E2. qclra.
  - apply emd_close_upper, in_unit_close; auto.
Qed.

Lemma faithful_le rnd T T' : (T' <= T)%nat -> faithful_upto rnd T -> faithful_upto rnd T'.
Proof.
  intros H F. split.
  - intros m Hm. apply (fu_int _ _ F). lia.
  - intros l1 l2 e Hl. apply (fu_emd _ _ F). lia.
Qed.

(** ** Similarities *)

Definition overlap (loc2 : dict str (list Qc)) (it : str * list Qc) : nat :=
  match dget (fst it) loc2 with Some l2 => Nat.min (length (snd it)) (length l2) | None => 0 end.

Lemma sim_loop_pinched rnd (L : lawful rnd) T (F : faithful_upto rnd T) loc2 its : forall s K,
  (forall g l, In (g, l) its -> in_unit l) ->
  (forall g l, dget g loc2 = Some l -> in_unit l) ->
  (2 * K + list_sum (map (load loc2) its) <= T)%nat -> qn K <= s -> s <= qn (2 * K) ->
  exists s', foldM (sim_step rnd loc2) its s = Ok s' /\
    qn (K + list_sum (map (overlap loc2) its)) <= s' /\ s' <= qn (2 * (K + list_sum (map (overlap loc2) its))).
Proof.
  induction its as [|[g l1] its IH]; intros s K U1 U2 HT H1 H2.
  - exists s. cbn [foldM map list_sum fold_right]. rewrite Nat.add_0_r. auto.
  - cbn [foldM map list_sum fold_right] in *. change (fold_right Nat.add 0%nat) with list_sum in *.
    unfold sim_step at 1. unfold overlap at 1 3. unfold load at 1 in HT. cbn [fst snd] in *.
    destruct (dget g loc2) as [l2|] eqn:E.
    + destruct (dp_float_value rnd L l1 l2) as (e & He & _). rewrite He. cbn [bind].
      assert (Ui1 : in_unit l1) by (apply (U1 g); left; auto).
      assert (Ui2 : in_unit l2) by (apply (U2 g); auto).
      destruct (fu_emd _ _ F l1 l2 e) as (B1 & B2 & B3); auto; [lia|].
      assert (Ez : qz (zlen l1 + zlen l2) = qn (length l1 + length l2)).
      { unfold qn, zlen. f_equal. lia. }
      rewrite Ez. set (a := length l1) in *. set (b := length l2) in *.
      assert (T1 : qn (K + (a + b)) <= rnd (s + qn (a + b))).
      { rewrite <- (fu_int _ _ F (K + (a + b))) by lia. apply (rnd_mono _ L). rewrite (qn_add K). clear - H1. qclra. }
      assert (T2 : rnd (s + qn (a + b)) <= qn (2 * K + (a + b))).
      { rewrite <- (fu_int _ _ F (2 * K + (a + b))) by lia. apply (rnd_mono _ L). rewrite (qn_add (2 * K)). clear - H2. qclra. }
      destruct (IH (rnd (rnd (s + qn (a + b)) - e)) (K + Nat.min a b)%nat) as (s' & E' & C1 & C2).
      * intros; eapply U1; right; eauto.
      * auto.
      * lia.
      * rewrite <- (fu_int _ _ F (K + Nat.min a b)) by lia. apply (rnd_mono _ L).
        assert (qn (K + (a + b)) = qn (K + Nat.min a b) + qn (Nat.max a b)) by (rewrite <- qn_add; f_equal; lia).
        clear - T1 B3 H. qclra.
      * rewrite <- (fu_int _ _ F (2 * (K + Nat.min a b))) by lia. apply (rnd_mono _ L).
        destruct (Nat.le_ge_cases a b) as [C|C].
        -- assert (Q : qn (2 * K + (a + b)) = qn (2 * (K + Nat.min a b)) + qn (b - a)) by (rewrite <- qn_add; f_equal; lia).
           clear - T2 B2 Q. qclra.
        -- assert (Q : qn (2 * K + (a + b)) = qn (2 * (K + Nat.min a b)) + qn (a - b)) by (rewrite <- qn_add; f_equal; lia).
           clear - T2 B1 Q. qclra.
      * exists s'. rewrite Nat.add_assoc. auto.
    + cbn [bind]. apply IH; auto. intros; eapply U1; right; eauto.
Qed.

Lemma load_group (kv1 kv2 : list (str * Qc)) :
  (list_sum (map (load (group kv2)) (group kv1)) <= length kv1 + length kv2)%nat.
Proof.
  set (ks := dkeys (group kv1)). assert (N : NoDup ks) by apply group_wf.
  assert (H : (list_sum (map (load (group kv2)) (group kv1)) <=
     list_sum (map (fun g => count_occ eqd (map fst kv1) g) ks) + list_sum (map (fun g => count_occ eqd (map fst kv2) g) ks))%nat).
  { unfold ks, dkeys.
    assert (I : forall g l, In (g, l) (group kv1) -> length l = count_occ eqd (map fst kv1) g).
    { intros g l Hl. apply group_item in Hl. destruct Hl as [-> _]. apply select_length. }
    revert I. clear N ks. generalize (group kv1).
    intros its. induction its as [|[g l'] its IH]; intros I; [simpl; lia|].
    cbn [map list_sum fold_right fst]. change (fold_right Nat.add 0%nat) with list_sum.
    assert (load (group kv2) (g, l') <= count_occ eqd (map fst kv1) g + count_occ eqd (map fst kv2) g)%nat.
    { unfold load. cbn [fst snd]. destruct (dget g (group kv2)) as [l2|] eqn:E; [|lia].
      apply dget_In, group_item in E. destruct E as [-> _]. rewrite select_length.
      rewrite (I g l') by (left; auto). lia. }
    assert (IH' := IH (fun g l Hl => I g l (or_intror Hl))). lia. }
  pose proof (list_sum_count_le (map fst kv1) ks N). pose proof (list_sum_count_le (map fst kv2) ks N).
  rewrite map_length in *. lia.
Qed.

Lemma gocc_unit rnd (L : lawful rnd) l g x : dget g (group (gocc rnd l)) = Some x -> in_unit x.
Proof.
  intros H. apply dget_In, group_item in H. destruct H as [-> _]. unfold in_unit. apply Forall_forall.
  intros v Hv. unfold select in Hv. apply in_map_iff in Hv. destruct Hv as ([g' v'] & <- & Hv). apply filter_In in Hv.
  destruct Hv as [Hv _]. unfold gocc in Hv. apply in_map_iff in Hv. destruct Hv as ([z g1] & [= <- <-] & Hz). cbn [fst snd].
  rewrite (enumerate_map l []) in Hz. apply in_map_iff in Hz. destruct Hz as (i & [= <- _] & Hi). apply in_seq in Hi.
  assert (P : 0 < qz (Z.max 1 (zlen l - 1))). { rewrite <- qz_0. apply (proj1 (qz_lt _ _)). lia. }
  split.
  - apply rnd_nonneg; auto. apply qdiv_nonneg; auto. rewrite <- qz_0. apply (proj1 (qz_le _ _)). lia.
  - rewrite <- (rnd_1 rnd L). apply (rnd_mono _ L). apply qdiv_le_1; auto. apply (proj1 (qz_le _ _)). unfold zlen. lia.
Qed.

Section Score.
Variable rnd : Qc -> Qc.
Hypothesis L : lawful rnd.

(** The similarity for one n, before normalization. *)
Definition simf (q : str) (n : Z) (w : str) : result Qc :=
  foldM (sim_step rnd (group (gocc rnd (get_n_grams w n)))) (items rnd q n) 0.

Definition common (q : str) (n : Z) (w : str) : nat :=
  list_sum (map (overlap (group (gocc rnd (get_n_grams w n)))) (items rnd q n)).

Definition weight (q : str) (n : Z) (w : str) : nat := (length (get_n_grams q n) + length (get_n_grams w n))%nat.

Lemma simf_pinched q n w : faithful_upto rnd (weight q n w) ->
  exists s, simf q n w = Ok s /\ qn (common q n w) <= s /\ s <= qn (2 * common q n w).
Proof.
  intros F. unfold simf, common.
  destruct (sim_loop_pinched rnd L _ F (group (gocc rnd (get_n_grams w n))) (items rnd q n) 0 0) as (s & E & B1 & B2).
  - intros g l H. apply In_dget in H; [|apply group_wf]. eapply gocc_unit; eauto.
  - intros g l H. eapply gocc_unit; eauto.
  - cbn [Nat.mul plus]. unfold items. etransitivity; [apply load_group|].
    unfold weight. rewrite <- (map_length fst (gocc rnd (get_n_grams q n))), <- (map_length fst (gocc rnd (get_n_grams w n))), !gocc_keys. lia.
  - apply Qcle_refl.
  - apply Qcle_refl.
  - exists s. auto.
Qed.

Lemma simf_ok q n w : exists s, simf q n w = Ok s.
Proof.
  unfold simf. generalize (items rnd q n) (group (gocc rnd (get_n_grams w n))) (0 : Qc).
  intros its loc2. induction its as [|[g l] its IH]; intros s; [eexists; reflexivity|].
  cbn [foldM]. unfold sim_step at 1. destruct (dget g loc2) as [l2|]; [|apply IH].
  destruct (dp_float_value rnd L l l2) as (e & -> & _). cbn [bind]. apply IH.
Qed.

(** The score for one n. *)
Definition score1 (normalize : bool) (q : str) (n : Z) (w : str) : result Qc :=
  s <- simf q n w ;;
  if normalize then
    if (size n q + size n w =? 0)%Z then Err ZeroDivisionError else Ok (rnd (s / qz (size n q + size n w)))
  else Ok s.

(** It is what the public function returns. *)
Lemma score1_nmd normalize q n w : clean q -> clean w -> (2 <= n)%Z ->
  score1 normalize q n w = ngram_movers_distance rnd (PStr q) (PStr w) (PInt n) true normalize.
Proof.
  intros Cq Cw Hn. unfold ngram_movers_distance. rewrite !check_word_clean by auto. cbn [bind].
  unfold check_n. cbn [as_int]. destruct (Z.ltb_spec n 2); [lia|]. cbn [bind].
  assert (En : n = Z.of_nat (Z.to_nat n)) by lia. set (m := Z.to_nat n) in *. clearbody m. subst n.
  unfold nmd_body, score1, simf, items.
  assert (E : forall w, (zlen (2%N :: w ++ [3%N]) - Z.of_nat m + 1)%Z = num m w).
  { intros v. unfold num, zlen. cbn [length]. rewrite app_length. cbn [length]. lia. }
  assert (Es : forall v, size (Z.of_nat m) v = num m v).
  { intros v. unfold size, num. destruct (Z.ltb_spec 1 (Z.of_nat m)); lia. }
  rewrite !E, !locations_group, !Es, !gocc_big by lia. reflexivity.
Qed.

Lemma common_pos q n w : (0 < n)%Z -> shares n q w <-> (0 < common q n w)%nat.
Proof.
  intros Hn. rewrite shares_iff. unfold common, items. split.
  - intros (g & Hq & Hw).
    assert (Iq : In (g, select g (gocc rnd (get_n_grams q n))) (group (gocc rnd (get_n_grams q n)))).
    { apply dget_In, group_dget. rewrite gocc_keys. auto. }
    assert (P : (0 < overlap (group (gocc rnd (get_n_grams w n))) (g, select g (gocc rnd (get_n_grams q n))))%nat).
    { unfold overlap. cbn [fst snd]. rewrite group_dget by (rewrite gocc_keys; auto). rewrite !select_length, !gocc_keys.
      assert (0 < count_occ eqd (get_n_grams q n) g)%nat by (apply count_occ_In; auto).
      assert (0 < count_occ eqd (get_n_grams w n) g)%nat by (apply count_occ_In; auto). lia. }
    apply in_split in Iq. destruct Iq as (l1 & l2 & ->). rewrite map_app, list_sum_app. cbn [map list_sum fold_right]. lia.
  - intros H. destruct (Nat.eq_dec (common q n w) 0) as [E|E]; [unfold common, items in E; lia|].
    assert (Ex : exists it, In it (group (gocc rnd (get_n_grams q n))) /\ overlap (group (gocc rnd (get_n_grams w n))) it <> 0%nat).
    { revert H. clear. generalize (group (gocc rnd (get_n_grams q n))) (overlap (group (gocc rnd (get_n_grams w n)))).
      intros its f. induction its as [|a its IH]; cbn [map list_sum fold_right]; intros H; [lia|].
      destruct (Nat.eq_dec (f a) 0) as [E|E].
      - destruct IH as (it & H1 & H2); [change (fold_right Nat.add 0%nat) with list_sum in H; lia|]. exists it. split; auto. right; auto.
      - exists a. split; auto. left; auto. }
    destruct Ex as ([g l] & Hg & Ho). apply group_item in Hg. destruct Hg as [_ Hg]. rewrite gocc_keys in Hg.
    exists g. split; auto. unfold overlap in Ho. cbn [fst] in Ho.
    destruct (dget g (group (gocc rnd (get_n_grams w n)))) eqn:D; [|congruence].
    apply dget_Some_key in D. apply (proj1 (group_keys _ _)) in D. rewrite gocc_keys in D. auto.
Qed.

Lemma size_grams n w g : In g (get_n_grams w n) -> (0 < size n w)%Z.
Proof.
  intros H. assert (0 < zlen (get_n_grams w n))%Z. { unfold zlen. destruct (get_n_grams w n); [contradiction|]. cbn [length]. lia. }
  rewrite get_n_grams_length in H0. unfold size in *. destruct (1 <? n)%Z; lia.
Qed.

Lemma common_le q n w : (common q n w <= length (get_n_grams q n))%nat /\ (common q n w <= length (get_n_grams w n))%nat.
Proof.
  unfold common, items.
  set (ks := dkeys (group (gocc rnd (get_n_grams q n)))). assert (N : NoDup ks) by apply group_wf.
  assert (H : (list_sum (map (overlap (group (gocc rnd (get_n_grams w n)))) (group (gocc rnd (get_n_grams q n)))) <=
     list_sum (map (fun g => count_occ eqd (get_n_grams q n) g) ks))%nat /\
     (list_sum (map (overlap (group (gocc rnd (get_n_grams w n)))) (group (gocc rnd (get_n_grams q n)))) <=
     list_sum (map (fun g => count_occ eqd (get_n_grams w n) g) ks))%nat).
  { unfold ks, dkeys.
    assert (I : forall g l, In (g, l) (group (gocc rnd (get_n_grams q n))) -> length l = count_occ eqd (get_n_grams q n) g).
    { intros g l Hl. apply group_item in Hl. destruct Hl as [-> _]. rewrite select_length, gocc_keys. reflexivity. }
    revert I. clear N ks. generalize (group (gocc rnd (get_n_grams q n))).
    intros its. induction its as [|[g l'] its IH]; intros I; [simpl; lia|].
    cbn [map list_sum fold_right fst]. change (fold_right Nat.add 0%nat) with list_sum.
    assert (overlap (group (gocc rnd (get_n_grams w n))) (g, l') <= count_occ eqd (get_n_grams q n) g /\
            overlap (group (gocc rnd (get_n_grams w n))) (g, l') <= count_occ eqd (get_n_grams w n) g)%nat.
    { unfold overlap. cbn [fst snd]. rewrite (I g l') by (left; auto). destruct (dget g _) as [l2|] eqn:E; [|lia].
      apply dget_In, group_item in E. destruct E as [-> _]. rewrite !select_length, !gocc_keys. lia. }
    destruct (IH (fun g l Hl => I g l (or_intror Hl))). lia. }
  pose proof (list_sum_count_le (get_n_grams q n) ks N). pose proof (list_sum_count_le (get_n_grams w n) ks N). lia.
Qed.

End Score.
