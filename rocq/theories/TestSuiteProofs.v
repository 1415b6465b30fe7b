(** The tests of tests/test_emd_correctness.py pass whatever the sample. *)
From Coq Require Import ZArith QArith Qcanon List Permutation Lia Bool.
From Verif Require Import Num Py Float64 EmdSpec EmdModel EmdProofs NmdProofs EmdFloatProofs EmdSlowProofs HybridModel GreedyProofs HybridProofs HybridFloatProofs Accuracy.
From Verif Require Import HybridAccuracy CheckModel CheckProofs TestSuiteModel.
Import ListNotations.
Open Scope Qc_scope.

Lemma for_each_ok {A} (l : list A) body : (forall a, In a l -> body a = Ok tt) -> for_each l body = Ok tt.
Proof.
  unfold for_each. induction l as [|a l IH]; intros H; auto. cbn [foldM]. rewrite H by (left; auto). cbn [bind].
  apply IH. intros b I. apply H. right; auto.
Qed.
Lemma firstn_in {A} n (l : list A) a : In a (firstn n l) -> In a l.
Proof. revert l; induction n; intros [|b l] H; cbn in *; try tauto. destruct H; auto. Qed.
Lemma combination_in k l c v : In c (combinations k l) -> In v c -> In v l.
Proof. intros H I. destruct (combinations_sub _ _ _ H) as [r P]. apply (Permutation_in v (Permutation_sym P)). apply in_or_app; auto. Qed.
Lemma combination_unit k l c : in_unit l -> In c (combinations k l) -> in_unit c.
Proof. unfold in_unit. rewrite !Forall_forall. intros H I v J. apply H. apply (combination_in _ _ _ _ I J). Qed.
Lemma combination_le k l c : In c (combinations k l) -> (length c <= length l)%nat.
Proof. intros H. destruct (combinations_sub _ _ _ H) as [r P]. apply Permutation_length in P. rewrite app_length in P. lia. Qed.
Lemma combination_close C k l k' l' c c' : close C l l' -> In c (combinations k l) -> In c' (combinations k' l') -> close C c c'.
Proof. intros H I I' x y Hx Hy. apply H; eapply combination_in; eauto. Qed.
Lemma isclose_refl rnd rel tol a : isclose rnd rel tol a a = true.
Proof. unfold isclose. rewrite (proj2 (qeqb_eq _ _) eq_refl). reflexivity. Qed.

Section Acc.
Variable u : Qc.
Hypothesis U0 : 0 <= u.
Hypothesis U1 : u <= 1.
Variable rnd : Qc -> Qc.
Hypothesis R : lawful rnd.
Hypothesis A : accurate u rnd.

Section Size.
Variables xs ys : list Qc.
Let n := (length xs + length ys)%nat.
Hypothesis C : close 1 xs ys.
Hypothesis S : small n.
Let err := qn (6 * n) * (u * qn (n + 1)).
Hypothesis B : err <= 1.

Lemma impl_ok rel tol : qn 2 * err * (1 + u) <= tol ->
  check_emd_implementations rnd rel xs ys tol = emd_1d_old rnd xs ys.
Proof.
  intros Ht. unfold check_emd_implementations.
  destruct (hybrid_err u U0 U1 rnd R A xs ys C S B) as (dh & Eh & Bh), (old_err u U0 U1 rnd R A xs ys C S B) as (do & Eo & Bo),
    (dp_err u U0 U1 rnd R A xs ys C S B) as (dd & Ed & Bd).
  change (emd_1d_dp_optimized rnd xs ys) with (emd_1d_dp rnd xs ys). rewrite Eo, Ed, Eh. cbn [bind].
  assert (T0 : 0 <= tol).
  { eapply Qcle_trans; [|exact Ht]. apply qmul_nonneg; [apply qmul_nonneg; [discriminate|apply (err_0 u U0)]|]. clear - U0. qclra. }
  replace (qltb tol 0) with false by (symmetry; unfold qltb; apply negb_false_iff, qleb_le; auto).
  rewrite !(isclose_ok u U0 rnd A xs ys rel tol) by auto. reflexivity.
Qed.
End Size.

Lemma impl_sym rel tol xs ys : check_emd_implementations rnd rel xs ys tol = check_emd_implementations rnd rel ys xs tol.
Proof.
  unfold check_emd_implementations. change (emd_1d_dp_optimized rnd) with (emd_1d_dp rnd). rewrite !hybrid_ordered, !old_ordered.
  rewrite (ordered_sym rnd (old_rest rnd) (rnd_odd _ R) xs ys), (ordered_sym rnd (hybrid_rest rnd) (rnd_odd _ R) xs ys).
  rewrite !emd_1d_dp_edp by apply (rnd_odd _ R). rewrite (edp_sym rnd (rnd_odd _ R) (rev (qsort ys))). reflexivity.
Qed.
End Acc.

Lemma impl_inv rnd rel tol xs ys d : check_emd_implementations rnd rel xs ys tol = Ok d ->
  emd_1d_old rnd xs ys = Ok d /\ 0 <= tol /\
  exists dp hy, emd_1d_dp rnd xs ys = Ok dp /\ emd_1d_dp_optimized rnd xs ys = Ok dp /\ emd_1d_hybrid rnd xs ys = Ok hy /\
    isclose rnd rel tol d dp = true /\ isclose rnd rel tol d hy = true.
Proof.
  change (emd_1d_dp_optimized rnd xs ys) with (emd_1d_dp rnd xs ys). unfold check_emd_implementations. change (emd_1d_dp_optimized rnd xs ys) with (emd_1d_dp rnd xs ys). destruct (emd_1d_old rnd xs ys) as [o|]; [|discriminate]. destruct (emd_1d_dp rnd xs ys) as [dp|]; [|discriminate].
  destruct (emd_1d_hybrid rnd xs ys) as [hy|]; [|discriminate]. cbn [bind].
  destruct (qltb tol 0) eqn:T; [discriminate|].
  destruct (isclose rnd rel tol o dp) eqn:E1; [|discriminate]. destruct (isclose rnd rel tol o hy) eqn:E2; [|discriminate]. cbn [negb].
  intros H. injection H as <-. split; auto. split. { unfold qltb in T. apply negb_false_iff in T. apply qleb_le; auto. }
  exists dp, hy. auto.
Qed.

Lemma unit_frac rnd i d : lawful rnd -> (0 < d)%Z -> (0 <= i <= d)%Z -> 0 <= rnd (qz i / qz d) /\ rnd (qz i / qz d) <= 1.
Proof.
  intros R D I. pose proof (rnd_int _ R 0 ltac:(lia)) as Z0. pose proof (rnd_int _ R 1 ltac:(lia)) as Z1.
  change 0 with (qz 0). change 1 with (qz 1). assert (P : 0 < qz d) by (apply (proj1 (qz_lt 0 d)); auto). split.
  - rewrite <- Z0. apply (rnd_mono _ R). apply qdiv_nonneg; auto. apply (proj1 (qz_le 0 i)); lia.
  - rewrite <- Z1. apply (rnd_mono _ R). apply qdiv_le_1; auto. apply (proj1 (qz_le i d)); lia.
Qed.
Lemma base_unit rnd num : lawful rnd -> in_unit (base_positions rnd num).
Proof.
  intros R. apply Forall_forall. intros v I. apply in_map_iff in I. destruct I as (i & <- & I). apply py_range_in in I.
  destruct (Z.gtb num 1) eqn:G.
  - apply Z.gtb_lt in G. apply unit_frac; auto; lia.
  - change 1 with (qz 1) at 1 3. apply unit_frac; auto; lia.
Qed.
Lemma sample_unit rnd nx ny : lawful rnd -> in_unit (fst (sample_data rnd nx ny)) /\ in_unit (snd (sample_data rnd nx ny)).
Proof.
  intros R. pose proof (base_unit rnd nx R) as Hx. pose proof (base_unit rnd ny R) as Hy. split; auto. cbn [sample_data fst].
  unfold in_unit in *. rewrite !Forall_app. auto.
Qed.
