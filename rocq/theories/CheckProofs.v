(** [check_correct_emd_1d] accepts what the four functions compute. *)
From Coq Require Import ZArith QArith Qcanon List Permutation Sorted Lia Bool.
From Verif Require Import Num Py Float64 EmdSpec EmdModel EmdProofs EmdFloatProofs EmdSlowProofs HybridModel FlowProofs GreedyProofs HybridProofs HybridFloatProofs Accuracy.
From Verif Require Import HybridAccuracy CheckModel.
Import ListNotations.
Open Scope Qc_scope.

Lemma foldM_ext {A B} (f g : A -> B -> result A) l : (forall a b, f a b = g a b) -> forall a, foldM f l a = foldM g l a.
Proof. intros H. induction l as [|b l IH]; intros a; cbn [foldM]; auto. rewrite H. destruct (g a b); cbn [bind]; auto. Qed.

Lemma opt_cell_eq rnd x y prev i curr j : opt_cell rnd x y prev i curr j = dp_cell rnd x y prev i curr j.
Proof. reflexivity. Qed.
Lemma dp_optimized_eq rnd xs ys : emd_1d_dp_optimized rnd xs ys = emd_1d_dp rnd xs ys.
Proof.
  unfold emd_1d_dp_optimized, emd_1d_dp. destruct (if Z.gtb _ _ then _ else _) as [x y]. f_equal.
Qed.

Lemma in_unit_forallb l : forallb (fun x => qleb 0 x && qleb x 1) l = true <-> in_unit l.
Proof.
  unfold in_unit. rewrite forallb_forall, Forall_forall. split; intros H x I; specialize (H x I).
  - apply andb_true_iff in H. rewrite !qleb_le in H. auto.
  - apply andb_true_iff. rewrite !qleb_le. auto.
Qed.

Section Acc.
Variable u : Qc.
Hypothesis U0 : 0 <= u.
Hypothesis U1 : u <= 1.
Variable rnd : Qc -> Qc.
Hypothesis R : lawful rnd.
Hypothesis A : accurate u rnd.

Section Size.
Variables xs ys : list Qc.
Let n := (length xs + length ys)%nat.
Hypothesis C : close 1 xs ys.
Hypothesis S : small n.
Let err := qn (6 * n) * (u * qn (n + 1)).
Hypothesis B : err <= 1.

Lemma err_0 : 0 <= err.
Proof. apply qmul_nonneg; [apply qn_nonneg|]. apply qmul_nonneg; auto. apply qn_nonneg. Qed.

Lemma no_points rest : n = 0%nat -> ordered rnd rest xs ys = Ok 0 /\ emd xs ys = 0.
Proof.
  intros Z. unfold n in Z. destruct xs; [|simpl in Z; lia]. destruct ys; [|simpl in Z; lia]. split; [reflexivity|apply emd_nil].
Qed.

Lemma ordered_err rest :
  (forall N, (1 <= N)%nat -> qn (6 * N) * (u * qn (N + 1)) <= 1 -> small N -> rest_body u N rest) ->
  exists d, ordered rnd rest xs ys = Ok d /\ qabs (d - emd xs ys) <= err.
Proof.
  intros HR. destruct (Nat.eq_dec n 0) as [Z|NZ].
  - destruct (no_points rest Z) as [-> ->]. exists 0. split; auto. replace (0 - 0) with 0 by ring. change (qabs 0) with 0. apply err_0.
  - assert (N1 : (1 <= n)%nat) by lia.
    destruct (ordered_near u U0 U1 rnd R A n N1 B S rest (HR n N1 B S) xs ys (le_n _) C) as (d & H & W). exists d. split; auto.
Qed.
Lemma hybrid_err : exists d, emd_1d_hybrid rnd xs ys = Ok d /\ qabs (d - emd xs ys) <= err.
Proof. rewrite hybrid_ordered. apply ordered_err. intros. apply hybrid_rest_near; auto. Qed.
Lemma old_err : exists d, emd_1d_old rnd xs ys = Ok d /\ qabs (d - emd xs ys) <= err.
Proof. rewrite old_ordered. apply ordered_err. intros. apply old_rest_near; auto. Qed.
Lemma dp_err : exists d, emd_1d_dp rnd xs ys = Ok d /\ qabs (d - emd xs ys) <= err.
Proof.
  eexists. split; [apply emd_1d_dp_edp; apply (rnd_odd _ R)|].
  destruct (Nat.eq_dec n 0) as [Z|NZ].
  - unfold n in Z. pose proof err_0 as E0. revert E0. unfold err. destruct xs; [|simpl in Z; lia]. destruct ys; [|simpl in Z; lia]. intros E0.
    rewrite emd_nil. cbn. exact E0.
  - assert (N1 : (1 <= n)%nat) by lia.
    assert (W : within u n (2 * (n + 1)) (edp rnd (rev (qsort xs)) (rev (qsort ys))) (emd xs ys)).
    { apply near_within; auto; [apply emd_nonneg|apply emd_upper|]. unfold emd. apply edp_near; auto.
      rewrite !rev_length, !qsort_length. unfold n. lia. }
    eapply Qcle_trans; [exact W|]. unfold err. apply qmul_le_r; [apply qmul_nonneg; auto; apply qn_nonneg|]. apply qn_le. lia.
Qed.

(** Two results are accepted as equal. *)
Lemma isclose_ok rel tol a b : qabs (a - emd xs ys) <= err -> qabs (b - emd xs ys) <= err -> 
  qn 2 * err * (1 + u) <= tol -> isclose rnd rel tol a b = true.
Proof.
  intros Ha Hb Ht. unfold isclose. apply orb_true_iff. right. cbv zeta. apply orb_true_iff. right. apply qleb_le.
  eapply Qcle_trans; [|exact Ht]. eapply Qcle_trans; [apply (acc_abs u rnd A)|].
  rewrite (Qcmult_comm (qn 2 * err)). apply qmul_le_l; [clear - U0; qclra|].
  change (qn 2) with (Q2Qc 2). set (e := emd xs ys) in *. clearbody e. set (x := err) in *. clearbody x. clear - Ha Hb. qclra.
Qed.

Lemma check_ok rel tol : in_unit xs -> in_unit ys -> qn 2 * err * (1 + u) <= tol ->
  check_correct_emd_1d rnd rel xs ys tol = emd_1d_old rnd xs ys.
Proof.
  intros Hx Hy Ht. unfold check_correct_emd_1d. rewrite (proj2 (in_unit_forallb xs) Hx), (proj2 (in_unit_forallb ys) Hy). cbn [negb].
  destruct hybrid_err as (dh & Eh & Bh), old_err as (do & Eo & Bo), dp_err as (dd & Ed & Bd).
  change (emd_1d_dp_optimized rnd xs ys) with (emd_1d_dp rnd xs ys). rewrite Eo, Ed, Eh. cbn [bind].
  assert (T0 : 0 <= tol).
  { eapply Qcle_trans; [|exact Ht]. apply qmul_nonneg; [apply qmul_nonneg; [discriminate|apply err_0]|]. clear - U0. qclra. }
  replace (qltb tol 0) with false by (symmetry; unfold qltb; apply negb_false_iff, qleb_le; auto).
  rewrite !(isclose_ok rel tol) by auto. reflexivity.
Qed.
End Size.

Lemma check_sym rel tol xs ys : check_correct_emd_1d rnd rel xs ys tol = check_correct_emd_1d rnd rel ys xs tol.
Proof.
  unfold check_correct_emd_1d. change (emd_1d_dp_optimized rnd) with (emd_1d_dp rnd). rewrite !hybrid_ordered, !old_ordered.
  rewrite (ordered_sym rnd (old_rest rnd) (rnd_odd _ R) xs ys), (ordered_sym rnd (hybrid_rest rnd) (rnd_odd _ R) xs ys).
  rewrite !emd_1d_dp_edp by apply (rnd_odd _ R). rewrite (edp_sym rnd (rnd_odd _ R) (rev (qsort ys))).
  destruct (negb (forallb _ xs)), (negb (forallb _ ys)); reflexivity.
Qed.
End Acc.

Lemma check_range rnd rel tol xs ys : ~ (in_unit xs /\ in_unit ys) -> check_correct_emd_1d rnd rel xs ys tol = Err AssertionError.
Proof.
  intros H. unfold check_correct_emd_1d. destruct (forallb _ xs) eqn:E1; auto. destruct (forallb _ ys) eqn:E2; auto.
  exfalso. apply H. rewrite <- !in_unit_forallb. auto.
Qed.
