(** [emd_1d_dp] under any lawful rounding. *)
From Coq Require Import ZArith QArith Qcanon List Permutation Sorted Lia.
From Verif Require Import Num Py Float64 EmdSpec EmdModel EmdProofs.
Import ListNotations.
Open Scope Qc_scope.

(** Largest length for which row indices are exact floats. *)
Definition small (n : nat) : Prop := (Z.of_nat n <= 2 ^ 53)%Z.

Section Lawful.
Variable rnd : Qc -> Qc.
Hypothesis L : lawful rnd.

Lemma rnd_qn n : small n -> rnd (qn n) = qn n.
Proof. unfold small, qn. intros. apply (rnd_int _ L). lia. Qed.
Lemma rnd_0 : rnd 0 = 0.
Proof. apply (rnd_qn 0). unfold small. lia. Qed.
Lemma rnd_1 : rnd 1 = 1.
Proof. apply (rnd_qn 1). unfold small. lia. Qed.
Lemma rnd_nonneg a : 0 <= a -> 0 <= rnd a.
Proof. intros H. rewrite <- rnd_0. apply (rnd_mono _ L); auto. Qed.
Lemma rnd_le_qn a n : small n -> a <= qn n -> rnd a <= qn n.
Proof. intros S H. rewrite <- (rnd_qn n S). apply (rnd_mono _ L); auto. Qed.
Lemma rnd_ge_qn a n : small n -> qn n <= a -> qn n <= rnd a.
Proof. intros S H. rewrite <- (rnd_qn n S). apply (rnd_mono _ L); auto. Qed.

Lemma qmin3_cases a b c : qmin3 a b c = a \/ qmin3 a b c = b \/ qmin3 a b c = c.
Proof. unfold qmin3, qmin. repeat destruct (qleb _ _); auto. Qed.
Lemma qmin3_le1 a b c : qmin3 a b c <= a.
Proof. unfold qmin3. qclra. Qed.
Lemma qmin3_le2 a b c : qmin3 a b c <= b.
Proof. unfold qmin3. qclra. Qed.
Lemma qmin3_le3 a b c : qmin3 a b c <= c.
Proof. unfold qmin3. qclra. Qed.
Lemma qmin3_glb a b c d : d <= a -> d <= b -> d <= c -> d <= qmin3 a b c.
Proof. unfold qmin3. intros. qclra. Qed.

Lemma edp_nonneg xs ys : 0 <= edp rnd xs ys.
Proof.
  revert ys; induction xs as [|a xs IHx]; intros ys; [apply qn_nonneg|].
  induction ys as [|b ys IHy]; [apply qn_nonneg|].
  rewrite edp_cons. apply qmin3_glb; apply rnd_nonneg.
  - specialize (IHx ys). pose proof (qabs_nonneg (rnd (a - b))). clear IHy. qclra.
  - specialize (IHx (b :: ys)). qclra.
  - qclra.
Qed.

Lemma edp_upper xs ys : small (length xs + length ys) -> edp rnd xs ys <= qn (length xs + length ys).
Proof.
  revert ys; induction xs as [|a xs IHx]; intros ys S; [apply Qcle_refl|].
  destruct ys as [|b ys].
  - rewrite edp_nil_r, Nat.add_0_r. apply Qcle_refl.
  - rewrite edp_cons. eapply Qcle_trans; [apply qmin3_le2|].
    apply rnd_le_qn; auto. specialize (IHx (b :: ys)).
    assert (small (length xs + length (b :: ys))) by (unfold small in *; cbn [length] in *; lia).
    specialize (IHx H). cbn [length] in *. clear - IHx. qclra.
Qed.

Lemma edp_unit_upper xs ys :
  small (Nat.max (length xs) (length ys)) -> close 1 xs ys ->
  edp rnd xs ys <= qn (Nat.max (length xs) (length ys)).
Proof.
  revert ys; induction xs as [|a xs IHx]; intros ys S C; [apply Qcle_refl|].
  destruct ys as [|b ys].
  - rewrite edp_nil_r, Nat.max_0_r. apply Qcle_refl.
  - rewrite edp_cons. eapply Qcle_trans; [apply qmin3_le1|].
    apply rnd_le_qn; auto. specialize (IHx ys).
    assert (small (Nat.max (length xs) (length ys))) by (unfold small in *; cbn [length] in *; lia).
    assert (C' : close 1 xs ys) by (intros x y Hx Hy; apply C; right; auto).
    specialize (IHx H C').
    assert (qabs (rnd (a - b)) <= 1).
    { assert (D : qabs (a - b) <= 1) by (apply C; left; auto).
      assert (rnd (a - b) <= 1) by (rewrite <- rnd_1; apply (rnd_mono _ L); clear - D; qclra).
      assert (- rnd (a - b) <= 1) by (rewrite <- (rnd_odd _ L), <- rnd_1; apply (rnd_mono _ L); clear - D; qclra).
      clear - H0 H1. qclra. }
    cbn [length]. rewrite <- Nat.succ_max_distr. clear - IHx H0. qclra.
Qed.

Lemma edp_lower xs ys : small (length xs) -> qn (length xs - length ys) <= edp rnd xs ys.
Proof.
  revert ys; induction xs as [|a xs IHx]; intros ys S; [apply qn_nonneg|].
  assert (S' : small (length xs)) by (unfold small in *; cbn [length] in *; lia).
  induction ys as [|b ys IHy].
  - rewrite edp_nil_r. apply qn_le. cbn [length]. lia.
  - rewrite edp_cons.
    assert (S'' : small (length (a :: xs) - length (b :: ys))) by (unfold small in *; cbn [length] in *; lia).
    apply qmin3_glb; apply rnd_ge_qn; auto.
    + specialize (IHx ys S'). pose proof (qabs_nonneg (rnd (a - b))). cbn [length Nat.sub]. clear - IHx H. qclra.
    + specialize (IHx (b :: ys) S').
      assert (G : qn (length (a :: xs) - length (b :: ys)) <= 1 + qn (length xs - length (b :: ys))).
      { rewrite Qcplus_comm, <- qn_S. apply qn_le. cbn [length]. lia. }
      clear - IHx G. qclra.
    + assert (G : qn (length (a :: xs) - length (b :: ys)) <= qn (length (a :: xs) - length ys)).
      { apply qn_le. cbn [length]. lia. }
      clear - IHy G. qclra.
Qed.

Lemma edp_self xs : edp rnd xs xs = 0.
Proof.
  induction xs as [|a xs IH]; [reflexivity|].
  assert (H : edp rnd (a :: xs) (a :: xs) <= 0).
  { rewrite edp_cons. eapply Qcle_trans; [apply qmin3_le1|]. rewrite IH.
    replace (a - a) with 0 by qclra. rewrite rnd_0.
    replace (qabs 0 + 0) with 0 by qclra. rewrite rnd_0. apply Qcle_refl. }
  pose proof (edp_nonneg (a :: xs) (a :: xs)). clear IH. qclra.
Qed.

Lemma edp_zero_eq xs ys : edp rnd xs ys = 0 -> xs = ys.
Proof.
  revert ys; induction xs as [|a xs IHx]; intros ys H.
  - rewrite edp_nil_l in H. apply (qn_inj _ 0) in H. apply length_zero_iff_nil in H. auto.
  - destruct ys as [|b ys].
    + rewrite edp_nil_r in H. apply (qn_inj _ 0) in H. apply length_zero_iff_nil in H. auto.
    + rewrite edp_cons in H.
      destruct (qmin3_cases (rnd (qabs (rnd (a - b)) + edp rnd xs ys))
        (rnd (1 + edp rnd xs (b :: ys))) (rnd (1 + edp rnd (a :: xs) ys))) as [E|[E|E]];
      rewrite E in H; apply (rnd_zero _ L) in H.
      * pose proof (edp_nonneg xs ys). pose proof (qabs_nonneg (rnd (a - b))).
        assert (edp rnd xs ys = 0) by (clear - H H0 H1; qclra).
        assert (rnd (a - b) = 0) by (clear - H H0 H1; qclra).
        apply (rnd_zero _ L) in H3. f_equal; [clear - H3; qclra|]. apply IHx; auto.
      * pose proof (edp_nonneg xs (b :: ys)). clear - H H0. exfalso. qclra.
      * pose proof (edp_nonneg (a :: xs) ys). clear - H H0. exfalso. qclra.
Qed.

(** ** The same, for the program *)

Lemma dp_float_value xs ys : exists d,
  emd_1d_dp rnd xs ys = Ok d /\ d = edp rnd (rev (qsort xs)) (rev (qsort ys)).
Proof. eexists. split; [|reflexivity]. apply emd_1d_dp_edp. apply (rnd_odd _ L). Qed.

Lemma dp_float_sym xs ys : emd_1d_dp rnd xs ys = emd_1d_dp rnd ys xs.
Proof. rewrite !emd_1d_dp_edp by apply (rnd_odd _ L). rewrite edp_sym; auto. apply (rnd_odd _ L). Qed.

Lemma dp_float_bounds xs ys d :
  small (length xs + length ys) -> emd_1d_dp rnd xs ys = Ok d ->
  0 <= d /\ d <= qn (length xs + length ys) /\
  qn (length xs - length ys) <= d /\ qn (length ys - length xs) <= d.
Proof.
  intros S H. rewrite emd_1d_dp_edp in H by apply (rnd_odd _ L). injection H as <-.
  assert (S1 : small (length (rev (qsort xs)) + length (rev (qsort ys)))) by (rewrite !rev_length, !qsort_length; auto).
  assert (S2 : small (length (rev (qsort xs)))) by (unfold small in *; lia).
  assert (S3 : small (length (rev (qsort ys)))) by (unfold small in *; lia).
  pose proof (edp_upper _ _ S1) as U.
  pose proof (edp_lower _ (rev (qsort ys)) S2) as L1.
  pose proof (edp_lower _ (rev (qsort xs)) S3) as L2.
  rewrite edp_sym in L2 by apply (rnd_odd _ L).
  rewrite !rev_length, !qsort_length in *. repeat split; auto. apply edp_nonneg.
Qed.

Lemma close_perm r xs xs' ys ys' :
  Permutation xs xs' -> Permutation ys ys' -> close r xs ys -> close r xs' ys'.
Proof.
  intros P1 P2 C x y Hx Hy. apply C; eapply Permutation_in; try (symmetry; eassumption); auto.
Qed.

Lemma dp_float_unit xs ys d :
  small (length xs + length ys) -> in_unit xs -> in_unit ys -> emd_1d_dp rnd xs ys = Ok d ->
  d <= qn (Nat.max (length xs) (length ys)).
Proof.
  intros S Ux Uy H. rewrite emd_1d_dp_edp in H by apply (rnd_odd _ L). injection H as <-.
  rewrite <- (qsort_length xs), <- (qsort_length ys), <- (rev_length (qsort xs)), <- (rev_length (qsort ys)).
  apply edp_unit_upper.
  - rewrite !rev_length, !qsort_length. unfold small in *; lia.
  - apply (close_perm _ xs _ ys).
    + rewrite <- Permutation_rev. symmetry. apply qsort_perm.
    + rewrite <- Permutation_rev. symmetry. apply qsort_perm.
    + apply in_unit_close; auto.
Qed.

Lemma dp_float_zero_iff xs ys : emd_1d_dp rnd xs ys = Ok 0 <-> Permutation xs ys.
Proof.
  split.
  - intros H. rewrite emd_1d_dp_edp in H by apply (rnd_odd _ L). injection H as H.
    apply edp_zero_eq in H. rewrite <- (qsort_perm xs), <- (qsort_perm ys).
    rewrite (Permutation_rev (qsort xs)), H, <- Permutation_rev. reflexivity.
  - intros P. rewrite emd_1d_dp_edp by apply (rnd_odd _ L). rewrite (qsort_perm_eq _ _ P), edp_self. reflexivity.
Qed.

End Lawful.
