(** How far float results are from the exact ones: relative error of one
    rounding, of the dynamic programme for the earth mover's distance, and of
    sums.  Nothing here models code of /repo. *)
From Coq Require Import ZArith QArith Qcanon Qabs Qround Qpower List Bool Permutation Lia Lqa.
From Verif Require Import Num Py ListAux Float64 EmdSpec EmdModel EmdProofs EmdFloatProofs.
Import ListNotations.
Open Scope Qc_scope.

(** Every operation has relative error at most [u]. *)
Definition accurate (u : Qc) (rnd : Qc -> Qc) : Prop := forall x, qabs (rnd x - x) <= u * qabs x.

(** Half a unit in the last place of binary64. *)
Definition u64 : Qc := Q2Qc (1 # (2 ^ 53)).

Lemma exact_accurate : accurate 0 exact.
Proof. intros x. unfold exact. replace (x - x) with 0 by ring. rewrite Qcmult_0_l. apply Qcle_refl. Qed.

Section Rnd64.
Local Open Scope Q_scope.
Lemma rnd_pos_err q : 0 < q -> Qabs (rnd_pos q - q) <= (1 # (2 ^ 53)) * q.
Proof.
  intros Hq. destruct (ilog2_spec q Hq) as [A _]. unfold rnd_pos.
  set (v := pow2 (ilog2 q - 52)). assert (P : 0 < v) by apply pow2_pos.
  pose proof (rne_err (q / v)) as B. apply Qabs_Qle_condition in B. set (r := inject_Z (rne (q / v))) in *.
  assert (Eq : q == q / v * v) by (field; lra).
  assert (V : v <= (1 # (2 ^ 52)) * q).
  { assert (pow2 (ilog2 q) == v * inject_Z (2 ^ 52)) as H.
    { unfold v. rewrite <- (pow2_nonneg_Z 52) by lia. rewrite <- pow2_plus. replace (ilog2 q - 52 + 52)%Z with (ilog2 q) by lia. reflexivity. }
    rewrite H in A. change (inject_Z (2 ^ 52)) with (4503599627370496 # 1) in A. change (1 # 2 ^ 52) with (1 # 4503599627370496). lra. }
  apply Qabs_Qle_condition. change (1 # 2 ^ 52) with (1 # 4503599627370496) in V. change (1 # 2 ^ 53) with (1 # 9007199254740992).
  set (t := q / v) in *. assert (r * v - q == (r - t) * v) as Er by (rewrite Eq at 1; ring).
  split.
  - assert (- (1 # 2) * v <= (r - t) * v) by (apply Qmult_le_compat_r; lra). lra.
  - assert ((r - t) * v <= (1 # 2) * v) by (apply Qmult_le_compat_r; lra). lra.
Qed.
End Rnd64.

Lemma rnd64_accurate : accurate u64 rnd64.
Proof.
  intros x. assert (H : (Qabs (rndQ x - x) <= (1 # (2 ^ 53)) * Qabs x)%Q).
  { destruct (Q_dec x 0) as [[N|P]|Z].
    - rewrite rndQ_neg by auto. assert (E : (- rnd_pos (- x) - x == - (rnd_pos (- x) - - x))%Q) by ring.
      rewrite E, Qabs_opp. eapply Qle_trans; [apply rnd_pos_err; lra|]. rewrite (Qabs_neg x) by lra. apply Qle_refl.
    - rewrite rndQ_pos by auto. rewrite (Qabs_pos x) by lra. apply rnd_pos_err; auto.
    - rewrite rndQ_zero by auto. rewrite Z. cbn. discriminate. }
  assert (A : forall y, (this (qabs y) == Qabs y)%Q).
  { intros y. unfold qabs. destruct (qleb 0 y) eqn:E.
    - apply qleb_le in E. unfold Qcle in E. rewrite Qabs_pos; [reflexivity|]. rewrite this_const in E. exact E.
    - apply qleb_nle in E. unfold Qclt in E. rewrite this_const in E. rewrite this_opp, Qabs_neg; [reflexivity|]. apply Qlt_le_weak, E. }
  unfold Qcle. rewrite this_mul, !A, this_sub. unfold u64. rewrite this_const.
  unfold rnd64. rewrite this_const. exact H.
Qed.

(** ** Products and powers *)
Lemma qmul_nonneg a b : 0 <= a -> 0 <= b -> 0 <= a * b.
Proof. intros Ha Hb. rewrite <- (Qcmult_0_l b). apply Qcmult_le_compat_r; auto. Qed.
Lemma qmul_le_l a b c : 0 <= c -> a <= b -> c * a <= c * b.
Proof. intros. rewrite !(Qcmult_comm c). apply Qcmult_le_compat_r; auto. Qed.
Lemma qmul_le_r a b c : 0 <= c -> a <= b -> a * c <= b * c.
Proof. intros. apply Qcmult_le_compat_r; auto. Qed.
Lemma qmul_le a b c d : 0 <= a -> 0 <= d -> a <= b -> c <= d -> a * c <= b * d.
Proof. intros. eapply Qcle_trans; [apply qmul_le_l; eauto|]. apply qmul_le_r; auto. Qed.

Section Powers.
Variable u : Qc.
Hypothesis U0 : 0 <= u.
Hypothesis U1 : u <= 1.

Definition hi (k : nat) : Qc := (1 + u) ^ k.
Definition lo (k : nat) : Qc := (1 - u) ^ k.
Lemma hi_S k : hi (S k) = (1 + u) * hi k. Proof. reflexivity. Qed.
Lemma lo_S k : lo (S k) = (1 - u) * lo k. Proof. reflexivity. Qed.
Lemma hi_1 k : 1 <= hi k.
Proof.
  induction k as [|k IH]; [apply Qcle_refl|]. rewrite hi_S. eapply Qcle_trans; [exact IH|].
  assert (1 * hi k <= (1 + u) * hi k) by (apply qmul_le_r; qclra). qclra.
Qed.
Lemma lo_1 k : 0 <= lo k /\ lo k <= 1.
Proof.
  induction k as [|k [IH1 IH2]]; [split; discriminate|]. rewrite lo_S. split.
  - apply qmul_nonneg; auto. qclra.
  - assert ((1 - u) * lo k <= 1 * lo k) by (apply qmul_le_r; qclra). qclra.
Qed.
Lemma hi_mono j k : (j <= k)%nat -> hi j <= hi k.
Proof.
  induction 1; [apply Qcle_refl|]. eapply Qcle_trans; [exact IHle|]. rewrite hi_S.
  pose proof (hi_1 m). assert (1 * hi m <= (1 + u) * hi m) by (apply qmul_le_r; qclra). qclra.
Qed.
Lemma lo_mono j k : (j <= k)%nat -> lo k <= lo j.
Proof.
  induction 1; [apply Qcle_refl|]. eapply Qcle_trans; [|exact IHle]. rewrite lo_S.
  destruct (lo_1 m). assert ((1 - u) * lo m <= 1 * lo m) by (apply qmul_le_r; qclra). qclra.
Qed.
Lemma hi_add j k : hi (j + k) = hi j * hi k.
Proof. induction j; cbn [Nat.add]; [unfold hi at 2; simpl; ring|]. rewrite !hi_S, IHj. ring. Qed.
Lemma lo_add j k : lo (j + k) = lo j * lo k.
Proof. induction j; cbn [Nat.add]; [unfold lo at 2; simpl; ring|]. rewrite !lo_S, IHj. ring. Qed.

(** Bernoulli's inequality, and the matching upper bound. *)
Lemma lo_linear k : 1 - qn k * u <= lo k.
Proof.
  induction k as [|k IH]; [rewrite qn_0; unfold lo; simpl; qclra|]. rewrite lo_S, qn_S. replace (1 - (qn k + 1) * u) with (1 - qn k * u - u) by ring.
  destruct (Qclt_le_dec (1 - qn k * u) 0) as [N|P].
  - destruct (lo_1 k). assert (0 <= (1 - u) * lo k) by (apply qmul_nonneg; qclra). qclra.
  - assert ((1 - u) * (1 - qn k * u) <= (1 - u) * lo k) as H by (apply qmul_le_l; auto; qclra).
    assert (0 <= qn k * u * u) by (apply qmul_nonneg; auto; apply qmul_nonneg; auto; apply qn_nonneg).
    replace ((1 - u) * (1 - qn k * u)) with (1 - qn k * u - u + qn k * u * u) in H by ring. set (t := qn k * u) in *. set (t' := t * u) in *. clearbody t t'. qclra.
Qed.
Lemma hi_lo k : hi k * lo k <= 1.
Proof.
  induction k as [|k IH]; [unfold hi, lo; simpl; qclra|]. rewrite hi_S, lo_S.
  replace ((1 + u) * hi k * ((1 - u) * lo k)) with (hi k * lo k - u * u * (hi k * lo k)) by ring.
  pose proof (hi_1 k). destruct (lo_1 k).
  assert (0 <= u * u * (hi k * lo k)) by (repeat apply qmul_nonneg; auto; qclra). qclra.
Qed.
Lemma hi_linear k : qn 2 * (qn k * u) <= 1 -> hi k <= 1 + qn 2 * (qn k * u).
Proof.
  intros H. set (t := qn k * u) in *. assert (T : 0 <= t) by (apply qmul_nonneg; auto; apply qn_nonneg).
  pose proof (lo_linear k) as B. fold t in B. pose proof (hi_lo k) as C.
  pose proof (hi_1 k) as D.
  assert (E : hi k * (1 - t) <= 1). { eapply Qcle_trans; [|exact C]. apply qmul_le_l; auto. qclra. }
  apply Qcnot_lt_le. intros F.
  assert (T1 : 0 < 1 - t). { change (qn 2) with (Q2Qc 2) in H. qclra. }
  assert (G : (1 + qn 2 * t) * (1 - t) < hi k * (1 - t)) by (apply Qcmult_lt_compat_r; auto).
  assert (K : 0 <= t * (1 - qn 2 * t)) by (apply qmul_nonneg; auto; qclra).
  replace ((1 + qn 2 * t) * (1 - t)) with (1 + t * (1 - qn 2 * t)) in G; [qclra|].
  change (qn 2) with (1 + 1). ring.
Qed.
End Powers.

(** ** The dynamic programme *)
Section Dp.
Variable u : Qc.
Hypothesis U0 : 0 <= u.
Hypothesis U1 : u <= 1.
Variable rnd : Qc -> Qc.
Hypothesis L : lawful rnd.
Hypothesis A : accurate u rnd.
Notation hi := (hi u).
Notation lo := (lo u).

Lemma acc_nonneg x : 0 <= x -> (1 - u) * x <= rnd x /\ rnd x <= (1 + u) * x.
Proof.
  intros Hx. pose proof (A x) as H. replace (qabs x) with x in H by qclra.
  replace ((1 - u) * x) with (x - u * x) by ring. replace ((1 + u) * x) with (x + u * x) by ring.
  set (t := u * x) in *. clearbody t. split; qclra.
Qed.

Lemma acc_abs x : (1 - u) * qabs x <= qabs (rnd x) /\ qabs (rnd x) <= (1 + u) * qabs x.
Proof.
  pose proof (A x) as H.
  replace ((1 - u) * qabs x) with (qabs x - u * qabs x) by ring. replace ((1 + u) * qabs x) with (qabs x + u * qabs x) by ring.
  set (t := u * qabs x) in *. clearbody t. split; qclra.
Qed.

(** [d] approximates [e] after [k] roundings. *)
Definition near (k : nat) (d e : Qc) : Prop := lo k * e <= d /\ d <= hi k * e.

Lemma near_mono j k d e : (j <= k)%nat -> 0 <= e -> near j d e -> near k d e.
Proof.
  intros H He [H1 H2]. split.
  - eapply Qcle_trans; [|exact H1]. apply qmul_le_r; auto. apply lo_mono; auto.
  - eapply Qcle_trans; [exact H2|]. apply qmul_le_r; auto. apply hi_mono; auto.
Qed.
Lemma near_refl k e : 0 <= e -> near k e e.
Proof.
  intros He. apply near_mono with 0%nat; [lia|auto|]. unfold near, Accuracy.lo, Accuracy.hi. simpl. split; qclra.
Qed.
Lemma near_add k d e d' e' : near k d e -> near k d' e' -> near k (d + d') (e + e').
Proof.
  intros [H1 H2] [H3 H4]. split; rewrite Qcmult_plus_distr_r; apply Qcplus_le_compat; auto.
Qed.
Lemma near_nonneg k d e : 0 <= e -> near k d e -> 0 <= d.
Proof.
  intros He [H1 _]. eapply Qcle_trans; [|exact H1]. apply qmul_nonneg; auto. apply lo_1; auto.
Qed.
Lemma near_rnd k d e : 0 <= e -> near k d e -> near (S k) (rnd d) e.
Proof.
  intros He H. pose proof (near_nonneg k d e He H) as Hd. destruct (acc_nonneg d Hd) as [B1 B2]. destruct H as [H1 H2].
  split; rewrite ?lo_S, ?hi_S, <- Qcmult_assoc.
  - eapply Qcle_trans; [|exact B1]. apply qmul_le_l; auto. qclra.
  - eapply Qcle_trans; [exact B2|]. apply qmul_le_l; auto. qclra.
Qed.
Lemma near_min k d e d' e' : near k d e -> near k d' e' -> near k (qmin d d') (qmin e e').
Proof.
  intros [H1 H2] [H3 H4]. destruct (lo_1 u U0 U1 k) as [P _]. pose proof (hi_1 u U0 U1 k) as Q.
  unfold qmin. destruct (qleb d d') eqn:E, (qleb e e') eqn:E'; split; auto.
  - apply qleb_nle in E'. eapply Qcle_trans; [|exact H1]. apply qmul_le_l; auto. qclra.
  - apply qleb_le in E. qclra.
  - apply qleb_le in E'. eapply Qcle_trans; [|exact H3]. apply qmul_le_l; auto.
  - apply qleb_nle in E. qclra.
Qed.

Lemma E_nonneg xs ys : 0 <= edp exact xs ys.
Proof. apply edp_nonneg. apply lawful_exact. Qed.

Lemma edp_near xs : forall ys k, (length xs + length ys < k)%nat -> near k (edp rnd xs ys) (edp exact xs ys).
Proof.
  induction xs as [|a xs IHx]; intros ys; [intros k _; rewrite !edp_nil_l; apply near_refl, qn_nonneg|].
  induction ys as [|b ys IHy]; intros k Hk; [rewrite !edp_nil_r; apply near_refl, qn_nonneg|].
  rewrite !edp_cons. destruct k as [|k]; [lia|]. cbn [length] in Hk.
  assert (X1 : near k (edp rnd xs ys) (edp exact xs ys)) by (apply IHx; lia).
  assert (X2 : near k (edp rnd xs (b :: ys)) (edp exact xs (b :: ys))) by (apply IHx; cbn [length]; lia).
  assert (X3 : near k (edp rnd (a :: xs) ys) (edp exact (a :: xs) ys)) by (apply IHy; cbn [length]; lia).
  assert (X4 : near k (qabs (rnd (a - b))) (qabs (a - b))).
  { apply near_mono with 1%nat; [lia|apply qabs_nonneg|]. destruct (acc_abs (a - b)).
    split; unfold Accuracy.lo, Accuracy.hi; simpl; rewrite Qcmult_1_r; auto. }
  assert (O : near k 1 1) by (apply near_refl; discriminate).
  pose proof (E_nonneg xs ys). pose proof (E_nonneg xs (b :: ys)). pose proof (E_nonneg (a :: xs) ys). pose proof (qabs_nonneg (a - b)).
  unfold exact at 1 2 4 6. unfold qmin3. repeat apply near_min; apply near_rnd; try (apply near_add; auto); qclra.
Qed.

Theorem dp_near xs ys d e : emd_1d_dp rnd xs ys = Ok d -> is_emd xs ys e -> near (length xs + length ys + 1) d e.
Proof.
  intros H He. rewrite (emd_1d_dp_edp rnd (rnd_odd _ L)) in H. injection H as <-.
  rewrite <- (emd_unique xs ys e He). unfold emd. apply edp_near. rewrite !rev_length, !qsort_length. lia.
Qed.
End Dp.
