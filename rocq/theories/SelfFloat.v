(** Scores of words other than the query stay below 1 in floats: the exact
    score is a fraction with a bounded denominator.  Nothing here models code
    of /repo. *)
From Coq Require Import ZArith NArith QArith Qcanon List Bool Permutation Lia.
From Verif Require Import Num Py ListAux PyDict Float64 EmdSpec EmdModel EmdProofs EmdFloatProofs
  NmdSpec NmdModel NmdProofs NmdFloatProofs IndexSpec IndexModel IndexProofs IndexLoops IndexLookupProofs IndexResult IndexTop
  IndexScore IndexFacts Props_Index.
From Verif Require Import Accuracy NmdAccuracy LookupFloat.
Import ListNotations.
Open Scope Qc_scope.

(** Multiples of [1/d]. *)
Definition grid (d : nat) (x : Qc) : Prop := exists z, x * qn d = qz z.

Lemma grid_int d z : grid d (qz z).
Proof. exists (z * Z.of_nat d)%Z. rewrite qz_mul. reflexivity. Qed.
Lemma grid_add d x y : grid d x -> grid d y -> grid d (x + y).
Proof. intros [a Ha] [b Hb]. exists (a + b)%Z. rewrite qz_add, <- Ha, <- Hb. ring. Qed.
Lemma grid_sub d x y : grid d x -> grid d y -> grid d (x - y).
Proof. intros [a Ha] [b Hb]. exists (a - b)%Z. rewrite qz_sub, <- Ha, <- Hb. ring. Qed.
Lemma grid_abs d x : grid d x -> grid d (qabs x).
Proof.
  intros [a Ha]. unfold qabs. destruct (qleb 0 x); [exists a; auto|]. exists (0 - a)%Z. rewrite qz_sub, qz_0, <- Ha. ring.
Qed.
Lemma grid_min d x y : grid d x -> grid d y -> grid d (qmin x y).
Proof. intros Hx Hy. unfold qmin. destruct (qleb x y); auto. Qed.

Lemma edp_grid d xs : Forall (grid d) xs -> forall ys, Forall (grid d) ys -> grid d (edp exact xs ys).
Proof.
  induction 1 as [|a xs Ha _ IHx]; intros ys Hy; [rewrite edp_nil_l; apply grid_int|].
  induction Hy as [|b ys Hb Hys IHy]; [rewrite edp_nil_r; apply grid_int|].
  rewrite edp_cons. unfold exact.
  assert (O : grid d 1) by (rewrite <- qn_1; apply grid_int).
  repeat apply grid_min; apply grid_add; auto. apply grid_abs, grid_sub; auto.
Qed.

Lemma emd_grid d xs ys : Forall (grid d) xs -> Forall (grid d) ys -> grid d (emd xs ys).
Proof.
  assert (P : forall l, Forall (grid d) l -> Forall (grid d) (rev (qsort l))).
  { intros l H. eapply Permutation_Forall; [|exact H]. symmetry. rewrite <- Permutation_rev. apply qsort_perm. }
  intros Hx Hy. unfold emd. apply edp_grid; apply P; auto.
Qed.

Lemma sim_loop_grid d loc2 its : (forall g l, In (g, l) its -> Forall (grid d) l) ->
  (forall g l, dget g loc2 = Some l -> Forall (grid d) l) -> forall S0, grid d S0 ->
  exists S, foldM (sim_step exact loc2) its S0 = Ok S /\ grid d S.
Proof.
  intros H1 H2. induction its as [|[g l1] its IH]; intros S0 G.
  - exists S0. auto.
  - cbn [foldM]. unfold sim_step at 1.
    assert (H1' : forall g l, In (g, l) its -> Forall (grid d) l) by (intros; eapply H1; right; eauto).
    destruct (dget g loc2) as [l2|] eqn:E; [|apply IH; auto].
    rewrite emd_1d_dp_exact. cbn [bind]. apply IH; auto. unfold exact. apply grid_sub; [apply grid_add; auto; apply grid_int|].
    apply emd_grid; [eapply H1; left; eauto|eauto].
Qed.

Lemma positions_grid n w g a b d : (Nat.max 1 (gram_count n w - 1) * a = d)%nat \/ (Nat.max 1 (gram_count n w - 1) * b = d)%nat ->
  Forall (grid d) (positions n w g).
Proof.
  intros H. apply Forall_forall. intros x Hx. apply positions_in in Hx. destruct Hx as (i & _ & _ & ->). unfold position.
  set (m := Nat.max 1 (gram_count n w - 1)) in *. assert (P : 0 < qn m) by (apply qn_pos; unfold m; lia).
  assert (K : exists c, (m * c = d)%nat) by (destruct H; eauto). destruct K as [c <-].
  exists (Z.of_nat i * Z.of_nat c)%Z. rewrite qz_mul, qn_mul. fold (qn i) (qn c). unfold Qcdiv.
  replace (qn i * / qn m * (qn m * qn c)) with (qn i * qn c * (qn m * / qn m)) by ring. rewrite Qcmult_inv_r; [ring|].
  intros C. rewrite C in P. discriminate.
Qed.

Lemma simf_grid q n w : (2 <= n)%Z -> exists d S, (1 <= d)%nat /\ (d <= Nat.max 1 (weight q n w) * Nat.max 1 (weight q n w))%nat /\
  simf exact q n w = Ok S /\ grid d S.
Proof.
  intros Hn. unfold simf, items.
  assert (En : n = Z.of_nat (Z.to_nat n)) by lia. set (m := Z.to_nat n) in *. assert (Hm : (2 <= m)%nat) by lia. clearbody m. subst n.
  assert (EW : weight q (Z.of_nat m) w = (gram_count m q + gram_count m w)%nat) by (unfold weight; rewrite !get_n_grams_big, !grams_length by auto; auto).
  rewrite EW. clear EW. set (a := Nat.max 1 (gram_count m q - 1)). set (b := Nat.max 1 (gram_count m w - 1)).
  exists (a * b)%nat. rewrite !gocc_big by auto.
  destruct (sim_loop_grid (a * b) (group (occ exact m w)) (group (occ exact m q))) with (S0 := 0) as (S & E & G).
  - intros g l H. apply group_item in H. destruct H as [-> _]. rewrite occ_select. unfold exact. rewrite map_id.
    apply (positions_grid m q g b b). left. reflexivity.
  - intros g l H. apply dget_In, group_item in H. destruct H as [-> _]. rewrite occ_select. unfold exact. rewrite map_id.
    apply (positions_grid m w g a a). left. fold b. lia.
  - rewrite <- qz_0. apply grid_int.
  - exists S. split; [unfold a, b; nia|]. split; [|auto]. apply Nat.mul_le_mono; unfold a, b; lia.
Qed.

(** A fraction below an integer is below it by a margin. *)
Lemma grid_gap d x z : (1 <= d)%nat -> grid d x -> x < qz z -> x <= qz z - / qn d.
Proof.
  intros Hd [a Ha] H. assert (P : 0 < qn d) by (apply qn_pos; lia).
  assert (Q : qn d <> 0) by (intros C; rewrite C in P; discriminate).
  assert (K : (a + 1 <= z * Z.of_nat d)%Z).
  { assert (Lt : x * qn d < qz z * qn d) by (apply Qcmult_lt_compat_r; auto). rewrite Ha in Lt. unfold qn in Lt. rewrite <- qz_mul in Lt.
    apply (proj2 (qz_lt _ _)) in Lt. lia. }
  apply (Qcmult_lt_0_le_reg_r _ _ (qn d)); auto. rewrite Ha.
  replace ((qz z - / qn d) * qn d) with (qz z * qn d - 1). 2:{ replace ((qz z - / qn d) * qn d) with (qz z * qn d - qn d * / qn d) by ring. rewrite Qcmult_inv_r; auto. }
  apply (proj1 (qz_le _ _)) in K. rewrite qz_add, qz_mul in K. fold (qn d) in K. change (qz 1) with 1 in K.
  set (t := qz z * qn d) in *. clearbody t. clear - K. qclra.
Qed.

Section Below.
Variable u : Qc.
Hypothesis U0 : 0 <= u.
Hypothesis U1 : u <= 1.
Variable rnd : Qc -> Qc.
Hypothesis L : lawful rnd.
Hypothesis A : accurate u rnd.
Variable W : nat.
Hypothesis W1 : (1 <= W)%nat.
Hypothesis SW : small W.
Hypothesis HU : qn 2 * (qn (W + 1) * u) <= 1.
Definition delta : Qc := (/ qn (W * W) - qn (W * (3 * W + 3)) * u) / qn W.
Hypothesis D0 : 0 <= / qn (W * W) - qn (W * (3 * W + 3)) * u.

Lemma qinv_mono a b : 0 < a -> a <= b -> / b <= / a.
Proof.
  intros Ha H. assert (Hb : 0 < b) by (eapply Qclt_le_trans; eauto).
  replace (/ a) with (1 / a) by (unfold Qcdiv; ring). apply qdiv_ge; auto.
  replace (/ b * a) with (a / b) by (unfold Qcdiv; ring). apply qdiv_le_1; auto.
Qed.

Lemma qinv_le_1 k : (1 <= k)%nat -> / qn k <= 1.
Proof. intros H. replace 1 with (/ 1) by (apply Qc_is_canon; reflexivity). apply qinv_mono; [reflexivity|]. rewrite <- qn_1. apply qn_le; auto. Qed.

Lemma delta_le : delta <= 1.
Proof.
  unfold delta. apply qdiv_le_1; [apply qn_pos; lia|].
  assert (X : / qn (W * W) <= 1) by (apply qinv_le_1; nia).
  assert (Y : 0 <= qn (W * (3 * W + 3)) * u) by (apply qmul_nonneg; auto; apply qn_nonneg).
  assert (Z : 1 <= qn W) by (rewrite <- qn_1; apply qn_le; auto).
  generalize dependent (qn (W * (3 * W + 3)) * u). generalize dependent (/ qn (W * W)). clear - Z. intros. qclra.
Qed.

Lemma score_below q n w v : clean q -> clean w -> w <> q -> (2 <= n <= zlen q + 2)%Z -> (weight q n w <= W)%nat ->
  score1 rnd true q n w = Ok v -> v <= (1 + u) * (1 - delta).
Proof.
  intros Cq Cw N Hn HW Hv. pose proof delta_le as D1.
  assert (SN : small (weight q n w)) by (unfold small in *; lia).
  assert (F : faithful_upto rnd (weight q n w)) by (apply lawful_faithful; auto).
  assert (Z : 0 <= (1 + u) * (1 - delta)) by (apply qmul_nonneg; [clear - U0; qclra|clear - D1; qclra]).
  destruct (simf_pinched rnd L q n w F) as (s & Hs & B1 & B2). unfold score1 in Hv. rewrite Hs in Hv. cbn [bind] in Hv.
  destruct (Z.eqb_spec (size n q + size n w) 0) as [|ND]; [discriminate|].
  assert (Ev : v = rnd (s / qz (size n q + size n w))) by congruence. clear Hv.
  destruct (Nat.eq_dec (common rnd q n w) 0) as [E|P].
  - rewrite (simf_zero rnd L q n w F E) in Hs. assert (s = 0) by congruence. subst s.
    rewrite qdiv_0, (rnd_0 rnd L) in Ev. subst v. exact Z.
  - destruct (common_size rnd q n w ltac:(lia) ltac:(lia)) as [_ S2].
    destruct (common_le rnd q n w) as [Cl1 Cl2].
    set (D := qz (size n q + size n w)) in *. assert (Dp : 0 < D). { unfold D. rewrite <- qz_0. apply (proj1 (qz_lt _ _)). lia. }
    assert (S0 : 0 <= s) by (eapply Qcle_trans; [apply qn_nonneg|exact B1]).
    assert (SD : 0 <= s / D) by (apply qdiv_nonneg; auto).
    destruct (acc_nonneg u rnd A (s / D) SD) as [_ R2]. rewrite <- Ev in R2.
    eapply Qcle_trans; [exact R2|]. apply qmul_le_l; [clear - U0; qclra|].
    destruct (simf_acc u U0 U1 rnd L A q n w) as (s' & S & E1 & E2 & Er); auto.
    { eapply Qcle_trans; [|exact HU]. apply qmul_le_l; [apply qn_nonneg|]. apply qmul_le_r; auto. apply qn_le. lia. }
    assert (s' = s) by congruence. subst s'.
    assert (SX : S / D < 1).
    { eapply (score1_other q n w); auto. unfold score1. rewrite E2. cbn [bind].
      destruct (Z.eqb_spec (size n q + size n w) 0) as [|_]; [contradiction|]. reflexivity. }
    assert (SL : S < D).
    { apply Qcnot_le_lt. intros C. apply (qdiv_mono _ _ D) in C; [|apply Qclt_le_weak; auto]. rewrite qdiv_self in C by auto.
      apply (Qcle_not_lt _ _ C). exact SX. }
    destruct (simf_grid q n w ltac:(lia)) as (d & S' & G1 & G2 & G3 & G4). assert (S' = S) by congruence. subst S'.
    pose proof (grid_gap d S _ G1 G4 SL) as Gp. fold D in Gp.
    assert (WP : (1 <= weight q n w)%nat) by (unfold weight; lia).
    assert (I1 : / qn (W * W) <= / qn d).
    { apply qinv_mono; [apply qn_pos; auto|]. apply qn_le. etransitivity; [exact G2|]. rewrite Nat.max_r by auto. apply Nat.mul_le_mono; auto. }
    assert (X1 : qn (weight q n w * (3 * weight q n w + 3)) * u <= qn (W * (3 * W + 3)) * u).
    { apply qmul_le_r; auto. apply qn_le. apply Nat.mul_le_mono; lia. }
    assert (DW : D <= qn W).
    { unfold D, qn. apply (proj1 (qz_le _ _)). assert (K : (size n q + size n w)%Z = Z.of_nat (weight q n w)).
      { unfold weight. rewrite Nat2Z.inj_add. fold (zlen (get_n_grams q n)) (zlen (get_n_grams w n)). rewrite !get_n_grams_length.
        destruct (Z.ltb_spec 1 n); [|lia]. assert (0 < zlen (get_n_grams w n))%Z by (unfold zlen; lia).
        rewrite get_n_grams_length in H0. destruct (Z.ltb_spec 1 n); [|lia].
        assert (0 < zlen (get_n_grams q n))%Z by (unfold zlen; lia). rewrite get_n_grams_length in H2. destruct (Z.ltb_spec 1 n); lia. }
      lia. }
    assert (WP' : 0 < qn W) by (apply qn_pos; lia).
    assert (Sg : s <= D - (/ qn (W * W) - qn (W * (3 * W + 3)) * u)).
    { clear - Gp I1 X1 Er. set (e := qn (W * (3 * W + 3)) * u) in *. set (e' := qn (weight q n w * (3 * weight q n w + 3)) * u) in *.
      set (i := / qn (W * W)) in *. set (j := / qn d) in *. clearbody e e' i j. qclra. }
    unfold delta. set (g := / qn (W * W) - qn (W * (3 * W + 3)) * u) in *.
    assert (Q : s / D <= (D - g) / D) by (apply qdiv_mono; auto; apply Qclt_le_weak; auto).
    eapply Qcle_trans; [exact Q|].
    assert (Y : (D - g) / D = 1 - g * / D).
    { unfold Qcdiv. replace ((D - g) * / D) with (D * / D - g * / D) by ring. rewrite Qcmult_inv_r; auto. intros C. rewrite C in Dp. discriminate. }
    rewrite Y. unfold Qcdiv. assert (T : g * / qn W <= g * / D) by (apply qmul_le_l; auto; apply qinv_mono; auto).
    set (a := g * / qn W) in *. set (b := g * / D) in *. clearbody a b. clear - T. qclra.
Qed.

(** The mean of such scores is below 1. *)
Lemma near_below l m : near u (S (length l)) m (avg l) -> l <> [] -> Forall (fun x => 0 <= x /\ x <= (1 + u) * (1 - delta)) l ->
  qn 2 * (qn (length l + 2) * u) < delta -> m < 1.
Proof.
  intros [_ M] Nl H Hd. pose proof delta_le as D1.
  assert (Ln : 0 < qn (length l)) by (apply qn_pos; destruct l; [congruence|cbn [length]; lia]).
  assert (B : avg l <= (1 + u) * (1 - delta)).
  { unfold avg. unfold zlen. fold (qn (length l)).
    assert (Q : qsum l <= (1 + u) * (1 - delta) * qn (length l)).
    { clear - H. induction H as [|x l [_ Hx] _ IH]; cbn [qsum length]; [rewrite qn_0, Qcmult_0_r; apply Qcle_refl|].
      rewrite qn_S, Qcmult_plus_distr_r, Qcmult_1_r, Qcplus_comm. apply Qcplus_le_compat; auto. }
    apply (qdiv_mono _ _ (qn (length l))) in Q; [|apply qn_nonneg]. eapply Qcle_trans; [exact Q|].
    unfold Qcdiv. rewrite <- Qcmult_assoc, Qcmult_inv_r, Qcmult_1_r; [apply Qcle_refl|]. intros C. rewrite C in Ln. discriminate. }
  assert (M2 : m <= hi u (length l + 2) * (1 - delta)).
  { eapply Qcle_trans; [exact M|]. replace (length l + 2)%nat with (S (length l) + 1)%nat by lia. rewrite hi_add.
    assert (H1 : hi u 1 = 1 + u) by (unfold Accuracy.hi; simpl; ring). rewrite H1, <- Qcmult_assoc.
    apply qmul_le_l; auto. eapply Qcle_trans; [|apply hi_1; auto]. clear; qclra. }
  set (t := qn 2 * (qn (length l + 2) * u)) in *.
  assert (T0 : 0 <= t) by (repeat apply qmul_nonneg; auto; apply qn_nonneg).
  assert (Hh : hi u (length l + 2) <= 1 + t) by (apply hi_linear; auto; fold t; eapply Qcle_trans; [apply Qclt_le_weak, Hd|exact D1]).
  assert (M3 : hi u (length l + 2) * (1 - delta) <= (1 + t) * (1 - delta)) by (apply qmul_le_r; auto; clear - D1; qclra).
  eapply Qcle_lt_trans; [exact M2|]. eapply Qcle_lt_trans; [exact M3|].
  assert (X : 0 <= t * delta). { apply qmul_nonneg; auto. eapply Qcle_trans; [exact T0|apply Qclt_le_weak, Hd]. }
  replace ((1 + t) * (1 - delta)) with (1 + t - delta - t * delta) by ring.
  set (z := t * delta) in *. clearbody z. clear - Hd X. generalize dependent delta. intros. qclra.
Qed.
End Below.
