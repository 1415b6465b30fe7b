(** [ngram_movers_distance] with gradual underflow. *)
From Coq Require Import ZArith NArith QArith Qcanon List Bool Permutation Lia.
From Verif Require Import Num Py ListAux PyDict Float64 EmdSpec EmdModel EmdProofs EmdFloatProofs NmdSpec NmdModel NmdProofs NmdFloatProofs Accuracy LookupFloat NmdAccuracy.
From Verif Require Import Ieee.
Import ListNotations.
Open Scope Qc_scope.

Section Double.
Variable rnd : Qc -> Qc.
Hypothesis D : double_rounding rnd.

Lemma p2_inv e : p2 (- e) * p2 e = 1.
Proof. rewrite <- p2_plus. replace (- e + e)%Z with 0%Z by lia. reflexivity. Qed.

(** A quotient of integers below [2^53]. *)
Lemma quotient_lower i m : (1 <= i)%nat -> (1 <= m)%nat -> small m -> p2 (-53) <= qn i / qn m.
Proof.
  intros Hi Hm S. assert (P : 0 < qn m) by (apply qn_pos; lia).
  apply qdiv_ge; auto. eapply Qcle_trans; [apply qmul_le_l; [apply Qclt_le_weak, p2_pos|apply qn_small_p2; exact S]|].
  change (-53)%Z with (- (53))%Z. rewrite p2_inv. rewrite <- qn_1. apply qn_le. auto.
Qed.

Lemma p2_lt a b : (a < b)%Z -> p2 a < p2 b.
Proof. intros H. pose proof (p2_gap a b H). pose proof (p2_pos a). clear - H0 H1. qclra. Qed.

Lemma position_double n w i : (i < gram_count n w)%nat -> small (gram_count n w) ->
  rnd (position n w i) = rnd64 (position n w i) /\ grid 105 (rnd64 (position n w i)).
Proof.
  intros Hi S. pose proof (position_unit n w i Hi) as [P0 P1].
  assert (B : qabs (position n w i) < p2 1023).
  { pose proof (p2_lt 0 1023 ltac:(lia)) as B. change (p2 0) with 1 in B. clear - P0 P1 B. qclra. }
  unfold position in *. destruct (Nat.eq_dec i 0) as [->|N].
  - replace (qn 0 / qn (Nat.max 1 (gram_count n w - 1))) with (qz 0) in *.
    + split; [apply double_same; auto; left; apply grid_qz; lia|apply grid_rnd64, grid_qz; lia].
    + change (qn 0) with (qz 0). unfold Qcdiv. change (qz 0) with (Q2Qc 0). ring.
  - assert (G : p2 (-53) <= qn i / qn (Nat.max 1 (gram_count n w - 1))).
    { apply quotient_lower; [lia|lia|]. unfold small in *. lia. }
    split.
    + apply double_same; auto. right. eapply Qcle_trans; [apply (p2_mono _ (-53)); lia|].
      clear - P0 G. qclra.
    + apply (rnd64_coarse 53). exact G.
Qed.

Lemma occ_double n w : small (gram_count n w) -> occ rnd n w = occ rnd64 n w.
Proof.
  intros S. unfold occ. apply map_ext_in. intros i Hi. apply in_seq in Hi. f_equal.
  apply position_double; auto. lia.
Qed.

Lemma occ_grid n w g l : small (gram_count n w) -> dget g (group (occ rnd64 n w)) = Some l -> Forall (grid 105) l.
Proof.
  intros S H. apply dget_In, group_item in H. destruct H as [-> _]. rewrite occ_select. unfold positions.
  rewrite map_map. apply Forall_map, Forall_forall. intros i Hi. apply filter_In in Hi. destruct Hi as [Hi _]. apply in_seq in Hi.
  apply position_double; auto. lia.
Qed.

Lemma unit_moderate l : Forall (grid 105) l -> in_unit l -> Forall moderate l.
Proof.
  intros G U. apply Forall_forall. intros q Hq. split.
  - apply (grid_finer 105); [lia|]. revert Hq. apply Forall_forall; auto.
  - apply (proj1 (Forall_forall _ _) U) in Hq. destruct Hq as [H0 H1].
    pose proof (p2_lt 0 1000 ltac:(lia)) as B. change (p2 0) with 1 in B. clear - H0 H1 B. qclra.
Qed.

Lemma sim_loop_double loc2 items : forall s K,
  (forall g l, In (g, l) items -> in_unit l /\ Forall (grid 105) l) ->
  (forall g l, dget g loc2 = Some l -> in_unit l /\ Forall (grid 105) l) ->
  small (K + list_sum (map (load loc2) items)) -> 0 <= s -> s <= qn K -> grid 105 s ->
  foldM (sim_step rnd loc2) items s = foldM (sim_step rnd64 loc2) items s /\
  forall s', foldM (sim_step rnd64 loc2) items s = Ok s' -> grid 105 s'.
Proof.
  pose proof rnd64_lawful as L.
  induction items as [|[g l1] items IH]; intros s K U1 U2 S H0 HK HG.
  - split; auto. cbn. intros s' E. assert (s' = s) as -> by congruence. auto.
  - cbn [foldM]. unfold sim_step at 1 3 5.
    cbn [map list_sum fold_right] in *. change (fold_right Nat.add 0%nat) with list_sum in *.
    assert (El : load loc2 (g, l1) = match dget g loc2 with Some l2 => (length l1 + length l2)%nat | None => 0%nat end) by reflexivity.
    rewrite El in *. clear El. cbn [fst snd] in *.
    destruct (dget g loc2) as [l2|] eqn:E.
    + destruct (U1 g l1) as [U1a U1b]; [left; auto|]. destruct (U2 g l2 E) as [U2a U2b].
      assert (S1 : small (length l1 + length l2)) by (eapply small_le; [|exact S]; lia).
      rewrite (emd_1d_dp_double rnd D l1 l2) by (auto; apply unit_moderate; auto).
      destruct (dp_float_value rnd64 L l1 l2) as (e & He & _).
      assert (Ge' : grid 105 e) by (eapply emd_1d_dp_grid; [| | |exact He]; auto; lia).
      rewrite He. cbn [bind].
      assert (Ue : e <= qn (Nat.max (length l1) (length l2))).
      { eapply (dp_float_unit rnd64 L); eauto. }
      assert (Ge : 0 <= e) by (eapply (dp_float_bounds rnd64 L); eauto).
      assert (Em : qn (Nat.max (length l1) (length l2)) <= qn (length l1 + length l2)) by (apply qn_le; lia).
      assert (Ez : qz (zlen l1 + zlen l2) = qn (length l1 + length l2)).
      { unfold qn, zlen. f_equal. lia. }
      rewrite Ez. set (A := (length l1 + length l2)%nat) in *.
      assert (SKA : small (K + A)) by (eapply small_le; [|exact S]; lia).
      assert (T1 : qn A <= rnd64 (s + qn A)) by (apply rnd_ge_qn; auto; clear - H0; qclra).
      assert (T2 : rnd64 (s + qn A) <= qn (K + A)).
      { apply rnd_le_qn; auto. rewrite qn_add. clear - HK. qclra. }
      assert (GA : grid 105 (s + qn A)) by (apply grid_add; auto; apply grid_qz; lia).
      pose proof (qn_small_p2 _ SKA) as PK. pose proof (p2_lt 53 1023 ltac:(lia)) as PL. pose proof (qn_nonneg A) as PA.
      assert (E1 : rnd (s + qn A) = rnd64 (s + qn A)).
      { apply double_same; auto.
        - left. apply (grid_finer 105); [lia|auto].
        - rewrite qn_add in PK. clear - H0 HK PK PL PA. qclra. }
      rewrite E1.
      assert (GB : grid 105 (rnd64 (s + qn A) - e)) by (apply grid_sub; auto; apply grid_rnd64; auto).
      assert (E2 : rnd (rnd64 (s + qn A) - e) = rnd64 (rnd64 (s + qn A) - e)).
      { apply double_same; auto.
        - left. apply (grid_finer 105); [lia|auto].
        - clear - T1 T2 Ue Em Ge PK PL. qclra. }
      rewrite E2.
      apply (IH _ (K + A)%nat).
      * intros; eapply U1; right; eauto.
      * auto.
      * eapply small_le; [|exact S]. lia.
      * apply rnd_nonneg; auto. clear - T1 Ue Em. qclra.
      * apply rnd_le_qn; auto. clear - T2 Ge. qclra.
      * apply grid_rnd64; auto.
    + cbn [bind]. apply (IH s K); auto. intros; eapply U1; right; eauto.
Qed.

Lemma sim_double n w1 w2 : small (gram_count n w1 + gram_count n w2) ->
  exists s, foldM (sim_step rnd (group (occ rnd n w2))) (group (occ rnd n w1)) 0 = Ok s /\
    foldM (sim_step rnd64 (group (occ rnd64 n w2))) (group (occ rnd64 n w1)) 0 = Ok s /\
    0 <= s /\ s <= qn (gram_count n w1 + gram_count n w2) /\ grid 105 s.
Proof.
  intros S. assert (S1 : small (gram_count n w1)) by (eapply small_le; [|exact S]; lia).
  assert (S2 : small (gram_count n w2)) by (eapply small_le; [|exact S]; lia).
  rewrite !occ_double by auto.
  destruct (sim_float rnd64 rnd64_lawful n w1 w2 S) as (s & E & B1 & B2). exists s.
  destruct (sim_loop_double (group (occ rnd64 n w2)) (group (occ rnd64 n w1)) 0 0) as [A B].
  - intros g l H. apply In_dget in H; [|apply group_wf]. split; [eapply (occ_unit rnd64 rnd64_lawful); eauto|]. eapply (occ_grid n w1); eauto.
  - intros g l H. split; [eapply (occ_unit rnd64 rnd64_lawful); eauto|eapply (occ_grid n w2); eauto].
  - eapply small_le; [|exact S]. apply load_total.
  - apply Qcle_refl.
  - apply Qcle_refl.
  - change 0 with (qz 0). apply grid_qz. lia.
  - rewrite A, E. repeat split; auto.
Qed.

(** nmd/nmd_core.py:42-74: same result with doubles as with an unbounded
    exponent. *)
Lemma nmd_body_double n w1 w2 invert normalize :
  small (gram_count n w1 + gram_count n w2) -> (Z.abs (num n w1 + num n w2) <= 2 ^ 53)%Z ->
  nmd_body rnd w1 w2 (Z.of_nat n) invert normalize = nmd_body rnd64 w1 w2 (Z.of_nat n) invert normalize /\
  (normalize = true -> forall d, nmd_body rnd64 w1 w2 (Z.of_nat n) invert normalize = Ok d -> grid 210 d).
Proof.
  intros S HT. unfold nmd_body.
  assert (E : forall w, (zlen (2%N :: w ++ [3%N]) - Z.of_nat n + 1)%Z = num n w).
  { intros w. unfold num, zlen. cbn [length]. rewrite app_length. cbn [length]. lia. }
  rewrite !E, !locations_group.
  destruct (sim_double n w1 w2 S) as (s & -> & -> & B1 & B2 & G). cbn [bind].
  set (T := (num n w1 + num n w2)%Z) in *.
  assert (QT : qabs (qz T) <= p2 53).
  { rewrite p2_qz by lia. assert (qz T <= qz (2 ^ 53)) by (apply (proj1 (qz_le _ _)); lia).
    assert (qz (- 2 ^ 53) <= qz T) by (apply (proj1 (qz_le _ _)); lia). rewrite qz_opp in H0. set (u := qz (2 ^ 53)) in *. clear - H H0. qclra. }
  pose proof (qn_small_p2 _ S) as PS. pose proof (p2_gap 53 54 ltac:(lia)) as P54. pose proof (p2_gap 54 55 ltac:(lia)) as P55. pose proof (p2_lt 55 1023 ltac:(lia)) as PL.
  pose proof (p2_pos 54) as Q54. pose proof (p2_pos 53) as Q53.
  assert (GO : grid 105 (qz T - s)) by (apply grid_sub; auto; apply grid_qz; lia).
  assert (BO : qabs (qz T - s) <= p2 54) by (clear - B1 B2 PS P54 QT; qclra).
  assert (EO : rnd (qz T - s) = rnd64 (qz T - s)).
  { apply double_same; auto; [left; apply (grid_finer 105); [lia|auto]|]. clear - BO P55 PL Q54. qclra. }
  rewrite EO. set (out := if invert then s else rnd64 (qz T - s)).
  destruct normalize; [|split; [reflexivity|discriminate]].
  destruct (Z.eqb_spec T 0) as [|NT]; [split; [reflexivity|discriminate]|].
  assert (Gout : grid 105 out) by (unfold out; destruct invert; auto; apply grid_rnd64; auto).
  assert (Bout : qabs out <= p2 55).
  { unfold out. pose proof (rnd64_le_2 (qz T - s)) as R. set (r := rnd64 (qz T - s)) in *. destruct invert; [clear - B1 B2 PS P54 P55 Q53; qclra|clear - R BO P55; qclra]. }
  enough (X : rnd (out / qz T) = rnd64 (out / qz T) /\ grid 210 (rnd64 (out / qz T))).
  { destruct X as [-> X]. split; [reflexivity|]. intros _ d Ed. assert (d = rnd64 (out / qz T)) as -> by congruence. exact X. }
  destruct (qc_eq_dec out 0) as [Z0|Z0].
  - rewrite Z0. replace (0 / qz T) with (qz 0) by (change (qz 0) with (Q2Qc 0); unfold Qcdiv; ring). split.
    + apply (double_same rnd D); [left; apply grid_qz; lia|]. change (qabs (qz 0)) with 0. apply p2_pos.
    + apply grid_rnd64, grid_qz. lia.
  - pose proof (grid_lower 105 out Gout Z0) as LO.
    assert (TN : qz T <> 0) by (intros F; apply (qz_inj T 0) in F; auto).
    assert (T1 : 1 <= qabs (qz T)).
    { pose proof (grid_lower 0 (qz T) (grid_qz 0 T ltac:(lia)) TN) as X. exact X. }
    assert (EA : qabs (out / qz T) = qabs out / qabs (qz T)).
    { apply Qc_is_canon. rewrite this_div, !this_qabs, this_div. unfold Qdiv. rewrite Qabs.Qabs_Qmult, Qabs.Qabs_Qinv. reflexivity. }
    assert (PT : 0 < qabs (qz T)) by (clear - T1; qclra).
    assert (LQ : p2 (-158) <= qabs (out / qz T)).
    { rewrite EA. apply qdiv_ge; auto. eapply Qcle_trans; [|exact LO].
      eapply Qcle_trans; [apply qmul_le_l; [apply Qclt_le_weak, p2_pos|exact QT]|].
      rewrite <- p2_plus. apply p2_mono. lia. }
    split.
    + apply double_same; auto.
      * right. eapply Qcle_trans; [|exact LQ]. apply p2_mono. lia.
      * rewrite EA. eapply Qcle_lt_trans; [|exact PL]. apply Qcle_trans with (qabs out); auto.
        apply qdiv_le_mul; auto. rewrite <- (Qcmult_1_r (qabs out)) at 1. apply qmul_le_l; auto. apply qabs_nonneg.
    + set (v := out / qz T) in *. unfold qabs in LQ. destruct (qleb 0 v) eqn:Sg.
      * apply (rnd64_coarse 158). exact LQ.
      * assert (v = - - v) as -> by ring. rewrite (rnd_odd _ rnd64_lawful). apply grid_opp. apply (rnd64_coarse 158). exact LQ.
Qed.

(** nmd/nmd_bow.py:36-39 *)
Lemma num_sum_abs n w1 w2 : (n <= length w1 + 2)%nat -> (n <= length w2 + 2)%nat -> small (gram_count n w1 + gram_count n w2) ->
  (Z.abs (num n w1 + num n w2) <= 2 ^ 53)%Z.
Proof. intros H1 H2 S. rewrite !num_pos_count by auto. unfold small in S. lia. Qed.

End Double.
