(** The score of [find_similar] with gradual underflow.  Nothing here models
    code of /repo. *)
From Coq Require Import ZArith NArith QArith Qcanon List Bool Permutation Lia.
From Verif Require Import Num Py ListAux PyDict Float64 EmdSpec EmdModel EmdProofs EmdFloatProofs NmdSpec NmdModel NmdProofs NmdFloatProofs
  IndexModel WordSetSpec WordSetModel WordSetProofs WordSetScore Accuracy LookupFloat NmdAccuracy WordSetFloat.
From Verif Require Import Ieee NmdIeee.
Import ListNotations.
Open Scope Qc_scope.

Section Double.
Variable rnd : Qc -> Qc.
Hypothesis D : double_rounding rnd.

Lemma occs_double ns w : small (total_grams ns w) -> occs rnd ns w = occs rnd64 ns w.
Proof.
  intros S. unfold occs. assert (H : forall n, In n ns -> occ rnd n w = occ rnd64 n w).
  { intros n I. apply (occ_double rnd D). eapply small_le; [|exact S]. apply total_le. exact I. }
  clear S. induction ns as [|n ns IH]; cbn [flat_map]; auto. rewrite H by (left; auto). rewrite IH; auto. intros m I. apply H. right; auto.
Qed.

Lemma spots_grid ns w g : small (total_grams ns w) -> Forall (Ieee.grid 105) (dgetl g (group (occs rnd64 ns w))).
Proof.
  intros S. rewrite occs_dgetl. unfold spots, occs. rewrite select_flat_map. apply Forall_forall. intros x H.
  apply in_flat_map in H. destruct H as (n & I & H). rewrite occ_select in H. unfold positions in H. rewrite map_map in H.
  apply in_map_iff in H. destruct H as (i & <- & Hi). apply filter_In in Hi. destruct Hi as [Hi _]. apply in_seq in Hi.
  apply (position_double rnd D); [lia|]. eapply small_le; [|exact S]. apply total_le. exact I.
Qed.

Lemma item_double l1 l2 : small (length l1 + length l2) -> in_unit l1 -> in_unit l2 -> Forall (Ieee.grid 105) l1 -> Forall (Ieee.grid 105) l2 ->
  item rnd l1 l2 = item rnd64 l1 l2 /\ Ieee.grid 105 (item rnd64 l1 l2) /\
  0 <= item rnd64 l1 l2 /\ item rnd64 l1 l2 <= qn (length l1 + length l2).
Proof.
  intros S U1 U2 G1 G2. pose proof rnd64_lawful as L. unfold item.
  rewrite (emd_1d_dp_double rnd D l1 l2) by (auto; apply unit_moderate; auto).
  destruct (dp_float_value rnd64 L l1 l2) as (e & He & _).
  assert (Ge' : Ieee.grid 105 e) by (eapply emd_1d_dp_grid; [| | |exact He]; auto; lia).
  rewrite He.
  assert (Ue : e <= qn (Nat.max (length l1) (length l2))) by (eapply (dp_float_unit rnd64 L); eauto).
  assert (Ge : 0 <= e) by (eapply (dp_float_bounds rnd64 L); eauto).
  assert (Em : qn (Nat.max (length l1) (length l2)) <= qn (length l1 + length l2)) by (apply qn_le; lia).
  assert (Ez : qz (zlen l1 + zlen l2) = qn (length l1 + length l2)). { unfold qn, zlen. f_equal. lia. }
  rewrite Ez. set (A := (length l1 + length l2)%nat) in *.
  assert (GA : Ieee.grid 105 (qn A - e)) by (apply Ieee.grid_sub; auto; apply grid_qz; lia).
  pose proof (qn_small_p2 _ S) as PK. pose proof (p2_lt 53 1023 ltac:(lia)) as PL.
  assert (P0 : 0 <= qn A - e) by (clear - Ue Em; qclra).
  split; [|split; [apply grid_rnd64; auto|split; [apply (rnd_nonneg rnd64 L); auto|apply (rnd_le_qn rnd64 L); auto; clear - Ge; qclra]]].
  apply double_same; auto.
  - left. apply (grid_finer 105); [lia|auto].
  - clear - P0 Ge PK PL. qclra.
Qed.

Lemma contrib_loop_double (q w : dict str (list Qc)) gs :
  (forall g, in_unit (dgetl g q) /\ Forall (Ieee.grid 105) (dgetl g q)) ->
  (forall g, in_unit (dgetl g w) /\ Forall (Ieee.grid 105) (dgetl g w)) ->
  forall K s, small (K + load_of q w gs) -> 0 <= s -> s <= qn K -> Ieee.grid 105 s ->
  let s' := fold_left (fun t g => rnd64 (t + item rnd64 (dgetl g q) (dgetl g w))) gs s in
  fold_left (fun t g => rnd (t + item rnd (dgetl g q) (dgetl g w))) gs s = s' /\ Ieee.grid 105 s' /\ 0 <= s' /\ s' <= qn (K + load_of q w gs).
Proof.
  intros V1 V2. pose proof rnd64_lawful as L. induction gs as [|g gs IH]; intros K s S H0 HK HG; cbn zeta.
  - cbn [fold_left]. unfold load_of. cbn [map list_sum fold_right]. rewrite Nat.add_0_r. auto.
  - cbn [fold_left]. unfold load_of in *. cbn [map] in *. change (list_sum (?a :: ?b)) with (a + list_sum b)%nat in *.
    destruct (V1 g) as [Ua Ga], (V2 g) as [Ub Gb]. set (l1 := dgetl g q) in *. set (l2 := dgetl g w) in *.
    destruct (item_double l1 l2) as (E & G & I0 & I1); auto. { eapply small_le; [|exact S]. lia. }
    rewrite E. set (r := item rnd64 l1 l2) in *. clearbody r. set (m := (length l1 + length l2)%nat) in *.
    assert (SK : small (K + m)) by (eapply small_le; [|exact S]; lia).
    pose proof (qn_small_p2 _ SK) as PK. pose proof (p2_lt 53 1023 ltac:(lia)) as PL.
    assert (T : s + r <= qn (K + m)). { rewrite qn_add. clear - HK I1. qclra. }
    assert (E1 : rnd (s + r) = rnd64 (s + r)).
    { apply double_same; auto.
      - left. apply (grid_finer 105); [lia|]. apply Ieee.grid_add; auto.
      - clear - H0 I0 T PK PL. qclra. }
    rewrite E1. rewrite Nat.add_assoc. apply (IH (K + m)%nat).
    + rewrite <- Nat.add_assoc. exact S.
    + apply (rnd_nonneg rnd64 L). clear - H0 I0. qclra.
    + apply (rnd_le_qn rnd64 L); auto.
    + apply grid_rnd64, Ieee.grid_add; auto.
Qed.

Lemma unit_rnd64 ns w g : in_unit (dgetl g (group (occs rnd64 ns w))).
Proof. rewrite (occs_vmap rnd64), dgetl_vmap. apply (unit_rnd rnd64 rnd64_lawful), occs_unit. Qed.

Lemma load_shared64 ns q w : (load_of (group (occs rnd64 ns q)) (group (occs rnd64 ns w))
  (shared_keys (group (occs rnd64 ns q)) (group (occs rnd64 ns w))) <= total_grams ns q + total_grams ns w)%nat.
Proof.
  eapply Nat.le_trans; [|apply load_shared]. rewrite !(occs_vmap rnd64), shared_vmap. unfold load_of.
  erewrite map_ext; [apply Nat.le_refl|]. intros g. cbn beta. rewrite !dgetl_vmap, !map_length. reflexivity.
Qed.

Lemma wscore_double ns q w : small (total_grams ns q + total_grams ns w) -> (0 < total_grams ns q + total_grams ns w)%nat ->
  wscore rnd ns q w = wscore rnd64 ns q w.
Proof.
  intros S T. assert (Sq : small (total_grams ns q)) by (eapply small_le; [|exact S]; lia).
  assert (Sw : small (total_grams ns w)) by (eapply small_le; [|exact S]; lia).
  unfold wscore, contrib. rewrite !contributions_value. rewrite (occs_double ns q Sq), (occs_double ns w Sw).
  set (dq := group (occs rnd64 ns q)). set (dw := group (occs rnd64 ns w)). set (gs := shared_keys dq dw).
  pose proof (load_shared64 ns q w) as LS. fold dq dw gs in LS.
  destruct (contrib_loop_double dq dw gs) with (K := 0%nat) (s := 0) as (E & G & B0 & B1).
  - intros g. split; [apply unit_rnd64|apply spots_grid; auto].
  - intros g. split; [apply unit_rnd64|apply spots_grid; auto].
  - eapply small_le; [|exact S]. exact LS.
  - apply Qcle_refl.
  - apply Qcle_refl.
  - change 0 with (qz 0). apply grid_qz. lia.
  - rewrite E. clear E. set (c := fold_left _ gs 0) in *. clearbody c. cbn [Nat.add] in B1. f_equal. f_equal.
    set (N := (total_grams ns q + total_grams ns w)%nat) in *.
    assert (B2 : c <= qn N) by (eapply Qcle_trans; [exact B1|apply qn_le; exact LS]).
    assert (NP : 0 < qn N) by (apply qn_pos; auto).
    assert (Q0 : 0 <= c / qn N) by (apply qdiv_nonneg; auto). assert (Q1 : c / qn N <= 1) by (apply qdiv_le_1; auto).
    pose proof (p2_lt 0 1023 ltac:(lia)) as PL. change (p2 0) with 1 in PL.
    apply (double_same rnd D).
    + destruct (qc_eq_dec c 0) as [Z0|Z0].
      * left. rewrite Z0. replace (0 / qn N) with (qz 0) by (change (qz 0) with (Q2Qc 0); unfold Qcdiv; ring). apply grid_qz. lia.
      * right. pose proof (grid_lower 105 c G Z0) as LO.
        assert (LO' : p2 (- 105) <= c) by (clear - LO B0; set (p := p2 _) in *; clearbody p; qclra).
        assert (LQ : p2 (-158) <= c / qn N).
        { apply qdiv_ge; auto. eapply Qcle_trans; [|exact LO'].
          eapply Qcle_trans; [apply qmul_le_l; [apply Qclt_le_weak, p2_pos|apply qn_small_p2; exact S]|].
          rewrite <- p2_plus. apply p2_mono. lia. }
        eapply Qcle_trans; [apply (p2_mono _ (-158)); lia|]. set (x := c / qn N) in *. clearbody x. set (p := p2 (-158)) in *. clearbody p. clear - LQ Q0. qclra.
    + set (x := c / qn N) in *. clearbody x. clear - Q0 Q1 PL. qclra.
Qed.
End Double.
