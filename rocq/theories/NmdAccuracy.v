(** How far [ngram_movers_distance] in floats is from its exact value.
    Nothing here models code of /repo. *)
From Coq Require Import ZArith NArith QArith Qcanon List Bool Permutation Lia.
From Verif Require Import Num Py ListAux PyDict Float64 EmdSpec EmdModel EmdProofs EmdFloatProofs
  NmdSpec NmdModel NmdProofs NmdFloatProofs.
From Verif Require Import Accuracy.
Import ListNotations.
Open Scope Qc_scope.

Lemma qabs_tri a b c : qabs (a - c) <= qabs (a - b) + qabs (b - c).
Proof. qclra. Qed.

(** ** Dictionaries with rounded values *)
Definition vmap {K V U} (f : V -> U) (d : dict K (list V)) : dict K (list U) := map (fun e => (fst e, map f (snd e))) d.

Section Vmap.
Context {K V U : Type} `{EqDec K} (f : V -> U).
Lemma dget_vmap k (d : dict K (list V)) : dget k (vmap f d) = option_map (map f) (dget k d).
Proof. induction d as [|[k' l] d IH]; simpl; auto. destruct (eqd k k'); auto. Qed.
Lemma dset_vmap k l (d : dict K (list V)) : dset k (map f l) (vmap f d) = vmap f (dset k l d).
Proof. induction d as [|[k' l'] d IH]; simpl; auto. destruct (eqd k k'); simpl; [reflexivity|]. f_equal. exact IH. Qed.
Lemma group_vmap (kvs : list (K * V)) : group (map (fun e => (fst e, f (snd e))) kvs) = vmap f (group kvs).
Proof.
  induction kvs as [|[k v] kvs IH] using rev_ind; [reflexivity|].
  rewrite map_app. cbn [map fst snd]. rewrite !group_snoc, IH. cbn [fst snd]. unfold dappend. rewrite dget_vmap.
  destruct (dget k (group kvs)) as [l|]; cbn [option_map].
  - rewrite <- dset_vmap, map_app. reflexivity.
  - rewrite <- dset_vmap. reflexivity.
Qed.
End Vmap.

Section Acc.
Variable u : Qc.
Hypothesis U0 : 0 <= u.
Hypothesis U1 : u <= 1.
Variable rnd : Qc -> Qc.
Hypothesis L : lawful rnd.
Hypothesis A : accurate u rnd.

Lemma unit_rnd l : in_unit l -> in_unit (map rnd l).
Proof.
  intros H. apply Forall_map. eapply Forall_impl; [|exact H]. intros x [H0 H1]. split.
  - apply (rnd_nonneg rnd L); auto.
  - rewrite <- (rnd_1 rnd L). apply (rnd_mono _ L); auto.
Qed.

(** Rounding positions moves each by at most [u]. *)
Lemma emd_round l : in_unit l -> emd l (map rnd l) <= qn (length l) * u.
Proof.
  intros H. eapply Qcle_trans.
  - apply (emd_le l (map rnd l) (move_cost (map (fun x => (x, rnd x)) l))). exists (map (fun x => (x, rnd x)) l), [], [].
    split; [split|].
    + rewrite map_map. cbn [fst]. rewrite map_id, app_nil_r. reflexivity.
    + rewrite map_map. cbn [snd]. rewrite app_nil_r. reflexivity.
    + cbn [length]. rewrite qn_0. ring.
  - clear -H A. induction H as [|x l [H0 H1] _ IH]; [cbn [length map]; rewrite qn_0, Qcmult_0_l; apply Qcle_refl|].
    cbn [map length]. rewrite move_cost_cons, qn_S. cbn [fst snd].
    replace ((qn (length l) + 1) * u) with (u + qn (length l) * u) by ring. apply Qcplus_le_compat; auto.
    rewrite qabs_sub_comm. eapply Qcle_trans; [apply A|].
    assert (U : 0 <= u).
    { pose proof (A 1) as B. pose proof (qabs_nonneg (rnd 1 - 1)) as C. change (qabs 1) with 1 in B. rewrite Qcmult_1_r in B.
      eapply Qcle_trans; eauto. }
    replace (qabs x) with x by (clear - H0; qclra). rewrite <- (Qcmult_1_r u) at 2. apply qmul_le_l; auto.
Qed.

Lemma emd_round_diff l1 l2 : in_unit l1 -> in_unit l2 ->
  qabs (emd (map rnd l1) (map rnd l2) - emd l1 l2) <= qn (length l1 + length l2) * u.
Proof.
  intros H1 H2. pose proof (emd_round l1 H1) as B1. pose proof (emd_round l2 H2) as B2.
  pose proof (emd_triangle l1 (map rnd l1) l2) as T1. pose proof (emd_triangle (map rnd l1) (map rnd l2) l2) as T2.
  pose proof (emd_triangle (map rnd l1) l1 (map rnd l2)) as T3. pose proof (emd_triangle l1 l2 (map rnd l2)) as T4.
  rewrite (emd_sym (map rnd l2) l2) in T2. rewrite (emd_sym (map rnd l1) l1) in T3.
  rewrite qn_add. replace ((qn (length l1) + qn (length l2)) * u) with (qn (length l1) * u + qn (length l2) * u) by ring.
  set (x1 := qn (length l1) * u) in *. set (x2 := qn (length l2) * u) in *. clearbody x1 x2.
  generalize dependent (emd (map rnd l1) (map rnd l2)). generalize dependent (emd l1 (map rnd l1)). generalize dependent (emd l2 (map rnd l2)).
  generalize dependent (emd (map rnd l1) l2). generalize dependent (emd l1 (map rnd l2)). generalize (emd l1 l2).
  clear. intros. qclra.
Qed.

Lemma dp_abs l1 l2 d N : (length l1 + length l2 <= N)%nat -> qn 2 * (qn (N + 1) * u) <= 1 ->
  in_unit l1 -> in_unit l2 -> emd_1d_dp rnd (map rnd l1) (map rnd l2) = Ok d ->
  qabs (d - emd l1 l2) <= qn (length l1 + length l2) * (qn (2 * N + 3) * u).
Proof.
  intros HN HU I1 I2 H. pose proof (dp_near u U0 U1 rnd L A _ _ d _ H (emd_is_emd _ _)) as [B1 B2].
  rewrite !map_length in B1, B2. set (k := (length l1 + length l2)%nat) in *.
  pose proof (emd_round_diff l1 l2 I1 I2) as D. fold k in D.
  pose proof (emd_upper (map rnd l1) (map rnd l2)) as E. rewrite !map_length in E. fold k in E.
  pose proof (emd_nonneg (map rnd l1) (map rnd l2)) as E0.
  set (e' := emd (map rnd l1) (map rnd l2)) in *. set (e := emd l1 l2) in *.
  pose proof (lo_linear u U0 U1 (k + 1)) as L1.
  assert (Hk : qn (k + 1) * u <= qn (N + 1) * u) by (apply qmul_le_r; auto; apply qn_le; lia).
  assert (L2 : hi u (k + 1) <= 1 + qn 2 * (qn (k + 1) * u)).
  { apply hi_linear; auto. eapply Qcle_trans; [|exact HU]. apply qmul_le_l; auto. apply qn_nonneg. }
  assert (X1 : (1 - qn (k + 1) * u) * e' <= d) by (eapply Qcle_trans; [|exact B1]; apply qmul_le_r; auto).
  assert (X2 : d <= (1 + qn 2 * (qn (k + 1) * u)) * e') by (eapply Qcle_trans; [exact B2|]; apply qmul_le_r; auto).
  set (v := qn (N + 1) * u) in *. set (w := qn (k + 1) * u) in *.
  assert (V0 : 0 <= w) by (apply qmul_nonneg; auto; apply qn_nonneg).
  assert (X3 : w * e' <= v * qn k) by (apply qmul_le; auto; apply qn_nonneg).
  assert (X4 : 0 <= w * e') by (apply qmul_nonneg; auto).
  replace ((1 - w) * e') with (e' - w * e') in X1 by ring.
  replace ((1 + qn 2 * w) * e') with (e' + qn 2 * (w * e')) in X2 by ring.
  replace (qn k * (qn (2 * N + 3) * u)) with (qn 2 * (v * qn k) + qn k * u).
  2:{ unfold v. rewrite !qn_add, qn_mul. change (qn 2) with (1 + 1). change (qn 3) with (1 + 1 + 1). change (qn 1) with 1. ring. }
  change (qn 2) with (Q2Qc 2) in *. set (p := w * e') in *. set (p2 := v * qn k) in *. set (p3 := qn k * u) in *.
  clearbody p p2 p3 e e'. clear - X1 X2 X3 X4 D. qclra.
Qed.

Lemma sim_loop_acc N loc2 its : qn 2 * (qn (N + 1) * u) <= 1 -> small N ->
  (forall g l, In (g, l) its -> in_unit l /\ l <> []) ->
  (forall g l, dget g loc2 = Some l -> in_unit l /\ l <> []) ->
  forall K s0 S0 err, (K + list_sum (map (load loc2) its) <= N)%nat -> 0 <= s0 -> s0 <= qn K -> qabs (s0 - S0) <= err ->
  exists s S, foldM (sim_step rnd (vmap rnd loc2)) (vmap rnd its) s0 = Ok s /\ foldM (sim_step exact loc2) its S0 = Ok S /\
    0 <= s /\ s <= qn (K + list_sum (map (load loc2) its)) /\
    qabs (s - S) <= err + qn (list_sum (map (load loc2) its)) * (qn (3 * N + 3) * u).
Proof.
  intros HU SN. induction its as [|[g l1] its IH]; intros I1 I2 K s0 S0 err HK P0 P1 Er.
  - exists s0, S0. cbn [foldM vmap map list_sum fold_right]. rewrite Nat.add_0_r. repeat split; auto.
    rewrite qn_0, Qcmult_0_l. clear - Er. qclra.
  - assert (I1' : forall g l, In (g, l) its -> in_unit l /\ l <> []) by (intros; eapply I1; right; eauto).
    specialize (IH I1' I2).
    cbn [foldM vmap map list_sum fold_right fst snd] in *. change (fold_right Nat.add 0%nat) with list_sum in *.
    unfold load in HK at 1. unfold load at 1 3. cbn [fst snd] in *. unfold sim_step at 1 3. rewrite dget_vmap.
    destruct (dget g loc2) as [l2|] eqn:E; cbn [option_map].
    2:{ cbn [bind]. apply IH; auto. }
    destruct (I1 g l1 (or_introl eq_refl)) as [V1 N1]. destruct (I2 g l2 E) as [V2 N2].
    destruct (dp_float_value rnd L (map rnd l1) (map rnd l2)) as (e & He & _). rewrite He, emd_1d_dp_exact. cbn [bind].
    assert (Ez : forall f1 f2 : list Qc, length f1 = length l1 -> length f2 = length l2 -> qz (zlen f1 + zlen f2) = qn (length l1 + length l2)).
    { intros f1 f2 F1 F2. unfold qn, zlen. f_equal. lia. }
    rewrite !Ez by (rewrite ?map_length; auto). clear Ez.
    set (m := (length l1 + length l2)%nat) in *.
    assert (M2 : (2 <= m)%nat). { unfold m. destruct l1, l2; try congruence. cbn [length]. lia. }
    assert (Sm : small m) by (eapply small_le; [|exact SN]; lia).
    assert (SK : small (K + m)) by (eapply small_le; [|exact SN]; lia).
    assert (Ue : e <= qn m).
    { eapply Qcle_trans; [eapply (dp_float_unit rnd L); [| | |exact He]|].
      - rewrite !map_length. exact Sm.
      - apply unit_rnd; auto.
      - apply unit_rnd; auto.
      - apply qn_le. rewrite !map_length. lia. }
    assert (Ge : 0 <= e) by (eapply (dp_float_bounds rnd L); [|exact He]; rewrite !map_length; exact Sm).
    pose proof (dp_abs l1 l2 e N ltac:(lia) HU V1 V2 He) as De. fold m in De.
    assert (T1 : qn m <= rnd (s0 + qn m)) by (apply (rnd_ge_qn rnd L); auto; clear - P0; qclra).
    assert (T2 : rnd (s0 + qn m) <= qn (K + m)). { apply (rnd_le_qn rnd L); auto. rewrite qn_add. clear - P1. qclra. }
    pose proof (A (s0 + qn m)) as R1. set (t := rnd (s0 + qn m)) in *.
    pose proof (A (t - e)) as R2.
    assert (Q0 : 0 <= t - e) by (clear - T1 Ue; qclra).
    assert (Q1 : t - e <= qn (K + m)) by (clear - T2 Ge; qclra).
    assert (QN : qn (K + m) <= qn N) by (apply qn_le; lia).
    assert (Y1 : u * qabs (s0 + qn m) <= qn N * u).
    { rewrite Qcmult_comm. apply qmul_le_r; auto. rewrite qn_add in QN. pose proof (qn_nonneg m) as Z0. clear - QN P0 P1 Z0. qclra. }
    assert (Y2 : u * qabs (t - e) <= qn N * u).
    { rewrite Qcmult_comm. apply qmul_le_r; auto. clear - Q0 Q1 QN. qclra. }
    destruct (IH (K + m)%nat (rnd (t - e)) (exact (exact (S0 + qn m) - emd l1 l2)) (err + qn m * (qn (3 * N + 3) * u))) as (s & S & E1 & E2 & B1 & B2 & B3).
    + lia.
    + apply (rnd_nonneg rnd L); auto.
    + apply (rnd_le_qn rnd L); auto.
    + unfold exact.
      assert (Y3 : qn 2 * (qn N * u) <= qn m * (qn N * u)). { apply qmul_le_r; [apply qmul_nonneg; auto; apply qn_nonneg|apply qn_le; lia]. }
      replace (qn m * (qn (3 * N + 3) * u)) with (qn m * (qn N * u) + qn m * (qn (2 * N + 3) * u)).
      2:{ replace (3 * N + 3)%nat with (N + (2 * N + 3))%nat by lia. rewrite (qn_add N). ring. }
      set (y := qn N * u) in *. set (y1 := qn m * y) in *. set (y2 := qn m * (qn (2 * N + 3) * u)) in *.
      change (qn 2) with (Q2Qc 2) in *.
      set (z1 := u * qabs (s0 + qn m)) in *. set (z2 := u * qabs (t - e)) in *. set (r := rnd (t - e)) in *.
      clearbody t y y1 y2 z1 z2 r. generalize dependent (emd l1 l2). clear - Er R1 R2 Y1 Y2 Y3. intros x De. qclra.
    + exists s, S. unfold vmap in E1 |- *. rewrite E1, E2. rewrite Nat.add_assoc. repeat split; auto.
      rewrite qn_add. replace ((qn m + qn (list_sum (map (load loc2) its))) * (qn (3 * N + 3) * u)) with
        (qn m * (qn (3 * N + 3) * u) + qn (list_sum (map (load loc2) its)) * (qn (3 * N + 3) * u)) by ring.
      rewrite Qcplus_assoc. exact B3.
Qed.

Lemma occ_vmap n w : group (occ rnd n w) = vmap rnd (group (occ exact n w)).
Proof. rewrite <- group_vmap. f_equal. unfold occ. rewrite map_map. reflexivity. Qed.

Lemma occ_good n w g l : dget g (group (occ exact n w)) = Some l -> in_unit l /\ l <> [].
Proof.
  intros H. split; [eapply (occ_unit exact lawful_exact); eauto|].
  apply dget_In, group_item in H. destruct H as [-> H]. intros C. apply (proj1 (select_nil _ _)) in C. contradiction.
Qed.

Lemma qdiv_le_mul a b c : 0 < c -> a <= b * c -> a / c <= b.
Proof.
  intros Hc H. replace b with (b * c / c); [|field; intros ->; discriminate].
  unfold Qcdiv. apply qmul_le_r; auto. apply qinv_nonneg; auto.
Qed.

Lemma qabs_div a c : 0 < c -> qabs (a / c) = qabs a / c.
Proof.
  intros Hc. pose proof (qinv_nonneg c Hc) as Hi. unfold qabs.
  destruct (qleb 0 a) eqn:E.
  - apply qleb_le in E. assert (0 <= a / c) as H by (apply qdiv_nonneg; auto). apply qleb_le in H. rewrite H. reflexivity.
  - apply qleb_nle in E. destruct (qleb 0 (a / c)) eqn:F; [|unfold Qcdiv; ring].
    apply qleb_le in F. assert (H : 0 <= (- a) / c) by (apply qdiv_nonneg; auto; clear - E; qclra).
    replace (- a / c) with (- (a / c)) in * by (unfold Qcdiv; ring). clear - F H. set (x := a / c) in *. clearbody x. qclra.
Qed.

Theorem nmd_acc n w1 w2 (invert normalize : bool) :
  let N := (gram_count n w1 + gram_count n w2)%nat in
  (n <= length w1 + 2)%nat -> (n <= length w2 + 2)%nat -> qn 2 * (qn (N + 1) * u) <= 1 -> small N ->
  exists d e, nmd_body rnd w1 w2 (Z.of_nat n) invert normalize = Ok d /\ nmd_body exact w1 w2 (Z.of_nat n) invert normalize = Ok e /\
    qabs (d - e) <= (if normalize then qn (3 * N + 5) else qn (N * (3 * N + 4))) * u.
Proof.
  intros N H1 H2 HU SN. unfold nmd_body.
  assert (E : forall w, (zlen (2%N :: w ++ [3%N]) - Z.of_nat n + 1)%Z = num n w).
  { intros w. unfold num, zlen. cbn [length]. rewrite app_length. cbn [length]. lia. }
  rewrite !E, !locations_group. rewrite !(occ_vmap n).
  pose proof (load_total exact n w1 w2) as LT. set (ld := list_sum (map (load (group (occ exact n w2))) (group (occ exact n w1)))) in *.
  destruct (sim_loop_acc N (group (occ exact n w2)) (group (occ exact n w1)) HU SN) with (K := 0%nat) (s0 := 0) (S0 := 0) (err := 0)
    as (s & S & E1 & E2 & B1 & B2 & B3).
  - intros g l Hg. apply In_dget in Hg; [|apply group_wf]. eapply occ_good; eauto.
  - intros g l Hg. eapply occ_good; eauto.
  - fold ld. unfold N. lia.
  - apply Qcle_refl.
  - apply Qcle_refl.
  - discriminate.
  - rewrite E1, E2. cbn [bind]. fold ld in B2, B3. cbn [Nat.add] in B2.
    rewrite !num_pos_count by auto. rewrite <- Nat2Z.inj_add. fold N. fold (qn N).
    assert (HN : (0 < N)%nat) by (unfold N, gram_count; lia). assert (QN : 0 < qn N) by (apply qn_pos; auto).
    assert (B2' : s <= qn N) by (eapply Qcle_trans; [exact B2|]; apply qn_le; unfold N; lia).
    assert (BS : qabs (s - S) <= qn N * (qn (3 * N + 3) * u)).
    { eapply Qcle_trans; [exact B3|]. rewrite Qcplus_0_l. apply qmul_le_r; [apply qmul_nonneg; auto; apply qn_nonneg|]. apply qn_le. unfold N. lia. }
    set (out := if invert then s else rnd (qn N - s)). set (out' := if invert then S else exact (qn N - S)).
    assert (O1 : 0 <= out). { unfold out. destruct invert; auto. apply (rnd_nonneg rnd L); auto. clear - B2'. qclra. }
    assert (O2 : out <= qn N). { unfold out. destruct invert; auto. apply (rnd_le_qn rnd L); auto. clear - B1. qclra. }
    assert (BO : qabs (out - out') <= qn N * (qn (3 * N + 4) * u)).
    { replace (qn N * (qn (3 * N + 4) * u)) with (qn N * (qn (3 * N + 3) * u) + qn N * u).
      2:{ replace (3 * N + 4)%nat with (3 * N + 3 + 1)%nat by lia. rewrite (qn_add _ 1), qn_1. ring. }
      assert (0 <= qn N * u) by (apply qmul_nonneg; auto; apply qn_nonneg).
      unfold out, out', exact. destruct invert.
      - clear - BS H. set (x := qn N * u) in *. set (y := qn N * (qn (3 * N + 3) * u)) in *. clearbody x y. qclra.
      - pose proof (A (qn N - s)) as R.
        assert (R' : u * qabs (qn N - s) <= qn N * u). { rewrite Qcmult_comm. apply qmul_le_r; auto. clear - B1 B2'. qclra. }
        clear - BS H R R'. set (x := qn N * u) in *. set (y := qn N * (qn (3 * N + 3) * u)) in *. set (r := rnd (qn N - s)) in *.
        set (z := u * qabs (qn N - s)) in *. clearbody x y r z. qclra. }
    destruct normalize.
    + destruct (Z.eqb_spec (Z.of_nat N) 0); [lia|]. exists (rnd (out / qn N)), (exact (out' / qn N)). split; [reflexivity|]. split; [reflexivity|].
      unfold exact.
      pose proof (A (out / qn N)) as R. rewrite (qabs_div _ _ QN) in R.
      assert (R1 : u * (qabs out / qn N) <= u).
      { rewrite <- (Qcmult_1_r u) at 2. apply qmul_le_l; auto. apply qdiv_le_mul; auto. clear - O1 O2. qclra. }
      assert (R2 : qabs (out / qn N - out' / qn N) <= qn (3 * N + 4) * u).
      { replace (out / qn N - out' / qn N) with ((out - out') / qn N) by (unfold Qcdiv; ring). rewrite (qabs_div _ _ QN).
        apply qdiv_le_mul; auto. rewrite Qcmult_comm. exact BO. }
      replace (qn (3 * N + 5) * u) with (qn (3 * N + 4) * u + u).
      2:{ replace (3 * N + 5)%nat with (3 * N + 4 + 1)%nat by lia. rewrite (qn_add _ 1), qn_1. ring. }
      clear - R R1 R2. set (x := out / qn N) in *. set (x' := out' / qn N) in *. set (y := qn (3 * N + 4) * u) in *.
      set (z := u * (qabs out / qn N)) in *. set (r := rnd x) in *. clearbody x x' y z r. qclra.
    + exists out, out'. split; [reflexivity|]. split; [reflexivity|]. rewrite qn_mul, <- Qcmult_assoc. exact BO.
Qed.
End Acc.
