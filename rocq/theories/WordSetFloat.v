(** The score of [find_similar] in floating point: how far it is from the true
    score.  Nothing here models code of /repo. *)
From Coq Require Import ZArith NArith QArith Qcanon List Bool Permutation Lia.
From Verif Require Import Num Py ListAux PyDict Float64 EmdSpec EmdModel EmdProofs EmdFloatProofs
  NmdSpec NmdModel NmdProofs NmdFloatProofs IndexModel WordSetSpec WordSetModel WordSetProofs WordSetScore.
From Verif Require Import Accuracy NmdAccuracy LookupFloat SelfFloat.
Import ListNotations.
Open Scope Qc_scope.

Lemma occs_vmap rnd ns w : group (occs rnd ns w) = vmap rnd (group (occs exact ns w)).
Proof.
  rewrite <- group_vmap. f_equal. unfold occs. induction ns as [|n ns IH]; cbn [flat_map]; auto. rewrite map_app, IH. f_equal.
  unfold occ. rewrite map_map. reflexivity.
Qed.

Lemma dgetl_vmap (rnd : Qc -> Qc) g (d : dict str (list Qc)) : dgetl g (vmap rnd d) = map rnd (dgetl g d).
Proof. unfold dgetl. rewrite dget_vmap. destruct (dget g d); reflexivity. Qed.

Lemma dkeys_vmap (rnd : Qc -> Qc) (d : dict str (list Qc)) : dkeys (vmap rnd d) = dkeys d.
Proof. unfold dkeys, vmap. rewrite map_map. reflexivity. Qed.

Lemma dmem_vmap (rnd : Qc -> Qc) g (d : dict str (list Qc)) : dmem g (vmap rnd d) = dmem g d.
Proof. unfold dmem. rewrite dget_vmap. destruct (dget g d); reflexivity. Qed.

Lemma shared_vmap (rnd : Qc -> Qc) q w : shared_keys (vmap rnd q) (vmap rnd w) = shared_keys q w.
Proof.
  unfold shared_keys. unfold vmap at 1 2. rewrite !map_length. destruct (length q <=? length w)%nat.
  - rewrite dkeys_vmap. apply filter_ext. intros g. apply dmem_vmap.
  - rewrite dkeys_vmap. apply filter_ext. intros g. apply dmem_vmap.
Qed.

(** Number of occurrences in both words of the n-grams in a list. *)
Definition load_of (q w : dict str (list Qc)) (gs : list str) : nat :=
  list_sum (map (fun g => length (dgetl g q) + length (dgetl g w))%nat gs).

Lemma occs_unit ns w g : in_unit (dgetl g (group (occs exact ns w))).
Proof.
  rewrite occs_dgetl. unfold spots, occs. rewrite select_flat_map. apply Forall_forall. intros x H.
  apply in_flat_map in H. destruct H as (n & _ & H).
  pose proof (occ_select exact n w g) as E. rewrite E in H. rewrite map_exact in H.
  pose proof (positions_unit n w g) as U. unfold in_unit in U. rewrite Forall_forall in U. apply U. exact H.
Qed.

Lemma load_shared ns q w : (load_of (group (occs exact ns q)) (group (occs exact ns w))
  (shared_keys (group (occs exact ns q)) (group (occs exact ns w))) <= total_grams ns q + total_grams ns w)%nat.
Proof.
  set (gs := shared_keys _ _).
  assert (N : NoDup gs) by (apply shared_keys_nodup; apply group_wf).
  assert (H : forall v, (list_sum (map (fun g => length (dgetl g (group (occs exact ns v)))) gs) <= total_grams ns v)%nat).
  { intros v. rewrite <- (occs_length exact ns v).
    set (gs' := gs ++ filter (fun g => if in_dec eqd g gs then false else true) (dkeys (group (occs exact ns v)))).
    rewrite <- (spots_total exact ns v gs').
    - unfold gs'. rewrite map_app, list_sum_app.
      erewrite (map_ext (fun g => length (dgetl g (group (occs exact ns v))))) by (intros g; rewrite occs_dgetl; reflexivity). lia.
    - unfold gs'. apply NoDup_app_intro; auto.
      + apply NoDup_filter. apply group_wf.
      + intros g I J. apply filter_In in J. destruct J as [_ J]. destruct (in_dec eqd g gs); [discriminate|contradiction].
    - intros g I. unfold gs'. apply in_app_iff. destruct (in_dec eqd g gs) as [|D]; [left; auto|right].
      apply filter_In. split; [apply group_keys; auto|]. destruct (in_dec eqd g gs); [contradiction|reflexivity]. }
  unfold load_of. pose proof (H q) as Hq. pose proof (H w) as Hw. clear H.
  assert (E : forall f h : str -> nat, list_sum (map (fun g => f g + h g)%nat gs) = (list_sum (map f gs) + list_sum (map h gs))%nat).
  { intros f h. clear. induction gs as [|g l IH]; [reflexivity|]. cbn [map]. change (list_sum (?a :: ?b)) with (a + list_sum b)%nat. lia. }
  rewrite E. lia.
Qed.

Section Acc.
Variable u : Qc.
Hypothesis U0 : 0 <= u.
Hypothesis U1 : u <= 1.
Variable rnd : Qc -> Qc.
Hypothesis L : lawful rnd.
Hypothesis A : accurate u rnd.

Lemma item_acc N l1 l2 : qn 2 * (qn (N + 1) * u) <= 1 -> small N -> in_unit l1 -> in_unit l2 ->
  let m := (length l1 + length l2)%nat in (m <= N)%nat ->
  0 <= item rnd (map rnd l1) (map rnd l2) /\ item rnd (map rnd l1) (map rnd l2) <= qn m /\
  qabs (item rnd (map rnd l1) (map rnd l2) - item exact l1 l2) <= qn m * u + qn m * (qn (2 * N + 3) * u).
Proof.
  intros HU SN V1 V2 m Hm. rewrite item_exact. unfold item.
  destruct (dp_float_value rnd L (map rnd l1) (map rnd l2)) as (e & He & _). rewrite He.
  replace (qz (zlen (map rnd l1) + zlen (map rnd l2))) with (qn m). 2:{ unfold qn, m, zlen. rewrite !map_length. f_equal. lia. }
  assert (Sm : small m) by (eapply small_le; [|exact SN]; lia).
  assert (Ue : e <= qn m).
  { eapply Qcle_trans; [eapply (dp_float_unit rnd L); [| | |exact He]|].
    - rewrite !map_length. exact Sm.
    - apply (unit_rnd rnd L); auto.
    - apply (unit_rnd rnd L); auto.
    - apply qn_le. rewrite !map_length. unfold m. lia. }
  assert (Ge : 0 <= e) by (eapply (dp_float_bounds rnd L); [|exact He]; rewrite !map_length; exact Sm).
  pose proof (dp_abs u U0 U1 rnd L A l1 l2 e N Hm HU V1 V2 He) as De. fold m in De.
  pose proof (A (qn m - e)) as R.
  split; [apply (rnd_nonneg rnd L); clear - Ue; qclra|]. split; [apply (rnd_le_qn rnd L); auto; clear - Ge; qclra|].
  rewrite <- qn_add. fold m.
  assert (R' : u * qabs (qn m - e) <= qn m * u). { rewrite Qcmult_comm. apply qmul_le_r; auto. clear - Ue Ge. qclra. }
  set (y := qn m * u) in *. set (z := qn m * (qn (2 * N + 3) * u)) in *. set (r := rnd (qn m - e)) in *. set (p := u * qabs (qn m - e)) in *.
  clearbody y z r p. generalize dependent (emd l1 l2). intros x De. clear - R R' De. qclra.
Qed.

Lemma contrib_loop_acc N q w : qn 2 * (qn (N + 1) * u) <= 1 -> small N ->
  (forall g, in_unit (dgetl g q)) -> (forall g, in_unit (dgetl g w)) -> forall gs,
  (forall g, In g gs -> dgetl g q <> [] /\ dgetl g w <> []) ->
  forall K s0 S0 err, (K + load_of q w gs <= N)%nat -> 0 <= s0 -> s0 <= qn K -> qabs (s0 - S0) <= err ->
  let s := fold_left (fun t g => rnd (t + item rnd (map rnd (dgetl g q)) (map rnd (dgetl g w)))) gs s0 in
  let S := fold_left (fun t g => exact (t + item exact (dgetl g q) (dgetl g w))) gs S0 in
  0 <= s /\ s <= qn (K + load_of q w gs) /\ qabs (s - S) <= err + qn (load_of q w gs) * (qn (3 * N + 3) * u).
Proof.
  intros HU SN V1 V2. induction gs as [|g gs IH]; intros NE K s0 S0 err HK P0 P1 Er; cbn zeta.
  - cbn [fold_left]. unfold load_of in *. cbn [map list_sum fold_right] in *. rewrite Nat.add_0_r. repeat split; auto.
    rewrite qn_0, Qcmult_0_l. clear - Er. qclra.
  - cbn [fold_left]. assert (IH' := IH (fun g' I => NE g' (or_intror I))). clear IH. cbn zeta in IH'.
    destruct (NE g (or_introl eq_refl)) as [N1 N2].
    unfold load_of in *. cbn [map] in *. change (list_sum (?a :: ?b)) with (a + list_sum b)%nat in *.
    set (l1 := dgetl g q) in *. set (l2 := dgetl g w) in *. set (m := (length l1 + length l2)%nat) in *.
    set (rest := list_sum _) in *.
    assert (M2 : (2 <= m)%nat). { unfold m. destruct l1, l2; try congruence. cbn [length]. lia. }
    destruct (item_acc N l1 l2 HU SN (V1 g) (V2 g)) as (I0 & I1 & I2); [fold m; lia|]. fold m in I1, I2.
    set (r := item rnd (map rnd l1) (map rnd l2)) in *. set (r' := item exact l1 l2) in *. clearbody r r'.
    assert (SK : small (K + m)) by (eapply small_le; [|exact SN]; lia).
    assert (T2 : s0 + r <= qn (K + m)). { rewrite qn_add. clear - P1 I1. qclra. }
    pose proof (A (s0 + r)) as R1.
    assert (QN : qn (K + m) <= qn N) by (apply qn_le; lia).
    assert (Y1 : u * qabs (s0 + r) <= qn N * u).
    { rewrite Qcmult_comm. apply qmul_le_r; auto. clear - QN T2 P0 I0. qclra. }
    destruct (IH' (K + m)%nat (rnd (s0 + r)) (exact (S0 + r')) (err + qn m * (qn (3 * N + 3) * u))) as (B1 & B2 & B3).
    + lia.
    + apply (rnd_nonneg rnd L). clear - P0 I0. qclra.
    + apply (rnd_le_qn rnd L); auto.
    + unfold exact.
      assert (Y2 : qn 2 * (qn N * u) <= qn m * (qn N * u)). { apply qmul_le_r; [apply qmul_nonneg; auto; apply qn_nonneg|apply qn_le; lia]. }
      assert (Y3 : qn m * u <= qn N * u). { apply qmul_le_r; auto. apply qn_le. lia. }
      replace (qn m * (qn (3 * N + 3) * u)) with (qn m * (qn N * u) + qn m * (qn (2 * N + 3) * u)).
      2:{ replace (3 * N + 3)%nat with (N + (2 * N + 3))%nat by lia. rewrite (qn_add N). ring. }
      set (y := qn N * u) in *. set (y1 := qn m * y) in *. set (y2 := qn m * (qn (2 * N + 3) * u)) in *. set (y3 := qn m * u) in *.
      change (qn 2) with (Q2Qc 2) in *. set (z1 := u * qabs (s0 + r)) in *. set (t := rnd (s0 + r)) in *.
      clearbody y y1 y2 y3 z1 t. clear - Er R1 Y1 Y2 Y3 I2. qclra.
    + split; [exact B1|]. rewrite Nat.add_assoc. split; [exact B2|].
      rewrite qn_add. replace ((qn m + qn rest) * (qn (3 * N + 3) * u)) with
        (qn m * (qn (3 * N + 3) * u) + qn rest * (qn (3 * N + 3) * u)) by ring.
      rewrite Qcplus_assoc. exact B3.
Qed.

Lemma contrib_acc ns q w : let N := (total_grams ns q + total_grams ns w)%nat in
  qn 2 * (qn (N + 1) * u) <= 1 -> small N ->
  0 <= contrib rnd ns q w /\ contrib rnd ns q w <= qn N /\
  qabs (contrib rnd ns q w - contrib exact ns q w) <= qn N * (qn (3 * N + 3) * u).
Proof.
  intros N HU SN. unfold contrib. rewrite !contributions_value. rewrite !(occs_vmap rnd), shared_vmap.
  set (dq := group (occs exact ns q)). set (dw := group (occs exact ns w)). set (gs := shared_keys dq dw).
  pose proof (load_shared ns q w) as LS. fold dq dw gs N in LS.
  assert (NE : forall v g, In g (dkeys (group (occs exact ns v))) -> dgetl g (group (occs exact ns v)) <> []).
  { intros v g I. rewrite group_keys in I. rewrite occs_dgetl. unfold spots. intros C. apply (proj1 (select_nil _ _)) in C. contradiction. }
  destruct (contrib_loop_acc N dq dw HU SN (fun g => occs_unit ns q g) (fun g => occs_unit ns w g) gs) with (K := 0%nat) (s0 := 0) (S0 := 0) (err := 0)
    as (B1 & B2 & B3).
  - intros g I. apply shared_keys_in in I. destruct I as [I1 I2]. split; apply NE; auto.
  - lia.
  - apply Qcle_refl.
  - apply Qcle_refl.
  - discriminate.
  - rewrite (fold_left_ext_in (fun t g => rnd (t + item rnd (dgetl g (vmap rnd dq)) (dgetl g (vmap rnd dw))))
      (fun t g => rnd (t + item rnd (map rnd (dgetl g dq)) (map rnd (dgetl g dw))))).
    2:{ intros t g _. rewrite !dgetl_vmap. reflexivity. }
    set (s := fold_left _ gs 0) in *. set (S := fold_left _ gs 0) in *. clearbody s S. cbn [Nat.add] in B2.
    split; [exact B1|]. split; [eapply Qcle_trans; [exact B2|]; apply qn_le; lia|].
    eapply Qcle_trans; [exact B3|]. rewrite Qcplus_0_l. apply qmul_le_r; [apply qmul_nonneg; auto; apply qn_nonneg|]. apply qn_le. lia.
Qed.

Lemma clamp_near x y e : qabs (x - y) <= e -> qabs (qmax 0 (qmin 1 x) - qmax 0 (qmin 1 y)) <= e.
Proof.
  intros H. unfold qmax, qmin.
  destruct (qleb 1 x) eqn:E1; destruct (qleb 1 y) eqn:E2; [apply qleb_le in E1; apply qleb_le in E2|apply qleb_le in E1; apply qleb_nle in E2|apply qleb_nle in E1; apply qleb_le in E2|apply qleb_nle in E1; apply qleb_nle in E2].
  all: repeat match goal with |- context [qleb 0 ?z] => let E := fresh "E" in destruct (qleb 0 z) eqn:E; [apply qleb_le in E|apply qleb_nle in E] end.
  all: clear L A; qclra.
Qed.

Lemma wscore_acc ns q w : let N := (total_grams ns q + total_grams ns w)%nat in (0 < N)%nat ->
  qn 2 * (qn (N + 1) * u) <= 1 -> small N ->
  qabs (wscore rnd ns q w - wscore exact ns q w) <= qn (3 * N + 4) * u.
Proof.
  intros N HN HU SN. destruct (contrib_acc ns q w HU SN) as (C0 & C1 & C2). fold N in C1, C2.
  unfold wscore. fold N. apply clamp_near. unfold exact at 1.
  set (c := contrib rnd ns q w) in *. set (c' := contrib exact ns q w) in *. assert (QN : 0 < qn N) by (apply qn_pos; auto).
  pose proof (A (c / qn N)) as R. rewrite (qabs_div _ _ QN) in R.
  assert (R1 : u * (qabs c / qn N) <= u).
  { rewrite <- (Qcmult_1_r u) at 2. apply qmul_le_l; auto. apply qdiv_le_mul; auto. clear - C0 C1. qclra. }
  assert (R2 : qabs (c / qn N - c' / qn N) <= qn (3 * N + 3) * u).
  { replace (c / qn N - c' / qn N) with ((c - c') / qn N) by (unfold Qcdiv; ring). rewrite (qabs_div _ _ QN).
    apply qdiv_le_mul; auto. rewrite Qcmult_comm. exact C2. }
  replace (qn (3 * N + 4) * u) with (qn (3 * N + 3) * u + u).
  2:{ replace (3 * N + 4)%nat with (3 * N + 3 + 1)%nat by lia. rewrite (qn_add _ 1), qn_1. ring. }
  clear - R R1 R2. set (x := c / qn N) in *. set (x' := c' / qn N) in *. set (y := qn (3 * N + 3) * u) in *.
  set (z := u * (qabs c / qn N)) in *. set (r := rnd x) in *. clearbody x x' y z r. qclra.
Qed.
End Acc.

(** ** Different words score below 1 *)

Lemma dist_grid n q w : exists d, (1 <= d)%nat /\ (4 * d <= Nat.max 4 ((gram_count n q + gram_count n w) * (gram_count n q + gram_count n w)))%nat /\
  grid d (dist n q w).
Proof.
  set (a := Nat.max 1 (gram_count n q - 1)). set (b := Nat.max 1 (gram_count n w - 1)). exists (a * b)%nat.
  split; [unfold a, b; nia|]. split.
  { assert (S : (a + b <= Nat.max 2 (gram_count n q + gram_count n w))%nat) by (unfold a, b; lia).
    assert (Sq : (4 * (a * b) <= (a + b) * (a + b))%nat) by (clear; destruct (Nat.le_ge_cases a b) as [H|H]; [replace b with (a + (b - a))%nat by lia; generalize (b - a)%nat|replace a with (b + (a - b))%nat by lia; generalize (a - b)%nat]; intros; nia).
    eapply Nat.le_trans; [exact Sq|]. clear Sq. generalize dependent (a + b)%nat. generalize (gram_count n q + gram_count n w)%nat. clear.
    intros x y H. destruct (Nat.max_spec 2 x) as [[? E]|[? E]]; rewrite E in H.
    - eapply Nat.le_trans; [|apply Nat.le_max_r]. apply Nat.mul_le_mono; auto.
    - eapply Nat.le_trans; [|apply Nat.le_max_l]. change 4%nat with (2 * 2)%nat. apply Nat.mul_le_mono; auto. }
  unfold dist.
  assert (H : forall l, grid (a * b) (qsum (map (fun g => emd (positions n q g) (positions n w g)) l))).
  { intros l. induction l as [|g l IH]; cbn [map qsum]; [rewrite <- qz_0; apply grid_int|].
    apply grid_add; [|exact IH]. apply emd_grid.
    - apply (positions_grid n q g b b). left. reflexivity.
    - apply (positions_grid n w g a a). left. fold b. lia. }
  apply H.
Qed.

Lemma dist_gap n q w : 0 < dist n q w -> exists d, (1 <= d)%nat /\
  (4 * d <= Nat.max 4 ((gram_count n q + gram_count n w) * (gram_count n q + gram_count n w)))%nat /\ / qn d <= dist n q w.
Proof.
  intros H. destruct (dist_grid n q w) as (d & H1 & H2 & G). exists d. split; [auto|]. split; [auto|].
  assert (G' : grid d (0 - dist n q w)) by (apply grid_sub; [rewrite <- qz_0; apply grid_int|exact G]).
  pose proof (grid_gap d (0 - dist n q w) 0 H1 G') as K. rewrite qz_0 in K. set (x := dist n q w) in *. clearbody x.
  assert (K' : 0 - x <= 0 - / qn d) by (apply K; clear - H; qclra). set (y := / qn d) in *. clearbody y. clear - K'. qclra.
Qed.

Lemma total_le ns n w : In n ns -> (gram_count n w <= total_grams ns w)%nat.
Proof.
  unfold total_grams. induction ns as [|a ns IH]; [intros []|]. cbn [map]. change (list_sum (?x :: ?y)) with (x + list_sum y)%nat.
  intros [->|H]; [lia|]. specialize (IH H). lia.
Qed.

Lemma total_some ns w : (0 < total_grams ns w)%nat -> exists n, In n ns /\ (0 < gram_count n w)%nat.
Proof.
  unfold total_grams. induction ns as [|n ns IH]; [intros H; simpl in H; lia|]. cbn [map]. change (list_sum (?x :: ?y)) with (x + list_sum y)%nat.
  intros T. destruct (gram_count n w) eqn:Ec.
  - destruct IH as (m & I & H); [lia|]. exists m. split; [right; auto|auto].
  - exists n. split; [left; auto|lia].
Qed.

(** The exact score of another word is below 1 by a margin. *)
Lemma wscore_margin ns q w N : Forall (fun n => (1 <= n)%nat) ns -> NoDup ns -> (0 < total_grams ns q)%nat -> q <> w ->
  (2 <= N)%nat -> (total_grams ns q + total_grams ns w <= N)%nat ->
  wscore exact ns q w <= 1 - Q2Qc 4 / qn (N * N * N).
Proof.
  intros P Nd T D N2 HN. rewrite wscore_exact by (auto; lia).
  destruct (total_some ns q T) as (n & I & Hc).
  assert (Dn : 0 < dist n q w).
  { destruct (Qcle_lt_or_eq _ _ (dist_nonneg n q w)) as [|E]; auto. exfalso. symmetry in E.
    pose proof (positions_perm_count n q w (dist_zero_positions n q w E)) as Ec.
    rewrite Forall_forall in P. specialize (P n I).
    apply D, (dist_zero_eq n); auto; unfold gram_count in *; lia. }
  destruct (dist_gap n q w Dn) as (d & D1 & D2 & D3).
  pose proof (total_le ns n q I) as T1. pose proof (total_le ns n w I) as T2.
  assert (D4 : (4 * d <= N * N)%nat).
  { eapply Nat.le_trans; [exact D2|]. apply Nat.max_lub; [nia|]. apply Nat.mul_le_mono; lia. }
  set (t := (total_grams ns q + total_grams ns w)%nat) in *. assert (Tp : 0 < qn t) by (apply qn_pos; unfold t; lia).
  assert (S : dist n q w <= qsum (map (fun n => dist n q w) ns)).
  { clear - I. induction ns as [|m ns IH]; [destruct I|]. cbn [map qsum].
    assert (Z : 0 <= qsum (map (fun n => dist n q w) ns)) by (apply qsum_map_nonneg; intros; apply dist_nonneg).
    pose proof (dist_nonneg m q w) as Z2. destruct I as [->|I].
    - set (x := qsum _) in *. clearbody x. set (y := dist n q w) in *. clearbody y. clear - Z. qclra.
    - specialize (IH I). set (x := qsum _) in *. clearbody x. set (y := dist n q w) in *. clearbody y.
      set (z := dist m q w) in *. clearbody z. clear - Z2 IH. qclra. }
  set (s := qsum _) in *. clearbody s.
  assert (G : Q2Qc 4 / qn (N * N * N) <= s / qn t).
  { apply qdiv_ge; auto. eapply Qcle_trans; [|eapply Qcle_trans; [exact D3|exact S]].
    assert (Np : 0 < qn (N * N * N)) by (apply qn_pos; nia). assert (Dp : 0 < qn d) by (apply qn_pos; lia).
    replace (/ qn d) with (1 / qn d) by (unfold Qcdiv; ring). apply qdiv_ge; auto.
    replace (Q2Qc 4 / qn (N * N * N) * qn t * qn d) with (Q2Qc 4 * qn t * qn d / qn (N * N * N)) by (unfold Qcdiv; ring).
    apply qdiv_le_1; auto. change (Q2Qc 4) with (qn 4). rewrite <- !qn_mul. apply qn_le. nia. }
  set (x := s / qn t) in *. set (y := Q2Qc 4 / qn (N * N * N)) in *. clearbody x y. clear - G. qclra.
Qed.

Lemma u64_unit : 0 <= u64 /\ u64 <= 1. Proof. split; discriminate. Qed.

(** In binary64, for words with up to 8192 n-grams. *)
Lemma wscore_below64 ns q w : Forall (fun n => (1 <= n)%nat) ns -> NoDup ns -> (0 < total_grams ns q)%nat -> q <> w ->
  (Z.of_nat (total_grams ns q + total_grams ns w) <= 8192)%Z -> wscore rnd64 ns q w < 1.
Proof.
  intros P Nd T D HN. assert (exists N, Z.of_nat N = 8192%Z) as [N EN] by (exists (Z.to_nat 8192); lia).
  assert (M : wscore exact ns q w <= 1 - Q2Qc 4 / qn (N * N * N)) by (apply wscore_margin; auto; lia).
  set (t := (total_grams ns q + total_grams ns w)%nat) in *.
  destruct u64_unit as [V0 V1].
  assert (Ht : forall k j, (Z.of_nat j <= k)%Z -> qn j * u64 <= qz k * u64).
  { intros k j H. apply qmul_le_r; auto. apply (proj1 (qz_le _ _)). exact H. }
  assert (B : qabs (wscore rnd64 ns q w - wscore exact ns q w) <= qn (3 * t + 4) * u64).
  { apply wscore_acc; auto.
    - apply rnd64_lawful.
    - apply rnd64_accurate.
    - lia.
    - eapply Qcle_trans; [apply qmul_le_l; [apply qn_nonneg|]; apply (Ht 8193%Z); fold t; lia|]. vm_compute. discriminate.
    - unfold small. fold t. lia. }
  pose proof (Ht 24580%Z (3 * t + 4)%nat ltac:(lia)) as Hb.
  assert (EN3 : qn (N * N * N) = qz (8192 * 8192 * 8192)). { unfold qn. f_equal. rewrite !Nat2Z.inj_mul, EN. reflexivity. }
  rewrite EN3 in M.
  assert (F : qz 24580 * u64 < Q2Qc 4 / qz (8192 * 8192 * 8192)) by reflexivity.
  set (x := wscore rnd64 ns q w) in *. set (y := wscore exact ns q w) in *. set (z := qn (3 * t + 4) * u64) in *.
  set (f := Q2Qc 4 / qz (8192 * 8192 * 8192)) in *. set (g := qz 24580 * u64) in *. clearbody x y z f g.
  clear - M B Hb F. qclra.
Qed.
