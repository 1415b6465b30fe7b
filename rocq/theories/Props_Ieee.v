(** Theorems about IEEE doubles with gradual underflow: property C106. *)
From Coq Require Import ZArith NArith QArith Qcanon List Bool Permutation Lia String.
From Verif Require Import Num Py ListAux PyDict Float64 EmdSpec EmdModel EmdProofs EmdFloatProofs NmdSpec NmdModel NmdProofs NmdFloatProofs
  Accuracy LookupFloat IndexTop BowSpec BowModel BowProofs Ex Props_Emd Props_Nmd Props_Bow.
From Verif Require Import Ieee NmdIeee.
Import ListNotations.
Open Scope string_scope.
Open Scope list_scope.
Open Scope Qc_scope.

(** *** C106 *)

(** [ieee64] is what IEEE 754 asks for. *)
Theorem ieee_rounds_to_nearest : forall q, bits53 (ieee64 q) /\
  forall d, bits53 d -> qabs (ieee64 q - q) <= qabs (Q2Qc d - q) /\
    (Q2Qc d <> ieee64 q -> qabs (ieee64 q - q) = qabs (Q2Qc d - q) -> even53 (ieee64 q)).
Proof. exact ieee64_nearest. Qed.
Print Assumptions ieee_rounds_to_nearest.

(** A sum or difference of doubles never underflows; a product or quotient may:
    the laws used for [rnd64] do not all hold. *)
Theorem ieee_lawful_refuted : ~ lawful ieee64 /\ exists q, q <> 0 /\ ieee64 q = 0.
Proof.
  assert (X : exists q, q <> 0 /\ ieee64 q = 0).
  { exists (p2 (-1075)). split.
    - intros E. pose proof (p2_pos (-1075)) as P. rewrite E in P. discriminate.
    - apply qeqb_eq. vm_compute. reflexivity. }
  split; [|exact X]. destruct X as (q & N & E). intros L. apply N, (rnd_zero _ L). exact E.
Qed.
Print Assumptions ieee_lawful_refuted.

(** A finite double at most [2^1000] in absolute value. *)
Definition coordinate (q : Qc) : Prop := double q /\ qabs q <= p2 1000.

Lemma coordinate_moderate xs : Forall coordinate xs -> Forall moderate xs.
Proof. apply Forall_impl. intros q [H B]. split; auto. apply double_grid; auto. Qed.

Theorem emd_1d_dp_ieee : forall rnd, double_rounding rnd -> forall xs ys,
  (Z.of_nat (List.length xs + List.length ys) <= 2 ^ 53)%Z -> Forall coordinate xs -> Forall coordinate ys ->
  emd_1d_dp rnd xs ys = emd_1d_dp rnd64 xs ys /\
  exists d, emd_1d_dp rnd xs ys = Ok d /\
    0 <= d /\ d <= qn (List.length xs + List.length ys) /\
    qn (List.length xs) - qn (List.length ys) <= d /\ qn (List.length ys) - qn (List.length xs) <= d /\
    (in_unit xs -> in_unit ys -> d <= qn (Nat.max (List.length xs) (List.length ys))) /\
    (d = 0 <-> Permutation xs ys).
Proof.
  intros rnd D xs ys S Fx Fy.
  assert (E : emd_1d_dp rnd xs ys = emd_1d_dp rnd64 xs ys) by (apply emd_1d_dp_double; auto; apply coordinate_moderate; auto).
  split; auto. rewrite E. destruct (emd_1d_dp_rounded rnd64 rnd64_lawful xs ys S) as (d & H). exists d.
  destruct H as (H1 & H2 & H3 & H4 & H5 & H6 & H7). repeat split; auto; apply H7.
Qed.
Print Assumptions emd_1d_dp_ieee.

(** The smallest doubles: [3 * 2^-1074] and [2^-1074] are not moved to the same
    place, though their midpoint would be. *)
Example emd_1d_dp_ieee_case :
  let tiny := p2 (-1074) in
  Forall coordinate [tiny; qz 3 * tiny; f 1 2] /\ double_rounding ieee64 /\
  is_val (emd_1d_dp ieee64 [tiny; f 1 2] [qz 3 * tiny; f 1 2]) (pow2 (-1073)) = true /\
  qeqb (ieee64 (tiny / qz 3)) 0 = true /\ qeqb (rnd64 (tiny / qz 3)) 0 = false.
Proof.
  cbv zeta. split; [|split; [intros q _; reflexivity|]].
  - assert (C : forall m e, (Z.abs m < 2 ^ 53)%Z -> (-1074 <= e <= 971)%Z -> qabs (qz m * p2 e) <= p2 1000 -> coordinate (qz m * p2 e)).
    { intros m e Hm He B. split; auto. exists m, e. split; auto. split; auto. rewrite this_mul, this_qz, this_p2. reflexivity. }
    assert (p2 (-1074) = qz 1 * p2 (-1074)) as -> by (change (qz 1) with (Q2Qc 1); ring).
    assert (f 1 2 = qz 1 * p2 (-1)) as -> by (apply qeqb_eq; vm_compute; reflexivity).
    assert (qz 3 * (qz 1 * p2 (-1074)) = qz 3 * p2 (-1074)) as -> by (change (qz 1) with (Q2Qc 1); ring).
    assert (T : forall m e, qleb (qabs (qz m * p2 e)) (p2 1000) = true -> qabs (qz m * p2 e) <= p2 1000) by (intros m e; apply qleb_le).
    constructor; [apply C; [reflexivity|lia|apply T; vm_compute; reflexivity]|].
    constructor; [apply C; [reflexivity|lia|apply T; vm_compute; reflexivity]|].
    constructor; [apply C; [reflexivity|lia|apply T; vm_compute; reflexivity]|]. constructor.
  - split; [vm_compute; reflexivity|]. split; vm_compute; reflexivity.
Qed.

(** At most [2^50] characters. *)
Definition short (v : pyval) : Prop := match v with PStr w => (zlen w <= 2 ^ 50)%Z | _ => True end.
Definition short_n (v : pyval) : Prop := match as_int v with Some n => (n <= 2 ^ 51)%Z | None => True end.

Theorem nmd_ieee : forall rnd, double_rounding rnd -> forall v1 v2 n i m, short v1 -> short v2 -> short_n n ->
  ngram_movers_distance rnd v1 v2 n i m = ngram_movers_distance rnd64 v1 v2 n i m.
Proof.
  intros rnd D v1 v2 n i m H1 H2 Hn. unfold ngram_movers_distance.
  destruct (check_word v1) as [w1|] eqn:E1; [|reflexivity]. destruct (check_word v2) as [w2|] eqn:E2; [|reflexivity].
  destruct (check_n n) as [k|] eqn:E3; [|reflexivity]. cbn [bind].
  assert (S1 : (zlen w1 <= 2 ^ 50)%Z).
  { destruct v1; try discriminate. cbn in E1. destruct (_ || _); [discriminate|]. assert (s = w1) by congruence. subst. exact H1. }
  assert (S2 : (zlen w2 <= 2 ^ 50)%Z).
  { destruct v2; try discriminate. cbn in E2. destruct (_ || _); [discriminate|]. assert (s = w2) by congruence. subst. exact H2. }
  assert (K : (2 <= k <= 2 ^ 51)%Z).
  { unfold check_n in E3. unfold short_n in Hn. destruct (as_int n) as [z|]; [|discriminate].
    destruct (Z.ltb_spec z 2); [discriminate|]. assert (z = k) by congruence. subst. lia. }
  replace k with (Z.of_nat (Z.to_nat k)) by lia. apply nmd_body_double; auto.
  - unfold small, gram_count, zlen in *. lia.
  - unfold num, zlen in *. lia.
Qed.
Print Assumptions nmd_ieee.

(** So what holds for every lawful rounding holds of doubles. *)
Theorem nmd_ieee_range : forall rnd, double_rounding rnd -> forall w1 w2 n i m,
  adequate n w1 -> adequate n w2 -> (zlen w1 <= 2 ^ 50)%Z -> (zlen w2 <= 2 ^ 50)%Z ->
  exists d, ngram_movers_distance rnd (PStr w1) (PStr w2) (PInt (Z.of_nat n)) i m = Ok d /\
    0 <= d /\ d <= (if m then 1 else qn (gram_count n w1 + gram_count n w2)) /\
    (w1 = w2 -> i = false -> d = 0) /\ (w1 = w2 -> i = true -> m = true -> d = 1).
Proof.
  intros rnd D w1 w2 n i m A1 A2 H1 H2. pose proof A1 as (_ & _ & B1). pose proof A2 as (_ & _ & B2).
  assert (S : (Z.of_nat (gram_count n w1 + gram_count n w2) <= 2 ^ 53)%Z) by (unfold gram_count, zlen in *; lia).
  rewrite (nmd_ieee rnd D); [|exact H1|exact H2|unfold short_n; cbn [as_int]; unfold zlen in *; lia].
  destruct (nmd_rounded_range rnd64 rnd64_lawful w1 w2 n i m A1 A2 S) as (d & E & D0 & D1). exists d.
  split; auto. split; auto. split; auto. split.
  - intros <- ->. destruct (nmd_rounded_self rnd64 rnd64_lawful w1 n m A1 S) as [X _]. congruence.
  - intros <- -> ->. destruct (nmd_rounded_self rnd64 rnd64_lawful w1 n true A1 S) as [_ X]. congruence.
Qed.
Print Assumptions nmd_ieee_range.

Example nmd_ieee_case :
  same_val (ngram_movers_distance ieee64 (PStr (w_ "banana")) (PStr (w_ "bandana")) (PInt 2) false true)
           (ngram_movers_distance rnd64 (PStr (w_ "banana")) (PStr (w_ "bandana")) (PInt 2) false true) = true /\
  match ngram_movers_distance ieee64 (PStr (w_ "banana")) (PStr (w_ "bandana")) (PInt 2) false true with
  | Ok d => qltb 0 d && qltb d 1 | Err _ => false end = true /\
  same_val (ngram_movers_distance ieee64 (PStr (w_ "banana")) (PStr (w_ "bandana")) (PInt 2) false true)
           (ngram_movers_distance exact (PStr (w_ "banana")) (PStr (w_ "bandana")) (PInt 2) false true) = false.
Proof. vm_compute. auto. Qed.

(** ** Bags of words *)
Section Bow.
Variable rnd : Qc -> Qc.
Hypothesis D : double_rounding rnd.

Lemma cost_ieee n w1 w2 : adequate n w1 -> adequate n w2 -> small (gram_count n w1 + gram_count n w2) ->
  cost rnd (PInt (Z.of_nat n)) (PStr w1) (PStr w2) = cost rnd64 (PInt (Z.of_nat n)) (PStr w1) (PStr w2) /\
  grid 210 (fcost rnd64 n w1 w2).
Proof.
  intros A1 A2 S. pose proof A1 as (C1 & Hn & B1). pose proof A2 as (C2 & _ & B2).
  assert (E : forall r, ngram_movers_distance r (PStr w1) (PStr w2) (PInt (Z.of_nat n)) false true = nmd_body r w1 w2 (Z.of_nat n) false true).
  { intros r. unfold ngram_movers_distance. rewrite !check_word_clean by auto. cbn [bind].
    unfold check_n. cbn [as_int]. destruct (Z.ltb_spec (Z.of_nat n) 2); [lia|]. reflexivity. }
  destruct (nmd_body_double rnd D n w1 w2 false true S) as [X Y]; [apply num_sum_abs; auto|].
  unfold fcost, cost. rewrite !E, X. split; auto.
  destruct (cost_rounded rnd64 n w1 w2 rnd64_lawful A1 A2 S) as (x & Ex & _). unfold cost in Ex. rewrite E in Ex.
  destruct (nmd_body rnd64 w1 w2 (Z.of_nat n) false true) as [d|e] eqn:Ed.
  - auto.
  - destruct e; try discriminate. cbn. destruct (eqd w1 w2); [change (grid 210 (qz 0))|change (grid 210 (qz 1))]; apply grid_qz; lia.
Qed.

Lemma fold_add_ieee costs l : (forall ij, In ij l -> 0 <= BowProofs.entry costs ij <= 1 /\ grid 210 (BowProofs.entry costs ij)) -> forall b out,
  small (b + List.length l) -> 0 <= out -> out <= qn b -> grid 210 out ->
  fold_left (fun out ij => rnd (out + BowProofs.entry costs ij)) l out = fold_left (fun out ij => rnd64 (out + BowProofs.entry costs ij)) l out /\
  grid 210 (fold_left (fun out ij => rnd64 (out + BowProofs.entry costs ij)) l out).
Proof.
  induction l as [|ij l IH]; intros H b out Sm H0 Hb G; cbn [fold_left]; auto.
  cbn [List.length] in Sm. destruct (H ij (or_introl eq_refl)) as [[E0 E1] Ge].
  replace (b + S (List.length l))%nat with (S b + List.length l)%nat in Sm by lia.
  assert (Sb : small (S b)) by (eapply small_le; [|exact Sm]; lia).
  assert (X : rnd (out + BowProofs.entry costs ij) = rnd64 (out + BowProofs.entry costs ij)).
  { apply double_same; auto.
    - left. apply (grid_finer 210); [lia|]. apply grid_add; auto.
    - pose proof (qn_small_p2 _ Sb) as P. rewrite qn_S in P. pose proof (p2_lt 53 1023 ltac:(lia)) as PL. clear - H0 Hb E0 E1 P PL. qclra. }
  rewrite X. apply (IH (fun ij' I => H ij' (or_intror I)) (S b)); auto.
  - apply (rnd_nonneg _ rnd64_lawful). clear - H0 E0. qclra.
  - apply (rnd_le_qn _ rnd64_lawful); auto. rewrite qn_S. clear - Hb E1. qclra.
  - apply grid_rnd64, grid_add; auto.
Qed.

Lemma fold_sub_ieee costs l : (forall ij, In ij l -> 0 <= BowProofs.entry costs ij <= 1 /\ grid 210 (BowProofs.entry costs ij)) -> forall a b out,
  (List.length l <= a)%nat -> (a <= b)%nat -> small b -> qn a <= out -> out <= qn b -> grid 210 out ->
  fold_left (fun out ij => rnd (out - BowProofs.entry costs ij)) l out = fold_left (fun out ij => rnd64 (out - BowProofs.entry costs ij)) l out /\
  grid 210 (fold_left (fun out ij => rnd64 (out - BowProofs.entry costs ij)) l out).
Proof.
  induction l as [|ij l IH]; intros H a b out Hl Hab Sm Ha Hb G; cbn [fold_left]; auto.
  cbn [List.length] in Hl. destruct (H ij (or_introl eq_refl)) as [[E0 E1] Ge].
  assert (Ea : qn a = qn (a - 1) + 1) by (rewrite <- qn_S; f_equal; lia). pose proof (qn_nonneg (a - 1)) as N1.
  assert (X : rnd (out - BowProofs.entry costs ij) = rnd64 (out - BowProofs.entry costs ij)).
  { apply double_same; auto.
    - left. apply (grid_finer 210); [lia|]. apply grid_sub; auto.
    - pose proof (qn_small_p2 _ Sm) as P. pose proof (p2_lt 53 1023 ltac:(lia)) as PL. clear - N1 Ea Ha Hb E0 E1 P PL. qclra. }
  rewrite X. apply (IH (fun ij' I => H ij' (or_intror I)) (a - 1)%nat b); auto; try lia.
  - apply (rnd_ge_qn _ rnd64_lawful); [eapply small_le; [|exact Sm]; lia|]. clear - Ha Ea E1. qclra.
  - apply (rnd_le_qn _ rnd64_lawful); auto. clear - Hb E0. qclra.
  - apply grid_rnd64, grid_sub; auto.
Qed.
End Bow.

Theorem bow_ieee : forall rnd, double_rounding rnd -> forall solver b1 b2 a b n i m, valid_solver solver ->
  bag_words b1 a -> bag_words b2 b -> comparable n a -> comparable n b ->
  (Z.of_nat (Nat.max (List.length a) (List.length b)) <= 2 ^ 53)%Z ->
  bow rnd solver b1 b2 n i m = bow rnd64 solver b1 b2 n i m.
Proof.
  intros rnd D solver b1 b2 a b n i m V W1 W2 C1 C2 Sm. pose proof rnd64_lawful as L.
  assert (Cc : forall w1 w2, In w1 a -> In w2 b ->
    cost rnd (PInt (Z.of_nat n)) (PStr w1) (PStr w2) = Ok (fcost rnd64 n w1 w2) /\ grid 210 (fcost rnd64 n w1 w2)).
  { intros w1 w2 I1 I2. destruct (fcost_ok rnd64 n a b w1 w2 L C1 C2 I1 I2) as [E _]. rewrite <- E.
    unfold comparable in C1, C2. rewrite Forall_forall in C1, C2. destruct (C1 _ I1) as [A1 G1], (C2 _ I2) as [A2 G2].
    apply cost_ieee; auto. unfold small. lia. }
  rewrite (bow_loop rnd solver (fcost rnd64 n) b1 b2 a b n i m W1 W2 V) by (intros; apply Cc; auto).
  rewrite (bow_loop rnd64 solver (fcost rnd64 n) b1 b2 a b n i m W1 W2 V) by (intros; apply (fcost_ok rnd64 n a b); auto). cbv zeta.
  set (r := assign solver (matrix (fcost rnd64 n) a b)). set (ij := combine (fst r) (snd r)).
  assert (Li : List.length ij = Nat.min (List.length a) (List.length b)).
  { destruct (assign_valid solver (fcost rnd64 n) a b V) as (_ & _ & L1 & L2 & _). fold r in L1, L2. unfold ij. rewrite combine_length, L1, L2. lia. }
  assert (R : forall e, In e ij -> 0 <= BowProofs.entry (matrix (fcost rnd64 n) a b) e <= 1 /\ grid 210 (BowProofs.entry (matrix (fcost rnd64 n) a b) e)).
  { intros [x y] I. split; [apply (assigned_range rnd64 solver n a b L V C1 C2); exact I|].
    destruct (assign_valid solver (fcost rnd64 n) a b V) as (_ & _ & _ & _ & F1 & F2). rewrite Forall_forall in F1, F2.
    pose proof (F1 x (in_combine_l _ _ _ _ I)) as H1. pose proof (F2 y (in_combine_r _ _ _ _ I)) as H2.
    rewrite matrix_entry by auto. cbn [fst snd]. apply Cc; apply nth_In; auto. }
  set (mx := Nat.max (List.length a) (List.length b)) in *. set (mn := Nat.min (List.length a) (List.length b)) in *.
  assert (Hgap : (gap a b + mn = mx)%nat) by (unfold gap, mx, mn; lia).
  destruct (fold_sub_ieee rnd D (matrix (fcost rnd64 n) a b) ij R mn mn (qn mn)) as [X1 G1]; try lia; try apply Qcle_refl; [eapply small_le; [|exact Sm]; lia|apply grid_qz; lia|].
  destruct (fold_add_ieee rnd D (matrix (fcost rnd64 n) a b) ij R (gap a b) (qn (gap a b))) as [X2 G2]; try apply qn_nonneg; try apply Qcle_refl; [eapply small_le; [|exact Sm]; lia|apply grid_qz; lia|].
  rewrite X1, X2.
  set (out := if i then _ else _).
  assert (Go : grid 210 out) by (unfold out; destruct i; auto).
  assert (O : 0 <= out /\ out <= qn mx).
  { assert (R' : forall e, In e ij -> 0 <= BowProofs.entry (matrix (fcost rnd64 n) a b) e <= 1) by (intros e I; apply R; auto).
    unfold out. destruct i.
    - destruct (fold_sub_range rnd64 L (matrix (fcost rnd64 n) a b) ij R' mn mn (qn mn)) as [X Y]; try lia; try apply Qcle_refl.
      { eapply small_le; [|exact Sm]. lia. }
      split; [eapply Qcle_trans; [apply qn_nonneg|exact X]|]. eapply Qcle_trans; [exact Y|]. apply qn_le. lia.
    - destruct (fold_add_range rnd64 L (matrix (fcost rnd64 n) a b) ij R' (gap a b) (gap a b) (qn (gap a b))) as [X Y]; try apply Qcle_refl.
      { eapply small_le; [|exact Sm]. rewrite Li. lia. }
      { eapply small_le; [|exact Sm]. lia. }
      split; [eapply Qcle_trans; [apply qn_nonneg|exact X]|]. eapply Qcle_trans; [exact Y|]. apply qn_le. rewrite Li. lia. }
  destruct O as [O1 O2]. destruct m; auto. destruct (Nat.eqb_spec mx 0) as [|Nm]; auto. f_equal.
  assert (Pm : 0 < qn mx) by (apply qn_pos; lia).
  assert (Q0 : 0 <= out / qn mx) by (apply qdiv_nonneg; auto). assert (Q1 : out / qn mx <= 1) by (apply qdiv_le_1; auto).
  assert (B : qabs (out / qn mx) < p2 1023).
  { pose proof (p2_lt 0 1023 ltac:(lia)) as B. change (p2 0) with 1 in B. clear - Q0 Q1 B. qclra. }
  destruct (qc_eq_dec out 0) as [Z0|Z0].
  - rewrite Z0 in B |- *. apply (double_same rnd D); [|exact B]. left. replace (0 / qn mx) with (qz 0) by (change (qz 0) with (Q2Qc 0); unfold Qcdiv; ring). apply grid_qz. lia.
  - apply double_same; auto. right. pose proof (grid_lower 210 out Go Z0) as LO.
    assert (qabs out = out) as Eo by (clear - O1; qclra). rewrite Eo in LO.
    assert (Eq : qabs (out / qn mx) = out / qn mx) by (clear - Q0; qclra). rewrite Eq.
    apply qdiv_ge; auto. eapply Qcle_trans; [|exact LO].
    eapply Qcle_trans; [apply qmul_le_l; [apply Qclt_le_weak, p2_pos|apply qn_small_p2; exact Sm]|].
    rewrite <- p2_plus. apply p2_mono. lia.
Qed.
Print Assumptions bow_ieee.

Example bow_ieee_case :
  is_val (bow ieee64 brute_solver bg1 bg2 3 true true) (8006399337547549 # 18014398509481984) = true /\
  comparable 3 (words_ ["cat"; "dog"; "bird"]) /\ comparable 3 (words_ ["dog"; "bat"]).
Proof. destruct bow_rounded_case as (H1 & H2 & _). split; [vm_compute; reflexivity|auto]. Qed.
