(** IEEE 754 binary64 with its smallest exponent: gradual underflow.

    [rnd64] of Float64.v keeps 53 significant bits whatever the exponent.  A
    Python [float] does so only down to [2^-1022]; below, the unit in the last
    place stays at [2^-1074].  [ieee64] is that rounding.  Overflow is left
    open: a [double_rounding] does as [ieee64] below [2^1023] and anything
    above.

    Nothing here models code of /repo. *)
From Coq Require Import ZArith QArith Qcanon Qabs Qround Qpower List Bool Permutation Sorted Lia Lqa.
From Verif Require Import Num Py Float64 EmdSpec EmdModel EmdProofs EmdFloatProofs Accuracy.
Import ListNotations.
Open Scope Q_scope.

(** Nearest multiple of the unit in the last place, which is never below
    [2^-1074]. *)
Definition ieee_pos (q : Q) : Q :=
  let u := pow2 (Z.max (ilog2 q - 52) (-1074)) in inject_Z (rne (q / u)) * u.

Definition ieeeQ (q : Q) : Q :=
  match Qcompare q 0 with
  | Eq => 0
  | Gt => ieee_pos q
  | Lt => - ieee_pos (- q)
  end.

Definition ieee64 (q : Qc) : Qc := Q2Qc (ieeeQ q).

Definition p2 (e : Z) : Qc := Q2Qc (pow2 e).

(** What Python's [float] operations do: round to nearest below [2^1023]
    (above, they may overflow). *)
Definition double_rounding (rnd : Qc -> Qc) : Prop := forall q, (qabs q < p2 1023)%Qc -> rnd q = ieee64 q.

(** The finite doubles. *)
Definition double (q : Qc) : Prop :=
  exists m e, (Z.abs m < 2 ^ 53)%Z /\ (-1074 <= e <= 971)%Z /\ this q == inject_Z m * pow2 e.

(** Multiples of [2^-e]. *)
Definition gridQ (e : Z) (q : Q) : Prop := exists k, q == inject_Z k * pow2 (- e).
Definition grid (e : Z) (q : Qc) : Prop := gridQ e q.

Lemma ieeeQ_neg q : q < 0 -> ieeeQ q = - ieee_pos (- q).
Proof.
  intros H. unfold ieeeQ. destruct (q ?= 0) eqn:E; [apply Qeq_alt in E|apply Qlt_alt in E|apply Qgt_alt in E]; reflexivity || (exfalso; lra).
Qed.
Lemma ieeeQ_pos q : 0 < q -> ieeeQ q = ieee_pos q.
Proof.
  intros H. unfold ieeeQ. destruct (q ?= 0) eqn:E; [apply Qeq_alt in E|apply Qlt_alt in E|apply Qgt_alt in E]; reflexivity || (exfalso; lra).
Qed.
Lemma ieeeQ_zero q : q == 0 -> ieeeQ q = 0.
Proof.
  intros H. unfold ieeeQ. destruct (q ?= 0) eqn:E; [apply Qeq_alt in E|apply Qlt_alt in E|apply Qgt_alt in E]; reflexivity || (exfalso; lra).
Qed.

Lemma gridQ_comp e a b : a == b -> gridQ e a -> gridQ e b.
Proof. intros E (k & H). exists k. rewrite <- E. exact H. Qed.

(** A multiple of the unit is not changed. *)
Lemma rne_exact q v k : 0 < v -> q == inject_Z k * v -> inject_Z (rne (q / v)) * v == q.
Proof.
  intros P E. rewrite (rne_comp (q / v) (inject_Z k)); [rewrite rne_int, E; reflexivity|].
  rewrite E. field. lra.
Qed.

Lemma gridQ_finer e f q : (e <= f)%Z -> gridQ e q -> gridQ f q.
Proof.
  intros H (k & E). exists (k * 2 ^ (f - e))%Z. rewrite E, inject_Z_mult, <- pow2_nonneg_Z by lia.
  replace (- e)%Z with ((f - e) + - f)%Z by lia. rewrite pow2_plus. ring.
Qed.

Lemma rnd_pos_grid_small e q : 0 < q -> (ilog2 q - 52 <= - e)%Z -> gridQ e q -> rnd_pos q == q.
Proof.
  intros P H G. destruct (gridQ_finer e (- (ilog2 q - 52)) q) as (k & E); auto; [lia|].
  rewrite Z.opp_involutive in E. unfold rnd_pos. apply (rne_exact q _ k); auto. apply pow2_pos.
Qed.

Lemma ieee_pos_same q : 0 < q -> gridQ 1074 q \/ pow2 (-1022) <= q -> ieee_pos q == rnd_pos q.
Proof.
  intros P H. destruct (Z_le_gt_dec (-1074) (ilog2 q - 52)) as [L|L].
  - unfold ieee_pos, rnd_pos. rewrite Z.max_l by lia. reflexivity.
  - destruct H as [G|G].
    + rewrite (rnd_pos_grid_small 1074) by (auto; lia).
      unfold ieee_pos. rewrite Z.max_r by lia. destruct G as (k & E). apply (rne_exact q _ k); auto. apply pow2_pos.
    + exfalso. destruct (ilog2_spec q P) as [_ U].
      assert (pow2 (ilog2 q + 1) <= pow2 (-1022)) by (apply pow2_mono; lia). lra.
Qed.

Lemma rnd_pos_grid e q : 0 < q -> gridQ e q -> gridQ e (rnd_pos q).
Proof.
  intros P G. destruct (Z_le_gt_dec (ilog2 q - 52) (- e)) as [L|L].
  - eapply gridQ_comp; [apply Qeq_sym, (rnd_pos_grid_small e); auto|auto].
  - apply (gridQ_finer (- (ilog2 q - 52))); [lia|].
    exists (rne (q / pow2 (ilog2 q - 52))). rewrite Z.opp_involutive. reflexivity.
Qed.

Lemma gridQ_opp e q : gridQ e q -> gridQ e (- q).
Proof. intros (k & E). exists (- k)%Z. rewrite E, inject_Z_opp. ring. Qed.
Lemma gridQ_add e a b : gridQ e a -> gridQ e b -> gridQ e (a + b).
Proof. intros (k & E) (l & F). exists (k + l)%Z. rewrite E, F, inject_Z_plus. ring. Qed.

Lemma rndQ_grid e q : gridQ e q -> gridQ e (rndQ q).
Proof.
  intros G. destruct (Q_dec q 0) as [[N|P]|Z].
  - rewrite rndQ_neg by auto. apply gridQ_opp, rnd_pos_grid; [lra|]. apply gridQ_opp; auto.
  - rewrite rndQ_pos by auto. apply rnd_pos_grid; auto.
  - rewrite rndQ_zero by auto. exists 0%Z. ring.
Qed.

Lemma ieeeQ_same q : gridQ 1074 q \/ pow2 (-1022) <= Qabs q -> ieeeQ q == rndQ q.
Proof.
  intros H. destruct (Q_dec q 0) as [[N|P]|Z].
  - rewrite ieeeQ_neg, rndQ_neg by auto. apply Qopp_comp. apply ieee_pos_same; [lra|].
    destruct H as [G|G]; [left; apply gridQ_opp; auto|right]. rewrite Qabs_neg in G by lra. exact G.
  - rewrite ieeeQ_pos, rndQ_pos by auto. apply ieee_pos_same; auto.
    destruct H as [G|G]; [left; auto|right]. rewrite Qabs_pos in G by lra. exact G.
  - rewrite ieeeQ_zero, rndQ_zero by auto. reflexivity.
Qed.

(** ** On [Qc] *)
Open Scope Qc_scope.

Lemma this_qabs y : (this (qabs y) == Qabs y)%Q.
Proof.
  unfold qabs. destruct (qleb 0 y) eqn:E.
  - apply qleb_le in E. unfold Qcle in E. rewrite Qabs_pos; [reflexivity|]. rewrite this_const in E. exact E.
  - apply qleb_nle in E. unfold Qclt in E. rewrite this_const in E. rewrite this_opp, Qabs_neg; [reflexivity|]. apply Qlt_le_weak, E.
Qed.

Lemma this_p2 e : (this (p2 e) == pow2 e)%Q.
Proof. apply this_const. Qed.
Lemma p2_pos e : 0 < p2 e.
Proof. unfold Qclt. rewrite this_p2. apply pow2_pos. Qed.
Lemma p2_mono a b : (a <= b)%Z -> p2 a <= p2 b.
Proof. intros H. unfold Qcle. rewrite !this_p2. apply pow2_mono; auto. Qed.
Lemma p2_plus a b : p2 (a + b) = p2 a * p2 b.
Proof. apply Qc_is_canon. rewrite this_mul, !this_p2. apply pow2_plus. Qed.
Lemma p2_qz e : (0 <= e)%Z -> p2 e = qz (2 ^ e).
Proof. intros H. apply Qc_is_canon. rewrite this_p2, this_qz. apply pow2_nonneg_Z; auto. Qed.

Lemma grid_opp e a : grid e a -> grid e (- a).
Proof. intros H. eapply gridQ_comp; [apply Qeq_sym, this_opp|]. apply gridQ_opp; auto. Qed.
Lemma grid_add e a b : grid e a -> grid e b -> grid e (a + b).
Proof. intros H G. eapply gridQ_comp; [apply Qeq_sym, this_add|]. apply gridQ_add; auto. Qed.
Lemma grid_sub e a b : grid e a -> grid e b -> grid e (a - b).
Proof. intros H G. unfold Qcminus. apply grid_add; auto. apply grid_opp; auto. Qed.
Lemma grid_abs e a : grid e a -> grid e (qabs a).
Proof. intros H. unfold qabs. destruct (qleb 0 a); auto. apply grid_opp; auto. Qed.
Lemma grid_min e a b : grid e a -> grid e b -> grid e (qmin a b).
Proof. intros H G. unfold qmin. destruct (qleb a b); auto. Qed.
Lemma grid_finer e f a : (e <= f)%Z -> grid e a -> grid f a.
Proof. apply gridQ_finer. Qed.
Lemma grid_qz e z : (0 <= e)%Z -> grid e (qz z).
Proof.
  intros H. exists (z * 2 ^ e)%Z. rewrite this_qz, inject_Z_mult, <- pow2_nonneg_Z by lia.
  rewrite <- Qmult_assoc, <- pow2_plus. replace (e + - e)%Z with 0%Z by lia. change (pow2 0) with 1%Q. ring.
Qed.
Lemma grid_rnd64 e a : grid e a -> grid e (rnd64 a).
Proof. intros H. unfold grid, rnd64. eapply gridQ_comp; [apply Qeq_sym, this_const|]. apply rndQ_grid; auto. Qed.

Lemma grid_lower e a : grid e a -> a <> 0 -> p2 (- e) <= qabs a.
Proof.
  intros (k & E) N. unfold Qcle. rewrite this_p2, this_qabs, E, Qabs_Qmult.
  assert (Hk : k <> 0%Z).
  { intros ->. apply N. apply Qc_is_canon. rewrite this_const, E. ring. }
  rewrite (Qabs_pos (pow2 (- e))) by (apply Qlt_le_weak, pow2_pos).
  change (Qabs (inject_Z k)) with (inject_Z (Z.abs k)).
  assert (1 <= inject_Z (Z.abs k))%Q. { change 1%Q with (inject_Z 1). rewrite <- Zle_Qle. lia. }
  pose proof (pow2_pos (- e)). rewrite <- (Qmult_1_l (pow2 (- e))) at 1. apply Qmult_le_r; auto.
Qed.

(** Where IEEE rounding is the rounding of Float64.v. *)
Lemma ieee64_rnd64 a : grid 1074 a \/ p2 (-1022) <= qabs a -> ieee64 a = rnd64 a.
Proof.
  intros H. apply Qc_is_canon. unfold ieee64, rnd64. rewrite !this_const. apply ieeeQ_same.
  destruct H as [H|H]; [left; exact H|right]. unfold Qcle in H. rewrite this_p2, this_qabs in H. exact H.
Qed.

Lemma double_grid a : double a -> grid 1074 a.
Proof.
  intros (m & e & _ & He & E). apply (gridQ_finer (- e)); [lia|]. exists m. rewrite Z.opp_involutive. exact E.
Qed.

(** ** Round to nearest, ties to even *)
Section Nearest.
Local Open Scope Q_scope.

(** [rne] is the nearest integer, and even when there are two. *)
Lemma rne_nearest q z : Qabs (inject_Z (rne q) - q) <= Qabs (inject_Z z - q).
Proof.
  pose proof (rne_err q) as B. apply Qabs_Qle_condition in B.
  destruct (Z.eq_dec z (rne q)) as [->|N]; [apply Qle_refl|].
  assert (inject_Z z + 1 <= inject_Z (rne q) \/ inject_Z (rne q) + 1 <= inject_Z z) as [H|H].
  { change 1 with (inject_Z 1). rewrite <- !inject_Z_plus, <- !Zle_Qle. lia. }
  - apply Qle_trans with (1 # 2); [apply Qabs_Qle_condition; lra|]. rewrite Qabs_neg; lra.
  - apply Qle_trans with (1 # 2); [apply Qabs_Qle_condition; lra|]. rewrite Qabs_pos; lra.
Qed.

Lemma rne_tie q z : z <> rne q -> Qabs (inject_Z (rne q) - q) == Qabs (inject_Z z - q) -> Z.even (rne q) = true.
Proof.
  intros N T. pose proof (rne_err q) as B. apply Qabs_Qle_condition in B.
  assert (D : Qabs (inject_Z (rne q) - q) == 1 # 2).
  { apply Qle_antisym; [apply Qabs_Qle_condition; lra|]. rewrite T.
    assert (inject_Z z + 1 <= inject_Z (rne q) \/ inject_Z (rne q) + 1 <= inject_Z z) as [H|H].
    { change 1 with (inject_Z 1). rewrite <- !inject_Z_plus, <- !Zle_Qle. lia. }
    - rewrite Qabs_neg; lra.
    - rewrite Qabs_pos; lra. }
  clear T N z B. revert D. unfold rne. set (f := Qfloor q).
  pose proof (Qfloor_le q) as F1. pose proof (Qlt_floor q) as F2. rewrite inject_Z_plus in F2. change (inject_Z 1) with 1 in F2. fold f in F1, F2.
  destruct (q - inject_Z f ?= 1 # 2) eqn:C.
  - destruct (Z.even f) eqn:V; auto. intros _. rewrite Z.even_add, V. reflexivity.
  - apply Qlt_alt in C. rewrite Qabs_neg by lra. intros D. exfalso. lra.
  - apply Qgt_alt in C. rewrite inject_Z_plus. change (inject_Z 1) with 1. rewrite Qabs_pos by lra. intros D. exfalso. lra.
Qed.

(** Numbers with 53 significant bits and last place at least [2^-1074]. *)
Definition bits53 (q : Q) : Prop := exists m e, (Z.abs m < 2 ^ 53)%Z /\ (-1074 <= e)%Z /\ q == inject_Z m * pow2 e.
(** The same with an even last digit of the longest expansion. *)
Definition even53 (q : Q) : Prop :=
  exists m e, (Z.abs m <= 2 ^ 53)%Z /\ (-1074 <= e)%Z /\ (e = -1074 \/ 2 ^ 52 <= Z.abs m)%Z /\ Z.even m = true /\ q == inject_Z m * pow2 e.

Lemma ieee_pos_unit q : 0 < q -> exists e, (-1074 <= e)%Z /\ ieee_pos q = inject_Z (rne (q / pow2 e)) * pow2 e /\
  (0 <= rne (q / pow2 e) <= 2 ^ 53)%Z /\ ((e = -1074)%Z \/ (2 ^ 52 <= rne (q / pow2 e))%Z /\ pow2 (e + 52) <= q).
Proof.
  intros P. exists (Z.max (ilog2 q - 52) (-1074)). split; [lia|]. split; [reflexivity|].
  destruct (scale_bounds q P) as [B1 B2]. pose proof (pow2_pos (ilog2 q - 52)) as P1.
  destruct (Z_le_gt_dec (-1074) (ilog2 q - 52)) as [L|L].
  - rewrite Z.max_l by lia. apply rne_mono in B1, B2. rewrite rne_int in B1, B2. split; [lia|]. right. split; [lia|].
    replace (ilog2 q - 52 + 52)%Z with (ilog2 q) by lia. apply ilog2_spec; auto.
  - rewrite Z.max_r by lia. split; [|left; auto].
    assert (G1 : 0 <= q / pow2 (-1074)). { apply Qle_shift_div_l; [apply pow2_pos|]. lra. }
    assert (G2 : q / pow2 (-1074) <= inject_Z (2 ^ 53)).
    { apply Qle_shift_div_r; [apply pow2_pos|]. rewrite <- pow2_nonneg_Z, <- pow2_plus by lia.
      destruct (ilog2_spec q P) as [_ U]. assert (pow2 (ilog2 q + 1) <= pow2 (53 + -1074)) by (apply pow2_mono; lia). lra. }
    apply rne_mono in G1, G2. change 0 with (inject_Z 0) in G1. rewrite rne_int in G1, G2. lia.
Qed.

Lemma Qabs_scale a v : 0 < v -> Qabs (a * v) == Qabs a * v.
Proof. intros P. rewrite Qabs_Qmult, (Qabs_pos v) by lra. reflexivity. Qed.

Lemma ieee_pos_nearest q d : 0 < q -> bits53 d ->
  Qabs (ieee_pos q - q) <= Qabs (d - q) /\ (~ d == ieee_pos q -> Qabs (ieee_pos q - q) == Qabs (d - q) -> even53 (ieee_pos q)).
Proof.
  intros P (m & f & Hm & Hf & Ed). destruct (ieee_pos_unit q P) as (e & He & Er & B & K). rewrite Er.
  set (t := q / pow2 e) in *. pose proof (pow2_pos e) as Pe. pose proof (pow2_nz e) as Ne.
  assert (Eq : q == t * pow2 e) by (unfold t; field; auto).
  set (r := rne t) in *.
  assert (Ev : Z.even r = true -> even53 (inject_Z r * pow2 e)).
  { intros V. exists r, e. split; [lia|]. split; [lia|]. split; [|split; [auto|reflexivity]].
    destruct K as [->|[K _]]; [left; auto|right; lia]. }
  assert (S : forall z, Qabs (inject_Z z * pow2 e - q) == Qabs (inject_Z z - t) * pow2 e).
  { intros z. rewrite <- Qabs_scale by auto. apply Qabs_wd. rewrite Eq. ring. }
  rewrite S.
  assert (on_grid : forall z, d == inject_Z z * pow2 e ->
    Qabs (inject_Z r - t) * pow2 e <= Qabs (d - q) /\
    (~ d == inject_Z r * pow2 e -> Qabs (inject_Z r - t) * pow2 e == Qabs (d - q) -> even53 (inject_Z r * pow2 e))).
  { intros z Ez. assert (X : Qabs (d - q) == Qabs (inject_Z z - t) * pow2 e) by (rewrite Ez; apply S). rewrite X. split.
    - apply Qmult_le_r; auto. apply rne_nearest.
    - intros N T. apply Ev. apply (rne_tie t z).
      + intros ->. apply N. rewrite Ez. reflexivity.
      + apply (Qmult_inj_r _ _ _ Ne). exact T. }
  destruct (Z_le_gt_dec e f) as [L|L].
  - apply (on_grid (m * 2 ^ (f - e))%Z). rewrite Ed, inject_Z_mult, <- pow2_nonneg_Z by lia.
    rewrite <- Qmult_assoc, <- pow2_plus. replace (f - e + e)%Z with f by lia. reflexivity.
  - destruct K as [K|[K1 K2]]; [lia|].
    (* [d] is below the power of two below [q] *)
    assert (Dq : d < pow2 (e + 52)).
    { rewrite Ed. apply Qlt_le_trans with (inject_Z (2 ^ 53) * pow2 f).
      - apply Qmult_lt_r; [apply pow2_pos|]. rewrite <- Zlt_Qlt. lia.
      - rewrite <- pow2_nonneg_Z, <- pow2_plus by lia. apply pow2_mono. lia. }
    assert (N2 : Qabs (inject_Z r - t) * pow2 e <= Qabs (pow2 (e + 52) - q)).
    { assert (X : pow2 (e + 52) == inject_Z (2 ^ 52) * pow2 e) by (rewrite <- pow2_nonneg_Z, <- pow2_plus by lia; apply pow2_comp; lia).
      rewrite X, S. apply Qmult_le_r; auto. apply rne_nearest. }
    rewrite (Qabs_neg (pow2 (e + 52) - q)) in N2 by lra. rewrite (Qabs_neg (d - q)) by lra. split; [lra|].
    intros _ T. exfalso. lra.
Qed.
End Nearest.

Lemma bits53_opp q : bits53 q -> bits53 (- q)%Q.
Proof. intros (m & e & H & He & E). exists (- m)%Z, e. rewrite E, inject_Z_opp. split; [lia|]. split; [auto|ring]. Qed.
Lemma even53_opp q : even53 q -> even53 (- q)%Q.
Proof.
  intros (m & e & H & He & H2 & V & E). exists (- m)%Z, e. rewrite E, inject_Z_opp, Z.even_opp, Z.abs_opp. repeat split; auto. ring.
Qed.
Lemma bits53_comp a b : (a == b)%Q -> bits53 a -> bits53 b.
Proof. intros E (m & e & H & He & F). exists m, e. rewrite <- E. auto. Qed.
Lemma even53_comp a b : (a == b)%Q -> even53 a -> even53 b.
Proof. intros E (m & e & H & He & H2 & V & F). exists m, e. rewrite <- E. auto 6. Qed.

Lemma ieee_pos_bits q : (0 < q)%Q -> bits53 (ieee_pos q).
Proof.
  intros P. destruct (ieee_pos_unit q P) as (e & He & -> & B & _).
  destruct (Z.eq_dec (rne (q / pow2 e)) (2 ^ 53)) as [E|N].
  - rewrite E. exists (2 ^ 52)%Z, (e + 1)%Z. split; [reflexivity|]. split; [lia|]. rewrite pow2_S.
    change (inject_Z (2 ^ 53)) with (inject_Z (2 ^ 52 * 2)). rewrite inject_Z_mult. ring.
  - exists (rne (q / pow2 e)), e. split; [lia|]. split; [lia|reflexivity].
Qed.

(** [ieee64] is rounding to the nearest number with 53 significant bits and
    last place at least [2^-1074], the even one when there are two. *)
Theorem ieee64_nearest q : bits53 (ieee64 q) /\
  forall d, bits53 d -> qabs (ieee64 q - q) <= qabs (Q2Qc d - q) /\
    (Q2Qc d <> ieee64 q -> qabs (ieee64 q - q) = qabs (Q2Qc d - q) -> even53 (ieee64 q)).
Proof.
  assert (main : bits53 (ieeeQ q) /\ forall d, bits53 d -> (Qabs (ieeeQ q - q) <= Qabs (d - q))%Q /\
    (~ (d == ieeeQ q)%Q -> (Qabs (ieeeQ q - q) == Qabs (d - q))%Q -> even53 (ieeeQ q))).
  { destruct (Q_dec q 0) as [[N|P]|Z].
    - rewrite ieeeQ_neg by auto. assert (P : (0 < - q)%Q) by lra. split; [apply bits53_opp, ieee_pos_bits; auto|].
      intros d Hd. apply bits53_opp in Hd. destruct (ieee_pos_nearest (- q) (- d)%Q P Hd) as [A B].
      assert (E1 : (Qabs (- ieee_pos (- q) - q) == Qabs (ieee_pos (- q) - - q))%Q).
      { rewrite <- Qabs_opp. apply Qabs_wd. ring. }
      assert (E2 : (Qabs (d - q) == Qabs (- d - - q))%Q).
      { rewrite <- Qabs_opp. apply Qabs_wd. ring. }
      rewrite E1, E2. split; auto. intros X Y. apply even53_opp, B; auto. intros F. apply X. rewrite <- F. ring.
    - rewrite ieeeQ_pos by auto. split; [apply ieee_pos_bits; auto|]. intros d Hd. apply ieee_pos_nearest; auto.
    - rewrite ieeeQ_zero by auto. split; [exists 0%Z, 0%Z; split; [reflexivity|split; [lia|ring]]|].
      intros d Hd. rewrite Z. split.
      + setoid_replace (0 - 0)%Q with 0%Q by ring. apply Qabs_nonneg.
      + intros _ _. exists 0%Z, (-1074)%Z. split; [cbn; lia|]. split; [lia|]. split; [left; auto|]. split; [auto|ring]. }
  destruct main as [A B]. split.
  - eapply bits53_comp; [apply Qeq_sym, this_const|exact A].
  - intros d Hd. destruct (B d Hd) as [B1 B2]. unfold ieee64.
    assert (E1 : (this (qabs (Q2Qc (ieeeQ q) - q)) == Qabs (ieeeQ q - q))%Q).
    { rewrite this_qabs, this_sub, this_const. reflexivity. }
    assert (E2 : (this (qabs (Q2Qc d - q)) == Qabs (d - q))%Q).
    { rewrite this_qabs, this_sub, this_const. reflexivity. }
    split.
    + unfold Qcle. rewrite E1, E2. exact B1.
    + intros X Y. eapply even53_comp; [apply Qeq_sym, this_const|]. apply B2.
      * intros F. apply X. apply Qc_is_canon. rewrite !this_const. exact F.
      * rewrite <- E1, <- E2, Y. reflexivity.
Qed.

(** ** The earth mover's distance *)

Lemma rnd64_le_2 q : qabs (rnd64 q) <= qabs q + qabs q.
Proof.
  pose proof (rnd64_accurate q) as A.
  assert (u64 * qabs q <= qabs q).
  { rewrite <- (Qcmult_1_l (qabs q)) at 2. apply Qcmult_le_compat_r; [|apply qabs_nonneg]. vm_compute. discriminate. }
  clear - A H. qclra.
Qed.

(** Values for which nothing overflows: at most [2^1000]. *)
Definition moderate (q : Qc) : Prop := grid 1074 q /\ qabs q <= p2 1000.

Section Double.
Variable rnd : Qc -> Qc.
Hypothesis D : double_rounding rnd.

Lemma double_same q : grid 1074 q \/ p2 (-1022) <= qabs q -> qabs q < p2 1023 -> rnd q = rnd64 q.
Proof. intros H B. rewrite D by auto. apply ieee64_rnd64; auto. Qed.

Lemma p2_gap a b : (a < b)%Z -> p2 a + p2 a <= p2 b.
Proof.
  intros H. replace (p2 a + p2 a) with (p2 (1 + a)).
  - apply p2_mono. lia.
  - rewrite p2_plus. change (p2 1) with (1 + 1). ring.
Qed.

Lemma qn_small_p2 n : small n -> qn n <= p2 53.
Proof. intros H. rewrite p2_qz by lia. apply (proj1 (qz_le _ _)). exact H. Qed.

Lemma qmin3_grid e a b c : grid e a -> grid e b -> grid e c -> grid e (qmin3 a b c).
Proof. intros. unfold qmin3. apply grid_min; auto. apply grid_min; auto. Qed.

Lemma edp_grid e xs ys : (0 <= e)%Z -> Forall (grid e) xs -> Forall (grid e) ys -> grid e (edp rnd64 xs ys).
Proof.
  intros He Fx Fy. assert (G1 : grid e 1) by (change 1 with (qz 1); apply grid_qz; auto).
  revert ys Fy. induction Fx as [|a xs Ha Fx IHx]; intros ys Fy.
  - rewrite edp_nil_l. apply grid_qz. auto.
  - induction Fy as [|b ys Hb Fy IHy].
    + rewrite edp_nil_r. apply grid_qz. auto.
    + rewrite edp_cons. apply qmin3_grid; apply grid_rnd64; apply grid_add; auto.
      apply grid_abs, grid_rnd64, grid_sub; auto.
Qed.

Lemma moderate_grid xs : Forall moderate xs -> Forall (grid 1074) xs.
Proof. apply Forall_impl. intros a [H _]. exact H. Qed.

Lemma edp_double xs ys : small (length xs + length ys) -> Forall moderate xs -> Forall moderate ys ->
  edp rnd xs ys = edp rnd64 xs ys.
Proof.
  intros S Fx Fy. revert ys S Fy. induction xs as [|a xs IHx]; intros ys S Fy; [reflexivity|].
  pose proof (Forall_inv Fx) as [Ga Ma]. pose proof (Forall_inv_tail Fx) as Fx'. specialize (IHx Fx').
  induction ys as [|b ys IHy]; [reflexivity|].
  pose proof (Forall_inv Fy) as [Gb Mb]. pose proof (Forall_inv_tail Fy) as Fy'. rewrite !edp_cons.
  assert (S1 : small (length xs + length ys)) by (unfold small in *; cbn [length] in *; lia).
  assert (S2 : small (length xs + length (b :: ys))) by (unfold small in *; cbn [length] in *; lia).
  assert (S3 : small (length (a :: xs) + length ys)) by (unfold small in *; cbn [length] in *; lia).
  rewrite (IHx ys), (IHx (b :: ys)), IHy by auto. clear IHx IHy.
  assert (G : forall us vs, Forall moderate us -> Forall moderate vs -> grid 1074 (edp rnd64 us vs)).
  { intros us vs Fu Fv. apply edp_grid; [lia| |]; apply moderate_grid; auto. }
  pose proof (G xs ys Fx' Fy') as G1. pose proof (G xs (b :: ys) Fx' Fy) as G2. pose proof (G (a :: xs) ys Fx Fy') as G3. clear G.
  assert (B : forall us vs, small (length us + length vs) -> 0 <= edp rnd64 us vs /\ edp rnd64 us vs <= p2 53).
  { intros us vs Sm. split; [apply (edp_nonneg _ rnd64_lawful)|].
    eapply Qcle_trans; [apply (edp_upper _ rnd64_lawful); auto|]. apply qn_small_p2; auto. }
  pose proof (B _ _ S1) as [P1 U1]. pose proof (B _ _ S2) as [P2 U2]. pose proof (B _ _ S3) as [P3 U3].
  pose proof (p2_gap 1000 1001 ltac:(lia)) as Q1. pose proof (p2_gap 1001 1002 ltac:(lia)) as Q2.
  pose proof (p2_gap 53 1002 ltac:(lia)) as Q3. pose proof (p2_gap 1002 1003 ltac:(lia)) as Q4. pose proof (p2_mono 1003 1023 ltac:(lia)) as Q5.
  pose proof (p2_pos 53) as Q6. assert (Q7 : 1 <= p2 53) by (vm_compute; discriminate). pose proof (p2_pos 1002) as Q8.
  assert (E0 : rnd (a - b) = rnd64 (a - b)).
  { apply double_same; [left; apply grid_sub; auto|]. clear - Ma Mb Q1 Q2 Q4 Q5 Q8. qclra. }
  rewrite E0. pose proof (rnd64_le_2 (a - b)) as R.
  assert (Z1 : grid 1074 1) by (change 1 with (qz 1); apply grid_qz; lia).
  rewrite !double_same; auto.
  - left. apply grid_add; auto.
  - clear - P3 U3 Q3 Q4 Q5 Q6 Q7 Q8. qclra.
  - left. apply grid_add; auto.
  - clear - P2 U2 Q3 Q4 Q5 Q6 Q7 Q8. qclra.
  - left. apply grid_add; auto. apply grid_abs, grid_rnd64, grid_sub; auto.
  - assert (qabs (a - b) <= p2 1001) as R1 by (clear - Ma Mb Q1; qclra).
    set (t := rnd64 (a - b)) in *. assert (qabs t <= p2 1002) as R2 by (clear - R R1 Q2; qclra).
    pose proof (qabs_nonneg t). clear - H R2 P1 U1 Q3 Q4 Q5 Q6 Q7 Q8. qclra.
Qed.

Lemma Forall_perm {A} (P : A -> Prop) l l' : Permutation l l' -> Forall P l -> Forall P l'.
Proof. intros H F. apply Forall_forall. intros x Hx. apply (proj1 (Forall_forall _ _) F). apply Permutation_sym in H. eapply Permutation_in; eauto. Qed.

(** nmd/emd_1d.py:6-60 computes with doubles what it computes with an
    unbounded exponent. *)
Theorem emd_1d_dp_double xs ys : small (length xs + length ys) -> Forall moderate xs -> Forall moderate ys ->
  emd_1d_dp rnd xs ys = emd_1d_dp rnd64 xs ys.
Proof.
  intros S Fx Fy. rewrite !emd_1d_dp_edp_swapped. f_equal.
  assert (Px : Permutation xs (rev (qsort xs))) by (rewrite <- Permutation_rev; symmetry; apply qsort_perm).
  assert (Py : Permutation ys (rev (qsort ys))) by (rewrite <- Permutation_rev; symmetry; apply qsort_perm).
  assert (length (rev (qsort xs)) = length xs) by (rewrite rev_length, qsort_length; auto).
  assert (length (rev (qsort ys)) = length ys) by (rewrite rev_length, qsort_length; auto).
  destruct (_ <? _)%nat; apply edp_double; try (eapply Forall_perm; eassumption); unfold small in *; lia.
Qed.

Lemma emd_1d_dp_grid e xs ys d : (0 <= e)%Z -> Forall (grid e) xs -> Forall (grid e) ys ->
  emd_1d_dp rnd64 xs ys = Ok d -> grid e d.
Proof.
  intros He Fx Fy H. rewrite emd_1d_dp_edp in H by apply (rnd_odd _ rnd64_lawful).
  assert (d = edp rnd64 (rev (qsort xs)) (rev (qsort ys))) as -> by congruence.
  assert (Px : Permutation xs (rev (qsort xs))) by (rewrite <- Permutation_rev; symmetry; apply qsort_perm).
  assert (Py : Permutation ys (rev (qsort ys))) by (rewrite <- Permutation_rev; symmetry; apply qsort_perm).
  apply edp_grid; auto; eapply Forall_perm; eauto.
Qed.

End Double.

Lemma rnd_pos_coarse e q : (pow2 (- e) <= q)%Q -> gridQ (e + 52) (rnd_pos q).
Proof.
  intros H. assert (P : (0 < q)%Q) by (pose proof (pow2_pos (- e)); lra).
  destruct (ilog2_spec q P) as [_ U].
  assert (L : (- e < ilog2 q + 1)%Z) by (apply pow2_lt_inv; lra).
  apply (gridQ_finer (- (ilog2 q - 52))); [lia|].
  exists (rne (q / pow2 (ilog2 q - 52))). rewrite Z.opp_involutive. reflexivity.
Qed.

(** A number of at least [2^-e] is rounded to a multiple of [2^-(e+52)]. *)
Lemma rnd64_coarse e q : p2 (- e) <= q -> grid (e + 52) (rnd64 q).
Proof.
  intros H. unfold grid, rnd64. eapply gridQ_comp; [apply Qeq_sym, this_const|].
  unfold Qcle in H. rewrite this_p2 in H. rewrite rndQ_pos by (pose proof (pow2_pos (- e)); lra). apply rnd_pos_coarse; auto.
Qed.
