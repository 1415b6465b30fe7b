(** Rounding of rationals to 53 significant bits, ties to even: the rounding
    performed by Python's [float] arithmetic (IEEE binary64).  The exponent
    range is unbounded: overflow to inf is not modelled, underflow is in Ieee.v.

    [lawful] collects the only facts the theorems use; [rnd64_lawful] shows
    that this rounding has them. *)
From Coq Require Import ZArith QArith Qcanon Qabs Qround Qpower List Lia Lqa.
From Verif Require Import Num.

Record lawful (rnd : Qc -> Qc) : Prop := {
  rnd_mono : forall a b, (a <= b)%Qc -> (rnd a <= rnd b)%Qc;
  rnd_odd : forall a, rnd (- a)%Qc = (- rnd a)%Qc;
  rnd_int : forall z, (Z.abs z <= 2 ^ 53)%Z -> rnd (qz z) = qz z;
  rnd_zero : forall a, rnd a = Q2Qc 0 -> a = Q2Qc 0;
}.

Lemma lawful_exact : lawful (fun q => q).
Proof. split; auto. Qed.

Open Scope Q_scope.

Definition pow2 (e : Z) : Q := Qpower 2 e.

(** The [e] with [2^e <= |q| < 2^(e+1)] (for [q] non-zero). *)
Definition ilog2 (q : Q) : Z :=
  let e := (Z.log2 (Z.abs (Qnum q)) - Z.log2 (Z.pos (Qden q)))%Z in
  if Qle_bool (pow2 e) (Qabs q) then e else (e - 1)%Z.

(** Nearest integer, ties to even. *)
Definition rne (q : Q) : Z :=
  let f := Qfloor q in
  match Qcompare (q - inject_Z f) (1 # 2) with
  | Lt => f
  | Gt => (f + 1)%Z
  | Eq => if Z.even f then f else (f + 1)%Z
  end.

(** Nearest multiple of the unit in the last place. *)
Definition rnd_pos (q : Q) : Q :=
  let u := pow2 (ilog2 q - 52) in inject_Z (rne (q / u)) * u.

Definition rndQ (q : Q) : Q :=
  match Qcompare q 0 with
  | Eq => 0
  | Gt => rnd_pos q
  | Lt => - rnd_pos (- q)
  end.

Definition rnd64 (q : Qc) : Qc := Q2Qc (rndQ q).

(** ** Powers of two *)

Lemma pow2_pos e : 0 < pow2 e.
Proof. apply Qpower_0_lt. reflexivity. Qed.
Lemma pow2_nz e : ~ pow2 e == 0.
Proof. pose proof (pow2_pos e). lra. Qed.
Lemma pow2_plus a b : pow2 (a + b) == pow2 a * pow2 b.
Proof. apply Qpower_plus. discriminate. Qed.
Lemma pow2_1 : pow2 1 == 2.
Proof. reflexivity. Qed.
Lemma pow2_S e : pow2 (e + 1) == 2 * pow2 e.
Proof. rewrite pow2_plus, pow2_1. ring. Qed.
Lemma pow2_nonneg_Z e : (0 <= e)%Z -> pow2 e == inject_Z (2 ^ e).
Proof. intros H. unfold pow2. change 2 with (inject_Z 2). rewrite <- Zpower_Qpower by auto. reflexivity. Qed.

Lemma pow2_nat_ge1 n : 1 <= pow2 (Z.of_nat n).
Proof.
  rewrite pow2_nonneg_Z by lia. change 1 with (inject_Z 1). rewrite <- Zle_Qle.
  pose proof (Z.pow_pos_nonneg 2 (Z.of_nat n)). lia.
Qed.

Lemma pow2_mono a b : (a <= b)%Z -> pow2 a <= pow2 b.
Proof.
  intros H. replace b with (a + Z.of_nat (Z.to_nat (b - a)))%Z by lia.
  rewrite pow2_plus. pose proof (pow2_nat_ge1 (Z.to_nat (b - a))). pose proof (pow2_pos a).
  rewrite <- (Qmult_1_r (pow2 a)) at 1. apply Qmult_le_l; auto.
Qed.

Lemma pow2_lt_inv a b : pow2 a < pow2 b -> (a < b)%Z.
Proof.
  intros H. destruct (Z_lt_le_dec a b) as [|L]; auto. apply pow2_mono in L. lra.
Qed.

#[global] Instance pow2_comp : Proper (eq ==> Qeq) pow2.
Proof. intros a b ->. reflexivity. Qed.

(** ** [ilog2] *)

Lemma ilog2_spec q : 0 < q -> pow2 (ilog2 q) <= q /\ q < pow2 (ilog2 q + 1).
Proof.
  intros Hq. unfold ilog2. rewrite (Qabs_pos q) by lra.
  destruct q as [n d]. cbn [Qnum Qden].
  assert (Hn : (0 < n)%Z). { unfold Qlt in Hq; simpl in Hq. lia. }
  rewrite Z.abs_eq by lia.
  set (ln := Z.log2 n). set (ld := Z.log2 (Z.pos d)).
  assert (Hd : (0 < Z.pos d)%Z) by lia.
  destruct (Z.log2_spec n Hn) as [Ln1 Ln2]. destruct (Z.log2_spec (Z.pos d) Hd) as [Ld1 Ld2].
  fold ln in Ln1, Ln2. fold ld in Ld1, Ld2.
  pose proof (Z.log2_nonneg n) as Pn. pose proof (Z.log2_nonneg (Z.pos d)) as Pd. fold ln in Pn. fold ld in Pd.
  (* n = q * d *)
  assert (Eq : inject_Z n == (n # d) * inject_Z (Z.pos d)).
  { unfold Qeq. simpl. rewrite Pos.mul_1_r. ring. }
  assert (A1 : pow2 ln <= inject_Z n). { rewrite pow2_nonneg_Z by lia. rewrite <- Zle_Qle. lia. }
  assert (A2 : inject_Z n < pow2 (ln + 1)). { rewrite pow2_nonneg_Z by lia. rewrite <- Zlt_Qlt. lia. }
  assert (B1 : pow2 ld <= inject_Z (Z.pos d)). { rewrite pow2_nonneg_Z by lia. rewrite <- Zle_Qle. lia. }
  assert (B2 : inject_Z (Z.pos d) < pow2 (ld + 1)). { rewrite pow2_nonneg_Z by lia. rewrite <- Zlt_Qlt. lia. }
  rewrite Eq in A1, A2. set (q := n # d) in *. set (D := inject_Z (Z.pos d)) in *.
  assert (HD : 0 < D) by (pose proof (pow2_pos ld); lra).
  assert (U : q < pow2 (ln - ld + 1)).
  { apply (Qmult_lt_r _ _ D); auto. eapply Qlt_le_trans; [exact A2|].
    replace (ln + 1)%Z with ((ln - ld + 1) + ld)%Z by lia. rewrite pow2_plus.
    apply Qmult_le_l; auto. apply pow2_pos. }
  assert (L : pow2 (ln - ld - 1) < q).
  { apply (Qmult_lt_r _ _ D); auto. eapply Qlt_le_trans; [|exact A1].
    replace ln with ((ln - ld - 1) + (ld + 1))%Z at 2 by lia. rewrite (pow2_plus (ln - ld - 1)).
    apply Qmult_lt_l; auto. apply pow2_pos. }
  destruct (Qle_bool (pow2 (ln - ld)) q) eqn:E.
  - apply Qle_bool_iff in E. split; auto.
  - split; [lra|]. replace (ln - ld - 1 + 1)%Z with (ln - ld)%Z by lia.
    apply Qnot_le_lt. intros H. apply Qle_bool_iff in H. congruence.
Qed.

Lemma ilog2_mono a b : 0 < a -> a <= b -> (ilog2 a <= ilog2 b)%Z.
Proof.
  intros Ha Hab. destruct (ilog2_spec a Ha) as [A1 A2]. destruct (ilog2_spec b) as [B1 B2]; [lra|].
  assert (pow2 (ilog2 a) < pow2 (ilog2 b + 1)) by lra. apply pow2_lt_inv in H. lia.
Qed.

Lemma ilog2_comp a b : 0 < a -> a == b -> ilog2 a = ilog2 b.
Proof.
  intros Ha E. apply Z.le_antisymm; apply ilog2_mono; lra.
Qed.

(** ** [rne] *)

Lemma rne_comp a b : a == b -> rne a = rne b.
Proof.
  intros E. unfold rne. rewrite (Qfloor_comp _ _ E).
  rewrite E. reflexivity.
Qed.

Lemma rne_err q : Qabs (q - inject_Z (rne q)) <= 1 # 2.
Proof.
  unfold rne. pose proof (Qfloor_le q). pose proof (Qlt_floor q).
  rewrite inject_Z_plus in H0. change (inject_Z 1) with 1 in H0.
  apply Qabs_Qle_condition.
  destruct (Qcompare (q - inject_Z (Qfloor q)) (1 # 2)) eqn:E.
  - apply Qeq_alt in E. destruct (Z.even _); rewrite ?inject_Z_plus; change (inject_Z 1) with 1; lra.
  - apply Qlt_alt in E. lra.
  - apply Qgt_alt in E. rewrite ?inject_Z_plus; change (inject_Z 1) with 1; lra.
Qed.

Lemma rne_mono a b : a <= b -> (rne a <= rne b)%Z.
Proof.
  intros H. destruct (Z_le_gt_dec (rne a) (rne b)) as [|G]; auto. exfalso.
  pose proof (rne_err a) as A. pose proof (rne_err b) as B.
  apply Qabs_Qle_condition in A, B.
  assert (I : inject_Z (rne b) + 1 <= inject_Z (rne a)).
  { change 1 with (inject_Z 1). rewrite <- inject_Z_plus, <- Zle_Qle. lia. }
  assert (a == b) by lra. apply rne_comp in H0. lia.
Qed.

Lemma rne_int z : rne (inject_Z z) = z.
Proof.
  pose proof (rne_err (inject_Z z)) as A. apply Qabs_Qle_condition in A.
  set (r := rne (inject_Z z)) in *.
  assert (inject_Z r < inject_Z (z + 1)) as H1 by (rewrite inject_Z_plus; change (inject_Z 1) with 1; lra).
  assert (inject_Z z < inject_Z (r + 1)) as H2 by (rewrite inject_Z_plus; change (inject_Z 1) with 1; lra).
  rewrite <- Zlt_Qlt in H1, H2. lia.
Qed.

(** ** Rounding of positive numbers *)

Lemma rnd_pos_comp a b : 0 < a -> a == b -> rnd_pos a == rnd_pos b.
Proof.
  intros Ha E. unfold rnd_pos. rewrite (ilog2_comp a b Ha E).
  rewrite (rne_comp (a / pow2 (ilog2 b - 52)) (b / pow2 (ilog2 b - 52))); [reflexivity|].
  rewrite E. reflexivity.
Qed.

Lemma scale_bounds q : 0 < q ->
  inject_Z (2 ^ 52) <= q / pow2 (ilog2 q - 52) /\ q / pow2 (ilog2 q - 52) <= inject_Z (2 ^ 53).
Proof.
  intros Hq. destruct (ilog2_spec q Hq) as [A1 A2].
  pose proof (pow2_pos (ilog2 q - 52)) as P.
  split.
  - apply Qle_shift_div_l; auto. rewrite <- (pow2_nonneg_Z 52) by lia. rewrite <- pow2_plus.
    replace (52 + (ilog2 q - 52))%Z with (ilog2 q) by lia. exact A1.
  - apply Qle_shift_div_r; auto. rewrite <- (pow2_nonneg_Z 53) by lia. rewrite <- pow2_plus.
    replace (53 + (ilog2 q - 52))%Z with (ilog2 q + 1)%Z by lia. lra.
Qed.

Lemma rnd_pos_bounds q : 0 < q -> pow2 (ilog2 q) <= rnd_pos q /\ rnd_pos q <= pow2 (ilog2 q + 1).
Proof.
  intros Hq. destruct (scale_bounds q Hq) as [B1 B2]. unfold rnd_pos.
  set (u := pow2 (ilog2 q - 52)) in *. pose proof (pow2_pos (ilog2 q - 52)) as P. fold u in P.
  apply rne_mono in B1, B2. rewrite rne_int in B1, B2.
  rewrite Zle_Qle in B1, B2. split.
  - replace (ilog2 q) with (52 + (ilog2 q - 52))%Z at 1 by lia. rewrite pow2_plus. fold u.
    rewrite (pow2_nonneg_Z 52) by lia. apply Qmult_le_r; auto.
  - replace (ilog2 q + 1)%Z with (53 + (ilog2 q - 52))%Z at 1 by lia. rewrite pow2_plus. fold u.
    rewrite (pow2_nonneg_Z 53) by lia. apply Qmult_le_r; auto.
Qed.

Lemma rnd_pos_pos q : 0 < q -> 0 < rnd_pos q.
Proof. intros H. destruct (rnd_pos_bounds q H). pose proof (pow2_pos (ilog2 q)). lra. Qed.

Lemma rnd_pos_mono a b : 0 < a -> a <= b -> rnd_pos a <= rnd_pos b.
Proof.
  intros Ha Hab. assert (Hb : 0 < b) by lra.
  destruct (Z.eq_dec (ilog2 a) (ilog2 b)) as [E|N].
  - unfold rnd_pos. rewrite E. pose proof (pow2_pos (ilog2 b - 52)) as P.
    apply Qmult_le_r; auto. rewrite <- Zle_Qle. apply rne_mono.
    apply Qle_shift_div_l; auto. rewrite Qmult_comm, Qmult_div_r; [auto|lra].
  - pose proof (ilog2_mono a b Ha Hab).
    destruct (rnd_pos_bounds a Ha) as [_ A]. destruct (rnd_pos_bounds b Hb) as [B _].
    assert (pow2 (ilog2 a + 1) <= pow2 (ilog2 b)) by (apply pow2_mono; lia). lra.
Qed.

Lemma rnd_pos_int z : (0 < z <= 2 ^ 53)%Z -> rnd_pos (inject_Z z) == inject_Z z.
Proof.
  intros [Hz Hz2]. assert (Q0 : 0 < inject_Z z). { change 0 with (inject_Z 0). rewrite <- Zlt_Qlt. auto. }
  destruct (ilog2_spec _ Q0) as [A1 A2].
  assert (exact : forall k, inject_Z z / pow2 (ilog2 (inject_Z z) - 52) == inject_Z k -> rnd_pos (inject_Z z) == inject_Z z).
  { intros k Hk. unfold rnd_pos. rewrite (rne_comp _ _ Hk), rne_int, <- Hk.
    rewrite Qmult_comm, Qmult_div_r; [reflexivity|apply pow2_nz]. }
  destruct (Z.eq_dec z (2 ^ 53)) as [->|N].
  - apply (exact (2 ^ 52)%Z). vm_compute. reflexivity.
  - assert (Lt : (ilog2 (inject_Z z) < 53)%Z).
    { apply pow2_lt_inv. eapply Qle_lt_trans; [exact A1|]. rewrite (pow2_nonneg_Z 53) by lia.
      rewrite <- Zlt_Qlt. lia. }
    apply (exact (z * 2 ^ (52 - ilog2 (inject_Z z)))%Z).
    rewrite inject_Z_mult, <- pow2_nonneg_Z by lia.
    apply Qeq_sym. rewrite <- (Qdiv_mult_l (inject_Z z * pow2 (52 - ilog2 (inject_Z z))) (pow2 (ilog2 (inject_Z z) - 52))) by apply pow2_nz.
    apply Qmult_comp; [|reflexivity]. rewrite <- Qmult_assoc, <- pow2_plus.
    replace (52 - ilog2 (inject_Z z) + (ilog2 (inject_Z z) - 52))%Z with 0%Z by lia.
    change (pow2 0) with 1. ring.
Qed.

(** ** Rounding of all numbers *)

Lemma rndQ_neg q : q < 0 -> rndQ q = - rnd_pos (- q).
Proof.
  intros H. unfold rndQ. destruct (q ?= 0) eqn:E; [apply Qeq_alt in E|apply Qlt_alt in E|apply Qgt_alt in E]; reflexivity || (exfalso; lra).
Qed.
Lemma rndQ_pos q : 0 < q -> rndQ q = rnd_pos q.
Proof.
  intros H. unfold rndQ. destruct (q ?= 0) eqn:E; [apply Qeq_alt in E|apply Qlt_alt in E|apply Qgt_alt in E]; reflexivity || (exfalso; lra).
Qed.
Lemma rndQ_zero q : q == 0 -> rndQ q = 0.
Proof.
  intros H. unfold rndQ. destruct (q ?= 0) eqn:E; [apply Qeq_alt in E|apply Qlt_alt in E|apply Qgt_alt in E]; reflexivity || (exfalso; lra).
Qed.

Lemma rndQ_mono a b : a <= b -> rndQ a <= rndQ b.
Proof.
  intros H. destruct (Q_dec a 0) as [[Na|Pa]|Za]; destruct (Q_dec b 0) as [[Nb|Pb]|Zb];
    rewrite ?(rndQ_neg a), ?(rndQ_neg b), ?(rndQ_pos a), ?(rndQ_pos b), ?(rndQ_zero a), ?(rndQ_zero b) by auto; try lra.
  - assert (rnd_pos (- b) <= rnd_pos (- a)) by (apply rnd_pos_mono; lra). lra.
  - pose proof (rnd_pos_pos (- a)). pose proof (rnd_pos_pos b). lra.
  - pose proof (rnd_pos_pos (- a)). lra.
  - apply rnd_pos_mono; auto.
  - pose proof (rnd_pos_pos b). lra.
Qed.

Lemma rndQ_comp a b : a == b -> rndQ a == rndQ b.
Proof. intros E. apply Qle_antisym; apply rndQ_mono; rewrite E; apply Qle_refl. Qed.

Lemma rndQ_odd a : rndQ (- a) == - rndQ a.
Proof.
  destruct (Q_dec a 0) as [[Na|Pa]|Za].
  - rewrite (rndQ_neg a), (rndQ_pos (- a)) by lra. ring.
  - rewrite (rndQ_pos a), (rndQ_neg (- a)) by lra. apply Qopp_comp.
    apply rnd_pos_comp; [lra|ring].
  - rewrite !rndQ_zero by lra. reflexivity.
Qed.

Lemma rndQ_int z : (Z.abs z <= 2 ^ 53)%Z -> rndQ (inject_Z z) == inject_Z z.
Proof.
  intros H. destruct (Z.lt_trichotomy z 0) as [N|[->|P]].
  - assert (inject_Z z < 0). { change 0 with (inject_Z 0). rewrite <- Zlt_Qlt. auto. }
    rewrite rndQ_neg by auto. rewrite <- inject_Z_opp. rewrite rnd_pos_int by lia.
    rewrite inject_Z_opp. ring.
  - rewrite rndQ_zero; reflexivity.
  - assert (0 < inject_Z z). { change 0 with (inject_Z 0). rewrite <- Zlt_Qlt. auto. }
    rewrite rndQ_pos by auto. apply rnd_pos_int. lia.
Qed.

Lemma rndQ_eq_zero a : rndQ a == 0 -> a == 0.
Proof.
  intros H. destruct (Q_dec a 0) as [[Na|Pa]|Za]; auto; exfalso.
  - rewrite rndQ_neg in H by auto. pose proof (rnd_pos_pos (- a)). lra.
  - rewrite rndQ_pos in H by auto. pose proof (rnd_pos_pos a). lra.
Qed.

Theorem rnd64_lawful : lawful rnd64.
Proof.
  split; unfold rnd64.
  - intros a b H. unfold Qcle in *. rewrite !this_const. apply rndQ_mono; auto.
  - intros a. apply Qc_is_canon.
    eapply Qeq_trans; [apply this_const|]. eapply Qeq_trans; [apply rndQ_comp, this_opp|].
    eapply Qeq_trans; [apply rndQ_odd|]. apply Qeq_sym. eapply Qeq_trans; [apply this_opp|].
    apply Qopp_comp, this_const.
  - intros z H. apply Qc_is_canon.
    eapply Qeq_trans; [apply this_const|]. eapply Qeq_trans; [apply rndQ_comp, this_qz|].
    eapply Qeq_trans; [apply rndQ_int, H|]. apply Qeq_sym, this_qz.
  - intros a H. assert (rndQ a == 0).
    { transitivity (this (Q2Qc (rndQ a))); [rewrite this_const; reflexivity|]. rewrite H. reflexivity. }
    apply Qc_is_canon. rewrite this_const. apply rndQ_eq_zero; auto.
Qed.
