(** Exactness of sums in binary64: the rounding error of an addition is itself
    a double, and the compensated summation of Python 3.12 and later computes
    it without error. *)
From Coq Require Import ZArith QArith Qabs Qcanon List Bool Lia Lqa.
From Verif Require Import Num Py Float64 EmdModel EmdFloatProofs Accuracy Ieee.
Import ListNotations.

Section Positive.
Local Open Scope Q_scope.

Lemma fixed_grid z d : 0 < z -> z <= d -> rnd_pos d == d -> gridQ (52 - ilog2 z) d.
Proof.
  intros P H E. apply (gridQ_finer (- (ilog2 d - 52))); [pose proof (ilog2_mono z d P H); lia|].
  exists (rne (d / pow2 (ilog2 d - 52))). rewrite Z.opp_involutive. symmetry. exact E.
Qed.

Lemma grid_fixed z v : 0 < v -> v <= z -> gridQ (52 - ilog2 z) v -> rnd_pos v == v.
Proof.
  intros P H G. apply (rnd_pos_grid_small (52 - ilog2 z)); auto. pose proof (ilog2_mono v z P H). lia.
Qed.

(** [rnd_pos q] is fixed, so it is a nearest one. *)
Lemma pow2_fixed e : rnd_pos (pow2 e) == pow2 e.
Proof.
  pose proof (pow2_pos e) as P. apply (rnd_pos_grid_small (- e)); auto.
  - destruct (ilog2_spec _ P) as [A _]. assert (pow2 (ilog2 (pow2 e)) < pow2 (e + 1)).
    { rewrite (pow2_S e). pose proof (pow2_pos e). lra. }
    apply pow2_lt_inv in H. lia.
  - exists 1%Z. rewrite Z.opp_involutive. ring.
Qed.

Lemma rnd_pos_fixed q : 0 < q -> rnd_pos (rnd_pos q) == rnd_pos q.
Proof.
  intros P. destruct (rnd_pos_bounds q P) as [A B]. pose proof (rnd_pos_pos q P) as R.
  destruct (Qlt_le_dec (rnd_pos q) (pow2 (ilog2 q + 1))) as [L|L].
  - assert (E : ilog2 (rnd_pos q) = ilog2 q).
    { destruct (ilog2_spec _ R) as [C D]. assert (X : pow2 (ilog2 (rnd_pos q)) < pow2 (ilog2 q + 1)) by lra. apply pow2_lt_inv in X.
      assert (Y : pow2 (ilog2 q) < pow2 (ilog2 (rnd_pos q) + 1)) by lra. apply pow2_lt_inv in Y. lia. }
    apply (rnd_pos_grid_small (- (ilog2 q - 52))); auto; [lia|].
    exists (rne (q / pow2 (ilog2 q - 52))). rewrite Z.opp_involutive. reflexivity.
  - assert (E : rnd_pos q == pow2 (ilog2 q + 1)) by (apply Qle_antisym; auto).
    rewrite (rnd_pos_comp _ _ R E), E. apply pow2_fixed.
Qed.

Lemma rnd_pos_nearest q d : 0 < q -> 0 < d -> rnd_pos d == d -> Qabs (rnd_pos q - q) <= Qabs (d - q).
Proof.
  intros P PD F. set (g := pow2 (ilog2 q - 52)). assert (G : 0 < g) by apply pow2_pos.
  assert (N : forall z, Qabs (rnd_pos q - q) <= Qabs (inject_Z z * g - q)).
  { intros z. unfold rnd_pos. fold g. pose proof (rne_nearest (q / g) z) as H.
    assert (X : forall k, inject_Z k * g - q == (inject_Z k - q / g) * g) by (intros k; field; lra).
    rewrite !X, !Qabs_scale by auto. apply Qmult_le_compat_r; [exact H|lra]. }
  destruct (ilog2_spec q P) as [A _]. destruct (Qlt_le_dec d (pow2 (ilog2 q))) as [L|L].
  - specialize (N (2 ^ 52)%Z). assert (E : inject_Z (2 ^ 52) * g == pow2 (ilog2 q)).
    { unfold g. rewrite <- pow2_nonneg_Z by lia. rewrite <- pow2_plus. replace (52 + (ilog2 q - 52))%Z with (ilog2 q) by lia. reflexivity. }
    rewrite E in N. eapply Qle_trans; [exact N|]. rewrite !Qabs_neg by lra. lra.
  - destruct (fixed_grid (pow2 (ilog2 q)) d (pow2_pos _) L F) as (k & Ek).
    assert (I : ilog2 (pow2 (ilog2 q)) = ilog2 q).
    { set (e := ilog2 q). pose proof (pow2_pos e) as Pe. destruct (ilog2_spec _ Pe) as [C D].
      apply pow2_lt_inv in D. assert (pow2 (ilog2 (pow2 e)) < pow2 (e + 1)) by (rewrite (pow2_S e); lra). apply pow2_lt_inv in H. lia. }
    rewrite I in Ek. replace (- (52 - ilog2 q))%Z with (ilog2 q - 52)%Z in Ek by lia. fold g in Ek.
    specialize (N k). rewrite <- Ek in N. exact N.
Qed.
(** Scaling by a power of two. *)
Lemma ilog2_scale q k : 0 < q -> ilog2 (q * pow2 k) = (ilog2 q + k)%Z.
Proof.
  intros P. pose proof (pow2_pos k) as Pk. assert (P2 : 0 < q * pow2 k) by (apply Qmult_lt_0_compat; auto).
  destruct (ilog2_spec _ P) as [A B]. destruct (ilog2_spec _ P2) as [C D].
  assert (X : pow2 (ilog2 (q * pow2 k)) < pow2 (ilog2 q + 1 + k)).
  { rewrite (pow2_plus (ilog2 q + 1)). eapply Qle_lt_trans; [exact C|]. apply Qmult_lt_compat_r; auto. }
  assert (Y : pow2 (ilog2 q + k) < pow2 (ilog2 (q * pow2 k) + 1)).
  { rewrite (pow2_plus (ilog2 q)). eapply Qle_lt_trans; [|exact D]. apply Qmult_le_compat_r; auto. lra. }
  apply pow2_lt_inv in X, Y. lia.
Qed.

Lemma rnd_pos_scale q k : 0 < q -> rnd_pos (q * pow2 k) == rnd_pos q * pow2 k.
Proof.
  intros P. unfold rnd_pos. rewrite ilog2_scale by auto. replace (ilog2 q + k - 52)%Z with ((ilog2 q - 52) + k)%Z by lia.
  set (g' := pow2 (ilog2 q - 52 + k)). set (g := pow2 (ilog2 q - 52)). assert (G : 0 < g) by apply pow2_pos. pose proof (pow2_pos k) as Pk.
  assert (E : g' == g * pow2 k) by apply pow2_plus. rewrite (rne_comp (q * pow2 k / g') (q / g)); [rewrite E; ring|].
  rewrite E. field. split; lra.
Qed.
End Positive.

Open Scope Qc_scope.

(** The doubles, with an unbounded exponent: the numbers that rounding leaves
    alone. *)
Definition dbl (x : Qc) : Prop := rnd64 x = x.

Lemma dbl_0 : dbl 0.
Proof. apply (rnd_0 _ rnd64_lawful). Qed.
Lemma dbl_opp x : dbl x -> dbl (- x).
Proof. unfold dbl. intros H. rewrite (rnd_odd _ rnd64_lawful), H. reflexivity. Qed.
Lemma dbl_opp_inv x : dbl (- x) -> dbl x.
Proof. intros H. rewrite <- (Qcopp_involutive x). apply dbl_opp; auto. Qed.
Lemma dbl_abs x : dbl x -> dbl (qabs x).
Proof. intros H. unfold qabs. destruct (qleb 0 x); auto. apply dbl_opp; auto. Qed.
Lemma dbl_abs_inv x : dbl (qabs x) -> dbl x.
Proof. unfold qabs. destruct (qleb 0 x); auto. apply dbl_opp_inv. Qed.
Lemma dbl_int z : (Z.abs z <= 2 ^ 53)%Z -> dbl (qz z).
Proof. apply (rnd_int _ rnd64_lawful). Qed.

Lemma qabs_ge0 x : 0 <= qabs x.
Proof. qclra. Qed.
Lemma qabs_pos x : 0 <= x -> qabs x = x.
Proof. intros. qclra. Qed.
Lemma pos_this x : 0 < x -> (0 < this x)%Q.
Proof. intros H. unfold Qclt in H. rewrite this_const in H. exact H. Qed.
Lemma this_rnd64 x : (this (rnd64 x) == rndQ x)%Q.
Proof. unfold rnd64. apply this_const. Qed.
Lemma dbl_pos x : 0 < x -> (dbl x <-> (rnd_pos x == x)%Q).
Proof.
  intros P. apply pos_this in P. unfold dbl. split; intros H.
  - rewrite <- H at 2. rewrite this_rnd64, rndQ_pos by auto. reflexivity.
  - apply Qc_is_canon. rewrite this_rnd64, rndQ_pos by auto. exact H.
Qed.

Lemma dbl_rnd64 x : dbl (rnd64 x).
Proof.
  assert (G : forall y, 0 < y -> dbl (rnd64 y)).
  { intros y P. apply pos_this in P. assert (R : (this (rnd64 y) == rnd_pos y)%Q) by (rewrite this_rnd64, rndQ_pos by auto; reflexivity).
    pose proof (rnd_pos_pos y P) as RP. apply dbl_pos.
    - unfold Qclt. change (this 0) with 0%Q. rewrite <- R in RP. exact RP.
    - eapply Qeq_trans; [apply (rnd_pos_comp _ _ ltac:(rewrite <- R in RP; exact RP) R)|].
      eapply Qeq_trans; [apply rnd_pos_fixed; auto|]. apply Qeq_sym; exact R. }
  destruct (Qclt_le_dec x 0) as [H|H]; swap 1 2.
  - destruct (qc_eq_dec x 0) as [->|N]; [rewrite (rnd_0 _ rnd64_lawful); apply dbl_0|]. apply G.
    apply Qcnot_le_lt. intros C. apply N. apply Qcle_antisym; auto.
  - apply dbl_opp_inv. rewrite <- (rnd_odd _ rnd64_lawful). apply G. clear - H. qclra.
Qed.

(** The grid of a double holds all larger doubles, and its points up to the
    double are doubles. *)
Lemma dbl_key z : dbl z -> z <> 0 -> exists e,
  (forall d, dbl d -> qabs z <= qabs d -> grid e d) /\ (forall v, grid e v -> qabs v <= qabs z -> dbl v).
Proof.
  intros D N. assert (PZ : 0 < qabs z) by (apply Qcnot_le_lt; intros C; apply N; clear - C; qclra).
  apply dbl_abs in D. exists (52 - ilog2 (qabs z))%Z. split.
  - intros d Hd L. assert (G : grid (52 - ilog2 (qabs z)) (qabs d)).
    { apply fixed_grid; [apply pos_this; auto|exact L|]. apply dbl_pos; [eapply Qclt_le_trans; eauto|apply dbl_abs; auto]. }
    unfold qabs in G. revert G. destruct (qleb 0 d); auto. intros G. rewrite <- (Qcopp_involutive d). apply grid_opp. exact G.
  - intros v G L. destruct (qc_eq_dec v 0) as [->|NV]; [apply dbl_0|]. apply dbl_abs_inv.
    assert (PV : 0 < qabs v) by (apply Qcnot_le_lt; intros C; apply NV; clear - C; qclra).
    apply dbl_pos; auto. apply (grid_fixed (qabs z)); [apply pos_this; auto|exact L|]. apply grid_abs in G. exact G.
Qed.

Lemma rnd64_nearest_pos q d : 0 < q -> dbl d -> qabs (rnd64 q - q) <= qabs (d - q).
Proof.
  intros P D. destruct (Qclt_le_dec 0 d) as [PD|ND].
  - unfold Qcle. rewrite !this_qabs. apply dbl_pos in D; auto. pose proof (rnd_pos_nearest q d (pos_this _ P) (pos_this _ PD) D) as H.
    eapply Qle_trans; [|eapply Qle_trans; [exact H|]]; apply Qeq_bar_le || idtac.
    + assert (E : (this (rnd64 q - q) == rnd_pos q - q)%Q).
      { eapply Qeq_trans; [apply this_add|]. rewrite this_opp, this_rnd64, rndQ_pos by (apply pos_this; auto). reflexivity. }
      rewrite E. apply Qle_refl.
    + assert (E : (this (d - q) == d - q)%Q) by (eapply Qeq_trans; [apply this_add|]; rewrite this_opp; reflexivity).
      rewrite E. apply Qle_refl.
  - pose proof (rnd64_accurate q) as A. assert (U : u64 * qabs q <= 1 * qabs q) by (apply Qcmult_le_compat_r; [discriminate|apply qabs_ge0]).
    revert A U. generalize (u64 * qabs q), (rnd64 q). intros v r A U. clear - A U P ND. qclra.
Qed.

Lemma rnd64_nearest q d : dbl d -> qabs (rnd64 q - q) <= qabs (d - q).
Proof.
  intros D. destruct (Qclt_le_dec 0 q) as [P|N]; [apply rnd64_nearest_pos; auto|].
  destruct (qc_eq_dec q 0) as [->|N0].
  - rewrite (rnd_0 _ rnd64_lawful). replace (0 - 0) with 0 by ring. apply qabs_ge0.
  - assert (P : 0 < - q) by (apply Qcnot_le_lt; intros C; apply N0; apply Qcle_antisym; auto; clear - C; qclra).
    pose proof (rnd64_nearest_pos (- q) (- d) P (dbl_opp _ D)) as H. rewrite (rnd_odd _ rnd64_lawful) in H.
    revert H. generalize (rnd64 q). clear. intros. qclra.
Qed.

(** *** The error of an addition *)
Lemma add_error a b : dbl a -> dbl b -> qabs b <= qabs a -> dbl (a + b - rnd64 (a + b)).
Proof.
  intros Da Db L. destruct (qc_eq_dec b 0) as [->|N].
  - replace (a + 0) with a by ring. rewrite Da. replace (a - a) with 0 by ring. apply dbl_0.
  - destruct (dbl_key b Db N) as (e & G1 & G2). pose proof (G1 a Da L) as Ga. pose proof (G1 b Db (Qcle_refl _)) as Gb.
    apply G2.
    + apply grid_sub; [apply grid_add; auto|]. apply grid_rnd64, grid_add; auto.
    + pose proof (rnd64_nearest (a + b) a Da) as H. revert H. generalize (rnd64 (a + b)). clear. intros. qclra.
Qed.

Lemma sterbenz x y : dbl x -> dbl y -> 0 < x -> x <= y -> y <= x + x -> dbl (y - x).
Proof.
  intros Dx Dy P L U. assert (N : x <> 0) by (intros ->; discriminate).
  destruct (dbl_key x Dx N) as (e & G1 & G2). apply G2.
  - apply grid_sub; apply G1; auto; [|apply Qcle_refl]. clear - P L. qclra.
  - clear - L U P. qclra.
Qed.


Lemma dbl_scale x k : dbl x -> dbl (x * p2 k).
Proof.
  intros D. destruct (qc_eq_dec x 0) as [->|N]; [replace (0 * p2 k) with 0 by ring; apply dbl_0|]. pose proof (p2_pos k) as Pk.
  apply dbl_abs_inv. apply dbl_abs in D. assert (P : 0 < qabs x) by (apply Qcnot_le_lt; intros C; apply N; clear - C; qclra).
  assert (E : qabs (x * p2 k) = qabs x * p2 k).
  { assert (X : forall y, 0 <= y -> 0 <= y * p2 k) by (intros; apply qmul_nonneg; auto; apply Qclt_le_weak; auto).
    destruct (Qclt_le_dec x 0) as [H|H]; swap 1 2.
    - rewrite !qabs_pos by auto. reflexivity.
    - pose proof (X (- x) ltac:(clear - H; qclra)) as H'. replace (qabs x) with (- x) by (clear - H; qclra).
      replace (qabs (x * p2 k)) with (- (x * p2 k)); [ring|]. replace (- x * p2 k) with (- (x * p2 k)) in H' by ring.
      revert H'. generalize (x * p2 k). clear. intros. qclra. }
  rewrite E. set (y := qabs x) in *. clearbody y. clear E N x. assert (P2 : 0 < y * p2 k).
  { rewrite <- (Qcmult_0_l (p2 k)). apply Qcmult_lt_compat_r; auto. }
  apply dbl_pos in D; auto. apply dbl_pos; auto. assert (Ey : (this (y * p2 k) == y * pow2 k)%Q) by (rewrite this_mul, this_p2; reflexivity).
  eapply Qeq_trans; [apply (rnd_pos_comp _ _ (pos_this _ P2) Ey)|]. eapply Qeq_trans; [apply rnd_pos_scale, pos_this, P|].
  rewrite D. apply Qeq_sym, Ey.
Qed.
Lemma dbl_double x : dbl x -> dbl (x * qz 2).
Proof. apply (dbl_scale x 1). Qed.
Lemma dbl_half x : dbl x -> dbl (x / qz 2).
Proof. intros D. apply (dbl_scale x (-1)) in D. exact D. Qed.

(** The first subtraction is exact. *)
Lemma sub_exact_pos a b : dbl a -> dbl b -> 0 < a -> qabs b <= a -> dbl (a - rnd64 (a + b)).
Proof.
  intros Da Db P L. assert (D2 : dbl (a * qz 2)) by (apply dbl_double; auto).
  set (t := rnd64 (a + b)) in *. assert (Dt : dbl t) by apply dbl_rnd64. replace (a * qz 2) with (a + a) in D2 by (change (qz 2) with (1 + 1); ring).
  assert (U : t <= a + a) by (unfold t; rewrite <- D2; apply (rnd_mono _ rnd64_lawful); clear - L; qclra).
  destruct (Qclt_le_dec (a + b) (a / qz 2)) as [S|S].
  - (* b is at least half of a in size and negative *)
    set (h := a / qz 2) in *. assert (E : a = h + h) by (unfold h; change (qz 2) with (1 + 1); field; discriminate). clearbody h.
    assert (B1 : a <= - b + - b) by (clear - S E; qclra). assert (B2 : - b <= a) by (clear - L; qclra). assert (B0 : 0 < - b) by (clear - B1 P; qclra).
    assert (X : dbl (a - - b)) by (apply sterbenz; auto; apply dbl_opp; auto). replace (a - - b) with (a + b) in X by ring.
    unfold t. rewrite X. replace (a - (a + b)) with (- b) by ring. apply dbl_opp; auto.
  - assert (H : a / qz 2 <= t) by (unfold t; rewrite <- (dbl_half a Da); apply (rnd_mono _ rnd64_lawful); auto).
    set (h := a / qz 2) in *. assert (E : a = h + h) by (unfold h; change (qz 2) with (1 + 1); field; discriminate). clearbody h.
    destruct (Qclt_le_dec a t) as [C|C]; swap 1 2.
    + apply sterbenz; auto; clear - H P E; qclra.
    + apply dbl_opp_inv. replace (- (a - t)) with (t - a) by ring. apply sterbenz; auto; clear - C U; qclra.
Qed.

Lemma sub_exact a b : dbl a -> dbl b -> qabs b <= qabs a -> dbl (a - rnd64 (a + b)).
Proof.
  intros Da Db L. destruct (Qclt_le_dec 0 a) as [P|N].
  - apply sub_exact_pos; auto. rewrite (qabs_pos a) in L by (clear - P; qclra). exact L.
  - destruct (qc_eq_dec a 0) as [->|N0].
    + assert (b = 0) as -> by (clear - L; change (qabs 0) with 0 in L; qclra). replace (0 + 0) with 0 by ring. rewrite dbl_0. apply dbl_0.
    + apply dbl_opp_inv. replace (- (a - rnd64 (a + b))) with (- a - rnd64 (- a + - b)).
      2: { replace (- a + - b) with (- (a + b)) by ring. rewrite (rnd_odd _ rnd64_lawful). ring. }
      assert (0 < - a) by (apply Qcnot_le_lt; intros C; apply N0; apply Qcle_antisym; auto; clear - C; qclra).
      apply sub_exact_pos; auto using dbl_opp. clear - L N. qclra.
Qed.

(** What is added to the compensation is the error of the addition. *)
Lemma fast_two_sum a b : dbl a -> dbl b -> qabs b <= qabs a -> rnd64 (rnd64 (a - rnd64 (a + b)) + b) = a + b - rnd64 (a + b).
Proof.
  intros Da Db L. rewrite (sub_exact a b Da Db L). replace (a - rnd64 (a + b) + b) with (a + b - rnd64 (a + b)) by ring.
  apply add_error; auto.
Qed.
