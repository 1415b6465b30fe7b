(** How far the normalized distances are from satisfying the triangle
    inequality (C114): proofs. *)
From Coq Require Import ZArith NArith QArith Qcanon List Bool Permutation Lia Lqa.
From Verif Require Import Num Py ListAux PyDict EmdSpec EmdModel EmdProofs EmdFloatProofs NmdSpec NmdModel NmdProofs BowSpec BowModel BowProofs.
Import ListNotations.
Open Scope Q_scope.

(** *** Two inequalities *)

(** Sizes [x], [y], [z]; distances [p], [q], [d] between them. *)
Lemma ineq_q (x y z p q d : Q) : 0 <= x -> 0 <= y -> 0 <= z -> 0 <= p -> 0 <= q -> 0 < x + z ->
  d <= p + q -> d <= x + z -> y <= x + p -> y <= z + q ->
  2 * d * ((x + y) * (y + z)) <= 3 * ((p * (y + z) + q * (x + y)) * (x + z)).
Proof.
  intros X Y Z P Q S D1 D2 E1 E2.
  assert (UV : 0 <= (x + y) * (y + z)) by nra.
  assert (T0 : 0 <= (p * (y + z) + q * (x + y)) * (x + z)) by (repeat apply Qmult_le_0_compat; nra).
  destruct (Qlt_le_dec 0 (p + q)) as [H|H].
  2: { assert (d <= 0) by lra. nra. }
  assert (R : 0 < (p + q) * (x + z) + 2 * (p * q)) by nra.
  (* Cauchy-Schwarz *)
  assert (C : (p + q) * (p + q) * ((x + y) * (y + z)) <= (p * (y + z) + q * (x + y)) * (p * (x + y) + q * (y + z))).
  { assert (K : 0 <= p * q * ((x - z) * (x - z))).
    { apply Qmult_le_0_compat; [nra|]. generalize (x - z). intros w. nra. }
    assert (I : (p * (y + z) + q * (x + y)) * (p * (x + y) + q * (y + z)) ==
      (p + q) * (p + q) * ((x + y) * (y + z)) + p * q * ((x - z) * (x - z))) by ring.
    rewrite I. revert K. generalize (p * q * ((x - z) * (x - z))), ((p + q) * (p + q) * ((x + y) * (y + z))). intros. lra. }
  assert (M : p * (x + y) + q * (y + z) <= (p + q) * (x + z) + 2 * (p * q)) by nra.
  assert (T1 : 0 <= p * (y + z) + q * (x + y)) by nra.
  assert (C2 : (p + q) * (p + q) * ((x + y) * (y + z)) <= (p * (y + z) + q * (x + y)) * ((p + q) * (x + z) + 2 * (p * q))).
  { eapply Qle_trans; [exact C|]. rewrite (Qmult_comm (p * (y + z) + q * (x + y))), (Qmult_comm (p * (y + z) + q * (x + y))). apply Qmult_le_compat_r; auto. }
  assert (F : 2 * d * ((p + q) * (x + z) + 2 * (p * q)) <= 3 * ((x + z) * ((p + q) * (p + q)))).
  { assert (SQ : 0 <= (p - q) * (p - q)) by (generalize (p - q); intros w; nra).
    assert (AG : 4 * (p * q) <= (p + q) * (p + q)) by lra.
    destruct (Qlt_le_dec (x + z) (p + q)) as [L|L].
    - apply Qle_trans with (2 * (x + z) * ((p + q) * (x + z) + 2 * (p * q))); [nra|].
      assert (G : 2 * ((p + q) * (x + z) + 2 * (p * q)) <= 3 * ((p + q) * (p + q))) by nra.
      assert (0 <= (x + z) * (3 * ((p + q) * (p + q)) - 2 * ((p + q) * (x + z) + 2 * (p * q)))) by (apply Qmult_le_0_compat; lra).
      lra.
    - apply Qle_trans with (2 * (p + q) * ((p + q) * (x + z) + 2 * (p * q))); [nra|].
      assert (0 <= (p + q) * ((x + z) * (p + q) - 4 * (p * q))) by (apply Qmult_le_0_compat; nra).
      lra. }
  set (u := (x + y) * (y + z)) in *. set (t := p * (y + z) + q * (x + y)) in *. set (r := (p + q) * (x + z) + 2 * (p * q)) in *.
  set (h := (p + q) * (p + q)) in *. set (s := x + z) in *.
  assert (G : 2 * d * u * r <= 3 * (t * s) * r).
  { assert (G1 : 2 * d * r * u <= 3 * (s * h) * u) by (apply Qmult_le_compat_r; auto).
    assert (G2 : h * u * s <= t * r * s) by (apply Qmult_le_compat_r; lra). lra. }
  apply Qmult_lt_0_le_reg_r with r; auto.
Qed.

Lemma ineq_bow_q (m t w g d : Q) : 0 < m -> 0 <= t -> 0 <= w -> 2 * t <= g -> d <= m -> 2 * d <= 3 * w + 2 * g ->
  2 * (d * (m + t)) <= 3 * ((w + g) * m).
Proof.
  intros M T W G D1 D2. destruct (Qlt_le_dec (3 * w + 2 * g) (2 * m)) as [L|L].
  - assert (H : 0 <= (3 * w + 2 * g - 2 * d) * (m + t)) by (apply Qmult_le_0_compat; lra).
    assert (H1 : 0 <= (2 * m - (3 * w + 2 * g)) * t) by (apply Qmult_le_0_compat; lra).
    assert (H2 : 0 <= (g - 2 * t) * m) by (apply Qmult_le_0_compat; lra). lra.
  - assert (H : 0 <= (m - d) * (m + t)) by (apply Qmult_le_0_compat; lra).
    assert (H1 : 0 <= (3 * w + 2 * g - 2 * m) * m) by (apply Qmult_le_0_compat; lra).
    assert (H2 : 0 <= (g - 2 * t) * m) by (apply Qmult_le_0_compat; lra). lra.
Qed.

Open Scope Qc_scope.

Definition half3 : Qc := Q2Qc (3 # 2).

Lemma qc_mul_pos (a b : Qc) : 0 < a -> 0 < b -> 0 < a * b.
Proof. intros H K. replace 0 with (0 * b) by ring. apply Qcmult_lt_compat_r; auto. Qed.

Lemma div_le_frac a b s u v : 0 < s -> 0 < u -> 0 < v ->
  forall d, Q2Qc 2 * (d * (u * v)) <= Q2Qc 3 * ((a * v + b * u) * s) -> d / s <= half3 * (a / u + b / v).
Proof.
  intros S U V d H. assert (Ns : s <> 0) by (intros ->; discriminate). assert (Nu : u <> 0) by (intros ->; discriminate). assert (Nv : v <> 0) by (intros ->; discriminate).
  assert (P : 0 < s * (u * v)) by (repeat apply qc_mul_pos; auto).
  assert (K : d / s * (s * (u * v)) <= half3 * (a / u + b / v) * (s * (u * v))).
  { replace (d / s * (s * (u * v))) with (d * (u * v)) by (field; auto).
    replace (half3 * (a / u + b / v) * (s * (u * v))) with (half3 * ((a * v + b * u) * s)) by (field; auto).
    unfold half3. clear - H. set (x := d * (u * v)) in *. set (y := (a * v + b * u) * s) in *. clearbody x y. qclra. }
  apply Qcmult_lt_0_le_reg_r with (s * (u * v)); auto.
Qed.

Lemma ineq_c (x y z p q d : Qc) : 0 <= x -> 0 <= y -> 0 <= z -> 0 <= p -> 0 <= q -> 0 < x + z -> 0 < x + y -> 0 < y + z ->
  d <= p + q -> d <= x + z -> y <= x + p -> y <= z + q ->
  d / (x + z) <= half3 * (p / (x + y) + q / (y + z)).
Proof.
  intros X Y Z P Q S U V D1 D2 E1 E2. apply div_le_frac; auto.
  unfold Qcle, Qclt in *. rewrite ?this_mul_cl, ?this_mul, ?this_add, ?this_mul, ?this_add in *.
  rewrite Qmult_assoc. apply ineq_q; auto.
Qed.

Lemma ineq_bow_c (m y w g d : Qc) : 0 < m -> m <= y -> 0 <= w -> (y - m) + (y - m) <= g -> d <= m -> d <= half3 * w + g ->
  d / m <= half3 * ((w + g) / y).
Proof.
  intros M Y W G D1 D2. assert (Py : 0 < y) by (eapply Qclt_le_trans; eauto).
  assert (Ny : y <> 0) by (intros ->; discriminate).
  replace ((w + g) / y) with ((w + g) / y + 0 / y) by (field; auto). apply div_le_frac; auto.
  assert (H : Q2Qc 2 * (d * (m + (y - m))) <= Q2Qc 3 * ((w + g) * m)).
  { unfold Qcle, Qclt in *. rewrite ?this_mul_cl, ?this_mul, ?this_add, ?this_sub.
    unfold half3 in D2. rewrite this_add, this_mul_cl in D2. rewrite !this_add, !this_sub in G.
    apply ineq_bow_q; auto; try lra. }
  replace (m + (y - m)) with y in H by ring.
  assert (K : Q2Qc 2 * (d * y) * y <= Q2Qc 3 * ((w + g) * m) * y) by (apply Qcmult_le_compat_r; auto; apply Qclt_le_weak; auto).
  replace (Q2Qc 2 * (d * (y * y))) with (Q2Qc 2 * (d * y) * y) by ring.
  replace (Q2Qc 3 * (((w + g) * y + 0 * y) * m)) with (Q2Qc 3 * ((w + g) * m) * y) by ring. exact K.
Qed.

Lemma qdiv_le_den (a m k : Qc) : 0 <= a -> 0 < m -> m <= k -> a / k <= a / m.
Proof.
  intros A M K. assert (Pk : 0 < k) by (eapply Qclt_le_trans; eauto).
  assert (Nm : m <> 0) by (intros ->; discriminate). assert (Nk : k <> 0) by (intros ->; discriminate).
  apply Qcmult_lt_0_le_reg_r with (k * m); [apply qc_mul_pos; auto|].
  replace (a / k * (k * m)) with (m * a) by (field; auto). replace (a / m * (k * m)) with (k * a) by (field; auto).
  apply Qcmult_le_compat_r; auto.
Qed.

Lemma qdiv_le_mono (a b k : Qc) : 0 < k -> a <= b -> a / k <= b / k.
Proof.
  intros K H. assert (Nk : k <> 0) by (intros ->; discriminate). apply Qcmult_lt_0_le_reg_r with k; auto.
  replace (a / k * k) with a by (field; auto). replace (b / k * k) with b by (field; auto). exact H.
Qed.

(** *** Words *)

Lemma dist_lower n w1 w2 : qn (gram_count n w1) - qn (gram_count n w2) <= dist n w1 w2.
Proof.
  assert (I1 : forall g, In g (grams n w1) -> In g (all_grams n w1 w2)) by (intros; apply all_grams_in; auto).
  assert (I2 : forall g, In g (grams n w2) -> In g (all_grams n w1 w2)) by (intros; apply all_grams_in; auto).
  rewrite <- (positions_total n w1 (all_grams n w1 w2)), <- (positions_total n w2 (all_grams n w1 w2)) by auto using all_grams_nodup.
  rewrite <- qsum_map_sub. apply qsum_map_le. intros g _. apply emd_lower.
Qed.

Lemma dist_relaxed n w1 w2 w3 : (n <= length w1 + 2)%nat -> (n <= length w2 + 2)%nat -> (n <= length w3 + 2)%nat ->
  dist n w1 w3 / qn (gram_count n w1 + gram_count n w3) <=
  half3 * (dist n w1 w2 / qn (gram_count n w1 + gram_count n w2) + dist n w2 w3 / qn (gram_count n w2 + gram_count n w3)).
Proof.
  intros H1 H2 H3.
  assert (P : forall u v, (n <= length u + 2)%nat -> 0 < qn (gram_count n u) + qn (gram_count n v)).
  { intros u v H. rewrite <- qn_add. apply qn_pos. unfold gram_count. lia. }
  pose proof (P w1 w3 H1) as P1. pose proof (P w1 w2 H1) as P2. pose proof (P w2 w3 H2) as P3.
  rewrite !qn_add.
  pose proof (dist_lower n w2 w1) as L1. pose proof (dist_lower n w2 w3) as L2. rewrite (dist_sym n w2 w1) in L1.
  apply ineq_c; auto using qn_nonneg, dist_nonneg, dist_triangle, dist_upper.
  - revert L1. generalize (dist n w1 w2), (qn (gram_count n w1)), (qn (gram_count n w2)). clear. intros. qclra.
  - revert L2. generalize (dist n w2 w3), (qn (gram_count n w2)), (qn (gram_count n w3)). clear. intros. qclra.
Qed.

Lemma wcost_adequate n (w1 w2 : str) : (n <= length w1 + 2)%nat -> (n <= length w2 + 2)%nat ->
  wcost n w1 w2 = dist n w1 w2 / qn (gram_count n w1 + gram_count n w2).
Proof.
  intros H1 H2. unfold wcost. destruct (Nat.eqb_spec (length w1 + length w2 + 6) (2 * n)) as [E|_]; [lia|].
  destruct (in_dec _ _ _) as [[E|[]]|_]; [|reflexivity].
  assert (P : 0 < qn (gram_count n w1 + gram_count n w2)) by (apply qn_pos; unfold gram_count; lia).
  rewrite sim_dist, <- qn_add in E. set (k := qn _) in *. clearbody k. assert (D : dist n w1 w2 = k) by (clear - E; qclra).
  rewrite D. field. intros ->. discriminate.
Qed.

Lemma share_dec n (w1 w2 : str) : share_gram n w1 w2 \/ ~ share_gram n w1 w2.
Proof.
  unfold share_gram. destruct (existsb (fun g => if in_dec eqd g (grams n w2) then true else false) (grams n w1)) eqn:Ex.
  - left. apply existsb_exists in Ex. destruct Ex as (g & I & Hg). exists g. split; auto. destruct (in_dec eqd g (grams n w2)); [auto|discriminate].
  - right. intros (g & I & J). assert (existsb (fun g => if in_dec eqd g (grams n w2) then true else false) (grams n w1) = true); [|congruence].
    apply existsb_exists. exists g. split; auto. destruct (in_dec eqd g (grams n w2)); [auto|contradiction].
Qed.

Lemma wcost_short n (w1 w2 : str) : ~ ((n <= length w1 + 2)%nat /\ (n <= length w2 + 2)%nat) -> w1 = w2 \/ wcost n w1 w2 = 1.
Proof.
  intros H. unfold wcost. destruct (Nat.eqb _ _).
  - destruct (eqd w1 w2); auto.
  - right. destruct (in_dec _ _ _) as [|X]; auto. exfalso. apply H. apply share_adequate.
    destruct (qc_eq_dec (sim n w1 w2) 0) as [E|E]; [exfalso; apply X; left; auto|].
    destruct (share_dec n w1 w2); auto. exfalso. apply E. apply sim_zero_iff. auto.
Qed.

(** The cost of replacing one word by another, whatever the words. *)
Lemma wcost_relaxed n (w1 w2 w3 : str) : wcost n w1 w3 <= half3 * (wcost n w1 w2 + wcost n w2 w3).
Proof.
  pose proof (wcost_range n w1 w3) as [A0 A1]. pose proof (wcost_range n w1 w2) as [B0 B1]. pose proof (wcost_range n w2 w3) as [C0 C1].
  assert (Big : wcost n w1 w2 = 1 \/ wcost n w2 w3 = 1 -> wcost n w1 w3 <= half3 * (wcost n w1 w2 + wcost n w2 w3)).
  { unfold half3. set (a := wcost n w1 w3) in *. set (b := wcost n w1 w2) in *. set (c := wcost n w2 w3) in *. clearbody a b c.
    intros [-> | ->]; qclra. }
  destruct (Nat.le_gt_cases n (length w1 + 2)) as [H1|H1].
  2: { destruct (wcost_short n w1 w2) as [-> | E]; [lia| |auto].
       unfold half3. set (b := wcost n w2 w2) in *. set (c := wcost n w2 w3) in *. clearbody b c. qclra. }
  destruct (Nat.le_gt_cases n (length w3 + 2)) as [H3|H3].
  2: { destruct (wcost_short n w2 w3) as [-> | E]; [lia| |auto].
       unfold half3. set (b := wcost n w1 w3) in *. set (c := wcost n w3 w3) in *. clearbody b c. qclra. }
  destruct (Nat.le_gt_cases n (length w2 + 2)) as [H2|H2].
  2: { destruct (wcost_short n w1 w2) as [-> | E]; [lia|lia|auto]. }
  rewrite !wcost_adequate by auto. apply dist_relaxed; auto.
Qed.

(** *** Bags of words: composing two pairings *)

Section Compose.
Variable A : Type.
Variable c : A -> A -> Qc.
Variable k : Qc.
Hypothesis c_nonneg : forall x y, 0 <= c x y.
Hypothesis c_le_1 : forall x y, c x y <= 1.
Hypothesis k_ge_1 : 1 <= k.
Hypothesis c_relaxed : forall x y z, c x z <= k * (c x y + c y z).

Lemma pair_cost_cons x y (p : list (A * A)) : pair_cost c ((x, y) :: p) = c x y + pair_cost c p.
Proof. reflexivity. Qed.
Lemma pair_cost_app (p q : list (A * A)) : pair_cost c (p ++ q) = pair_cost c p + pair_cost c q.
Proof. unfold pair_cost. rewrite map_app. apply qsum_app. Qed.
Lemma pair_cost_nonneg (p : list (A * A)) : 0 <= pair_cost c p.
Proof. apply qsum_map_nonneg. intros. apply c_nonneg. Qed.
Lemma pair_cost_len (p : list (A * A)) : pair_cost c p <= qn (length p).
Proof.
  induction p as [|[x y] p IH]; [apply Qcle_refl|]. rewrite pair_cost_cons. cbn [length]. rewrite qn_S.
  pose proof (c_le_1 x y) as H. revert IH H. generalize (pair_cost c p), (c x y), (qn (length p)). clear. intros. qclra.
Qed.

Lemma k_scale x y : 0 <= x -> x <= y -> x <= k * y.
Proof.
  intros H L. eapply Qcle_trans; [exact L|]. replace y with (1 * y) at 1 by ring. apply Qcmult_le_compat_r; auto. eapply Qcle_trans; eauto.
Qed.

Lemma compose_pairings p : forall rx ry q ry' rz,
  Permutation (map snd p ++ ry) (map fst q ++ ry') ->
  exists m r1 r2, Permutation (map fst p ++ rx) (map fst m ++ r1) /\ Permutation (map snd q ++ rz) (map snd m ++ r2) /\
    pair_cost c m <= k * (pair_cost c p + pair_cost c q) /\
    (length r1 <= length rx + length ry')%nat /\ (length r2 <= length ry + length rz)%nat.
Proof.
  induction p as [|[x y] p IH]; intros rx ry q ry' rz P.
  - exists [], rx, (map snd q ++ rz). split; [reflexivity|]. split; [reflexivity|]. split.
    + apply k_scale; [apply Qcle_refl|]. change (pair_cost c []) with 0. pose proof (pair_cost_nonneg q) as H. revert H. generalize (pair_cost c q). clear. intros. qclra.
    + apply Permutation_length in P. rewrite !app_length, !map_length in *. cbn [length] in P. lia.
  - assert (I : In y (map fst q ++ ry')) by (eapply Permutation_in; [apply P|left; auto]).
    apply in_app_iff in I. destruct I as [I|I].
    + apply in_map_fst_split in I. destruct I as (z & q1 & q2 & ->).
      destruct (IH rx ry (q1 ++ q2) ry' rz) as (m & r1 & r2 & M1 & M2 & C & L1 & L2).
      { apply Permutation_cons_inv with y. cbn [map snd app] in P. rewrite P.
        rewrite !map_app. cbn [map fst]. rewrite <- !app_assoc. symmetry. apply Permutation_middle. }
      exists ((x, z) :: m), r1, r2. split; [|split; [|split; [|auto]]].
      * cbn [map fst app]. rewrite M1. reflexivity.
      * cbn [map snd app]. rewrite <- M2, !map_app. cbn [map snd]. rewrite <- !app_assoc. symmetry. apply Permutation_middle.
      * rewrite pair_cost_app, !pair_cost_cons in *. pose proof (c_relaxed x y z) as T.
        replace (k * (c x y + pair_cost c p + (pair_cost c q1 + (c y z + pair_cost c q2)))) with
          (k * (c x y + c y z) + k * (pair_cost c p + (pair_cost c q1 + pair_cost c q2))) by ring.
        apply Qcplus_le_compat; auto.
    + apply in_split in I. destruct I as (s1 & s2 & ->).
      destruct (IH rx ry q (s1 ++ s2) rz) as (m & r1 & r2 & M1 & M2 & C & L1 & L2).
      { apply Permutation_cons_inv with y. cbn [map snd app] in P. rewrite P.
        rewrite !app_assoc. symmetry. apply Permutation_middle. }
      exists m, (x :: r1), r2. split; [|split; [|split; [|split]]]; auto.
      * cbn [map fst app]. rewrite M1. apply Permutation_middle.
      * rewrite pair_cost_cons. replace (k * (c x y + pair_cost c p + pair_cost c q)) with (k * c x y + k * (pair_cost c p + pair_cost c q)) by ring.
        assert (H : 0 <= k * c x y) by (apply k_scale; [apply Qcle_refl|apply c_nonneg]).
        revert C H. generalize (pair_cost c m), (k * c x y), (k * (pair_cost c p + pair_cost c q)). clear. intros. qclra.
      * rewrite app_length in *. cbn [length]. lia.
Qed.

(** Pairing off what is left over. *)
Lemma finish_pairing (a b : list A) m r1 r2 : Permutation a (map fst m ++ r1) -> Permutation b (map snd m ++ r2) ->
  exists ps, pairing a b ps /\ pair_cost c ps + qn (Nat.max (length a) (length b) - Nat.min (length a) (length b)) <=
    pair_cost c m + qn (Nat.max (length r1) (length r2)).
Proof.
  intros P1 P2. set (j := Nat.min (length r1) (length r2)).
  exists (m ++ combine (firstn j r1) (firstn j r2)).
  assert (La : length (firstn j r1) = j) by (rewrite firstn_length; lia). assert (Lb : length (firstn j r2) = j) by (rewrite firstn_length; lia).
  split.
  - exists (skipn j r1), (skipn j r2). rewrite !map_app, map_fst_combine, map_snd_combine by congruence. rewrite <- !app_assoc, !firstn_skipn.
    split; [auto|]. split; [auto|]. destruct (Nat.le_gt_cases (length r1) (length r2)); [left|right]; apply skipn_all2; lia.
  - rewrite pair_cost_app. pose proof (pair_cost_len (combine (firstn j r1) (firstn j r2))) as H. rewrite combine_length, La, Lb, Nat.min_id in H.
    apply Permutation_length in P1, P2. rewrite app_length, map_length in P1, P2. rewrite P1, P2.
    replace (Nat.max (length m + length r1) (length m + length r2) - Nat.min (length m + length r1) (length m + length r2))%nat
      with (Nat.max (length r1) (length r2) - j)%nat by lia.
    replace (Nat.max (length r1) (length r2)) with (j + (Nat.max (length r1) (length r2) - j))%nat at 2 by lia. rewrite qn_add.
    set (u := qn (Nat.max (length r1) (length r2) - j)). revert H. generalize (pair_cost c m), (pair_cost c (combine (firstn j r1) (firstn j r2))), (qn j), u.
    clear. intros. qclra.
Qed.

Definition diff (i j : nat) : nat := (Nat.max i j - Nat.min i j)%nat.

Lemma pairings_relaxed (x y z : list A) p q : pairing x y p -> pairing y z q ->
  exists m, pairing x z m /\ pair_cost c m + qn (diff (length x) (length z)) <=
    k * (pair_cost c p + pair_cost c q) + (qn (diff (length x) (length y)) + qn (diff (length y) (length z))).
Proof.
  intros (rx & ry & P1 & P2 & P3) (ry' & rz & Q1 & Q2 & Q3).
  destruct (compose_pairings p rx ry q ry' rz) as (m & r1 & r2 & M1 & M2 & C & L1 & L2).
  { rewrite <- P2, <- Q1. reflexivity. }
  rewrite <- P1 in M1. rewrite <- Q2 in M2. destruct (finish_pairing x z m r1 r2 M1 M2) as (ps & Ps & Hc).
  exists ps. split; auto. unfold diff. eapply Qcle_trans; [exact Hc|]. apply Qcplus_le_compat; auto. rewrite <- qn_add. apply qn_le.
  apply Permutation_length in P1, P2, Q1, Q2. rewrite app_length, map_length in P1, P2, Q1, Q2.
  destruct P3 as [-> | ->], Q3 as [-> | ->]; cbn [length] in *; lia.
Qed.

End Compose.
