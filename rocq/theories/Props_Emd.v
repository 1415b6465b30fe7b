(** Theorems about nmd/emd_1d.py ([emd_1d_dp], [emd_1d_slow]): properties
    C01 - C06.  Each proof is a reference to a lemma proved elsewhere; beside
    each theorem stands a concrete case. *)
From Coq Require Import ZArith QArith Qcanon List Permutation Lia.
From Verif Require Import Num Py Float64 EmdSpec EmdModel EmdProofs EmdFloatProofs EmdSlowProofs Ex.
Import ListNotations.
Open Scope Qc_scope.

(** *** C01 *)
Theorem emd_1d_dp_optimal : forall xs ys,
  exists d, emd_1d_dp exact xs ys = Ok d /\ is_emd xs ys d.
Proof. intros xs ys. exists (emd xs ys). split; [apply emd_1d_dp_exact|apply emd_is_emd]. Qed.
Print Assumptions emd_1d_dp_optimal.

Example emd_1d_dp_optimal_case :
  is_val (emd_1d_dp exact [f 7 8; f 0 1; f 1 2] [f 1 1; f 1 4]) (11 # 8) = true /\
  is_val (emd_1d_dp exact [f 0 1] [f 5 1]) 2 = true.
Proof. vm_compute. auto. Qed.

(** *** C02 *)
Theorem emd_1d_dp_symmetric : forall xs ys, emd_1d_dp exact xs ys = emd_1d_dp exact ys xs.
Proof. intros. rewrite !emd_1d_dp_exact, emd_sym. reflexivity. Qed.
Print Assumptions emd_1d_dp_symmetric.

Theorem emd_1d_dp_zero_iff : forall xs ys, emd_1d_dp exact xs ys = Ok 0 <-> Permutation xs ys.
Proof.
  intros. rewrite emd_1d_dp_exact, <- emd_zero_iff. split; [intros [= ->]; auto|intros ->; auto].
Qed.
Print Assumptions emd_1d_dp_zero_iff.

Theorem emd_1d_dp_triangle : forall xs ys zs dxy dyz dxz,
  emd_1d_dp exact xs ys = Ok dxy -> emd_1d_dp exact ys zs = Ok dyz -> emd_1d_dp exact xs zs = Ok dxz ->
  dxz <= dxy + dyz.
Proof. intros *. rewrite !emd_1d_dp_exact. intros [= <-] [= <-] [= <-]. apply emd_triangle. Qed.
Print Assumptions emd_1d_dp_triangle.

Example emd_1d_dp_metric_case :
  is_val (emd_1d_dp exact [f 0 1; f 1 2] [f 1 1]) (3 # 2) = true /\
  is_val (emd_1d_dp exact [f 1 1] [f 3 4; f 1 4]) (5 # 4) = true /\
  is_val (emd_1d_dp exact [f 0 1; f 1 2] [f 3 4; f 1 4]) (1 # 2) = true /\
  is_val (emd_1d_dp exact [f 0 1; f 1 2; f 0 1] [f 1 2; f 0 1; f 0 1]) 0 = true.
Proof. vm_compute. auto. Qed.

(** *** C03 *)
Theorem emd_1d_dp_order_irrelevant : forall rnd xs xs' ys ys',
  Permutation xs xs' -> Permutation ys ys' -> emd_1d_dp rnd xs ys = emd_1d_dp rnd xs' ys'.
Proof. exact emd_1d_dp_perm. Qed.
Print Assumptions emd_1d_dp_order_irrelevant.

Example emd_1d_dp_order_case :
  Permutation [f 1 2; f 0 1; f 1 2] [f 0 1; f 1 2; f 1 2] /\
  is_val (emd_1d_dp exact [f 1 2; f 0 1; f 1 2] [f 1 4]) (9 # 4) = true /\
  is_val (emd_1d_dp exact [f 0 1; f 1 2; f 1 2] [f 1 4]) (9 # 4) = true.
Proof. split; [apply perm_swap|vm_compute; auto]. Qed.

(** *** C04 *)
Theorem emd_1d_dp_bounds : forall xs ys d, emd_1d_dp exact xs ys = Ok d ->
  qn (length xs) - qn (length ys) <= d /\ qn (length ys) - qn (length xs) <= d /\
  0 <= d /\ d <= qn (length xs + length ys).
Proof.
  intros * H. rewrite emd_1d_dp_exact in H. injection H as <-.
  repeat split; [apply emd_lower|rewrite emd_sym; apply emd_lower|apply emd_nonneg|apply emd_upper].
Qed.
Print Assumptions emd_1d_dp_bounds.

Theorem emd_1d_dp_unit_bound : forall xs ys d, in_unit xs -> in_unit ys -> emd_1d_dp exact xs ys = Ok d ->
  d <= qn (Nat.max (length xs) (length ys)).
Proof.
  intros * Hx Hy H. rewrite emd_1d_dp_exact in H. injection H as <-.
  apply emd_close_upper, in_unit_close; auto.
Qed.
Print Assumptions emd_1d_dp_unit_bound.

Example emd_1d_dp_bounds_case :
  in_unit [f 0 1; f 0 1] /\ in_unit [f 1 1] /\ is_val (emd_1d_dp exact [f 0 1; f 0 1] [f 1 1]) 2 = true.
Proof. repeat split; try (repeat constructor; vm_compute; discriminate). Qed.

(** *** C05: the same under rounding *)
Theorem emd_1d_dp_rounded : forall rnd, lawful rnd -> forall xs ys,
  (Z.of_nat (length xs + length ys) <= 2 ^ 53)%Z ->
  exists d, emd_1d_dp rnd xs ys = Ok d /\
    0 <= d /\ d <= qn (length xs + length ys) /\
    qn (length xs) - qn (length ys) <= d /\ qn (length ys) - qn (length xs) <= d /\
    (in_unit xs -> in_unit ys -> d <= qn (Nat.max (length xs) (length ys))) /\
    emd_1d_dp rnd ys xs = Ok d /\
    (d = 0 <-> Permutation xs ys).
Proof.
  intros rnd L xs ys S. destruct (dp_float_value rnd L xs ys) as (d & H & _).
  exists d. destruct (dp_float_bounds rnd L xs ys d S H) as (B1 & B2 & B3 & B4).
  assert (G : forall a b, qn a - qn b <= qn (a - b)).
  { clear. intros a b. destruct (Nat.le_ge_cases b a).
    - assert (E : a = (a - b + b)%nat) by lia. rewrite E at 1. rewrite qn_add. clear. qclra.
    - pose proof (qn_nonneg (a - b)) as N. apply qn_le in H. clear - H N. qclra. }
  repeat split; auto.
  - pose proof (G (length xs) (length ys)). eapply Qcle_trans; eauto.
  - pose proof (G (length ys) (length xs)). eapply Qcle_trans; eauto.
  - intros Ux Uy. eapply dp_float_unit; eauto.
  - rewrite <- dp_float_sym; auto.
  - intros ->. apply (dp_float_zero_iff rnd L). auto.
  - intros P. apply (dp_float_zero_iff rnd L) in P. congruence.
Qed.
Print Assumptions emd_1d_dp_rounded.

(** Rounding to 53 bits, ties to even, satisfies the hypothesis. *)
Theorem binary64_rounding_lawful : lawful rnd64.
Proof. exact rnd64_lawful. Qed.
Print Assumptions binary64_rounding_lawful.

(** Rounding does matter: 0.1 + 0.2 is not 0.3. *)
Example rnd64_case :
  qeqb (rnd64 (rnd64 (f 1 10) + rnd64 (f 2 10))) (rnd64 (f 3 10)) = false /\
  qeqb (rnd64 (f 1 10)) (f 3602879701896397 36028797018963968) = true /\
  is_val (emd_1d_dp rnd64 [rnd64 (f 1 3); rnd64 (f 2 3)] [f 1 2]) (7 # 6) = false.
Proof. vm_compute. auto. Qed.

(** *** C06 *)
Theorem emd_1d_slow_agrees : forall xs ys,
  (forall x y, In x xs -> In y ys -> qabs (x - y) <= 1) ->
  emd_1d_dp exact xs ys = Ok (emd_1d_slow exact xs ys).
Proof. intros. rewrite emd_1d_dp_exact, slow_eq_emd; auto. Qed.
Print Assumptions emd_1d_slow_agrees.

(** Without the restriction: [emd_1d_slow] is the best matching of the whole
    shorter list into the longer one, capped by the length of the longer. *)
Theorem emd_1d_slow_meaning : forall xs ys,
  (length ys <= length xs)%nat ->
  let s := emd_1d_slow exact xs ys in
  (s = qn (length xs) \/
   exists p rx, is_matching xs ys p rx [] /\ s = move_cost p + qn (length rx)) /\
  s <= qn (length xs) /\
  forall p rx, is_matching xs ys p rx [] -> s <= move_cost p + qn (length rx).
Proof.
  intros xs ys Hl s. destruct (slow_value xs ys Hl) as (H1 & H2 & H3). fold s in H1, H2, H3.
  assert (G : forall p rx, is_matching xs ys p rx [] -> qn (length xs) - qn (length ys) = qn (length rx)).
  { intros p rx M. apply matching_length in M. destruct M as [-> ->]. rewrite !qn_add. cbn [length]. clear. qclra. }
  repeat split; auto.
  - destruct H1 as [H1|(p & rx & M & H1)]; auto. right. exists p, rx. split; auto.
    rewrite H1, (G _ _ M). clear. qclra.
  - intros p rx M. specialize (H3 _ _ M). rewrite (G _ _ M) in H3. clear - H3. qclra.
Qed.
Print Assumptions emd_1d_slow_meaning.

Theorem emd_1d_slow_agrees_everywhere_refuted : exists xs ys,
  emd_1d_dp exact xs ys <> Ok (emd_1d_slow exact xs ys).
Proof.
  exists [f 0 1], [f 3 2]. intros H.
  assert (E : is_val (emd_1d_dp exact [f 0 1] [f 3 2]) (3 # 2) = true) by (vm_compute; auto).
  assert (E2 : is_val (Ok (emd_1d_slow exact [f 0 1] [f 3 2])) 1 = true) by (vm_compute; auto).
  rewrite H in E. unfold is_val in *. apply qeqb_eq in E, E2. rewrite E in E2. vm_compute in E2. discriminate.
Qed.
Print Assumptions emd_1d_slow_agrees_everywhere_refuted.

Example emd_1d_slow_case :
  is_val (Ok (emd_1d_slow exact [f 7 8; f 0 1; f 1 2] [f 1 1; f 1 4])) (11 # 8) = true.
Proof. vm_compute. auto. Qed.
