(** Accuracy of [emd_1d_hybrid] and [emd_1d_old] in binary64, and the
    comparison of experiments/correctness-test.py: properties C96 and C97.
    Each theorem is followed by a concrete case. *)
From Coq Require Import ZArith QArith Qcanon List Permutation Lia Bool.
From Verif Require Import Num Py Float64 EmdSpec EmdModel EmdProofs EmdFloatProofs EmdSlowProofs HybridModel GreedyProofs HybridProofs HybridFloatProofs Accuracy Ex.
From Verif Require Import HybridAccuracy CheckModel CheckProofs.
Import ListNotations.
Open Scope Qc_scope.

Lemma unit_64 : 0 <= u64 /\ u64 <= 1. Proof. split; discriminate. Qed.
Lemma err_64 n : qn (6 * n) * (u64 * qn (n + 1)) = qn (6 * (n * (n + 1))) * f 1 (2 ^ 53).
Proof.
  change (f 1 (2 ^ 53)) with u64. replace (6 * (n * (n + 1)))%nat with (6 * n * (n + 1))%nat by lia.
  unfold qn at 3. rewrite Nat2Z.inj_mul.
  replace (qz (Z.of_nat (6 * n) * Z.of_nat (n + 1))) with (qn (6 * n) * qn (n + 1)); [ring|].
  unfold qn, qz. apply Qc_is_canon. rewrite this_mul, !this_const, inject_Z_mult. reflexivity.
Qed.
Lemma budget_64 n : (Z.of_nat n <= 2 ^ 25)%Z -> qn (6 * n) * (u64 * qn (n + 1)) <= 1.
Proof.
  intros H. rewrite err_64. apply Qcle_trans with (qz (6 * (2 ^ 25 * (2 ^ 25 + 1))) * f 1 (2 ^ 53)).
  - apply qmul_le_r; [discriminate|]. unfold qn. apply (proj1 (qz_le _ _)). nia.
  - vm_compute. discriminate.
Qed.
Lemma close_within_1 xs ys : (forall x y, In x xs -> In y ys -> qabs (x - y) <= 1) -> close 1 xs ys.
Proof. auto. Qed.

(** *** C96: absolute error *)
Theorem emd_1d_hybrid_accurate : forall xs ys d e, (forall x y, In x xs -> In y ys -> qabs (x - y) <= 1) ->
  let n := (length xs + length ys)%nat in (Z.of_nat n <= 2 ^ 25)%Z ->
  emd_1d_hybrid rnd64 xs ys = Ok d -> is_emd xs ys e -> qabs (d - e) <= qn (6 * (n * (n + 1))) * f 1 (2 ^ 53).
Proof.
  intros xs ys d e C n Hn H He. rewrite <- (emd_unique xs ys e He), <- err_64.
  destruct (hybrid_err u64 (proj1 unit_64) (proj2 unit_64) rnd64 rnd64_lawful rnd64_accurate xs ys C ltac:(unfold small; lia) (budget_64 n Hn)) as (d' & E' & B).
  rewrite H in E'. injection E' as <-. exact B.
Qed.
Print Assumptions emd_1d_hybrid_accurate.

Theorem emd_1d_old_accurate : forall xs ys d e, (forall x y, In x xs -> In y ys -> qabs (x - y) <= 1) ->
  let n := (length xs + length ys)%nat in (Z.of_nat n <= 2 ^ 25)%Z ->
  emd_1d_old rnd64 xs ys = Ok d -> is_emd xs ys e -> qabs (d - e) <= qn (6 * (n * (n + 1))) * f 1 (2 ^ 53).
Proof.
  intros xs ys d e C n Hn H He. rewrite <- (emd_unique xs ys e He), <- err_64.
  destruct (old_err u64 (proj1 unit_64) (proj2 unit_64) rnd64 rnd64_lawful rnd64_accurate xs ys C ltac:(unfold small; lia) (budget_64 n Hn)) as (d' & E' & B).
  rewrite H in E'. injection E' as <-. exact B.
Qed.
Print Assumptions emd_1d_old_accurate.

Lemma is_zero r : match r with Ok v => qeqb v 0 | Err _ => false end = true -> r = Ok 0.
Proof. destruct r as [v|]; [|discriminate]. intros H. apply qeqb_eq in H. congruence. Qed.

(** No relative bound holds: two points at distance 2^-60 have distance 0. *)
Theorem emd_1d_hybrid_relative_refuted : forall k : Qc, 0 <= k -> k < 1 -> exists xs ys d e,
  in_unit xs /\ in_unit ys /\ emd_1d_hybrid rnd64 xs ys = Ok d /\ emd_1d_old rnd64 xs ys = Ok d /\ is_emd xs ys e /\ ~ qabs (d - e) <= k * e.
Proof.
  intros k K0 K1. exists [f 1 (2 ^ 60)], [0], 0, (emd [f 1 (2 ^ 60)] [0]).
  assert (E : emd [f 1 (2 ^ 60)] [0] = f 1 (2 ^ 60)) by (apply qeqb_eq; vm_compute; reflexivity).
  split; [repeat constructor; discriminate|]. split; [repeat constructor; discriminate|].
  split; [apply is_zero; vm_compute; reflexivity|]. split; [apply is_zero; vm_compute; reflexivity|]. split; [apply emd_is_emd|].
  rewrite E. set (e := f 1 (2 ^ 60)). assert (P : 0 < e) by reflexivity.
  intros H. assert (k * e < 1 * e) by (apply Qcmult_lt_compat_r; auto).
  rewrite Qcmult_1_l in H0. set (t := k * e) in *. clearbody t e. clear - H H0 P. qclra.
Qed.
Print Assumptions emd_1d_hybrid_relative_refuted.

(** Components, a greedy step at each end and a fallback; the results are not
    the true value. *)
Definition r64 (a : Z) (b : positive) : Qc := rnd64 (f a b).
Definition case_x : list Qc := [r64 1 3; r64 2 7; r64 7 11; r64 1 9; r64 4 9; r64 1 10; r64 23 100].
Definition case_y : list Qc := [r64 5 13; r64 7 15; r64 8 15; r64 21 100].
Example hybrid_accuracy_case :
  in_unit case_x /\ in_unit case_y /\
  match emd_1d_hybrid rnd64 case_x case_y, emd_1d_dp exact case_x case_y with
  | Ok d, Ok e => negb (qeqb d e) && qleb (qabs (d - e)) (qn (6 * (11 * 12)) * f 1 (2 ^ 53)) | _, _ => false end = true /\
  match emd_1d_old rnd64 case_x case_y, emd_1d_dp exact case_x case_y with
  | Ok d, Ok e => negb (qeqb d e) && qleb (qabs (d - e)) (qn (6 * (11 * 12)) * f 1 (2 ^ 53)) | _, _ => false end = true.
Proof.
  split; [repeat constructor; vm_compute; discriminate|]. split; [repeat constructor; vm_compute; discriminate|].
  split; vm_compute; reflexivity.
Qed.

(** *** C97: [check_correct_emd_1d] *)
(** [1e-9] as a float. *)
Definition nano : Qc := rnd64 (f 1 1000000000).

Lemma nano_enough n : (n <= 860)%nat -> qn 2 * (qn (6 * n) * (u64 * qn (n + 1))) * (1 + u64) <= nano.
Proof.
  intros H. apply Qcle_trans with (qn 2 * (qn (6 * 860) * (u64 * qn (860 + 1))) * (1 + u64)); [|vm_compute; discriminate].
  apply qmul_le_r; [discriminate|]. apply qmul_le_l; [discriminate|].
  apply qmul_le; [apply qn_nonneg| |apply qn_le; lia|].
  - apply qmul_nonneg; [discriminate|apply qn_nonneg].
  - apply qmul_le_l; [discriminate|]. apply qn_le. lia.
Qed.

Theorem check_correct_accepts : forall xs ys, (length xs + length ys <= 860)%nat -> in_unit xs -> in_unit ys ->
  exists d, emd_1d_old rnd64 xs ys = Ok d /\ check_correct_emd_1d rnd64 nano xs ys nano = Ok d.
Proof.
  intros xs ys Hn Hx Hy. assert (C : close 1 xs ys) by (apply in_unit_close; auto).
  assert (S : small (length xs + length ys)) by (unfold small; lia).
  assert (B := budget_64 (length xs + length ys) ltac:(lia)).
  destruct (old_err u64 (proj1 unit_64) (proj2 unit_64) rnd64 rnd64_lawful rnd64_accurate xs ys C S B) as (d & E & _).
  exists d. split; auto. rewrite (check_ok u64 (proj1 unit_64) (proj2 unit_64) rnd64 rnd64_lawful rnd64_accurate xs ys C S B); auto.
  apply nano_enough; auto.
Qed.
Print Assumptions check_correct_accepts.

(** In exact arithmetic it accepts lists of any size, whatever the tolerance. *)
Theorem check_correct_exact : forall rel tol xs ys, 0 <= tol -> in_unit xs -> in_unit ys ->
  exists d, check_correct_emd_1d exact rel xs ys tol = Ok d /\ is_emd xs ys d.
Proof.
  intros rel tol xs ys T0 Hx Hy. exists (emd xs ys). split; [|apply emd_is_emd].
  assert (C : close 1 xs ys) by (apply in_unit_close; auto).
  unfold check_correct_emd_1d. rewrite (proj2 (in_unit_forallb xs) Hx), (proj2 (in_unit_forallb ys) Hy). cbn [negb].
  change (emd_1d_dp_optimized exact xs ys) with (emd_1d_dp exact xs ys). rewrite hybrid_exact by (apply close_1_2; auto). rewrite old_exact, emd_1d_dp_exact by auto. cbn [bind].
  replace (qltb tol 0) with false by (symmetry; unfold qltb; apply negb_false_iff, qleb_le; auto).
  assert (I : isclose exact rel tol (emd xs ys) (emd xs ys) = true).
  { unfold isclose. rewrite (proj2 (qeqb_eq _ _) eq_refl). reflexivity. }
  rewrite !I. reflexivity.
Qed.
Print Assumptions check_correct_exact.

(** A number outside [0, 1] is reported, whatever the sizes and tolerances. *)
Theorem check_correct_rejects : forall rel tol xs ys, (exists v, In v (xs ++ ys) /\ (v < 0 \/ 1 < v)) ->
  check_correct_emd_1d rnd64 rel xs ys tol = Err AssertionError.
Proof.
  intros rel tol xs ys (v & I & H). apply check_range. unfold in_unit. rewrite !Forall_forall. intros [Hx Hy].
  apply in_app_iff in I. destruct I as [I|I]; [apply Hx in I|apply Hy in I]; clear - I H; destruct I, H; qclra.
Qed.
Print Assumptions check_correct_rejects.

(** Exchanging the lists changes nothing: the last assertion of the script. *)
Theorem check_correct_symmetric : forall rel tol xs ys,
  check_correct_emd_1d rnd64 rel xs ys tol = check_correct_emd_1d rnd64 rel ys xs tol.
Proof. intros. apply check_sym, rnd64_lawful. Qed.
Print Assumptions check_correct_symmetric.

(** Without the absolute tolerance correct functions are reported. *)
Theorem check_correct_tolerance_refuted : exists xs ys, in_unit xs /\ in_unit ys /\
  check_correct_emd_1d rnd64 nano xs ys 0 = Err AssertionError.
Proof.
  exists [f 1 (2 ^ 60)], [0]. split; [repeat constructor; discriminate|]. split; [repeat constructor; discriminate|].
  match goal with |- ?t = _ => assert (H : match t with Err AssertionError => true | _ => false end = true) by (vm_compute; reflexivity); destruct t as [|[]]; congruence end.
Qed.
Print Assumptions check_correct_tolerance_refuted.

Example check_correct_case :
  (length case_x + length case_y <= 860)%nat /\ in_unit case_x /\ in_unit case_y /\
  match check_correct_emd_1d rnd64 nano case_x case_y nano, emd_1d_dp exact case_x case_y with
  | Ok d, Ok e => negb (qeqb d e) | _, _ => false end = true /\
  check_correct_emd_1d rnd64 nano [f 1 2] [f 3 2] nano = Err AssertionError.
Proof.
  split; [cbn; lia|]. split; [repeat constructor; vm_compute; discriminate|]. split; [repeat constructor; vm_compute; discriminate|].
  split; [vm_compute; reflexivity|]. apply check_correct_rejects. exists (f 3 2). split; [cbn; auto|]. right. reflexivity.
Qed.
