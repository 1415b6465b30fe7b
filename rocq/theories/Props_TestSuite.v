(** The consistency tests of tests/test_emd_correctness.py and the sweep of
    experiments/correctness-test.py: property C110.  Each theorem is followed
    by a concrete case. *)
From Coq Require Import ZArith QArith Qcanon List Permutation Lia Bool.
From Verif Require Import Num Py Float64 EmdSpec EmdModel EmdProofs EmdFloatProofs EmdSlowProofs HybridModel GreedyProofs HybridProofs HybridFloatProofs Accuracy Ex.
From Verif Require Import HybridAccuracy CheckModel CheckProofs Props_HybridAccuracy TestSuiteModel TestSuiteProofs.
Import ListNotations.
Open Scope Qc_scope.

(** The check of the tests accepts lists whose points are at most 1 apart, in
    [0, 1] or not. *)
Theorem check_implementations_accepts : forall xs ys, (length xs + length ys <= 860)%nat ->
  (forall x y, In x xs -> In y ys -> qabs (x - y) <= 1) ->
  exists d, emd_1d_old rnd64 xs ys = Ok d /\ check_emd_implementations rnd64 nano xs ys nano = Ok d.
Proof.
  intros xs ys Hn C. assert (S : small (length xs + length ys)) by (unfold small; lia).
  assert (B := budget_64 (length xs + length ys) ltac:(lia)).
  destruct (old_err u64 (proj1 unit_64) (proj2 unit_64) rnd64 rnd64_lawful rnd64_accurate xs ys C S B) as (d & E & _).
  exists d. split; auto. rewrite (impl_ok u64 (proj1 unit_64) (proj2 unit_64) rnd64 rnd64_lawful rnd64_accurate xs ys C S B); auto.
  apply nano_enough; auto.
Qed.
Print Assumptions check_implementations_accepts.

(** When it accepts, the four functions returned, and the results are equal up
    to the tolerance. *)
Theorem check_implementations_sound : forall xs ys d, check_emd_implementations rnd64 nano xs ys nano = Ok d ->
  emd_1d_old rnd64 xs ys = Ok d /\
  forall impl v, In impl [emd_1d_dp rnd64; emd_1d_dp_optimized rnd64; emd_1d_hybrid rnd64] -> impl xs ys = Ok v ->
    qabs (rnd64 (v - d)) <= nano \/ qabs (rnd64 (v - d)) <= qabs (rnd64 (nano * v)) \/ qabs (rnd64 (v - d)) <= qabs (rnd64 (nano * d)).
Proof.
  intros xs ys d H. apply impl_inv in H. destruct H as (Eo & T & dp & hy & E1 & E2 & E3 & I1 & I2). split; auto.
  assert (K : forall v, isclose rnd64 nano nano d v = true -> qabs (rnd64 (v - d)) <= nano \/ qabs (rnd64 (v - d)) <= qabs (rnd64 (nano * v)) \/ qabs (rnd64 (v - d)) <= qabs (rnd64 (nano * d))).
  { intros v I. unfold isclose in I. cbv zeta in I. rewrite !orb_true_iff, qeqb_eq, !qleb_le in I. destruct I as [<-|[[I|I]|I]]; auto.
    left. replace (d - d) with (qz 0) by (change (qz 0) with 0; ring). rewrite (rnd_int _ rnd64_lawful) by lia. discriminate. }
  intros impl v [<-|[<-|[<-|[]]]] E; apply K; congruence.
Qed.
Print Assumptions check_implementations_sound.

Theorem check_implementations_symmetric : forall rel tol xs ys,
  check_emd_implementations rnd64 rel xs ys tol = check_emd_implementations rnd64 rel ys xs tol.
Proof. intros. apply impl_sym, rnd64_lawful. Qed.
Print Assumptions check_implementations_symmetric.

(** The two tests with sample data pass for every sample whose points are at
    most 1 apart, of any size: no choice of data would make them fail. *)
Theorem sampled_tests_pass : forall xs ys, (forall x y, In x xs -> In y ys -> qabs (x - y) <= 1) ->
  test_symmetry rnd64 nano nano (xs, ys) = Ok tt /\ test_comprehensive rnd64 nano nano (xs, ys) = Ok tt.
Proof.
  intros xs ys C.
  assert (K : forall kx ky, In kx (py_range 1 4) -> In ky (py_range 1 4) -> forall c c', In c (firstn 3 (combinations (Z.to_nat kx) xs)) -> In c' (firstn 3 (combinations (Z.to_nat ky) ys)) ->
    exists d, check_emd_implementations rnd64 nano c c' nano = Ok d).
  { intros kx ky Ix Iy c c' Ic Ic'. apply py_range_in in Ix. apply py_range_in in Iy. apply firstn_in in Ic. apply firstn_in in Ic'.
    destruct (check_implementations_accepts c c') as (d & _ & E); [| |eauto].
    - rewrite (combinations_length _ _ _ Ic), (combinations_length _ _ _ Ic'). lia.
    - exact (combination_close 1 _ _ _ _ _ _ C Ic Ic'). }
  split; unfold test_symmetry, test_comprehensive; apply for_each_ok; intros kx Ix; apply for_each_ok; intros ky Iy; apply for_each_ok; intros c Ic; apply for_each_ok; intros c' Ic';
    destruct (K kx ky Ix Iy c c' Ic Ic') as (d & E).
  - rewrite (check_implementations_symmetric _ _ c' c), E. cbn [bind]. unfold assert_close. rewrite isclose_refl. reflexivity.
  - rewrite E. reflexivity.
Qed.
Print Assumptions sampled_tests_pass.

(** The tests as they stand; [sample_data] for any two sizes. *)
Theorem tests_pass : forall nx ny,
  test_input_validation rnd64 nano nano = Ok tt /\ test_edge_cases rnd64 nano nano = Ok tt /\
  test_symmetry rnd64 nano nano (sample_data rnd64 nx ny) = Ok tt /\ test_comprehensive rnd64 nano nano (sample_data rnd64 nx ny) = Ok tt.
Proof.
  intros nx ny. split; [vm_compute; reflexivity|]. split; [vm_compute; reflexivity|].
  destruct (sample_unit rnd64 nx ny rnd64_lawful) as [Hx Hy]. rewrite (surjective_pairing (sample_data rnd64 nx ny)).
  apply sampled_tests_pass. apply in_unit_close; auto.
Qed.
Print Assumptions tests_pass.

(** The sweep of the script passes for samples of up to 860 points. *)
Theorem script_sweep_passes : forall xs ys, (length xs + length ys <= 860)%nat -> in_unit xs -> in_unit ys ->
  script_sweep rnd64 nano nano (xs, ys) = Ok tt.
Proof.
  intros xs ys Hn Hx Hy. unfold script_sweep. apply for_each_ok; intros kx Ix; apply for_each_ok; intros ky Iy; apply for_each_ok; intros c Ic; apply for_each_ok; intros c' Ic'.
  destruct (check_correct_accepts c c') as (d & _ & E).
  - pose proof (combination_le _ _ _ Ic). pose proof (combination_le _ _ _ Ic'). lia.
  - apply (combination_unit _ _ _ Hx Ic).
  - apply (combination_unit _ _ _ Hy Ic').
  - rewrite (check_correct_symmetric _ _ c' c), E. cbn [bind]. unfold assert_close. rewrite isclose_refl. reflexivity.
Qed.
Print Assumptions script_sweep_passes.

(** The commented-out part of [test_input_validation] expects an
    [AssertionError] for positions outside [0, 1].  There is none. *)
Theorem todo_test_refuted :
  (exists d, check_emd_implementations rnd64 nano [lit rnd64 (-1) 10; lit rnd64 5 10; lit rnd64 9 10]
     [lit rnd64 2 10; lit rnd64 4 10; lit rnd64 6 10; lit rnd64 8 10] nano = Ok d) /\
  (exists d, check_emd_implementations rnd64 nano [lit rnd64 1 10; lit rnd64 5 10; lit rnd64 9 10]
     [lit rnd64 2 10; lit rnd64 11 10; lit rnd64 6 10] nano = Ok d).
Proof.
  split; match goal with |- exists d, ?t = _ => assert (H : match t with Ok _ => true | _ => false end = true) by (vm_compute; reflexivity); destruct t; [eauto|discriminate] end.
Qed.
Print Assumptions todo_test_refuted.

(** For points further apart than 1 the functions need not agree, and the
    check says so. *)
Theorem check_implementations_beyond_one_refuted : exists xs ys,
  (forall x y, In x xs -> In y ys -> qabs (x - y) <= Q2Qc (9 # 8)) /\
  check_emd_implementations rnd64 nano xs ys nano = Err AssertionError.
Proof.
  exists [f 0 1; f 0 1; f 18 8], [f 9 8; f 9 8]. split.
  - intros x y Hx Hy. simpl in Hx, Hy. destruct Hx as [<-|[<-|[<-|[]]]], Hy as [<-|[<-|[]]]; vm_compute; discriminate.
  - match goal with |- ?t = _ => assert (H : match t with Err AssertionError => true | _ => false end = true) by (vm_compute; reflexivity); destruct t as [|[]]; congruence end.
Qed.
Print Assumptions check_implementations_beyond_one_refuted.

(** The sample of the tests; the loops have cases to run; and lists whose
    results are not all the same float. *)
Definition near_x : list Qc := [r64 1 10; r64 1 2; r64 7 10; r64 (-1) 7].
Definition near_y : list Qc := [r64 2 10; r64 1 3; r64 8 10; r64 1 9].
Example test_suite_case :
  map this (fst (sample_data rnd64 3 9)) = [0; 1 # 2; 1; 0; 1 # 2; 1; 0; 1 # 2; 1]%Q /\
  map this (snd (sample_data rnd64 3 9)) = [0; 1 # 8; 1 # 4; 3 # 8; 1 # 2; 5 # 8; 3 # 4; 7 # 8; 1]%Q /\
  length (combinations 3 (fst (sample_data rnd64 3 9))) = 84%nat /\
  match emd_1d_old rnd64 near_x near_y, emd_1d_dp rnd64 near_x near_y with Ok a, Ok b => negb (qeqb a b) | _, _ => false end = true /\
  match check_emd_implementations rnd64 nano near_x near_y nano with Ok _ => true | _ => false end = true.
Proof. split; [|split; [|split; [|split]]]; vm_compute; reflexivity. Qed.
