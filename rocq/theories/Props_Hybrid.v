(** Theorems about nmd/emd_1d.py ([emd_1d_hybrid], [emd_1d_old]): properties
    C07, C08 and C48. *)
From Coq Require Import ZArith QArith Qcanon List Permutation Lia.
From Verif Require Import Num Py Float64 EmdSpec EmdModel EmdProofs EmdFloatProofs EmdSlowProofs HybridModel HybridProofs HybridFloatProofs Ex.
Import ListNotations.
Open Scope Qc_scope.

(** *** C07 *)
Theorem emd_1d_hybrid_agrees : forall xs ys,
  (forall x y, In x xs -> In y ys -> qabs (x - y) <= Q2Qc 2) ->
  emd_1d_hybrid exact xs ys = emd_1d_dp exact xs ys.
Proof. intros. rewrite emd_1d_dp_exact. apply hybrid_exact; auto. Qed.
Print Assumptions emd_1d_hybrid_agrees.

Theorem emd_1d_hybrid_optimal : forall xs ys, in_unit xs -> in_unit ys ->
  exists d, emd_1d_hybrid exact xs ys = Ok d /\ is_emd xs ys d.
Proof.
  intros xs ys Hx Hy. exists (emd xs ys). split; [|apply emd_is_emd].
  apply hybrid_exact, close_1_2, in_unit_close; auto.
Qed.
Print Assumptions emd_1d_hybrid_optimal.

(** The distance 2 is the exact limit. *)
Theorem emd_1d_hybrid_limit : forall r, Q2Qc 2 < r -> exists xs ys,
  (forall x y, In x xs -> In y ys -> qabs (x - y) <= r) /\
  emd_1d_hybrid exact xs ys <> emd_1d_dp exact xs ys.
Proof.
  intros r Hr. assert (H0 : 0 < Q2Qc 2) by reflexivity.
  exists [0], [r]. split.
  - intros x y [<-|[]] [<-|[]]. clear - Hr H0. qclra.
  - rewrite emd_1d_dp_exact. intros H. 
    assert (E : emd_1d_hybrid exact [0] [r] = Ok (qabs (0 - r) + 1 - 1)) by reflexivity.
    rewrite E in H. clear E. assert (H' : qabs (0 - r) + 1 - 1 = emd [0] [r]) by congruence. clear H.
    pose proof (emd_upper [0] [r]) as U. rewrite <- H' in U. 
    assert (U2 : qn (length [0] + length [r]) = Q2Qc 2) by reflexivity. rewrite U2 in U.
    clear - Hr H0 U. qclra.
Qed.
Print Assumptions emd_1d_hybrid_limit.

Example emd_1d_hybrid_case :
  in_unit [f 0 1; f 1 10; f 2 5; f 9 10; f 1 1] /\ in_unit [f 1 2; f 3 5; f 7 10] /\
  is_val (emd_1d_hybrid exact [f 0 1; f 1 10; f 2 5; f 9 10; f 1 1] [f 7 10; f 1 2; f 3 5]) (27 # 10) = true /\
  is_val (emd_1d_dp exact [f 0 1; f 1 10; f 2 5; f 9 10; f 1 1] [f 7 10; f 1 2; f 3 5]) (27 # 10) = true.
Proof. repeat split; try (repeat constructor; vm_compute; discriminate). Qed.

(** *** C08 *)
Theorem emd_1d_old_agrees : forall xs ys,
  (forall x y, In x xs -> In y ys -> qabs (x - y) <= 1) ->
  emd_1d_old exact xs ys = emd_1d_dp exact xs ys.
Proof. intros. rewrite emd_1d_dp_exact. apply old_exact; auto. Qed.
Print Assumptions emd_1d_old_agrees.

Theorem emd_1d_old_optimal : forall xs ys, in_unit xs -> in_unit ys ->
  exists d, emd_1d_old exact xs ys = Ok d /\ is_emd xs ys d.
Proof.
  intros xs ys Hx Hy. exists (emd xs ys). split; [|apply emd_is_emd].
  apply old_exact, in_unit_close; auto.
Qed.
Print Assumptions emd_1d_old_optimal.

(** Unlike [emd_1d_hybrid], already distances slightly above 1 break it. *)
Theorem emd_1d_old_agrees_up_to_two_refuted : exists xs ys,
  (forall x y, In x xs -> In y ys -> qabs (x - y) <= Q2Qc (9 # 8)) /\
  emd_1d_old exact xs ys <> emd_1d_dp exact xs ys.
Proof.
  exists [f 0 1; f 0 1; f 18 8], [f 9 8; f 9 8]. split.
  - intros x y Hx Hy. simpl in Hx, Hy. destruct Hx as [<-|[<-|[<-|[]]]], Hy as [<-|[<-|[]]]; vm_compute; discriminate.
  - apply same_val_false. vm_compute. reflexivity.
Qed.
Print Assumptions emd_1d_old_agrees_up_to_two_refuted.

Example emd_1d_old_case :
  is_val (emd_1d_old exact [f 0 1; f 1 10; f 2 5; f 9 10; f 1 1] [f 7 10; f 1 2; f 3 5]) (27 # 10) = true /\
  is_val (emd_1d_old exact [f 0 1; f 0 1; f 18 8] [f 9 8; f 9 8]) 3 = true /\
  is_val (emd_1d_dp exact [f 0 1; f 0 1; f 18 8] [f 9 8; f 9 8]) (13 # 4) = true /\
  is_val (emd_1d_hybrid exact [f 0 1; f 0 1; f 18 8] [f 9 8; f 9 8]) (13 # 4) = true.
Proof. vm_compute. auto. Qed.

(** *** C48: under rounding, on arbitrary positions *)
Theorem emd_1d_hybrid_rounded : forall rnd, lawful rnd -> forall xs ys,
  (Z.of_nat (length xs + length ys) <= 2 ^ 53)%Z ->
  exists d, emd_1d_hybrid rnd xs ys = Ok d /\ 0 <= d /\
    emd_1d_hybrid rnd ys xs = Ok d /\
    (forall xs' ys', Permutation xs xs' -> Permutation ys ys' -> emd_1d_hybrid rnd xs' ys' = Ok d) /\
    (Permutation xs ys -> d = 0).
Proof.
  intros rnd R xs ys S. destruct (ordered_ok rnd R (hybrid_rest rnd) xs ys S) as (d & H & Hd).
  { intros a b Hl Hs. apply hybrid_rest_ok; auto. unfold small in *. lia. }
  exists d. rewrite !hybrid_ordered. split; [auto|]. split; [auto|]. split; [|split].
  - rewrite ordered_sym; auto. apply (rnd_odd _ R).
  - intros xs' ys' P Q. rewrite hybrid_ordered, <- H. apply ordered_perm; symmetry; auto.
  - intros P. rewrite (ordered_self rnd R _ _ _ P) in H. congruence.
Qed.
Print Assumptions emd_1d_hybrid_rounded.

Theorem emd_1d_old_rounded : forall rnd, lawful rnd -> forall xs ys,
  (Z.of_nat (length xs + length ys) <= 2 ^ 53)%Z ->
  exists d, emd_1d_old rnd xs ys = Ok d /\ 0 <= d /\
    emd_1d_old rnd ys xs = Ok d /\
    (forall xs' ys', Permutation xs xs' -> Permutation ys ys' -> emd_1d_old rnd xs' ys' = Ok d) /\
    (Permutation xs ys -> d = 0).
Proof.
  intros rnd R xs ys S. destruct (ordered_ok rnd R (old_rest rnd) xs ys S) as (d & H & Hd).
  { intros a b Hl Hs. apply old_rest_ok; auto. }
  exists d. rewrite !old_ordered. split; [auto|]. split; [auto|]. split; [|split].
  - rewrite ordered_sym; auto. apply (rnd_odd _ R).
  - intros xs' ys' P Q. rewrite old_ordered, <- H. apply ordered_perm; symmetry; auto.
  - intros P. rewrite (ordered_self rnd R _ _ _ P) in H. congruence.
Qed.
Print Assumptions emd_1d_old_rounded.

(** With binary64 arithmetic [emd_1d_hybrid] does not separate: distinct
    positions can be at distance 0, where [emd_1d_dp] (C05) never errs. *)
Theorem emd_1d_hybrid_rounded_separates_refuted : exists xs ys,
  in_unit xs /\ in_unit ys /\ ~ Permutation xs ys /\ emd_1d_hybrid rnd64 xs ys = Ok 0.
Proof.
  exists [f 0 1], [f 1 18014398509481984]. split; [|split; [|split]].
  - repeat constructor; vm_compute; discriminate.
  - repeat constructor; vm_compute; discriminate.
  - intros P. apply Permutation_length_1 in P. apply qeqb_eq in P. revert P. vm_compute. discriminate.
  - assert (E : is_val (emd_1d_hybrid rnd64 [f 0 1] [f 1 18014398509481984]) 0 = true) by (vm_compute; reflexivity).
    unfold is_val in E. destruct (emd_1d_hybrid _ _ _) as [v|]; [|discriminate]. apply qeqb_eq in E. rewrite E. reflexivity.
Qed.
Print Assumptions emd_1d_hybrid_rounded_separates_refuted.

Example emd_1d_hybrid_rounded_case :
  same_val (emd_1d_hybrid rnd64 [rnd64 (f 1 3); rnd64 (f 2 3); f 0 1] [f 1 2; rnd64 (f 1 5)])
           (emd_1d_hybrid rnd64 [f 1 2; rnd64 (f 1 5)] [rnd64 (f 2 3); rnd64 (f 1 3); f 0 1]) = true /\
  is_val (emd_1d_hybrid rnd64 [rnd64 (f 1 3); rnd64 (f 2 3); f 0 1] [f 1 2; rnd64 (f 1 5)]) (13 # 10) = false /\
  is_val (emd_1d_old rnd64 [f 0 1; f 0 1; f 9 1] [f 5 1]) 6 = true.
Proof. vm_compute. auto. Qed.
