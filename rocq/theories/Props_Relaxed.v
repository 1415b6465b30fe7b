(** How far the normalized distances are from satisfying the triangle
    inequality: property C114. *)
From Coq Require Import ZArith NArith QArith Qcanon List Bool Permutation Lia String.
From Verif Require Import Num Py ListAux PyDict Float64 EmdSpec EmdModel EmdProofs EmdFloatProofs NmdSpec NmdModel NmdProofs NmdFloatProofs
  BowSpec BowModel BowProofs RelaxedProofs RelaxedSharp Ex Props_Nmd Props_Bow.
Import ListNotations.
Open Scope string_scope.
Open Scope list_scope.
Open Scope Qc_scope.

(** The normalized distance of [ngram_movers_distance]: going through another
    word is never shorter than two thirds of the direct distance. *)
Theorem nmd_normalized_relaxed : forall w1 w2 w3 n d12 d23 d13, adequate n w1 -> adequate n w2 -> adequate n w3 ->
  call w1 w2 n false true = Ok d12 -> call w2 w3 n false true = Ok d23 -> call w1 w3 n false true = Ok d13 ->
  d13 <= Q2Qc (3 # 2) * (d12 + d23).
Proof.
  intros w1 w2 w3 n d12 d23 d13 A1 A2 A3. rewrite !call_norm by auto. intros H1 H2 H3. apply Ok_inj in H1, H2, H3. subst.
  apply dist_relaxed; [apply A1|apply A2|apply A3].
Qed.
Print Assumptions nmd_normalized_relaxed.

(** Three words meeting the hypotheses, with a factor above 13/10: the factor
    cannot be lowered to that. *)
Theorem nmd_normalized_factor_refuted : exists w1 w2 w3 d12 d23 d13,
  adequate 2 w1 /\ adequate 2 w2 /\ adequate 2 w3 /\
  call w1 w2 2 false true = Ok d12 /\ call w2 w3 2 false true = Ok d23 /\ call w1 w3 2 false true = Ok d13 /\
  Q2Qc (13 # 10) * (d12 + d23) < d13.
Proof.
  exists (w_ "cbbcbc"), (w_ "acbbcccbca"), (w_ "accca").
  assert (A : forall s, s = w_ "cbbcbc" \/ s = w_ "acbbcccbca" \/ s = w_ "accca" -> adequate 2 s).
  { intros s [-> | [-> | ->]]; (split; [split; intros H; vm_compute in H; intuition discriminate|vm_compute; lia]). }
  do 3 eexists. split; [apply A; auto|]. split; [apply A; auto|]. split; [apply A; auto|].
  rewrite !call_norm by (apply A; auto). split; [reflexivity|]. split; [reflexivity|]. split; [reflexivity|].
  apply qltb_lt. vm_compute. reflexivity.
Qed.
Print Assumptions nmd_normalized_factor_refuted.

(** No factor below 3/2 will do, for any [n]. *)
Lemma sharp_adequate n m z : (2 <= n)%nat -> (n <= m)%nat -> z <> 2%N -> z <> 3%N -> adequate n (plain n m z).
Proof.
  intros Hn Hm Z2 Z3. split; [split; intros H; apply repeat_spec in H; congruence|]. split; auto. unfold plain. rewrite repeat_length. nia.
Qed.
Lemma sharp_adequate_blocks n m : (2 <= n)%nat -> (n <= m)%nat -> adequate n (blocks 97 98 n m).
Proof.
  intros Hn Hm. split; [|split; auto; unfold blocks; rewrite map_length, seq_length; nia].
  split; intros H; apply in_map_iff in H; destruct H as (i & E & _); unfold letter in E; destruct (Nat.ltb _ _); discriminate.
Qed.
Theorem nmd_normalized_factor_best : forall n k, (2 <= n)%nat -> k < Q2Qc (3 # 2) -> exists w1 w2 w3 d12 d23 d13,
  adequate n w1 /\ adequate n w2 /\ adequate n w3 /\
  call w1 w2 n false true = Ok d12 /\ call w2 w3 n false true = Ok d23 /\ call w1 w3 n false true = Ok d13 /\
  k * (d12 + d23) < d13.
Proof.
  intros n k Hn Hk. destruct (sharp_words k n 97 98 Hn Hk) as (m & Hm & H); try discriminate. cbv zeta in H.
  pose proof (sharp_adequate n m 97 Hn Hm ltac:(discriminate) ltac:(discriminate)) as A. pose proof (sharp_adequate n m 98 Hn Hm ltac:(discriminate) ltac:(discriminate)) as C.
  pose proof (sharp_adequate_blocks n m Hn Hm) as B.
  exists (plain n m 97), (blocks 97 98 n m), (plain n m 98). do 3 eexists. split; auto. split; auto. split; auto.
  rewrite !call_norm by auto. split; [reflexivity|]. split; [reflexivity|]. split; [reflexivity|]. exact H.
Qed.
Print Assumptions nmd_normalized_factor_best.

(** With blocks of ten letters the factor is above 6/5 already, for [n = 2]. *)
Example factor_best_case : let a := plain 2 10 97 in let b := blocks 97 98 2 10 in let c := plain 2 10 98 in
  firstn 30 b = w_ "aaaaaaaaaabbbbbbbbbbaaaaaaaaaa" /\ List.length b = 200%nat /\
  match call a b 2 false true, call b c 2 false true, call a c 2 false true with
  | Ok x, Ok y, Ok z => qltb (Q2Qc (6 # 5) * (x + y)) z | _, _, _ => false end = true.
Proof. vm_compute. auto. Qed.

Lemma bow_diff (a b : list str) : gap a b = diff (List.length a) (List.length b).
Proof. reflexivity. Qed.

Lemma bow_relaxed_parts n (a b c : list str) p q m :
  pairing a b p -> pairing b c q -> (forall qs, pairing a c qs -> pair_cost (wcost n) m <= pair_cost (wcost n) qs) ->
  qn (gap a c) + pair_cost (wcost n) m <=
  half3 * (pair_cost (wcost n) p + pair_cost (wcost n) q) + (qn (gap a b) + qn (gap b c)).
Proof.
  intros P Q M.
  destruct (pairings_relaxed str (wcost n) half3 (fun x y => proj1 (wcost_range n x y)) (fun x y => proj2 (wcost_range n x y))
    ltac:(apply qleb_le; reflexivity) (wcost_relaxed n) a b c p q P Q) as (r & R & H).
  specialize (M r R). rewrite !bow_diff. revert H M.
  generalize (pair_cost (wcost n) m), (pair_cost (wcost n) r), (pair_cost (wcost n) p), (pair_cost (wcost n) q).
  generalize (qn (diff (List.length a) (List.length c))), (qn (diff (List.length a) (List.length b))), (qn (diff (List.length b) (List.length c))).
  clear. unfold half3. intros. qclra.
Qed.

(** The distance of [bow_ngram_movers_distance], normalized or not, for any
    words at all: the same factor. *)
Theorem bow_relaxed : forall solver b1 b2 b3 n m d12 d23 d13, optimal_solver solver -> (2 <= n)%nat ->
  (forall b, b = b1 \/ b = b2 \/ b = b3 -> exists ws, bag_words b ws /\ Forall clean ws) ->
  bow exact solver b1 b2 n false m = Ok d12 -> bow exact solver b2 b3 n false m = Ok d23 ->
  bow exact solver b1 b3 n false m = Ok d13 ->
  d13 <= Q2Qc (3 # 2) * (d12 + d23).
Proof.
  intros solver b1 b2 b3 n m d12 d23 d13 O Hn B. change (Q2Qc (3 # 2)) with half3.
  destruct (B b1 ltac:(auto)) as (a & W1 & C1). destruct (B b2 ltac:(auto)) as (b & W2 & C2). destruct (B b3 ltac:(auto)) as (c & W3 & C3). clear B.
  pose proof O as [V _].
  rewrite (bow_value solver b1 b2 a b), (bow_value solver b2 b3 b c), (bow_value solver b1 b3 a c) by auto. cbv zeta.
  set (p := picked [] a b _). set (q := picked [] b c _). set (r := picked [] a c _).
  assert (P : pairing a b p) by (apply valid_pairing, assign_valid, V). assert (Q : pairing b c q) by (apply valid_pairing, assign_valid, V).
  assert (R : pairing a c r) by (apply valid_pairing, assign_valid, V).
  assert (M : forall qs, pairing a c qs -> pair_cost (wcost n) r <= pair_cost (wcost n) qs) by (intros qs; apply assign_optimal; auto).
  pose proof (bow_relaxed_parts n a b c p q r P Q M) as H.
  destruct (pair_cost_range n p) as [P0 _]. destruct (pair_cost_range n q) as [Q0 _]. destruct (pair_cost_range n r) as [R0 R1].
  pose proof (pairing_length _ _ _ R) as L. assert (R2 : pair_cost (wcost n) r <= qn (Nat.min (List.length a) (List.length c))) by (unfold str in *; rewrite <- L; exact R1).
  clear M P Q R L R1. clearbody p q r. revert H P0 Q0 R0 R2. generalize (pair_cost (wcost n) p), (pair_cost (wcost n) q), (pair_cost (wcost n) r).
  intros x y z H X Y Z Zm. pose proof (qn_nonneg (gap a b)) as G1. pose proof (qn_nonneg (gap b c)) as G2.
  assert (T : qn (gap a c) + z <= half3 * ((qn (gap a b) + x) + (qn (gap b c) + y))).
  { revert H X Y Z G1 G2. generalize (qn (gap a c)), (qn (gap a b)), (qn (gap b c)). clear. unfold half3. intros. qclra. }
  destruct m.
  2: { intros H1 H2 H3. apply Ok_inj in H1, H2, H3. subst. exact T. }
  destruct (Nat.eqb_spec (Nat.max (List.length a) (List.length b)) 0) as [|N1]; [discriminate|].
  destruct (Nat.eqb_spec (Nat.max (List.length b) (List.length c)) 0) as [|N2]; [discriminate|].
  destruct (Nat.eqb_spec (Nat.max (List.length a) (List.length c)) 0) as [|N3]; [discriminate|].
  intros H1 H2 H3. apply Ok_inj in H1, H2, H3. subst.
  assert (Up : qn (gap a c) + z <= qn (Nat.max (List.length a) (List.length c))).
  { replace (Nat.max (List.length a) (List.length c)) with (gap a c + Nat.min (List.length a) (List.length c))%nat by (unfold gap; lia).
    rewrite qn_add. apply Qcplus_le_compat; [apply Qcle_refl|exact Zm]. }
  assert (Pos : 0 < qn (Nat.max (List.length a) (List.length c))) by (apply qn_pos; lia).
  destruct (Nat.le_gt_cases (List.length b) (Nat.max (List.length a) (List.length c))) as [Le|Gt].
  - eapply Qcle_trans; [apply qdiv_le_mono; [exact Pos|exact T]|].
    assert (K : forall u v k : Qc, (half3 * (u + v)) / k = half3 * (u / k + v / k)) by (intros; unfold Qcdiv; ring). rewrite K.
    assert (U : 0 <= qn (gap a b) + x) by (revert G1 X; generalize (qn (gap a b)); clear; intros; qclra).
    assert (W : 0 <= qn (gap b c) + y) by (revert G2 Y; generalize (qn (gap b c)); clear; intros; qclra).
    assert (E1 : (qn (gap a b) + x) / qn (Nat.max (List.length a) (List.length c)) <= (qn (gap a b) + x) / qn (Nat.max (List.length a) (List.length b))).
    { apply qdiv_le_den; auto; [apply qn_pos; lia|apply qn_le; lia]. }
    assert (E2 : (qn (gap b c) + y) / qn (Nat.max (List.length a) (List.length c)) <= (qn (gap b c) + y) / qn (Nat.max (List.length b) (List.length c))).
    { apply qdiv_le_den; auto; [apply qn_pos; lia|apply qn_le; lia]. }
    revert E1 E2. generalize ((qn (gap a b) + x) / qn (Nat.max (List.length a) (List.length c))), ((qn (gap a b) + x) / qn (Nat.max (List.length a) (List.length b))),
      ((qn (gap b c) + y) / qn (Nat.max (List.length a) (List.length c))), ((qn (gap b c) + y) / qn (Nat.max (List.length b) (List.length c))).
    clear. unfold half3. intros. qclra.
  - replace (Nat.max (List.length a) (List.length b)) with (List.length b) by lia. replace (Nat.max (List.length b) (List.length c)) with (List.length b) by lia.
    replace ((qn (gap a b) + x) / qn (List.length b) + (qn (gap b c) + y) / qn (List.length b)) with
      ((x + y + (qn (gap a b) + qn (gap b c))) / qn (List.length b)) by (unfold Qcdiv; ring).
    apply ineq_bow_c; auto.
    + apply qn_le. lia.
    + revert X Y. clear. intros. qclra.
    + assert (G : (Nat.max (List.length a) (List.length c) + Nat.max (List.length a) (List.length c) + (gap a b + gap b c) >= List.length b + List.length b)%nat) by (unfold gap; lia).
      apply qn_le in G. rewrite !qn_add in G. revert G. generalize (qn (Nat.max (List.length a) (List.length c))), (qn (gap a b)), (qn (gap b c)), (qn (List.length b)).
      clear. intros. qclra.
Qed.
Print Assumptions bow_relaxed.

(** Bags of one word each: again not with the factor 13/10. *)
Theorem bow_factor_refuted : exists solver b1 b2 b3 d12 d23 d13, optimal_solver solver /\
  (forall b, b = b1 \/ b = b2 \/ b = b3 -> exists ws, bag_words b ws /\ Forall clean ws) /\
  bow exact solver b1 b2 2 false true = Ok d12 /\ bow exact solver b2 b3 2 false true = Ok d23 /\
  bow exact solver b1 b3 2 false true = Ok d13 /\ Q2Qc (13 # 10) * (d12 + d23) < d13.
Proof.
  exists brute_solver, (bag_ ["cbbcbc"]), (bag_ ["acbbcccbca"]), (bag_ ["accca"]).
  assert (E : match bow exact brute_solver (bag_ ["cbbcbc"]) (bag_ ["accca"]) 2 false true,
    bow exact brute_solver (bag_ ["cbbcbc"]) (bag_ ["acbbcccbca"]) 2 false true, bow exact brute_solver (bag_ ["acbbcccbca"]) (bag_ ["accca"]) 2 false true with
    | Ok x, Ok y, Ok z => qltb (Q2Qc (13 # 10) * (y + z)) x | _, _, _ => false end = true) by (vm_compute; reflexivity).
  destruct (bow exact brute_solver (bag_ ["cbbcbc"]) (bag_ ["accca"]) 2 false true) as [x|]; [|discriminate].
  destruct (bow exact brute_solver (bag_ ["cbbcbc"]) (bag_ ["acbbcccbca"]) 2 false true) as [y|]; [|discriminate].
  destruct (bow exact brute_solver (bag_ ["acbbcccbca"]) (bag_ ["accca"]) 2 false true) as [z|]; [|discriminate].
  exists y, z, x. split; [apply brute_solver_optimal|]. split.
  - intros b [-> | [-> | ->]]; eexists; (split; [apply bag_words_|solve_words]).
  - repeat split; auto. apply qltb_lt; auto.
Qed.
Print Assumptions bow_factor_refuted.

(** Nor with any other factor below 3/2. *)
Lemma bow_single solver n w1 w2 m : valid_solver solver -> clean w1 -> clean w2 -> (2 <= n)%nat ->
  bow exact solver (BIter [PStr w1]) (BIter [PStr w2]) n false m = Ok (wcost n w1 w2).
Proof.
  intros V C1 C2 Hn. rewrite (bow_value solver _ _ [w1] [w2]) by (auto; try reflexivity; repeat constructor; auto).
  cbv zeta. set (p := picked [] [w1] [w2] _). assert (P : pairing [w1] [w2] p) by (apply valid_pairing, assign_valid, V). clearbody p.
  pose proof (pairing_length _ _ _ P) as L. destruct p as [|[u v] [|]]; try discriminate. destruct P as (la & lb & P1 & P2 & _). cbn [map fst snd app] in P1, P2.
  pose proof (Permutation_length P1) as L1. pose proof (Permutation_length P2) as L2. destruct la; [|discriminate]. destruct lb; [|discriminate].
  apply Permutation_length_1 in P1, P2. subst u v.
  assert (E : qn (gap [w1] [w2]) + pair_cost (wcost n) [(w1, w2)] = wcost n w1 w2).
  { unfold pair_cost. cbn [map qsum fst snd]. change (qn (gap [w1] [w2])) with 0. ring. }
  unfold str in *. rewrite E. destruct m; [|reflexivity]. change (Nat.max (List.length [w1]) (List.length [w2])) with 1%nat. cbn [Nat.eqb]. f_equal. change (qn 1) with 1. field. discriminate.
Qed.
Theorem bow_factor_best : forall solver n k m, valid_solver solver -> (2 <= n)%nat -> k < Q2Qc (3 # 2) -> exists b1 b2 b3 d12 d23 d13,
  (forall b, b = b1 \/ b = b2 \/ b = b3 -> exists ws, bag_words b ws /\ Forall clean ws) /\
  bow exact solver b1 b2 n false m = Ok d12 /\ bow exact solver b2 b3 n false m = Ok d23 /\
  bow exact solver b1 b3 n false m = Ok d13 /\ k * (d12 + d23) < d13.
Proof.
  intros solver n k m V Hn Hk. destruct (sharp_words k n 97 98 Hn Hk) as (l & Hl & H); try discriminate. cbv zeta in H.
  pose proof (sharp_adequate n l 97 Hn Hl ltac:(discriminate) ltac:(discriminate)) as A. pose proof (sharp_adequate n l 98 Hn Hl ltac:(discriminate) ltac:(discriminate)) as C.
  pose proof (sharp_adequate_blocks n l Hn Hl) as B.
  exists (BIter [PStr (plain n l 97)]), (BIter [PStr (blocks 97 98 n l)]), (BIter [PStr (plain n l 98)]). do 3 eexists. split; [|split; [|split; [|split]]].
  - intros b [-> | [-> | ->]]; eexists; (split; [|constructor; [|constructor]]); try (cbn [bag_words map]; reflexivity); [apply A|apply B|apply C].
  - apply bow_single; auto; [apply A|apply B].
  - apply bow_single; auto; [apply B|apply C].
  - apply bow_single; auto; [apply A|apply C].
  - rewrite !wcost_adequate by (try apply A; try apply B; try apply C). exact H.
Qed.
Print Assumptions bow_factor_best.

(** A larger bag in the middle: the distances 1/2 and 1/2, and 1 directly. *)
Example bow_relaxed_case :
  is_val (bow exact brute_solver (bag_ ["cat"]) (bag_ ["cat"; "dog"]) 2 false true) (1 # 2) = true /\
  is_val (bow exact brute_solver (bag_ ["cat"; "dog"]) (bag_ ["dog"]) 2 false true) (1 # 2) = true /\
  is_val (bow exact brute_solver (bag_ ["cat"]) (bag_ ["dog"]) 2 false true) 1 = true.
Proof. vm_compute. auto. Qed.
