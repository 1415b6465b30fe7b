(** How far the bag-of-words distance in binary64 is from the true value:
    property C116. *)
From Coq Require Import ZArith NArith QArith Qcanon List Bool Permutation Lia String.
From Verif Require Import Num Py ListAux PyDict Float64 EmdSpec EmdModel EmdProofs EmdFloatProofs NmdSpec NmdModel NmdProofs NmdFloatProofs
  IndexTop BowSpec BowModel BowProofs Accuracy NmdAccuracy RelaxedProofs Ex Props_Nmd Props_Bow Props_Accuracy.
Import ListNotations.
Open Scope string_scope.
Open Scope list_scope.
Open Scope Qc_scope.

(** An assignment solver whose answers are valid and cost at most [eta] more
    than the cheapest assignment ([eta] = 0: optimal). *)
Definition near_solver (eta : Qc) (solver : list (list Qc) -> list nat * list nat) : Prop :=
  valid_solver solver /\
  forall costs cols, Forall (fun row => List.length row = cols) costs ->
  forall r, valid_assignment (List.length costs) cols r -> assignment_total costs (solver costs) <= assignment_total costs r + eta.

Lemma optimal_near solver : optimal_solver solver -> near_solver 0 solver.
Proof. intros [V O]. split; auto. intros costs cols F r Hr. rewrite Qcplus_0_r. eapply O; eauto. Qed.

Lemma assign_near eta solver c a b : 0 <= eta -> near_solver eta solver ->
  forall ps, pairing a b ps -> pair_cost c (picked [] a b (assign solver (matrix c a b))) <= pair_cost c ps + eta.
Proof.
  intros E [V O] ps P. destruct (pairing_valid [] a b ps P) as (r & Vr & <-).
  rewrite <- !matrix_total by (auto; apply assign_valid; auto). destruct a as [|w a].
  - destruct r as [is js]. destruct Vr as (_ & _ & L1 & L2 & _). cbn in L1, L2. destruct is, js; try discriminate.
    cbn [assign matrix map]. change (assignment_total (matrix c [] b) ([], [])) with 0. clear - E. qclra.
  - apply (O (matrix c (w :: a) b) (List.length b) (matrix_rows c (w :: a) b)). unfold matrix. rewrite map_length. exact Vr.
Qed.

Lemma qabs_pos x : 0 <= x -> qabs x = x.
Proof. intros H. unfold qabs. apply qleb_le in H. rewrite H. reflexivity. Qed.

(** *** The two summation loops *)
Section Sums.
Variable A : Type.
Variable c : A -> Qc.

Lemma add_acc K : small K -> forall l, (forall x, In x l -> 0 <= c x <= 1) -> forall k out, 0 <= out -> out <= qn k -> (k + List.length l <= K)%nat ->
  qabs (fold_left (fun out x => rnd64 (out + c x)) l out - (out + qsum (map c l))) <= qn (List.length l) * (qn K * u64).
Proof.
  intros SK. induction l as [|x l IH]; intros C k out O0 O1 Hk; cbn [fold_left map qsum List.length].
  - replace (out - (out + 0)) with 0 by ring. rewrite qn_0. replace (0 * (qn K * u64)) with 0 by ring. apply Qcle_refl.
  - destruct (C x (or_introl eq_refl)) as [C0 C1].
    assert (S1 : out + c x <= qn (S k)) by (rewrite qn_S; apply Qcplus_le_compat; auto).
    assert (S0 : 0 <= out + c x) by (clear - O0 C0; qclra).
    assert (Sk : small (S k)) by (eapply small_le; [|exact SK]; cbn [List.length] in Hk; lia).
    specialize (IH (fun y Hy => C y (or_intror Hy)) (S k) (rnd64 (out + c x)) (rnd_nonneg rnd64 rnd64_lawful _ S0) (rnd_le_qn rnd64 rnd64_lawful _ _ Sk S1)).
    cbn [List.length] in Hk. specialize (IH ltac:(lia)).
    pose proof (rnd64_accurate (out + c x)) as Ac. rewrite (qabs_pos (out + c x)) in Ac by exact S0.
    assert (B : u64 * (out + c x) <= qn K * u64).
    { rewrite Qcmult_comm. apply Qcmult_le_compat_r; [|discriminate]. eapply Qcle_trans; [exact S1|]. apply qn_le. lia. }
    rewrite qn_S. replace ((qn (List.length l) + 1) * (qn K * u64)) with (qn (List.length l) * (qn K * u64) + qn K * u64) by ring.
    revert IH Ac B. generalize (fold_left (fun out x => rnd64 (out + c x)) l (rnd64 (out + c x))), (rnd64 (out + c x)), (qn (List.length l) * (qn K * u64)), (qn K * u64), (u64 * (out + c x)), (qsum (map c l)).
    clear. intros. qclra.
Qed.

Lemma sub_acc K : small K -> forall l, (forall x, In x l -> 0 <= c x <= 1) -> forall out, qn (List.length l) <= out -> out <= qn K ->
  qabs (fold_left (fun out x => rnd64 (out - c x)) l out - (out - qsum (map c l))) <= qn (List.length l) * (qn K * u64).
Proof.
  intros SK. induction l as [|x l IH]; intros C out O0 O1; cbn [fold_left map qsum List.length].
  - replace (out - (out - 0)) with 0 by ring. rewrite qn_0. replace (0 * (qn K * u64)) with 0 by ring. apply Qcle_refl.
  - destruct (C x (or_introl eq_refl)) as [C0 C1]. cbn [List.length] in O0.
    assert (SL : small (List.length l)).
    { assert (H : qn (S (List.length l)) <= qn K) by (eapply Qcle_trans; eauto). apply qn_le in H. eapply small_le; [|exact SK]. lia. }
    rewrite qn_S in O0. assert (S1 : out - c x <= qn K) by (clear - O1 C0; qclra).
    assert (S0 : qn (List.length l) <= out - c x) by (clear - O0 C1; qclra).
    specialize (IH (fun y Hy => C y (or_intror Hy)) (rnd64 (out - c x))).
    assert (R0 : qn (List.length l) <= rnd64 (out - c x)) by (rewrite <- (rnd_qn rnd64 rnd64_lawful _ SL); apply (rnd_mono _ rnd64_lawful); exact S0).
    specialize (IH R0 (rnd_le_qn rnd64 rnd64_lawful _ _ SK S1)).
    assert (P : 0 <= out - c x) by (eapply Qcle_trans; [apply qn_nonneg|exact S0]).
    pose proof (rnd64_accurate (out - c x)) as Ac. rewrite (qabs_pos (out - c x)) in Ac by exact P.
    assert (B : u64 * (out - c x) <= qn K * u64) by (rewrite Qcmult_comm; apply Qcmult_le_compat_r; [exact S1|discriminate]).
    rewrite qn_S. replace ((qn (List.length l) + 1) * (qn K * u64)) with (qn (List.length l) * (qn K * u64) + qn K * u64) by ring.
    revert IH Ac B. generalize (fold_left (fun out x => rnd64 (out - c x)) l (rnd64 (out - c x))), (rnd64 (out - c x)), (qn (List.length l) * (qn K * u64)), (qn K * u64), (u64 * (out - c x)), (qsum (map c l)).
    clear. intros. qclra.
Qed.
End Sums.

(** *** The costs *)
Lemma fcost_near n G w1 w2 : adequate n w1 -> adequate n w2 -> (gram_count n w1 + gram_count n w2 <= G)%nat -> (Z.of_nat G <= 2 ^ 50)%Z ->
  qabs (fcost rnd64 n w1 w2 - wcost n w1 w2) <= qn (3 * G + 5) * u64.
Proof.
  intros A1 A2 HG HZ. destruct (nmd_accurate w1 w2 n false true (dist n w1 w2) A1 A2 (dist_is_nmd n w1 w2)) as (x & E & B); [lia|].
  unfold fcost, cost. rewrite E. rewrite wcost_adequate by (apply A1 || apply A2).
  change (meant n w1 w2 false true (dist n w1 w2)) with (dist n w1 w2 / qn (gram_count n w1 + gram_count n w2)) in B.
  eapply Qcle_trans; [exact B|]. change (f 1 (2 ^ 53)) with u64. apply Qcmult_le_compat_r; [|discriminate]. apply qn_le. lia.
Qed.

Lemma pair_cost_near {A} (c e : A -> A -> Qc) d (ps : list (A * A)) : (forall x y, In (x, y) ps -> qabs (c x y - e x y) <= d) ->
  qabs (pair_cost c ps - pair_cost e ps) <= qn (List.length ps) * d.
Proof.
  unfold pair_cost. induction ps as [|[x y] ps IH]; intros H; cbn [map qsum List.length fst snd].
  - rewrite qn_0. replace (0 - 0) with 0 by ring. replace (0 * d) with 0 by ring. apply Qcle_refl.
  - specialize (IH (fun x y I => H x y (or_intror I))). pose proof (H x y (or_introl eq_refl)) as H0. rewrite qn_S.
    replace ((qn (List.length ps) + 1) * d) with (qn (List.length ps) * d + d) by ring.
    revert IH H0. generalize (qsum (map (fun p => c (fst p) (snd p)) ps)), (qsum (map (fun p => e (fst p) (snd p)) ps)), (c x y), (e x y), (qn (List.length ps) * d).
    clear. intros. qclra.
Qed.

(** The value asked for, in terms of the true distance [d] of bags of [k] and
    [l] words. *)
Definition bow_meant (k l : nat) (invert normalize : bool) (d : Qc) : Qc :=
  (if invert then qn (Nat.max k l) - d else d) / (if normalize then qn (Nat.max k l) else 1).

(** *** C116 *)
Theorem bow_accurate : forall eta solver b1 b2 a b n G invert normalize d, 0 <= eta -> near_solver eta solver ->
  bag_words b1 a -> bag_words b2 b -> Forall (adequate n) a -> Forall (adequate n) b ->
  (forall w1 w2, In w1 a -> In w2 b -> (gram_count n w1 + gram_count n w2 <= G)%nat) -> (Z.of_nat G <= 2 ^ 50)%Z ->
  let k := Nat.min (List.length a) (List.length b) in let K := Nat.max (List.length a) (List.length b) in
  (0 < K)%nat -> (Z.of_nat K <= 2 ^ 53)%Z -> is_bow n a b d ->
  exists x, bow rnd64 solver b1 b2 n invert normalize = Ok x /\
    qabs (x - bow_meant (List.length a) (List.length b) invert normalize d) <=
    if normalize then qn (3 * G + K + 6) * f 1 (2 ^ 53) + eta / qn K else qn (k * (3 * G + K + 5)) * f 1 (2 ^ 53) + eta.
Proof.
  intros eta solver b1 b2 a b n G iv nz d E0 NS W1 W2 A1 A2 HG HZ k K HK SK B. change (f 1 (2 ^ 53)) with u64.
  pose proof NS as [V _]. assert (SmK : small K) by (unfold small; lia). rewrite Forall_forall in A1, A2.
  assert (Gc : forall w1 w2, In w1 a -> In w2 b -> cost rnd64 (PInt (Z.of_nat n)) (PStr w1) (PStr w2) = Ok (fcost rnd64 n w1 w2) /\ 0 <= fcost rnd64 n w1 w2 <= 1).
  { intros w1 w2 I1 I2. destruct (cost_rounded rnd64 n w1 w2 rnd64_lawful (A1 _ I1) (A2 _ I2)) as (x & E & X).
    - specialize (HG _ _ I1 I2). lia.
    - unfold fcost. rewrite E. auto. }
  rewrite (bow_loop rnd64 solver (fcost rnd64 n) b1 b2 a b n iv nz W1 W2 V) by (intros; apply Gc; auto). cbv zeta.
  set (c := fcost rnd64 n) in *. set (r := assign solver (matrix c a b)). set (ij := combine (fst r) (snd r)).
  pose proof (assign_valid solver c a b V) as Vr. fold r in Vr.
  assert (Li : List.length ij = k). { destruct Vr as (_ & _ & L1 & L2 & _). unfold ij, k. rewrite combine_length, L1, L2. lia. }
  assert (R : forall x, In x ij -> 0 <= BowProofs.entry (matrix c a b) x <= 1).
  { intros [i j] I. destruct Vr as (_ & _ & _ & _ & F1 & F2). rewrite Forall_forall in F1, F2.
    pose proof (F1 i (in_combine_l _ _ _ _ I)) as H1. pose proof (F2 j (in_combine_r _ _ _ _ I)) as H2.
    rewrite matrix_entry by auto. cbn [fst snd]. apply Gc; apply nth_In; auto. }
  assert (Sum : qsum (map (BowProofs.entry (matrix c a b)) ij) = pair_cost c (picked [] a b r)).
  { rewrite <- (matrix_total c a b r Vr). reflexivity. }
  (* the true cost *)
  destruct B as (e & He & ps & P & Opt & Ed).
  assert (Ee : forall x y, e x y = wcost n x y) by (intros x y; eapply word_cost_unique; [apply He|apply wcost_spec]).
  assert (Pc : forall qs, pair_cost e qs = pair_cost (wcost n) qs) by (intros; apply pair_cost_ext; auto).
  rewrite Pc in Ed. assert (Opt' : forall qs, pairing a b qs -> pair_cost (wcost n) ps <= pair_cost (wcost n) qs) by (intros; rewrite <- !Pc; auto).
  clear Opt He Pc Ee e.
  assert (Nr : forall qs, pairing a b qs -> qabs (pair_cost c qs - pair_cost (wcost n) qs) <= qn k * (qn (3 * G + 5) * u64)).
  { intros qs Q. pose proof (pairing_length _ _ _ Q) as Lq. unfold k. unfold str in *. rewrite <- Lq. apply pair_cost_near.
    intros x y I. destruct Q as (la & lb & Q1 & Q2 & _).
    assert (Ix : In x a) by (eapply Permutation_in; [symmetry; exact Q1|]; apply in_or_app; left; apply (in_map fst) in I; exact I).
    assert (Iy : In y b) by (eapply Permutation_in; [symmetry; exact Q2|]; apply in_or_app; left; apply (in_map snd) in I; exact I).
    apply fcost_near; auto. }
  assert (Pr : pairing a b (picked [] a b r)) by (apply valid_pairing; exact Vr).
  assert (Sd : qabs (pair_cost c (picked [] a b r) - pair_cost (wcost n) ps) <= qn k * (qn (3 * G + 5) * u64) + eta).
  { pose proof (assign_near eta solver c a b E0 NS ps P) as O1. fold r in O1. pose proof (Opt' _ Pr) as O2.
    pose proof (Nr _ Pr) as N1. pose proof (Nr _ P) as N2. revert O1 O2 N1 N2 E0.
    generalize (pair_cost c (picked [] a b r)), (pair_cost (wcost n) (picked [] a b r)), (pair_cost c ps), (pair_cost (wcost n) ps), (qn k * (qn (3 * G + 5) * u64)).
    clear. intros. qclra. }
  (* the loop *)
  assert (KG : K = (gap a b + k)%nat) by (unfold K, k, gap; lia).
  fold k K. set (out := if iv then _ else _).
  assert (Hout : qabs (out - (if iv then qn K - d else d)) <= qn (k * (3 * G + K + 5)) * u64 + eta /\ 0 <= out /\ out <= qn K).
  { assert (Bd : qn (k * (3 * G + K + 5)) * u64 = qn k * (qn (3 * G + 5) * u64) + qn k * (qn K * u64)).
    { replace (3 * G + K + 5)%nat with (3 * G + 5 + K)%nat by lia. rewrite qn_mul, qn_add. ring. }
    rewrite Bd. unfold out. destruct iv.
    - assert (Q0 : qn (List.length ij) <= qn k) by (rewrite Li; apply Qcle_refl). assert (Q1 : qn k <= qn K) by (apply qn_le; lia).
      pose proof (sub_acc _ (BowProofs.entry (matrix c a b)) K SmK ij R (qn k) Q0 Q1) as Sb. rewrite Li, Sum in Sb.
      destruct (fold_sub_range rnd64 rnd64_lawful (matrix c a b) ij R k k (qn k)) as [X Y]; try lia; try apply Qcle_refl; [eapply small_le; [|exact SmK]; lia|].
      split; [|split; [eapply Qcle_trans; [apply qn_nonneg|exact X]|eapply Qcle_trans; [exact Y|exact Q1]]].
      fold (gap a b) in Ed. rewrite Ed, KG at 1. rewrite qn_add. revert Sd Sb.
      generalize (fold_left (fun out ij => rnd64 (out - BowProofs.entry (matrix c a b) ij)) ij (qn k)), (pair_cost c (picked [] a b r)), (pair_cost (wcost n) ps),
        (qn k * (qn (3 * G + 5) * u64)), (qn k * (qn K * u64)), (qn (gap a b)), (qn k). clear. intros. qclra.
    - pose proof (add_acc _ (BowProofs.entry (matrix c a b)) K SmK ij R (gap a b) (qn (gap a b)) (qn_nonneg _) (Qcle_refl _) ltac:(lia)) as Sb. rewrite Li, Sum in Sb.
      destruct (fold_add_range rnd64 rnd64_lawful (matrix c a b) ij R (gap a b) (gap a b) (qn (gap a b))) as [X Y]; try apply Qcle_refl;
        [eapply small_le; [|exact SmK]; lia|eapply small_le; [|exact SmK]; lia|].
      split; [|split; [eapply Qcle_trans; [apply qn_nonneg|exact X]|eapply Qcle_trans; [exact Y|apply qn_le; lia]]].
      fold (gap a b) in Ed. rewrite Ed. revert Sd Sb.
      generalize (fold_left (fun out ij => rnd64 (out + BowProofs.entry (matrix c a b) ij)) ij (qn (gap a b))), (pair_cost c (picked [] a b r)), (pair_cost (wcost n) ps),
        (qn k * (qn (3 * G + 5) * u64)), (qn k * (qn K * u64)), (qn (gap a b)). clear. intros. qclra. }
  destruct Hout as (Ho & O1 & O2). clearbody out. unfold bow_meant. fold K. set (t := if iv then qn K - d else d) in *. clearbody t.
  destruct nz.
  2: { exists out. split; [reflexivity|]. replace (t / 1) with t by (field; discriminate). exact Ho. }
  destruct (Nat.eqb_spec K 0) as [|_]; [lia|]. eexists. split; [reflexivity|].
  assert (PK : 0 < qn K) by (apply qn_pos; exact HK). assert (NK : qn K <> 0) by (intros E; rewrite E in PK; discriminate).
  assert (D1 : qabs (out / qn K - t / qn K) <= qn (3 * G + K + 5) * u64 + eta / qn K).
  { replace (out / qn K - t / qn K) with ((out - t) / qn K) by (field; auto). rewrite qabs_div by auto.
    apply qdiv_le_mul; auto. eapply Qcle_trans; [exact Ho|].
    replace ((qn (3 * G + K + 5) * u64 + eta / qn K) * qn K) with (qn K * qn (3 * G + K + 5) * u64 + eta) by (field; auto).
    apply Qcplus_le_compat; [|apply Qcle_refl]. apply Qcmult_le_compat_r; [|discriminate]. rewrite <- qn_mul. apply qn_le.
    apply Nat.mul_le_mono_r. lia. }
  pose proof (rnd64_accurate (out / qn K)) as D2. rewrite (qabs_pos (out / qn K)) in D2 by (apply qdiv_nonneg; auto).
  assert (D3 : u64 * (out / qn K) <= u64).
  { rewrite Qcmult_comm. eapply Qcle_trans; [apply Qcmult_le_compat_r; [apply qdiv_le_1; eauto|discriminate]|]. replace (1 * u64) with u64 by ring. apply Qcle_refl. }
  replace (3 * G + K + 6)%nat with (S (3 * G + K + 5)) by lia. rewrite qn_S.
  replace ((qn (3 * G + K + 5) + 1) * u64) with (qn (3 * G + K + 5) * u64 + u64) by ring. revert D1 D2 D3.
  generalize (qn (3 * G + K + 5) * u64), (eta / qn K), (out / qn K), (t / qn K), (rnd64 (out / qn K)). intros. 
  set (v := u64 * q1) in *. clearbody v. set (u := u64) in *. clearbody u. clear - D1 D2 D3. qclra.
Qed.
Print Assumptions bow_accurate.

(** Two bags of three and two words in binary64: not the true value,
    but within the bound (at most 9 bigrams in a pair). *)
Example bow_accurate_case :
  Forall (adequate 2) (words_ ["cat"; "dog"; "bird"]) /\ Forall (adequate 2) (words_ ["dot"; "bat"]) /\ near_solver 0 brute_solver /\
  match bow rnd64 brute_solver (bag_ ["cat"; "dog"; "bird"]) (bag_ ["dot"; "bat"]) 2 false true,
        bow exact brute_solver (bag_ ["cat"; "dog"; "bird"]) (bag_ ["dot"; "bat"]) 2 false true with
  | Ok x, Ok d => negb (qeqb x d) && qleb (qabs (x - d)) (qn (3 * 9 + 3 + 6) * f 1 (2 ^ 53)) | _, _ => false end = true.
Proof.
  assert (Ad : forall w, clean w -> (0 <= List.length w)%nat -> adequate 2 w) by (intros w C _; split; auto; lia).
  split; [|split; [|split]].
  - assert (C : Forall clean (words_ ["cat"; "dog"; "bird"])) by solve_words. eapply Forall_impl; [|exact C]. intros w Hw. apply Ad; auto. lia.
  - assert (C : Forall clean (words_ ["dot"; "bat"])) by solve_words. eapply Forall_impl; [|exact C]. intros w Hw. apply Ad; auto. lia.
  - apply optimal_near, brute_solver_optimal.
  - vm_compute. reflexivity.
Qed.
