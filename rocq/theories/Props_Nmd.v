(** Theorems about nmd/nmd_core.py ([ngram_movers_distance]): properties
    C09 - C18.  Each is followed by a concrete case. *)
From Coq Require Import ZArith NArith QArith Qcanon List Bool Permutation Lia String.
From Verif Require Import Num Py PyDict Float64 EmdSpec EmdModel EmdFloatProofs NmdSpec NmdModel NmdProofs NmdFloatProofs Ex.
Import ListNotations.
Open Scope Qc_scope.

(** The function in exact arithmetic. *)
Notation nmd := (ngram_movers_distance exact).

(** A call on two strings with an integer [n]. *)
Notation call w1 w2 n invert normalize :=
  (ngram_movers_distance exact (PStr w1) (PStr w2) (PInt (Z.of_nat n)) invert normalize).

(** The words are marker-free and at least as long (padded) as [n], [n >= 2]. *)
Definition adequate (n : nat) (w : str) : Prop :=
  clean w /\ (2 <= n)%nat /\ (n <= List.length w + 2)%nat.

Definition is_str (v : pyval) : Prop := exists s, v = PStr s.
Definition is_clean_str (v : pyval) : Prop := exists s, v = PStr s /\ clean s.
Definition is_int (v : pyval) : Prop := (exists z, v = PInt z) \/ (exists b, v = PBool b).

Lemma Ok_inj {A} (a b : A) : Ok a = Ok b -> a = b. Proof. congruence. Qed.

Lemma call_value w1 w2 n i m :
  adequate n w1 -> adequate n w2 -> call w1 w2 n i m = nmd_value n w1 w2 i m.
Proof. intros (C1 & H & _) (C2 & _ & _). apply nmd_call; auto. Qed.

Lemma adequate_total n w1 w2 : adequate n w1 -> adequate n w2 ->
  (num n w1 + num n w2 = Z.of_nat (gram_count n w1 + gram_count n w2))%Z /\
  (0 < gram_count n w1)%nat /\ (0 < gram_count n w2)%nat.
Proof. intros (_ & H0 & H1) (_ & _ & H2). rewrite !num_pos_count by auto. unfold gram_count. lia. Qed.

Lemma call_dist w1 w2 n : adequate n w1 -> adequate n w2 -> call w1 w2 n false false = Ok (dist n w1 w2).
Proof.
  intros A1 A2. rewrite call_value by auto. unfold nmd_value.
  destruct (adequate_total _ _ _ A1 A2) as (-> & _ & _). f_equal. rewrite sim_dist.
  change (qz (Z.of_nat ?k)) with (qn k). rewrite qn_add. ring.
Qed.
Lemma call_sim w1 w2 n : adequate n w1 -> adequate n w2 -> call w1 w2 n true false = Ok (sim n w1 w2).
Proof. intros A1 A2. rewrite call_value by auto. reflexivity. Qed.
Lemma call_norm w1 w2 n i : adequate n w1 -> adequate n w2 ->
  call w1 w2 n i true = Ok ((if i then sim n w1 w2 else dist n w1 w2) / qn (gram_count n w1 + gram_count n w2)).
Proof.
  intros A1 A2. rewrite call_value by auto. unfold nmd_value.
  destruct (adequate_total _ _ _ A1 A2) as (-> & P1 & P2).
  destruct (Z.eqb_spec (Z.of_nat (gram_count n w1 + gram_count n w2)) 0); [lia|].
  change (qz (Z.of_nat ?k)) with (qn k). f_equal. f_equal. destruct i; auto. rewrite sim_dist, qn_add. ring.
Qed.

Ltac solve_clean := split; intros ?H; vm_compute in H; intuition discriminate.
Ltac solve_adequate := split; [solve_clean|vm_compute; lia].

(** *** C09 *)
Lemma pyval_str_dec v : is_str v \/ ~ is_str v.
Proof. destruct v; [left; eexists; eauto|right; intros [? [=]]..]. Qed.

Theorem nmd_type_error_iff : forall v1 v2 vn i m,
  nmd v1 v2 vn i m = Err TypeError <->
  (~ is_str v1) \/ (is_clean_str v1 /\ ~ is_str v2) \/ (is_clean_str v1 /\ is_clean_str v2 /\ ~ is_int vn).
Proof.
  intros v1 v2 vn i m. unfold ngram_movers_distance.
  assert (NS : forall v, ~ is_str v -> check_word v = Err TypeError).
  { intros [] H; try reflexivity. exfalso; apply H; eexists; eauto. }
  assert (CS : forall v, is_clean_str v -> exists s, check_word v = Ok s).
  { intros v (s & -> & C). exists s. apply check_word_clean; auto. }
  assert (DS : forall s, ~ clean s -> check_word (PStr s) = Err ValueError) by (intros; apply check_word_dirty; auto).
  destruct (pyval_str_dec v1) as [[s1 ->]|N1].
  2:{ rewrite NS by auto. split; auto. }
  destruct (clean_dec s1) as [C1|D1].
  2:{ rewrite DS by auto. cbn [bind]. split; [discriminate|].
      intros [H|[[(s & [= <-] & C) _]|[(s & [= <-] & C) _]]]; try contradiction. exfalso; apply H; eexists; eauto. }
  rewrite check_word_clean by auto. cbn [bind].
  destruct (pyval_str_dec v2) as [[s2 ->]|N2].
  2:{ rewrite NS by auto. cbn [bind]. split; auto. intros _. right; left. split; auto. exists s1; auto. }
  destruct (clean_dec s2) as [C2|D2].
  2:{ rewrite DS by auto. cbn [bind]. split; [discriminate|].
      intros [H|[[_ H]|[_ [(s & [= <-] & C) _]]]]; try contradiction; exfalso; apply H; eexists; eauto. }
  rewrite check_word_clean by auto. cbn [bind].
  assert (KN : nmd_body exact s1 s2 0 i m <> Err TypeError -> True) by auto.
  assert (NB : forall k, (2 <= k)%Z -> nmd_body exact s1 s2 k i m <> Err TypeError).
  { intros k Hk. rewrite <- (Z2Nat.id k) by lia. rewrite nmd_body_value. unfold nmd_value.
    destruct m; [destruct (_ =? _)%Z|]; discriminate. }
  unfold check_n. destruct (as_int vn) as [k|] eqn:Ek.
  - assert (is_int vn). { destruct vn; try discriminate; [left|right]; eexists; eauto. }
    split.
    + destruct (Z.ltb_spec k 2); [discriminate|]. cbn [bind]. intros E. exfalso. eapply NB; eauto.
    + intros [Hn|[[_ Hn]|[_ [_ Hn]]]]; exfalso; try (apply Hn; eexists; eauto); contradiction.
  - split; auto. intros _. right; right. repeat split; try (eexists; eauto; fail).
    intros [[z ->]|[b ->]]; discriminate.
Qed.
Print Assumptions nmd_type_error_iff.

Theorem nmd_value_error_iff : forall v1 v2 vn i m,
  nmd v1 v2 vn i m = Err ValueError <->
  (is_str v1 /\ ~ is_clean_str v1) \/
  (is_clean_str v1 /\ is_str v2 /\ ~ is_clean_str v2) \/
  (is_clean_str v1 /\ is_clean_str v2 /\ exists k, as_int vn = Some k /\ (k < 2)%Z).
Proof.
  intros v1 v2 vn i m. unfold ngram_movers_distance.
  assert (NS : forall v, ~ is_str v -> check_word v = Err TypeError).
  { intros [] H; try reflexivity. exfalso; apply H; eexists; eauto. }
  assert (CS : forall v, is_clean_str v -> is_str v).
  { intros v (s & -> & _). eexists; eauto. }
  assert (DC : forall s, ~ clean s -> ~ is_clean_str (PStr s)).
  { intros s D (s' & [= <-] & C). contradiction. }
  destruct (pyval_str_dec v1) as [[s1 ->]|N1].
  2:{ rewrite NS by auto. cbn [bind]. split; [discriminate|].
      intros [[H _]|[[H _]|[H _]]]; try contradiction; apply CS in H; contradiction. }
  destruct (clean_dec s1) as [C1|D1].
  2:{ rewrite check_word_dirty by auto. cbn [bind]. split; auto. intros _. left. split; [eexists; eauto|auto]. }
  rewrite check_word_clean by auto. cbn [bind].
  assert (K1 : is_clean_str (PStr s1)) by (eexists; eauto).
  destruct (pyval_str_dec v2) as [[s2 ->]|N2].
  2:{ rewrite NS by auto. cbn [bind]. split; [discriminate|].
      intros [[_ H]|[[_ [H _]]|[_ [H _]]]]; try contradiction; apply CS in H; contradiction. }
  destruct (clean_dec s2) as [C2|D2].
  2:{ rewrite check_word_dirty by auto. cbn [bind]. split; auto. intros _. right; left. repeat split; auto. eexists; eauto. }
  rewrite check_word_clean by auto. cbn [bind].
  assert (K2 : is_clean_str (PStr s2)) by (eexists; eauto).
  unfold check_n. destruct (as_int vn) as [k|] eqn:Ek.
  - destruct (Z.ltb_spec k 2); cbn [bind].
    + split; auto. intros _. right; right. eauto 6.
    + split.
      * rewrite <- (Z2Nat.id k) by lia. rewrite nmd_body_value. unfold nmd_value.
        destruct m; [destruct (_ =? _)%Z|]; discriminate.
      * intros [[_ Hn]|[[_ [_ Hn]]|[_ [_ (k' & [= <-] & Hk)]]]]; try contradiction. lia.
  - split; [discriminate|]. intros [[_ Hn]|[[_ [_ Hn]]|[_ [_ (k' & [=] & Hk)]]]]; contradiction.
Qed.
Print Assumptions nmd_value_error_iff.

(** With valid arguments: a number, unless normalizing with n-gram counts
    ([len + 3 - n] each) summing to zero. *)
Theorem nmd_zero_division_iff : forall w1 w2 n i m,
  clean w1 -> clean w2 -> (2 <= n)%nat ->
  (call w1 w2 n i m = Err ZeroDivisionError <-> m = true /\ (List.length w1 + List.length w2 + 6 = 2 * n)%nat) /\
  (~ (m = true /\ (List.length w1 + List.length w2 + 6 = 2 * n)%nat) -> exists d, call w1 w2 n i m = Ok d).
Proof.
  intros w1 w2 n i m C1 C2 Hn. rewrite nmd_call by auto. unfold nmd_value, num, zlen.
  destruct m.
  - destruct (Z.eqb_spec (Z.of_nat (List.length w1) + 2 - Z.of_nat n + 1 + (Z.of_nat (List.length w2) + 2 - Z.of_nat n + 1)) 0) as [E|E].
    + split; [split; auto; intros _; split; auto; lia|]. intros H. exfalso. apply H. split; auto. lia.
    + split; [split; [discriminate|intros [_ H]; lia]|]. intros _. eexists; eauto.
  - split; [split; [discriminate|intros [H _]; discriminate]|]. intros _. eexists; eauto.
Qed.
Print Assumptions nmd_zero_division_iff.

Example nmd_contract_cases :
  nmd PNone (PInt 3) POther false false = Err TypeError /\
  nmd (PStr (w_ "ab")) (PStr [2%N]) POther false false = Err ValueError /\
  nmd (PStr (w_ "ab")) (PStr (w_ "b")) (PBool true) false false = Err ValueError /\
  nmd (PStr []) (PStr []) (PInt 3) false true = Err ZeroDivisionError /\
  call (w_ "ab") [] 4 true true = Err ZeroDivisionError.
Proof. repeat split; vm_compute; reflexivity. Qed.

(** *** C10 *)
Theorem nmd_is_sum_of_emds : forall w1 w2 n, adequate n w1 -> adequate n w2 ->
  exists d, call w1 w2 n false false = Ok d /\ is_nmd n w1 w2 d.
Proof. intros. exists (dist n w1 w2). split; [apply call_dist; auto|apply dist_is_nmd]. Qed.
Print Assumptions nmd_is_sum_of_emds.

(** For every [n >= 2], also longer than the words: off by the (negative)
    n-gram counts. *)
Theorem nmd_is_sum_of_emds_any_n : forall w1 w2 n, clean w1 -> clean w2 -> (2 <= n)%nat ->
  exists d e, call w1 w2 n false false = Ok d /\ is_nmd n w1 w2 e /\
    d = e + qz (Z.min 0 (zlen w1 + 3 - Z.of_nat n)) + qz (Z.min 0 (zlen w2 + 3 - Z.of_nat n)).
Proof.
  intros w1 w2 n C1 C2 Hn. do 2 eexists. rewrite nmd_call by auto. split; [reflexivity|].
  split; [apply dist_is_nmd|]. rewrite sim_dist.
  assert (E : forall w, qz (num n w) = qn (gram_count n w) + qz (Z.min 0 (zlen w + 3 - Z.of_nat n))).
  { intros w. unfold qn. rewrite <- qz_add. f_equal. unfold num, gram_count, zlen. lia. }
  rewrite qz_add, !E. ring.
Qed.
Print Assumptions nmd_is_sum_of_emds_any_n.

Example nmd_value_cases :
  is_val (call (w_ "hello") (w_ "yellow") 2 false false) (73 # 10) = true /\
  is_val (call (w_ "aa") (w_ "aba") 2 false false) 3 = true /\
  adequate 2 (w_ "aa") /\ adequate 2 (w_ "aba").
Proof.
  split; [vm_compute; reflexivity|]. split; [vm_compute; reflexivity|]. split; solve_adequate.
Qed.

(** *** C11 *)
Theorem nmd_symmetric : forall w1 w2 vn i m,
  nmd (PStr w1) (PStr w2) vn i m = nmd (PStr w2) (PStr w1) vn i m.
Proof.
  intros w1 w2 vn i m. unfold ngram_movers_distance.
  destruct (clean_dec w1) as [C1|D1], (clean_dec w2) as [C2|D2];
    rewrite ?(check_word_clean w1), ?(check_word_clean w2), ?(check_word_dirty w1), ?(check_word_dirty w2) by auto;
    cbn [bind]; auto.
  unfold check_n. destruct (as_int vn) as [k|]; auto. destruct (Z.ltb_spec k 2); auto. cbn [bind].
  rewrite <- (Z2Nat.id k) by lia. rewrite !nmd_body_value. apply nmd_value_sym.
Qed.
Print Assumptions nmd_symmetric.

Example nmd_symmetric_case :
  is_val (call (w_ "abab") (w_ "bab") 2 false true) (13 # 36) = true /\
  is_val (call (w_ "bab") (w_ "abab") 2 false true) (13 # 36) = true.
Proof. vm_compute. auto. Qed.

(** In binary64 the sum is taken in a different order and the last bit may
    differ. *)
Theorem nmd_symmetric_in_floats_refuted : exists w1 w2,
  ngram_movers_distance rnd64 (PStr w1) (PStr w2) (PInt 2) false false <>
  ngram_movers_distance rnd64 (PStr w2) (PStr w1) (PInt 2) false false.
Proof.
  exists (w_ "baa"), (w_ "aaba"). apply same_val_false. vm_compute. reflexivity.
Qed.
Print Assumptions nmd_symmetric_in_floats_refuted.

(** *** C12 *)
Theorem nmd_self_zero : forall w n m, adequate n w -> call w w n false m = Ok 0.
Proof.
  intros w n m A. destruct m.
  - rewrite call_norm by auto. rewrite dist_self. f_equal.
    destruct (adequate_total _ _ _ A A) as (_ & P & _).
    field. intros H. apply (qn_inj _ 0) in H. lia.
  - rewrite call_dist by auto. rewrite dist_self. reflexivity.
Qed.
Print Assumptions nmd_self_zero.

Theorem nmd_zero_implies_equal : forall w1 w2 n m,
  adequate n w1 -> adequate n w2 -> call w1 w2 n false m = Ok 0 -> w1 = w2.
Proof.
  intros w1 w2 n m A1 A2 H.
  assert (D : dist n w1 w2 = 0).
  { destruct m.
    - rewrite call_norm in H by auto. apply Ok_inj in H.
      destruct (adequate_total _ _ _ A1 A2) as (_ & P & _).
      assert (Hq : qn (gram_count n w1 + gram_count n w2) <> 0).
      { intros E. apply (qn_inj _ 0) in E. lia. }
      apply (f_equal (fun x => x * qn (gram_count n w1 + gram_count n w2))) in H.
      replace (dist n w1 w2 / qn (gram_count n w1 + gram_count n w2) * qn (gram_count n w1 + gram_count n w2))
        with (dist n w1 w2) in H by (field; auto).
      rewrite H. ring.
    - rewrite call_dist in H by auto. apply Ok_inj in H. auto. }
  destruct A1 as (_ & H1 & H2), A2 as (_ & _ & H3).
  apply (dist_zero_eq n); auto. lia.
Qed.
Print Assumptions nmd_zero_implies_equal.

Example nmd_zero_case : is_val (call (w_ "abc") (w_ "abc") 5 false true) 0 = true /\ adequate 5 (w_ "abc").
Proof.
  split; [vm_compute; reflexivity|solve_adequate].
Qed.

(** *** C13 *)
Theorem nmd_triangle : forall w1 w2 w3 n d12 d23 d13,
  adequate n w1 -> adequate n w2 -> adequate n w3 ->
  call w1 w2 n false false = Ok d12 -> call w2 w3 n false false = Ok d23 -> call w1 w3 n false false = Ok d13 ->
  d13 <= d12 + d23.
Proof.
  intros * A1 A2 A3. rewrite !call_dist by auto. intros [= <-] [= <-] [= <-]. apply dist_triangle.
Qed.
Print Assumptions nmd_triangle.

Example nmd_triangle_case :
  is_val (call (w_ "ab") (w_ "abb") 2 false false) (7 # 6) = true /\
  is_val (call (w_ "abb") (w_ "bb") 2 false false) (19 # 6) = true /\
  is_val (call (w_ "ab") (w_ "bb") 2 false false) 4 = true.
Proof. vm_compute. auto. Qed.

(** The normalized distance is not a metric. *)
Theorem nmd_normalized_triangle_refuted : exists w1 w2 w3 d12 d23 d13,
  call w1 w2 2 false true = Ok d12 /\ call w2 w3 2 false true = Ok d23 /\ call w1 w3 2 false true = Ok d13 /\
  d12 + d23 < d13.
Proof.
  exists (w_ "a"), (w_ "aa"), (w_ "baa").
  assert (A : forall s, s = w_ "a" \/ s = w_ "aa" \/ s = w_ "baa" -> adequate 2 s).
  { intros s [-> | [-> | ->]]; (split; [split; intros H; vm_compute in H; intuition discriminate|vm_compute; lia]). }
  do 3 eexists. rewrite !call_norm by (apply A; auto). split; [reflexivity|]. split; [reflexivity|]. split; [reflexivity|].
  apply qltb_lt. vm_compute. reflexivity.
Qed.
Print Assumptions nmd_normalized_triangle_refuted.

(** *** C14 *)
Theorem nmd_range : forall w1 w2 n i d, adequate n w1 -> adequate n w2 ->
  call w1 w2 n i false = Ok d ->
  0 <= d /\ d <= qn (gram_count n w1) + qn (gram_count n w2).
Proof.
  intros w1 w2 n i d A1 A2 H. destruct i.
  - rewrite call_sim in H by auto. injection H as <-. split; [apply sim_nonneg|].
    rewrite sim_dist. pose proof (dist_nonneg n w1 w2) as D. clear - D. qclra.
  - rewrite call_dist in H by auto. injection H as <-. split; [apply dist_nonneg|apply dist_upper].
Qed.
Print Assumptions nmd_range.

Theorem nmd_normalized_range : forall w1 w2 n i d, adequate n w1 -> adequate n w2 ->
  call w1 w2 n i true = Ok d -> 0 <= d /\ d <= 1.
Proof.
  intros w1 w2 n i d A1 A2 H. rewrite call_norm in H by auto. injection H as <-.
  destruct (adequate_total _ _ _ A1 A2) as (_ & P & _).
  assert (Q : 0 < qn (gram_count n w1 + gram_count n w2)) by (apply qn_pos; lia).
  destruct (nmd_range w1 w2 n i (if i then sim n w1 w2 else dist n w1 w2) A1 A2) as [B1 B2].
  { destruct i; [apply call_sim|apply call_dist]; auto. }
  split; [apply qdiv_nonneg; auto|apply qdiv_le_1; auto]. rewrite qn_add. auto.
Qed.
Print Assumptions nmd_normalized_range.

Theorem nmd_maximal_iff_disjoint : forall w1 w2 n d, adequate n w1 -> adequate n w2 ->
  call w1 w2 n false false = Ok d ->
  (d = qn (gram_count n w1) + qn (gram_count n w2) <-> ~ share_gram n w1 w2).
Proof.
  intros w1 w2 n d A1 A2 H. rewrite call_dist in H by auto. injection H as <-.
  rewrite <- sim_zero_iff, sim_dist. split; intros H; clear - H; qclra.
Qed.
Print Assumptions nmd_maximal_iff_disjoint.

Example nmd_range_case :
  is_val (call (w_ "ab") (w_ "cd") 2 false false) 6 = true /\
  is_val (call (w_ "ab") (w_ "cb") 2 false true) (2 # 3) = true /\
  is_val (call (w_ "ab") (w_ "cb") 2 true false) 2 = true.
Proof. vm_compute. auto. Qed.

(** *** C15 *)
Theorem nmd_complement : forall w1 w2 n d s, clean w1 -> clean w2 -> (2 <= n)%nat ->
  call w1 w2 n false false = Ok d -> call w1 w2 n true false = Ok s ->
  d + s = qz (zlen w1 + 3 - Z.of_nat n) + qz (zlen w2 + 3 - Z.of_nat n).
Proof.
  intros * C1 C2 Hn. rewrite !nmd_call by auto. unfold nmd_value. intros [= <-] [= <-].
  rewrite <- qz_add. unfold num.
  replace (zlen w1 + 2 - Z.of_nat n + 1 + (zlen w2 + 2 - Z.of_nat n + 1))%Z
    with (zlen w1 + 3 - Z.of_nat n + (zlen w2 + 3 - Z.of_nat n))%Z by lia. ring.
Qed.
Print Assumptions nmd_complement.

Theorem nmd_normalized_complement : forall w1 w2 n d s, clean w1 -> clean w2 -> (2 <= n)%nat ->
  call w1 w2 n false true = Ok d -> call w1 w2 n true true = Ok s -> d + s = 1.
Proof.
  intros * C1 C2 Hn. rewrite !nmd_call by auto. unfold nmd_value.
  destruct (Z.eqb_spec (num n w1 + num n w2) 0) as [E|E]; [discriminate|]. intros [= <-] [= <-].
  field. intros H. apply E. apply (qz_inj _ 0). exact H.
Qed.
Print Assumptions nmd_normalized_complement.

Example nmd_complement_case :
  is_val (call (w_ "aa") (w_ "aba") 2 true false) 4 = true /\
  is_val (call (w_ "aa") (w_ "aba") 2 false true) (3 # 7) = true /\
  is_val (call (w_ "aa") (w_ "aba") 2 true true) (4 # 7) = true.
Proof. vm_compute. auto. Qed.

(** *** C16 *)
Theorem nmd_similarity_pinched : forall w1 w2 n s, clean w1 -> clean w2 -> (2 <= n)%nat ->
  call w1 w2 n true false = Ok s ->
  qn (shared_count n w1 w2) <= s /\ s <= qn (2 * shared_count n w1 w2).
Proof. intros * C1 C2 Hn. rewrite nmd_call by auto. intros [= <-]. apply sim_pinched. Qed.
Print Assumptions nmd_similarity_pinched.

Example nmd_pinched_case :
  shared_count 2 (w_ "aaab") (w_ "aab") = 4%nat /\
  is_val (call (w_ "aaab") (w_ "aab") 2 true false) (47 # 6) = true.
Proof. vm_compute. auto. Qed.

(** *** C17 *)
Theorem nmd_oversize_n_nonnegative_refuted : exists w n d,
  clean w /\ (2 <= n)%nat /\ call w w n false false = Ok d /\ d < 0.
Proof.
  assert (C : clean []) by (split; intros []).
  exists [], 5%nat. eexists. split; auto. split; [lia|]. rewrite nmd_call by (auto; lia).
  split; [reflexivity|]. apply qltb_lt. vm_compute. reflexivity.
Qed.
Print Assumptions nmd_oversize_n_nonnegative_refuted.

Theorem nmd_oversize_n_self_distance_refuted : exists w n,
  clean w /\ (2 <= n)%nat /\ call w w n false true = Ok 1.
Proof.
  assert (C : clean (w_ "ab")) by (split; intros H; vm_compute in H; intuition discriminate).
  exists (w_ "ab"), 6%nat. split; auto. split; [lia|]. rewrite nmd_call by (auto; lia).
  assert (E : is_val (nmd_value 6 (w_ "ab") (w_ "ab") false true) 1 = true) by (vm_compute; reflexivity).
  revert E. generalize (nmd_value 6 (w_ "ab") (w_ "ab") false true). intros r E.
  unfold is_val in E. destruct r; [|discriminate]. apply qeqb_eq in E. rewrite E. reflexivity.
Qed.
Print Assumptions nmd_oversize_n_self_distance_refuted.

(** *** C18 *)
Theorem nmd_rounded_range : forall rnd, lawful rnd -> forall w1 w2 n i m,
  adequate n w1 -> adequate n w2 -> (Z.of_nat (gram_count n w1 + gram_count n w2) <= 2 ^ 53)%Z ->
  exists d, ngram_movers_distance rnd (PStr w1) (PStr w2) (PInt (Z.of_nat n)) i m = Ok d /\
    0 <= d /\ d <= (if m then 1 else qn (gram_count n w1 + gram_count n w2)).
Proof.
  intros rnd L w1 w2 n i m (C1 & Hn & H1) (C2 & _ & H2) S.
  unfold ngram_movers_distance. rewrite !check_word_clean by auto. cbn [bind].
  unfold check_n. simpl as_int. cbv iota. destruct (Z.ltb_spec (Z.of_nat n) 2); [lia|]. cbn [bind].
  apply nmd_float_range; auto.
Qed.
Print Assumptions nmd_rounded_range.

Theorem nmd_rounded_self : forall rnd, lawful rnd -> forall w n m,
  adequate n w -> (Z.of_nat (gram_count n w + gram_count n w) <= 2 ^ 53)%Z ->
  ngram_movers_distance rnd (PStr w) (PStr w) (PInt (Z.of_nat n)) false m = Ok 0 /\
  ngram_movers_distance rnd (PStr w) (PStr w) (PInt (Z.of_nat n)) true true = Ok 1.
Proof.
  intros rnd L w n m (C & Hn & H) S.
  unfold ngram_movers_distance. rewrite !check_word_clean by auto. cbn [bind].
  unfold check_n. simpl as_int. cbv iota. destruct (Z.ltb_spec (Z.of_nat n) 2); [lia|]. cbn [bind].
  apply nmd_float_self; auto.
Qed.
Print Assumptions nmd_rounded_self.

Example nmd_rounded_case :
  is_val (ngram_movers_distance rnd64 (PStr (w_ "banana")) (PStr (w_ "banana")) (PInt 2) true true) 1 = true /\
  match ngram_movers_distance rnd64 (PStr (w_ "banana")) (PStr (w_ "bandana")) (PInt 2) false true,
        nmd (PStr (w_ "banana")) (PStr (w_ "bandana")) (PInt 2) false true with
  | Ok a, Ok b => qeqb a b | _, _ => true end = false.
Proof. vm_compute. auto. Qed.
