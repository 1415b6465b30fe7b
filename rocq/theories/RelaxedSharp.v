(** The factor 3/2 in the relaxed triangle inequality of the normalized n-gram
    mover's distance cannot be lowered: words of one letter each, and a word in
    which blocks of the two letters alternate. *)
From Coq Require Import ZArith NArith QArith Qcanon List Bool Permutation Lia Qround.
From Verif Require Import Num ListAux PyDict EmdSpec EmdProofs NmdSpec NmdProofs NmdEdit RelaxedProofs.
Import ListNotations.
Open Scope Qc_scope.

Lemma nodup_part (l : list nat) N : NoDup l -> (forall i, In i l -> (i < N)%nat) ->
  exists r, Permutation (seq 0 N) (l ++ r) /\ (length r + length l = N)%nat.
Proof.
  intros ND B. exists (filter (fun i => negb (existsb (Nat.eqb i) l)) (seq 0 N)).
  assert (P : Permutation (seq 0 N) (l ++ filter (fun i => negb (existsb (Nat.eqb i) l)) (seq 0 N))).
  { assert (E : forall i, existsb (Nat.eqb i) l = true <-> In i l).
    { intros i. rewrite existsb_exists. split; [intros (x & H & X); apply Nat.eqb_eq in X; subst; auto|intros H; exists i; split; auto; apply Nat.eqb_refl]. }
    apply NoDup_Permutation; [apply seq_NoDup| |].
    - apply NoDup_app_intro; auto; [apply NoDup_filter, seq_NoDup|]. intros x H H'. apply filter_In in H'. destruct H' as [_ H'].
      apply E in H. rewrite H in H'. discriminate.
    - intros x. rewrite in_app_iff, filter_In, in_seq. destruct (existsb (Nat.eqb x) l) eqn:X; [apply E in X|]; split.
      + intros _. auto.
      + intros _. specialize (B x X). lia.
      + intros H. right. split; auto.
      + intros [H|[H _]]; [|exact H]. apply E in H. congruence. }
  split; auto. apply Permutation_length in P. rewrite seq_length, app_length in P. lia.
Qed.

Lemma nodup_map_on {A B} (f : A -> B) l : (forall x y, In x l -> In y l -> f x = f y -> x = y) -> NoDup l -> NoDup (map f l).
Proof.
  induction l as [|a l IH]; intros I ND; cbn [map]; [constructor|]. inversion_clear ND. constructor.
  - intros H1. apply in_map_iff in H1. destruct H1 as (x & E & Hx). apply I in E; [subst; auto|right; auto|left; auto].
  - apply IH; auto. intros x y Hx Hy. apply I; right; auto.
Qed.

Lemma nodup_prod {A B} (l : list A) (m : list B) : NoDup l -> NoDup m -> NoDup (list_prod l m).
Proof.
  intros Hl Hm. induction Hl as [|a l Na Hl IH]; cbn [list_prod]; [constructor|]. apply NoDup_app_intro; auto.
  - apply nodup_map_on; auto. intros x y _ _ E. congruence.
  - intros [x y] H H'. apply in_map_iff in H. destruct H as (z & E & _). apply in_prod_iff in H'. destruct H' as [H' _]. assert (x = a) by congruence. subst. auto.
Qed.

Lemma inv_pos (a : Qc) : 0 < a -> 0 < / a.
Proof.
  intros H. unfold Qclt in *. change (this (/ a)) with (Qred (/ this a)%Q). rewrite Qred_correct. change (this 0) with 0%Q in *. apply Qinv_lt_0_compat. exact H.
Qed.

Section Blocks.
Variables (x y : N) (n m : nat).
Hypothesis Hn : (2 <= n)%nat.
Hypothesis Hm : (n <= m)%nat.
Definition plain (z : N) : str := repeat z (m * m + n - 2).
Definition letter (i : nat) : N := if Nat.ltb (i mod (2 * m)) m then x else y.
Definition blocks : str := map letter (seq 0 (2 * m * m + n - 2)).

Lemma count_plain z : gram_count n (plain z) = (m * m + 1)%nat.
Proof. unfold gram_count, plain. rewrite repeat_length. nia. Qed.
Lemma count_blocks : gram_count n blocks = (2 * m * m + 1)%nat.
Proof. unfold gram_count, blocks. rewrite map_length, seq_length. nia. Qed.
Lemma position_plain z i : position n (plain z) i = qn i / qn (m * m).
Proof. unfold position. rewrite count_plain. do 2 f_equal. nia. Qed.
Lemma position_blocks i : position n blocks i = qn i / qn (2 * m * m).
Proof. unfold position. rewrite count_blocks. do 2 f_equal. nia. Qed.
Lemma nth_plain z i : (i < m * m + n - 2)%nat -> nth_error (padded (plain z)) (S i) = Some z.
Proof.
  intros H. unfold padded. cbn [app nth_error]. rewrite nth_error_app1 by (unfold plain; rewrite repeat_length; auto).
  unfold plain. apply nth_error_repeat. auto.
Qed.
Lemma nth_blocks i : (i < 2 * m * m + n - 2)%nat -> nth_error (padded blocks) (S i) = Some (letter i).
Proof.
  intros H. unfold padded. cbn [app nth_error]. rewrite nth_error_app1 by (unfold blocks; rewrite map_length, seq_length; auto).
  unfold blocks. rewrite nth_error_map. rewrite (nth_error_nth' (seq 0 (2 * m * m + n - 2)) 0%nat) by (rewrite seq_length; auto). rewrite seq_nth by auto. reflexivity.
Qed.
Lemma letter_x j i : (i < m)%nat -> letter (2 * m * j + i) = x.
Proof.
  intros H. unfold letter. replace (2 * m * j + i)%nat with (i + j * (2 * m))%nat by lia. rewrite Nat.mod_add by lia. rewrite Nat.mod_small by lia.
  apply Nat.ltb_lt in H. rewrite H. reflexivity.
Qed.
Lemma letter_y j i : (i < m)%nat -> letter (2 * m * j + m + i) = y.
Proof.
  intros H. unfold letter. replace (2 * m * j + m + i)%nat with (m + i + j * (2 * m))%nat by lia. rewrite Nat.mod_add by lia. rewrite Nat.mod_small by lia.
  destruct (Nat.ltb_spec (m + i) m); auto. lia.
Qed.

Section Letter.
Variables (z : N) (s : nat).
Hypothesis Hs : (s <= m)%nat.
Hypothesis Hz : forall j i, (i < m)%nat -> letter (2 * m * j + s + i) = z.
Definition cells : list (nat * nat) := list_prod (seq 0 m) (seq 1 (m + 1 - n)).
Definition pairs_of : list (nat * nat) := map (fun p => (m * fst p + snd p, 2 * m * fst p + s + snd p)%nat) cells.
Lemma in_cells p : In p cells -> (fst p < m /\ 1 <= snd p /\ snd p + n <= m + 1)%nat.
Proof. destruct p as [j i]. intros H. apply in_prod_iff in H. rewrite !in_seq in H. cbn [fst snd]. lia. Qed.
Lemma nodup_cells : NoDup cells.
Proof. apply nodup_prod; apply seq_NoDup. Qed.
Lemma length_cells : length cells = (m * (m + 1 - n))%nat.
Proof. unfold cells. rewrite prod_length, !seq_length. reflexivity. Qed.
Lemma cell_eq (j i j' i' : nat) : (i < m)%nat -> (i' < m)%nat -> (m * j + i = m * j' + i')%nat -> j = j' /\ i = i'.
Proof.
  intros H H' E. destruct (Nat.lt_trichotomy j j') as [L|[->|L]]; [nia|lia|nia].
Qed.
Lemma pairs_grams i j : In (i, j) pairs_of -> gram_at n (plain z) i = gram_at n blocks j.
Proof.
  intros H. apply in_map_iff in H. destruct H as ([a b] & E & H). apply in_cells in H. cbn [fst snd] in *.
  assert (Ei : i = (m * a + b)%nat) by congruence. assert (Ej : j = (2 * m * a + s + b)%nat) by congruence. subst i j.
  apply gram_eq. intros k Hk. destruct b as [|b]; [lia|].
  replace (m * a + S b + k)%nat with (S (m * a + (b + k))) by lia. replace (2 * m * a + s + S b + k)%nat with (S (2 * m * a + s + (b + k))) by lia.
  rewrite nth_plain by nia. rewrite nth_blocks by nia. rewrite Hz by lia. reflexivity.
Qed.
Lemma move_small p : In p pairs_of -> qabs (position n (plain z) (fst p) - position n blocks (snd p)) <= 1 / qn m.
Proof.
  intros H. apply in_map_iff in H. destruct H as ([a b] & <- & H). apply in_cells in H. cbn [fst snd] in *.
  rewrite position_plain, position_blocks.
  assert (P : 0 < qn m) by (apply qn_pos; lia). assert (NZ : qn m <> 0) by (intros E; rewrite E in P; discriminate).
  assert (Q : qn (m * m) = qn m * qn m) by apply qn_mul. assert (Q2 : qn (2 * m * m) = (1 + 1) * (qn m * qn m)).
  { rewrite <- Q. replace (2 * m * m)%nat with (m * m + m * m)%nat by lia. rewrite qn_add. ring. }
  assert (E : qn (m * a + b) / qn (m * m) - qn (2 * m * a + s + b) / qn (2 * m * m) = (qn b - qn s) / ((1 + 1) * (qn m * qn m))).
  { rewrite Q, Q2. replace (qn (2 * m * a + s + b)) with (qn (m * a) + qn (m * a) + qn s + qn b) by (rewrite <- !qn_add; f_equal; lia).
    rewrite qn_add. field. repeat split; try exact NZ; discriminate. }
  rewrite E. clear E.
  assert (B : qabs (qn b - qn s) <= qn m).
  { assert (b <= m)%nat by lia. assert (B1 := proj1 (qn_le b m) ltac:(lia)). assert (B2 := proj1 (qn_le s m) Hs). pose proof (qn_nonneg b) as B3. pose proof (qn_nonneg s) as B4.
    revert B1 B2 B3 B4. generalize (qn b) (qn s) (qn m). clear. intros. qclra. }
  replace (1 / qn m) with (qn m * / (qn m * qn m)) by (field; auto).
  assert (I : 0 < / (qn m * qn m)) by (apply inv_pos, qc_mul_pos; auto).
  unfold Qcdiv. replace (/ ((1 + 1) * (qn m * qn m))) with (Q2Qc (1 # 2) * / (qn m * qn m)).
  2:{ replace (Q2Qc (1 # 2)) with (/ (1 + 1)) by (apply Qc_is_canon; reflexivity). field. repeat split; try exact NZ; discriminate. }
  rewrite Qcmult_assoc. set (v := (qn b - qn s) * Q2Qc (1 # 2)).
  assert (V : v <= qn m /\ - qn m <= v).
  { unfold v. clear - B. revert B. generalize (qn b - qn s) (qn m). intros u w B. split; qclra. }
  destruct V as [V1 V2]. apply Qclt_le_weak in I. apply qabs_le; [apply Qcmult_le_compat_r; auto|].
  replace (- (qn m * / (qn m * qn m))) with (- qn m * / (qn m * qn m)) by ring. apply Qcmult_le_compat_r; auto.
Qed.
Lemma blocks_near : dist n (plain z) blocks <= qn (m * m + (2 * n - 1) * m + 2).
Proof.
  destruct (nodup_part (map fst pairs_of) (m * m + 1)) as (r1 & P1 & L1).
  { unfold pairs_of. rewrite map_map. cbn [fst]. apply nodup_map_on; [|apply nodup_cells]. intros [a b] [a' b'] H H' E. apply in_cells in H, H'. cbn [fst snd] in *.
    destruct (cell_eq a b a' b') as [-> ->]; auto; lia. }
  { intros i H. unfold pairs_of in H. rewrite map_map in H. apply in_map_iff in H. destruct H as ([a b] & <- & H). apply in_cells in H. cbn [fst snd] in *. nia. }
  destruct (nodup_part (map snd pairs_of) (2 * m * m + 1)) as (r2 & P2 & L2).
  { unfold pairs_of. rewrite map_map. cbn [snd]. apply nodup_map_on; [|apply nodup_cells]. intros [a b] [a' b'] H H' E. apply in_cells in H, H'. cbn [fst snd] in *.
    destruct (Nat.lt_trichotomy a a') as [L|[->|L]]; [nia|f_equal; lia|nia]. }
  { intros i H. unfold pairs_of in H. rewrite map_map in H. apply in_map_iff in H. destruct H as ([a b] & <- & H). apply in_cells in H. cbn [fst snd] in *. nia. }
  rewrite <- (count_plain z) in P1. rewrite <- count_blocks in P2.
  eapply Qcle_trans; [apply (dist_le_pairs n (plain z) blocks pairs_of r1 r2 P1 P2 pairs_grams)|].
  assert (C : qsum (map (fun p => qabs (position n (plain z) (fst p) - position n blocks (snd p))) pairs_of) <= qn (m + 1 - n)).
  { eapply Qcle_trans; [apply (qsum_map_le _ (fun _ => 1 / qn m)); intros p Hp; apply move_small; auto|].
    rewrite qsum_map_const. unfold pairs_of. rewrite map_length, length_cells, qn_mul.
    assert (NZ : qn m <> 0) by (intros E; pose proof (qn_pos m ltac:(lia)) as P; rewrite E in P; discriminate).
    replace (qn m * qn (m + 1 - n) * (1 / qn m)) with (qn (m + 1 - n)) by (field; auto). apply Qcle_refl. }
  unfold pairs_of in L1, L2. rewrite !map_length, length_cells in L1, L2.
  assert (T : (m + 1 - n + length r1 + length r2 <= m * m + (2 * n - 1) * m + 2)%nat) by nia.
  apply qn_le in T. rewrite !qn_add in T. rewrite !qn_add. revert C T. generalize (qn (m + 1 - n)) (qn (length r1)) (qn (length r2)) (qn (m * m)) (qn ((2 * n - 1) * m)).
  generalize (qsum (map (fun p => qabs (position n (plain z) (fst p) - position n blocks (snd p))) pairs_of)) (qn 2). clear. intros. qclra.
Qed.
End Letter.

Lemma blocks_near_x : dist n (plain x) blocks <= qn (m * m + (2 * n - 1) * m + 2).
Proof. apply (blocks_near x 0); [lia|]. intros j i H. rewrite Nat.add_0_r. apply letter_x; auto. Qed.
Lemma blocks_near_y : dist n (plain y) blocks <= qn (m * m + (2 * n - 1) * m + 2).
Proof. apply (blocks_near y m); [lia|]. apply letter_y. Qed.

Lemma plain_apart : x <> y -> x <> 2%N -> x <> 3%N -> dist n (plain x) (plain y) = qn (gram_count n (plain x) + gram_count n (plain y)).
Proof.
  intros NE N2 N3. assert (Z : sim n (plain x) (plain y) = 0).
  { apply sim_zero_iff. intros (g & H1 & H2). apply in_map_iff in H1, H2. destruct H1 as (i & <- & H1), H2 as (j & E & H2).
    rewrite in_seq, count_plain in H1, H2.
    assert (K : forall z i, (i < m * m + 1)%nat -> In z (gram_at n (plain z) i) /\ forall c, In c (gram_at n (plain z) i) -> c = 2%N \/ c = z \/ c = 3%N).
    { clear - Hn Hm. intros z i Hi. split.
      - destruct i as [|i].
        + apply (nth_error_In _ 1). rewrite nth_gram by lia. apply nth_plain. nia.
        + apply (nth_error_In _ 0). rewrite nth_gram by lia. rewrite Nat.add_0_r. apply nth_plain. nia.
      - intros c Hc. assert (Hp : In c (padded (plain z))).
        { unfold gram_at in Hc. rewrite <- (firstn_skipn i (padded (plain z))). apply in_app_iff. right.
          rewrite <- (firstn_skipn n (skipn i (padded (plain z)))). apply in_app_iff. left. exact Hc. }
        unfold padded in Hp. rewrite !in_app_iff in Hp. cbn [In] in Hp. destruct Hp as [[<-|[]]|[Hp|[<-|[]]]]; auto. apply repeat_spec in Hp. auto. }
    destruct (K x i ltac:(lia)) as [Ix _]. destruct (K y j ltac:(lia)) as [_ Fy]. rewrite <- E in Ix. destruct (Fy x Ix) as [H|[H|H]]; congruence. }
  rewrite sim_dist in Z. rewrite qn_add. revert Z. generalize (qn (gram_count n (plain x))) (qn (gram_count n (plain y))) (dist n (plain x) (plain y)). clear.
  intros a b d Z. apply Qcle_antisym; assert (a + b - d <= 0 /\ 0 <= a + b - d) by (rewrite Z; split; apply Qcle_refl); clear Z; qclra.
Qed.
End Blocks.

Lemma above (q : Qc) : exists m : nat, q < qn m.
Proof.
  exists (Z.to_nat (Qfloor (this q) + 1)). unfold qn. unfold Qclt. rewrite this_qz.
  eapply Qlt_le_trans; [apply Qlt_floor|]. rewrite <- Zle_Qle. lia.
Qed.

Lemma sharp_numbers (k : Qc) (n : nat) : k < half3 -> exists m, (n <= m)%nat /\ (1 <= m)%nat /\
  k * (qn (m * m + (2 * n - 1) * m + 2) + qn (m * m + (2 * n - 1) * m + 2)) < qn (m * m + 1 + (2 * m * m + 1)).
Proof.
  intros Hk. set (p := (2 * n - 1)%nat). set (e := half3 - k + (half3 - k)).
  assert (He : 0 < e) by (unfold e; clear - Hk; unfold half3 in *; qclra).
  destruct (above ((qn (3 * p) + qn 9) * / e)) as (m0 & H0). exists (m0 + n + 1)%nat. split; [lia|]. split; [lia|].
  set (m := (m0 + n + 1)%nat). assert (Hm : (1 <= m)%nat) by (unfold m; lia).
  assert (H1 : qn (3 * p) + qn 9 <= qn m * e).
  { replace (qn (3 * p) + qn 9) with ((qn (3 * p) + qn 9) * / e * e) by (rewrite <- Qcmult_assoc, Qcmult_inv_l, Qcmult_1_r; auto; intros E; rewrite E in He; discriminate).
    apply Qcmult_le_compat_r; [|apply Qclt_le_weak; auto]. eapply Qcle_trans; [apply Qclt_le_weak, H0|]. apply qn_le. unfold m. lia. }
  clearbody m. clear H0 m0. apply qn_le in Hm. change (qn 1) with 1 in Hm.
  replace (3 * p)%nat with (p + p + p)%nat in H1 by lia. replace (2 * m * m)%nat with (m * m + m * m)%nat by lia. rewrite !qn_add, !qn_mul in *.
  change (qn 1) with 1. change (qn 2) with (1 + 1). change (qn 9) with (Q2Qc (9 # 1)) in H1.
  pose proof (qn_nonneg p) as Hp. clearbody p. revert H1 Hm Hp. generalize (qn m) (qn p). intros M P H1 Hm Hp. clear n.
  assert (M0 : 0 <= M) by (clear - Hm; qclra).
  assert (PM : 0 <= P * M) by (rewrite <- (Qcmult_0_l M); apply Qcmult_le_compat_r; auto).
  assert (MM : 0 <= M * M) by (rewrite <- (Qcmult_0_l M) at 1; apply Qcmult_le_compat_r; auto).
  assert (A : (P + P + P + Q2Qc (9 # 1)) * M <= M * e * M) by (apply Qcmult_le_compat_r; auto).
  assert (B : k * (P * M) <= half3 * (P * M)) by (apply Qcmult_le_compat_r; auto; apply Qclt_le_weak; auto).
  replace ((P + P + P + Q2Qc (9 # 1)) * M) with (P * M + P * M + P * M + Q2Qc (9 # 1) * M) in A by ring.
  unfold e in A. replace (M * (half3 - k + (half3 - k)) * M) with (half3 * (M * M) + half3 * (M * M) - (k * (M * M) + k * (M * M))) in A by ring.
  replace (k * (M * M + P * M + (1 + 1) + (M * M + P * M + (1 + 1)))) with (k * (M * M) + k * (M * M) + (k * (P * M) + k * (P * M)) + (k + k + k + k)) by ring.
  revert A B PM MM Hm Hk. generalize (k * (M * M)) (k * (P * M)) (P * M) (M * M). clear. unfold half3. intros a b c d A B PM MM Hm Hk. qclra.
Qed.

(** The words for a factor below 3/2 *)
Lemma sharp_words (k : Qc) (n : nat) x y : (2 <= n)%nat -> k < half3 -> x <> y -> x <> 2%N -> x <> 3%N -> exists m, (n <= m)%nat /\
  let a := plain n m x in let b := blocks x y n m in let c := plain n m y in
  k * (dist n a b / qn (gram_count n a + gram_count n b) + dist n b c / qn (gram_count n b + gram_count n c)) <
  dist n a c / qn (gram_count n a + gram_count n c).
Proof.
  intros Hn Hk NE N2 N3. destruct (Qclt_le_dec k 0) as [Neg|Pos].
  { exists n. split; auto. cbv zeta. rewrite plain_apart; auto. rewrite count_blocks, !count_plain by lia.
    assert (P : forall i, (0 < i)%nat -> qn i / qn i = 1) by (intros i Hi; apply Qcmult_inv_r; intros E; pose proof (qn_pos i Hi) as X; rewrite E in X; discriminate).
    rewrite P by lia. eapply Qcle_lt_trans with 0; [|reflexivity]. rewrite <- (Qcmult_0_l (dist n (plain n n x) (blocks x y n n) / qn (n * n + 1 + (2 * n * n + 1)) + dist n (blocks x y n n) (plain n n y) / qn (2 * n * n + 1 + (n * n + 1)))).
    apply Qcmult_le_compat_r; [apply Qclt_le_weak; auto|].
    rewrite <- (Qcplus_0_l 0). apply Qcplus_le_compat; apply qdiv_nonneg; try apply dist_nonneg; apply qn_pos; lia. }
  destruct (sharp_numbers k n Hk) as (m & Hm & M1 & H). exists m. split; auto. cbv zeta.
  rewrite plain_apart by auto. rewrite (dist_sym n (blocks x y n m) (plain n m y)).
  rewrite count_blocks, !count_plain by auto.
  assert (P : forall i, (0 < i)%nat -> qn i / qn i = 1) by (intros i Hi; apply Qcmult_inv_r; intros E; pose proof (qn_pos i Hi) as X; rewrite E in X; discriminate).
  rewrite P by lia. replace (2 * m * m + 1 + (m * m + 1))%nat with (m * m + 1 + (2 * m * m + 1))%nat by lia.
  pose proof (blocks_near_x x y n m Hn Hm) as Bx. pose proof (blocks_near_y x y n m Hn Hm) as By.
  assert (T : 0 < qn (m * m + 1 + (2 * m * m + 1))) by (apply qn_pos; lia).
  assert (I := inv_pos _ T). revert H Bx By T I. generalize (dist n (plain n m x) (blocks x y n m)) (dist n (plain n m y) (blocks x y n m)).
  generalize (qn (m * m + (2 * n - 1) * m + 2)) (qn (m * m + 1 + (2 * m * m + 1))). clear - Pos. intros U T A B H Bx By HT I.
  assert (L : k * (A + B) < T).
  { eapply Qcle_lt_trans; [|exact H]. rewrite !(Qcmult_comm k). apply Qcmult_le_compat_r; auto. apply Qcplus_le_compat; auto. }
  replace (k * (A / T + B / T)) with (k * (A + B) * / T) by (unfold Qcdiv; ring).
  replace 1 with (T * / T) by (apply Qcmult_inv_r; intros E; rewrite E in HT; discriminate).
  apply Qcmult_lt_compat_r; auto.
Qed.
