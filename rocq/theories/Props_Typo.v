(** Misspelt queries: how far a word may be from the query, in edits, and
    still be listed by [WordList.lookup] and [WordSet.find_similar]:
    property C129. *)
From Coq Require Import ZArith NArith QArith Qcanon List Bool Permutation Lia Sorted String.
From Verif Require Import EditSpec EditModel EditProofs EditDp Props_Edit NmdEdit Props_Meta.
From Verif Require Import Num Py ListAux PyDict Float64 Ex EmdSpec EmdModel EmdProofs EmdFloatProofs NmdSpec NmdModel NmdProofs NmdFloatProofs
  IndexSpec IndexModel IndexProofs IndexLoops IndexLookupProofs IndexResult IndexTop IndexScore IndexFacts
  WordSetSpec WordSetModel WordSetProofs WordSetScore Props_Nmd Props_Index Props_WordSet Props_WordSetGrowth Props_Growth
  Accuracy NmdAccuracy Props_Accuracy WordSetFloat Ieee Props_WordSetFloat.
From Verif Require Import Props_Agree.
Import ListNotations.
Open Scope string_scope.
Open Scope list_scope.
Open Scope Qc_scope.

(** [e] edits apart: with [c = 0] insertions, deletions and substitutions, with
    [c = 2] also transpositions of neighbours, as experiments/edit_distance.py
    counts them. *)
Definition apart (c : Z) (u v : str) (e : Z) : Prop :=
  (c = 0%Z /\ edit_distance u v = Ok e) \/ (c = 2%Z /\ damerau_levenshtein_distance u v = Ok e).

Lemma edit_dist_bound c n u v e : (1 <= n)%nat -> apart c u v e -> dist n u v <= qz ((2 * Z.of_nat n + c) * e) /\ (0 <= e)%Z /\ (0 <= c)%Z.
Proof.
  intros Hn [[-> Hk]|[-> Hk]].
  - destruct (edit_distance_least u v) as (m & Hm & S & _). rewrite Hm in Hk. injection Hk as <-. split; [|lia].
    eapply Qcle_trans; [apply (steps_bound n one_edit (2 * n)); [|exact S]; intros; apply one_edit_bound; auto|].
    unfold qn. refine (proj1 (qz_le _ _) _). rewrite !Nat2Z.inj_mul. change (Z.of_nat 2) with 2%Z. apply Z.eq_le_incl. ring.
  - destruct (damerau_optimal_alignment u v) as (m & Hm & D). rewrite Hm in Hk. injection Hk as <-.
    apply best_distance in D. destruct D as [D _]. apply al_steps in D. destruct D as (k & E & S). apply qz_inj in E. subst m. specialize (S []). rewrite !app_nil_r in S.
    split; [|lia]. eapply Qcle_trans; [apply (steps_bound n one_edit_t (2 * n + 2)); [|exact S]; intros; apply one_edit_t_bound; auto; lia|].
    unfold qn. refine (proj1 (qz_le _ _) _). rewrite Nat2Z.inj_mul, Nat2Z.inj_add, Nat2Z.inj_mul. change (Z.of_nat 2) with 2%Z. apply Z.eq_le_incl. ring.
Qed.

Lemma similarity_from_dist u v n s b : adequate n u -> adequate n v -> call u v n true true = Ok s -> dist n u v <= b ->
  1 - b / qz (zlen u + zlen v + 6 - 2 * Z.of_nat n) <= s.
Proof.
  intros A1 A2 Hs B. rewrite call_value in Hs by auto. unfold nmd_value in Hs. destruct (adequate_total _ _ _ A1 A2) as (T & T1 & T2).
  destruct (num n u + num n v =? 0)%Z; [discriminate|]. injection Hs as <-. rewrite sim_dist. rewrite T.
  assert (L : (zlen u + zlen v + 6 - 2 * Z.of_nat n)%Z = Z.of_nat (gram_count n u + gram_count n v)).
  { destruct A1 as (_ & _ & A1), A2 as (_ & _ & A2). unfold zlen, gram_count. lia. }
  rewrite L. change (qz (Z.of_nat ?k)) with (qn k). rewrite qn_add in *.
  assert (P : 0 < qn (gram_count n u) + qn (gram_count n v)). { rewrite <- qn_add. change 0 with (qz 0). unfold qn. refine (proj1 (qz_lt _ _) _). clear - T1 T2. lia. }
  revert B P. generalize (qn (gram_count n u) + qn (gram_count n v)) (dist n u v). intros t d B P.
  assert (E1 : t <> 0) by (intros ->; apply Qclt_not_eq in P; auto).
  replace (1 - b / t) with ((t - b) / t) by (field; auto). unfold Qcdiv. apply Qcmult_le_compat_r; [qclra|]. apply qinv_nonneg; auto.
Qed.

Lemma share_after_edits c n u v e : (1 <= n)%nat -> apart c u v e -> ((2 * Z.of_nat n + c) * e < zlen u + zlen v + 6 - 2 * Z.of_nat n)%Z -> share_gram n u v.
Proof.
  intros Hn He Hl. destruct (edit_dist_bound c n u v e Hn He) as [B _].
  destruct (Nat.eq_dec (shared_count n u v) 0) as [Z0|Z0].
  - exfalso. apply shared_count_zero, sim_zero_iff in Z0. rewrite sim_dist in Z0.
    assert (X : qz (zlen u + zlen v + 6 - 2 * Z.of_nat n) <= qn (gram_count n u) + qn (gram_count n v)).
    { rewrite <- qn_add. unfold qn. refine (proj1 (qz_le _ _) _). unfold gram_count, zlen, str in *. lia. }
    assert (Y : qz ((2 * Z.of_nat n + c) * e) < qz (zlen u + zlen v + 6 - 2 * Z.of_nat n)) by (refine (proj1 (qz_lt _ _) _); exact Hl).
    clear - B X Y Z0. qclra.
  - assert (P : ~ ~ share_gram n u v) by (intros C; apply Z0, shared_count_zero; exact C).
    unfold share_gram. destruct (existsb (fun g => if in_dec eqd g (grams n v) then true else false) (grams n u)) eqn:E.
    + apply existsb_exists in E. destruct E as (g & I & E). exists g. destruct (in_dec eqd g (grams n v)); [auto|discriminate].
    + exfalso. apply P. intros (g & I & J). assert (existsb (fun g => if in_dec eqd g (grams n v) then true else false) (grams n u) = true); [|congruence].
      apply existsb_exists. exists g. split; auto. destruct (in_dec eqd g (grams n v)); auto.
Qed.

(** Words few edits apart have an n-gram in common. *)
Theorem edits_keep_a_gram : forall c u v n e, (2 <= n)%Z -> apart c u v e -> ((2 * n + c) * e < zlen u + zlen v + 6 - 2 * n)%Z ->
  exists g, has_gram n u g /\ has_gram n v g.
Proof.
  intros c u v n e Hn He Hl. rewrite <- (Z2Nat.id n) by lia. apply shares_gram; [lia|]. eapply share_after_edits; eauto; [lia|]. rewrite !Z2Nat.id by lia. exact Hl.
Qed.
Print Assumptions edits_keep_a_gram.

(** The word is [e] edits from the query and long enough for the settings. *)
Definition near (c : Z) (st : wordlist) (q w : str) (e N : Z) : Prop :=
  apart c q w e /\
  (forall n, In n (n_list st) -> (2 <= n <= N)%Z) /\ n_list st <> [] /\
  (N <= zlen q + 2)%Z /\ (N <= zlen w + 2)%Z /\ ((2 * N + c) * e < zlen q + zlen w + 6 - 2 * N)%Z /\
  (filter_n st = 0%Z \/ ((2 <= filter_n st)%Z /\ ((2 * filter_n st + c) * e < zlen q + zlen w + 6 - 2 * filter_n st)%Z)).

Lemma near_candidate c st q w e N : near c st q w e N -> candidate (n_list st) (filter_n st) q w.
Proof.
  intros (He & Hn & Ne & L1 & L2 & Hl & Hf). assert (P : (0 <= e /\ 0 <= c)%Z) by (destruct (edit_dist_bound c 1 q w e (le_n 1) He); auto). split.
  - destruct (n_list st) as [|n l]; [congruence|]. exists n. split; [left; reflexivity|]. specialize (Hn n (or_introl eq_refl)). eapply edits_keep_a_gram; eauto; [lia|nia].
  - destruct Hf as [->|[F1 F2]]; [left; reflexivity|right; eapply edits_keep_a_gram; eauto].
Qed.

Lemma quotient_le (a b A B : Qc) : 0 <= a -> a <= A -> 0 < B -> B <= b -> a / b <= A / B.
Proof.
  intros Ha HA HB Hb. assert (Pb : 0 < b) by (eapply Qclt_le_trans; eauto).
  assert (E1 : a / b * b = a) by (field; intros ->; apply Qclt_not_eq in Pb; congruence).
  assert (E2 : A / B * B = A) by (field; intros ->; apply Qclt_not_eq in HB; congruence).
  destruct (Qclt_le_dec (A / B) (a / b)) as [L|L]; [|exact L]. exfalso.
  assert (L1 : A / B * B < a / b * B) by (apply Qcmult_lt_compat_r; auto).
  assert (P : 0 <= a / b). { apply Qcnot_lt_le. intros C. assert (a / b * b < 0 * b) by (apply Qcmult_lt_compat_r; auto). rewrite E1, Qcmult_0_l in H. clear - H Ha. qclra. }
  assert (L2 : B * (a / b) <= b * (a / b)) by (apply Qcmult_le_compat_r; auto).
  rewrite (Qcmult_comm B), (Qcmult_comm b) in L2. rewrite E1 in L2. rewrite E2 in L1. clear - L1 L2 HA. qclra.
Qed.

Lemma bound_mono (c n N T e : Z) : (0 <= c)%Z -> (2 <= n <= N)%Z -> (0 <= e)%Z -> (0 < T - 2 * N)%Z ->
  1 - qz ((2 * N + c) * e) / qz (T - 2 * N) <= 1 - qz ((2 * n + c) * e) / qz (T - 2 * n).
Proof.
  intros Hc Hn He HT. assert (A : qz ((2 * n + c) * e) / qz (T - 2 * n) <= qz ((2 * N + c) * e) / qz (T - 2 * N)); [|clear - A; qclra].
  apply quotient_le; [change 0 with (qz 0)| |change 0 with (qz 0)|]; first [refine (proj1 (qz_le _ _) _)|refine (proj1 (qz_lt _ _) _)]; nia.
Qed.

Lemma mean1_least b l : l <> [] -> (forall x, In x l -> b <= x) -> b <= mean1 exact l.
Proof.
  intros Ne H. unfold mean1, fsum. rewrite fsum_exact_cons. unfold exact.
  assert (S : qz (zlen l) * b <= qsum l).
  { clear Ne. induction l as [|x l IH]; [cbn; rewrite Qcmult_0_l; apply Qcle_refl|]. unfold zlen in *. cbn [Datatypes.length qsum]. rewrite Nat2Z.inj_succ, <- Z.add_1_r, qz_add.
    pose proof (H x (or_introl eq_refl)) as Hx. assert (IH' := IH (fun y I => H y (or_intror I))). change (qz 1) with 1. rewrite Qcmult_plus_distr_l, Qcmult_1_l. clear - Hx IH'. qclra. }
  assert (P : 0 < qz (zlen l)) by (change 0 with (qz 0); refine (proj1 (qz_lt _ _) _); unfold zlen; destruct l; [congruence|cbn; lia]).
  assert (E : b = qz (zlen l) * b / qz (zlen l)) by (field; intros Z0; rewrite Z0 in P; apply Qclt_not_eq in P; congruence).
  rewrite E. unfold Qcdiv. replace (0 + qsum l) with (qsum l) by ring. apply Qcmult_le_compat_r; [exact S|].
  apply qinv_nonneg. exact P.
Qed.

Lemma near_similarity c st q w e N : clean q -> clean w -> near c st q w e N ->
  exists x, similarity exact (mean1 exact) (n_list st) q w true = Ok x /\ 1 - qz ((2 * N + c) * e) / qz (zlen q + zlen w + 6 - 2 * N) <= x.
Proof.
  intros Cq Cw (He & Hn & Ne & L1 & L2 & Hl & _). assert (P : (0 <= e /\ 0 <= c)%Z) by (destruct (edit_dist_bound c 1 q w e (le_n 1) He); auto).
  assert (G : forall l, (forall n, In n l -> (2 <= n <= N)%Z) -> exists vs, mapM (pair_score exact q w true) l = Ok vs /\ List.length vs = List.length l /\
    forall x, In x vs -> 1 - qz ((2 * N + c) * e) / qz (zlen q + zlen w + 6 - 2 * N) <= x).
  { induction l as [|n l IH]; intros Hl'; [exists []; repeat split; intros x []|].
    destruct (IH (fun m I => Hl' m (or_intror I))) as (vs & E & Ln & B). specialize (Hl' n (or_introl eq_refl)).
    assert (A1 : adequate (Z.to_nat n) q) by (split; [exact Cq|unfold zlen in *; lia]). assert (A2 : adequate (Z.to_nat n) w) by (split; [exact Cw|unfold zlen in *; lia]).
    assert (Ex : exists s, call q w (Z.to_nat n) true true = Ok s).
    { rewrite call_value by auto. unfold nmd_value. destruct (adequate_total _ _ _ A1 A2) as (T & T1 & T2). rewrite T.
      destruct (Z.of_nat _ =? 0)%Z eqn:Z0; [apply Z.eqb_eq in Z0; lia|eexists; reflexivity]. }
    destruct Ex as (s & Es). pose proof (similarity_from_dist _ _ _ _ _ A1 A2 Es (proj1 (edit_dist_bound c (Z.to_nat n) q w e ltac:(lia) He))) as Bs. rewrite Z2Nat.id in Bs by lia.
    assert (Ep : pair_score exact q w true n = Ok s).
    { unfold pair_score. replace (n =? 1)%Z with false by (symmetry; apply Z.eqb_neq; lia). rewrite <- Es. unfold call. rewrite Z2Nat.id by lia. reflexivity. }
    exists (s :: vs). cbn [mapM]. rewrite Ep. cbn [bind]. rewrite E. cbn [bind].
    split; [reflexivity|]. split; [cbn; rewrite Ln; reflexivity|]. intros x [<-|I]; [|apply B, I]. eapply Qcle_trans; [|exact Bs]. apply bound_mono; lia. }
  destruct (G _ Hn) as (vs & E & Ln & B). exists (mean1 exact vs). unfold similarity. rewrite E. split; [reflexivity|]. apply mean1_least; [|exact B].
  intros ->. destruct (n_list st); [congruence|discriminate].
Qed.

(** A word of the list that is near the query is listed with at least this
    score, or as many other words as were asked for have at least this score. *)
Theorem lookup_finds_typo : forall casefold, (forall w, casefold (casefold w) = casefold w) ->
  forall st o word top_k q k R c w e N, reachable exact casefold st -> fair o -> asks casefold st word top_k q k ->
  lookup exact casefold (mean1 exact) o st word top_k true = Ok R ->
  In w (vocabulary st) -> near c st q w e N ->
  let least := 1 - qz ((2 * N + c) * e) / qz (zlen q + zlen w + 6 - 2 * N) in
  0 < least /\
  ((exists s t, In (w, (s, t)) R /\ least <= s) \/
   (Z.of_nat (List.length R) = k /\ forall u s t, In (u, (s, t)) R -> least <= s)).
Proof.
  intros casefold CI st o word top_k q k R c w e N Re F A H Hw Nr least. pose proof (asks_clean _ _ _ _ _ _ A) as [Cq Hk1].
  assert (Cw : clean w).
  { pose proof (reachable_inv exact casefold st eq_refl CI Re) as I. apply vocabulary_in in Hw. eapply words_clean; eauto. }
  assert (Pos : 0 < least).
  { destruct Nr as (He & _ & _ & _ & _ & Hl & _). assert (P : (0 <= e /\ 0 <= c)%Z) by (destruct (edit_dist_bound c 1 q w e (le_n 1) He); auto). unfold least.
    assert (Q : 0 < qz (zlen q + zlen w + 6 - 2 * N)).
    { change 0 with (qz 0). refine (proj1 (qz_lt _ _) _). destruct (Z.le_gt_cases 0 N); [nia|unfold zlen; lia]. }
    assert (D : qz ((2 * N + c) * e) < qz (zlen q + zlen w + 6 - 2 * N)) by (refine (proj1 (qz_lt _ _) _); exact Hl).
    assert (X : qz ((2 * N + c) * e) / qz (zlen q + zlen w + 6 - 2 * N) < 1); [|clear - X; qclra].
    revert Q D. generalize (qz ((2 * N + c) * e)) (qz (zlen q + zlen w + 6 - 2 * N)). intros a b Q D.
    assert (E1 : a / b * b = a) by (field; intros ->; apply Qclt_not_eq in Q; congruence).
    apply Qcnot_le_lt. intros C. assert (L2 : 1 * b <= a / b * b) by (apply Qcmult_le_compat_r; [exact C|apply Qclt_le_weak, Q]). rewrite E1, Qcmult_1_l in L2. clear - L2 D. qclra. }
  split; [exact Pos|]. destruct (near_similarity c st q w e N Cq Cw Nr) as (x & Ex & Bx). fold least in Bx. apply near_candidate in Nr.
  destruct (lookup_lossless exact casefold (mean1 exact) lawful_exact (strict_avg _ mean1_strict) CI st o word top_k true q k R Re F A (or_introl eq_refl) H) as [Lo (C & NC & HC & Ln)].
  destruct (in_dec eqd w (map fst R)) as [I|N0].
  - left. apply in_map_iff in I. destruct I as ([w' [s t]] & <- & I). cbn [fst] in *. exists s, t. split; [exact I|].
    destruct (lookup_scores exact casefold (mean1 exact) lawful_exact CI st o word top_k true q k R Re F A H w' s t I) as (Es & _). rewrite Ex in Es. injection Es as <-. exact Bx.
  - right. split.
    + destruct (lookup_result_shape exact casefold (mean1 exact) lawful_exact CI st o word top_k true q k R Re F A H) as (_ & Nd & _ & _).
      assert (Cw' : In w C) by (apply HC; auto).
      destruct (Nat.le_gt_cases (Z.to_nat k) (List.length C)) as [Le|Gt]; [lia|]. exfalso. apply N0.
      apply (@NoDup_length_incl str _ C Nd); [rewrite map_length; unfold str in *; lia| |exact Cw'].
      intros y Hy. apply in_map_iff in Hy. destruct Hy as ([y' [s t]] & <- & I). apply HC.
      destruct (lookup_scores exact casefold (mean1 exact) lawful_exact CI st o word top_k true q k R Re F A H y' s t I) as (_ & _ & V & K). auto.
    + intros u s t I. eapply Qcle_trans; [exact Bx|]. eapply (Lo w x); eauto.
Qed.
Print Assumptions lookup_finds_typo.

(** In doubles. *)
Theorem lookup_finds_typo_binary64 : forall casefold, (forall w, casefold (casefold w) = casefold w) ->
  forall st o word top_k q k R c w e N, reachable rnd64 casefold st -> fair o -> asks casefold st word top_k q k -> Props_Accuracy.moderate (2 ^ 20) 65532 st q ->
  lookup rnd64 casefold (mean1 rnd64) o st word top_k true = Ok R ->
  In w (vocabulary st) -> near c st q w e N ->
  In w (map fst R) \/
  (Z.of_nat (List.length R) = k /\ forall x, similarity rnd64 (mean1 rnd64) (n_list st) q w true = Ok x -> forall u s t, In (u, (s, t)) R -> x <= s).
Proof.
  intros casefold CI st o word top_k q k R c w e N Re F A Mo H Hw Nr. pose proof (asks_clean _ _ _ _ _ _ A) as [Cq Hk1]. apply near_candidate in Nr.
  destruct (lookup_lossless_binary64 casefold CI st o word top_k q k R Re F A Mo H) as [Lo (C & NC & HC & Ln)].
  destruct (in_dec eqd w (map fst R)) as [I|N0]; [left; exact I|]. right. split.
  - destruct (lookup_result_shape rnd64 casefold (mean1 rnd64) rnd64_lawful CI st o word top_k true q k R Re F A H) as (_ & Nd & _ & _).
    assert (Cw' : In w C) by (apply HC; auto).
    destruct (Nat.le_gt_cases (Z.to_nat k) (List.length C)) as [Le|Gt]; [lia|]. exfalso. apply N0.
    apply (@NoDup_length_incl str _ C Nd); [rewrite map_length; unfold str in *; lia| |exact Cw'].
    intros y Hy. apply in_map_iff in Hy. destruct Hy as ([y' [s t]] & <- & I). apply HC.
    destruct (lookup_scores rnd64 casefold (mean1 rnd64) rnd64_lawful CI st o word top_k true q k R Re F A H y' s t I) as (_ & _ & V & K). auto.
  - intros x Ex u s t I. eapply (Lo w x); eauto.
Qed.
Print Assumptions lookup_finds_typo_binary64.

(** The same for a WordSet. *)
Theorem find_similar_finds_typo : forall casefold b nz sz cs st, ws_reached exact casefold b nz sz cs st ->
  let m := contents casefold b nz cs in
  let norm := normal_form casefold b (normalizer_of nz) in
  let ns := sizes_of st in
  forall o a k n t u c w orig e, fair o -> valid_k k n -> valid_threshold t -> a <> [] -> norm a = Some u -> u <> [] ->
  In (w, orig) m -> apart c u w e ->
  ((2 * Z.of_nat (list_sum ns) + c * zlen ns) * e < Z.of_nat (total_grams ns u + total_grams ns w))%Z ->
  (forall f, filter_of st = Some f -> ((2 * Z.of_nat f + c) * e < zlen u + zlen w + 6 - 2 * Z.of_nat f)%Z) ->
  let least := 1 - qz ((2 * Z.of_nat (list_sum ns) + c * zlen ns) * e) / qn (total_grams ns u + total_grams ns w) in
  exists R, find_similar exact casefold o st (PStr a) k t = Ok R /\
    ((exists s, In (orig, s) R /\ least <= s) \/ (Z.of_nat (List.length R) = n /\ forall v s, In (v, s) R -> least <= s)).
Proof.
  intros casefold b nz sz cs st H m norm ns o a k n t u c w orig e Fo Vk Vt Ha Hu Hne Hm He Hl Hf least.
  destruct (wordset_filter_size _ _ _ _ _ _ _ H) as (Fs & Nd & Pos). fold ns in Fs, Nd, Pos.
  assert (P : (0 <= e /\ 0 <= c)%Z) by (destruct (edit_dist_bound c 1 u w e (le_n 1) He); auto).
  destruct (find_similar_ranking exact ns) as (score & _ & Sc & _ & Hr).
  destruct (Hr casefold b nz sz cs st H eq_refl o a k n t u Fo Vk Vt Ha Hu Hne) as (rk & Nr & Mem & Srt & Ef). fold m in Mem.
  assert (T0 : (0 < total_grams ns u + total_grams ns w)%nat).
  { assert (0 <= (2 * Z.of_nat (list_sum ns) + c * zlen ns) * e)%Z by (apply Z.mul_nonneg_nonneg; [|lia]; apply Z.add_nonneg_nonneg; [lia|]; apply Z.mul_nonneg_nonneg; [lia|unfold zlen; lia]). lia. }
  assert (El : eligible ns (filter_of st) u w).
  { unfold eligible. destruct (filter_of st) as [f|] eqn:Ff; [|exact T0]. apply (share_after_edits c f u w e); auto.
    clear - Fs Pos. rewrite Forall_forall in Pos. destruct Fs as [[I [= ->]]|[_ (x & I & _ & E)]]; [apply Pos, I|].
    destruct (x <=? 4)%nat; [injection E as ->; apply Pos, I|discriminate]. }
  assert (Bs : least <= score u w).
  { destruct (Sc eq_refl Nd Pos u w) as [Is _]. destruct (Is T0) as (d & Hd & ->). unfold least.
    assert (Q : qsum (map d ns) <= qz ((2 * Z.of_nat (list_sum ns) + c * zlen ns) * e)).
    { clear - Hd He Pos. induction ns as [|x l IH]; [cbn [map qsum list_sum fold_right]; replace ((2 * Z.of_nat 0 + c * zlen (@nil nat)) * e)%Z with 0%Z by (unfold zlen; cbn [List.length]; lia); apply Qcle_refl|].
      inversion Pos; subst. cbn [map qsum]. change (list_sum (x :: l)) with (x + list_sum l)%nat.
      replace ((2 * Z.of_nat (x + list_sum l) + c * zlen (x :: l)) * e)%Z with ((2 * Z.of_nat x + c) * e + (2 * Z.of_nat (list_sum l) + c * zlen l) * e)%Z by (unfold zlen; cbn [List.length]; lia). rewrite qz_add.
      apply Qcplus_le_compat; [|apply IH; auto; intros y I; apply Hd; right; exact I].
      rewrite (is_nmd_unique _ _ _ _ (Hd x (or_introl eq_refl))). apply edit_dist_bound; auto. }
    assert (D : qsum (map d ns) / qn (total_grams ns u + total_grams ns w) <= qz ((2 * Z.of_nat (list_sum ns) + c * zlen ns) * e) / qn (total_grams ns u + total_grams ns w)).
    { unfold Qcdiv. apply Qcmult_le_compat_r; [exact Q|]. apply qinv_nonneg, qn_pos, T0. }
    clear - D. qclra. }
  assert (Iw : In (w, orig) rk) by (apply Mem; auto).
  exists (map (fun x => (snd x, score u (fst x))) (firstn (Z.to_nat n) rk)). split; [exact Ef|].
  rewrite <- (firstn_skipn (Z.to_nat n) rk) in Iw. apply in_app_iff in Iw. destruct Iw as [Iw|Iw].
  - left. exists (score u w). split; [|exact Bs]. apply in_map_iff. exists (w, orig). split; [reflexivity|exact Iw].
  - right. destruct Vk as [_ Vk]. split.
    + rewrite map_length, firstn_length. assert (Z.to_nat n < List.length rk)%nat; [|lia].
      destruct (Nat.lt_ge_cases (Z.to_nat n) (List.length rk)) as [|G]; auto. rewrite skipn_all2 in Iw by exact G. contradiction.
    + intros v s I. apply in_map_iff in I. destruct I as (y & E & I). injection E as _ <-. eapply Qcle_trans; [exact Bs|].
      rewrite <- (firstn_skipn (Z.to_nat n) rk) in Srt. pose proof (Props_Growth.sorted_app_le _ _ _ Srt y (w, orig) I Iw) as O. cbn [fst] in O.
      destruct O as [L|[-> _]]; [apply Qclt_le_weak; exact L|apply Qcle_refl].
Qed.
Print Assumptions find_similar_finds_typo.

(** ** Cases *)
Definition typos : wordlist := built [2%Z; 3%Z] 2 ["receive"; "deceive"; "recipe"; "sieve"].
Example typo_case :
  reachable exact lower typos /\ In (w_ "receive") (vocabulary typos) /\ near 2 typos (w_ "recieve") (w_ "receive") 1 3 /\
  asks lower typos (PStr (w_ "recieve")) (PInt 2) (w_ "recieve") 2 /\
  (exists R, lookup_ex typos "recieve" 2 true = Ok R /\ map fst R = [w_ "recipe"; w_ "receive"] /\ forall w s t, In (w, (s, t)) R -> w = w_ "receive" -> f 3 7 <= s).
Proof.
  assert (A : asks lower typos (PStr (w_ "recieve")) (PInt 2) (w_ "recieve") 2).
  { exists (w_ "recieve"). split; [reflexivity|]. split; [discriminate|]. split; [vm_compute; reflexivity|]. split; [|split; [reflexivity|lia]].
    split; intros H; vm_compute in H; intuition discriminate. }
  assert (Re : reachable exact lower typos) by (eapply built_reachable; vm_compute; reflexivity).
  assert (V : In (w_ "receive") (vocabulary typos)) by (vm_compute; intuition auto).
  assert (Nr : near 2 typos (w_ "recieve") (w_ "receive") 1 3).
  { split; [right; split; vm_compute; reflexivity|]. split; [intros n H; vm_compute in H; intuition (subst; lia)|]. split; [vm_compute; discriminate|].
    split; [vm_compute; discriminate|]. split; [vm_compute; discriminate|]. split; [vm_compute; reflexivity|]. right. split; [vm_compute; discriminate|vm_compute; reflexivity]. }
  split; [exact Re|]. split; [exact V|]. split; [exact Nr|]. split; [exact A|].
  assert (X : map fst (match lookup_ex typos "recieve" 2 true with Ok R => R | Err _ => [] end) = [w_ "recipe"; w_ "receive"]) by (vm_compute; reflexivity).
  destruct (lookup_ex typos "recieve" 2 true) as [R|er] eqn:E; [|discriminate]. exists R. split; [reflexivity|]. split; [exact X|].
  intros w s t I ->.
  destruct (lookup_finds_typo lower lower_idem typos ord0 (PStr (w_ "recieve")) (PInt 2) (w_ "recieve") 2 R 2 (w_ "receive") 1 3 Re ord0_fair A E V Nr) as [_ L].
  assert (Eb : 1 - qz ((2 * 3 + 2) * 1) / qz (zlen (w_ "recieve") + zlen (w_ "receive") + 6 - 2 * 3) = f 3 7) by (apply Qc_is_canon; vm_compute; reflexivity).
  rewrite Eb in L. destruct L as [(s' & t' & I' & L)|[_ L]]; [|eapply L; exact I].
  assert (Nd : NoDup (map fst R)) by (rewrite X; repeat constructor; vm_compute; intuition discriminate).
  assert (Same : (s', t') = (s, t)); [|congruence].
  clear - Nd I I'. induction R as [|[u v] R IH]; [contradiction|]. cbn [map fst] in Nd. inversion Nd; subst. destruct I as [E|I], I' as [E'|I'].
  - congruence.
  - exfalso. injection E as -> _. apply H1. apply in_map_iff. eexists. split; [|exact I']. reflexivity.
  - exfalso. injection E' as -> _. apply H1. apply in_map_iff. eexists. split; [|exact I]. reflexivity.
  - apply IH; auto.
Qed.

Example typo_set_case :
  edit_distance (w_ "appel") (w_ "apple") = Ok 2%Z /\
  total_grams [2%nat] (w_ "appel") = 6%nat /\ total_grams [2%nat] (w_ "apple") = 6%nat /\
  ws_lists (find_similar exact lower ord0 (ws_built false [2]%Z ["Apple"; "pear"]) (PStr (w_ "appel")) (PInt 1) MNone) [("Apple", f 1 2)] = true.
Proof. vm_compute. auto. Qed.

(** Without room for the edits a word one edit away is not listed at all. *)
Theorem lookup_finds_typo_short_refuted : exists st q w R, reachable exact lower st /\ In w (vocabulary st) /\ edit_distance q w = Ok 1%Z /\
  (3 <= List.length q)%nat /\ n_list st = [3%Z] /\ filter_n st = 0%Z /\
  lookup exact lower (mean1 exact) ord0 st (PStr q) (PInt 100) true = Ok R /\ ~ In w (map fst R).
Proof.
  exists (built [3%Z] 0 ["axc"]), (w_ "abc"), (w_ "axc"). eexists. split; [eapply built_reachable; vm_compute; reflexivity|]. split; [vm_compute; auto|].
  split; [vm_compute; reflexivity|]. split; [vm_compute; auto|]. split; [vm_compute; reflexivity|]. split; [vm_compute; reflexivity|]. split; [vm_compute; reflexivity|]. vm_compute. tauto.
Qed.
Print Assumptions lookup_finds_typo_short_refuted.
