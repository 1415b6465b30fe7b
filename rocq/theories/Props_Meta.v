(** Theorems that relate the answers of [ngram_movers_distance] and [emd_1d_dp]
    on changed inputs: properties C98 - C101.  Beside each theorem stands a
    concrete case. *)
From Coq Require Import ZArith NArith QArith Qcanon List Bool Permutation Lia Lqa String.
From Verif Require Import Num Py ListAux PyDict Float64 EmdSpec EmdModel EmdProofs FlowProofs GreedyProofs NmdSpec NmdModel NmdProofs Props_Nmd EditSpec EditModel EditProofs EditDp Props_Edit Ex.
From Verif Require Import NmdEdit NmdMeta.
Import ListNotations.
Open Scope Qc_scope.

(** *** C98 One edit changes the distance by a bounded amount. *)

Lemma al_steps (u v : str) k : al unit_costs_t u v k -> exists m, k = qn m /\ forall s, in_steps one_edit_t m (u ++ s) (v ++ s).
Proof.
  induction 1 as [|u v k x _ (m & -> & S)|u v k x _ (m & -> & S)|u v k x _ (m & -> & S)|u v k x y _ (m & -> & S)|u v k x y t Et _ (m & -> & S)].
  - exists 0%nat. split; [reflexivity|]. intros s. constructor.
  - exists m. split; [reflexivity|]. intros s. rewrite <- !app_assoc. apply S.
  - exists (m + 1)%nat. split; [rewrite qn_add; reflexivity|]. intros s. rewrite Nat.add_comm. eapply steps_S; [apply S|]. rewrite <- app_assoc. apply one_plain, one_insert.
  - exists (m + 1)%nat. split; [rewrite qn_add; reflexivity|]. intros s. rewrite Nat.add_comm. rewrite <- app_assoc. eapply steps_S; [apply S|]. apply one_plain, one_delete.
  - exists (m + 1)%nat. split; [rewrite qn_add; reflexivity|]. intros s. rewrite Nat.add_comm. rewrite <- !app_assoc. eapply steps_S; [apply S|]. apply one_plain, one_substitute.
  - injection Et as <-. exists (m + 1)%nat. split; [rewrite qn_add; reflexivity|]. intros s. rewrite Nat.add_comm. rewrite <- !app_assoc. eapply steps_S; [apply S|]. apply one_transpose.
Qed.

Theorem nmd_at_most_edit_distance : forall u v n d k, adequate n u -> adequate n v ->
  call u v n false false = Ok d -> edit_distance u v = Ok k -> d <= qz (2 * Z.of_nat n * k).
Proof.
  intros u v n d k A1 A2. rewrite call_dist by auto. intros [= <-] Hk. destruct (edit_distance_least u v) as (m & Hm & S & _). rewrite Hm in Hk. injection Hk as <-.
  destruct A1 as (_ & Hn & _). eapply Qcle_trans; [apply (steps_bound n one_edit (2 * n)); [|exact S]; intros; apply one_edit_bound; auto; lia|].
  unfold qn. refine (proj1 (qz_le _ _) _). rewrite !Nat2Z.inj_mul. change (Z.of_nat 2) with 2%Z. apply Z.eq_le_incl. ring.
Qed.

Theorem nmd_at_most_damerau_distance : forall u v n d k, adequate n u -> adequate n v ->
  call u v n false false = Ok d -> damerau_levenshtein_distance u v = Ok k -> d <= qz ((2 * Z.of_nat n + 2) * k).
Proof.
  intros u v n d k A1 A2. rewrite call_dist by auto. intros [= <-] Hk. destruct (damerau_optimal_alignment u v) as (m & Hm & D). rewrite Hm in Hk. injection Hk as <-.
  apply best_distance in D. destruct D as [D _]. apply al_steps in D. destruct D as (c & E & S). apply qz_inj in E. subst m. specialize (S []). rewrite !app_nil_r in S.
  destruct A1 as (_ & Hn & _). eapply Qcle_trans; [apply (steps_bound n one_edit_t (2 * n + 2)); [|exact S]; intros; apply one_edit_t_bound; auto; lia|].
  unfold qn. refine (proj1 (qz_le _ _) _). rewrite Nat2Z.inj_mul, Nat2Z.inj_add, Nat2Z.inj_mul. change (Z.of_nat 2) with 2%Z. apply Z.eq_le_incl. ring.
Qed.

(** The normalised similarity of words [k] edits apart. *)
Theorem nmd_similarity_after_edits : forall u v n s k, adequate n u -> adequate n v ->
  call u v n true true = Ok s -> edit_distance u v = Ok k ->
  1 - qz (2 * Z.of_nat n * k) / qz (zlen u + zlen v + 6 - 2 * Z.of_nat n) <= s.
Proof.
  intros u v n s k A1 A2 Hs Hk. pose proof (call_dist _ _ _ A1 A2) as D. pose proof (nmd_at_most_edit_distance _ _ _ _ _ A1 A2 D Hk) as B.
  rewrite call_value in Hs by auto. unfold nmd_value in Hs. destruct (adequate_total _ _ _ A1 A2) as (T & T1 & T2).
  destruct (num n u + num n v =? 0)%Z; [discriminate|]. injection Hs as <-. rewrite sim_dist. rewrite T.
  assert (L : (zlen u + zlen v + 6 - 2 * Z.of_nat n)%Z = Z.of_nat (gram_count n u + gram_count n v)).
  { destruct A1 as (_ & _ & A1), A2 as (_ & _ & A2). unfold zlen, gram_count. lia. }
  rewrite L. change (qz (Z.of_nat ?k)) with (qn k). rewrite qn_add in *.
  assert (P : 0 < qn (gram_count n u) + qn (gram_count n v)). { rewrite <- qn_add. change 0 with (qz 0). unfold qn. refine (proj1 (qz_lt _ _) _). clear - T1 T2. lia. }
  revert B P. generalize (qn (gram_count n u) + qn (gram_count n v)) (NmdProofs.dist n u v) (qz (2 * Z.of_nat n * k)). intros t d b B P.
  assert (E1 : t <> 0) by (intros ->; apply Qclt_not_eq in P; auto).
  replace (1 - b / t) with ((t - b) / t) by (field; auto). unfold Qcdiv. apply Qcmult_le_compat_r; [qclra|]. apply qinv_nonneg; auto.
Qed.

Print Assumptions nmd_at_most_edit_distance.
Print Assumptions nmd_at_most_damerau_distance.
Print Assumptions nmd_similarity_after_edits.

(** One edit: the bound of [2 * n] is reached by a substitution, that of
    [2 * n + 2] by a transposition; 'kitten' and 'sitting' are three edits apart. *)
Example nmd_edit_case :
  edit_distance (w_ "abcd") (w_ "abxd") = Ok 1%Z /\ is_val (call (w_ "abcd") (w_ "abxd") 2 false false) 4 = true /\
  damerau_levenshtein_distance (w_ "abcdef") (w_ "abdcef") = Ok 1%Z /\ is_val (call (w_ "abcdef") (w_ "abdcef") 2 false false) 6 = true /\
  edit_distance (w_ "kitten") (w_ "sitting") = Ok 3%Z /\ is_val (call (w_ "kitten") (w_ "sitting") 2 false false) (467 # 42) = true.
Proof. vm_compute. auto 10. Qed.

(** *** C99 Other letters, same answer: for every rounding, bit for bit. *)
Theorem nmd_relabel : forall rnd (g : N -> N) w1 w2 vn i m, clean w1 -> clean w2 ->
  (forall c d, In c (w1 ++ w2) -> In d (w1 ++ w2) -> g c = g d -> c = d) ->
  (forall c, In c (w1 ++ w2) -> g c <> 2%N /\ g c <> 3%N) ->
  ngram_movers_distance rnd (PStr (map g w1)) (PStr (map g w2)) vn i m = ngram_movers_distance rnd (PStr w1) (PStr w2) vn i m.
Proof. intros. apply call_relabel; auto. Qed.
Print Assumptions nmd_relabel.

(** A Caesar shift; and two letters made one, which the hypothesis excludes. *)
Example nmd_relabel_case :
  same_val (ngram_movers_distance rnd64 (PStr (w_ "abcab")) (PStr (w_ "cabba")) (PInt 2) false false)
           (ngram_movers_distance rnd64 (PStr (w_ "bcdbc")) (PStr (w_ "dbccb")) (PInt 2) false false) = true /\
  map N.succ (w_ "abcab") = w_ "bcdbc" /\
  same_val (ngram_movers_distance rnd64 (PStr (w_ "ab")) (PStr (w_ "ac")) (PInt 2) false false)
           (ngram_movers_distance rnd64 (PStr (w_ "ab")) (PStr (w_ "ab")) (PInt 2) false false) = false.
Proof. vm_compute. auto. Qed.

(** *** C100 Both words read backwards *)
Theorem nmd_backwards : forall w1 w2 vn i m, clean w1 -> clean w2 ->
  ngram_movers_distance exact (PStr (rev w1)) (PStr (rev w2)) vn i m = ngram_movers_distance exact (PStr w1) (PStr w2) vn i m.
Proof.
  intros w1 w2 vn i m C1 C2. unfold ngram_movers_distance.
  assert (R : forall w, clean w -> clean (rev w)) by (intros w [M2 M3]; split; rewrite <- in_rev; auto).
  rewrite !check_word_clean by auto. cbn [bind]. destruct (check_n vn) as [n|] eqn:En; cbn [bind]; [|reflexivity].
  assert (Hn : (2 <= n)%Z). { unfold check_n in En. destruct (as_int vn); [|discriminate]. destruct (Z.ltb_spec z 2); [discriminate|]. injection En as <-. auto. }
  rewrite <- (Z2Nat.id n) by lia. rewrite !nmd_body_value. unfold nmd_value. rewrite !sim_dist, !count_backwards, dist_backwards by (auto; lia).
  assert (E : forall w, num (Z.to_nat n) (rev w) = num (Z.to_nat n) w) by (intros w; unfold num, zlen; rewrite rev_length; reflexivity).
  rewrite !E. reflexivity.
Qed.
Print Assumptions nmd_backwards.

Example nmd_backwards_case :
  rev (w_ "aab") = w_ "baa" /\ is_val (call (w_ "aab") (w_ "abba") 2 false false) (65 # 12) = true /\ is_val (call (w_ "baa") (w_ "abba") 2 false false) (65 # 12) = true.
Proof. vm_compute. auto. Qed.

(** In floating point the two calls differ in the last bit. *)
Theorem nmd_backwards_in_floats_refuted : exists w1 w2, clean w1 /\ clean w2 /\
  ngram_movers_distance rnd64 (PStr (rev w1)) (PStr (rev w2)) (PInt 2) false false <> ngram_movers_distance rnd64 (PStr w1) (PStr w2) (PInt 2) false false.
Proof.
  exists (w_ "aab"), (w_ "abba"). split; [|split]; try (split; vm_compute; intros H; repeat (destruct H as [H|H]; [discriminate|]); exact H).
  intros E. assert (X : same_val (ngram_movers_distance rnd64 (PStr (rev (w_ "aab"))) (PStr (rev (w_ "abba"))) (PInt 2) false false)
    (ngram_movers_distance rnd64 (PStr (w_ "aab")) (PStr (w_ "abba")) (PInt 2) false false) = true).
  { rewrite E. vm_compute. reflexivity. }
  vm_compute in X. discriminate.
Qed.
Print Assumptions nmd_backwards_in_floats_refuted.

(** *** C101 Changed positions *)
Theorem emd_1d_dp_reflect : forall c xs ys,
  emd_1d_dp exact (map (fun q => c - q) xs) (map (fun q => c - q) ys) = emd_1d_dp exact xs ys.
Proof. intros c xs ys. rewrite !emd_1d_dp_exact. f_equal. apply emd_mirror. Qed.

Theorem emd_1d_dp_translate : forall c xs ys,
  emd_1d_dp exact (map (fun q => q + c) xs) (map (fun q => q + c) ys) = emd_1d_dp exact xs ys.
Proof.
  intros c xs ys. rewrite <- (emd_1d_dp_reflect 0 (map _ xs)), !map_map. rewrite <- (emd_1d_dp_reflect (- c) xs).
  f_equal; apply map_ext; intros q; ring.
Qed.

Theorem emd_1d_dp_common : forall common xs ys,
  emd_1d_dp exact (common ++ xs) (common ++ ys) = emd_1d_dp exact xs ys.
Proof. intros. rewrite !emd_1d_dp_exact, emd_common_list. reflexivity. Qed.

Theorem emd_1d_dp_move_one : forall x x' xs ys d d',
  emd_1d_dp exact (x :: xs) ys = Ok d -> emd_1d_dp exact (x' :: xs) ys = Ok d' -> d' <= d + qabs (x - x').
Proof.
  intros *. rewrite !emd_1d_dp_exact. intros [= <-] [= <-]. pose proof (emd_triangle (x' :: xs) (x :: xs) ys) as T.
  pose proof (emd_cons_pair x' x xs xs) as P. assert (Z : emd xs xs = 0) by (apply emd_zero_iff; auto). rewrite Z, (qabs_sub_comm x' x) in P. qclra.
Qed.

Theorem emd_1d_dp_add_one : forall x xs ys d d',
  emd_1d_dp exact xs ys = Ok d -> emd_1d_dp exact (x :: xs) ys = Ok d' -> d' <= d + 1 /\ d <= d' + 1.
Proof.
  intros *. rewrite !emd_1d_dp_exact. intros [= <-] [= <-]. pose proof (emd_cons_l x xs ys) as U. split; [qclra|].
  pose proof (emd_triangle xs (x :: xs) ys) as T. pose proof (emd_cons_l x xs xs) as V. assert (Z : emd xs xs = 0) by (apply emd_zero_iff; auto). rewrite Z, emd_sym in V. qclra.
Qed.

Theorem emd_1d_dp_split : forall xs xs' ys ys' d d' e,
  emd_1d_dp exact xs ys = Ok d -> emd_1d_dp exact xs' ys' = Ok d' -> emd_1d_dp exact (xs ++ xs') (ys ++ ys') = Ok e -> e <= d + d'.
Proof. intros *. rewrite !emd_1d_dp_exact. intros [= <-] [= <-] [= <-]. apply emd_app. Qed.
Print Assumptions emd_1d_dp_reflect.
Print Assumptions emd_1d_dp_translate.
Print Assumptions emd_1d_dp_common.
Print Assumptions emd_1d_dp_move_one.
Print Assumptions emd_1d_dp_add_one.
Print Assumptions emd_1d_dp_split.

Example emd_1d_dp_changes_case :
  is_val (emd_1d_dp exact [f 1 8; f 1 2] [f 1 4; f 1 1; f 1 1]) (13 # 8) = true /\
  is_val (emd_1d_dp exact [f 7 8; f 1 2] [f 3 4; f 0 1; f 0 1]) (13 # 8) = true /\
  is_val (emd_1d_dp exact [f 9 8; f 3 2] [f 5 4; f 2 1; f 2 1]) (13 # 8) = true /\
  is_val (emd_1d_dp exact [f 1 3; f 1 8; f 1 2] [f 1 3; f 1 4; f 1 1; f 1 1]) (13 # 8) = true /\
  is_val (emd_1d_dp exact [f 1 4; f 1 2] [f 1 4; f 1 1; f 1 1]) (3 # 2) = true /\
  is_val (emd_1d_dp exact [f 1 1; f 1 8; f 1 2] [f 1 4; f 1 1; f 1 1]) (5 # 8) = true.
Proof. vm_compute. auto 10. Qed.
