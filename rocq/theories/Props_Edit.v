(** Theorems about experiments/edit_distance.py and about [levenshtein] and
    [BKNode] of experiments/automata.py: C43-C45. *)
From Coq Require Import ZArith NArith QArith Qcanon List Bool Lia String.
From Verif Require Import Num Py PyDict EditSpec EditProofs EditModel EditDp EditBk NmdSpec IndexModel Props_Index Ex.
Import ListNotations.
Open Scope string_scope.
Open Scope list_scope.
Open Scope Z_scope.

Section Theorems.
Context {A : Type} `{EqDec A}.

(** C43 [edit_distance] is the least number of insertions, deletions and
    substitutions of single elements, made one after the other anywhere. *)
Theorem edit_distance_least : forall u v : list A, exists n,
  edit_distance u v = Ok (Z.of_nat n) /\ least_steps one_edit u v n.
Proof.
  intros u v. destruct (zd_least u v) as [L S]. exists (Z.to_nat (zdist unit_costs u v)). rewrite edit_distance_ok, Z2Nat.id; auto.
Qed.

Theorem levenshtein_least : forall u v : list A, exists n,
  levenshtein u v = Ok (Z.of_nat n) /\ least_steps one_edit u v n.
Proof.
  intros u v. destruct (zd_least u v) as [L S]. exists (Z.to_nat (zdist unit_costs u v)). rewrite levenshtein_ok, Z2Nat.id; auto.
Qed.

Theorem edit_distance_is_levenshtein : forall u v : list A, edit_distance u v = levenshtein u v.
Proof. intros u v. rewrite edit_distance_ok, levenshtein_ok. reflexivity. Qed.

(** ... which is also the cheapest script. *)
Theorem edit_distance_script : forall u v : list A, exists d,
  edit_distance u v = Ok d /\ distance unit_costs u v (qz d).
Proof.
  intros u v. exists (zdist unit_costs u v). rewrite edit_distance_ok. split; auto. apply best_distance.
  rewrite <- zdist_qz by auto. apply dist_best, sane_unit.
Qed.

(** A metric. *)
Theorem edit_distance_metric :
  (forall u v : list A, edit_distance u v = Ok 0 <-> u = v) /\
  (forall u v : list A, edit_distance u v = edit_distance v u) /\
  (forall (u v w : list A) a b c, edit_distance u v = Ok a -> edit_distance v w = Ok b -> edit_distance u w = Ok c -> c <= a + b).
Proof.
  split; [|split].
  - intros u v. rewrite edit_distance_ok. destruct (zd_least u v) as [L [S M]]. split.
    + intros [= E]. rewrite E in S. inversion S. reflexivity.
    + intros ->. f_equal. pose proof (M 0%nat (steps_0 _ v)). lia.
  - intros u v. rewrite !edit_distance_ok, zd_sym. reflexivity.
  - intros u v w a b c. rewrite !edit_distance_ok. intros [= <-] [= <-] [= <-]. apply zd_triangle.
Qed.

Lemma edit_length (u v : list A) : one_edit u v -> (List.length u <= S (List.length v) /\ List.length v <= S (List.length u))%nat.
Proof. intros [a x b|a x b|a x y b]; rewrite !app_length; cbn [List.length]; lia. Qed.

Lemma al_max c (u v : list A) : insertion c = 1%Qc -> deletion c = 1%Qc -> substitution c = 1%Qc -> exists k, al c u v k /\ (k <= qz (Z.max (zlen u) (zlen v)))%Qc.
Proof.
  intros Ci Cd Cs. revert v. induction u as [|x u IH] using rev_ind; intros v.
  - exists (qn (List.length v)). split.
    + induction v as [|y v IH] using rev_ind; [constructor|]. rewrite app_length, Nat.add_1_r, qn_S, <- Ci. apply al_ins. auto.
    + unfold qn. rewrite <- qz_le. unfold zlen. cbn [List.length]. lia.
  - destruct v as [|y v _] using rev_ind.
    + destruct (IH []) as (k & Hk & L). exists (k + deletion c)%Qc. split; [apply al_del; auto|]. rewrite Cd.
      assert (E : Z.max (zlen (u ++ [x])) (zlen (@nil A)) = Z.max (zlen u) (zlen (@nil A)) + 1) by (unfold zlen; rewrite app_length; cbn [List.length]; lia).
      rewrite E, qz_add. change (qz 1) with 1%Qc. qclra.
    + destruct (IH v) as (k & Hk & L). exists (k + substitution c)%Qc. split; [apply al_sub; auto|]. rewrite Cs.
      assert (E : Z.max (zlen (u ++ [x])) (zlen (v ++ [y])) = Z.max (zlen u) (zlen v) + 1) by (unfold zlen; rewrite !app_length; cbn [List.length]; lia).
      rewrite E, qz_add. change (qz 1) with 1%Qc. qclra.
Qed.

(** At least the difference of the lengths, at most the longer length. *)
Theorem edit_distance_range : forall (u v : list A) d, edit_distance u v = Ok d ->
  Z.abs (zlen u - zlen v) <= d <= Z.max (zlen u) (zlen v).
Proof.
  intros u v d. rewrite edit_distance_ok. intros [= <-]. split.
  - destruct (zd_least u v) as [L [S _]]. assert (G : forall n (x y : list A), in_steps one_edit n x y -> Z.abs (zlen x - zlen y) <= Z.of_nat n).
    { clear. induction 1 as [x|n x y w S IH E]; [lia|]. apply edit_length in E. specialize (IH S). unfold zlen in *. lia. }
    apply G in S. lia.
  - apply qz_le. rewrite <- zdist_qz by auto. destruct (dist_best unit_costs u v sane_unit) as [_ M].
    destruct (al_max unit_costs u v eq_refl eq_refl eq_refl) as (k & Hk & L). apply M in Hk. qclra.
Qed.

(** C44 [damerau_levenshtein_distance]: the cheapest script with transpositions
    of neighbours. *)
Theorem damerau_optimal_alignment : forall u v : list A, exists d,
  damerau_levenshtein_distance u v = Ok d /\ distance unit_costs_t u v (qz d).
Proof.
  intros u v. exists (zdist unit_costs_t u v). rewrite damerau_ok. split; auto. apply best_distance.
  rewrite <- zdist_qz by auto. apply dist_best, sane_unit_t.
Qed.

Lemma zdt_nonneg (u v : list A) : 0 <= zdist unit_costs_t u v.
Proof. apply qz_le. rewrite <- zdist_qz by auto. destruct (dist_best unit_costs_t u v sane_unit_t) as [B _]. eapply al_nonneg; eauto. apply sane_unit_t. Qed.

Lemma al_lt_1 (u v : list A) k : al unit_costs_t u v k -> (k < 1)%Qc -> u = v.
Proof.
  induction 1 as [|u v k x H' IH|u v k x H' IH|u v k x H' IH|u v k x y H' IH|u v k x y t Et H' IH]; intros L; auto.
  - rewrite IH; auto.
  - apply al_nonneg in H'; [|apply sane_unit_t]. cbn in L. exfalso. qclra.
  - apply al_nonneg in H'; [|apply sane_unit_t]. cbn in L. exfalso. qclra.
  - apply al_nonneg in H'; [|apply sane_unit_t]. cbn in L. exfalso. qclra.
  - apply al_nonneg in H'; [|apply sane_unit_t]. injection Et as <-. exfalso. qclra.
Qed.

Theorem damerau_symmetric_separating :
  (forall u v : list A, damerau_levenshtein_distance u v = Ok 0 <-> u = v) /\
  (forall u v : list A, damerau_levenshtein_distance u v = damerau_levenshtein_distance v u).
Proof.
  split.
  - intros u v. rewrite damerau_ok. split.
    + intros [= E]. destruct (dist_best unit_costs_t u v sane_unit_t) as [B _]. rewrite zdist_qz in B by auto. rewrite E in B. apply al_lt_1 in B; auto. reflexivity.
    + intros ->. f_equal. assert (zdist unit_costs_t v v <= 0); [|pose proof (zdt_nonneg v v); lia].
      apply qz_le. rewrite <- zdist_qz by auto. destruct (dist_best unit_costs_t v v sane_unit_t) as [_ M]. apply M, al_refl.
  - intros u v. rewrite !damerau_ok. f_equal. apply qz_inj. rewrite <- !zdist_qz by auto. apply dist_eq; [apply sane_unit_t|].
    change unit_costs_t with (flip unit_costs_t) at 1. apply best_flip, dist_best, sane_unit_t.
Qed.

Lemma al_relax (u v : list A) k : al unit_costs u v k -> al unit_costs_t u v k.
Proof.
  induction 1; [apply al_nil|apply al_keep; auto|apply (al_ins unit_costs_t); auto|apply (al_del unit_costs_t); auto|apply (al_sub unit_costs_t); auto|discriminate].
Qed.
Lemma al_expand (u v : list A) k : al unit_costs_t u v k -> exists k', al unit_costs u v k' /\ (k' <= k + k)%Qc.
Proof.
  induction 1 as [|u v k x H' (k' & B & L)|u v k x H' (k' & B & L)|u v k x H' (k' & B & L)|u v k x y H' (k' & B & L)|u v k x y t Et H' (k' & B & L)].
  - exists 0%Qc. split; [constructor|qclra].
  - exists k'. split; auto. apply al_keep; auto.
  - exists (k' + 1)%Qc. split; [apply (al_ins unit_costs); auto|]. cbn. qclra.
  - exists (k' + 1)%Qc. split; [apply (al_del unit_costs); auto|]. cbn. qclra.
  - exists (k' + 1)%Qc. split; [apply (al_sub unit_costs); auto|]. cbn. qclra.
  - exists (k' + 1 + 1)%Qc. split; [|injection Et as <-; qclra].
    change [x; y] with ([x] ++ [y]). change [y; x] with ([y] ++ [x]). rewrite !app_assoc. apply (al_sub unit_costs), (al_sub unit_costs); auto.
Qed.

(** Between half of [edit_distance] and [edit_distance]. *)
Theorem damerau_versus_edit_distance : forall (u v : list A) d e,
  damerau_levenshtein_distance u v = Ok d -> edit_distance u v = Ok e -> d <= e <= 2 * d.
Proof.
  intros u v d e. rewrite damerau_ok, edit_distance_ok. intros [= <-] [= <-].
  destruct (dist_best unit_costs u v sane_unit) as [B M]. destruct (dist_best unit_costs_t u v sane_unit_t) as [Bt Mt].
  rewrite zdist_qz in B, M by auto. rewrite zdist_qz in Bt, Mt by auto. split; apply qz_le.
  - apply Mt, al_relax; auto.
  - apply al_expand in Bt. destruct Bt as (k' & B' & L). apply M in B'. rewrite <- Z.add_diag, qz_add. qclra.
Qed.

(** C45 A BK-tree finds exactly the words within [k] edits. *)
Theorem bk_search_exact : forall (root : list A) words term k, exists tree out,
  bk_build (bk_new root) words = Ok tree /\ bk_search tree term k = Ok out /\
  forall w, In w out <-> (w = root \/ In w words) /\ exists n, in_steps one_edit n w term /\ Z.of_nat n <= k.
Proof.
  intros root words term k. destruct (bk_build_ok (bk_new root) words (sorted_new root)) as (tree & E & S & T).
  destruct (bk_search_ok tree term k S) as (out & cn & E2 & Ho). exists tree, out. split; auto. split; [unfold bk_search; rewrite E2; reflexivity|].
  intros w. rewrite Ho, T. cbn [terms bk_new In]. destruct (zd_least w term) as [L [S' M]]. split.
  - intros [I Lk]. split; [intuition|]. exists (Z.to_nat (zdist unit_costs w term)). split; auto. lia.
  - intros [I (n & Sn & Ln)]. split; [intuition|]. apply M in Sn. lia.
Qed.
End Theorems.
Print Assumptions edit_distance_least.
Print Assumptions levenshtein_least.
Print Assumptions edit_distance_is_levenshtein.
Print Assumptions edit_distance_script.
Print Assumptions edit_distance_metric.
Print Assumptions edit_distance_range.
Print Assumptions damerau_optimal_alignment.
Print Assumptions damerau_symmetric_separating.
Print Assumptions damerau_versus_edit_distance.
Print Assumptions bk_search_exact.

(** ** Cases *)
Example edit_case : edit_distance (w_ "kitten") (w_ "sitting") = Ok 3 /\ levenshtein (w_ "kitten") (w_ "sitting") = Ok 3 /\
  edit_distance (w_ "sitting") (w_ "kitten") = Ok 3 /\ edit_distance (w_ "") (w_ "abc") = Ok 3.
Proof. vm_compute. auto. Qed.

Example damerau_case : damerau_levenshtein_distance (w_ "ba") (w_ "abc") = Ok 2 /\ damerau_levenshtein_distance (w_ "fee") (w_ "deed") = Ok 2 /\
  edit_distance (w_ "ba") (w_ "abc") = Ok 2 /\ damerau_levenshtein_distance (w_ "abcdef") (w_ "badcfe") = Ok 3 /\ edit_distance (w_ "abcdef") (w_ "badcfe") = Ok 4.
Proof. vm_compute. auto. Qed.

Example bk_case : (t <- bk_build (bk_new (w_ "book")) [w_ "books"; w_ "cake"; w_ "boo"; w_ "cape"; w_ "cart"; w_ "boon"; w_ "cook"; w_ "book"] ;; bk_search t (w_ "bool") 1)
  = Ok [w_ "book"; w_ "book"; w_ "boo"; w_ "boon"].
Proof. vm_compute. reflexivity. Qed.

(** The docstring of [damerau_levenshtein_distance] promises the number of
    additions, deletions, substitutions and transpositions that are needed; an
    insertion between two transposed letters is not found. *)
Theorem damerau_unrestricted_refuted : exists u v n d,
  damerau_levenshtein_distance u v = Ok d /\ in_steps one_edit_t n u v /\ Z.of_nat n < d.
Proof.
  exists (w_ "ca"), (w_ "abc"), 2%nat, 3. split; [vm_compute; reflexivity|]. split; [|reflexivity].
  apply (steps_S _ 1 _ (w_ "ac")); [apply (steps_S _ 0 _ (w_ "ca")); [constructor|apply (one_transpose [] _ _ [])]|].
  apply one_plain. apply (one_insert (w_ "a") 98%N (w_ "c")).
Qed.
Print Assumptions damerau_unrestricted_refuted.

(** It is not a metric. *)
Theorem damerau_triangle_refuted : exists u v w a b c, damerau_levenshtein_distance u v = Ok a /\ damerau_levenshtein_distance v w = Ok b /\
  damerau_levenshtein_distance u w = Ok c /\ a + b < c.
Proof. exists (w_ "ca"), (w_ "ac"), (w_ "abc"), 1, 1, 3. vm_compute. auto. Qed.
Print Assumptions damerau_triangle_refuted.
