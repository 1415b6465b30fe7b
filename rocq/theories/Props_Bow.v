(** Theorems about nmd/nmd_bow.py ([bow_ngram_movers_distance]): property C37. *)
From Coq Require Import ZArith NArith QArith Qcanon List Bool Permutation Lia String.
From Verif Require Import Num Py ListAux PyDict Float64 EmdSpec EmdModel EmdProofs EmdFloatProofs NmdSpec NmdModel NmdProofs NmdFloatProofs
  IndexTop BowSpec BowModel BowProofs Ex Props_Nmd.
Import ListNotations.
Open Scope string_scope.
Open Scope list_scope.
Open Scope Qc_scope.

(** The words of a bag: the characters of a string, or a list of strings. *)
Definition bag_words (b : bag) (ws : list str) : Prop :=
  match b with BStr s => ws = map (fun c => [c]) s | BIter l => l = map PStr ws end.

Lemma bag_words_list b ws : bag_words b ws -> bag_list b = map PStr ws.
Proof. destruct b as [s|l]; cbn [bag_words bag_list]; [intros ->; rewrite map_map; reflexivity|auto]. Qed.

Notation bow rnd solver b1 b2 n invert normalize :=
  (bow_ngram_movers_distance rnd solver b1 b2 (PInt (Z.of_nat n)) invert normalize).

Definition matrix (c : str -> str -> Qc) (a b : list str) : list (list Qc) := map (fun w1 => map (c w1) b) a.

Lemma matrix_rows c a b : Forall (fun row => List.length row = List.length b) (matrix c a b).
Proof. apply Forall_forall. intros row I. apply in_map_iff in I. destruct I as (w & <- & _). apply map_length. Qed.

Lemma matrix_entry c a b ij : (fst ij < List.length a)%nat -> (snd ij < List.length b)%nat ->
  BowProofs.entry (matrix c a b) ij = c (nth (fst ij) a []) (nth (snd ij) b []).
Proof.
  intros H1 H2. unfold BowProofs.entry, matrix. 
  rewrite nth_indep with (d' := (fun w1 => map (c w1) b) []) by (rewrite map_length; auto).
  rewrite (map_nth (fun w1 => map (c w1) b) a []). 
  rewrite nth_indep with (d' := c (nth (fst ij) a []) []) by (rewrite map_length; auto). apply map_nth.
Qed.

Lemma matrix_total c a b r : valid_assignment (List.length a) (List.length b) r ->
  assignment_total (matrix c a b) r = pair_cost c (picked [] a b r).
Proof.
  intros (_ & _ & _ & _ & F1 & F2). unfold assignment_total, pair_cost, picked. rewrite map_map. cbn [fst snd].
  apply qsum_map_ext. intros [i j] I. apply (matrix_entry c a b (i, j)); cbn [fst snd].
  - apply in_combine_l in I. rewrite Forall_forall in F1. auto.
  - apply in_combine_r in I. rewrite Forall_forall in F2. auto.
Qed.

Lemma cost_matrix_ok rnd c n a b : (forall w1 w2, In w1 a -> In w2 b -> cost rnd (PInt (Z.of_nat n)) (PStr w1) (PStr w2) = Ok (c w1 w2)) ->
  cost_matrix rnd (PInt (Z.of_nat n)) (map PStr a) (map PStr b) = Ok (matrix c a b).
Proof.
  intros H. unfold cost_matrix. rewrite mapM_map. apply (mapM_Ok_in _ (fun w1 => map (c w1) b)). intros w1 I1.
  rewrite mapM_map. apply (mapM_Ok_in _ (c w1)). intros w2 I2. auto.
Qed.

Lemma assign_valid solver c a b : valid_solver solver -> valid_assignment (List.length a) (List.length b) (assign solver (matrix c a b)).
Proof.
  intros V. destruct a as [|w a].
  - cbn. repeat split; constructor.
  - pose proof (V (matrix c (w :: a) b) (List.length b) (matrix_rows c (w :: a) b)) as H. unfold matrix in H at 1.
    rewrite map_length in H. exact H.
Qed.

Definition gap (a b : list str) : nat := Nat.max (List.length a) (List.length b) - Nat.min (List.length a) (List.length b).

(** The result, for any costs. *)
Lemma bow_loop rnd solver c b1 b2 a b n (i m : bool) : bag_words b1 a -> bag_words b2 b -> valid_solver solver ->
  (forall w1 w2, In w1 a -> In w2 b -> cost rnd (PInt (Z.of_nat n)) (PStr w1) (PStr w2) = Ok (c w1 w2)) ->
  let ij := combine (fst (assign solver (matrix c a b))) (snd (assign solver (matrix c a b))) in
  let out := if i then fold_left (fun out ij => rnd (out - BowProofs.entry (matrix c a b) ij)) ij (qn (Nat.min (List.length a) (List.length b)))
             else fold_left (fun out ij => rnd (out + BowProofs.entry (matrix c a b) ij)) ij (qn (gap a b)) in
  bow rnd solver b1 b2 n i m =
  if m then if (Nat.max (List.length a) (List.length b) =? 0)%nat then Err ZeroDivisionError
            else Ok (rnd (out / qn (Nat.max (List.length a) (List.length b))))
  else Ok out.
Proof.
  intros W1 W2 V H ij out. apply bag_words_list in W1, W2. unfold bow_ngram_movers_distance. rewrite W1, W2.
  rewrite (cost_matrix_ok rnd c) by auto. cbn [bind]. destruct (assign_valid solver c a b V) as (_ & _ & _ & _ & F1 & F2).
  assert (Zl : zlen (map PStr a) = Z.of_nat (List.length a)) by (unfold zlen; rewrite map_length; auto).
  assert (Zr : zlen (map PStr b) = Z.of_nat (List.length b)) by (unfold zlen; rewrite map_length; auto).
  rewrite Zl, Zr. rewrite <- Nat2Z.inj_max, <- Nat2Z.inj_min.
  assert (Eg : Z.abs (Z.of_nat (List.length a) - Z.of_nat (List.length b)) = Z.of_nat (gap a b)) by (unfold gap; lia).
  rewrite Eg. change (qz (Z.of_nat (gap a b))) with (qn (gap a b)).
  change (qz (Z.of_nat (Nat.min (List.length a) (List.length b)))) with (qn (Nat.min (List.length a) (List.length b))).
  change (qz (Z.of_nat (Nat.max (List.length a) (List.length b)))) with (qn (Nat.max (List.length a) (List.length b))).
  assert (L : List.length (matrix c a b) = List.length a) by apply map_length.
  rewrite !(add_costs_fold rnd _ (matrix c a b) (List.length b)); try (rewrite ?L; auto; fail); try apply matrix_rows.
  fold ij. change (Z.of_nat (Nat.max (List.length a) (List.length b)) =? 0)%Z with (Z.of_nat (Nat.max (List.length a) (List.length b)) =? Z.of_nat 0)%Z.
  assert (Ez : (Z.of_nat (Nat.max (List.length a) (List.length b)) =? Z.of_nat 0)%Z = (Nat.max (List.length a) (List.length b) =? 0)%nat).
  { destruct (Nat.eqb_spec (Nat.max (List.length a) (List.length b)) 0), (Z.eqb_spec (Z.of_nat (Nat.max (List.length a) (List.length b))) (Z.of_nat 0)); auto; lia. }
  rewrite Ez. unfold out. destruct i; reflexivity.
Qed.

(** In exact arithmetic. *)
Lemma bow_value solver b1 b2 a b n (i m : bool) : bag_words b1 a -> bag_words b2 b -> valid_solver solver ->
  Forall clean a -> Forall clean b -> (2 <= n)%nat ->
  let s := pair_cost (wcost n) (picked [] a b (assign solver (matrix (wcost n) a b))) in
  let out := if i then qn (Nat.min (List.length a) (List.length b)) - s else qn (gap a b) + s in
  bow exact solver b1 b2 n i m =
  if m then if (Nat.max (List.length a) (List.length b) =? 0)%nat then Err ZeroDivisionError
            else Ok (out / qn (Nat.max (List.length a) (List.length b)))
  else Ok out.
Proof.
  intros W1 W2 V C1 C2 Hn s out. rewrite Forall_forall in C1, C2.
  rewrite (bow_loop exact solver (wcost n) b1 b2 a b n i m W1 W2 V) by (intros; apply cost_exact; auto).
  rewrite fold_exact_add, fold_exact_sub.
  pose proof (matrix_total (wcost n) a b _ (assign_valid solver (wcost n) a b V)) as T. unfold assignment_total in T.
  fold (BowProofs.entry (matrix (wcost n) a b)) in T. 
  change (fun ij : nat * nat => nth (snd ij) (nth (fst ij) (matrix (wcost n) a b) []) 0) with (BowProofs.entry (matrix (wcost n) a b)) in T.
  rewrite T. fold s. unfold exact. destruct i; reflexivity.
Qed.

Lemma assign_optimal solver c a b : optimal_solver solver ->
  forall ps, pairing a b ps -> pair_cost c (picked [] a b (assign solver (matrix c a b))) <= pair_cost c ps.
Proof.
  intros [V O] ps P. destruct (pairing_valid [] a b ps P) as (r & Vr & <-).
  rewrite <- !matrix_total by (auto; apply assign_valid; auto). destruct a as [|w a].
  - destruct r as [is js]. destruct Vr as (_ & _ & L1 & L2 & _). cbn in L1, L2. destruct is, js; try discriminate; apply Qcle_refl.
  - apply (O (matrix c (w :: a) b) (List.length b) (matrix_rows c (w :: a) b)). unfold matrix. rewrite map_length. exact Vr.
Qed.

(** *** C37 *)

(** The result is the cost of the cheapest pairing plus the number of words
    left over. *)
Theorem bow_is_optimal : forall solver b1 b2 a b n, optimal_solver solver -> bag_words b1 a -> bag_words b2 b ->
  Forall clean a -> Forall clean b -> (2 <= n)%nat ->
  exists d, bow exact solver b1 b2 n false false = Ok d /\ is_bow n a b d.
Proof.
  intros solver b1 b2 a b n O W1 W2 C1 C2 Hn. rewrite (bow_value solver b1 b2 a b) by (auto; apply O).
  eexists. split; [reflexivity|]. exists (wcost n). split; [intros; apply wcost_spec|].
  exists (picked [] a b (assign solver (matrix (wcost n) a b))). split; [apply valid_pairing, assign_valid, O|].
  split; [intros qs; apply assign_optimal; auto|reflexivity].
Qed.
Print Assumptions bow_is_optimal.

Lemma pair_cost_ext (c e : str -> str -> Qc) ps : (forall x y, c x y = e x y) -> pair_cost c ps = pair_cost e ps.
Proof. intros H. apply qsum_map_ext. intros p _. apply H. Qed.

(** This determines the result. *)
Theorem is_bow_unique : forall n a b d e, is_bow n a b d -> is_bow n a b e -> d = e.
Proof.
  intros n a b d e (c & Hc & ps & P & M & ->) (c' & Hc' & qs & Q & M' & ->).
  assert (E : forall x y, c x y = c' x y) by (intros; eapply word_cost_unique; eauto). f_equal.
  specialize (M qs Q). specialize (M' ps P). rewrite <- !(pair_cost_ext c c') in * by auto. apply Qcle_antisym; auto.
Qed.
Print Assumptions is_bow_unique.

(** Two calls with equal spec value agree in every mode, whatever the solvers. *)
Lemma bow_modes solver solver' b1 b2 b1' b2' a b a' b' n : optimal_solver solver -> optimal_solver solver' ->
  bag_words b1 a -> bag_words b2 b -> bag_words b1' a' -> bag_words b2' b' ->
  Forall clean a -> Forall clean b -> Forall clean a' -> Forall clean b' -> (2 <= n)%nat ->
  Nat.max (List.length a) (List.length b) = Nat.max (List.length a') (List.length b') ->
  Nat.min (List.length a) (List.length b) = Nat.min (List.length a') (List.length b') ->
  pair_cost (wcost n) (picked [] a b (assign solver (matrix (wcost n) a b))) =
  pair_cost (wcost n) (picked [] a' b' (assign solver' (matrix (wcost n) a' b'))) ->
  forall i m, bow exact solver b1 b2 n i m = bow exact solver' b1' b2' n i m.
Proof.
  intros O O' W1 W2 W1' W2' C1 C2 C1' C2' Hn Emax Emin Es i m.
  rewrite (bow_value solver b1 b2 a b) by (auto; apply O). rewrite (bow_value solver' b1' b2' a' b') by (auto; apply O').
  unfold gap. rewrite Emax, Emin, Es. reflexivity.
Qed.

Lemma Forall_perm {A} (P : A -> Prop) l l' : Permutation l l' -> Forall P l -> Forall P l'.
Proof. intros E F. rewrite Forall_forall in *. intros x I. apply F. eapply Permutation_in; [symmetry; exact E|exact I]. Qed.

Theorem bow_symmetric : forall solver solver' b1 b2 a b n, optimal_solver solver -> optimal_solver solver' ->
  bag_words b1 a -> bag_words b2 b -> Forall clean a -> Forall clean b -> (2 <= n)%nat ->
  forall i m, bow exact solver b1 b2 n i m = bow exact solver' b2 b1 n i m.
Proof.
  intros solver solver' b1 b2 a b n O O' W1 W2 C1 C2 Hn. apply (bow_modes solver solver' b1 b2 b2 b1 a b b a); auto; try lia.
  assert (X : forall s s' x y, optimal_solver s -> optimal_solver s' ->
    pair_cost (wcost n) (picked [] x y (assign s (matrix (wcost n) x y))) <= pair_cost (wcost n) (picked [] y x (assign s' (matrix (wcost n) y x)))).
  { intros s s' x y Os Os'. rewrite <- (pair_cost_swap (wcost n) (picked [] y x _)) by apply wcost_sym. apply assign_optimal; auto.
    apply pairing_swap, valid_pairing, assign_valid, Os'. }
  apply Qcle_antisym; apply X; auto.
Qed.
Print Assumptions bow_symmetric.

Theorem bow_order_irrelevant : forall solver solver' b1 b2 b1' b2' a b a' b' n, optimal_solver solver -> optimal_solver solver' ->
  bag_words b1 a -> bag_words b2 b -> bag_words b1' a' -> bag_words b2' b' -> Permutation a a' -> Permutation b b' ->
  Forall clean a -> Forall clean b -> (2 <= n)%nat ->
  forall i m, bow exact solver b1 b2 n i m = bow exact solver' b1' b2' n i m.
Proof.
  intros solver solver' b1 b2 b1' b2' a b a' b' n O O' W1 W2 W1' W2' P Q C1 C2 Hn.
  apply (bow_modes solver solver' b1 b2 b1' b2' a b a' b'); auto; try (eapply Forall_perm; eauto).
  1, 2: rewrite (Permutation_length P), (Permutation_length Q); reflexivity.
  apply Qcle_antisym; apply assign_optimal; auto.
  - apply (pairing_perm a' a b' b); try (symmetry; auto; fail). apply valid_pairing, assign_valid, O'.
  - apply (pairing_perm a a' b b'); auto. apply valid_pairing, assign_valid, O.
Qed.
Print Assumptions bow_order_irrelevant.

Lemma pair_cost_range n ps : 0 <= pair_cost (wcost n) ps /\ pair_cost (wcost n) ps <= qn (List.length ps).
Proof.
  unfold pair_cost. induction ps as [|p ps IH]; cbn [map qsum List.length].
  - split; apply Qcle_refl.
  - rewrite qn_S. destruct (wcost_range n (fst p) (snd p)) as [A B]. set (x := wcost n (fst p) (snd p)) in *. set (y := qsum _) in *. clearbody x y.
    destruct IH as [C D]. clear - A B C D. split; qclra.
Qed.

(** Between the difference and the larger of the two sizes; the similarity is
    between 0 and the smaller; they add up to the larger. *)
Theorem bow_range : forall solver b1 b2 a b n, valid_solver solver -> bag_words b1 a -> bag_words b2 b ->
  Forall clean a -> Forall clean b -> (2 <= n)%nat ->
  exists d s, bow exact solver b1 b2 n false false = Ok d /\ bow exact solver b1 b2 n true false = Ok s /\
    qn (Nat.max (List.length a) (List.length b) - Nat.min (List.length a) (List.length b)) <= d /\ d <= qn (Nat.max (List.length a) (List.length b)) /\
    0 <= s /\ s <= qn (Nat.min (List.length a) (List.length b)) /\ d + s = qn (Nat.max (List.length a) (List.length b)).
Proof.
  intros solver b1 b2 a b n V W1 W2 C1 C2 Hn. do 2 eexists. rewrite !(bow_value solver b1 b2 a b) by auto.
  split; [reflexivity|]. split; [reflexivity|].
  set (ps := picked [] a b _). pose proof (valid_pairing [] a b _ (assign_valid solver (wcost n) a b V)) as P. fold ps in P.
  pose proof (pairing_length _ _ _ P) as L. destruct (pair_cost_range n ps) as [R1 R2]. cbv zeta.
  assert (R3 : pair_cost (wcost n) ps <= qn (Nat.min (List.length a) (List.length b))) by (unfold str in *; rewrite <- L; exact R2). clear R2. rename R3 into R2.
  assert (E : qn (Nat.max (List.length a) (List.length b)) = qn (gap a b) + qn (Nat.min (List.length a) (List.length b))).
  { rewrite <- qn_add. f_equal. unfold gap. lia. }
  fold (gap a b). set (x := pair_cost (wcost n) ps) in *. clearbody x. clear - R1 R2 E. repeat split; try qclra.
Qed.
Print Assumptions bow_range.

(** 0 exactly for the same words in any order. *)
Theorem bow_zero_iff : forall solver b1 b2 a b n, optimal_solver solver -> bag_words b1 a -> bag_words b2 b ->
  Forall clean a -> Forall clean b -> (2 <= n)%nat ->
  (bow exact solver b1 b2 n false false = Ok 0 -> Permutation a b) /\
  (Forall (fun w => (n <= List.length w + 2)%nat) a -> Permutation a b -> bow exact solver b1 b2 n false false = Ok 0).
Proof.
  intros solver b1 b2 a b n O W1 W2 C1 C2 Hn. rewrite (bow_value solver b1 b2 a b) by (auto; apply O). cbv zeta.
  set (ps := picked [] a b _). assert (P : pairing a b ps) by (apply valid_pairing, assign_valid, O).
  destruct (pair_cost_range n ps) as [R1 R2]. split.
  - intros E. apply Ok_inj in E. assert (G : gap a b = 0%nat /\ pair_cost (wcost n) ps = 0).
    { pose proof (qn_nonneg (gap a b)) as Gn. split; [apply qn_inj; rewrite qn_0|]; set (x := pair_cost (wcost n) ps) in *; clearbody x;
        set (g := qn (gap a b)) in *; clearbody g; clear - E R1 Gn; apply Qcle_antisym; qclra. }
    destruct G as [G S0]. pose proof (pairing_length _ _ _ P) as L. destruct P as (la & lb & P1 & P2 & _).
    assert (la = [] /\ lb = []) as [-> ->].
    { unfold gap in G. pose proof (Permutation_length P1) as L1. pose proof (Permutation_length P2) as L2. rewrite app_length, map_length in L1, L2.
      split; [destruct la|destruct lb]; auto; cbn [List.length] in *; lia. }
    rewrite app_nil_r in P1, P2. rewrite P1, P2.
    assert (F : forall p, In p ps -> fst p = snd p).
    { intros p I. apply (wcost_zero n); auto.
      - rewrite Forall_forall in C1. apply C1. eapply Permutation_in; [symmetry; exact P1|]. apply in_map; auto.
      - rewrite Forall_forall in C2. apply C2. eapply Permutation_in; [symmetry; exact P2|]. apply in_map; auto.
      - apply (qsum_map_zero_inv (fun p => wcost n (fst p) (snd p)) ps); auto; [intros q _; apply wcost_range|]. unfold pair_cost in S0. rewrite S0. apply Qcle_refl. }
    pose proof (map_ext_in fst snd ps F) as F2. unfold str in *. rewrite F2. reflexivity.
  - intros A E. assert (G : gap a b = 0%nat) by (unfold gap; rewrite (Permutation_length E); lia). rewrite G, qn_0.
    assert (S0 : pair_cost (wcost n) ps <= 0).
    { assert (Z : pair_cost (wcost n) (combine a a) = 0).
      { unfold pair_cost. apply qsum_map_zero. intros [x y] I. cbn [fst snd].
        assert (Same : forall l (x y : str), In (x, y) (combine l l) -> x = y /\ In x l).
        { clear. induction l as [|z l IH]; intros x y; cbn; [intros []|]. intros [[= -> ->]|H]; [auto|]. destruct (IH x y H); auto. }
        destruct (Same a x y I) as [-> Iy]. apply wcost_self. rewrite Forall_forall in A. auto. }
      rewrite <- Z. apply assign_optimal; auto. exists [], []. rewrite map_fst_combine, map_snd_combine by auto. rewrite !app_nil_r.
      split; [reflexivity|]. split; [symmetry; auto|auto]. }
    f_equal. apply Qcle_antisym; set (x := pair_cost (wcost n) ps) in *; clearbody x; clear - R1 S0; qclra.
Qed.
Print Assumptions bow_zero_iff.

(** Normalized: divided by the larger size, between 0 and 1; ZeroDivisionError
    exactly for two empty bags. *)
Theorem bow_normalized : forall solver b1 b2 a b n i, valid_solver solver -> bag_words b1 a -> bag_words b2 b ->
  Forall clean a -> Forall clean b -> (2 <= n)%nat ->
  if (Nat.max (List.length a) (List.length b) =? 0)%nat then bow exact solver b1 b2 n i true = Err ZeroDivisionError
  else exists d, bow exact solver b1 b2 n i false = Ok d /\
    bow exact solver b1 b2 n i true = Ok (d / qn (Nat.max (List.length a) (List.length b))) /\
    0 <= d / qn (Nat.max (List.length a) (List.length b)) <= 1.
Proof.
  intros solver b1 b2 a b n i V W1 W2 C1 C2 Hn.
  destruct (bow_range solver b1 b2 a b n V W1 W2 C1 C2 Hn) as (d & s & Ed & Es & D1 & D2 & S1 & S2 & _).
  rewrite !(bow_value solver b1 b2 a b) in * by auto. cbv zeta in *. destruct (Nat.eqb_spec (Nat.max (List.length a) (List.length b)) 0) as [E|E]; [reflexivity|].
  eexists. split; [reflexivity|]. split; [reflexivity|]. apply Ok_inj in Ed, Es.
  assert (P : 0 < qn (Nat.max (List.length a) (List.length b))) by (apply qn_pos; lia).
  assert (M : qn (Nat.min (List.length a) (List.length b)) <= qn (Nat.max (List.length a) (List.length b))) by (apply qn_le; lia).
  assert (G : 0 <= qn (gap a b)) by apply qn_nonneg. fold (gap a b) in D1.
  destruct i.
  - rewrite Es. split; [apply qdiv_nonneg; auto|apply qdiv_le_1; auto]. clear - S2 M. qclra.
  - rewrite Ed. split; [apply qdiv_nonneg; auto|apply qdiv_le_1; auto]. clear - D1 G. qclra.
Qed.
Print Assumptions bow_normalized.

(** Errors, for arbitrary contents: ZeroDivisionError exactly for two empty
    bags with [normalize]; otherwise the error of some pair of words. *)
Lemma mapM_err_in {A B} (f : A -> result B) l e : mapM f l = Err e -> exists x, In x l /\ f x = Err e.
Proof.
  induction l as [|x l IH]; cbn [mapM]; [discriminate|]. destruct (f x) as [y|e'] eqn:E; cbn [bind].
  - destruct (mapM f l); cbn [bind]; [discriminate|]. intros [= ->]. destruct IH as (z & I & Hz); auto. exists z. simpl; auto.
  - intros [= ->]. exists x. simpl; auto.
Qed.
Lemma mapM_err_exists {A B} (f : A -> result B) l x e : In x l -> f x = Err e -> exists e', mapM f l = Err e'.
Proof.
  induction l as [|y l IH]; intros [].
  - subst y. intros E. cbn [mapM]. rewrite E. cbn [bind]. eauto.
  - intros E. cbn [mapM]. destruct (f y); cbn [bind]; [|eauto]. destruct IH as (e' & ->); auto. cbn [bind]. eauto.
Qed.

Theorem bow_errors : forall rnd solver b1 b2 vn i m, valid_solver solver ->
  (forall e, bow_ngram_movers_distance rnd solver b1 b2 vn i m = Err e ->
     (e = ZeroDivisionError /\ m = true /\ bag_list b1 = [] /\ bag_list b2 = []) \/
     (e <> ZeroDivisionError /\ exists v1 v2, In v1 (bag_list b1) /\ In v2 (bag_list b2) /\ ngram_movers_distance rnd v1 v2 vn false true = Err e)) /\
  (m = true -> bag_list b1 = [] -> bag_list b2 = [] -> bow_ngram_movers_distance rnd solver b1 b2 vn i m = Err ZeroDivisionError) /\
  (forall v1 v2 e, In v1 (bag_list b1) -> In v2 (bag_list b2) -> ngram_movers_distance rnd v1 v2 vn false true = Err e -> e <> ZeroDivisionError ->
     exists e', bow_ngram_movers_distance rnd solver b1 b2 vn i m = Err e').
Proof.
  intros rnd solver b1 b2 vn i m V. unfold bow_ngram_movers_distance. set (l1 := bag_list b1). set (l2 := bag_list b2).
  assert (CE : forall v1 v2 e, cost rnd vn v1 v2 = Err e <-> ngram_movers_distance rnd v1 v2 vn false true = Err e /\ e <> ZeroDivisionError).
  { intros v1 v2 e. unfold cost. destruct (ngram_movers_distance rnd v1 v2 vn false true) as [x|e']; [split; [discriminate|intros [[=] _]]|].
    destruct e'; (split; [intros E; first [discriminate E|injection E as <-; split; [reflexivity|discriminate]]|intros [E X]; injection E as <-; congruence || reflexivity]). }
  split; [|split].
  - intros e E. apply bind_err in E. destruct E as [E|(costs & Ec & E)].
    + right. unfold cost_matrix in E. apply mapM_err_in in E. destruct E as (v1 & I1 & E). apply mapM_err_in in E. destruct E as (v2 & I2 & E).
      apply CE in E. destruct E as [E N]. split; auto. exists v1, v2. auto.
    + left. assert (R : Forall (fun row => List.length row = List.length l2) costs /\ List.length costs = List.length l1).
      { unfold cost_matrix in Ec. apply mapM_inv in Ec. clear - Ec. induction Ec as [|v row l rows Hv _ [IH1 IH2]]; [split; constructor|].
        split; [|cbn; congruence]. constructor; auto. apply mapM_inv in Hv. clear - Hv. induction Hv; cbn; congruence. }
      destruct R as [R1 R2].
      assert (Va : valid_assignment (List.length costs) (List.length l2) (assign solver costs)).
      { destruct costs as [|row costs]; [cbn; repeat split; constructor|]. apply (V (row :: costs)). exact R1. }
      destruct Va as (_ & _ & _ & _ & F1 & F2).
      assert (Ea : forall op out, exists r, add_costs rnd op costs (assign solver costs) out = Ok r).
      { intros op out. eexists. apply (add_costs_fold rnd op costs (List.length l2)); auto. }
      apply bind_err in E. destruct E as [E|(out & _ & E)].
      { exfalso. destruct i; [destruct (Ea Qcminus (qz (Z.min (zlen l1) (zlen l2)))) as (r & Er)|destruct (Ea Qcplus (qz (Z.abs (zlen l1 - zlen l2)))) as (r & Er)]; congruence. }
      destruct m; [|discriminate]. destruct (Z.eqb_spec (Z.max (zlen l1) (zlen l2)) 0) as [Z0|]; [|discriminate]. injection E as <-.
      unfold zlen in Z0. repeat split; auto; apply length_zero_iff_nil; lia.
  - intros -> E1 E2. rewrite E1, E2. destruct i; reflexivity.
  - intros v1 v2 e I1 I2 E N. assert (Ec : cost rnd vn v1 v2 = Err e) by (apply CE; auto).
    destruct (mapM_err_exists (fun v2 => cost rnd vn v1 v2) l2 v2 e I2 Ec) as (e1 & E1).
    destruct (mapM_err_exists (fun v1 => mapM (fun v2 => cost rnd vn v1 v2) l2) l1 v1 e1 I1 E1) as (e2 & E2).
    unfold cost_matrix. rewrite E2. cbn [bind]. eauto.
Qed.
Print Assumptions bow_errors.

(** In floats: any valid solver keeps the result in range, in every mode. *)
Lemma cost_rounded rnd n (w1 w2 : str) : lawful rnd -> adequate n w1 -> adequate n w2 ->
  (Z.of_nat (gram_count n w1 + gram_count n w2) <= 2 ^ 53)%Z ->
  exists x, cost rnd (PInt (Z.of_nat n)) (PStr w1) (PStr w2) = Ok x /\ 0 <= x <= 1.
Proof.
  intros L A1 A2 Sm. destruct (nmd_rounded_range rnd L w1 w2 n false true A1 A2 Sm) as (d & E & D1 & D2).
  exists d. split; [|auto]. unfold cost. rewrite E. reflexivity.
Qed.

Definition fcost (rnd : Qc -> Qc) (n : nat) (w1 w2 : str) : Qc :=
  match cost rnd (PInt (Z.of_nat n)) (PStr w1) (PStr w2) with Ok x => x | Err _ => 0 end.

(** All the words of both bags can be compared without rounding trouble: they
    are long enough for [n] and have fewer than 2^53 n-grams. *)
Definition comparable (n : nat) (ws : list str) : Prop :=
  Forall (fun w => adequate n w /\ (Z.of_nat (gram_count n w) <= 2 ^ 52)%Z) ws.

Lemma fcost_ok rnd n a b w1 w2 : lawful rnd -> comparable n a -> comparable n b -> In w1 a -> In w2 b ->
  cost rnd (PInt (Z.of_nat n)) (PStr w1) (PStr w2) = Ok (fcost rnd n w1 w2) /\ 0 <= fcost rnd n w1 w2 <= 1.
Proof.
  intros L C1 C2 I1 I2. unfold comparable in *. rewrite Forall_forall in C1, C2. destruct (C1 _ I1) as [A1 G1], (C2 _ I2) as [A2 G2].
  destruct (cost_rounded rnd n w1 w2 L A1 A2) as (x & E & X); [lia|]. unfold fcost. rewrite E. auto.
Qed.

Lemma assigned_range rnd solver n a b : lawful rnd -> valid_solver solver -> comparable n a -> comparable n b ->
  let r := assign solver (matrix (fcost rnd n) a b) in
  forall ij, In ij (combine (fst r) (snd r)) -> 0 <= BowProofs.entry (matrix (fcost rnd n) a b) ij <= 1.
Proof.
  intros L V C1 C2 r [i j] I. destruct (assign_valid solver (fcost rnd n) a b V) as (_ & _ & _ & _ & F1 & F2). rewrite Forall_forall in F1, F2.
  pose proof (F1 i (in_combine_l _ _ _ _ I)) as H1. pose proof (F2 j (in_combine_r _ _ _ _ I)) as H2.
  rewrite matrix_entry by auto. cbn [fst snd]. apply (fcost_ok rnd n a b); auto; apply nth_In; auto.
Qed.

Theorem bow_rounded_range : forall rnd, lawful rnd -> forall solver b1 b2 a b n i m, valid_solver solver ->
  bag_words b1 a -> bag_words b2 b -> comparable n a -> comparable n b ->
  (Z.of_nat (Nat.max (List.length a) (List.length b)) <= 2 ^ 53)%Z -> (0 < Nat.max (List.length a) (List.length b))%nat ->
  exists d, bow rnd solver b1 b2 n i m = Ok d /\ 0 <= d /\ d <= (if m then 1 else qn (Nat.max (List.length a) (List.length b))).
Proof.
  intros rnd L solver b1 b2 a b n i m V W1 W2 C1 C2 Sm Ne.
  rewrite (bow_loop rnd solver (fcost rnd n) b1 b2 a b n i m W1 W2 V) by (intros; apply (fcost_ok rnd n a b); auto). cbv zeta.
  set (r := assign solver (matrix (fcost rnd n) a b)). set (ij := combine (fst r) (snd r)).
  assert (Li : List.length ij = Nat.min (List.length a) (List.length b)).
  { destruct (assign_valid solver (fcost rnd n) a b V) as (_ & _ & L1 & L2 & _). fold r in L1, L2. unfold ij. rewrite combine_length, L1, L2. lia. }
  pose proof (assigned_range rnd solver n a b L V C1 C2) as R. cbv zeta in R. fold r in R. fold ij in R.
  set (out := if i then _ else _).
  assert (O : 0 <= out /\ out <= qn (Nat.max (List.length a) (List.length b))).
  { unfold out. destruct i.
    - destruct (fold_sub_range rnd L (matrix (fcost rnd n) a b) ij R (Nat.min (List.length a) (List.length b)) (Nat.min (List.length a) (List.length b))
        (qn (Nat.min (List.length a) (List.length b)))) as [X Y]; try lia; try apply Qcle_refl.
      { eapply small_le; [|exact Sm]. lia. }
      split; [eapply Qcle_trans; [apply qn_nonneg|exact X]|]. eapply Qcle_trans; [exact Y|]. apply qn_le. lia.
    - destruct (fold_add_range rnd L (matrix (fcost rnd n) a b) ij R (gap a b) (gap a b) (qn (gap a b))) as [X Y]; try apply Qcle_refl.
      { eapply small_le; [|exact Sm]. rewrite Li. unfold gap. lia. }
      { eapply small_le; [|exact Sm]. unfold gap. lia. }
      split; [eapply Qcle_trans; [apply qn_nonneg|exact X]|]. eapply Qcle_trans; [exact Y|]. apply qn_le. rewrite Li. unfold gap. lia. }
  destruct O as [O1 O2]. destruct m; [|exists out; auto].
  destruct (Nat.eqb_spec (Nat.max (List.length a) (List.length b)) 0); [lia|]. eexists. split; [reflexivity|].
  assert (P : 0 < qn (Nat.max (List.length a) (List.length b))) by (apply qn_pos; lia).
  split; [apply (rnd_nonneg rnd L), qdiv_nonneg; auto|]. rewrite <- (rnd_1 rnd L). apply (rnd_mono _ L). apply qdiv_le_1; auto.
Qed.
Print Assumptions bow_rounded_range.

(** In floats: the same words in another order are at distance exactly 0, and
    normalized similarity exactly 1, when the solver is optimal for the matrix
    it is given. *)
Theorem bow_rounded_reordered : forall rnd, lawful rnd -> forall solver b1 b2 a b n, optimal_solver solver ->
  bag_words b1 a -> bag_words b2 b -> comparable n a -> Permutation a b -> (Z.of_nat (List.length a) <= 2 ^ 53)%Z -> a <> [] ->
  bow rnd solver b1 b2 n false false = Ok 0 /\ bow rnd solver b1 b2 n false true = Ok 0 /\ bow rnd solver b1 b2 n true true = Ok 1.
Proof.
  intros rnd L solver b1 b2 a b n O W1 W2 C1 P Sm Ne. assert (V : valid_solver solver) by apply O.
  assert (C2 : comparable n b) by (eapply Forall_perm; eauto).
  assert (El : List.length b = List.length a) by (symmetry; apply Permutation_length; auto).
  assert (Emin : Nat.min (List.length a) (List.length b) = List.length a) by lia.
  assert (Emax : Nat.max (List.length a) (List.length b) = List.length a) by lia.
  assert (G : gap a b = 0%nat) by (unfold gap; lia).
  assert (Pos : (List.length a =? 0)%nat = false) by (destruct a; [congruence|reflexivity]).
  rewrite !(bow_loop rnd solver (fcost rnd n) b1 b2 a b n _ _ W1 W2 V) by (intros; apply (fcost_ok rnd n a b); auto). cbv zeta. cbv iota.
  rewrite Emin, Emax, G, Pos, qn_0.
  set (r := assign solver (matrix (fcost rnd n) a b)). set (ij := combine (fst r) (snd r)).
  pose proof (assigned_range rnd solver n a b L V C1 C2) as R. cbv zeta in R. fold r in R. fold ij in R.
  assert (S0 : assignment_total (matrix (fcost rnd n) a b) r <= 0).
  { unfold r. rewrite matrix_total by (apply assign_valid; auto).
    assert (Z : pair_cost (fcost rnd n) (combine a a) = 0).
    { unfold pair_cost. apply qsum_map_zero. intros [x y] I. cbn [fst snd].
      assert (Same : forall l (x y : str), In (x, y) (combine l l) -> x = y /\ In x l).
      { clear. induction l as [|z l IH]; intros x y; cbn; [intros []|]. intros [[= -> ->]|H]; [auto|]. destruct (IH x y H); auto. }
      destruct (Same a x y I) as [-> Iy]. unfold comparable in C1. rewrite Forall_forall in C1. destruct (C1 _ Iy) as [A1 A2].
      unfold fcost, cost. destruct (nmd_rounded_self rnd L y n true A1) as [-> _]; [lia|reflexivity]. }
    rewrite <- Z. apply assign_optimal; auto. exists [], []. rewrite map_fst_combine, map_snd_combine by auto. rewrite !app_nil_r.
    split; [reflexivity|]. split; [symmetry; auto|auto]. }
  assert (Z : forall e, In e ij -> BowProofs.entry (matrix (fcost rnd n) a b) e = 0).
  { intros e I. apply (qsum_map_zero_inv (BowProofs.entry (matrix (fcost rnd n) a b)) ij); auto. intros x X. apply R; auto. }
  rewrite (fold_add_zero rnd L _ _ Z).
  assert (Fs : forall k, small k -> fold_left (fun out ij => rnd (out - BowProofs.entry (matrix (fcost rnd n) a b) ij)) ij (qn k) = qn k).
  { intros k Hk. clear - Z L Hk. induction ij as [|e l IH]; cbn [fold_left]; auto. rewrite (Z e) by (left; auto).
    assert (qn k - 0 = qn k) as -> by ring. rewrite (rnd_qn rnd L) by auto. apply IH. intros x I. apply Z. right; auto. }
  rewrite Fs by exact Sm. assert (Q0 : qn (List.length a) <> 0).
  { intros E. apply (qn_inj _ 0) in E. destruct a; [congruence|discriminate]. }
  assert (0 / qn (List.length a) = 0) as -> by (field; auto). assert (qn (List.length a) / qn (List.length a) = 1) as -> by (field; auto).
  rewrite (rnd_0 rnd L), (rnd_1 rnd L). auto.
Qed.
Print Assumptions bow_rounded_reordered.

(** *** What does not hold *)

Definition bag_ (l : list string) : bag := BIter (map (fun s => PStr (w_ s)) l).
Definition words_ (l : list string) : list str := map w_ l.

Ltac solve_words := unfold words_; cbn [map]; repeat (apply Forall_cons; [solve_clean|]); apply Forall_nil.
Lemma bag_words_ l : bag_words (bag_ l) (words_ l).
Proof. unfold bag_, words_. cbn [bag_words]. rewrite map_map. reflexivity. Qed.

(** A word shorter than [n - 2] is at distance 1 from itself (unless twice its
    length is 2n - 6): the premise of [bow_zero_iff] is needed. *)
Theorem bow_self_zero_refuted : exists solver b n, optimal_solver solver /\ (2 <= n)%nat /\
  (exists ws, bag_words b ws /\ Forall clean ws) /\ bow exact solver b b n false false = Ok 1.
Proof.
  exists brute_solver, (bag_ ["a"]), 5%nat. split; [apply brute_solver_optimal|]. split; [lia|]. split.
  - exists (words_ ["a"]). split; [apply bag_words_|]. solve_words.
  - assert (E : is_val (bow exact brute_solver (bag_ ["a"]) (bag_ ["a"]) 5 false false) 1 = true) by (vm_compute; reflexivity).
    unfold is_val in E. destruct (bow exact brute_solver (bag_ ["a"]) (bag_ ["a"]) 5 false false); [|discriminate].
    apply qeqb_eq in E. rewrite E. reflexivity.
Qed.
Print Assumptions bow_self_zero_refuted.

(** Not a metric: the triangle inequality fails. *)
Theorem bow_triangle_refuted : exists solver b1 b2 b3 n x y z, optimal_solver solver /\ (2 <= n)%nat /\
  bow exact solver b1 b3 n false false = Ok x /\ bow exact solver b1 b2 n false false = Ok y /\
  bow exact solver b2 b3 n false false = Ok z /\ y + z < x.
Proof.
  exists brute_solver, (bag_ ["a"]), (bag_ ["aa"]), (bag_ ["baa"]), 2%nat.
  assert (E : match bow exact brute_solver (bag_ ["a"]) (bag_ ["baa"]) 2 false false,
    bow exact brute_solver (bag_ ["a"]) (bag_ ["aa"]) 2 false false, bow exact brute_solver (bag_ ["aa"]) (bag_ ["baa"]) 2 false false with
    | Ok x, Ok y, Ok z => qltb (y + z) x | _, _, _ => false end = true) by (vm_compute; reflexivity).
  destruct (bow exact brute_solver (bag_ ["a"]) (bag_ ["baa"]) 2 false false) as [x|]; [|discriminate].
  destruct (bow exact brute_solver (bag_ ["a"]) (bag_ ["aa"]) 2 false false) as [y|]; [|discriminate].
  destruct (bow exact brute_solver (bag_ ["aa"]) (bag_ ["baa"]) 2 false false) as [z|]; [|discriminate].
  exists x, y, z. split; [apply brute_solver_optimal|]. split; [lia|]. repeat split; auto. apply qltb_lt; auto.
Qed.
Print Assumptions bow_triangle_refuted.

(** *** Concrete cases, with a solver that tries every assignment *)

Definition bg1 := bag_ ["cat"; "dog"; "bird"].
Definition bg2 := bag_ ["dog"; "bat"].
Lemma bg1_clean : Forall clean (words_ ["cat"; "dog"; "bird"]). Proof. solve_words. Qed.
Lemma bg2_clean : Forall clean (words_ ["dog"; "bat"]). Proof. solve_words. Qed.

(** [bow_is_optimal], [bow_symmetric], [bow_order_irrelevant], [bow_range],
    [bow_normalized]: dog-dog, cat-bat and bird left over. *)
Example bow_case :
  optimal_solver brute_solver /\ bag_words bg1 (words_ ["cat"; "dog"; "bird"]) /\ bag_words bg2 (words_ ["dog"; "bat"]) /\
  Forall clean (words_ ["cat"; "dog"; "bird"]) /\ Forall clean (words_ ["dog"; "bat"]) /\
  is_val (bow exact brute_solver bg1 bg2 2 false false) (3 # 2) = true /\
  is_val (bow exact brute_solver bg2 (bag_ ["bird"; "cat"; "dog"]) 2 false false) (3 # 2) = true /\
  is_val (bow exact brute_solver bg1 bg2 2 true false) (3 # 2) = true /\
  is_val (bow exact brute_solver bg1 bg2 2 false true) (1 # 2) = true.
Proof.
  split; [apply brute_solver_optimal|]. split; [apply bag_words_|]. split; [apply bag_words_|]. split; [apply bg1_clean|]. split; [apply bg2_clean|].
  vm_compute. auto.
Qed.

(** A string stands for its characters. *)
Example bow_string_case :
  is_val (bow exact brute_solver (BStr (w_ "abc")) (BStr (w_ "xbca")) 2 false true) (1 # 4) = true /\
  is_val (bow exact brute_solver (BStr (w_ "abc")) (BStr (w_ "bca")) 2 false false) 0 = true.
Proof. vm_compute. auto. Qed.

(** [bow_errors] *)
Example bow_errors_case :
  bow exact brute_solver (bag_ []) (BStr []) 2 true true = Err ZeroDivisionError /\
  bow exact brute_solver (BIter [PStr (w_ "a"); PInt 3]) (bag_ ["a"]) 2 false false = Err TypeError /\
  is_val (bow exact brute_solver (bag_ []) (BStr []) 2 true false) 0 = true.
Proof. vm_compute. auto. Qed.

(** [bow_rounded_range], [bow_rounded_reordered] in binary64 *)
Example bow_rounded_case :
  comparable 3 (words_ ["cat"; "dog"; "bird"]) /\ comparable 3 (words_ ["dog"; "bat"]) /\
  is_val (bow rnd64 brute_solver bg1 bg2 3 true true) (8006399337547549 # 18014398509481984) = true /\
  is_val (bow rnd64 brute_solver (bag_ ["dog"; "cat"; "cat"]) (bag_ ["cat"; "dog"; "cat"]) 3 true true) 1 = true.
Proof.
  assert (Ec : forall l, Forall clean (words_ l) -> Forall (fun w => (3 <= List.length w + 2)%nat /\ (List.length w <= 10)%nat) (words_ l) -> comparable 3 (words_ l)).
  { intros l F G. unfold comparable. rewrite Forall_forall in *. intros w I. destruct (G w I). split; [repeat split; auto; try apply F; auto; lia|].
    unfold gram_count. lia. }
  split; [apply Ec; [apply bg1_clean|]|split; [apply Ec; [apply bg2_clean|]|]].
  1, 2: repeat constructor.
  vm_compute. auto.
Qed.
