(** WordSet and WordList compared: property C121.  experiments/experiment.py
    builds both from the same words and prints their answers side by side. *)
From Coq Require Import ZArith NArith QArith Qcanon List Bool Permutation Lia Sorted String.
From Verif Require Import Num Py ListAux PyDict Float64 Ex EmdSpec EmdModel EmdProofs EmdFloatProofs NmdSpec NmdModel NmdProofs NmdFloatProofs
  IndexSpec IndexModel IndexProofs IndexLoops IndexLookupProofs IndexResult IndexTop IndexScore IndexFacts
  WordSetSpec WordSetModel WordSetProofs WordSetScore Props_Nmd Props_Index Props_WordSet Props_WordSetGrowth Props_Growth
  Accuracy NmdAccuracy Props_Accuracy WordSetFloat Ieee Props_WordSetFloat.
Import ListNotations.
Open Scope string_scope.
Open Scope list_scope.
Open Scope Qc_scope.

Lemma shares_gram n q w : (2 <= n)%nat -> shares (Z.of_nat n) q w <-> share_gram n q w.
Proof. intros H. rewrite shares_iff, !get_n_grams_big by auto. reflexivity. Qed.

Lemma share_counts n q w : share_gram n q w -> (0 < gram_count n q)%nat /\ (0 < gram_count n w)%nat.
Proof.
  intros (g & H1 & H2). rewrite <- (grams_length n q), <- (grams_length n w).
  split; [destruct (grams n q)|destruct (grams n w)]; cbn in *; try contradiction; lia.
Qed.

(** With one size the score of WordSet is the public similarity. *)
Lemma wscore_public n q w : (2 <= n)%nat -> clean q -> clean w -> share_gram n q w -> call q w n true true = Ok (wscore exact [n] q w).
Proof.
  intros Hn Cq Cw Sh. destruct (share_counts n q w Sh) as [G1 G2].
  destruct (wscore_is_score [n] q w) as (d & Hd & E).
  - constructor; [lia|constructor].
  - constructor; [intros []|constructor].
  - unfold total_grams. cbn [map list_sum fold_right]. lia.
  - rewrite E. specialize (Hd n (or_introl eq_refl)). apply is_nmd_unique in Hd. rewrite nmd_call by auto. unfold nmd_value.
    assert (N : forall v, (0 < gram_count n v)%nat -> num n v = Z.of_nat (gram_count n v)) by (intros v Hv; unfold num, gram_count, zlen in *; lia).
    rewrite !N by auto. destruct (Z.eqb_spec (Z.of_nat (gram_count n q) + Z.of_nat (gram_count n w)) 0); [lia|]. f_equal.
    unfold total_grams. cbn [map list_sum fold_right]. rewrite !Nat.add_0_r. cbn [qsum]. rewrite Hd, sim_dist.
    rewrite <- Nat2Z.inj_add. fold (qn (gram_count n q + gram_count n w)).
    replace (qn (gram_count n q) + qn (gram_count n w)) with (qn (gram_count n q + gram_count n w)) by (unfold qn; rewrite Nat2Z.inj_add, qz_add; reflexivity).
    set (t := (gram_count n q + gram_count n w)%nat) in *.
    assert (qn t <> 0) by (intros C; unfold qn in C; apply (qz_inj _ 0) in C; lia). unfold qsum. cbn [fold_right]. field. auto.
Qed.

Lemma isort_best {A} (f : A -> Qc) (leb : A -> A -> bool) (Hl : forall x y, leb x y = true <-> f y <= f x) k l : NoDup l ->
  Props_Growth.best f k l (firstn k (isort leb l)).
Proof.
  intros N.
  assert (T : forall x y, leb x y = true \/ leb y x = true).
  { intros x y. rewrite !Hl. destruct (Qclt_le_dec (f x) (f y)) as [C|C]; auto. right. apply Qclt_le_weak. exact C. }
  assert (Tr : forall x y z, leb x y = true -> leb y z = true -> leb x z = true).
  { intros x y z. rewrite !Hl. intros A1 A2. eapply Qcle_trans; eauto. }
  pose proof (isort_perm leb l) as P. pose proof (isort_sorted leb T Tr l) as S.
  assert (N' : NoDup (isort leb l)) by (eapply Permutation_NoDup; [symmetry; exact P|exact N]).
  set (s := isort leb l) in *. clearbody s. constructor.
  - apply nodup_firstn. exact N'.
  - intros x Hx. eapply Permutation_in; [exact P|]. rewrite <- (firstn_skipn k s). apply in_or_app. auto.
  - rewrite firstn_length. rewrite (Permutation_length P). reflexivity.
  - clear - S Hl. revert k. induction S as [|x s S IH F]; intros [|k]; cbn [firstn]; constructor; auto.
    rewrite Forall_forall in *. intros y Hy. apply Hl, F. rewrite <- (firstn_skipn k s). apply in_or_app. auto.
  - intros a Ha Na b Hb. apply Hl. eapply Permutation_in in Ha; [|symmetry; exact P].
    rewrite <- (firstn_skipn k s) in Ha, S. apply in_app_or in Ha. destruct Ha as [Ha|Ha]; [contradiction|]. exact (sorted_app_le _ _ _ S b a Hb Ha).
Qed.

Lemma best_ext {A} (f g : A -> Qc) k C l : (forall a, In a C -> f a = g a) -> Props_Growth.best f k C l -> Props_Growth.best g k C l.
Proof.
  intros E [N I Ln S O]. constructor; auto.
  - clear Ln O N. induction S as [|x l S IH F]; constructor.
    + apply IH. intros y Hy. apply I. right. exact Hy.
    + rewrite Forall_forall in *. intros y Hy. rewrite <- !E by (apply I; cbn; auto). auto.
  - intros a Ha Na b Hb. rewrite <- !E by auto. auto.
Qed.

Lemma best_map {A B} (h : A -> B) (f : B -> Qc) k C l : NoDup (map h C) -> Props_Growth.best (fun a => f (h a)) k C l ->
  Props_Growth.best f k (map h C) (map h l).
Proof.
  intros N [Nl I Ln S O]. constructor.
  - clear S Ln O. induction l as [|x l IH]; cbn [map]; constructor.
    + intros H. apply in_map_iff in H. destruct H as (y & E & Iy). inversion Nl; subst.
      assert (y = x) by (apply (NoDup_map_eq h C); auto; apply I; cbn; auto). subst. contradiction.
    + apply IH; [inversion Nl; auto|]. intros y Hy. apply I. right. exact Hy.
  - intros y Hy. apply in_map_iff in Hy. destruct Hy as (x & <- & Hx). apply in_map. auto.
  - rewrite !map_length. exact Ln.
  - clear - S. induction S as [|x l S IH F]; cbn [map]; constructor; auto. apply Forall_map. exact F.
  - intros y Hy Ny z Hz. apply in_map_iff in Hy. destruct Hy as (x & <- & Hx). apply in_map_iff in Hz. destruct Hz as (v & <- & Hv).
    apply O; auto. intros C0. apply Ny. apply in_map. exact C0.
Qed.

(** *** C121 *)

(** A WordSet and a WordList with the same words and one n-gram size (2, 3 or
    4) give the same scores in the same places for the same query; and the
    same words if no two of the words score the same. *)
Theorem wordset_agrees_wordlist : forall casefold mean, averaging mean -> (forall x, 0 <= x -> mean [x] = x) -> (forall w, casefold (casefold w) = casefold w) ->
  forall b nz sz cs st st' n, ws_reached exact casefold b nz sz cs st -> reachable exact casefold st' ->
  let norm := normal_form casefold b (normalizer_of nz) in
  (2 <= n <= 4)%nat -> sizes_of st = [n] -> n_list st' = [Z.of_nat n] -> (filter_n st' = 0%Z \/ filter_n st' = Z.of_nat n) ->
  (forall x, In x (vocabulary st') <-> exists w, In w (ws_iter st) /\ norm w = Some x) ->
  forall o o' a k t u n' word R R', fair o -> fair o' -> a <> [] -> norm a = Some u -> u <> [] -> valid_k k n' -> asks casefold st' word k u n' ->
  find_similar exact casefold o st (PStr a) k t = Ok R ->
  lookup exact casefold mean o' st' word k true = Ok R' ->
  map snd R = map (fun e => fst (snd e)) R' /\
  ((forall x y, In x (vocabulary st') -> In y (vocabulary st') -> share_gram n u x -> share_gram n u y ->
      call u x n true true = call u y n true true -> x = y) -> map (fun e => norm (fst e)) R = map (fun e => Some (fst e)) R').
Proof.
  intros casefold mean M M1 CI b nz sz cs st st' n H Re norm Hn Hs Hs' Hf V o o' a k t u n' word R R' Fo Fo' Ha Hu Hne Vk A E E'.
  destruct (wordset_filter_size _ _ _ _ _ _ _ H) as (Fs & _ & _).
  assert (Ff : filter_of st = Some n).
  { rewrite Hs in Fs. destruct Fs as [[I ->]|(_ & m0 & I & _ & ->)]; destruct I as [<-|[]]; auto. destruct (Nat.leb_spec n 4); [reflexivity|lia]. }
  destruct (asks_clean _ _ _ _ _ _ A) as [Cu _].
  assert (Cv : forall x, In x (vocabulary st') -> clean x).
  { intros x Hx. apply vocabulary_in in Hx. apply (words_clean exact casefold st'); [|exact Hx]. apply reachable_inv; auto. }
  assert (K : forall x, candidate (n_list st') (filter_n st') u x <-> share_gram n u x).
  { intros x. unfold candidate. rewrite Hs'. rewrite <- (shares_gram n u x) by lia. split.
    - intros ((m0 & [<-|[]] & Sh) & _). exact Sh.
    - intros Sh. split; [exists (Z.of_nat n); split; [left; auto|auto]|]. destruct Hf as [Hf|Hf]; [left; auto|right; rewrite Hf; auto]. }
  assert (Sc : forall x, In x (vocabulary st') -> share_gram n u x -> similarity exact mean [Z.of_nat n] u x true = Ok (wscore exact [n] u x)).
  { intros x Vx Sh. unfold similarity. cbn [mapM]. unfold pair_score. destruct (Z.eqb_spec (Z.of_nat n) 1); [lia|].
    rewrite (wscore_public n u x) by (auto; lia). cbn [bind]. f_equal. apply M1. apply wscore_range. }
  assert (D : dependable exact true st' u) by (left; reflexivity).
  assert (Scb : scorable exact mean st' u true).
  { intros x Vx Kx. apply K in Kx. rewrite Hs'. eexists. apply Sc; auto. }
  destruct (lookup_best exact casefold mean lawful_exact M CI st' o' word k true u n' R' Re Fo' A D Scb E') as (C' & NC' & HC' & B' & ER').
  rewrite Hs' in B', ER'. set (g := score exact mean [Z.of_nat n] u true) in *. set (f := wscore exact [n] u).
  assert (Efg : forall x, In x C' -> g x = f x).
  { intros x Hx. apply HC' in Hx. destruct Hx as [Vx Kx]. apply K in Kx. unfold g, score. rewrite (Sc x Vx Kx). reflexivity. }
  apply (best_ext g f _ _ _ Efg) in B'.
  (* the word set *)
  destruct (find_full H o (PStr a) k t R Fo E) as (a' & n2 & Ea & V2 & _ & ER & _). injection Ea as <-. fold norm in ER.
  assert (n2 = n') as -> by (destruct Vk, V2; congruence). rewrite Hs, Ff in ER.
  set (m := contents casefold b nz cs) in *.
  assert (Nm : NoDup (map fst m)) by (eapply contents_nodup; exact H).
  set (C := map fst (filter (fun x => eligibleb [n] (Some n) u (fst x)) m)).
  assert (NC : NoDup C) by (apply NoDup_map_filter; exact Nm).
  assert (Im : forall x w, In (x, w) m <-> In w (ws_iter st) /\ norm w = Some x).
  { intros x w. split.
    - intros I. destruct (contents_norm _ _ _ _ _ _ _ H x w I) as (Nw & _ & Iw). auto.
    - intros [Iw Nw]. unfold m. rewrite (contents_as_iter H). fold norm. apply in_map_iff. exists w. rewrite Nw. auto. }
  assert (HC : forall x, In x C <-> In x C').
  { intros x. rewrite HC', K, V. unfold C. rewrite in_map_iff. split.
    - intros ([y w] & <- & I). apply filter_In in I. destruct I as [I El]. cbn [fst] in *. apply eligibleb_iff in El. split; [|exact El].
      exists w. apply Im. exact I.
    - intros ((w & Iw) & Sh). exists (x, w). split; auto. apply filter_In. split; [apply Im; auto|]. cbn [fst]. apply eligibleb_iff. exact Sh. }
  assert (X : R = firstn (Z.to_nat n') (map (out exact [n] u) (rk exact [n] (Some n) m u)) ).
  { rewrite ER. unfold full. destruct a as [|c a]; [congruence|]. rewrite Hu. destruct u as [|d u]; [congruence|reflexivity]. }
  rewrite firstn_map in X. set (l := firstn (Z.to_nat n') (rk exact [n] (Some n) m u)) in X.
  assert (B : Props_Growth.best f (Z.to_nat n') C (map fst l)).
  { apply best_map; [exact NC|]. unfold l, rk. apply isort_best.
    - intros x y. unfold worse. rewrite qleb_le. unfold f. set (p := wscore exact [n] u (fst x)). set (q := wscore exact [n] u (fst y)). clearbody p q. split; intros; qclra.
    - apply NoDup_map_inv with (f := fst). exact NC. }
  assert (Ev : map f (map fst l) = map f (map fst R')).
  { apply (best_values (list_eq_dec N.eq_dec) f (Z.to_nat n') C C'); auto; intros x Hx; apply HC; exact Hx. }
  split.
  - rewrite X. rewrite map_map. cbn [out snd]. transitivity (map f (map fst l)); [rewrite map_map; reflexivity|]. rewrite Ev, map_map.
    apply map_ext_in. intros e He. destruct (ER' e He) as [-> _]. symmetry. apply Efg. apply (best_incl _ _ _ _ B'). apply in_map. exact He.
  - intros Dis. assert (El : map fst l = map fst R').
    { assert (I1 := best_incl _ _ _ _ B). assert (I2 := best_incl _ _ _ _ B'). clear - Ev I1 I2 HC HC' K Dis Cu Cv Hn.
      assert (Inj : forall x y, In x C' -> In y C' -> f x = f y -> x = y).
      { intros x y Hx Hy Exy. apply HC' in Hx, Hy. destruct Hx as [Vx Kx], Hy as [Vy Ky]. apply K in Kx, Ky. apply Dis; auto.
        rewrite !wscore_public by (auto; lia). unfold f in Exy. rewrite Exy. reflexivity. }
      assert (I1' : incl (map fst l) C') by (intros x Hx; apply HC, I1, Hx). clear I1.
      revert Ev I1' I2. generalize (map fst l) as p, (map fst R') as q. clear - Inj.
      induction p as [|x p IH]; intros [|y q] Ev I1 I2; try discriminate; auto. cbn [map] in Ev. injection Ev as E1 E2. f_equal.
      - apply Inj; auto; [apply I1|apply I2]; left; auto.
      - apply IH; auto; intros z Hz; [apply I1|apply I2]; right; exact Hz. }
    transitivity (map Some (map fst R')); [|rewrite map_map; reflexivity]. rewrite <- El, X, !map_map. apply map_ext_in.
    intros [x w] I. cbn [out fst snd]. assert (Ir : In (x, w) m) by (eapply rk_in; unfold l in I; rewrite <- (firstn_skipn (Z.to_nat n')); apply in_or_app; left; exact I).
    apply Im in Ir. apply Ir.
Qed.
Print Assumptions wordset_agrees_wordlist.

(** In doubles the scores of a WordSet with one size are close to what
    [ngram_movers_distance] returns. *)
Theorem wordset_near_public : forall casefold b nz sz cs st n, ws_reached rnd64 casefold b nz sz cs st -> sizes_of st = [n] ->
  let norm := normal_form casefold b (normalizer_of nz) in
  forall o a k t u R, fair o -> norm a = Some u -> at_most (2 ^ 50) st norm u ->
  find_similar rnd64 casefold o st (PStr a) k t = Ok R ->
  forall w s x y, In (w, s) R -> norm w = Some x -> adequate n u -> adequate n x ->
  ngram_movers_distance rnd64 (PStr u) (PStr x) (PInt (Z.of_nat n)) true true = Ok y ->
  qabs (s - y) <= qn (6 * (gram_count n u + gram_count n x) + 9) * f 1 (2 ^ 53).
Proof.
  intros casefold b nz sz cs st n H Hs norm o a k t u R Fo Hu Am E w s x y I Nw Au Ax Ey.
  assert (Am' : at_most (2 ^ 51) st norm u) by (intros w' x' I' N'; specialize (Am w' x' I' N'); lia).
  destruct (find_similar_accurate rnd64 (or_introl eq_refl) casefold b nz sz cs st H o a k t u R Fo Hu Am' E w s I) as (x' & s' & Iw & Nx & (d & Hd & Es) & Le).
  fold norm in Nx. assert (x' = x) by congruence. subst x'. specialize (Am w x Iw Nw). rewrite Hs in *.
  unfold total_grams in *. cbn [map list_sum fold_right] in *. rewrite !Nat.add_0_r in *. specialize (Hd n (or_introl eq_refl)).
  set (N := (gram_count n u + gram_count n x)%nat) in *.
  destruct (nmd_accurate u x n true true (d n) Au Ax Hd Am) as (y' & Ey' & By). fold N in By. assert (y' = y) by congruence. subst y'.
  assert (M : meant n u x true true (d n) = s').
  { rewrite Es. unfold meant. fold N. assert (qn N <> 0).
    { intros C. unfold qn in C. apply (qz_inj _ 0) in C. destruct Au as (_ & _ & Lu). unfold N, gram_count in C. lia. }
    unfold qsum. cbn [fold_right]. field. auto. }
  rewrite M in By. replace (qn (6 * N + 9)) with (qn (3 * N + 4) + qn (3 * N + 5)) by (unfold qn; rewrite <- qz_add; f_equal; lia).
  change (f 1 (2 ^ 53)) with u64 in *. replace ((qn (3 * N + 4) + qn (3 * N + 5)) * u64) with (qn (3 * N + 4) * u64 + qn (3 * N + 5) * u64) by ring.
  eapply Qcle_trans; [apply (qabs_tri s s' y)|]. apply Qcplus_le_compat; [exact Le|]. rewrite qabs_sub_comm. exact By.
Qed.
Print Assumptions wordset_near_public.

(** A bit for bit agreement is too much to ask for, *)
Theorem wordset_equals_public_refuted : exists w q s y,
  find_similar rnd64 lower ord0 (fst (ws_run rnd64 lower (ws_fresh false [2%Z]) [(ord0, CAdd (PStr w))])) (PStr q) (PInt 1) MNone = Ok [(w, s)] /\
  ngram_movers_distance rnd64 (PStr q) (PStr w) (PInt 2) true true = Ok y /\ s <> y.
Proof.
  exists (w_ "abd"), (w_ "abcd"). do 2 eexists. split; [vm_compute; reflexivity|]. split; [vm_compute; reflexivity|].
  apply qeqb_neq. vm_compute. reflexivity.
Qed.
Print Assumptions wordset_equals_public_refuted.

(** with two sizes even the best word differs (WordList averages the scores of
    the sizes, WordSet adds up all n-grams), *)
Theorem wordset_agrees_two_sizes_refuted : exists w w' q s x y, w <> w' /\
  find_similar exact lower ord0 (ws_built false [2; 4]%Z [w; w']) (PStr (w_ q)) (PInt 1) MNone = Ok [(w_ w, s)] /\
  lookup exact lower (mean1 exact) ord0 (built [2; 4]%Z 0 [w; w']) (PStr (w_ q)) (PInt 1) true = Ok [(w_ w', (x, y))].
Proof.
  exists "abd", "abcabc", "abcd". do 3 eexists. split; [discriminate|]. split; vm_compute; reflexivity.
Qed.
Print Assumptions wordset_agrees_two_sizes_refuted.

(** and for a size above 4 a WordSet also lists words that have nothing in
    common with the query. *)
Theorem wordset_agrees_large_size_refuted : exists w q,
  find_similar exact lower ord0 (ws_built false [5%Z] [w]) (PStr (w_ q)) (PInt 1) MNone = Ok [(w_ w, 0)] /\
  lookup exact lower (mean1 exact) ord0 (built [5%Z] 0 [w]) (PStr (w_ q)) (PInt 1) true = Ok [].
Proof.
  exists "xyz", "abc". split; [apply (ws_lists_eq _ [("xyz", 0)])|]; vm_compute; reflexivity.
Qed.
Print Assumptions wordset_agrees_large_size_refuted.

(** Three words in a WordSet and a WordList. *)
Example agree_case :
  let st := ws_built false [2%Z] ["Apple"; "pear"; "fig"] in let st' := built [2%Z] 0 ["fig"; "apple"; "PEAR"] in
  sizes_of st = [2%nat] /\ n_list st' = [2%Z] /\ vocabulary st' = map w_ ["apple"; "fig"; "pear"] /\ ws_iter st = map w_ ["Apple"; "pear"; "fig"] /\
  ws_lists (find_similar exact lower ord0 st (PStr (w_ "aPPear")) (PInt 5) MNone) [("pear", f 5 8); ("Apple", f 59 130)] = true /\
  match lookup exact lower (mean1 exact) ord0 st' (PStr (w_ "aPPear")) (PInt 5) true with
  | Ok R => ws_lists (Ok (map (fun e => (fst e, fst (snd e))) R)) [("pear", f 5 8); ("apple", f 59 130)] | Err _ => false end = true.
Proof. cbv zeta. repeat split; vm_compute; reflexivity. Qed.
