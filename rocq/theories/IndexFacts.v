(** The result of [lookup] in terms of words, and independence of the order
    in which sets are iterated over. *)
From Coq Require Import ZArith NArith QArith Qcanon List Bool Permutation Lia Sorted.
From Verif Require Import Num Py ListAux PyDict Float64 EmdSpec EmdModel EmdProofs EmdFloatProofs
  NmdSpec NmdModel NmdProofs NmdFloatProofs IndexSpec IndexModel IndexProofs IndexLoops IndexLookupProofs IndexResult IndexTop IndexScore.
Import ListNotations.
Open Scope Qc_scope.

(** The states a program can get to by constructing a word list and adding
    words, accepted or not. *)
Inductive reachable (rnd : Qc -> Qc) (casefold : str -> str) : wordlist -> Prop :=
| reach_new n c fn st : wl_init n c fn = Ok st -> reachable rnd casefold st
| reach_add o st v : reachable rnd casefold st -> fair o -> reachable rnd casefold (fst (add_word rnd casefold o st v)).

(** The arguments of [lookup] are acceptable; [q] is the folded query. *)
Definition asks (casefold : str -> str) (st : wordlist) (word top_k : pyval) (q : str) (k : Z) : Prop :=
  exists w, word = PStr w /\ w <> [] /\ q = (if case_insensitive st then casefold w else w) /\ clean q /\
    as_int top_k = Some k /\ (1 <= k)%Z.

(** Similarity of two words for one n-gram size: the public function, except
    for size 1, which it does not accept. *)
Definition pair_score (rnd : Qc -> Qc) (q w : str) (normalize : bool) (n : Z) : result Qc :=
  if (n =? 1)%Z then score1 rnd normalize q n w
  else ngram_movers_distance rnd (PStr q) (PStr w) (PInt n) true normalize.

(** The mean over the configured sizes. *)
Definition similarity (rnd : Qc -> Qc) (mean : list Qc -> Qc) (nl : list Z) (q w : str) (normalize : bool) : result Qc :=
  vs <- mapM (pair_score rnd q w normalize) nl ;; Ok (mean vs).

Lemma vocabulary_in st w : In w (vocabulary st) <-> In w (word_list st).
Proof.
  unfold vocabulary. split; intros H; (eapply Permutation_in; [|exact H]); [|apply Permutation_sym]; apply isort_perm.
Qed.

Lemma reachable_inv rnd casefold st : rnd 0 = 0 -> (forall w, casefold (casefold w) = casefold w) ->
  reachable rnd casefold st -> inv rnd casefold st.
Proof.
  intros R0 CI. induction 1 as [n c fn st H|o st v H IH F]; [eapply init_inv; eauto|].
  eapply add_word_spec; eauto.
Qed.

Lemma asks_checks casefold st word top_k q k : asks casefold st word top_k q k <-> lookup_checks casefold st word top_k = Ok (q, k).
Proof.
  unfold asks, lookup_checks. split.
  - intros (w & -> & Hw & -> & C & -> & Hk). destruct w as [|c w]; [congruence|]. unfold zlen. cbn [length].
    destruct (Z.eqb_spec (Z.of_nat (S (length w))) 0); [lia|]. destruct (Z.leb_spec k 0); [lia|]. cbv zeta.
    unfold fold_case. destruct (existsb _ _ || existsb _ _) eqn:D; [|reflexivity]. apply dirty_iff in D. contradiction.
  - destruct word as [w| | | |]; try discriminate. destruct (Z.eqb_spec (zlen w) 0) as [|N]; [discriminate|].
    destruct (as_int top_k) as [z|] eqn:A; [|discriminate]. destruct (Z.leb_spec z 0); [discriminate|]. cbv zeta.
    destruct (existsb _ _ || existsb _ _) eqn:D; [discriminate|]. intros E. injection E as <- <-.
    exists w. split; auto. split; [intros ->; apply N; reflexivity|]. split; auto. split; [|split; auto; lia].
    destruct (clean_dec (fold_case casefold st w)) as [|X]; auto. apply dirty_iff in X. congruence.
Qed.

Lemma asks_clean casefold st word top_k q k : asks casefold st word top_k q k -> clean q /\ (1 <= k)%Z.
Proof. intros (w & _ & _ & _ & C & _ & Hk). auto. Qed.

Section Facts.
Variable rnd : Qc -> Qc.
Variable casefold : str -> str.
Variable mean : list Qc -> Qc.
Hypothesis L : lawful rnd.
Variable st : wordlist.
Hypothesis I : inv rnd casefold st.

Notation W := (word_list st).
Notation NL := (n_list st).

Lemma wd_in i : (i < length W)%nat -> In (wd st i) W.
Proof. intros. apply nth_In. auto. Qed.

Lemma in_wd w : In w W -> exists i, (i < length W)%nat /\ wd st i = w.
Proof. intros H. apply (In_nth _ _ (@nil N : str)) in H. destruct H as (i & H1 & H2). exists i. split; auto. Qed.

Lemma wd_inj i j : (i < length W)%nat -> (j < length W)%nat -> wd st i = wd st j -> i = j.
Proof. intros Hi Hj E. eapply NoDup_nth; eauto. apply (inv_words _ _ _ I). Qed.

Lemma words_clean w : In w W -> clean w.
Proof. destruct (inv_words _ _ _ I) as [_ C]. rewrite Forall_forall in C. intros H. apply (C w H). Qed.

Lemma words_nonempty w : In w W -> w <> [].
Proof. destruct (inv_words _ _ _ I) as [_ C]. rewrite Forall_forall in C. intros H. apply (C w H). Qed.

Lemma pair_score1 q w nz n : clean q -> clean w -> In n NL -> pair_score rnd q w nz n = score1 rnd nz q n w.
Proof.
  intros Cq Cw Hn. unfold pair_score. destruct (Z.eqb_spec n 1); [reflexivity|].
  pose proof (NL_pos _ _ _ I n Hn). symmetry. apply score1_nmd; auto. lia.
Qed.

Lemma similarity_vec q i nz : clean q -> (i < length W)%nat ->
  similarity rnd mean NL q (wd st i) nz = (v <- score_vec rnd st q nz i ;; Ok (mean v)).
Proof.
  intros Cq Hi. unfold similarity, score_vec.
  rewrite (mapM_ext_in _ (fun n => score1 rnd nz q n (wd st i))); [reflexivity|].
  intros n Hn. apply pair_score1; auto. apply words_clean, wd_in; auto.
Qed.

Lemma similarity_sc q i nz x : clean q -> (i < length W)%nat -> similarity rnd mean NL q (wd st i) nz = Ok x -> x = sc rnd mean st q nz i.
Proof.
  intros Cq Hi H. rewrite similarity_vec in H by auto. apply bind_ok in H. destruct H as (v & Hv & E).
  rewrite (sc_val _ _ _ _ _ _ _ Hv). congruence.
Qed.

Lemma cand_word q i : cand st q i <-> (i < length W)%nat /\ candidate NL (filter_n st) q (wd st i).
Proof. reflexivity. Qed.

Section Call.
Variables (o : order) (word top_k : pyval) (nz : bool) (q : str) (k : Z).
Hypothesis F : fair o.
Hypothesis A : asks casefold st word top_k q k.

Lemma call_outcome : exists oc : outcome rnd mean st q o nz k (lookup rnd casefold mean o st word top_k nz)
                (fun invert : bool => lookup_v5 rnd casefold mean o st word top_k nz invert), True.
Proof. apply lookup_outcome; auto. apply asks_checks; auto. Qed.

(** The result of a successful call. *)
Lemma lookup_shape R : lookup rnd casefold mean o st word top_k nz = Ok R ->
  exists Ix, R = map (entry_of rnd mean st q nz) Ix /\ NoDup Ix /\ (length Ix <= Z.to_nat k)%nat /\
    (forall i, In i Ix -> cand st q i /\ exists v, score_vec rnd st q nz i = Ok v) /\
    StronglySorted (fun i j => pair_leb (sc rnd mean st q nz j, s2 rnd st q nz j) (sc rnd mean st q nz i, s2 rnd st q nz i) = true) Ix.
Proof.
  intros H. destruct call_outcome as [[cs ND HC low LV CA] _].
  destruct (asks_clean _ _ _ _ _ _ A) as [Cq Hk].
  destruct CA as [(E & H1 & _)|[(_ & _ & H1 & _)|(_ & _ & surv & thr & top & P1 & P2 & P3 & P4 & P5 & P6 & [(Q1 & H1 & _)|(_ & _ & H1 & _)])]].
  - exists []. rewrite H in H1. assert (R = []) by congruence. subst R.
    split; [reflexivity|]. split; [constructor|]. split; [simpl; lia|]. split; [intros i []|constructor].
  - congruence.
  - exists (ranked rnd mean st q nz k surv). split; [congruence|]. split; [apply ranked_nodup; auto|].
    split; [rewrite ranked_length by auto; lia|]. split.
    + intros i Hi. apply ranked_top, top_by_score_in in Hi. split; [apply HC; apply P2; auto|].
      apply vec_ok; auto. rewrite Forall_forall in Q1. apply Q1; auto.
    + apply sorted_firstn. apply best_sorted; [apply pair_leb_total|apply pair_leb_trans].
  - congruence.
Qed.

Lemma lookup_complete R : averaging mean -> tight rnd st q nz -> (nz = false \/ rnd = exact) ->
  lookup rnd casefold mean o st word top_k nz = Ok R ->
  exists Ix cs, R = map (entry_of rnd mean st q nz) Ix /\ NoDup cs /\ (forall i, In i cs <-> cand st q i) /\
    length Ix = Nat.min (Z.to_nat k) (length cs) /\ NoDup Ix /\ (forall i, In i Ix -> cand st q i) /\
    forall r j v, In r Ix -> cand st q j -> ~ In j Ix -> score_vec rnd st q nz j = Ok v -> mean v <= sc rnd mean st q nz r.
Proof.
  intros M T NE H. destruct call_outcome as [[cs ND HC low LV CA] _].
  destruct (asks_clean _ _ _ _ _ _ A) as [Cq Hk].
  destruct CA as [(E & H1 & _)|[(_ & _ & H1 & _)|(_ & _ & surv & thr & top & P1 & P2 & P3 & P4 & P5 & P6 & [(Q1 & H1 & _)|(_ & _ & H1 & _)])]].
  - exists [], cs. rewrite H in H1. assert (R = []) by congruence. subst R.
    split; [reflexivity|]. split; [auto|]. split; [auto|]. rewrite E. split; [simpl; lia|]. split; [constructor|].
    split; [intros i []|intros r j v []].
  - congruence.
  - exists (ranked rnd mean st q nz k surv), cs.
    assert (NN : forall i, cand st q i -> nonneg (low i)).
    { intros i Hi. destruct (LV i Hi) as [Ll Lv]. eapply low_nonneg; eauto. }
    split; [congruence|]. split; [auto|]. split; [auto|]. split.
    { rewrite ranked_length by auto. exact (surv_length mean st q M k Hk cs surv top thr low HC P1 P2 P3 P4 P5 NN). }
    split; [apply ranked_nodup; auto|]. split.
    { intros i Hi. apply ranked_top, top_by_score_in in Hi. apply HC. apply P2; auto. }
    intros r j v Hr Hj Nj Hv. exact (lossless rnd mean L st q M nz k Hk T cs surv top thr low HC LV P1 P2 P3 P4 P5 Q1 NN r j v Hr Hj Nj Hv).
  - congruence.
Qed.

Lemma lookup_v5_complete R invert : lookup_v5 rnd casefold mean o st word top_k nz invert = Ok R ->
  exists Ix cs, R = best qleb snd (map (v5_value rnd mean st q nz invert) Ix) /\ NoDup cs /\ (forall i, In i cs <-> cand st q i) /\
    NoDup Ix /\ (length Ix <= 2 * Z.to_nat k)%nat /\ (forall i, In i Ix -> cand st q i /\ exists v, score_vec rnd st q nz i = Ok v) /\
    (averaging mean -> tight rnd st q nz -> (nz = false \/ rnd = exact) ->
       (Nat.min (Z.to_nat k) (length cs) <= length Ix)%nat /\
       exists Iy, incl Iy Ix /\ NoDup Iy /\ length Iy = Nat.min (Z.to_nat k) (length cs) /\
       forall r j v, In r Iy -> cand st q j -> ~ In j Iy -> score_vec rnd st q nz j = Ok v -> mean v <= sc rnd mean st q nz r).
Proof.
  intros H. destruct call_outcome as [[cs ND HC low LV CA] _].
  destruct (asks_clean _ _ _ _ _ _ A) as [Cq Hk].
  destruct CA as [(E & _ & H1)|[(_ & _ & _ & H1)|(_ & _ & surv & thr & top & P1 & P2 & P3 & P4 & P5 & P6 & [(Q1 & _ & H1)|(_ & _ & _ & H1)])]];
    specialize (H1 invert); cbv beta in H1.
  - exists [], cs. assert (R = []) by congruence. subst R.
    split; [reflexivity|]. split; [auto|]. split; [auto|]. split; [constructor|]. split; [simpl; lia|]. split; [intros i []|].
    intros _ _ _. rewrite E. split; [simpl; lia|]. exists []. split; [intros x []|]. split; [constructor|]. split; [simpl; lia|].
    intros r j v [].
  - congruence.
  - exists (top_by_score rnd mean st q nz k surv), cs.
    assert (ET : NoDup (top_by_score rnd mean st q nz k surv)).
    { apply NoDup_firstn. eapply Permutation_NoDup; [symmetry; apply best_perm|]. auto. }
    split; [congruence|]. split; [auto|]. split; [auto|]. split; [auto|]. split.
    { unfold top_by_score. rewrite firstn_length. lia. }
    split.
    { intros i Hi. apply top_by_score_in in Hi. split; [apply HC; apply P2; auto|].
      apply vec_ok; auto. rewrite Forall_forall in Q1. apply Q1; auto. }
    intros M T NE.
    assert (NN : forall i, cand st q i -> nonneg (low i)).
    { intros i Hi. destruct (LV i Hi) as [Ll Lv]. eapply low_nonneg; eauto. }
    assert (LR : length (ranked rnd mean st q nz k surv) = Nat.min (Z.to_nat k) (length cs)).
    { rewrite ranked_length by auto. exact (surv_length mean st q M k Hk cs surv top thr low HC P1 P2 P3 P4 P5 NN). }
    assert (IR : incl (ranked rnd mean st q nz k surv) (top_by_score rnd mean st q nz k surv)) by (intros i Hi; eapply ranked_top; eauto).
    assert (NR : NoDup (ranked rnd mean st q nz k surv)) by (apply ranked_nodup; auto).
    split; [rewrite <- LR; apply NoDup_incl_length; auto|].
    exists (ranked rnd mean st q nz k surv). split; [auto|]. split; [auto|]. split; [auto|].
    intros r j v Hr Hj Nj Hv. exact (lossless rnd mean L st q M nz k Hk T cs surv top thr low HC LV P1 P2 P3 P4 P5 Q1 NN r j v Hr Hj Nj Hv).
  - congruence.
Qed.

(** When it fails. *)
Lemma lookup_totality :
  ((forall i, ~ cand st q i) -> lookup rnd casefold mean o st word top_k nz = Ok []) /\
  (forall i, cand st q i -> Exists (fun n => single_gram n q) NL -> lookup rnd casefold mean o st word top_k nz = Err ZeroDivisionError) /\
  (Forall (fun n => ~ single_gram n q) NL -> (forall i, cand st q i -> ~ (nz = true /\ zero_sum st q i)) ->
     exists R, lookup rnd casefold mean o st word top_k nz = Ok R) /\
  (forall e, lookup rnd casefold mean o st word top_k nz = Err e -> e = ZeroDivisionError /\
     exists i, cand st q i /\ (Exists (fun n => single_gram n q) NL \/ (nz = true /\ zero_sum st q i))).
Proof.
  destruct call_outcome as [[cs ND HC low LV CA] _].
  assert (X : forall i, cand st q i -> cs <> []) by (intros i Hi E; apply HC in Hi; rewrite E in Hi; destruct Hi).
  assert (Y : cs <> [] -> exists i, cand st q i) by (destruct cs as [|i cs]; [congruence|intros _; exists i; apply HC; left; auto]).
  assert (Z : Exists (fun n => single_gram n q) NL -> Forall (fun n => ~ single_gram n q) NL -> False).
  { intros E1 E2. apply Exists_exists in E1. destruct E1 as (n & H1 & H2). rewrite Forall_forall in E2. apply (E2 n); auto. }
  destruct CA as [(E & H1 & _)|[(E & S & H1 & _)|(E & S & surv & thr & top & P1 & P2 & P3 & P4 & P5 & P6 & [(Q1 & H1 & _)|(N & Q1 & H1 & _)])]];
    rewrite H1.
  - repeat split; auto; try discriminate; try (eexists; reflexivity). intros i Hi. destruct (X i Hi E).
  - repeat split; auto; try congruence.
    + intros H. exfalso. destruct (Y E) as [i Hi]. apply (H i Hi).
    + intros C. destruct (Z S C).
    + destruct (Y E) as [i Hi]. eauto.
  - repeat split; try discriminate; try (eexists; reflexivity).
    + intros H. exfalso. destruct (Y E) as [i Hi]. apply (H i Hi).
    + intros i _ C. destruct (Z C S).
  - apply Exists_exists in Q1. destruct Q1 as (i & Hi & Zi). apply P2 in Hi. destruct Hi as [Hi _]. apply HC in Hi.
    repeat split; auto; try congruence.
    + intros H. exfalso. apply (H i Hi).
    + intros _ H. exfalso. apply (H i Hi). auto.
    + exists i. auto.
Qed.

(** When the cut leaves everything, the characterisation is exact. *)
Lemma lookup_totality_all : averaging mean -> (nz = false \/ rnd = exact) -> (length W <= Z.to_nat k)%nat ->
  (lookup rnd casefold mean o st word top_k nz = Err ZeroDivisionError <->
   exists i, cand st q i /\ (Exists (fun n => single_gram n q) NL \/ (nz = true /\ zero_sum st q i))).
Proof.
  intros M NE Hk. destruct lookup_totality as (T1 & T2 & T3 & T4). split; [intros H; apply T4 in H; tauto|].
  intros (i & Hi & [H|[Hn Hz]]); [eapply T2; eauto|].
  destruct call_outcome as [[cs ND HC low LV CA] _].
  destruct CA as [(E & H1 & _)|[(E & S & H1 & _)|(E & S & surv & thr & top & P1 & P2 & P3 & P4 & P5 & P6 & [(Q1 & H1 & _)|(N & Q1 & H1 & _)])]]; auto.
  - apply HC in Hi. rewrite E in Hi. destruct Hi.
  - exfalso. rewrite Forall_forall in Q1. apply (Q1 i); auto. apply P2. split; [apply HC; auto|].
    assert (LC : (length cs <= length W)%nat).
    { rewrite <- (seq_length (length W) 0). apply NoDup_incl_length; auto. intros j Hj. apply HC in Hj. apply in_seq. destruct Hj. lia. }
    assert (Hc : In i top).
    { apply HC in Hi. revert i Hi Hn Hz. intros i Hi _ _. apply (NoDup_length_incl P3 (l' := cs)); auto; [lia|].
      intros j Hj. apply P5; auto. }
    destruct (P5 i Hc) as [_ H2]. eapply Qcle_trans; [exact H2|]. destruct (LV i Hi) as [Ll Lv].
    assert (NN : nonneg (low i)) by (eapply low_nonneg; eauto).
    apply (mean_mono _ M); auto. apply double_ge; auto.
Qed.
End Call.
End Facts.

(** ** Order of iteration *)

Section Order.
Variable rnd : Qc -> Qc.
Variable casefold : str -> str.
Variable mean : list Qc -> Qc.

Lemma foldM_ext {A B} (f g : A -> B -> result A) l : (forall a b, In b l -> f a b = g a b) -> forall a, foldM f l a = foldM g l a.
Proof.
  induction l as [|b l IH]; intros H a; simpl; auto. rewrite H by (left; auto). destruct (g a b); simpl; auto.
  apply IH. intros; apply H; right; auto.
Qed.

Lemma lookup_similarity_order o o' st st' q k nz : inv rnd casefold st -> inv rnd casefold st' -> fair o -> fair o' ->
  n_list st = n_list st' -> filter_n st = filter_n st' -> word_list st = word_list st' ->
  lookup_similarity rnd mean o st q k nz = lookup_similarity rnd mean o' st' q k nz.
Proof.
  intros I I' F F' EN EF EW.
  assert (EP : forall g, dgetl g (ngram_positions st) = dgetl g (ngram_positions st')).
  { intros g. rewrite (inv_pos _ _ _ I), (inv_pos _ _ _ I'), EN, EW. reflexivity. }
  assert (EC : forall g, dgetl g (ngram_counts st) = dgetl g (ngram_counts st')).
  { intros g. rewrite (inv_counts _ _ _ I), (inv_counts _ _ _ I'), EP. reflexivity. }
  assert (EL : word_lens st = word_lens st') by (rewrite (inv_lens _ _ _ I), (inv_lens _ _ _ I'), EW; reflexivity).
  assert (EG : word_num_grams st = word_num_grams st') by (rewrite (inv_num _ _ _ I), (inv_num _ _ _ I'), EW, EN; reflexivity).
  assert (ES : forall i, (filter_n st =? 0)%Z = false ->
     (if in_dec eqd i (filter_set o st q) then true else false) = (if in_dec eqd i (filter_set o' st' q) then true else false)).
  { intros i Hf. apply Z.eqb_neq in Hf.
    assert (X : In i (filter_set o st q) <-> In i (filter_set o' st' q)).
    { rewrite (filter_set_in _ _ _ I q o F Hf), (filter_set_in _ _ _ I' q o' F' ltac:(congruence)). unfold wd. rewrite EF, EW. reflexivity. }
    destruct (in_dec eqd i (filter_set o st q)), (in_dec eqd i (filter_set o' st' q)); tauto. }
  assert (EM : min_scores rnd st q nz (filter_set o st q) = min_scores rnd st' q nz (filter_set o' st' q)).
  { unfold min_scores. rewrite EN. apply foldM_ext. intros d [ni n] _. apply foldM_ext. intros d' [g c] _.
    rewrite EC. apply foldM_ext. intros d'' [i oc] _. unfold count_step. rewrite EG, EN.
    destruct (filter_n st =? 0)%Z eqn:Z0; rewrite <- EF, Z0; cbn [negb andb]; [reflexivity|]. rewrite (ES i eq_refl). reflexivity. }
  unfold lookup_similarity. rewrite EM. destruct (min_scores rnd st' q nz _) as [ms|]; cbn [bind]; [|reflexivity].
  destruct ms as [|x ms]; [reflexivity|]. set (D := x :: ms). clearbody D. destruct (prune mean k D) as [poss|]; cbn [bind]; [|reflexivity].
  replace (matches rnd st q poss) with (matches rnd st' q poss).
  2:{ unfold matches. rewrite EN. apply foldM_ext. intros d [ni n] _. destruct (query_locations rnd (get_n_grams q n)); cbn [bind]; [|reflexivity].
      apply foldM_ext. intros d' [g l] _. rewrite EP. apply foldM_ext. intros d'' [i oc] _. unfold match_step. rewrite EN. reflexivity. }
  destruct (matches rnd st' q poss); cbn [bind]; [|reflexivity].
  rewrite (mapM_ext_in (norm_scores rnd st q nz) (norm_scores rnd st' q nz)); [reflexivity|].
  intros [i l] _. unfold norm_scores. rewrite EL, EN. reflexivity.
Qed.

Lemma lookup_order o o' st st' word top_k nz : inv rnd casefold st -> inv rnd casefold st' -> fair o -> fair o' ->
  n_list st = n_list st' -> filter_n st = filter_n st' -> word_list st = word_list st' -> case_insensitive st = case_insensitive st' ->
  lookup rnd casefold mean o st word top_k nz = lookup rnd casefold mean o' st' word top_k nz /\
  forall invert, lookup_v5 rnd casefold mean o st word top_k nz invert = lookup_v5 rnd casefold mean o' st' word top_k nz invert.
Proof.
  intros I I' F F' EN EF EW EC. unfold lookup, lookup_v5.
  assert (X : lookup_checks casefold st word top_k = lookup_checks casefold st' word top_k).
  { unfold lookup_checks, fold_case. rewrite EC. reflexivity. }
  rewrite X, EW. destruct (lookup_checks casefold st' word top_k) as [[q k]|]; cbn [bind]; [|auto].
  rewrite (lookup_similarity_order o o' st st' q k nz I I' F F' EN EF EW). auto.
Qed.

(** Two runs that differ in the iteration orders only. *)
Lemma run_order calls calls' : rnd 0 = 0 -> (forall w, casefold (casefold w) = casefold w) ->
  Forall (fun c => fair (fst c)) calls -> Forall (fun c => fair (fst c)) calls' -> map snd calls = map snd calls' ->
  forall st st', inv rnd casefold st -> inv rnd casefold st' ->
  n_list st = n_list st' -> filter_n st = filter_n st' -> word_list st = word_list st' -> case_insensitive st = case_insensitive st' ->
  let r := run rnd casefold st calls in let r' := run rnd casefold st' calls' in
  inv rnd casefold r /\ inv rnd casefold r' /\ n_list r = n_list r' /\ filter_n r = filter_n r' /\ word_list r = word_list r' /\
  case_insensitive r = case_insensitive r'.
Proof.
  intros R0 CI. revert calls'. induction calls as [|[o v] calls IH]; intros [|[o' v'] calls'] Fc Fc' E st st' I I' EN EF EW EC; try discriminate.
  - cbv zeta. unfold run. cbn [fold_left]. auto 6.
  - cbv zeta. unfold run. cbn [fold_left fst snd]. cbn [map snd] in E. injection E as Ev E. subst v'.
    inversion Fc; inversion Fc'; subst. cbn [fst] in *.
    destruct (add_word_spec rnd casefold R0 CI o st v I) as (I1 & N1 & C1 & F1 & W1 & _); [auto|].
    destruct (add_word_spec rnd casefold R0 CI o' st' v I') as (I2 & N2 & C2 & F2 & W2 & _); [auto|].
    apply (IH calls'); auto; try congruence.
    rewrite W1, W2, EW. f_equal. unfold added, fold_case. rewrite EC, EW. reflexivity.
Qed.
End Order.
