(** The pruning of [lookup] in binary64 with normalized scores: rounding
    errors are smaller than the gap between the bounds and the scores.
    Nothing here models code of /repo. *)
From Coq Require Import ZArith NArith QArith Qcanon List Bool Permutation Lia Sorted.
From Verif Require Import Num Py ListAux PyDict Float64 EmdSpec EmdModel EmdProofs EmdFloatProofs
  NmdSpec NmdModel NmdProofs NmdFloatProofs IndexSpec IndexModel IndexProofs IndexLoops IndexLookupProofs IndexResult IndexTop
  IndexScore IndexFacts.
From Verif Require Import Accuracy NmdAccuracy.
Import ListNotations.
Open Scope Qc_scope.

(** ** Pruning is harmless if it orders scores like bounds *)
Section Lossless.
Variable rnd : Qc -> Qc.
Variable mean : list Qc -> Qc.
Hypothesis L : lawful rnd.
Variable st : wordlist.
Variable q : str.
Variables (nz : bool) (k : Z).
Hypothesis Hk : (1 <= k)%Z.
Notation cand := (cand st q).

(** [l] is the lower bound computed for word number [i]. *)
Definition bound (i : nat) (l : list Qc) : Prop := length l = length (n_list st) /\
  forall k n, nth_error (n_list st) k = Some n -> foldM appl (count_list rnd st q nz n i) 0 = Ok (nth k l 0).

(** A word whose doubled bound is below the bound of another does not score
    more than the other. *)
Definition separated : Prop := forall i j li lj vi vj, cand i -> cand j -> bound i li -> bound j lj ->
  score_vec rnd st q nz i = Ok vi -> score_vec rnd st q nz j = Ok vj ->
  mean (map (fun x => x * qz 2) lj) < mean li -> mean vj <= mean vi.

(** Doubling a bound does not lower its mean. *)
Definition keeps : Prop := forall i l, cand i -> bound i l -> mean l <= mean (map (fun x => x * qz 2) l).

Lemma averaging_keeps : averaging mean -> (forall i l, cand i -> bound i l -> nonneg l) -> keeps.
Proof. intros M NN i l Hi Hl. apply (mean_mono _ M); [eauto|]. apply double_ge; eauto. Qed.

Hypothesis M : keeps.
Hypothesis T : separated.
Variables (cs surv top : list nat) (thr : Qc) (low : nat -> list Qc).
Hypothesis HC : forall i, In i cs <-> cand i.
Hypothesis LV : forall i, cand i -> bound i (low i).
Hypothesis NS : NoDup surv.
Hypothesis HS : forall i, In i surv <-> In i cs /\ thr <= mean (map (fun x => x * qz 2) (low i)).
Hypothesis NT : NoDup top.
Hypothesis LT : length top = Nat.min (Z.to_nat k) (length cs).
Hypothesis HT : forall i, In i top -> In i cs /\ thr <= mean (low i).
Hypothesis OKS : Forall (fun i => ~ (nz = true /\ zero_sum st q i)) surv.

Lemma kept i : In i top -> In i surv.
Proof.
  intros H. destruct (HT i H) as [H1 H2]. apply HS. split; auto. eapply Qcle_trans; [exact H2|]. apply (M i); [|apply LV]; apply HC; auto.
Qed.

Lemma kept_length : Nat.min (Z.to_nat k) (length surv) = Nat.min (Z.to_nat k) (length cs).
Proof.
  assert (length surv <= length cs)%nat by (apply NoDup_incl_length; auto; intros i Hi; apply HS in Hi; tauto).
  assert (length top <= length surv)%nat by (apply NoDup_incl_length; auto; intros i Hi; apply kept; auto).
  lia.
Qed.

Lemma lossless_separated r j v : In r (ranked rnd mean st q nz k surv) -> cand j -> ~ In j (ranked rnd mean st q nz k surv) ->
  score_vec rnd st q nz j = Ok v -> mean v <= sc rnd mean st q nz r.
Proof.
  intros Hr Hj Nj Hv. rewrite <- (sc_val rnd mean _ _ _ _ _ Hv).
  destruct (in_dec Nat.eq_dec j surv) as [Js|Js]; [eapply ranked_best; eauto|].
  assert (Lt : mean (map (fun x => x * qz 2) (low j)) < thr).
  { apply Qcnot_le_lt. intros C. apply Js, HS. split; auto. apply HC; auto. }
  pose proof kept as TS.
  assert (Top : forall i, In i top -> sc rnd mean st q nz j <= sc rnd mean st q nz i).
  { intros i Hi. destruct (HT i Hi) as [H1 H2]. apply HC in H1. pose proof (TS i Hi) as H3.
    rewrite Forall_forall in OKS. destruct (vec_ok rnd L st q nz i (OKS i H3)) as [w Hw].
    rewrite (sc_val rnd mean _ _ _ _ _ Hv), (sc_val rnd mean _ _ _ _ _ Hw).
    eapply (T i j (low i) (low j)); eauto. eapply Qclt_le_trans; eauto. }
  destruct (Qclt_le_dec (sc rnd mean st q nz r) (sc rnd mean st q nz j)) as [C|]; auto. exfalso.
  assert (Inc : incl (r :: top) (ranked rnd mean st q nz k surv)).
  { intros i [<-|Hi]; auto. destruct (in_dec Nat.eq_dec i (ranked rnd mean st q nz k surv)) as [|N]; auto. exfalso.
    pose proof (ranked_best rnd mean st q nz k surv r i Hr (TS i Hi) N) as H. pose proof (Top i Hi) as H'.
    clear - H H' C. qclra. }
  assert (Nr : ~ In r top). { intros Hi. apply Top in Hi. clear - Hi C. qclra. }
  assert (N2 : NoDup (r :: top)) by (constructor; auto).
  pose proof (NoDup_incl_length N2 Inc) as H. cbn [length] in H. rewrite ranked_length, kept_length in H by auto. lia.
Qed.
End Lossless.

Section Complete.
Variable rnd : Qc -> Qc.
Variable casefold : str -> str.
Variable mean : list Qc -> Qc.
Hypothesis L : lawful rnd.
Variable st : wordlist.
Hypothesis I : inv rnd casefold st.
Variables (o : order) (word top_k : pyval) (nz : bool) (q : str) (k : Z).
Hypothesis F : fair o.
Hypothesis A : asks casefold st word top_k q k.
Hypothesis M : keeps rnd mean st q nz.
Hypothesis T : separated rnd mean st q nz.

Lemma lookup_complete_separated R : lookup rnd casefold mean o st word top_k nz = Ok R ->
  exists Ix cs, R = map (entry_of rnd mean st q nz) Ix /\ NoDup cs /\ (forall i, In i cs <-> cand st q i) /\
    length Ix = Nat.min (Z.to_nat k) (length cs) /\ NoDup Ix /\ (forall i, In i Ix -> cand st q i) /\
    forall r j v, In r Ix -> cand st q j -> ~ In j Ix -> score_vec rnd st q nz j = Ok v -> mean v <= sc rnd mean st q nz r.
Proof.
  intros H. destruct (call_outcome rnd casefold mean L st I o word top_k nz q k F A) as [[cs ND HC low LV CA] _].
  destruct (asks_clean _ _ _ _ _ _ A) as [Cq Hk].
  destruct CA as [(E & H1 & _)|[(_ & _ & H1 & _)|(_ & _ & surv & thr & top & P1 & P2 & P3 & P4 & P5 & P6 & [(Q1 & H1 & _)|(_ & _ & H1 & _)])]].
  - exists [], cs. rewrite H in H1. assert (R = []) by congruence. subst R.
    split; [reflexivity|]. split; [auto|]. split; [auto|]. rewrite E. split; [simpl; lia|]. split; [constructor|].
    split; [intros i []|intros r j v []].
  - congruence.
  - exists (ranked rnd mean st q nz k surv), cs.
    split; [congruence|]. split; [auto|]. split; [auto|]. split.
    { rewrite ranked_length by auto. eapply (kept_length rnd mean st q nz k Hk M cs surv top thr low); eauto. }
    split; [apply ranked_nodup; auto|]. split.
    { intros i Hi. apply ranked_top, top_by_score_in in Hi. apply HC. apply P2; auto. }
    intros r j v Hr Hj Nj Hv.
    eapply (lossless_separated rnd mean L st q nz k Hk M T cs surv top thr low); eauto.
  - congruence.
Qed.

Lemma lookup_v5_complete_separated R invert : lookup_v5 rnd casefold mean o st word top_k nz invert = Ok R ->
  exists Ix cs, R = best qleb snd (map (v5_value rnd mean st q nz invert) Ix) /\ NoDup cs /\ (forall i, In i cs <-> cand st q i) /\
    NoDup Ix /\ (forall i, In i Ix -> cand st q i) /\
    exists Iy, incl Iy Ix /\ NoDup Iy /\ length Iy = Nat.min (Z.to_nat k) (length cs) /\
      forall r j v, In r Iy -> cand st q j -> ~ In j Iy -> score_vec rnd st q nz j = Ok v -> mean v <= sc rnd mean st q nz r.
Proof.
  intros H. destruct (call_outcome rnd casefold mean L st I o word top_k nz q k F A) as [[cs ND HC low LV CA] _].
  destruct (asks_clean _ _ _ _ _ _ A) as [Cq Hk].
  destruct CA as [(E & _ & H1)|[(_ & _ & _ & H1)|(_ & _ & surv & thr & top & P1 & P2 & P3 & P4 & P5 & P6 & [(Q1 & _ & H1)|(_ & _ & _ & H1)])]];
    specialize (H1 invert); cbv beta in H1.
  - exists [], cs. assert (R = []) by congruence. subst R.
    split; [reflexivity|]. split; [auto|]. split; [auto|]. split; [constructor|]. split; [intros i []|].
    rewrite E. exists []. split; [intros x []|]. split; [constructor|]. split; [simpl; lia|].
    intros r j v [].
  - congruence.
  - exists (top_by_score rnd mean st q nz k surv), cs.
    assert (ET : NoDup (top_by_score rnd mean st q nz k surv)).
    { apply NoDup_firstn. eapply Permutation_NoDup; [symmetry; apply best_perm|]. auto. }
    split; [congruence|]. split; [auto|]. split; [auto|]. split; [auto|]. split.
    { intros i Hi. apply top_by_score_in in Hi. apply HC; apply P2; auto. }
    assert (LR : length (ranked rnd mean st q nz k surv) = Nat.min (Z.to_nat k) (length cs)).
    { rewrite ranked_length by auto. eapply (kept_length rnd mean st q nz k Hk M cs surv top thr low); eauto. }
    assert (IR : incl (ranked rnd mean st q nz k surv) (top_by_score rnd mean st q nz k surv)) by (intros i Hi; eapply ranked_top; eauto).
    assert (NR : NoDup (ranked rnd mean st q nz k surv)) by (apply ranked_nodup; auto).
    exists (ranked rnd mean st q nz k surv). split; [auto|]. split; [auto|]. split; [auto|].
    intros r j v Hr Hj Nj Hv.
    eapply (lossless_separated rnd mean L st q nz k Hk M T cs surv top thr low); eauto.
  - congruence.
Qed.
End Complete.

(** ** Values under an accurate rounding *)
Section Values.
Variable u : Qc.
Hypothesis U0 : 0 <= u.
Hypothesis U1 : u <= 1.
Variable rnd : Qc -> Qc.
Hypothesis L : lawful rnd.
Hypothesis A : accurate u rnd.
Notation near := (near u).

(** Means. *)
Lemma fsum_near l : nonneg l -> forall k s e, 0 <= e -> near k s e ->
  near (k + length l) (fold_left (fun a x => rnd (a + x)) l s) (e + qsum l).
Proof.
  induction 1 as [|x l Hx _ IH]; intros k s e He H.
  - cbn [length fold_left qsum]. rewrite Nat.add_0_r. replace (e + 0) with e by ring. auto.
  - cbn [length fold_left qsum]. replace (k + S (length l))%nat with (S k + length l)%nat by lia.
    replace (e + (x + qsum l)) with (e + x + qsum l) by ring. apply IH; [clear - Hx He; qclra|].
    apply near_rnd; auto; [clear - Hx He; qclra|]. apply near_add; auto. apply near_refl; auto.
Qed.

Definition avg (l : list Qc) : Qc := qsum l / qz (zlen l).

Lemma avg_div (l : list Qc) : l <> [] -> 0 < qz (zlen l).
Proof. intros H. change (qz (zlen l)) with (qn (length l)). apply qn_pos. destruct l; [congruence|cbn [length]; lia]. Qed.

Lemma near_div k d e c : 0 < c -> near k d e -> near k (d / c) (e / c).
Proof.
  intros Hc [H1 H2]. pose proof (qinv_nonneg c Hc) as Hi. unfold Qcdiv. split; rewrite Qcmult_assoc; apply qmul_le_r; auto.
Qed.

Lemma mean1_near l : nonneg l -> l <> [] -> near (S (length l)) (mean1 rnd l) (avg l).
Proof.
  intros H N. unfold mean1, fsum, avg. pose proof (avg_div l N) as D.
  assert (Q : 0 <= qsum l) by (apply qsum_nonneg; auto).
  apply near_rnd; auto; [apply qdiv_nonneg; auto|]. apply near_div; auto.
  assert (near 0 0 0) as Z by (apply near_refl; auto; discriminate).
  pose proof (fsum_near l H 0 0 0 (Qcle_refl 0) Z) as B. replace (0 + qsum l) with (qsum l) in B by ring. exact B.
Qed.

(** Bounds. *)
Section Count.
Variable casefold : str -> str.
Variable st : wordlist.
Hypothesis I : inv rnd casefold st.
Variable q : str.

Lemma count_near n i : In n (n_list st) ->
  exists x, foldM appl (count_list rnd st q true n i) 0 = Ok x /\
    near (S (length (get_n_grams q n))) x (qn (common rnd q n (wd st i)) / qz (size n q + size n (wd st i))).
Proof.
  intros Hn. unfold count_list, common.
  assert (H : forall g x, In (g, x) (items rnd q n) -> zlen g = n /\ In g (get_n_grams q n)).
  { intros. eapply (items_in rnd casefold st I q); eauto. }
  set (d := qz (size n q + size n (wd st i))).
  set (ov := overlap (group (gocc rnd (get_n_grams (wd st i) n)))).
  assert (G : forall its, (forall g x, In (g, x) its -> zlen g = n /\ In g (get_n_grams q n)) -> forall k s e, (1 <= k)%nat -> 0 <= e -> near k s e ->
    exists x, foldM appl (flat_map (fun gx => match locs rnd (wd st i) (fst gx) with [] => [] | l => [count_fun rnd st q true n (snd gx) i l] end) its) s = Ok x /\
      near (k + length its) x (e + qn (list_sum (map ov its)) / d)).
  { clear H. induction its as [|[g x] its IH]; intros H k s e K1 He Hs.
    - exists s. split; [reflexivity|]. cbn [map list_sum fold_right length]. rewrite qn_0, qdiv_0, Nat.add_0_r. replace (e + 0) with e by ring. auto.
    - cbn [flat_map map list_sum fold_right fst snd length]. change (fold_right Nat.add 0%nat) with list_sum.
      destruct (H g x (or_introl eq_refl)) as [Hz Hg]. rewrite foldM_app. unfold ov at 1. rewrite (overlap_locs rnd casefold st I) by auto.
      assert (H' : forall g x, In (g, x) its -> zlen g = n /\ In g (get_n_grams q n)) by (intros; eapply H; right; eauto).
      destruct (locs rnd (wd st i) g) as [|y l] eqn:E.
      + cbn [foldM bind length]. rewrite Nat.min_0_r. destruct (IH H' (S k) s e ltac:(lia) He) as (x' & E' & B').
        { apply near_mono with k; auto. }
        exists x'. split; auto. replace (k + S (length its))%nat with (S k + length its)%nat by lia. exact B'.
      + cbn [foldM]. unfold appl at 1, count_fun at 1.
        assert (P1 := size_grams n q g Hg).
        assert (P2 : (0 < size n (wd st i))%Z).
        { apply (size_grams n (wd st i) g). destruct (in_dec eqd g (get_n_grams (wd st i) n)) as [|C]; auto.
          rewrite <- Hz in C. apply (locs_nil rnd) in C. congruence. }
        destruct (Z.eqb_spec (size n q + size n (wd st i)) 0); [lia|]. cbn [bind]. fold d.
        assert (Dp : 0 < d). { unfold d. rewrite <- qz_0. apply (proj1 (qz_lt _ _)). lia. }
        replace (qz (Z.min (zlen x) (zlen (y :: l)))) with (qn (Nat.min (length x) (length (y :: l)))).
        2:{ unfold qn, zlen. f_equal. lia. }
        set (c := Nat.min (length x) (length (y :: l))).
        assert (C0 : 0 <= qn c / d) by (apply qdiv_nonneg; auto; apply qn_nonneg).
        destruct (IH H' (S k) (rnd (s + rnd (qn c / d))) (e + qn c / d) ltac:(lia)) as (x' & E' & B').
        * clear - He C0. set (t := qn c / d) in *. clearbody t. qclra.
        * apply near_rnd; auto; [clear - He C0; set (t := qn c / d) in *; clearbody t; qclra|]. apply near_add; auto.
          apply near_mono with 1%nat; auto. apply near_rnd; auto. apply near_refl; auto.
        * exists x'. split; auto. replace (k + S (length its))%nat with (S k + length its)%nat by lia.
          rewrite qn_add, qdiv_add, Qcplus_assoc. exact B'. }
  destruct (G (items rnd q n) H 1%nat 0 0) as (x & E & B); [lia|apply Qcle_refl|apply near_refl; auto; discriminate|].
  exists x. split; auto. replace (0 + qn (list_sum (map ov (items rnd q n))) / d) with (qn (list_sum (map ov (items rnd q n))) / d) in B by ring.
  eapply near_mono; [auto|auto| | |exact B].
  - apply le_n_S. unfold items. rewrite <- (map_length fst). apply NoDup_incl_length; [apply group_wf|].
    intros g Hg. apply (proj1 (group_keys _ _)) in Hg. rewrite gocc_keys in Hg. auto.
  - exact (div_zero_common rnd q n (wd st i) ltac:(eapply NL_pos; eauto)).
Qed.
End Count.

(** Similarities. *)
Lemma gocc_vmap l : group (gocc rnd l) = vmap rnd (group (gocc exact l)).
Proof. rewrite <- group_vmap. f_equal. unfold gocc. rewrite map_map. reflexivity. Qed.

Lemma gocc_good l g x : dget g (group (gocc exact l)) = Some x -> in_unit x /\ x <> [].
Proof.
  intros H. split; [eapply (gocc_unit exact lawful_exact); eauto|].
  apply dget_In, group_item in H. destruct H as [-> H]. intros C. apply (proj1 (select_nil _ _)) in C. contradiction.
Qed.

Lemma simf_acc q n w : let N := weight q n w in qn 2 * (qn (N + 1) * u) <= 1 -> small N ->
  exists s S, simf rnd q n w = Ok s /\ simf exact q n w = Ok S /\ qabs (s - S) <= qn (N * (3 * N + 3)) * u.
Proof.
  intros N HU SN. unfold simf, items. rewrite !gocc_vmap.
  set (G1 := group (gocc exact (get_n_grams q n))). set (G2 := group (gocc exact (get_n_grams w n))).
  assert (LT : (list_sum (map (load G2) G1) <= N)%nat).
  { etransitivity; [apply load_group|]. unfold N, weight.
    rewrite <- (map_length fst (gocc exact (get_n_grams q n))), <- (map_length fst (gocc exact (get_n_grams w n))), !gocc_keys. lia. }
  destruct (sim_loop_acc u U0 U1 rnd L A N G2 G1 HU SN) with (K := 0%nat) (s0 := 0) (S0 := 0) (err := 0)
    as (s & S & E1 & E2 & B1 & B2 & B3).
  - intros g l Hg. apply In_dget in Hg; [|apply group_wf]. eapply gocc_good; eauto.
  - intros g l Hg. eapply gocc_good; eauto.
  - lia.
  - apply Qcle_refl.
  - apply Qcle_refl.
  - discriminate.
  - exists s, S. split; auto. split; auto. eapply Qcle_trans; [exact B3|]. rewrite Qcplus_0_l.
    rewrite qn_mul, <- Qcmult_assoc. apply qmul_le_r; [apply qmul_nonneg; auto; apply qn_nonneg|]. apply qn_le. exact LT.
Qed.

Lemma common_exact q n w : common rnd q n w = common exact q n w.
Proof.
  unfold common, items. rewrite !gocc_vmap. unfold vmap at 2. rewrite map_map. f_equal. apply map_ext. intros [g l].
  unfold overlap. cbn [fst snd]. rewrite dget_vmap. destruct (dget g _) as [l2|]; cbn [option_map]; auto. rewrite !map_length. reflexivity.
Qed.
End Values.

(** ** The gap: a shared n-gram of two or more characters is never at
    opposite ends. *)
Lemma emd_close_bound r xs ys : close r xs ys ->
  emd xs ys <= qn (Nat.max (length xs) (length ys)) - (1 - r) * qn (Nat.min (length xs) (length ys)).
Proof.
  intros C. pose proof (zip_matching xs ys) as M.
  assert (H : emd xs ys <= move_cost (combine xs ys) + qn (length (skipn (length ys) xs)) + qn (length (skipn (length xs) ys))).
  { apply emd_le. do 3 eexists. split; eauto. }
  eapply Qcle_trans; [exact H|].
  pose proof (move_cost_close _ _ _ _ C (matching_in _ _ _ _ _ M)) as L.
  rewrite combine_length in L. rewrite !skipn_length.
  replace (Nat.max (length xs) (length ys)) with
    (Nat.min (length xs) (length ys) + (length xs - length ys) + (length ys - length xs))%nat by lia.
  rewrite !qn_add. replace ((1 - r) * qn (Nat.min (length xs) (length ys))) with
    (qn (Nat.min (length xs) (length ys)) - r * qn (Nat.min (length xs) (length ys))) by ring.
  set (y := r * qn (Nat.min (length xs) (length ys))) in *. clearbody y. clear - L. qclra.
Qed.

Lemma sim_loop_gap r loc2 its : 0 <= r -> r <= 1 ->
  (forall g l l2, In (g, l) its -> dget g loc2 = Some l2 -> close r l l2) -> forall S0,
  exists S, foldM (sim_step exact loc2) its S0 = Ok S /\ S0 + (1 + (1 - r)) * qn (list_sum (map (overlap loc2) its)) <= S.
Proof.
  intros R0 R1. induction its as [|[g l1] its IH]; intros H S0.
  - exists S0. split; [reflexivity|]. cbn [map list_sum fold_right]. rewrite qn_0, Qcmult_0_r, Qcplus_0_r. apply Qcle_refl.
  - cbn [foldM map list_sum fold_right]. change (fold_right Nat.add 0%nat) with list_sum. unfold sim_step at 1.
    unfold overlap at 1. cbn [fst snd].
    assert (H' : forall g l l2, In (g, l) its -> dget g loc2 = Some l2 -> close r l l2) by (intros; eapply H; eauto; right; auto).
    destruct (dget g loc2) as [l2|] eqn:E.
    + rewrite emd_1d_dp_exact. cbn [bind]. destruct (IH H' (exact (exact (S0 + qz (zlen l1 + zlen l2)) - emd l1 l2))) as (S & E' & B).
      exists S. split; auto. eapply Qcle_trans; [|exact B]. unfold exact.
      pose proof (emd_close_bound r l1 l2 (H g l1 l2 (or_introl eq_refl) E)) as C.
      replace (qz (zlen l1 + zlen l2)) with (qn (Nat.max (length l1) (length l2)) + qn (Nat.min (length l1) (length l2))).
      2:{ rewrite <- qn_add. unfold qn, zlen. f_equal. lia. }
      rewrite qn_add. set (m := Nat.min (length l1) (length l2)) in *. set (o := list_sum (map (overlap loc2) its)) in *.
      replace ((1 + (1 - r)) * (qn m + qn o)) with (qn m + (1 - r) * qn m + (1 + (1 - r)) * qn o) by ring.
      set (y := (1 - r) * qn m) in *. set (z := (1 + (1 - r)) * qn o) in *. clearbody y z. clear - C. generalize dependent (emd l1 l2).
      intros e C. qclra.
    + cbn [bind]. apply IH; auto.
Qed.

Lemma In_firstn' {A} (x : A) n l : In x (firstn n l) -> In x l.
Proof. intros H. rewrite <- (firstn_skipn n l). apply in_or_app; auto. Qed.
Lemma In_skipn' {A} (x : A) n l : In x (skipn n l) -> In x l.
Proof. intros H. rewrite <- (firstn_skipn n l). apply in_or_app; auto. Qed.
Lemma qdiv_ge a b c : 0 < b -> a * b <= c -> a <= c / b.
Proof.
  intros Hb H. replace a with (a * b / b). { apply qdiv_mono; auto. apply Qclt_le_weak; auto. }
  field. intros C. rewrite C in Hb. discriminate.
Qed.
Lemma qabs_le a b : - b <= a -> a <= b -> qabs a <= b.
Proof. intros H1 H2. unfold qabs. destruct (qleb 0 a); auto. clear - H1. qclra. Qed.

Lemma gram_marker n w i : (1 <= n)%nat -> clean w -> (i < gram_count n w)%nat -> (In 2%N (gram_at n w i) <-> i = 0%nat).
Proof.
  intros Hn [C _] Hi. unfold gram_at, padded. destruct i as [|i].
  - split; auto. intros _. destruct n; [lia|]. left. reflexivity.
  - split; [|discriminate]. intros H. apply In_firstn' in H. cbn [app skipn] in H. apply In_skipn' in H.
    apply in_app_or in H. destruct H as [H|[H|[]]]; [contradiction|discriminate].
Qed.

Lemma positions_close n q w g M : (1 <= n)%nat -> clean q -> clean w -> (1 <= M)%nat ->
  (gram_count n q - 1 <= M)%nat -> (gram_count n w - 1 <= M)%nat -> close (1 - / qn M) (positions n q g) (positions n w g).
Proof.
  intros Hn Cq Cw M1 Mq Mw x y Hx Hy. apply positions_in in Hx, Hy.
  destruct Hx as (i & Hi & Gi & ->), Hy as (j & Hj & Gj & ->).
  assert (P : 0 < qn M) by (apply qn_pos; lia).
  assert (I1 : / qn M <= 1). { replace (/ qn M) with (1 / qn M) by (unfold Qcdiv; ring). apply qdiv_le_1; auto. rewrite <- qn_1. apply qn_le; auto. }
  assert (Z : (i = 0 <-> j = 0)%nat).
  { rewrite <- (gram_marker n q i), <- (gram_marker n w j) by auto. rewrite Gi, Gj. tauto. }
  assert (B : forall v k, (gram_count n v - 1 <= M)%nat -> (1 <= k)%nat -> (k < gram_count n v)%nat ->
    / qn M <= position n v k /\ position n v k <= 1).
  { intros v k Hv K1 K2. unfold position. set (D := Nat.max 1 (gram_count n v - 1)).
    assert (PD : 0 < qn D) by (apply qn_pos; unfold D; lia). split; [|apply qdiv_le_1; auto; apply qn_le; unfold D; lia].
    assert (A1 : 1 / qn D <= qn k / qn D) by (apply qdiv_mono; [apply Qclt_le_weak; auto|rewrite <- qn_1; apply qn_le; auto]).
    eapply Qcle_trans; [|exact A1]. apply qdiv_ge; auto. 
    replace (/ qn M * qn D) with (qn D / qn M) by (unfold Qcdiv; ring). apply qdiv_le_1; auto. apply qn_le. unfold D. lia. }
  destruct (Nat.eq_dec i 0) as [E|N].
  - assert (j = 0%nat) by tauto. subst i j. unfold position. rewrite qn_0, !qdiv_0. replace (0 - 0) with 0 by ring.
    change (qabs 0) with 0. clear - I1. generalize dependent (/ qn M). intros a H. qclra.
  - assert (j <> 0)%nat by tauto. destruct (B q i Mq ltac:(lia) Hi) as [B1 B2]. destruct (B w j Mw ltac:(lia) Hj) as [B3 B4].
    clear - B1 B2 B3 B4. generalize dependent (/ qn M). intros a B1 B3. apply qabs_le; qclra.
Qed.

(** The similarity exceeds the number of shared n-grams by a margin. *)
Lemma simf_gap q n w M : (2 <= n)%Z -> clean q -> clean w -> (1 <= M)%nat -> (weight q n w <= M)%nat ->
  exists S, simf exact q n w = Ok S /\ (1 + / qn M) * qn (common exact q n w) <= S.
Proof.
  intros Hn Cq Cw M1 HW. unfold simf, common, items.
  assert (En : n = Z.of_nat (Z.to_nat n)) by lia. set (m := Z.to_nat n) in *. assert (Hm : (2 <= m)%nat) by lia. clearbody m. subst n.
  unfold weight in HW. rewrite !get_n_grams_big, !grams_length in HW by auto.
  assert (P : 0 < qn M) by (apply qn_pos; lia).
  assert (I0 : 0 <= / qn M) by (apply qinv_nonneg; auto).
  assert (I1 : / qn M <= 1). { replace (/ qn M) with (1 / qn M) by (unfold Qcdiv; ring). apply qdiv_le_1; auto. rewrite <- qn_1. apply qn_le; auto. }
  rewrite !gocc_big by auto.
  destruct (sim_loop_gap (1 - / qn M) (group (occ exact m w)) (group (occ exact m q))) with (S0 := 0) as (S & E & B).
  - clear - I1. generalize dependent (/ qn M). intros. qclra.
  - clear - I0. generalize dependent (/ qn M). intros. qclra.
  - intros g l l2 H1 H2. apply group_item in H1. destruct H1 as [-> _]. apply dget_In, group_item in H2. destruct H2 as [-> _].
    rewrite !occ_select. unfold exact. rewrite !map_id. apply positions_close; auto; lia.
  - exists S. split; auto. rewrite Qcplus_0_l in B. replace (1 - (1 - / qn M)) with (/ qn M) in B by ring. exact B.
Qed.

(** ** Separation *)
Section Separation.
Variable u : Qc.
Hypothesis U0 : 0 <= u.
Hypothesis U1 : u < 1.
Variable rnd : Qc -> Qc.
Hypothesis L : lawful rnd.
Hypothesis A : accurate u rnd.
Notation near := (near u).
Notation hi := (hi u).
Notation lo := (lo u).
Let U1' : u <= 1 := Qclt_le_weak _ _ U1.

(** Bound on the lengths of the words and margin of the scores. *)
Variable W : nat.
Hypothesis W1 : (1 <= W)%nat.
Hypothesis SW : small W.
Hypothesis HU : qn 2 * (qn (W + 1) * u) <= 1.
Definition gamma : Qc := / qn W - qn (W * (3 * W + 3)) * u.
Hypothesis G0 : 0 <= gamma.

Lemma gamma_le : gamma <= 1.
Proof.
  unfold gamma. assert (P : 0 < qn W) by (apply qn_pos; lia).
  assert (I1 : / qn W <= 1). { replace (/ qn W) with (1 / qn W) by (unfold Qcdiv; ring). apply qdiv_le_1; auto. rewrite <- qn_1. apply qn_le; auto. }
  assert (0 <= qn (W * (3 * W + 3)) * u) by (apply qmul_nonneg; auto; apply qn_nonneg).
  clear - I1 H. generalize dependent (qn (W * (3 * W + 3)) * u). generalize dependent (/ qn W). intros. qclra.
Qed.

Lemma score_gap q n w v : (2 <= n)%Z -> clean q -> clean w -> (weight q n w <= W)%nat -> score1 rnd true q n w = Ok v ->
  let y := qn (common rnd q n w) / qz (size n q + size n w) in
  lo 1 * ((1 + gamma) * y) <= v /\ v <= hi 1 * (qn 2 * y).
Proof.
  intros Hn Cq Cw HW Hv y.
  assert (SN : small (weight q n w)) by (unfold small in *; lia).
  assert (F : faithful_upto rnd (weight q n w)) by (apply lawful_faithful; auto).
  destruct (simf_pinched rnd L q n w F) as (s & Hs & B1 & B2). unfold score1 in Hv. rewrite Hs in Hv. cbn [bind] in Hv.
  destruct (Z.eqb_spec (size n q + size n w) 0) as [|ND]; [discriminate|].
  assert (Ev : v = rnd (s / qz (size n q + size n w))) by congruence. clear Hv.
  destruct (Nat.eq_dec (common rnd q n w) 0) as [E|P].
  - rewrite (simf_zero rnd L q n w F E) in Hs. assert (s = 0) by congruence. subst s.
    unfold y. rewrite E, qn_0, qdiv_0 in *. rewrite (rnd_0 rnd L) in Ev. subst v. rewrite !Qcmult_0_r. split; apply Qcle_refl.
  - destruct (common_size rnd q n w ltac:(lia) ltac:(lia)) as [_ S2].
    set (D := qz (size n q + size n w)) in *. assert (Dp : 0 < D). { unfold D. rewrite <- qz_0. apply (proj1 (qz_lt _ _)). lia. }
    set (c := common rnd q n w) in *.
    assert (C1 : 1 <= qn c) by (rewrite <- qn_1; apply qn_le; lia).
    assert (S0 : 0 <= s) by (eapply Qcle_trans; [apply qn_nonneg|exact B1]).
    assert (SD : 0 <= s / D) by (apply qdiv_nonneg; auto).
    destruct (acc_nonneg u rnd A (s / D) SD) as [R1 R2]. rewrite <- Ev in R1, R2.
    assert (Lb : (1 + gamma) * qn c <= s).
    { destruct (simf_acc u U0 U1' rnd L A q n w) as (s' & S & E1 & E2 & Er); auto.
      { eapply Qcle_trans; [|exact HU]. apply qmul_le_l; [apply qn_nonneg|]. apply qmul_le_r; auto. apply qn_le. lia. }
      assert (s' = s) by congruence. subst s'.
      destruct (simf_gap q n w W Hn Cq Cw W1 HW) as (S' & E3 & Gp). assert (S' = S) by congruence. subst S'.
      rewrite <- (common_exact rnd q n w) in Gp. fold c in Gp.
      assert (X : qabs (s - S) <= qn (W * (3 * W + 3)) * u * qn c).
      { eapply Qcle_trans; [exact Er|]. assert (X1 : qn (weight q n w * (3 * weight q n w + 3)) * u <= qn (W * (3 * W + 3)) * u).
        { apply qmul_le_r; auto. apply qn_le. apply Nat.mul_le_mono; lia. }
        eapply Qcle_trans; [exact X1|]. rewrite <- (Qcmult_1_r (qn (W * (3 * W + 3)) * u)) at 1. apply qmul_le_l; auto.
        apply qmul_nonneg; auto. apply qn_nonneg. }
      unfold gamma. set (e := qn (W * (3 * W + 3)) * u) in *. set (i := / qn W) in *.
      replace ((1 + (i - e)) * qn c) with ((1 + i) * qn c - e * qn c) by ring.
      set (a := (1 + i) * qn c) in *. set (b := e * qn c) in *. clearbody a b. clear - Gp X.
      qclra. }
    assert (L1 : lo 1 = 1 - u) by (unfold Accuracy.lo; simpl; ring).
    assert (H1 : hi 1 = 1 + u) by (unfold Accuracy.hi; simpl; ring).
    rewrite L1, H1. unfold y. split.
    + eapply Qcle_trans; [|exact R1]. apply qmul_le_l; [clear - U1; qclra|].
      replace ((1 + gamma) * (qn c / D)) with ((1 + gamma) * qn c / D) by (unfold Qcdiv; ring).
      apply qdiv_mono; auto. apply Qclt_le_weak; auto.
    + eapply Qcle_trans; [exact R2|]. apply qmul_le_l; [clear - U0; qclra|].
      replace (qn 2 * (qn c / D)) with (qn 2 * qn c / D) by (unfold Qcdiv; ring).
      apply qdiv_mono; [apply Qclt_le_weak; auto|]. rewrite <- qn_mul. exact B2.
Qed.

Lemma Forall2_len {B C} (P : B -> C -> Prop) ns l : Forall2 P ns l -> length ns = length l.
Proof. induction 1; cbn [length]; auto. Qed.

(** Sums of lists bounded element by element. *)
Lemma qsum_scale_l {B} (f : B -> Qc) a ns l : Forall2 (fun n x => a * f n <= x) ns l -> a * qsum (map f ns) <= qsum l.
Proof.
  induction 1; cbn [map qsum]; [rewrite Qcmult_0_r; apply Qcle_refl|]. rewrite Qcmult_plus_distr_r. apply Qcplus_le_compat; auto.
Qed.
Lemma qsum_scale_r {B} (f : B -> Qc) a ns l : Forall2 (fun n x => x <= a * f n) ns l -> qsum l <= a * qsum (map f ns).
Proof.
  induction 1; cbn [map qsum]; [rewrite Qcmult_0_r; apply Qcle_refl|]. rewrite Qcmult_plus_distr_r. apply Qcplus_le_compat; auto.
Qed.

(** From sums to means, for every way to take the mean that is accurate on
    the lists [good]. *)
Variable mean : list Qc -> Qc.
Variable good : list Qc -> Prop.
Hypothesis MA : forall l, good l -> nonneg l -> l <> [] -> near (S (length l)) (mean l) (avg l).

Lemma mean_scale_l {B} (f : B -> Qc) a ns l : ns <> [] -> good l -> nonneg l -> Forall2 (fun n x => a * f n <= x) ns l ->
  lo (S (length ns)) * (a * (qsum (map f ns) / qn (length ns))) <= mean l.
Proof.
  intros N G P H. pose proof (qsum_scale_l f a ns l H) as Q. pose proof (Forall2_len _ _ _ H) as E.
  assert (Nl : l <> []) by (intros ->; destruct ns; [congruence|discriminate]).
  destruct (MA l G P Nl) as [M _]. eapply Qcle_trans; [|exact M]. rewrite <- E.
  apply qmul_le_l; [apply lo_1; auto|]. unfold avg.
  replace (a * (qsum (map f ns) / qn (length ns))) with (a * qsum (map f ns) / qn (length ns)) by (unfold Qcdiv; ring).
  unfold zlen. fold (qn (length l)). rewrite E. apply qdiv_mono; auto. apply qn_nonneg.
Qed.

Lemma mean_scale_r {B} (f : B -> Qc) a ns l : ns <> [] -> good l -> nonneg l -> Forall2 (fun n x => x <= a * f n) ns l ->
  mean l <= hi (S (length ns)) * (a * (qsum (map f ns) / qn (length ns))).
Proof.
  intros N G P H. pose proof (qsum_scale_r f a ns l H) as Q. pose proof (Forall2_len _ _ _ H) as E.
  assert (Nl : l <> []) by (intros ->; destruct ns; [congruence|discriminate]).
  destruct (MA l G P Nl) as [_ M]. eapply Qcle_trans; [exact M|]. rewrite <- E.
  apply qmul_le_l; [eapply Qcle_trans; [|apply hi_1; auto]; clear; qclra|]. unfold avg.
  replace (a * (qsum (map f ns) / qn (length ns))) with (a * qsum (map f ns) / qn (length ns)) by (unfold Qcdiv; ring).
  unfold zlen. fold (qn (length l)). rewrite E. apply qdiv_mono; auto. apply qn_nonneg.
Qed.

Variable casefold : str -> str.
Variable st : wordlist.
Hypothesis I : inv rnd casefold st.
Variable q : str.
Hypothesis Cq : clean q.
Notation NL := (n_list st).
Hypothesis N2 : forall n, In n NL -> (2 <= n)%Z.
Hypothesis HW : forall n w, In n NL -> In w (word_list st) -> (weight q n w <= W)%nat.
Definition roundings : nat := (W + 2 * length NL + 4)%nat.
Hypothesis GT : qn 4 * (qn roundings * u) <= gamma.

Let y (i : nat) (n : Z) : Qc := qn (common rnd q n (wd st i)) / qz (size n q + size n (wd st i)).

Lemma room : hi roundings <= (1 + gamma) * lo roundings.
Proof.
  pose proof gamma_le as G1. set (t := qn roundings * u) in *.
  assert (T0 : 0 <= t) by (apply qmul_nonneg; auto; apply qn_nonneg).
  assert (T4 : t + t + t + t <= gamma). { replace (t + t + t + t) with (qn 4 * t); auto. change (qn 4) with (Q2Qc 4). clear. qclra. }
  assert (H1 : hi roundings <= 1 + qn 2 * t).
  { apply hi_linear; auto. fold t. change (qn 2) with (Q2Qc 2). clear - T4 G1 T0. qclra. }
  assert (H2 : 1 - t <= lo roundings) by (apply lo_linear; auto).
  assert (H3 : (1 + gamma) * (1 - t) <= (1 + gamma) * lo roundings) by (apply qmul_le_l; auto; clear - G0; qclra).
  assert (H4 : gamma * t <= 1 * t) by (apply qmul_le_r; auto).
  eapply Qcle_trans; [|exact H3]. replace ((1 + gamma) * (1 - t)) with (1 + gamma - t - gamma * t) by ring.
  set (gt := gamma * t) in *. clearbody gt. change (qn 2) with (Q2Qc 2) in H1. clear - H1 H4 T4 T0. generalize dependent gamma. intros. qclra.
Qed.

Lemma y_nonneg i n : In n NL -> 0 <= y i n.
Proof. intros Hn. apply div_zero_common. apply N2 in Hn. lia. Qed.

Lemma bound_near i l : cand st q i -> bound rnd st q true i l -> Forall2 (fun n x => near (W + 1) x (y i n)) NL l.
Proof.
  intros [Hi _] [Ll H]. apply (nth_Forall2 _ 0); auto. intros k n Hk. assert (Hn : In n NL) by (eapply nth_error_In; eauto).
  specialize (H k n Hk). destruct (count_near u U0 U1' rnd A casefold st I q n i Hn) as (x & E & B).
  assert (x = nth k l 0) by congruence. subst x. eapply near_mono; [auto|auto| |apply y_nonneg; auto|exact B].
  pose proof (HW n (wd st i) Hn (wd_in st i Hi)) as X. unfold weight in X. lia.
Qed.

Lemma near_list_nonneg i l : Forall2 (fun n x => near (W + 1) x (y i n)) NL l -> nonneg l.
Proof. apply Forall2_right. intros n x Hn B. eapply near_nonneg; [..|exact B]; auto. apply y_nonneg; auto. Qed.

Lemma vec_gap i v : cand st q i -> score_vec rnd st q true i = Ok v ->
  Forall2 (fun n x => lo 1 * (1 + gamma) * y i n <= x /\ x <= hi 1 * qn 2 * y i n) NL v.
Proof.
  intros [Hi _] Hv. unfold score_vec in Hv.
  assert (Cw : clean (wd st i)) by (eapply word_clean; eauto).
  assert (H : forall n, In n NL -> (2 <= n)%Z /\ (weight q n (wd st i) <= W)%nat).
  { intros n Hn. split; auto. apply HW; auto. apply wd_in; auto. }
  revert v Hv H. generalize NL as ns. induction ns as [|n ns IH]; intros v Hv H; cbn [mapM] in Hv.
  - assert (v = []) by congruence. subst. constructor.
  - apply bind_ok in Hv. destruct Hv as (x & Hx & Hv). apply bind_ok in Hv. destruct Hv as (v' & Hv' & E).
    assert (v = x :: v') by congruence. subst v. constructor; [|apply IH; auto; intros; apply H; right; auto].
    destruct (H n (or_introl eq_refl)) as [H1 H2]. rewrite <- !Qcmult_assoc. apply score_gap; auto.
Qed.

Lemma low_near_nonneg i l : cand st q i -> bound rnd st q true i l -> nonneg l.
Proof. intros Hi H. eapply near_list_nonneg, bound_near; eauto. Qed.

Lemma cand_sizes i : cand st q i -> NL <> [].
Proof. intros [_ [(n & Hn & _) _]] E. rewrite E in Hn. destruct Hn. Qed.

Hypothesis GB : forall i l, cand st q i -> bound rnd st q true i l -> good l /\ good (map (fun x => x * qz 2) l).
Hypothesis GV : forall i v, cand st q i -> score_vec rnd st q true i = Ok v -> good v.

Theorem separated_accurate : separated rnd mean st q true.
Proof.
  intros i j li lj vi vj Hi Hj Bi Bj Vi Vj Lt.
  pose proof (cand_sizes i Hi) as Nn.
  pose proof (GB i li Hi Bi) as [Gi _]. pose proof (GB j lj Hj Bj) as [_ Gj]. pose proof (GV i vi Hi Vi) as Hvi. pose proof (GV j vj Hj Vj) as Hvj.
  apply bound_near in Bi, Bj; auto. apply vec_gap in Vi, Vj; auto.
  assert (Pi : nonneg li) by (eapply near_list_nonneg; eauto).
  assert (Pj : nonneg (map (fun x => x * qz 2) lj)).
  { apply near_list_nonneg in Bj. apply Forall_map. eapply Forall_impl; [|exact Bj]. intros x Hx. cbv beta.
    apply qmul_nonneg; auto. discriminate. }
  assert (L0 : forall k, 0 <= lo k) by (intros; apply lo_1; auto).
  assert (H0 : forall k, 0 <= hi k) by (intros k; eapply Qcle_trans; [|apply hi_1; auto]; clear; qclra).
  assert (Qi : nonneg vi).
  { eapply Forall2_right; [|exact Vi]. cbv beta. intros n x Hn [B _]. eapply Qcle_trans; [|exact B].
    apply qmul_nonneg; [apply qmul_nonneg; auto; clear - G0; qclra|apply y_nonneg; auto]. }
  assert (Qj : nonneg vj).
  { eapply Forall2_right; [|exact Vj]. cbv beta. intros n x Hn [B _]. eapply Qcle_trans; [|exact B].
    apply qmul_nonneg; [apply qmul_nonneg; auto; clear - G0; qclra|apply y_nonneg; auto]. }
  set (m := length NL) in *. set (Yi := qsum (map (y i) NL) / qn m). set (Yj := qsum (map (y j) NL) / qn m).
  assert (Pm : 0 < qn m). { apply qn_pos. unfold m. destruct NL; [congruence|cbn [length]; lia]. }
  assert (YI : 0 <= Yi). { apply qdiv_nonneg; auto. apply qsum_map_nonneg. intros; apply y_nonneg; auto. }
  assert (YJ : 0 <= Yj). { apply qdiv_nonneg; auto. apply qsum_map_nonneg. intros; apply y_nonneg; auto. }
  assert (F1 : lo (S m) * (lo (W + 1) * qn 2 * Yj) <= mean (map (fun x => x * qz 2) lj)).
  { apply mean_scale_l; auto. clear - Bj U0 U1. induction Bj as [|n x ns l [B _] _ IH]; constructor; auto.
    change (qz 2) with (qn 2). replace (lo (W + 1) * qn 2 * y j n) with (lo (W + 1) * y j n * qn 2) by ring. apply qmul_le_r; auto. apply qn_nonneg. }
  assert (F2 : mean li <= hi (S m) * (hi (W + 1) * Yi)).
  { apply mean_scale_r; auto. clear - Bi. induction Bi as [|n x ns l [_ B] _ IH]; constructor; auto. }
  assert (F3 : mean vj <= hi (S m) * (hi 1 * qn 2 * Yj)).
  { apply mean_scale_r; auto. clear - Vj. induction Vj as [|n x ns l [_ B] _ IH]; constructor; auto. }
  assert (F4 : lo (S m) * (lo 1 * (1 + gamma) * Yi) <= mean vi).
  { apply mean_scale_l; auto. clear - Vi. induction Vi as [|n x ns l [B _] _ IH]; constructor; auto. }
  eapply Qcle_trans; [exact F3|]. eapply Qcle_trans; [|exact F4].
  assert (X : lo (S m + (W + 1)) * (qn 2 * Yj) <= hi (S m + (W + 1)) * Yi).
  { rewrite lo_add, hi_add. replace (lo (S m) * lo (W + 1) * (qn 2 * Yj)) with (lo (S m) * (lo (W + 1) * qn 2 * Yj)) by ring.
    replace (hi (S m) * hi (W + 1) * Yi) with (hi (S m) * (hi (W + 1) * Yi)) by ring. eapply Qcle_trans; [exact F1|]. eapply Qcle_trans; [apply Qclt_le_weak, Lt|exact F2]. }
  replace (hi (S m) * (hi 1 * qn 2 * Yj)) with (hi (S m + 1) * (qn 2 * Yj)) by (rewrite hi_add; ring).
  replace (lo (S m) * (lo 1 * (1 + gamma) * Yi)) with (lo (S m + 1) * ((1 + gamma) * Yi)) by (rewrite lo_add; ring).
  assert (Lp : 0 < lo (S m + (W + 1))).
  { unfold Accuracy.lo. clear - U1. induction (S m + (W + 1))%nat; [reflexivity|]. cbn [Qcpower].
    assert (0 < 1 - u) by (clear - U1; qclra). rewrite <- (Qcmult_0_l ((1 - u) ^ n)). apply Qcmult_lt_compat_r; auto. }
  apply (Qcmult_lt_0_le_reg_r _ _ (lo (S m + (W + 1)))); auto.
  replace (hi (S m + 1) * (qn 2 * Yj) * lo (S m + (W + 1))) with (hi (S m + 1) * (lo (S m + (W + 1)) * (qn 2 * Yj))) by ring.
  eapply Qcle_trans; [apply qmul_le_l; [apply H0|exact X]|].
  rewrite Qcmult_assoc, <- hi_add.
  replace (lo (S m + 1) * ((1 + gamma) * Yi) * lo (S m + (W + 1))) with ((1 + gamma) * (lo (S m + 1) * lo (S m + (W + 1))) * Yi) by ring.
  rewrite <- lo_add. apply qmul_le_r; auto.
  pose proof room as R. unfold roundings in R. fold m in R.
  replace (S m + 1 + (S m + (W + 1)))%nat with (W + 2 * m + 4)%nat by lia. exact R.
Qed.
End Separation.
