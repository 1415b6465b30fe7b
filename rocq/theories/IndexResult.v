(** [lookup] refined: which words are returned, with which scores. *)
From Coq Require Import ZArith NArith QArith Qcanon List Bool Permutation Lia Sorted.
From Verif Require Import Num Py ListAux PyDict Float64 EmdSpec EmdModel EmdProofs EmdFloatProofs
  NmdSpec NmdModel NmdProofs NmdFloatProofs IndexSpec IndexModel IndexProofs IndexLoops IndexLookupProofs.
Import ListNotations.
Open Scope Qc_scope.

Lemma nth_error_wd st i w : nth_error (word_list st) i = Some w -> wd st i = w.
Proof. intros H. unfold wd. apply nth_error_nth. auto. Qed.

Lemma wd_nth_error st i : (i < length (word_list st))%nat -> nth_error (word_list st) i = Some (wd st i).
Proof. intros H. unfold wd. apply nth_error_nth'. auto. Qed.

Section Result.
Variable rnd : Qc -> Qc.
Variable casefold : str -> str.
Hypothesis L : lawful rnd.
Variable st : wordlist.
Hypothesis I : inv rnd casefold st.
Variable q : str.

Notation W := (word_list st).
Notation NL := (n_list st).

(** Word number [i] is a candidate. *)
Definition cand (i : nat) : Prop := (i < length W)%nat /\ candidate NL (filter_n st) q (wd st i).

Lemma NL_pos n : In n NL -> (0 < n)%Z.
Proof. destruct (inv_n _ _ _ I) as [P _]. rewrite Forall_forall in P. auto. Qed.

Lemma filter_set_in o : fair o -> filter_n st <> 0%Z -> forall i,
  In i (filter_set o st q) <-> (i < length W)%nat /\ shares (filter_n st) q (wd st i).
Proof.
  intros [F _] NZ i. unfold filter_set. destruct (Z.eqb_spec (filter_n st) 0); [contradiction|].
  rewrite in_flat_map, shares_iff. split.
  - intros (g & Hg & Hi). apply (inv_filter _ _ _ I NZ) in Hi. destruct Hi as (w & Hw & Hgw).
    assert (i < length W)%nat by (apply nth_error_Some; congruence).
    split; auto. exists g. rewrite (nth_error_wd _ _ _ Hw). split; auto.
    eapply Permutation_in in Hg; [|apply F]. apply nodup_In in Hg. auto.
  - intros (Hi & g & Hg & Hw). exists g. split.
    + eapply Permutation_in; [symmetry; apply F|]. apply nodup_In. auto.
    + apply (inv_filter _ _ _ I NZ). exists (wd st i). split; auto. apply wd_nth_error; auto.
Qed.

Lemma cand_iff o i : fair o ->
  (allowed st (filter_set o st q) i = true /\
   exists w n g (x : list Qc), nth_error W i = Some w /\ In n NL /\ In (g, x) (items rnd q n) /\ In g (get_n_grams w n)) <-> cand i.
Proof.
  intros F. unfold cand, candidate, allowed. split.
  - intros (A & w & n & g & x & Hw & Hn & Hg & Hgw).
    assert (Hi : (i < length W)%nat) by (apply nth_error_Some; congruence).
    rewrite (nth_error_wd _ _ _ Hw). split; auto. split.
    + exists n. split; auto. apply shares_iff. exists g. split; auto. apply group_item in Hg. rewrite gocc_keys in Hg. tauto.
    + destruct (Z.eqb_spec (filter_n st) 0); auto. right. cbn [orb] in A. destruct in_dec as [J|]; [|discriminate].
      apply filter_set_in in J; auto. rewrite (nth_error_wd _ _ _ Hw) in J. tauto.
  - intros (Hi & (n & Hn & Hs) & Hf). split.
    + destruct (Z.eqb_spec (filter_n st) 0); auto. cbn [orb]. destruct in_dec as [|J]; auto. exfalso. apply J.
      apply filter_set_in; auto. split; auto. tauto.
    + apply shares_iff in Hs. destruct Hs as (g & Hg & Hw).
      exists (wd st i), n, g, (select g (gocc rnd (get_n_grams q n))). repeat split; auto.
      * apply wd_nth_error; auto.
      * unfold items. apply dget_In, group_dget. rewrite gocc_keys. auto.
Qed.

(** *** First loop *)

Definition count_list (normalize : bool) (n : Z) (i : nat) : list (Qc -> result Qc) :=
  flat_map (fun gx => match locs rnd (wd st i) (fst gx) with [] => [] | l => [count_fun rnd st q normalize n (snd gx) i l] end) (items rnd q n).

Lemma count_list_ok normalize n i its : In n NL ->
  (forall g x, In (g, x) its -> zlen g = n /\ In g (get_n_grams q n)) -> forall s,
  exists v, foldM appl (flat_map (fun gx => match locs rnd (wd st i) (fst gx) with [] => [] | l => [count_fun rnd st q normalize n (snd gx) i l] end) its) s = Ok v.
Proof.
  intros Hn. induction its as [|[g x] its IH]; intros H s; [eexists; reflexivity|].
  cbn [flat_map fst snd]. rewrite foldM_app. destruct (locs rnd (wd st i) g) as [|y l] eqn:E.
  - cbn [foldM bind]. apply IH. intros; eapply H; right; eauto.
  - cbn [foldM]. unfold appl at 1, count_fun at 1.
    destruct (H g x (or_introl eq_refl)) as [Hz Hg].
    assert (P1 := size_grams n q g Hg).
    assert (P2 : (0 < size n (wd st i))%Z).
    { apply (size_grams n (wd st i) g). destruct (in_dec eqd g (get_n_grams (wd st i) n)) as [|C]; auto.
      rewrite <- Hz in C. apply (locs_nil rnd) in C. congruence. }
    destruct normalize.
    + destruct (Z.eqb_spec (size n q + size n (wd st i)) 0); [lia|]. cbn [bind]. apply IH. intros; eapply H; right; eauto.
    + cbn [bind]. apply IH. intros; eapply H; right; eauto.
Qed.

Lemma items_in n g x : In n NL -> In (g, x) (items rnd q n) -> zlen g = n /\ In g (get_n_grams q n).
Proof.
  intros Hn H. split; [eapply items_zlen; eauto|]. apply group_item in H. rewrite gocc_keys in H. tauto.
Qed.

Lemma min_scores_spec o normalize : fair o ->
  exists ms, min_scores rnd st q normalize (filter_set o st q) = Ok ms /\ dwf ms /\
    (forall i, In i (dkeys ms) <-> cand i) /\
    (forall i l, dget i ms = Some l -> length l = length NL /\
       forall k n, nth_error NL k = Some n -> foldM appl (count_list normalize n i) 0 = Ok (nth k l 0)).
Proof.
  intros F. rewrite (min_scores_events rnd casefold st I q).
  set (evs := events st (items rnd q) (count_fun rnd st q normalize)).
  set (al := allowed st (filter_set o st q)).
  assert (Hz : forall m g x, In m NL -> In (g, x) (items rnd q m) -> zlen g = m) by (intros; eapply items_zlen; eauto).
  assert (Sel : forall i k n, (i < length W)%nat -> nth_error NL k = Some n -> sel i k evs = count_list normalize n i).
  { intros i k n Hi Hk. unfold evs. rewrite (sel_events rnd casefold st I _ _ i k n (wd st i)); auto. apply wd_nth_error; auto. }
  destruct (loop_events (length NL) al evs) as (ms & E & Wf & K & V).
  - intros i k G H. eapply events_k; eauto.
  - intros i k _. destruct (Nat.lt_ge_cases i (length W)) as [Hi|Hi].
    + destruct (nth_error NL k) as [n|] eqn:Ek.
      * rewrite (Sel i k n Hi Ek). apply count_list_ok; [eapply nth_error_In; eauto|].
        intros g x Hg. eapply items_in; eauto. eapply nth_error_In; eauto.
      * unfold evs. rewrite (sel_out rnd casefold st I); [eexists; reflexivity|]. right. intros C. apply nth_error_Some in C. congruence.
    + unfold evs. rewrite (sel_out rnd casefold st I); [eexists; reflexivity|]. left. lia.
  - exists ms. split; auto. split; auto.
    assert (K' : forall i, In i (dkeys ms) <-> cand i).
    { intros i. rewrite K. unfold evs. rewrite (in_events rnd casefold st I (items rnd q) _ i Hz). apply cand_iff; auto. }
    split; auto. intros i l H. destruct (V i l H) as [Ln Vk]. split; auto.
    intros k n Hk. rewrite <- (Sel i k n); auto.
    + apply Vk. apply nth_error_Some. congruence.
    + apply dget_Some_key, K' in H. apply H.
Qed.

(** Values of the counts. *)
Lemma overlap_locs n i g x : In n NL -> zlen g = n ->
  overlap (group (gocc rnd (get_n_grams (wd st i) n))) (g, x) = Nat.min (length x) (length (locs rnd (wd st i) g)).
Proof.
  intros Hn Hz. unfold overlap. cbn [fst snd]. rewrite locs_dget by (apply NL_pos; auto). rewrite Hz, Z.eqb_refl.
  destruct (locs rnd (wd st i) g) eqn:E; auto. cbn [length]. lia.
Qed.

Lemma count_plain n i : In n NL -> foldM appl (count_list false n i) 0 = Ok (qn (common rnd q n (wd st i))).
Proof.
  intros Hn. unfold count_list, common.
  assert (H : forall g x, In (g, x) (items rnd q n) -> zlen g = n) by (intros; eapply items_in; eauto).
  replace (qn (list_sum (map (overlap (group (gocc rnd (get_n_grams (wd st i) n)))) (items rnd q n)))) with
    (0 + qn (list_sum (map (overlap (group (gocc rnd (get_n_grams (wd st i) n)))) (items rnd q n)))) by ring.
  generalize (0 : Qc). revert H. generalize (items rnd q n). intros its. induction its as [|[g x] its IH]; intros H s.
  - cbn. f_equal. rewrite qn_0. ring.
  - cbn [flat_map map list_sum fold_right fst snd]. change (fold_right Nat.add 0%nat) with list_sum.
    rewrite foldM_app, overlap_locs by (auto; apply (H g x); left; auto).
    assert (H' : forall g x, In (g, x) its -> zlen g = n) by (intros; eapply H; right; eauto).
    destruct (locs rnd (wd st i) g) as [|y l] eqn:E.
    + cbn [foldM bind length]. rewrite IH by auto. rewrite Nat.min_0_r. reflexivity.
    + cbn [foldM]. unfold appl at 1, count_fun at 1. cbn [bind]. rewrite IH by auto. f_equal. rewrite qn_add.
      replace (qz (Z.min (zlen x) (zlen (y :: l)))) with (qn (Nat.min (length x) (length (y :: l)))).
      * ring.
      * unfold qn, zlen. f_equal. lia.
Qed.

End Result.

Lemma qdiv_add a b c : (a + b) / c = a / c + b / c.
Proof. unfold Qcdiv. ring. Qed.

Section ExactCount.
Variable casefold : str -> str.
Variable st : wordlist.
Hypothesis I : inv exact casefold st.
Variable q : str.

Lemma count_exact n i : In n (n_list st) ->
  foldM appl (count_list exact st q true n i) 0 =
  Ok (qn (common exact q n (wd st i)) / qz (size n q + size n (wd st i))).
Proof.
  intros Hn. unfold count_list, common.
  assert (H : forall g x, In (g, x) (items exact q n) -> zlen g = n /\ In g (get_n_grams q n)).
  { intros. eapply (items_in exact casefold st I q); eauto. }
  set (d := qz (size n q + size n (wd st i))).
  replace (qn (list_sum (map (overlap (group (gocc exact (get_n_grams (wd st i) n)))) (items exact q n))) / d) with
    (0 + qn (list_sum (map (overlap (group (gocc exact (get_n_grams (wd st i) n)))) (items exact q n))) / d) by ring.
  generalize (0 : Qc). revert H. generalize (items exact q n). intros its. induction its as [|[g x] its IH]; intros H s.
  - cbn. f_equal. rewrite qn_0, qdiv_0. ring.
  - cbn [flat_map map list_sum fold_right fst snd]. change (fold_right Nat.add 0%nat) with list_sum.
    destruct (H g x (or_introl eq_refl)) as [Hz Hg].
    rewrite foldM_app, (overlap_locs exact casefold st I) by auto.
    assert (H' : forall g x, In (g, x) its -> zlen g = n /\ In g (get_n_grams q n)) by (intros; eapply H; right; eauto).
    destruct (locs exact (wd st i) g) as [|y l] eqn:E.
    + cbn [foldM bind length]. rewrite IH by auto. rewrite Nat.min_0_r. reflexivity.
    + cbn [foldM]. unfold appl at 1, count_fun at 1.
      assert (P1 := size_grams n q g Hg).
      assert (P2 : (0 < size n (wd st i))%Z).
      { apply (size_grams n (wd st i) g). destruct (in_dec eqd g (get_n_grams (wd st i) n)) as [|C]; auto.
        rewrite <- Hz in C. apply (locs_nil exact) in C. congruence. }
      destruct (Z.eqb_spec (size n q + size n (wd st i)) 0); [lia|]. cbn [bind]. rewrite IH by auto. f_equal.
      rewrite qn_add, qdiv_add. fold d.
      replace (qz (Z.min (zlen x) (zlen (y :: l)))) with (qn (Nat.min (length x) (length (y :: l)))).
      * unfold exact. ring.
      * unfold qn, zlen. f_equal. lia.
Qed.
End ExactCount.

(** *** Pruning *)

Lemma dvals_map {V U} (f : V -> U) (d : dict nat V) : map f (dvals d) = map (fun e => f (snd e)) d.
Proof. unfold dvals. apply map_map. Qed.

Lemma prune_spec mean k ms : (1 <= k)%Z -> ms <> [] -> dwf ms ->
  exists thr poss top, prune mean k ms = Ok poss /\
    (forall i, In i poss <-> exists l, In (i, l) ms /\ thr <= mean (map (fun x => x * qz 2) l)) /\
    NoDup top /\ length top = Nat.min (Z.to_nat k) (length ms) /\
    (forall i, In i top -> exists l, In (i, l) ms /\ thr <= mean l) /\
    (exists i l, In (i, l) ms /\ thr = mean l).
Proof.
  intros Hk Hms Wf. unfold prune. rewrite dvals_map.
  rewrite (isort_map (fun a b => qleb b a) (fun e : nat * list Qc => mean (snd e))).
  set (S := isort (fun a b : nat * list Qc => qleb (mean (snd b)) (mean (snd a))) ms).
  assert (Ps : Permutation S ms) by apply isort_perm.
  assert (Ls : length S = length ms) by (apply Permutation_length; auto).
  assert (Lm : (0 < length ms)%nat) by (destruct ms; [congruence|simpl; lia]).
  set (m := Nat.min (Z.to_nat k) (length ms)).
  assert (Hm : (0 < m <= length S)%nat) by (unfold m; lia).
  assert (Ez : (Z.min k (zlen (map (fun e : nat * list Qc => mean (snd e)) S)) - 1)%Z = Z.of_nat (m - 1)).
  { unfold zlen, m. rewrite map_length, Ls. lia. }
  rewrite Ez. rewrite (py_get_nat _ _ (mean (snd (0%nat, @nil Qc)))) by (rewrite map_length; lia).
  rewrite (map_nth (fun e : nat * list Qc => mean (snd e))). cbn [bind].
  set (e0 := nth (m - 1) S (0%nat, [])). assert (He0 : In e0 S) by (apply nth_In; lia).
  exists (mean (snd e0)). eexists. exists (map fst (firstn m S)). split; [reflexivity|]. split; [|split; [|split; [|split]]].
  - intros i. rewrite in_map_iff. split.
    + intros ([j l] & <- & H). apply filter_In in H. destruct H as [H1 H2]. apply qleb_le in H2. cbn [fst snd] in *. eauto.
    + intros (l & H1 & H2). exists (i, l). split; auto. apply filter_In. split; auto. apply qleb_le. auto.
  - rewrite map_firstn. apply NoDup_firstn. eapply Permutation_NoDup; [apply Permutation_map; symmetry; exact Ps|exact Wf].
  - rewrite map_length, firstn_length. lia.
  - intros i Hi. apply in_map_iff in Hi. destruct Hi as ([j l] & <- & Hj). cbn [fst].
    exists l. split.
    + eapply Permutation_in; [exact Ps|]. rewrite <- (firstn_skipn m S). apply in_app_iff. auto.
    + assert (Srt : StronglySorted (fun a b : nat * list Qc => qleb (mean (snd b)) (mean (snd a)) = true) S).
      { apply (best_sorted qleb (fun e : nat * list Qc => mean (snd e)) qleb_total qleb_trans). }
      apply (In_nth _ _ (0%nat, [])) in Hj. destruct Hj as (p & Hp & Ep). rewrite firstn_length in Hp.
      assert (Ep' : nth p S (0%nat, []) = (j, l)).
      { rewrite <- Ep. rewrite <- (firstn_skipn m S) at 1. apply app_nth1. rewrite firstn_length. lia. }
      destruct (Nat.eq_dec p (m - 1)) as [->|Np].
      * unfold e0. rewrite Ep'. apply Qcle_refl.
      * assert (Hq : In e0 (skipn (p + 1) S)).
        { unfold e0. replace (m - 1)%nat with ((p + 1) + (m - 1 - (p + 1)))%nat by lia.
          rewrite <- (firstn_skipn (p + 1) S) at 1.
          rewrite app_nth2 by (rewrite firstn_length; lia). rewrite firstn_length.
          replace (p + 1 + (m - 1 - (p + 1)) - Nat.min (p + 1) (length S))%nat with (m - 1 - (p + 1))%nat by lia.
          apply nth_In. rewrite skipn_length. lia. }
        assert (Hx : In (j, l) (firstn (p + 1) S)).
        { rewrite <- Ep'. rewrite <- (firstn_skipn (p + 1) S) at 1. rewrite app_nth1 by (rewrite firstn_length; lia).
          apply nth_In. rewrite firstn_length. lia. }
        rewrite <- (firstn_skipn (p + 1) S) in Srt. apply (sorted_app_le _ _ _ Srt _ _ Hx) in Hq. apply qleb_le in Hq. exact Hq.
  - destruct e0 as [i l]. exists i, l. split; auto. eapply Permutation_in; eauto.
Qed.
