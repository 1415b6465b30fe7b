(** The scores of [ApproxWordListV5b], and how they compare with those of
    [ApproxWordListV5]. *)
From Coq Require Import ZArith NArith QArith Qcanon List Bool Permutation Lia Sorted.
From Verif Require Import Num Py ListAux PyDict Float64 EmdSpec EmdModel EmdProofs EmdFloatProofs
  NmdSpec NmdModel NmdProofs NmdFloatProofs IndexSpec IndexModel IndexProofs IndexLoops IndexLookupProofs IndexResult IndexTop IndexScore IndexFacts.
From Verif Require Import V5bSpec V5bModel V5bProofs V5bLookup.
Import ListNotations.
Open Scope Qc_scope.

(** ** First occurrences *)

Lemma uniq_in l g : In g (uniq l) <-> In g l.
Proof.
  induction l as [|a l IH]; [reflexivity|]. cbn [uniq In]. rewrite filter_In, IH. split.
  - intros [H|[H _]]; auto.
  - destruct (eqd g a) as [->|N]; auto. intros [H|H]; auto.
Qed.

Lemma filter_false {A} (p : A -> bool) l : (forall x, In x l -> p x = true) -> filter p l = l.
Proof. induction l as [|a l IH]; intros H; cbn [filter]; auto. rewrite (H a) by (left; auto). f_equal. apply IH. intros; apply H; right; auto. Qed.

Lemma uniq_snoc l g : uniq (l ++ [g]) = if in_dec eqd g l then uniq l else uniq l ++ [g].
Proof.
  induction l as [|a l IH]; cbn [app uniq].
  - reflexivity.
  - rewrite IH. destruct (in_dec eqd g l) as [J|J], (in_dec eqd g (a :: l)) as [K|K].
    + reflexivity.
    + exfalso. apply K. right; auto.
    + destruct K as [K|K]; [|contradiction]. subst a. cbn [app]. f_equal. rewrite filter_app. cbn [filter].
      destruct (eqd g g); [|congruence]. apply app_nil_r.
    + cbn [app]. f_equal. rewrite filter_app. cbn [filter]. destruct (eqd g a) as [E|_]; [|reflexivity].
      exfalso. apply K. left; auto.
Qed.

Lemma group_uniq {V} (l : list (str * V)) : dkeys (group l) = uniq (map fst l).
Proof.
  induction l as [|[g v] l IH] using rev_ind; [reflexivity|]. rewrite group_snoc, map_app. cbn [map fst snd].
  rewrite uniq_snoc, <- IH, dkeys_dappend.
  destruct (dmem g (group l)) eqn:D, (in_dec eqd g (map fst l)) as [J|J]; auto.
  - exfalso. apply J. apply group_keys, dmem_true. exact D.
  - exfalso. apply (group_keys g l) in J. apply dmem_true in J. congruence.
Qed.

Lemma group_list {V} (l : list (str * V)) : group l = map (fun g => (g, select g l)) (uniq (map fst l)).
Proof.
  rewrite <- group_uniq. unfold dkeys. rewrite map_map. rewrite <- (map_id (group l)) at 1. apply map_ext_in.
  intros [g x] H. cbn [fst]. apply group_item in H. destruct H as [-> _]. reflexivity.
Qed.

Section Scores.
Variable rnd : Qc -> Qc.

Lemma places_select n w g : places rnd n w g = select g (gocc rnd (get_n_grams w n)).
Proof.
  unfold places, select, gocc. generalize (qz (Z.max 1 (zlen (get_n_grams w n) - 1))). intros d.
  induction (enumerate (get_n_grams w n)) as [|[i x] l IH]; [reflexivity|]. cbn [filter map fst snd].
  destruct (eqd x g); cbn [map fst snd]; rewrite IH; reflexivity.
Qed.

Variable st : wordlist.
Hypothesis I : inv rnd ident st.
Variable q : str.

Lemma total_score5 nz n i : In n (n_list st) -> total rnd st q (mat rnd st q nz) n i = score5 rnd nz q (wd st i) n.
Proof.
  intros Hn. unfold total, score5. f_equal. unfold parts, in_common, items. rewrite group_list, gocc_keys, flat_map_map.
  assert (Hz : forall g, In g (uniq (get_n_grams q n)) -> zlen g = n).
  { intros g Hg. rewrite uniq_in in Hg. eapply gram_zlen; eauto. eapply NL_pos; eauto. }
  revert Hz. cbn [fst snd]. generalize (uniq (get_n_grams q n)). intros l Hz. induction l as [|g l IH]; [reflexivity|].
  cbn [flat_map filter]. rewrite IH by (intros; apply Hz; right; auto). specialize (Hz g (or_introl eq_refl)).
  destruct (in_dec eqd g (get_n_grams (wd st i) n)) as [J|J].
  - destruct (locs rnd (wd st i) g) as [|y r] eqn:E; [apply locs_nil in E; rewrite Hz in E; contradiction|].
    rewrite <- E. cbn [map app]. f_equal. unfold mat, worth, den, dp. rewrite !places_select. unfold locs. rewrite Hz. reflexivity.
  - rewrite <- Hz in J. apply (locs_nil rnd) in J. rewrite J. reflexivity.
Qed.

Lemma vec_score5 nz i : vec rnd st q (mat rnd st q nz) i = map (score5 rnd nz q (wd st i)) (n_list st).
Proof. unfold vec. apply map_ext_in. intros n Hn. apply total_score5; auto. Qed.
End Scores.

(** ** Exact arithmetic *)

Lemma fsum_exact l : fsum exact l = qsum l.
Proof. unfold fsum. rewrite fsum_exact_cons. ring. Qed.

Lemma qsum_div l d : qsum (map (fun x => x / d) l) = qsum l / d.
Proof. induction l as [|x l IH]; cbn [map qsum fold_right]; [unfold Qcdiv; ring|]. unfold qsum in *. cbn [map fold_right]. rewrite IH. unfold Qcdiv. ring. Qed.

Lemma score5_norm q w n : score5 exact true q w n = score5 exact false q w n / qz (size n q + size n w).
Proof.
  unfold score5. rewrite !fsum_exact, <- qsum_div, map_map. reflexivity.
Qed.

Lemma simf_score5 q w n : (0 < n)%Z -> simf exact q n w = Ok (score5 exact false q w n).
Proof.
  intros Hn. unfold simf, score5, in_common, items, fsum. rewrite (group_list (gocc exact (get_n_grams q n))), gocc_keys.
  generalize (0 : Qc). generalize (uniq (get_n_grams q n)). intros l. induction l as [|g l IH]; intros s; [reflexivity|].
  cbn [map foldM filter]. unfold sim_step at 1. destruct (in_dec eqd g (get_n_grams w n)) as [J|J].
  - rewrite group_dget by (rewrite gocc_keys; auto). cbn [map fold_left].
    destruct (dp_float_value exact lawful_exact (select g (gocc exact (get_n_grams q n))) (select g (gocc exact (get_n_grams w n)))) as (e & He & _).
    rewrite He. cbn [bind]. rewrite IH. f_equal. f_equal. unfold worth. rewrite !places_select, He. unfold exact. ring.
  - rewrite group_dget_none by (rewrite gocc_keys; auto). cbn [bind]. apply IH.
Qed.

Lemma score1_score5 q w n nz x : (0 < n)%Z -> score1 exact nz q n w = Ok x -> x = score5 exact nz q w n.
Proof.
  intros Hn H. unfold score1 in H. rewrite simf_score5 in H by auto. cbn [bind] in H. destruct nz; [|congruence].
  destruct (size n q + size n w =? 0)%Z; [discriminate|]. rewrite score5_norm. unfold exact in H at 1. congruence.
Qed.

Lemma score1_shares q w n nz : (0 < n)%Z -> shares n q w -> score1 exact nz q n w = Ok (score5 exact nz q w n).
Proof.
  intros Hn S. apply (common_pos exact) in S; auto. apply common_size in S; auto. unfold score1. rewrite simf_score5 by auto. cbn [bind].
  destruct nz; [|reflexivity]. destruct (Z.eqb_spec (size n q + size n w) 0); [lia|]. rewrite score5_norm. reflexivity.
Qed.

Lemma score5_no_share rnd q w n nz : (0 < n)%Z -> ~ shares n q w -> score5 rnd nz q w n = 0.
Proof.
  intros Hn S. unfold score5, in_common. replace (filter _ _) with (@nil str); [reflexivity|]. symmetry.
  destruct (filter _ _) as [|g l] eqn:E; [reflexivity|]. exfalso.
  assert (H : In g (g :: l)) by (left; auto). rewrite <- E in H. apply filter_In in H. destruct H as [H1 H2]. rewrite uniq_in in H1.
  destruct in_dec as [J|]; [|discriminate]. apply S. apply shares_iff. eauto.
Qed.

(** ** [ApproxWordListV5] *)

Section Agree.
Variable st : wordlist.
Hypothesis I : inv exact ident st.
Variable q : str.
Variable mean : list Qc -> Qc.
Notation W := (word_list st).
Notation NL := (n_list st).

Lemma min_scores_exact o nz : min_scores exact st q nz (filter_set o st q) =
  Ok (map (fun i => (i, vec exact st q (cnt exact st q nz) i)) (found exact st q o)).
Proof.
  rewrite (min_scores_events exact ident st I). unfold found. rewrite <- (loop5b exact st I q (cnt exact st q nz)).
  unfold events. rewrite !foldM_flat_map. apply foldM_ext. intros d [k n] Hkn. apply numbered_in in Hkn. cbn [fst snd].
  rewrite !foldM_flat_map. apply foldM_ext. intros d1 [g x] Hg. cbn [fst snd]. rewrite !foldM_map. apply foldM_ext. intros d2 [i l] Hi. cbn [fst snd].
  destruct (den_pos exact st I q n i g x l (nth_error_In _ _ Hkn) Hg Hi) as [Hl Hd].
  unfold ev_step. rewrite (cands_allowed st q o i Hl). destruct (allowed st (filter_set o st q) i); [|reflexivity].
  unfold count_fun, addf, cnt, den. destruct nz; [|reflexivity].
  destruct (Z.eqb_spec (size n q + size n (wd st i)) 0); [lia|]. reflexivity.
Qed.

Lemma matches_exact poss : Forall (fun n => ~ single_gram n q) NL -> matches exact st q poss =
  Ok (map (fun i => (i, vec exact st q (mat exact st q false) i)) (filter (inb poss) (firsts (hits exact st q)))).
Proof.
  intros NS. rewrite (matches_events exact st q poss NS). rewrite <- (loop5b exact st I q (mat exact st q false)).
  unfold events. rewrite !foldM_flat_map. apply foldM_ext. intros d [k n] Hkn. cbn [fst snd].
  rewrite !foldM_flat_map. apply foldM_ext. intros d1 [g x] Hg. cbn [fst snd]. rewrite !foldM_map. apply foldM_ext. intros d2 [i l] Hi. cbn [fst snd].
  assert (E : forall v, match_fun exact n x i l v = addf exact (mat exact st q false) n x i l v).
  { intros v. unfold match_fun, addf, mat, dp. destruct (dp_float_value exact lawful_exact x l) as (e & -> & _). cbn [bind].
    f_equal. unfold exact. ring. }
  unfold ev_step. destruct (inb poss i); [|reflexivity]. rewrite E. reflexivity.
Qed.

Lemma norm_exact nz i r : (i < length W)%nat ->
  norm_scores exact st q nz (i, vec exact st q (mat exact st q false) i) = Ok r -> r = (i, vec exact st q (mat exact st q nz) i).
Proof.
  intros Hi H. rewrite (norm_scores_spec exact ident st I q nz i) in H; auto.
  - apply bind_ok in H. destruct H as (v & Hv & H). injection H as <-. f_equal. rewrite (vec_score5 exact st I q nz i).
    unfold score_vec in Hv. apply mapM_inv in Hv.
    assert (P : forall n, In n NL -> (0 < n)%Z) by (intros; eapply NL_pos; eauto).
    clear - Hv P. induction Hv as [|n x nl v Hx _ IH]; [reflexivity|]. cbn [map]. f_equal.
    + apply (score1_score5 q (wd st i) n nz x); auto. apply P. left; auto.
    + apply IH. intros; apply P; right; auto.
  - unfold vec. apply map_length.
  - intros k n Hk. assert (Hn := nth_error_In _ _ Hk). rewrite (simf_score5 q (wd st i) n) by (eapply NL_pos; eauto). f_equal.
    rewrite (vec_score5 exact st I q false i). rewrite (nth_indep _ 0 (score5 exact false q (wd st i) 0%Z)) by (rewrite map_length; apply nth_error_Some; congruence).
    rewrite (map_nth (score5 exact false q (wd st i))), (nth_error_nth _ _ _ Hk). reflexivity.
Qed.

Lemma similarity_agree o k nz c : q <> [] -> (1 <= k)%Z ->
  lookup_similarity exact mean o st q k nz = Ok c -> lookup_similarity5b exact mean o st q k nz = Ok c.
Proof.
  intros Hq Hk H. unfold lookup_similarity in H. rewrite min_scores_exact in H. cbn [bind] in H.
  unfold lookup_similarity5b. destruct (Z.eqb_spec (zlen q) 0) as [E|_]; [apply zlen0 in E; contradiction|].
  set (ms := map (fun i => (i, vec exact st q (cnt exact st q nz) i)) (found exact st q o)) in *.
  assert (Hc : candidates5b o st q = [] -> ms = []).
  { intros E. unfold ms, found. rewrite E. clear. induction (firsts (hits exact st q)) as [|i l IH]; [reflexivity|]. cbn [filter]. exact IH. }
  destruct (candidates5b o st q) as [|c0 cs] eqn:Ec; [rewrite (Hc eq_refl) in H; exact H|]. rewrite <- Ec in *. clear Hc.
  rewrite (min_scores5b_eq exact st I q nz). cbn [bind]. change (map _ (filter _ _)) with ms.
  destruct ms as [|e0 ms'] eqn:Ems; [exact H|]. rewrite <- Ems in *.
  rewrite finalists5b_prune by (auto; congruence). destruct (prune mean k ms) as [poss|]; [|discriminate]. cbn [bind] in *.
  destruct (single_dec st q) as [X|X]; [rewrite (matches_single exact) in H by auto; discriminate|].
  rewrite (matches_exact poss X) in H. cbn [bind] in H.
  assert (Hm : c = map (fun i => (i, mean (vec exact st q (mat exact st q nz) i))) (filter (inb poss) (firsts (hits exact st q)))).
  { apply bind_ok in H. destruct H as (m & Hm & H). injection H as <-. rewrite mapM_map in Hm. apply mapM_inv in Hm.
    assert (P : forall i, In i (filter (inb poss) (firsts (hits exact st q))) -> (i < length W)%nat).
    { intros i Hi. apply filter_In in Hi. destruct Hi as [Hi _]. rewrite firsts_in in Hi. eapply hits_lt; eauto. }
    revert P Hm. generalize (filter (inb poss) (firsts (hits exact st q))). intros l P Hm.
    induction Hm as [|i r l m Hr _ IH]; [reflexivity|]. cbn [map].
    rewrite (norm_exact nz i r (P i (or_introl eq_refl)) Hr). cbn [fst snd]. f_equal. apply IH. intros; apply P; right; auto. }
  destruct poss as [|p0 ps] eqn:Ep.
  - rewrite Hm. f_equal. clear. induction (firsts (hits exact st q)) as [|i l IH]; [reflexivity|]. cbn [filter]. exact IH.
  - rewrite <- Ep in *. rewrite (matches5b_eq exact lawful_exact st I q nz poss). cbn [bind]. rewrite Hm, map_map. reflexivity.
Qed.

End Agree.
