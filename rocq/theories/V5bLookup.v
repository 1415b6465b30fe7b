(** [ApproxWordListV5b.lookup] computed: the first [top_k] of all candidates,
    ranked. *)
From Coq Require Import ZArith NArith QArith Qcanon List Bool Permutation Lia Sorted.
From Verif Require Import Num Py ListAux PyDict Float64 EmdSpec EmdModel EmdProofs EmdFloatProofs
  NmdSpec NmdModel NmdProofs NmdFloatProofs IndexSpec IndexModel IndexProofs IndexLoops IndexLookupProofs IndexResult IndexTop IndexScore.
From Verif Require Import V5bModel V5bProofs.
Import ListNotations.
Open Scope Qc_scope.

Section Lookup.
Variable rnd : Qc -> Qc.
Hypothesis L : lawful rnd.
Variable st : wordlist.
Hypothesis I : inv rnd ident st.
Variable q : str.

Notation W := (word_list st).
Notation NL := (n_list st).

Definition dp (x l : list Qc) : Qc := match emd_1d_dp rnd x l with Ok e => e | Err _ => 0 end.
Definition den (n : Z) (i : nat) : Qc := qz (size n q + size n (wd st i)).

(** What one shared n-gram adds, in the counting and in the scoring loop. *)
Definition cnt (nz : bool) (n : Z) (x : list Qc) (i : nat) (l : list Qc) : Qc :=
  let m := qz (Z.min (zlen x) (zlen l)) in if nz then rnd (m / den n i) else rnd m.
Definition mat (nz : bool) (n : Z) (x : list Qc) (i : nat) (l : list Qc) : Qc :=
  let c := rnd (rnd (qz (zlen x + zlen l)) - dp x l) in if nz then rnd (c / den n i) else c.

Notation contribution := (Z -> list Qc -> nat -> list Qc -> Qc).

Definition addf (c : contribution) (n : Z) (x : list Qc) (i : nat) (l : list Qc) (v : Qc) : result Qc := Ok (rnd (v + c n x i l)).

Definition parts (c : contribution) (n : Z) (i : nat) : list Qc :=
  flat_map (fun gx => match locs rnd (wd st i) (fst gx) with [] => [] | l => [c n (snd gx) i l] end) (items rnd q n).
Definition total (c : contribution) (n : Z) (i : nat) : Qc := fsum rnd (parts c n i).
Definition vec (c : contribution) (i : nat) : list Qc := map (fun n => total c n i) NL.

(** The words in the order in which the loops meet them. *)
Definition hits : list nat :=
  flat_map (fun n => flat_map (fun gx => map fst (dgetl (fst gx) (ngram_positions st))) (items rnd q n)) NL.

Lemma numbered_snd {A} (l : list A) : map snd (numbered l) = l.
Proof. rewrite <- (enumerate_snd l) at 2. rewrite enumerate_numbered, map_map. reflexivity. Qed.

Lemma map_flat_map {A B C} (f : B -> C) (g : A -> list B) l : map f (flat_map g l) = flat_map (fun a => map f (g a)) l.
Proof. induction l; simpl; auto. rewrite map_app, IHl. reflexivity. Qed.

Lemma flat_map_map {A B C} (f : B -> list C) (g : A -> B) l : flat_map f (map g l) = flat_map (fun a => f (g a)) l.
Proof. induction l; simpl; auto. rewrite IHl. reflexivity. Qed.

Lemma idx_events G : map idx (events st (items rnd q) G) = hits.
Proof.
  unfold events, hits. rewrite map_flat_map. rewrite <- (numbered_snd NL) at 2. rewrite flat_map_map. apply flat_map_ext. intros [k n]. cbn [fst snd].
  rewrite map_flat_map. apply flat_map_ext. intros [g x]. cbn [fst snd]. rewrite map_map. reflexivity.
Qed.

Lemma addf_parts c n i its : forall s,
  foldM appl (flat_map (fun gx => match locs rnd (wd st i) (fst gx) with [] => [] | l => [addf c n (snd gx) i l] end) its) s =
  Ok (fold_left (fun a x => rnd (a + x)) (flat_map (fun gx => match locs rnd (wd st i) (fst gx) with [] => [] | l => [c n (snd gx) i l] end) its) s).
Proof.
  induction its as [|[g x] its IH]; intros s; [reflexivity|]. cbn [flat_map fst snd]. rewrite foldM_app, fold_left_app.
  destruct (locs rnd (wd st i) g) as [|y l]; cbn [foldM bind fold_left]; [apply IH|]. unfold appl at 1, addf at 1. cbn [bind]. apply IH.
Qed.

Lemma loop5b c al :
  foldM (ev_step (length NL) al) (events st (items rnd q) (addf c)) [] = Ok (map (fun i => (i, vec c i)) (filter al (firsts hits))).
Proof.
  set (evs := events st (items rnd q) (addf c)).
  assert (Hz : forall m g x, In m NL -> In (g, x) (items rnd q m) -> zlen g = m) by (intros; eapply items_zlen; eauto).
  assert (Sel : forall i k n, (i < length W)%nat -> nth_error NL k = Some n -> foldM appl (sel i k evs) 0 = Ok (total c n i)).
  { intros i k n Hi Hk. unfold evs. rewrite (sel_events rnd ident st I _ _ i k n (wd st i)); auto; [|apply wd_nth_error; auto].
    apply addf_parts. }
  destruct (loop_events (length NL) al evs) as (d & E & Wf & K & V).
  - intros i k G H. eapply events_k; eauto.
  - intros i k _. destruct (Nat.lt_ge_cases i (length W)) as [Hi|Hi].
    + destruct (nth_error NL k) as [n|] eqn:Ek; [eauto|].
      unfold evs. rewrite (sel_out rnd ident st I); [eexists; reflexivity|]. right. intros C. apply nth_error_Some in C. congruence.
    + unfold evs. rewrite (sel_out rnd ident st I); [eexists; reflexivity|]. left. lia.
  - rewrite E. f_equal. rewrite (dict_of_keys d Wf). pose proof (loop_keys _ _ _ _ E) as Ek. rewrite <- (idx_events (addf c)). fold evs. rewrite <- Ek.
    apply map_ext_in. intros i Hi. f_equal.
    assert (Hl : (i < length W)%nat). { apply K in Hi. destruct Hi as (_ & k & G & H). eapply events_i; eauto. }
    destruct (dget i d) as [l|] eqn:D; [|apply dget_None in D; contradiction].
    unfold dgetl. rewrite D. destruct (V i l D) as [Ln Vk]. apply (nth_ext _ _ 0 0).
    + unfold vec. rewrite map_length. auto.
    + intros k Hk. rewrite Ln in Hk. destruct (nth_error NL k) as [n|] eqn:Ek'; [|apply nth_error_None in Ek'; lia].
      specialize (Vk k Hk). rewrite (Sel i k n Hl Ek') in Vk. unfold vec.
      rewrite (nth_indep (map (fun n => total c n i) NL) 0 (total c 0%Z i)) by (rewrite map_length; auto). rewrite (map_nth (fun n => total c n i)), (nth_error_nth _ _ _ Ek'). congruence.
Qed.

(** *** The loops of the model *)

Lemma get_num i k n : (i < length W)%nat -> nth_error NL k = Some n ->
  (ng <- py_get (word_num_grams st) (Z.of_nat i) ;; py_get ng (Z.of_nat k)) = Ok (size n (wd st i)).
Proof.
  intros Hi Hk. assert (Hk' : (k < length NL)%nat) by (apply nth_error_Some; congruence).
  rewrite (py_get_nat _ i []) by (rewrite (inv_num _ _ _ I), map_length; auto). cbn [bind].
  rewrite (inv_num _ _ _ I), (nth_indep _ [] (map (fun n => size n []) NL)) by (rewrite map_length; auto).
  rewrite (map_nth (fun w => map (fun n => size n w) NL)), (py_get_nat _ k (size 0 (nth i W []))) by (rewrite map_length; auto).
  rewrite (map_nth (fun n => size n (nth i W []))), (nth_error_nth _ _ _ Hk). reflexivity.
Qed.

Lemma den_pos n i g x l : In n NL -> In (g, x) (items rnd q n) -> In (i, l) (dgetl g (ngram_positions st)) ->
  (i < length W)%nat /\ (0 < size n q + size n (wd st i))%Z.
Proof.
  intros Hn Hg Hi. pose proof (items_in rnd ident st I q n g x Hn Hg) as [Hz Hq].
  rewrite (inv_pos _ _ _ I) in Hi. match type of Hi with In _ (if ?b then _ else _) => destruct b; [|contradiction] end.
  apply in_flat_map in Hi. destruct Hi as ([j w] & Hj & He). apply numbered_in in Hj. unfold entry in He. cbn [fst snd] in He.
  destruct (locs rnd w g) as [|y l'] eqn:El; [contradiction|]. destruct He as [[= <- <-]|[]].
  assert (Hl : (j < length W)%nat) by (apply nth_error_Some; congruence). split; auto.
  rewrite (nth_error_wd _ _ _ Hj). pose proof (size_grams n q g Hq).
  assert (0 < size n w)%Z; [|lia]. apply (size_grams n w g).
  destruct (in_dec eqd g (get_n_grams w n)) as [|C]; auto. rewrite <- Hz in C. apply (locs_nil rnd) in C. congruence.
Qed.

Lemma den_pos_qc n i : (0 < size n q + size n (wd st i))%Z -> 0 < den n i.
Proof. intros H. unfold den. rewrite <- qz_0. apply (proj1 (qz_lt _ _)). auto. Qed.

Lemma count_step5b_event nz cands k n g x i l d : shaped (length NL) d -> nth_error NL k = Some n ->
  In (g, x) (items rnd q n) -> In (i, l) (dgetl g (ngram_positions st)) ->
  count_step5b rnd st (num_grams (zlen q) n) nz cands (Z.of_nat k) (zlen x) d (i, zlen l) =
  ev_step (length NL) (inb cands) d (i, k, addf (cnt nz) n x i l).
Proof.
  intros Sh Hk Hg Hi. assert (Hn := nth_error_In _ _ Hk). destruct (den_pos n i g x l Hn Hg Hi) as [Hl Hd].
  assert (Hk' : (k < length NL)%nat) by (apply nth_error_Some; congruence).
  unfold count_step5b, ev_step, inb. destruct (in_dec eqd i cands); [|reflexivity].
  pose proof (get_num i k n Hl Hk) as G. destruct (py_get (word_num_grams st) (Z.of_nat i)) as [ng|]; [|discriminate].
  cbn [bind] in *. rewrite G. cbn [bind]. cbv zeta. rewrite num_grams_size.
  destruct (Z.ltb_spec 0 (size n q + size n (wd st i))); [|lia].
  destruct (default_get _ i _ Sh) as [_ G2]. set (d1 := if dmem i d then d else dset i (repeat 0 (length NL)) d) in *.
  rewrite list_iadd_at by lia. unfold addf, cnt, den. destruct nz; reflexivity.
Qed.

Lemma items_nil n : num_grams (zlen q) n = 0%Z -> items rnd q n = [].
Proof.
  rewrite num_grams_size. intros H. unfold items. assert (E : get_n_grams q n = []).
  { pose proof (get_n_grams_length q n) as E. rewrite H in E. destruct (get_n_grams q n) as [|g l]; auto. exfalso.
    unfold size in H. destruct (Z.ltb_spec 1 n); unfold zlen in *; cbn [length] in *; lia. }
  rewrite E. reflexivity.
Qed.

Lemma min_scores5b_eq nz cands : min_scores5b rnd st q nz cands =
  Ok (map (fun i => (i, vec (cnt nz) i)) (filter (inb cands) (firsts hits))).
Proof.
  rewrite <- loop5b. unfold min_scores5b, events. rewrite enumerate_numbered, foldM_map, foldM_flat_map.
  apply (foldM_ext_inv (shaped (length NL))).
  - intros i l H. discriminate.
  - intros d [k n] Hkn Sh. apply numbered_in in Hkn. cbn [fst snd].
    destruct (Z.eqb_spec (num_grams (zlen q) n) 0) as [E|_]; [rewrite (items_nil n E); reflexivity|].
    rewrite <- (gocc_keys rnd (get_n_grams q n)) at 1. rewrite counter_group, foldM_map, foldM_flat_map. fold (items rnd q n).
    apply (foldM_ext_inv (shaped (length NL))); auto.
    + intros d1 [g x] Hgx Sh1. cbn [fst snd]. rewrite (inv_counts _ _ _ I), !foldM_map.
      apply (foldM_ext_inv (shaped (length NL))); auto.
      * intros d2 [i l] Hi Sh2. cbn [fst snd]. apply (count_step5b_event nz cands k n g x i l); auto.
      * intros d2 e d3 _ Sh2 E. eapply ev_step_shaped; eauto.
    + intros d1 gx d2 _ Sh1 E. eapply (foldM_inv (shaped (length NL))); [exact Sh1| |exact E].
      intros d3 e d4 _ Sh3 E3. eapply ev_step_shaped; eauto.
  - intros d kn d' _ Sh E. eapply (foldM_inv (shaped (length NL))); [exact Sh| |exact E].
    intros d3 e d4 _ Sh3 E3. eapply ev_step_shaped; eauto.
Qed.

Lemma match_step5b_event nz fin k n g x i l d : shaped (length NL) d -> nth_error NL k = Some n ->
  In (g, x) (items rnd q n) -> In (i, l) (dgetl g (ngram_positions st)) ->
  match_step5b rnd st (num_grams (zlen q) n) nz fin (Z.of_nat k) x d (i, l) =
  ev_step (length NL) (inb fin) d (i, k, addf (mat nz) n x i l).
Proof.
  intros Sh Hk Hg Hi. assert (Hn := nth_error_In _ _ Hk). destruct (den_pos n i g x l Hn Hg Hi) as [Hl Hd].
  assert (Hk' : (k < length NL)%nat) by (apply nth_error_Some; congruence).
  unfold match_step5b, ev_step, inb. destruct (in_dec eqd i fin); [|reflexivity].
  unfold addf, mat, dp, den. destruct (dp_float_value rnd L x l) as (e & He & _). rewrite He. cbn [bind]. cbv zeta.
  destruct (default_get _ i _ Sh) as [_ G2]. set (d1 := if dmem i d then d else dset i (repeat 0 (length NL)) d) in *.
  destruct nz; [|rewrite list_iadd_at by lia; reflexivity].
  pose proof (get_num i k n Hl Hk) as G. destruct (py_get (word_num_grams st) (Z.of_nat i)) as [ng|]; [|discriminate].
  cbn [bind] in *. rewrite G. cbn [bind]. rewrite num_grams_size.
  destruct (Z.ltb_spec 0 (size n q + size n (wd st i))); [|lia]. rewrite list_iadd_at by lia. reflexivity.
Qed.

Lemma matches5b_eq nz fin : matches5b rnd st q nz fin =
  Ok (map (fun i => (i, vec (mat nz) i)) (filter (inb fin) (firsts hits))).
Proof.
  rewrite <- loop5b. unfold matches5b, events. rewrite enumerate_numbered, foldM_map, foldM_flat_map.
  apply (foldM_ext_inv (shaped (length NL))).
  - intros i l H. discriminate.
  - intros d [k n] Hkn Sh. apply numbered_in in Hkn. cbn [fst snd].
    destruct (Z.eqb_spec (num_grams (zlen q) n) 0) as [E|_]; [rewrite (items_nil n E); reflexivity|].
    rewrite locations5b_group, foldM_flat_map. fold (items rnd q n).
    apply (foldM_ext_inv (shaped (length NL))); auto.
    + intros d1 [g x] Hgx Sh1. cbn [fst snd]. rewrite !foldM_map.
      apply (foldM_ext_inv (shaped (length NL))); auto.
      * intros d2 [i l] Hi Sh2. cbn [fst snd]. apply (match_step5b_event nz fin k n g x i l); auto.
      * intros d2 e d3 _ Sh2 E. eapply ev_step_shaped; eauto.
    + intros d1 gx d2 _ Sh1 E. eapply (foldM_inv (shaped (length NL))); [exact Sh1| |exact E].
      intros d3 e d4 _ Sh3 E3. eapply ev_step_shaped; eauto.
  - intros d kn d' _ Sh E. eapply (foldM_inv (shaped (length NL))); [exact Sh| |exact E].
    intros d3 e d4 _ Sh3 E3. eapply ev_step_shaped; eauto.
Qed.

(** *** Candidates *)

Lemma hits_lt i : In i hits -> (i < length W)%nat.
Proof.
  intros H. rewrite <- (idx_events (addf (cnt false))) in H. apply in_map_iff in H. destruct H as ([[j k] F] & <- & H).
  eapply events_i; eauto.
Qed.

Lemma cands_allowed o i : (i < length W)%nat -> inb (candidates5b o st q) i = allowed st (filter_set o st q) i.
Proof.
  intros Hi. unfold inb, allowed, candidates5b, filter_set. destruct (Z.eqb_spec (filter_n st) 0); cbn [orb]; [|reflexivity].
  destruct in_dec as [_|N]; auto. exfalso. apply N. apply in_seq. lia.
Qed.

(** All candidates, in the order in which they are met. *)
Definition found (o : order) : list nat := filter (inb (candidates5b o st q)) (firsts hits).

Lemma found_in o i : fair o -> In i (found o) <-> cand st q i.
Proof.
  intros F. unfold found. rewrite filter_In, firsts_in.
  rewrite <- (cand_iff rnd ident st I q o i F).
  assert (X : In i hits <-> exists w n g (x : list Qc), nth_error W i = Some w /\ In n NL /\ In (g, x) (items rnd q n) /\ In g (get_n_grams w n)).
  { rewrite <- (in_events rnd ident st I (items rnd q) (addf (cnt false)) i) by (intros; eapply items_zlen; eauto).
    rewrite <- (idx_events (addf (cnt false))), in_map_iff. split.
    - intros ([[j k] F'] & <- & H). unfold idx. cbn [fst]. eauto.
    - intros (k & F' & H). exists (i, k, F'). auto. }
  rewrite <- X. split.
  - intros [H1 H2]. rewrite cands_allowed in H2 by (apply hits_lt; auto). auto.
  - intros [H1 H2]. rewrite cands_allowed by (apply hits_lt; auto). auto.
Qed.

Lemma found_nodup o : NoDup (found o).
Proof. apply NoDup_filter, firsts_nodup. Qed.

(** The order does not depend on the order of iteration over sets. *)
Lemma found_order o o' : fair o -> fair o' -> found o = found o'.
Proof.
  intros F F'. unfold found. apply filter_ext_in. intros i Hi.
  assert (X : In i (found o) <-> In i (found o')) by (rewrite !found_in by auto; reflexivity).
  unfold found in X. rewrite !filter_In in X.
  destruct (inb (candidates5b o st q) i), (inb (candidates5b o' st q) i); auto; [symmetry|]; apply X; auto.
Qed.

(** *** Bounds *)

Hypothesis D : doubling rnd.
Hypothesis M : measured rnd st q.

Lemma count_occ_length {A} `{EqDec A} (l : list A) x : (count_occ eqd l x <= length l)%nat.
Proof. induction l as [|y l IH]; cbn [count_occ length]; [lia|]. destruct (eqd y x); lia. Qed.

Lemma contribution_bounds nz n i g x l : In n NL -> (i < length W)%nat -> In (g, x) (items rnd q n) -> locs rnd (wd st i) g = l -> l <> [] ->
  0 <= cnt nz n x i l /\ cnt nz n x i l <= mat nz n x i l /\ mat nz n x i l <= cnt nz n x i l * qz 2.
Proof.
  intros Hn Hi Hg El Nl. destruct (items_in rnd ident st I q n g x Hn Hg) as [Hz Hq].
  pose proof (M n (wd st i) Hn ltac:(apply nth_In; auto)) as F.
  assert (Gx : dget g (group (gocc rnd (get_n_grams q n))) = Some x) by (apply In_dget; [apply group_wf|exact Hg]).
  assert (Ux : in_unit x) by (eapply gocc_unit; eauto).
  assert (Hn0 : (0 < n)%Z) by (eapply NL_pos; eauto).
  assert (Gl : dget g (group (gocc rnd (get_n_grams (wd st i) n))) = Some l).
  { rewrite locs_dget by auto. rewrite Hz, Z.eqb_refl, El. destruct l; [congruence|reflexivity]. }
  assert (Ul : in_unit l) by (eapply gocc_unit; eauto).
  assert (Lx : (length x <= length (get_n_grams q n))%nat).
  { apply group_item in Hg. destruct Hg as [-> _]. rewrite select_length, gocc_keys. apply count_occ_length. }
  assert (Ll : (length l <= length (get_n_grams (wd st i) n))%nat).
  { rewrite <- El, locs_length, Hz. apply count_occ_length. }
  assert (Hden : 0 < den n i).
  { apply den_pos_qc. pose proof (size_grams n q g Hq). assert (0 < size n (wd st i))%Z; [|lia]. apply (size_grams n (wd st i) g).
    destruct (in_dec eqd g (get_n_grams (wd st i) n)) as [|C]; auto. rewrite <- Hz in C. apply (locs_nil rnd) in C. congruence. }
  unfold weight in F. destruct (dp_float_value rnd L x l) as (e & He & _).
  destruct (fu_emd _ _ F x l e) as (B1 & B2 & B3); auto; [lia|].
  assert (Ed : dp x l = e) by (unfold dp; rewrite He; reflexivity).
  set (m := Nat.min (length x) (length l)).
  assert (Em : qz (Z.min (zlen x) (zlen l)) = qn m) by (unfold qn, zlen, m; f_equal; lia).
  assert (Es : qz (zlen x + zlen l) = qn (length x + length l)) by (unfold qn, zlen; f_equal; lia).
  set (c := rnd (rnd (qz (zlen x + zlen l)) - dp x l)).
  assert (C1 : qn m <= c /\ c <= qn m * qz 2).
  { unfold c. rewrite Ed, Es. rewrite (fu_int _ _ F) by lia. split.
    - rewrite <- (fu_int _ _ F m) by (unfold m; lia). apply (rnd_mono _ L).
      assert (qn (length x + length l) = qn m + qn (Nat.max (length x) (length l))) by (rewrite <- qn_add; f_equal; unfold m; lia).
      clear - B3 H. qclra.
    - rewrite double_qn. rewrite <- (fu_int _ _ F (2 * m)) by (unfold m; lia). apply (rnd_mono _ L).
      destruct (Nat.le_ge_cases (length x) (length l)) as [C|C].
      + assert (Q : qn (length x + length l) = qn (2 * m) + qn (length l - length x)) by (rewrite <- qn_add; f_equal; unfold m; lia).
        clear - B2 Q. qclra.
      + assert (Q : qn (length x + length l) = qn (2 * m) + qn (length x - length l)) by (rewrite <- qn_add; f_equal; unfold m; lia).
        clear - B1 Q. qclra. }
  destruct C1 as [C1 C2]. unfold cnt, mat. cbv zeta. fold c. rewrite Em. destruct nz.
  - assert (Hd : 0 <= den n i) by (apply Qclt_le_weak; auto). split; [|split].
    + apply (rnd_nonneg rnd L). apply qdiv_nonneg; auto. apply qn_nonneg.
    + apply (rnd_mono _ L). apply qdiv_mono; auto.
    + rewrite <- D. apply (rnd_mono _ L). replace (qn m / den n i * qz 2) with (qn m * qz 2 / den n i) by (unfold Qcdiv; ring).
      apply qdiv_mono; auto.
  - rewrite (fu_int _ _ F m) by (unfold m; lia). split; [apply qn_nonneg|]. auto.
Qed.

Lemma fsum_doubled l : forall s, fold_left (fun a x => rnd (a + x)) (map (fun x => x * qz 2) l) (s * qz 2) =
  fold_left (fun a x => rnd (a + x)) l s * qz 2.
Proof.
  induction l as [|x l IH]; intros s; [reflexivity|]. cbn [map fold_left].
  replace (s * qz 2 + x * qz 2) with ((s + x) * qz 2) by ring. rewrite D. apply IH.
Qed.

Lemma fsum_nonneg l : nonneg l -> forall s, 0 <= s -> 0 <= fold_left (fun a x => rnd (a + x)) l s.
Proof.
  induction 1 as [|x l Hx _ IH]; intros s Hs; [auto|]. cbn [fold_left]. apply IH. apply (rnd_nonneg rnd L). clear - Hx Hs. qclra.
Qed.

Lemma total_bounds nz n i : In n NL -> (i < length W)%nat ->
  0 <= total (cnt nz) n i /\ total (cnt nz) n i <= total (mat nz) n i /\ total (mat nz) n i <= total (cnt nz) n i * qz 2.
Proof.
  intros Hn Hi. unfold total, parts, fsum.
  assert (H : forall g x, In (g, x) (items rnd q n) -> forall l, locs rnd (wd st i) g = l -> l <> [] ->
    0 <= cnt nz n x i l /\ cnt nz n x i l <= mat nz n x i l /\ mat nz n x i l <= cnt nz n x i l * qz 2).
  { intros. eapply contribution_bounds; eauto. }
  revert H. generalize (items rnd q n). intros its H.
  set (f := fun (c : contribution) (gx : str * list Qc) => match locs rnd (wd st i) (fst gx) with [] => [] | l => [c n (snd gx) i l] end).
  assert (A : nonneg (flat_map (f (cnt nz)) its) /\ all_le (flat_map (f (cnt nz)) its) (flat_map (f (mat nz)) its) /\
    all_le (flat_map (f (mat nz)) its) (map (fun x => x * qz 2) (flat_map (f (cnt nz)) its))).
  { induction its as [|[g x] its IH]; [cbn; auto|]. destruct IH as (A1 & A2 & A3); [intros; eapply H; eauto; right; auto|].
    cbn [flat_map]. specialize (H g x (or_introl eq_refl)).
    assert (E : forall c, f c (g, x) = match locs rnd (wd st i) g with [] => [] | l => [c n x i l] end) by reflexivity.
    rewrite !E. clear E. destruct (locs rnd (wd st i) g) as [|y l]; [auto|]. destruct (H (y :: l) eq_refl ltac:(discriminate)) as (B1 & B2 & B3).
    cbn [app map]. auto. }
  destruct A as (A1 & A2 & A3). split; [|split].
  - apply fsum_nonneg; auto. apply Qcle_refl.
  - apply fsum_mono; auto. apply Qcle_refl.
  - rewrite <- fsum_doubled. replace (0 * qz 2) with (0 : Qc) by ring. apply fsum_mono; auto. apply Qcle_refl.
Qed.

Lemma vec_bounds nz i : (i < length W)%nat ->
  nonneg (vec (cnt nz) i) /\ all_le (vec (cnt nz) i) (vec (mat nz) i) /\ all_le (vec (mat nz) i) (map (fun x => x * qz 2) (vec (cnt nz) i)).
Proof.
  intros Hi. unfold vec. assert (H : forall n, In n NL -> In n NL) by auto. revert H. generalize NL at 1 3 4 5 6 7. intros nl H.
  induction nl as [|n nl IH]; [cbn; auto|]. destruct IH as (A1 & A2 & A3); [intros; apply H; right; auto|].
  destruct (total_bounds nz n i (H n (or_introl eq_refl)) Hi) as (B1 & B2 & B3). cbn [map]. auto.
Qed.

(** *** The result *)

Variable mean : list Qc -> Qc.
Hypothesis A : averaging mean.

Definition sc5 (nz : bool) (i : nat) : Qc := mean (vec (mat nz) i).

Lemma finalists5b_prune k ms : (1 <= k)%Z -> ms <> [] -> finalists5b mean k ms = prune mean k ms.
Proof.
  intros Hk Hm. unfold finalists5b, prune.
  set (S := isort (fun a b => qleb b a) (map mean (dvals ms))).
  assert (Ls : length S = length ms) by (unfold S; rewrite (Permutation_length (isort_perm _ _)), map_length; unfold dvals; apply map_length).
  assert (Lm : (0 < length ms)%nat) by (destruct ms; [congruence|cbn [length]; lia]).
  assert (Ez : zlen (map mean (dvals ms)) = zlen S) by (unfold zlen; rewrite Ls, map_length; unfold dvals; rewrite map_length; reflexivity).
  rewrite Ez. unfold zlen. rewrite Ls. destruct (Z.eqb_spec (Z.min k (Z.of_nat (length ms))) 0); [lia|].
  set (m := Nat.min (Z.to_nat k) (length ms)). assert (Em : Z.min k (Z.of_nat (length ms)) = Z.of_nat m) by (unfold m; lia).
  rewrite Em, Nat2Z.id.
  assert (Hm1 : (0 < m <= length S)%nat) by (unfold m; lia).
  assert (E1 : py_get (firstn m S) (-1) = Ok (nth (m - 1) S 0)).
  { unfold py_get, py_index, zlen. rewrite firstn_length, Nat.min_l by lia. cbv zeta.
    destruct (Z.ltb_spec (-1) 0); [|lia]. destruct (Z.leb_spec 0 (-1 + Z.of_nat m)); [|lia]. destruct (Z.ltb_spec (-1 + Z.of_nat m) (Z.of_nat m)); [|lia].
    cbn [andb]. replace (Z.to_nat (-1 + Z.of_nat m)) with (m - 1)%nat by lia.
    rewrite (nth_error_nth' _ 0) by (rewrite firstn_length; lia). rewrite <- (firstn_skipn m S) at 2.
    rewrite app_nth1 by (rewrite firstn_length; lia). reflexivity. }
  rewrite E1. replace (Z.of_nat m - 1)%Z with (Z.of_nat (m - 1)) by lia. rewrite (py_get_nat S _ 0) by lia. reflexivity.
Qed.

Lemma found_lt o i : In i (found o) -> (i < length W)%nat.
Proof. unfold found. rewrite filter_In, firsts_in. intros [H _]. apply hits_lt; auto. Qed.

Lemma inb_in l i : inb l i = true <-> In i l.
Proof. unfold inb. destruct (in_dec eqd i l); split; auto; try discriminate; contradiction. Qed.

Lemma similarity5b_eq o k nz : q <> [] -> (1 <= k)%Z ->
  exists p, lookup_similarity5b rnd mean o st q k nz = Ok (map (fun i => (i, sc5 nz i)) (filter p (found o))) /\
    firstn (Z.to_nat k) (best qleb (sc5 nz) (filter p (found o))) = firstn (Z.to_nat k) (best qleb (sc5 nz) (found o)).
Proof.
  intros Hq Hk. unfold lookup_similarity5b. destruct (Z.eqb_spec (zlen q) 0) as [E|_]; [apply zlen0 in E; contradiction|].
  assert (Hc : candidates5b o st q = [] -> found o = []).
  { intros E. unfold found. rewrite E. clear. induction (firsts hits) as [|i l IH]; [reflexivity|]. cbn [filter]. exact IH. }
  destruct (candidates5b o st q) as [|c0 cs] eqn:Ec.
  { exists (fun _ => true). rewrite (Hc eq_refl). split; reflexivity. }
  rewrite <- Ec in *. rewrite min_scores5b_eq. cbn [bind]. fold (found o).
  set (ms := map (fun i => (i, vec (cnt nz) i)) (found o)).
  destruct (list_eq_dec Nat.eq_dec (found o) []) as [E|N].
  { exists (fun _ => true). unfold ms. rewrite E. split; reflexivity. }
  assert (Nms : ms <> []) by (unfold ms; intros E; apply map_eq_nil in E; contradiction).
  assert (Kms : dkeys ms = found o) by (unfold ms, dkeys; rewrite map_map; apply map_id).
  assert (Wms : dwf ms) by (unfold dwf; rewrite Kms; apply found_nodup).
  assert (Ims : forall i l, In (i, l) ms -> In i (found o) /\ l = vec (cnt nz) i).
  { intros i l H. unfold ms in H. apply in_map_iff in H. destruct H as (j & [= <- <-] & H). auto. }
  assert (Lms : length ms = length (found o)) by (unfold ms; apply map_length).
  destruct (prune_spec mean k ms Hk Nms Wms) as (thr & poss & top & Ep & P1 & P2 & P3 & P4 & _).
  assert (Ef : finalists5b mean k ms = Ok poss) by (rewrite finalists5b_prune; auto).
  assert (Fp : filter (inb poss) (firsts hits) = filter (inb poss) (found o)).
  { unfold found. assert (X : forall i, inb poss i = true -> inb (candidates5b o st q) i = true).
    { intros i H. apply inb_in, P1 in H. destruct H as (l & H & _). apply Ims in H. destruct H as [H _]. unfold found in H. apply filter_In in H. tauto. }
    clear - X. induction (firsts hits) as [|i l IH]; [reflexivity|]. cbn [filter].
    destruct (inb (candidates5b o st q) i) eqn:E1; cbn [filter].
    - rewrite IH. reflexivity.
    - destruct (inb poss i) eqn:E2; [rewrite (X i E2) in E1; discriminate|]. exact IH. }
  exists (inb poss). split.
  - destruct ms as [|e0 ms'] eqn:Ems; [congruence|]. rewrite <- Ems in *. rewrite Ef. cbn [bind].
    destruct poss as [|p0 ps] eqn:Eps.
    + replace (filter (inb []) (found o)) with (@nil nat); [reflexivity|]. clear. induction (found o) as [|i l IH]; [reflexivity|]. cbn [filter]. exact IH.
    + rewrite <- Eps in *. rewrite matches5b_eq. cbn [bind]. rewrite Fp, map_map. reflexivity.
  - apply (cut_best (sc5 nz) (inb poss) thr top); auto.
    + intros i Hi. apply P4 in Hi. destruct Hi as (l & Hl & _). apply Ims in Hl. tauto.
    + rewrite <- Lms. exact P3.
    + intros i Hi. apply P4 in Hi. destruct Hi as (l & Hl & Ht). apply Ims in Hl. destruct Hl as [Hl ->].
      destruct (vec_bounds nz i (found_lt o i Hl)) as (B1 & B2 & _). eapply Qcle_trans; [exact Ht|]. apply (mean_mono _ A); auto.
    + intros i Hi Hp. destruct (vec_bounds nz i (found_lt o i Hi)) as (B1 & B2 & B3).
      assert (X : mean (map (fun x => x * qz 2) (vec (cnt nz) i)) < thr).
      { apply Qcnot_le_lt. intros C. assert (Hin : In i poss) by (apply P1; exists (vec (cnt nz) i); split; auto; unfold ms; apply in_map_iff; eauto).
        apply inb_in in Hin. congruence. }
      eapply Qcle_lt_trans; [|exact X]. apply (mean_mono _ A); auto.
      clear - B1 B2. induction B2; inversion B1; subst; constructor; auto. eapply Qcle_trans; eauto.
Qed.

(** All candidates with their scores, best first. *)
Definition ranking (o : order) (nz : bool) : list (str * Qc) :=
  map (fun i => (wd st i, sc5 nz i)) (best qleb (sc5 nz) (found o)).

Lemma similarity_ranked o k nz : q <> [] -> (1 <= k)%Z ->
  (c <- lookup_similarity5b rnd mean o st q k nz ;;
   mapM (fun e => other <- py_get (word_list st) (Z.of_nat (fst e)) ;; Ok (other, snd e)) (most_common qleb k c)) =
  Ok (firstn (Z.to_nat k) (ranking o nz)).
Proof.
  intros Hq Hk. destruct (similarity5b_eq o k nz Hq Hk) as (p & -> & E). cbn [bind].
  rewrite (most_common_map qleb (sc5 nz)), E, mapM_map. unfold ranking. rewrite <- map_firstn. apply mapM_Ok_in.
  intros i Hi. cbn [fst snd]. apply best_firstn_incl, found_lt in Hi. rewrite (py_get_nat W i (@nil N : str)) by auto. reflexivity.
Qed.

End Lookup.
