(** Proofs about V3Model: an [ApproxWordListV3] keeps the same index as the
    later word lists, and what its [lookup] computes from it. *)
From Coq Require Import ZArith NArith QArith Qcanon List Bool Permutation Lia Sorted.
From Verif Require Import Num Py ListAux PyDict Float64 EmdSpec EmdModel EmdProofs EmdFloatProofs
  NmdSpec NmdModel NmdProofs NmdFloatProofs IndexSpec IndexModel IndexProofs IndexLoops IndexLookupProofs IndexResult IndexTop
  IndexScore IndexFacts V3Model.
Import ListNotations.
Open Scope Qc_scope.

(** ** Specification of the score *)

(** The distinct elements of a list, in order of first occurrence. *)
Definition firsts (l : list str) : list str :=
  fold_left (fun acc g => if in_dec eqd g acc then acc else acc ++ [g]) l [].

(** The places at which [g] occurs in the list [l], scaled so that the last
    element of the list is at 1. *)
Definition spots (rnd : Qc -> Qc) (l : list str) (g : str) : list Qc :=
  map (fun i => rnd (qn i / qz (Z.max 1 (zlen l - 1))))
    (filter (fun i => if eqd (nth i l []) g then true else false) (seq 0 (length l))).

(** The pieces a query and an indexed word are cut into: for the query the
    markers are pieces of size 1 too. *)
Definition query_pieces (n : Z) (q : str) : list str := grams (Z.to_nat n) q.
Definition word_pieces (n : Z) (w : str) : list str := if (1 <? n)%Z then grams (Z.to_nat n) w else map (fun c => [c]) w.

(** For each shared piece, the larger number of occurrences minus the cost of
    moving the places of one word onto those of the other. *)
Definition piece_score (rnd : Qc -> Qc) (qs ws : list str) : result Qc :=
  foldM (fun s g => if in_dec eqd g ws
                    then e <- emd_1d_dp rnd (spots rnd qs g) (spots rnd ws g) ;;
                         Ok (rnd (s + rnd (qz (Z.max (zlen (spots rnd qs g)) (zlen (spots rnd ws g))) - e)))
                    else Ok s) (firsts qs) 0.

(** The score of size [n], and the mean over all sizes. *)
Definition part3 (rnd : Qc -> Qc) (q w : str) (n : Z) : result Qc :=
  s <- piece_score rnd (query_pieces n q) (word_pieces n w) ;; Ok (rnd (s / qz (size n q))).
Definition score3 (rnd : Qc -> Qc) (mean : list Qc -> Qc) (nl : list Z) (q w : str) : result Qc :=
  v <- mapM (part3 rnd q w) nl ;; Ok (mean v).

(** ** Pieces *)

Lemma flagged_pieces w n : (0 < n)%Z -> flagged_grams w n = query_pieces n w.
Proof.
  intros H. unfold flagged_grams, query_pieces, grams, py_range. rewrite map_map, Z.sub_0_r.
  assert (E : Z.to_nat (num_grams (zlen w) n) = gram_count (Z.to_nat n) w).
  { unfold num_grams, gram_count, zlen. destruct (Z.ltb_spec 1 n); lia. }
  rewrite E. apply map_ext. intros i. unfold slice_z, py_slice, gram_at, padded.
  destruct (Z.ltb_spec (0 + Z.of_nat i + n) 0); [lia|].
  replace (Z.to_nat (0 + Z.of_nat i)) with i by lia.
  replace (Z.to_nat (0 + Z.of_nat i + n) - i)%nat with (Z.to_nat n) by lia. reflexivity.
Qed.

Lemma word_pieces_grams w n : word_pieces n w = get_n_grams w n.
Proof.
  unfold word_pieces. destruct (Z.ltb_spec 1 n).
  - rewrite <- get_n_grams_big by lia. f_equal. lia.
  - rewrite get_n_grams_small by lia. reflexivity.
Qed.

Lemma word_grams3_eq w n : word_grams3 w n = get_n_grams w n.
Proof.
  rewrite <- word_pieces_grams. unfold word_grams3, word_pieces. destruct (Z.ltb_spec 1 n); [|reflexivity].
  apply flagged_pieces. lia.
Qed.

Lemma query_pieces_length n q : (0 < n)%Z -> length (query_pieces n q) = Z.to_nat (size n q).
Proof.
  intros H. unfold query_pieces. rewrite grams_length. unfold gram_count, size, zlen. destruct (Z.ltb_spec 1 n); lia.
Qed.

Lemma query_pieces_zlen n q g : (0 < n)%Z -> In g (query_pieces n q) -> zlen g = n.
Proof.
  intros H Hg. unfold query_pieces, grams in Hg. apply in_map_iff in Hg. destruct Hg as (i & <- & Hi).
  apply in_seq in Hi. unfold gram_at, gram_count in *. unfold zlen. rewrite firstn_length, skipn_length, padded_length. lia.
Qed.

Lemma In_nth_error_skip {A} i (l : list A) c : firstn 1 (skipn i l) = [c] -> In c l.
Proof.
  revert l. induction i as [|i IH]; intros [|a l] H; simpl in *; try discriminate.
  - injection H as ->. auto.
  - right. apply IH. exact H.
Qed.

(** A piece of the query is an n-gram of a clean word exactly if the two
    words share it. *)
Lemma pieces_share n q w g : (0 < n)%Z -> clean w ->
  In g (query_pieces n q) /\ In g (word_pieces n w) <-> has_gram n q g /\ has_gram n w g.
Proof.
  intros Hn [C2 C3]. rewrite word_pieces_grams, has_gram_iff. unfold query_pieces. destruct (Z.ltb_spec 1 n) as [B|B].
  - rewrite <- (has_gram_iff n q), <- (word_pieces_grams q). unfold word_pieces. destruct (Z.ltb_spec 1 n); [reflexivity|lia].
  - assert (n = 1%Z) by lia. subst n. change (Z.to_nat 1) with 1%nat. unfold has_gram. cbn [Z.ltb Z.compare Pos.compare Pos.compare_cont].
    split; intros [H1 (c & -> & Hc)]; split; try (exists c; auto; fail).
    + exists c. split; auto. unfold grams in H1. apply in_map_iff in H1. destruct H1 as (i & E & Hi).
      assert (Ip : In c (padded q)).
      { apply (In_nth_error_skip i). unfold gram_at in E. exact E. }
      unfold padded in Ip. apply in_app_iff in Ip. destruct Ip as [[<-|[]]|Ip]; [contradiction|].
      apply in_app_iff in Ip. destruct Ip as [Ip|[<-|[]]]; [auto|contradiction].
    + destruct H1 as (c' & [= <-] & Hq). unfold grams. apply in_map_iff.
      assert (Ip : In c (padded q)) by (unfold padded; apply in_app_iff; right; apply in_app_iff; auto).
      apply In_nth_error in Ip. destruct Ip as [i Hi]. exists i. split.
      * unfold gram_at. apply nth_error_split in Hi. destruct Hi as (a & b & -> & <-).
        rewrite skipn_app, skipn_all, Nat.sub_diag. reflexivity.
      * apply in_seq. unfold gram_count. assert (i < length (padded q))%nat by (apply nth_error_Some; congruence).
        rewrite padded_length in H. lia.
Qed.

Lemma firsts_group {V} (kvs : list (str * V)) : dkeys (group kvs) = firsts (map fst kvs).
Proof.
  induction kvs as [|kv kvs IH] using rev_ind; [reflexivity|].
  rewrite group_snoc, dkeys_dappend, map_app. unfold firsts. rewrite fold_left_app. cbn [map fold_left].
  fold (firsts (map fst kvs)). rewrite <- IH. destruct (in_dec eqd (fst kv) (dkeys (group kvs))) as [H|H].
  - apply dmem_true in H. rewrite H. reflexivity.
  - apply dmem_false in H. rewrite H. reflexivity.
Qed.

Lemma firsts_in l g : In g (firsts l) <-> In g l.
Proof.
  assert (E : l = map fst (gocc exact l)) by (rewrite gocc_keys; reflexivity).
  rewrite E at 1. rewrite <- firsts_group, group_keys, gocc_keys. reflexivity.
Qed.

Lemma firsts_nodup l : NoDup (firsts l).
Proof. rewrite <- (gocc_keys exact l), <- firsts_group. apply group_wf. Qed.

Lemma select_spots rnd l g : select g (gocc rnd l) = spots rnd l g.
Proof.
  unfold gocc, spots, select. generalize (Z.max 1 (zlen l - 1)). intros d. rewrite (enumerate_map l []).
  rewrite map_map, filter_map, map_map. cbn [fst snd]. apply map_ext. intros i. reflexivity.
Qed.

Lemma group_spots rnd l : group (gocc rnd l) = map (fun g => (g, spots rnd l g)) (firsts l).
Proof.
  assert (E : firsts l = dkeys (group (gocc rnd l))) by (rewrite firsts_group, gocc_keys; reflexivity).
  rewrite E. unfold dkeys. rewrite map_map. rewrite <- (map_id (group (gocc rnd l))) at 1.
  apply map_ext_in. intros [g x] H. cbn [fst]. f_equal. apply group_item in H. destruct H as [-> _]. apply select_spots.
Qed.

Lemma spots_length rnd l g : length (spots rnd l g) = count_occ eqd l g.
Proof. rewrite <- select_spots, select_length, gocc_keys. reflexivity. Qed.

(** ** The index *)

(** A later word list with the same words, sizes and index. *)
Definition counts_of (d : dict str (list (nat * list Qc))) : dict str (list (nat * Z)) :=
  map (fun e => (fst e, map (fun x => (fst x, zlen (snd x))) (snd e))) d.

Definition as6 (st : wordlist3) : wordlist :=
  {| n_list := v_n_list st; case_insensitive := v_insensitive st; filter_n := 0;
     word_indices := v_indices st; word_list := v_words st; word_lens := map zlen (v_words st);
     word_num_grams := map (fun w => map (num_grams (zlen w)) (v_n_list st)) (v_words st);
     ngram_filter := []; ngram_counts := counts_of (v_grams st); ngram_positions := v_grams st |}.

Lemma counts_dappend g i l d : counts_of (dappend g (i, l) d) = dappend g (i, zlen l) (counts_of d).
Proof.
  unfold counts_of, dappend.
  rewrite (dget_map (map (fun x : nat * list Qc => (fst x, zlen (snd x))))).
  destruct (dget g d) as [x|]; cbn [option_map]; rewrite (dset_map (map (fun x : nat * list Qc => (fst x, zlen (snd x)))));
    [rewrite map_app|]; reflexivity.
Qed.

Section Index.
Variable rnd : Qc -> Qc.
Variable casefold : str -> str.
Hypothesis R0 : rnd 0 = 0.

Lemma resolve_as6 st v auto :
  resolve_word_index casefold (as6 st) v auto =
  (as6 (fst (v3_resolve casefold st v auto)), snd (v3_resolve casefold st v auto)).
Proof.
  unfold resolve_word_index, v3_resolve. destruct v as [w| | | |]; try reflexivity.
  destruct (zlen w =? 0)%Z; [reflexivity|]. unfold fold_case, v_fold. change (case_insensitive (as6 st)) with (v_insensitive st). cbv zeta.
  set (u := if v_insensitive st then casefold w else w). change (word_indices (as6 st)) with (v_indices st).
  destruct (dget u (v_indices st)); [reflexivity|]. destruct auto; [|reflexivity].
  unfold as6.
  cbn [fst snd word_list word_lens n_list filter_n word_indices word_num_grams ngram_filter ngram_counts ngram_positions
       v_words v_indices v_grams v_n_list v_insensitive]. f_equal.
  - rewrite !map_app. reflexivity.
  - destruct (_ && _); [|reflexivity]. rewrite !nth_error_app2 by (rewrite ?map_length; lia).
    rewrite Nat.sub_diag. cbn [nth_error]. rewrite nth_error_app2 by (rewrite map_length; apply le_n).
    rewrite map_length, Nat.sub_diag. cbn [nth_error]. rewrite Z.eqb_refl. destruct (eqd u u); reflexivity.
Qed.

Lemma add_as6 o st v :
  add_word rnd casefold o (as6 st) v =
  (as6 (fst (v3_add_word rnd casefold o st v)), snd (v3_add_word rnd casefold o st v)).
Proof.
  unfold add_word, v3_add_word. destruct v as [w| | | |]; try reflexivity.
  destruct (zlen w =? 0)%Z; [reflexivity|]. unfold fold_case, v_fold. change (case_insensitive (as6 st)) with (v_insensitive st). cbv zeta.
  set (u := if v_insensitive st then casefold w else w). change (word_indices (as6 st)) with (v_indices st).
  destruct (dmem u (v_indices st)); [reflexivity|]. destruct (existsb _ u || existsb _ u); [reflexivity|].
  rewrite resolve_as6. destruct (v3_resolve casefold st (PStr u) true) as [st1 [[idx|]|e]]; cbn [fst snd]; try reflexivity.
  f_equal. unfold add_grams, add_filter, as6.
  cbn [fst snd word_list word_lens n_list filter_n word_indices word_num_grams ngram_filter ngram_counts ngram_positions
       v_words v_indices v_grams v_n_list v_insensitive case_insensitive Z.eqb].
  assert (E : forall nl, flat_map (fun n => locations3 rnd (word_grams3 u n)) nl = flat_map (fun n => add_locations rnd (get_n_grams u n)) nl).
  { intros nl. induction nl as [|n nl IH]; simpl; auto. rewrite IH, word_grams3_eq. reflexivity. }
  rewrite E. f_equal.
  generalize (flat_map (fun n => add_locations rnd (get_n_grams u n)) (o_int o (nodup eqd (v_n_list st1)))) (v_grams st1).
  intros its. induction its as [|[g l] its IH]; intros d; [reflexivity|]. cbn [fold_left fst snd].
  rewrite <- IH, counts_dappend. reflexivity.
Qed.

Lemma run_as6 calls : forall st, as6 (run3 rnd casefold st calls) = run rnd casefold (as6 st) calls.
Proof.
  induction calls as [|[o v] calls IH]; intros st; [reflexivity|]. unfold run, run3 in *. cbn [fold_left fst snd].
  rewrite add_as6. cbn [fst]. apply IH.
Qed.

Lemma init_as6 n c st : v3_init n c = Ok st -> Forall (fun z => (0 < z)%Z) (v_n_list st) -> NoDup (v_n_list st) ->
  inv rnd casefold (as6 st) /\ v_words st = [].
Proof.
  intros E P D. unfold v3_init in E. apply bind_ok in E. destruct E as (nl & _ & E).
  destruct (as_int c); [|discriminate]. injection E as <-. cbn in *. split; auto.
  split; cbn [as6 n_list word_list word_indices word_lens word_num_grams ngram_positions ngram_counts filter_n v_n_list v_words v_indices v_grams];
    auto.
  - split; constructor.
  - intros g. destruct in_dec; reflexivity.
  - intros C. congruence.
Qed.
End Index.

(** ** The lookup *)

Section Lookup.
Variable rnd : Qc -> Qc.
Variable casefold : str -> str.
Variable mean : list Qc -> Qc.
Hypothesis L : lawful rnd.
Variable st : wordlist3.
Hypothesis I : inv rnd casefold (as6 st).

Notation W := (v_words st).
Notation NL := (v_n_list st).
Variable q : str.

Definition items3 (n : Z) : list (str * list Qc) := group (gocc rnd (query_pieces n q)).

Lemma NL_pos3 n : In n NL -> (0 < n)%Z.
Proof. intros H. destruct (inv_n _ _ _ I) as [P _]. rewrite Forall_forall in P. apply P. exact H. Qed.

Lemma items3_zlen m g x : In m NL -> In (g, x) (items3 m) -> zlen g = m.
Proof.
  intros Hm H. apply group_item in H. destruct H as [_ H]. rewrite gocc_keys in H.
  eapply query_pieces_zlen; eauto. apply NL_pos3; auto.
Qed.

Definition match_fun3 (n : Z) (x : list Qc) (i : nat) (l : list Qc) (old : Qc) : result Qc :=
  e <- emd_1d_dp rnd x l ;; Ok (rnd (old + rnd (qz (Z.max (zlen x) (zlen l)) - e))).

Lemma match_step3_event k n x i l d : shaped (length NL) d -> (k < length NL)%nat ->
  match_step3 rnd st (Z.of_nat k) x d (i, l) = ev_step (length NL) (fun _ => true) d (i, k, match_fun3 n x i l).
Proof.
  intros Sh Hk. unfold match_step3, ev_step.
  destruct (default_get _ i _ Sh) as [_ G]. set (d1 := if dmem i d then d else dset i (repeat 0 (length NL)) d) in *.
  unfold match_fun3. destruct (emd_1d_dp rnd x l) as [e|e]; cbn [bind]; [|reflexivity].
  rewrite list_iadd_at by lia. reflexivity.
Qed.

(** Exactly one piece of size [n] in the query. *)
Definition lone (n : Z) : Prop := (zlen q + 2)%Z = n /\ (1 < n)%Z.

Lemma lone_iff n : (0 < n)%Z -> lone n <-> zlen (flagged_grams q n) = 1%Z.
Proof.
  intros H. rewrite flagged_pieces by auto. assert (E : zlen (query_pieces n q) = Z.max 0 (size n q)) by (unfold zlen; rewrite query_pieces_length by auto; lia). rewrite E.
  pose proof (zlen_nonneg q). unfold lone, size. destruct (Z.ltb_spec 1 n); lia.
Qed.

Lemma query_locations3_group l :
  query_locations3 rnd l = if (zlen l =? 1)%Z then Err ZeroDivisionError else Ok (group (gocc rnd l)).
Proof. apply query_locations_group. Qed.

Lemma inner_shaped k (n : Z) its : forall d, shaped (length NL) d -> (k < length NL)%nat ->
  exists d', foldM (fun m gl => let '(g, l) := gl in foldM (match_step3 rnd st (Z.of_nat k) l) (dgetl g (v_grams st)) m) its d = Ok d'
    /\ shaped (length NL) d'.
Proof.
  induction its as [|[g x] its IH]; intros d Sh Hk; [exists d; auto|]. cbn [foldM].
  assert (S1 : exists d1, foldM (match_step3 rnd st (Z.of_nat k) x) (dgetl g (v_grams st)) d = Ok d1 /\ shaped (length NL) d1).
  { generalize (dgetl g (v_grams st)). intros es. revert d Sh. induction es as [|[i l] es IHe]; intros d Sh; [exists d; auto|].
    cbn [foldM]. rewrite (match_step3_event k n x i l d Sh Hk).
    assert (S2 : exists d2, ev_step (length NL) (fun _ => true) d (i, k, match_fun3 n x i l) = Ok d2).
    { unfold ev_step, match_fun3. destruct (dp_float_value rnd L x l) as (e & -> & _). cbn [bind]. eauto. }
    destruct S2 as [d2 E2]. rewrite E2. cbn [bind]. apply IHe. eapply ev_step_shaped; eauto. }
  destruct S1 as (d1 & -> & Sh1). cbn [bind]. apply IH; auto.
Qed.

Lemma matches3_lone : Exists lone NL -> matches3 rnd st q = Err ZeroDivisionError.
Proof.
  intros Ex. unfold matches3. rewrite enumerate_numbered, foldM_map.
  apply (foldM_first_bad (shaped (length NL)) (fun kn => lone (snd kn))).
  - intros i l H. discriminate.
  - intros [k n] _. cbn [snd]. unfold lone. lia.
  - intros d [k n] Hkn Sh B. cbn [fst snd] in *. apply numbered_in in Hkn. apply nth_error_In in Hkn.
    rewrite query_locations3_group. apply lone_iff in B; [|apply NL_pos3; auto]. rewrite B. reflexivity.
  - intros d [k n] Hkn Sh B. cbn [fst snd] in *. apply numbered_in in Hkn. assert (Hn := nth_error_In _ _ Hkn).
    rewrite query_locations3_group.
    destruct (Z.eqb_spec (zlen (flagged_grams q n)) 1) as [E|_]; [exfalso; apply B, lone_iff; auto; apply NL_pos3; auto|].
    cbn [bind]. apply (inner_shaped k n); auto. apply nth_error_Some. congruence.
  - apply Exists_exists in Ex. destruct Ex as (n & Hn & B). apply In_nth_error in Hn. destruct Hn as [k Hk].
    exists (k, n). split; auto. apply numbered_in; auto.
Qed.

Lemma matches3_events : Forall (fun n => ~ lone n) NL ->
  matches3 rnd st q = foldM (ev_step (length NL) (fun _ => true)) (events (as6 st) items3 match_fun3) [].
Proof.
  intros NS. rewrite Forall_forall in NS.
  unfold matches3, events. change (n_list (as6 st)) with NL. change (ngram_positions (as6 st)) with (v_grams st).
  rewrite enumerate_numbered, foldM_map, foldM_flat_map.
  apply (foldM_ext_inv (shaped (length NL))).
  - intros i l H. discriminate.
  - intros d [k n] Hkn Sh. apply numbered_in in Hkn. cbn [fst snd].
    rewrite query_locations3_group. assert (Hn := nth_error_In _ _ Hkn). assert (Pn := NL_pos3 n Hn).
    destruct (Z.eqb_spec (zlen (flagged_grams q n)) 1) as [E|_]; [exfalso; apply (NS n Hn), lone_iff; auto|].
    cbn [bind]. rewrite foldM_flat_map. rewrite flagged_pieces by auto. fold (items3 n).
    apply (foldM_ext_inv (shaped (length NL))); auto.
    + intros d1 [g x] Hgx Sh1. cbn [fst snd]. rewrite !foldM_map.
      apply (foldM_ext_inv (shaped (length NL))); auto.
      * intros d2 [i l] Hi Sh2. cbn [fst snd]. apply match_step3_event; auto. apply nth_error_Some. congruence.
      * intros d2 e d3 _ Sh2 E. eapply ev_step_shaped; eauto.
    + intros d1 gx d2 _ Sh1 E. eapply (foldM_inv (shaped (length NL))); [exact Sh1| |exact E].
      intros d3 e d4 _ Sh3 E3. eapply ev_step_shaped; eauto.
  - intros d kn d' _ Sh E. eapply (foldM_inv (shaped (length NL))); [exact Sh| |exact E].
    intros d3 e d4 _ Sh3 E3. eapply ev_step_shaped; eauto.
Qed.

(** Word number [i]. *)
Notation wd3 i := (wd (as6 st) i).

Lemma locs_spots w g n : zlen g = n -> locs rnd w g = spots rnd (word_pieces n w) g.
Proof. intros <-. unfold locs. rewrite select_spots, word_pieces_grams. reflexivity. Qed.

Lemma match_list3 n i its s : (forall g, In g its -> zlen g = n) ->
  foldM appl (flat_map (fun gx => match locs rnd (wd3 i) (fst gx) with [] => [] | l => [match_fun3 n (snd gx) i l] end)
    (map (fun g => (g, spots rnd (query_pieces n q) g)) its)) s =
  foldM (fun s g => if in_dec eqd g (word_pieces n (wd3 i))
                    then e <- emd_1d_dp rnd (spots rnd (query_pieces n q) g) (spots rnd (word_pieces n (wd3 i)) g) ;;
                         Ok (rnd (s + rnd (qz (Z.max (zlen (spots rnd (query_pieces n q) g)) (zlen (spots rnd (word_pieces n (wd3 i)) g))) - e)))
                    else Ok s) its s.
Proof.
  revert s. induction its as [|g its IH]; intros s H; [reflexivity|].
  cbn [map flat_map fst snd]. rewrite foldM_app. cbn [foldM].
  assert (Hg : zlen g = n) by (apply H; left; auto).
  rewrite (locs_spots _ g n Hg).
  assert (E : spots rnd (word_pieces n (wd3 i)) g = [] <-> ~ In g (word_pieces n (wd3 i))).
  { rewrite <- (locs_spots _ g n Hg), locs_nil, Hg, word_pieces_grams. reflexivity. }
  match goal with |- context [in_dec ?d g (word_pieces n (wd3 i))] => destruct (in_dec d g (word_pieces n (wd3 i))) as [D|D] end.
  - destruct (spots rnd (word_pieces n (wd3 i)) g) as [|y l] eqn:El; [exfalso; apply (proj1 E); auto|].
    cbn [foldM]. unfold appl at 1, match_fun3 at 1. destruct (emd_1d_dp rnd _ (y :: l)); cbn [bind]; auto.
    apply IH. intros; apply H; right; auto.
  - rewrite (proj2 E D). cbn [foldM bind]. apply IH. intros; apply H; right; auto.
Qed.

Lemma piece_score_ok qs ws : exists s, piece_score rnd qs ws = Ok s.
Proof.
  unfold piece_score. generalize (firsts qs) (0 : Qc). intros its. induction its as [|g its IH]; intros s; [eexists; reflexivity|].
  cbn [foldM]. destruct in_dec; [|apply IH].
  destruct (dp_float_value rnd L (spots rnd qs g) (spots rnd ws g)) as (e & -> & _). cbn [bind]. apply IH.
Qed.

(** A word in the list shares an n-gram with the query. *)
Definition cand3 (i : nat) : Prop := (i < length W)%nat /\ candidate NL 0 q (wd3 i).

Lemma word3_clean i : (i < length W)%nat -> clean (wd3 i).
Proof. intros H. apply (words_clean rnd casefold (as6 st) I). apply wd_in. exact H. Qed.

Lemma matches3_spec : Forall (fun n => ~ lone n) NL ->
  exists m, matches3 rnd st q = Ok m /\ dwf m /\ (forall i, In i (dkeys m) <-> cand3 i) /\
    (forall i l, dget i m = Some l -> length l = length NL /\
       forall k n, nth_error NL k = Some n -> piece_score rnd (query_pieces n q) (word_pieces n (wd3 i)) = Ok (nth k l 0)).
Proof.
  intros NS. rewrite matches3_events by auto.
  set (evs := events (as6 st) items3 match_fun3).
  assert (Hz : forall m g x, In m (n_list (as6 st)) -> In (g, x) (items3 m) -> zlen g = m) by (intros; eapply items3_zlen; eauto).
  assert (Sel : forall i k n, (i < length W)%nat -> nth_error NL k = Some n ->
     foldM appl (sel i k evs) 0 = piece_score rnd (query_pieces n q) (word_pieces n (wd3 i))).
  { intros i k n Hi Hk. unfold evs. rewrite (sel_events rnd casefold (as6 st) I _ _ i k n (wd3 i)); auto; [|apply wd_nth_error; auto].
    assert (Hn := nth_error_In _ _ Hk). assert (Pn := NL_pos3 n Hn).
    unfold items3. rewrite group_spots. apply match_list3. intros g Hg. apply (proj1 (firsts_in _ _)) in Hg.
    eapply query_pieces_zlen; eauto. }
  destruct (loop_events (length NL) (fun _ => true) evs) as (m & E & Wf & K & V).
  - intros i k G H. eapply events_k in H. exact H.
  - intros i k _. destruct (Nat.lt_ge_cases i (length W)) as [Hi|Hi].
    + destruct (nth_error NL k) as [n|] eqn:Ek.
      * rewrite (Sel i k n Hi Ek). apply piece_score_ok.
      * unfold evs. rewrite (sel_out rnd casefold (as6 st) I); [eexists; reflexivity|]. right. intros C.
        apply nth_error_Some in C. apply C. exact Ek.
    + unfold evs. rewrite (sel_out rnd casefold (as6 st) I); [eexists; reflexivity|]. left. cbn [word_list as6]. lia.
  - exists m. split; auto. split; auto.
    assert (K' : forall i, In i (dkeys m) <-> cand3 i).
    { intros i. rewrite K. unfold evs. rewrite (in_events rnd casefold (as6 st) I items3 _ i Hz). unfold cand3, candidate. split.
      - intros (_ & w & n & g & x & Hw & Hn & Hgx & Hg). assert (Hi : (i < length W)%nat) by (apply nth_error_Some; cbn [word_list as6] in Hw; congruence).
        split; auto. rewrite (nth_error_wd _ _ _ Hw). split; auto. exists n. split; auto. exists g.
        assert (Cw : clean w) by (rewrite <- (nth_error_wd _ _ _ Hw); apply word3_clean; auto).
        apply (pieces_share n q w g (NL_pos3 n Hn) Cw). split; [|rewrite word_pieces_grams; auto].
        apply group_item in Hgx. destruct Hgx as [_ Hgx]. rewrite gocc_keys in Hgx. auto.
      - intros [Hi [(n & Hn & g & H1 & H2) _]]. split; auto.
        destruct (proj2 (pieces_share n q (wd3 i) g (NL_pos3 n Hn) (word3_clean i Hi)) (conj H1 H2)) as [G1 G2].
        exists (wd3 i), n, g, (select g (gocc rnd (query_pieces n q))). split; [apply wd_nth_error; auto|]. split; auto. split.
        + apply dget_In, group_dget. rewrite gocc_keys. auto.
        + rewrite word_pieces_grams in G2. auto. }
    split; auto. intros i l H. destruct (V i l H) as [Ln Vk]. split; auto.
    intros k n Hk. rewrite <- (Sel i k n); auto.
    + apply Vk. apply nth_error_Some. congruence.
    + apply dget_Some_key, K' in H. apply H.
Qed.
End Lookup.

Section Result.
Variable rnd : Qc -> Qc.
Variable casefold : str -> str.
Variable mean : list Qc -> Qc.
Hypothesis L : lawful rnd.
Variable st : wordlist3.
Hypothesis I : inv rnd casefold (as6 st).
Variable q : str.

Notation W := (v_words st).
Notation NL := (v_n_list st).
Notation wd3 i := (wd (as6 st) i).

Definition sc3 (i : nat) : Qc := match score3 rnd mean NL q (wd3 i) with Ok x => x | Err _ => 0 end.

Lemma part3_ok n w : exists x, part3 rnd q w n = Ok x.
Proof. unfold part3. destruct (piece_score_ok rnd L (query_pieces n q) (word_pieces n w)) as [s ->]. cbn [bind]. eauto. Qed.

Lemma score3_ok w : exists x, score3 rnd mean NL q w = Ok x.
Proof.
  unfold score3. assert (E : exists v, mapM (part3 rnd q w) NL = Ok v).
  { induction NL as [|n nl IH]; [exists []; reflexivity|]. cbn [mapM]. destruct (part3_ok n w) as [x ->]. destruct IH as [v ->]. cbn [bind]. eauto. }
  destruct E as [v ->]. cbn [bind]. eauto.
Qed.

Lemma norm3 i l : length l = length NL ->
  (forall k n, nth_error NL k = Some n -> piece_score rnd (query_pieces n q) (word_pieces n (wd3 i)) = Ok (nth k l 0)) ->
  norm_scores3 rnd st q (i, l) =
  if existsb (fun n => (size n q =? 0)%Z) NL then Err ZeroDivisionError
  else v <- mapM (part3 rnd q (wd3 i)) NL ;; Ok (i, v).
Proof.
  intros Hl Hv. unfold norm_scores3.
  match goal with |- bind ?m _ = _ => assert (E : m =
     mapM (fun n => if (size n q =? 0)%Z then Err ZeroDivisionError else part3 rnd q (wd3 i) n) NL) end.
  { rewrite enumerate_numbered, mapM_map.
    assert (E : NL = map snd (numbered NL)).
    { rewrite <- (enumerate_snd NL) at 1. rewrite enumerate_numbered, map_map. reflexivity. }
    rewrite E at 2. rewrite mapM_map. apply mapM_ext_in. intros [k n] Hkn. apply numbered_in in Hkn. cbn [fst snd].
    rewrite (py_get_nat _ k 0) by (rewrite Hl; apply nth_error_Some; congruence). cbn [bind].
    rewrite num_grams_size. unfold part3. rewrite (Hv k n Hkn). reflexivity. }
  rewrite E. clear E. destruct (existsb _ NL) eqn:Ex.
  - assert (X : mapM (fun n => if (size n q =? 0)%Z then Err ZeroDivisionError else part3 rnd q (wd3 i) n) NL = Err ZeroDivisionError).
    { clear - Ex L. induction NL as [|n nl IH]; [discriminate|]. cbn [existsb mapM] in *. destruct (size n q =? 0)%Z; [reflexivity|].
      destruct (part3_ok n (wd3 i)) as [x ->]. cbn [bind]. rewrite (IH Ex). reflexivity. }
    rewrite X. reflexivity.
  - rewrite (mapM_ext_in _ (part3 rnd q (wd3 i))); [reflexivity|]. intros n Hn.
    destruct (size n q =? 0)%Z eqn:Ez; [|reflexivity]. exfalso.
    assert (existsb (fun n => (size n q =? 0)%Z) NL = true) by (apply existsb_exists; eauto). congruence.
Qed.

Lemma lookup3_scores_cases :
  (Exists (lone q) NL /\ lookup3_scores rnd mean st q = Err ZeroDivisionError) \/
  (Forall (fun n => ~ lone q n) NL /\ exists cs, NoDup cs /\ (forall i, In i cs <-> cand3 st q i) /\
     lookup3_scores rnd mean st q =
       if existsb (fun n => (size n q =? 0)%Z) NL then match cs with [] => Ok [] | _ => Err ZeroDivisionError end
       else Ok (map (fun i => (i, sc3 i)) cs)).
Proof.
  assert (D : Exists (lone q) NL \/ Forall (fun n => ~ lone q n) NL).
  { clear. induction NL as [|n nl IH]; [right; constructor|]. destruct IH as [H|H]; [left; right; auto|].
    assert (D : lone q n \/ ~ lone q n) by (unfold lone; lia). destruct D; [left; left; auto|right; constructor; auto]. }
  destruct D as [D|D].
  - left. split; auto. unfold lookup3_scores. rewrite (matches3_lone rnd casefold L st I q D). reflexivity.
  - right. split; auto. destruct (matches3_spec rnd casefold L st I q D) as (m & E & Wf & K & V).
    exists (dkeys m). split; [exact Wf|]. split; [exact K|]. unfold lookup3_scores. rewrite E. cbn [bind].
    assert (N : forall e, In e m -> norm_scores3 rnd st q e =
       if existsb (fun n => (size n q =? 0)%Z) NL then Err ZeroDivisionError
       else v <- mapM (part3 rnd q (wd3 (fst e))) NL ;; Ok (fst e, v)).
    { intros [i l] He. apply (In_dget _ _ _ Wf) in He. destruct (V i l He) as [H1 H2]. apply norm3; auto. }
    destruct (existsb _ NL).
    + destruct m as [|e m]; [reflexivity|]. cbn [mapM dkeys map]. rewrite N by (left; auto). reflexivity.
    + rewrite (mapM_Ok_in _ (fun e => (fst e, match mapM (part3 rnd q (wd3 (fst e))) NL with Ok v => v | Err _ => [] end))).
      * cbn [bind]. unfold dkeys. rewrite !map_map. cbn [fst snd]. f_equal. apply map_ext. intros [i l]. cbn [fst snd]. f_equal.
        unfold sc3, score3. destruct (score3_ok (wd3 i)) as [x Hx]. unfold score3 in Hx.
        destruct (mapM (part3 rnd q (wd3 i)) NL) as [v|]; [reflexivity|discriminate].
      * intros [i l] He. rewrite N by auto. cbn [fst]. destruct (score3_ok (wd3 i)) as [x Hx]. unfold score3 in Hx.
        destruct (mapM (part3 rnd q (wd3 i)) NL) as [v|]; [reflexivity|discriminate].
Qed.

(** What is listed for word number [i]. *)
Definition entry3 (i : nat) : str * Qc * Qc := (wd3 i, sc3 i, s2 rnd (as6 st) q true i).
Definition ranked3 (cs : list nat) (top_k : Z) : list nat :=
  firstn (if (top_k <=? 0)%Z then length cs else Z.to_nat top_k) (best qleb sc3 cs).

Lemma lookup3_cases w top_k : w <> [] -> q = v_fold casefold st w -> clean q ->
  (Exists (lone q) NL /\ lookup3 rnd casefold mean st (PStr w) top_k = Err ZeroDivisionError) \/
  (Forall (fun n => ~ lone q n) NL /\ exists cs, NoDup cs /\ (forall i, In i cs <-> cand3 st q i) /\
     lookup3 rnd casefold mean st (PStr w) top_k =
       match cs with
       | [] => Err IndexError
       | _ => if existsb (fun n => (size n q =? 0)%Z) NL then Err ZeroDivisionError
              else Ok (map entry3 (ranked3 cs top_k))
       end).
Proof.
  intros Hw Eq Cq. unfold lookup3.
  destruct (Z.eqb_spec (zlen w) 0) as [Z0|_]; [destruct w; [congruence|unfold zlen in Z0; cbn [length] in Z0; lia]|].
  cbv zeta. rewrite <- Eq. destruct (existsb _ q || existsb _ q) eqn:Dq; [apply dirty_iff in Dq; contradiction|].
  destruct lookup3_scores_cases as [[D E]|[D (cs & ND & HC & E)]].
  - left. split; auto. rewrite E. reflexivity.
  - right. split; auto. exists cs. split; auto. split; auto. rewrite E.
    destruct cs as [|c cs].
    + destruct (existsb _ NL); reflexivity.
    + destruct (existsb _ NL); [reflexivity|]. cbn [bind]. set (cl := c :: cs) in *. rewrite !most_common_map.
      assert (Lb : length (best qleb sc3 cl) = S (length cs)) by (unfold best; rewrite isort_length; reflexivity).
      assert (G : exists e, py_get (map (fun i => (i, sc3 i)) (firstn (Z.to_nat 1) (best qleb sc3 cl))) 0 = Ok e).
      { exists (nth 0 (map (fun i => (i, sc3 i)) (firstn (Z.to_nat 1) (best qleb sc3 cl))) (0%nat, 0)).
        apply (py_get_nat _ 0). rewrite map_length, firstn_length, Lb. simpl. lia. }
      destruct G as [e ->]. cbn [bind].
      assert (Ln : zlen (map (fun i => (i, sc3 i)) cl) = zlen cl) by (unfold zlen; rewrite map_length; reflexivity).
      rewrite Ln. set (tk := if ((top_k =? 0) || (top_k <? 0))%Z then zlen cl else top_k).
      assert (Tk : Z.to_nat tk = if (top_k <=? 0)%Z then length cl else Z.to_nat top_k).
      { unfold tk, zlen. destruct (Z.eqb_spec top_k 0), (Z.ltb_spec top_k 0), (Z.leb_spec top_k 0); simpl; lia. }
      assert (Tp : (0 <= tk)%Z).
      { unfold tk, zlen. destruct (Z.eqb_spec top_k 0), (Z.ltb_spec top_k 0); simpl; lia. }
      rewrite mapM_map, (mapM_Ok_in _ entry3).
      2:{ intros i Hi. cbn [fst snd]. apply best_firstn_incl in Hi. apply HC in Hi. destruct Hi as [Hi _].
          rewrite (py_get_nat W i (@nil N : str)) by auto. cbn [bind]. change (nth i W []) with (wd3 i).
          rewrite (s2_val rnd casefold L (as6 st) I); auto. }
      cbn [bind]. f_equal. rewrite firstn_map, firstn_firstn. unfold ranked3. rewrite Tk.
      f_equal. f_equal. rewrite <- Tk. lia.
Qed.

End Result.

(** ** Bounds on the score *)

Lemma list_sum_count_eq (l ks : list str) : NoDup ks -> (forall g, In g l -> In g ks) ->
  list_sum (map (fun g => count_occ eqd l g) ks) = length l.
Proof.
  intros N. induction l as [|a l IH]; intros H.
  - apply list_sum_zero_iff. intros x Hx. apply in_map_iff in Hx. destruct Hx as (g & <- & _). reflexivity.
  - cbn [length]. rewrite <- IH by (intros; apply H; right; auto).
    assert (Ha : In a ks) by (apply H; left; auto). clear IH H.
    assert (Hs : list_sum (map (fun g => count_occ eqd (a :: l) g) ks) =
                 (list_sum (map (fun g => count_occ eqd l g) ks) + count_occ eqd ks a)%nat).
    { clear Ha. induction ks as [|k ks IH]; [reflexivity|].
      inversion N; subst. specialize (IH H2). cbn [map list_sum fold_right] in *.
      change (fold_right Nat.add 0%nat) with list_sum in *. cbn [count_occ] in *.
      destruct (eqd a k), (eqd k a); try congruence; lia. }
    assert (count_occ eqd ks a = 1)%nat by (apply NoDup_count_occ'; auto). lia.
Qed.

Section Bounds.
Variable rnd : Qc -> Qc.
Hypothesis L : lawful rnd.

Lemma spots_unit l g : in_unit (spots rnd l g).
Proof.
  rewrite <- select_spots. destruct (in_dec eqd g l) as [H|H].
  - eapply (gocc_unit rnd L l g). apply group_dget. rewrite gocc_keys. auto.
  - assert (E : select g (gocc rnd l) = []) by (apply select_nil; rewrite gocc_keys; auto). rewrite E. constructor.
Qed.

Definition shared_count (qs ws : list str) (its : list str) : nat :=
  list_sum (map (fun g => Nat.min (count_occ eqd qs g) (count_occ eqd ws g)) its).

Lemma piece_loop_bounds qs ws (F : faithful_upto rnd (length qs + length ws)) its : forall s K,
  0 <= s -> s <= qn K -> (K + shared_count qs ws its <= length qs + length ws)%nat ->
  exists s', foldM (fun s g => if in_dec eqd g ws
                    then e <- emd_1d_dp rnd (spots rnd qs g) (spots rnd ws g) ;;
                         Ok (rnd (s + rnd (qz (Z.max (zlen (spots rnd qs g)) (zlen (spots rnd ws g))) - e)))
                    else Ok s) its s = Ok s' /\ 0 <= s' /\ s' <= qn (K + shared_count qs ws its).
Proof.
  induction its as [|g its IH]; intros s K H0 H1 HT.
  - exists s. cbn [foldM]. unfold shared_count. cbn [map list_sum fold_right]. rewrite Nat.add_0_r. auto.
  - cbn [foldM]. unfold shared_count in *. cbn [map list_sum fold_right] in *. change (fold_right Nat.add 0%nat) with list_sum in *.
    match goal with |- context [in_dec ?d g ws] => destruct (in_dec d g ws) as [D|D] end.
    + destruct (dp_float_value rnd L (spots rnd qs g) (spots rnd ws g)) as (e & He & _). rewrite He. cbn [bind].
      destruct (fu_emd _ _ F (spots rnd qs g) (spots rnd ws g) e) as (B1 & B2 & B3); auto using spots_unit.
      { rewrite !spots_length. pose proof (count_occ_bound eqd g qs). pose proof (count_occ_bound eqd g ws). lia. }
      unfold zlen. rewrite !spots_length in *. set (a := count_occ eqd qs g) in *. set (b := count_occ eqd ws g) in *.
      assert (Ez : qz (Z.max (Z.of_nat a) (Z.of_nat b)) = qn (Nat.max a b)) by (unfold qn; f_equal; lia). rewrite Ez.
      assert (T1 : 0 <= rnd (qn (Nat.max a b) - e)) by (apply (rnd_nonneg rnd L); clear - B3; qclra).
      assert (T2 : rnd (qn (Nat.max a b) - e) <= qn (Nat.min a b)).
      { rewrite <- (fu_int _ _ F (Nat.min a b)) by lia. apply (rnd_mono _ L).
        destruct (Nat.le_ge_cases a b) as [C|C].
        - assert (Q : qn (Nat.max a b) = qn (Nat.min a b) + qn (b - a)) by (rewrite <- qn_add; f_equal; lia). clear - B2 Q. qclra.
        - assert (Q : qn (Nat.max a b) = qn (Nat.min a b) + qn (a - b)) by (rewrite <- qn_add; f_equal; lia). clear - B1 Q. qclra. }
      destruct (IH (rnd (s + rnd (qn (Nat.max a b) - e))) (K + Nat.min a b)%nat) as (s' & E' & C1 & C2).
      * apply (rnd_nonneg rnd L). clear - H0 T1. qclra.
      * rewrite <- (fu_int _ _ F (K + Nat.min a b)) by lia. apply (rnd_mono _ L). rewrite qn_add. clear - H1 T2. qclra.
      * lia.
      * exists s'. rewrite Nat.add_assoc. auto.
    + destruct (IH s K) as (s' & E' & C1 & C2); auto; [lia|]. exists s'. cbn [bind]. split; auto. split; auto.
      eapply Qcle_trans; [exact C2|]. unfold qn. apply (proj1 (qz_le _ _)). lia.
Qed.

Lemma shared_count_le qs ws : (shared_count qs ws (firsts qs) <= length qs)%nat.
Proof.
  eapply Nat.le_trans; [|apply (list_sum_count_le qs (firsts qs) (firsts_nodup qs))]. unfold shared_count.
  generalize (firsts qs). intros its. induction its as [|g its IH]; cbn [map list_sum fold_right]; [lia|].
  change (fold_right Nat.add 0%nat) with list_sum. lia.
Qed.

Lemma piece_score_bounds qs ws s : faithful_upto rnd (length qs + length ws) -> piece_score rnd qs ws = Ok s ->
  0 <= s /\ s <= qn (length qs).
Proof.
  intros F H. pose proof (shared_count_le qs ws).
  destruct (piece_loop_bounds qs ws F (firsts qs) 0 0) as (s' & E & C1 & C2).
  - apply Qcle_refl.
  - rewrite qn_0. apply Qcle_refl.
  - lia.
  - unfold piece_score in H. assert (s' = s) by congruence. subst s'. split; auto.
    eapply Qcle_trans; [exact C2|]. unfold qn. apply (proj1 (qz_le _ _)). lia.
Qed.

Lemma piece_loop_self qs its : small (length qs + length qs) -> (forall g, In g its -> In g qs) -> forall K,
  (K + list_sum (map (fun g => count_occ eqd qs g) its) <= length qs)%nat ->
  foldM (fun s g => if in_dec eqd g qs
                    then e <- emd_1d_dp rnd (spots rnd qs g) (spots rnd qs g) ;;
                         Ok (rnd (s + rnd (qz (Z.max (zlen (spots rnd qs g)) (zlen (spots rnd qs g))) - e)))
                    else Ok s) its (qn K) = Ok (qn (K + list_sum (map (fun g => count_occ eqd qs g) its))).
Proof.
  intros Sm. induction its as [|g its IH]; intros H K HK.
  - simpl. rewrite Nat.add_0_r. reflexivity.
  - cbn [foldM map list_sum fold_right] in *. change (fold_right Nat.add 0%nat) with list_sum in *.
    match goal with |- context [in_dec ?d g qs] => destruct (in_dec d g qs) as [D|D] end; [|exfalso; apply D, H; left; auto].
    assert (emd_1d_dp rnd (spots rnd qs g) (spots rnd qs g) = Ok 0) as -> by (apply dp_float_zero_iff; auto).
    cbn [bind]. rewrite Z.max_id. unfold zlen. rewrite spots_length. set (a := count_occ eqd qs g) in *.
    change (qz (Z.of_nat a)) with (qn a). replace (qn a - 0) with (qn a) by (clear; qclra).
    rewrite (rnd_qn rnd L a) by (eapply small_le; [|exact Sm]; lia). rewrite <- qn_add.
    rewrite (rnd_qn rnd L (K + a)) by (eapply small_le; [|exact Sm]; lia).
    rewrite IH; [f_equal; f_equal; lia| |lia]. intros; apply H; right; auto.
Qed.

Lemma piece_score_self qs : small (length qs + length qs) -> piece_score rnd qs qs = Ok (qn (length qs)).
Proof.
  intros Sm. unfold piece_score. pose proof (list_sum_count_eq qs (firsts qs) (firsts_nodup qs) (fun g H => proj2 (firsts_in qs g) H)) as E.
  assert (Z0 : (0 : Qc) = qn 0) by (rewrite qn_0; reflexivity). rewrite Z0.
  rewrite (piece_loop_self qs (firsts qs) Sm).
  - rewrite Nat.add_0_l, E. reflexivity.
  - intros g H. apply (proj1 (firsts_in qs g)). exact H.
  - lia.
Qed.

Lemma part3_bounds q w n x : (0 < n)%Z -> size n q <> 0%Z ->
  faithful_upto rnd (length (query_pieces n q) + length (word_pieces n w)) -> part3 rnd q w n = Ok x -> 0 <= x /\ x <= 1.
Proof.
  intros Hn Hs F H. unfold part3 in H. apply bind_ok in H. destruct H as (s & Es & H).
  destruct (piece_score_bounds _ _ _ F Es) as [B1 B2]. assert (Hx : x = rnd (s / qz (size n q))) by congruence. subst x. clear H.
  rewrite query_pieces_length in B2 by auto.
  destruct (Z.lt_trichotomy (size n q) 0) as [C|[C|C]]; [|contradiction|].
  - assert (s = 0). { replace (Z.to_nat (size n q)) with 0%nat in B2 by lia. rewrite qn_0 in B2. clear - B1 B2. qclra. }
    subst s. rewrite qdiv_0, (rnd_0 rnd L). clear. split; qclra.
  - assert (D : 0 < qz (size n q)). { rewrite <- qz_0'. apply (proj1 (qz_lt _ _)). lia. }
    split; [apply (rnd_nonneg rnd L), qdiv_nonneg; auto|].
    rewrite <- (rnd_1 rnd L). apply (rnd_mono _ L). apply qdiv_le_1; auto.
    eapply Qcle_trans; [exact B2|]. unfold qn. apply (proj1 (qz_le _ _)). lia.
Qed.

Lemma part3_self w n : (2 <= n)%Z -> (0 < size n w)%Z -> small (length (query_pieces n w) + length (query_pieces n w)) ->
  part3 rnd w w n = Ok 1.
Proof.
  intros Hn Hs Sm. unfold part3. assert (E : word_pieces n w = query_pieces n w).
  { unfold word_pieces. destruct (Z.ltb_spec 1 n); [reflexivity|lia]. }
  rewrite E, (piece_score_self _ Sm). cbn [bind]. rewrite query_pieces_length by lia. unfold qn. rewrite Z2Nat.id by lia.
  rewrite qdiv_self, (rnd_1 rnd L); auto. rewrite <- qz_0'. apply (proj1 (qz_lt _ _)). lia.
Qed.
End Bounds.
