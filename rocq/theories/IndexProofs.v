(** The index kept by a [WordList] describes its words, whatever the history. *)
From Coq Require Import ZArith NArith QArith Qcanon List Bool Permutation Lia Sorted.
From Verif Require Import Num Py ListAux PyDict Float64 EmdSpec EmdModel EmdProofs EmdFloatProofs
  NmdSpec NmdModel NmdProofs NmdFloatProofs IndexSpec IndexModel.
Import ListNotations.
Open Scope Qc_scope.

(** ** n-grams *)

Lemma get_n_grams_big n w : (2 <= n)%nat -> get_n_grams w (Z.of_nat n) = grams n w.
Proof.
  intros H. unfold get_n_grams. destruct (Z.ltb_spec 1 (Z.of_nat n)); [|lia].
  unfold py_range, grams. rewrite map_map, Z.sub_0_r.
  assert (E : Z.to_nat (zlen (2%N :: w ++ [3%N]) - Z.of_nat n + 1) = gram_count n w).
  { unfold zlen, gram_count. cbn [length]. rewrite app_length. cbn [length]. lia. }
  rewrite E. apply map_ext_in. intros i Hi. unfold py_slice, gram_at, padded.
  replace (Z.to_nat (0 + Z.of_nat i)) with i by lia.
  replace (Z.to_nat (0 + Z.of_nat i + Z.of_nat n) - i)%nat with n by lia. reflexivity.
Qed.

Lemma get_n_grams_small n w : (n <= 1)%Z -> get_n_grams w n = map (fun c => [c]) w.
Proof. intros H. unfold get_n_grams. destruct (Z.ltb_spec 1 n); [lia|reflexivity]. Qed.

Lemma in_grams n w g : (2 <= n)%nat ->
  In g (grams n w) <-> (exists a b, padded w = a ++ g ++ b) /\ length g = n.
Proof.
  intros Hn. unfold grams. rewrite in_map_iff. split.
  - intros (i & <- & Hi). apply in_seq in Hi. unfold gram_at, gram_count in *.
    assert (L : length (firstn n (skipn i (padded w))) = n).
    { rewrite firstn_length, skipn_length, padded_length. lia. }
    split; auto. exists (firstn i (padded w)), (skipn n (skipn i (padded w))).
    rewrite firstn_skipn, firstn_skipn. reflexivity.
  - intros ((a & b & E) & L). exists (length a). split.
    + unfold gram_at. rewrite E, skipn_app, skipn_all, Nat.sub_diag. simpl.
      rewrite firstn_app, L, Nat.sub_diag. simpl. rewrite <- L, firstn_all, app_nil_r. reflexivity.
    + apply in_seq. unfold gram_count. assert (length (padded w) = length a + (length g + length b))%nat.
      { rewrite E, !app_length. reflexivity. }
      rewrite padded_length in H. lia.
Qed.

Lemma has_gram_iff n w g : In g (get_n_grams w n) <-> has_gram n w g.
Proof.
  unfold has_gram. destruct (Z.ltb_spec 1 n).
  - rewrite <- (Z2Nat.id n) at 1 by lia. rewrite get_n_grams_big by lia. rewrite in_grams by lia.
    unfold zlen. split; intros [H1 H2]; (split; [exact H1|lia]).
  - rewrite get_n_grams_small by lia. rewrite in_map_iff. split; intros (c & H1 & H2); exists c; auto.
Qed.

Lemma gram_zlen n w g : (0 < n)%Z -> In g (get_n_grams w n) -> zlen g = n.
Proof.
  intros Hn H. apply has_gram_iff in H. unfold has_gram in H. destruct (Z.ltb_spec 1 n).
  - tauto.
  - destruct H as (c & -> & _). unfold zlen. simpl. lia.
Qed.

Lemma num_grams_size w n : num_grams (zlen w) n = size n w.
Proof. unfold num_grams, size. destruct (1 <? n)%Z; lia. Qed.

Lemma get_n_grams_length w n : zlen (get_n_grams w n) = if (1 <? n)%Z then Z.max 0 (size n w) else zlen w.
Proof.
  unfold size. destruct (Z.ltb_spec 1 n).
  - rewrite <- (Z2Nat.id n) at 1 by lia. rewrite get_n_grams_big by lia.
    unfold zlen. rewrite grams_length. unfold gram_count. lia.
  - rewrite get_n_grams_small by lia. unfold zlen. rewrite map_length. reflexivity.
Qed.

Lemma single_gram_iff n w : single_gram n w <-> zlen (get_n_grams w n) = 1%Z.
Proof. rewrite get_n_grams_length. unfold single_gram, size. destruct (1 <? n)%Z; lia. Qed.

Lemma shares_iff n w1 w2 : shares n w1 w2 <-> exists g, In g (get_n_grams w1 n) /\ In g (get_n_grams w2 n).
Proof.
  unfold shares. split; intros (g & H1 & H2); exists g; [rewrite !has_gram_iff|rewrite <- !has_gram_iff]; auto.
Qed.

(** ** Locations *)

Lemma enumerate_snd {A} (l : list A) : map snd (enumerate l) = l.
Proof.
  unfold enumerate. assert (H : length (map Z.of_nat (seq 0 (length l))) = length l) by (rewrite map_length, seq_length; auto).
  revert H. generalize (map Z.of_nat (seq 0 (length l))). induction l; intros [|z zs] H; simpl in *; auto; try discriminate.
  f_equal. apply IHl. lia.
Qed.

Lemma combine_seq_map {A} (l : list A) (d : A) : forall a,
  combine (seq a (length l)) l = map (fun i => (i, nth (i - a) l d)) (seq a (length l)).
Proof.
  induction l as [|x l IH]; intros a; simpl; auto. rewrite Nat.sub_diag. f_equal.
  rewrite IH. apply map_ext_in. intros i Hi. apply in_seq in Hi. f_equal.
  destruct (i - a)%nat eqn:E; [lia|]. f_equal. lia.
Qed.

Lemma combine_map_l {A B C} (f : A -> B) (l : list A) (r : list C) :
  combine (map f l) r = map (fun e => (f (fst e), snd e)) (combine l r).
Proof. revert r; induction l; intros [|c r]; simpl; auto. f_equal; auto. Qed.

Lemma enumerate_map {A} (l : list A) (d : A) :
  enumerate l = map (fun i => (Z.of_nat i, nth i l d)) (seq 0 (length l)).
Proof.
  unfold enumerate. rewrite combine_map_l, (combine_seq_map l d), map_map. cbn [fst snd].
  apply map_ext. intros i. rewrite Nat.sub_0_r. reflexivity.
Qed.

Lemma enumerate_length {A} (l : list A) : length (enumerate l) = length l.
Proof. rewrite <- (enumerate_snd l) at 2. rewrite map_length. reflexivity. Qed.

Section Locations.
Variable rnd : Qc -> Qc.

(** The n-grams with their positions. *)
Definition gocc (l : list str) : list (str * Qc) :=
  map (fun e => (snd e, rnd (qz (fst e) / qz (Z.max 1 (zlen l - 1))))) (enumerate l).

Lemma gocc_keys l : map fst (gocc l) = l.
Proof. unfold gocc. rewrite map_map. cbn [fst snd]. apply enumerate_snd. Qed.

Lemma gocc_big n w : (2 <= n)%nat -> gocc (get_n_grams w (Z.of_nat n)) = occ rnd n w.
Proof.
  intros H. rewrite get_n_grams_big by auto. unfold gocc, occ.
  rewrite (enumerate_map (grams n w) []), map_map. cbn [fst snd]. rewrite grams_length.
  apply map_ext_in. intros i Hi. apply in_seq in Hi. f_equal.
  - unfold grams. rewrite (nth_indep _ [] (gram_at n w 0)) by (rewrite map_length, seq_length; lia).
    rewrite map_nth, seq_nth by lia. reflexivity.
  - f_equal. unfold position, qn. f_equal. f_equal. f_equal. unfold zlen. rewrite grams_length. lia.
Qed.

Lemma add_locations_group l : rnd 0 = 0 -> add_locations rnd l = group (gocc l).
Proof.
  intros R0. unfold add_locations. destruct (Z.ltb_spec 1 (zlen l)).
  - unfold group, gocc. rewrite fold_left_map. apply fold_left_ext_in. intros d e He. cbn [fst snd].
    rewrite Z.max_r by lia. reflexivity.
  - destruct l as [|g l]; [reflexivity|]. destruct l; [|unfold zlen in *; cbn [length] in *; lia].
    assert (E : gocc [g] = [(g, rnd (qz 0 / qz 1))]) by reflexivity. rewrite E. clear E.
    assert (E : qz 0 / qz 1 = 0) by (apply Qc_is_canon; reflexivity). rewrite E, R0. reflexivity.
Qed.

Lemma query_locations_group l :
  query_locations rnd l = if (zlen l =? 1)%Z then Err ZeroDivisionError else Ok (group (gocc l)).
Proof.
  unfold query_locations. destruct (Z.eqb_spec (zlen l) 1) as [E|N].
  - destruct l as [|g l]; [discriminate|]. destruct l; [reflexivity|unfold zlen in E; cbn [length] in E; lia].
  - destruct (Z.eqb_spec (zlen l - 1) 0); [lia|]. rewrite foldM_ok. f_equal.
    unfold group, gocc. rewrite fold_left_map. apply fold_left_ext_in. intros d e He. cbn [fst snd].
    destruct l; [contradiction He|]. rewrite Z.max_r; [reflexivity|]. unfold zlen in *. cbn [length] in *. lia.
Qed.

(** The locations at which [g] occurs in [w]. *)
Definition locs (w g : str) : list Qc := select g (gocc (get_n_grams w (zlen g))).

Lemma locs_nil w g : locs w g = [] <-> ~ In g (get_n_grams w (zlen g)).
Proof. unfold locs. rewrite select_nil, gocc_keys. reflexivity. Qed.

Lemma locs_dget w n g : (0 < n)%Z ->
  dget g (group (gocc (get_n_grams w n))) =
  if (zlen g =? n)%Z then match locs w g with [] => None | l => Some l end else None.
Proof.
  intros Hn. destruct (Z.eqb_spec (zlen g) n) as [E|N].
  - destruct (locs w g) eqn:El.
    + apply group_dget_none. rewrite gocc_keys. apply locs_nil in El. rewrite E in El. auto.
    + rewrite <- El. unfold locs. rewrite E. apply group_dget. rewrite gocc_keys.
      destruct (in_dec eqd g (get_n_grams w n)) as [I|I]; auto. exfalso.
      rewrite <- E in I. apply locs_nil in I. congruence.
  - apply group_dget_none. rewrite gocc_keys. intros I. apply N. eapply gram_zlen; eauto.
Qed.

Lemma select_length k (kvs : list (str * Qc)) : length (select k kvs) = count_occ eqd (map fst kvs) k.
Proof.
  unfold select. rewrite map_length. induction kvs as [|[a b] kvs IH]; simpl; auto.
  destruct (eqd a k); simpl; rewrite IH; auto.
Qed.

Lemma locs_length w g : length (locs w g) = count_occ eqd (get_n_grams w (zlen g)) g.
Proof. unfold locs. rewrite select_length, gocc_keys. reflexivity. Qed.

End Locations.

(** ** Counters *)

Lemma dget_map {K V W} `{EqDec K} (f : V -> W) (d : dict K V) k :
  dget k (map (fun e => (fst e, f (snd e))) d) = option_map f (dget k d).
Proof. induction d as [|[a b] d IH]; simpl; auto. destruct (eqd k a); auto. Qed.

Lemma dset_map {K V W} `{EqDec K} (f : V -> W) (d : dict K V) k v :
  map (fun e => (fst e, f (snd e))) (dset k v d) = dset k (f v) (map (fun e => (fst e, f (snd e))) d).
Proof. induction d as [|[a b] d IH]; simpl; auto. destruct (eqd k a); simpl; auto. f_equal; auto. Qed.

Lemma counter_group {V} (kvs : list (str * V)) :
  counter (map fst kvs) = map (fun e => (fst e, zlen (snd e))) (group kvs).
Proof.
  induction kvs as [|kv kvs IH] using rev_ind; [reflexivity|].
  rewrite group_snoc, map_app. cbn [map]. unfold counter in *. rewrite fold_left_app. cbn [fold_left].
  rewrite IH. rewrite (dget_map zlen). unfold dappend.
  destruct (dget (fst kv) (group kvs)) as [l|] eqn:E; cbn [option_map]; rewrite (dset_map zlen); f_equal.
  unfold zlen. rewrite app_length. cbn [length]. lia.
Qed.

(** ** The invariant *)

(** Entry of [g] contributed by word number [i]. *)
Definition entry rnd (g : str) (e : nat * str) : list (nat * list Qc) :=
  match locs rnd (snd e) g with [] => [] | l => [(fst e, l)] end.

Definition numbered {A} (W : list A) : list (nat * A) := combine (seq 0 (length W)) W.

Lemma combine_snoc {A B} (a : list A) (b : list B) x y :
  length a = length b -> combine (a ++ [x]) (b ++ [y]) = combine a b ++ [(x, y)].
Proof. revert b; induction a; intros [|z b] H; simpl in *; try discriminate; auto. f_equal. apply IHa. lia. Qed.

Lemma numbered_snoc {A} (W : list A) w : numbered (W ++ [w]) = numbered W ++ [(length W, w)].
Proof.
  unfold numbered. rewrite app_length. cbn [length]. rewrite Nat.add_1_r, seq_S. cbn [plus].
  apply combine_snoc. apply seq_length.
Qed.

Lemma numbered_in {A} (W : list A) i w : In (i, w) (numbered W) <-> nth_error W i = Some w.
Proof.
  induction W as [|x W IH] using rev_ind.
  - simpl. destruct i; split; [tauto|discriminate|tauto|discriminate].
  - rewrite numbered_snoc, in_app_iff, IH. cbn [In]. split.
    + intros [H|[H|[]]].
      * rewrite nth_error_app1; auto. apply nth_error_Some. congruence.
      * injection H as <- <-. rewrite nth_error_app2, Nat.sub_diag by lia. reflexivity.
    + intros H. destruct (Nat.lt_ge_cases i (length W)).
      * rewrite nth_error_app1 in H by lia. auto.
      * rewrite nth_error_app2 in H by lia. destruct (i - length W)%nat eqn:E; simpl in H; [|destruct n; discriminate].
        injection H as ->. right. left. f_equal. lia.
Qed.

Lemma numbered_nodup {A} (W : list A) : NoDup (map fst (numbered W)).
Proof.
  assert (map fst (numbered W) = seq 0 (length W)) as ->; [|apply seq_NoDup].
  induction W as [|x W IH] using rev_ind; [reflexivity|].
  rewrite numbered_snoc, map_app, IH, app_length. cbn [map fst length]. rewrite Nat.add_1_r, seq_S. reflexivity.
Qed.

Section Invariant.
Variable rnd : Qc -> Qc.
Variable casefold : str -> str.
Hypothesis R0 : rnd 0 = 0.
Hypothesis casefold_idem : forall w, casefold (casefold w) = casefold w.

Record inv (st : wordlist) : Prop := {
  inv_n : Forall (fun n => 0 < n)%Z (n_list st) /\ NoDup (n_list st);
  inv_words : NoDup (word_list st) /\
    Forall (fun w => w <> [] /\ clean w /\ fold_case casefold st w = w) (word_list st);
  inv_indices : word_indices st = map (fun e => (snd e, fst e)) (numbered (word_list st));
  inv_lens : word_lens st = map zlen (word_list st);
  inv_num : word_num_grams st = map (fun w => map (fun n => size n w) (n_list st)) (word_list st);
  inv_pos : forall g, dgetl g (ngram_positions st) =
    if in_dec eqd (zlen g) (n_list st) then flat_map (entry rnd g) (numbered (word_list st)) else [];
  inv_counts : forall g, dgetl g (ngram_counts st) = map (fun e => (fst e, zlen (snd e))) (dgetl g (ngram_positions st));
  inv_filter : filter_n st <> 0%Z -> forall g i, In i (dgetl g (ngram_filter st)) <->
    exists w, nth_error (word_list st) i = Some w /\ In g (get_n_grams w (filter_n st))
}.

(** Construction. *)
Lemma init_inv n c fn st : wl_init n c fn = Ok st -> inv st /\ word_list st = [] /\ filter_n st = fn.
Proof.
  unfold wl_init. intros H. apply bind_ok in H. destruct H as (nl & H1 & H2).
  assert (N : Forall (fun n => 0 < n)%Z nl /\ NoDup nl).
  { destruct n as [z|l|]; [| |discriminate].
    - destruct (Z.ltb_spec 0 z); [|discriminate]. injection H1 as <-. split; [repeat constructor; auto|].
      constructor; [intros []|constructor].
    - destruct (forallb _ _) eqn:E; [|discriminate]. injection H1 as <-. rewrite forallb_forall in E. split.
      + apply Forall_forall. intros z Hz. apply E in Hz. apply Z.ltb_lt in Hz. auto.
      + eapply Permutation_NoDup; [symmetry; apply isort_perm|]. apply NoDup_nodup. }
  destruct (as_int c); [|discriminate]. injection H2 as <-. split; [|auto]. split; simpl; auto.
  - split; constructor.
  - intros g. destruct in_dec; reflexivity.
  - intros F g i. unfold dgetl. simpl. split; [tauto|]. intros (w & Hw & _). destruct i; discriminate.
Qed.

Lemma known_iff st : inv st -> forall w, dmem w (word_indices st) = true <-> In w (word_list st).
Proof.
  intros I w. rewrite (inv_indices _ I), dmem_true. unfold dkeys. rewrite map_map. cbn [fst].
  rewrite in_map_iff. split.
  - intros ([i x] & <- & H). apply numbered_in in H. eapply nth_error_In; eauto.
  - intros H. apply In_nth_error in H. destruct H as [i H]. exists (i, w). split; auto. apply numbered_in; auto.
Qed.

Lemma fold_dappend_get {A K V} `{EqDec K} (kf : A -> K) (vf : A -> V) items : forall d k,
  dgetl k (fold_left (fun d it => dappend (kf it) (vf it) d) items d) =
  dgetl k d ++ map vf (filter (fun it => if eqd (kf it) k then true else false) items).
Proof.
  induction items as [|a items IH]; intros d k; simpl; [rewrite app_nil_r; auto|].
  rewrite IH, dgetl_dappend, <- app_assoc. f_equal.
  destruct (eqd (kf a) k); reflexivity.
Qed.

Lemma filter_flat_map {A B} (p : B -> bool) (f : A -> list B) l :
  filter p (flat_map f l) = flat_map (fun a => filter p (f a)) l.
Proof. induction l; simpl; auto. rewrite filter_app, IHl. reflexivity. Qed.

Lemma flat_map_single {A B} (f : A -> list B) (a : A) l :
  NoDup l -> (forall b, In b l -> b <> a -> f b = []) ->
  (In a l -> flat_map f l = f a) /\ (~ In a l -> flat_map f l = []).
Proof.
  induction l as [|b l IH]; intros N H; simpl; [tauto|].
  inversion N; subst. destruct IH as [I1 I2]; auto.
  { intros c Hc Hn. apply H; auto. right; auto. }
  split.
  - intros [->|Ha].
    + rewrite I2 by auto. apply app_nil_r.
    + rewrite H by (simpl; auto; intros ->; contradiction). auto.
  - intros Hn. rewrite H by (simpl; auto). apply I2. tauto.
Qed.

Lemma dget_filter {K V} `{EqDec K} (d : dict K V) k : dwf d ->
  filter (fun it => if eqd (fst it) k then true else false) d =
  match dget k d with Some v => [(k, v)] | None => [] end.
Proof.
  unfold dwf. induction d as [|[a b] d IH]; simpl; auto. intros W. inversion W; subst.
  rewrite IH by auto. destruct (eqd a k) as [->|N].
  - destruct (eqd k k); [|congruence]. destruct (dget k d) eqn:E; auto.
    exfalso. apply H2. apply dget_Some_key in E. exact E.
  - destruct (eqd k a); [congruence|]. reflexivity.
Qed.

Lemma items_filter w nl g : Forall (fun n => 0 < n)%Z nl -> NoDup nl ->
  filter (fun it => if eqd (fst it) g then true else false) (flat_map (fun n => add_locations rnd (get_n_grams w n)) nl) =
  if in_dec eqd (zlen g) nl then match locs rnd w g with [] => [] | l => [(g, l)] end else [].
Proof.
  intros P N. rewrite filter_flat_map.
  assert (E : forall n, In n nl -> filter (fun it => if eqd (fst it) g then true else false) (add_locations rnd (get_n_grams w n)) =
     if (zlen g =? n)%Z then match locs rnd w g with [] => [] | l => [(g, l)] end else []).
  { intros n Hn. rewrite Forall_forall in P. specialize (P n Hn).
    rewrite add_locations_group by auto. rewrite dget_filter by apply group_wf. rewrite locs_dget by auto.
    destruct (zlen g =? n)%Z; [|reflexivity]. destruct (locs rnd w g); reflexivity. }
  destruct (flat_map_single (fun n => filter (fun it => if eqd (fst it) g then true else false) (add_locations rnd (get_n_grams w n))) (zlen g) nl N) as [H1 H2].
  { intros n Hn Hneq. rewrite E by auto. destruct (Z.eqb_spec (zlen g) n); [congruence|reflexivity]. }
  destruct (in_dec eqd (zlen g) nl) as [I|I].
  - rewrite H1 by auto. rewrite E by auto. rewrite Z.eqb_refl. reflexivity.
  - apply H2; auto.
Qed.

Lemma items_filter_perm w nl nl' g : Forall (fun n => 0 < n)%Z nl -> NoDup nl -> Permutation nl' nl ->
  filter (fun it => if eqd (fst it) g then true else false) (flat_map (fun n => add_locations rnd (get_n_grams w n)) nl') =
  if in_dec eqd (zlen g) nl then match locs rnd w g with [] => [] | l => [(g, l)] end else [].
Proof.
  intros P N Pm. rewrite items_filter.
  - destruct (in_dec eqd (zlen g) nl') as [I|I], (in_dec eqd (zlen g) nl) as [J|J]; auto.
    + exfalso. apply J. eapply Permutation_in; eauto.
    + exfalso. apply I. eapply Permutation_in; [symmetry|]; eauto.
  - eapply Permutation_Forall; [symmetry|]; eauto.
  - eapply Permutation_NoDup; [symmetry|]; eauto.
Qed.

Lemma dset_add_in g i d k j : In j (dgetl k (dset_add g i d)) <-> In j (dgetl k d) \/ (k = g /\ j = i).
Proof.
  unfold dset_add. destruct (in_dec eqd i (dgetl g d)) as [I|I].
  - split; auto. intros [H|[-> ->]]; auto.
  - rewrite dgetl_dappend, in_app_iff. destruct (eqd g k) as [->|N]; simpl; intuition congruence.
Qed.

Lemma fold_dset_add_in gs i : forall d k j,
  In j (dgetl k (fold_left (fun d g => dset_add g i d) gs d)) <-> In j (dgetl k d) \/ (In k gs /\ j = i).
Proof.
  induction gs as [|g gs IH]; intros d k j; simpl; [tauto|].
  rewrite IH, dset_add_in. intuition congruence.
Qed.

(** What [add_word] does to the list of words. *)
Definition added (st : wordlist) (v : pyval) : list str :=
  match v with
  | PStr w => let w' := fold_case casefold st w in
              match w, w' with
              | [], _ => []
              | _, [] => []
              | _, _ => if in_dec eqd w' (word_list st) then [] else
                        if clean_dec w' then [w'] else []
              end
  | _ => []
  end.

Lemma dirty_iff w : existsb (N.eqb 2) w || existsb (N.eqb 3) w = true <-> ~ clean w.
Proof.
  rewrite orb_true_iff, !existsb_N. unfold clean. destruct (in_dec N.eq_dec 2%N w), (in_dec N.eq_dec 3%N w); tauto.
Qed.

Lemma numbered_length {A} (W : list A) : length (numbered W) = length W.
Proof. unfold numbered. rewrite combine_length, seq_length. lia. Qed.

Lemma add_word_spec o st v : inv st -> fair o ->
  let st' := fst (add_word rnd casefold o st v) in
  inv st' /\ n_list st' = n_list st /\ case_insensitive st' = case_insensitive st /\ filter_n st' = filter_n st /\
  word_list st' = word_list st ++ added st v /\
  (added st v = [] -> st' = st) /\
  (is_ok (snd (add_word rnd casefold o st v)) = true <->
   exists w, v = PStr w /\ w <> [] /\
     (In (fold_case casefold st w) (word_list st) \/
      (clean (fold_case casefold st w) /\ fold_case casefold st w <> []))).
Proof.
  intros I (F1 & F2).
  assert (Same : forall (a : list str) r (P : Prop), a = [] -> (is_ok r = true <-> P) ->
     inv st /\ n_list st = n_list st /\ case_insensitive st = case_insensitive st /\ filter_n st = filter_n st /\
     word_list st = word_list st ++ a /\ (a = [] -> st = st) /\ (is_ok (A := unit) r = true <-> P)).
  { intros a r P -> H. rewrite app_nil_r. intuition auto. }
  destruct v as [w| | | |];
    try (apply Same; [reflexivity|]; simpl; split; [discriminate|intros (w0 & [=] & _)]).
  unfold add_word, added. destruct w as [|c w0].
  { apply Same; [reflexivity|]. simpl. split; [discriminate|]. intros (w0 & [= <-] & H & _). congruence. }
  set (w := c :: w0).
  destruct (Z.eqb_spec (zlen w) 0) as [Z0|_]; [unfold zlen, w in Z0; cbn [length] in Z0; lia|].
  set (u := fold_case casefold st w).
  destruct (dmem u (word_indices st)) eqn:K.
  { apply (known_iff st I) in K. apply Same.
    - unfold w. destruct u; auto. destruct in_dec; [auto|contradiction].
    - simpl. split; auto. intros _. exists w. repeat split; auto. discriminate. }
  assert (K' : ~ In u (word_list st)) by (rewrite <- (known_iff st I); congruence).
  destruct (existsb (N.eqb 2) u || existsb (N.eqb 3) u) eqn:D.
  { apply dirty_iff in D. apply Same.
    - unfold w. destruct u; auto. destruct in_dec; [contradiction|]. destruct clean_dec; [contradiction|auto].
    - simpl. split; [discriminate|]. intros (w1 & [= <-] & _ & [H|[H _]]); contradiction. }
  assert (D' : clean u).
  { destruct (clean_dec u) as [|C]; auto. apply dirty_iff in C. congruence. }
  clear D.
  assert (Uf : fold_case casefold st u = u).
  { unfold u, fold_case. destruct (case_insensitive st); auto. }
  unfold resolve_word_index.
  destruct (Z.eqb_spec (zlen u) 0) as [Z0|NZ].
  { assert (U0 : u = []) by (destruct u; auto; unfold zlen in Z0; cbn [length] in Z0; lia).
    apply Same.
    - rewrite U0. reflexivity.
    - cbn [snd is_ok]. split; [discriminate|]. intros (w1 & [= <-] & _ & [H|[_ H]]); [contradiction|].
      exfalso. apply H. exact U0. }
  assert (Nu : u <> []) by (intros E; apply NZ; rewrite E; reflexivity).
  rewrite Uf. destruct (dget u (word_indices st)) eqn:K2; [unfold dmem in K; rewrite K2 in K; discriminate|].
  cbv zeta. cbn [word_indices word_list word_lens].
  assert (Ei : dset u (length (word_list st)) (word_indices st) = map (fun e => (snd e, fst e)) (numbered (word_list st ++ [u]))).
  { rewrite dset_app by auto. rewrite (inv_indices _ I), numbered_snoc, map_app. reflexivity. }
  rewrite Ei, map_length, numbered_length, Nat.eqb_refl, app_length. cbn [length]. rewrite Nat.eqb_refl. cbn [andb].
  rewrite nth_error_app2, Nat.sub_diag by lia. cbn [nth_error].
  rewrite (inv_lens _ I). rewrite nth_error_app2 by (rewrite map_length; apply le_n). rewrite map_length, Nat.sub_diag. cbn [nth_error].
  destruct (eqd u u) as [_|C]; [|congruence]. rewrite Z.eqb_refl.
  set (st1 := {| n_list := n_list st; case_insensitive := case_insensitive st; filter_n := filter_n st;
       word_indices := map (fun e : nat * str => (snd e, fst e)) (numbered (word_list st ++ [u]));
       word_list := word_list st ++ [u]; word_lens := map zlen (word_list st) ++ [zlen u];
       word_num_grams := word_num_grams st ++ [map (num_grams (zlen u)) (n_list st)];
       ngram_filter := ngram_filter st; ngram_counts := ngram_counts st; ngram_positions := ngram_positions st |}).
  cbv iota beta. cbn [fst snd].
  assert (Ea : match u with [] => [] | _ :: _ => if in_dec eqd u (word_list st) then [] else if clean_dec u then [u] else [] end = [u]).
  { destruct u; [congruence|]. destruct in_dec; [contradiction|]. destruct clean_dec; [auto|contradiction]. }
  unfold w. cbv iota. rewrite Ea. clear Ea.
  set (st' := add_grams rnd o u (length (word_list st)) (add_filter o u (length (word_list st)) st1)).
  assert (A1 : n_list st' = n_list st) by (unfold st', add_grams, add_filter, st1; cbn [filter_n]; destruct (filter_n st =? 0)%Z; reflexivity).
  assert (A2 : case_insensitive st' = case_insensitive st) by (unfold st', add_grams, add_filter, st1; cbn [filter_n]; destruct (filter_n st =? 0)%Z; reflexivity).
  assert (A3 : filter_n st' = filter_n st) by (unfold st', add_grams, add_filter, st1; cbn [filter_n]; destruct (filter_n st =? 0)%Z; reflexivity).
  assert (A4 : word_list st' = word_list st ++ [u]) by (unfold st', add_grams, add_filter, st1; cbn [filter_n]; destruct (filter_n st =? 0)%Z; reflexivity).
  assert (A5 : word_indices st' = map (fun e => (snd e, fst e)) (numbered (word_list st ++ [u]))) by (unfold st', add_grams, add_filter, st1; cbn [filter_n]; destruct (filter_n st =? 0)%Z; reflexivity).
  assert (A6 : word_lens st' = map zlen (word_list st) ++ [zlen u]) by (unfold st', add_grams, add_filter, st1; cbn [filter_n]; destruct (filter_n st =? 0)%Z; reflexivity).
  assert (A7 : word_num_grams st' = word_num_grams st ++ [map (num_grams (zlen u)) (n_list st)]) by (unfold st', add_grams, add_filter, st1; cbn [filter_n]; destruct (filter_n st =? 0)%Z; reflexivity).
  set (items := flat_map (fun n => add_locations rnd (get_n_grams u n)) (o_int o (nodup eqd (n_list st)))).
  assert (A8 : ngram_positions st' = fold_left (fun d it => dappend (fst it) (length (word_list st), snd it) d) items (ngram_positions st))
    by (unfold st', add_grams, add_filter, st1; cbn [filter_n]; destruct (filter_n st =? 0)%Z; reflexivity).
  assert (A9 : ngram_counts st' = fold_left (fun d it => dappend (fst it) (length (word_list st), zlen (snd it)) d) items (ngram_counts st))
    by (unfold st', add_grams, add_filter, st1; cbn [filter_n]; destruct (filter_n st =? 0)%Z; reflexivity).
  assert (A10 : filter_n st <> 0%Z -> ngram_filter st' = fold_left (fun d g => dset_add g (length (word_list st)) d)
     (o_str o (nodup eqd (get_n_grams u (filter_n st)))) (ngram_filter st)).
  { intros Hf. unfold st', add_grams, add_filter, st1. cbn [filter_n]. destruct (Z.eqb_spec (filter_n st) 0); [contradiction|reflexivity]. }
  clearbody st'. clear st1.
  destruct (inv_n _ I) as [Np Nd]. destruct (inv_words _ I) as [Wn Wc].
  assert (It : forall g, filter (fun it => if eqd (fst it) g then true else false) items =
     if in_dec eqd (zlen g) (n_list st) then match locs rnd u g with [] => [] | l => [(g, l)] end else []).
  { intros g. unfold items. apply items_filter_perm; auto. rewrite (F2 _). rewrite nodup_fixed_point; auto. }
  split; [split|].
  - rewrite A1. auto.
  - rewrite A4. split.
    + apply NoDup_app_intro; auto; [repeat constructor; intros []|]. intros x Hx [->|[]]. contradiction.
    + apply Forall_app. split.
      * eapply Forall_impl; [|exact Wc]. cbn beta. unfold fold_case. rewrite A2. auto.
      * repeat constructor; auto; try apply D'. unfold fold_case. rewrite A2. exact Uf.
  - rewrite A5, A4. reflexivity.
  - rewrite A6, A4, map_app. reflexivity.
  - rewrite A7, A4, A1, map_app, (inv_num _ I). f_equal. cbn [map]. f_equal. apply map_ext. intros n. apply num_grams_size.
  - intros g. rewrite A8, A4, A1. rewrite (fold_dappend_get fst (fun it => (length (word_list st), snd it))).
    rewrite (inv_pos _ I), numbered_snoc, flat_map_app, It. cbn [flat_map]. unfold entry at 3. cbn [fst snd].
    destruct (in_dec eqd (zlen g) (n_list st)); [|reflexivity]. f_equal. rewrite app_nil_r.
    destruct (locs rnd u g); reflexivity.
  - intros g. rewrite A8, A9.
    rewrite (fold_dappend_get fst (fun it => (length (word_list st), snd it))), (fold_dappend_get fst (fun it => (length (word_list st), zlen (snd it)))).
    rewrite (inv_counts _ I), map_app. f_equal. rewrite map_map. reflexivity.
  - rewrite A3. intros Hf g i. rewrite (A10 Hf), fold_dset_add_in, (inv_filter _ I Hf), A4.
    assert (In g (o_str o (nodup eqd (get_n_grams u (filter_n st)))) <-> In g (get_n_grams u (filter_n st))) as ->.
    { rewrite <- (nodup_In eqd (get_n_grams u (filter_n st))). split; apply Permutation_in; [|symmetry]; apply F1. }
    split.
    + intros [(x & Hx & Hg)|[Hg ->]].
      * exists x. split; auto. rewrite nth_error_app1; auto. apply nth_error_Some. congruence.
      * exists u. split; auto. rewrite nth_error_app2, Nat.sub_diag by lia. reflexivity.
    + intros (x & Hx & Hg). destruct (Nat.lt_ge_cases i (length (word_list st))).
      * left. exists x. rewrite nth_error_app1 in Hx by auto. auto.
      * right. rewrite nth_error_app2 in Hx by auto. destruct (i - length (word_list st))%nat eqn:E; simpl in Hx; [|destruct n; discriminate].
        injection Hx as ->. split; auto. lia.
  - repeat split; auto; try discriminate.
    intros _. exists (c :: w0). repeat split; auto. discriminate.
Qed.

(** Histories. *)
Lemma run_inv calls : forall st, inv st -> Forall (fun c => fair (fst c)) calls ->
  let st' := run rnd casefold st calls in
  inv st' /\ n_list st' = n_list st /\ case_insensitive st' = case_insensitive st /\ filter_n st' = filter_n st.
Proof.
  induction calls as [|[o v] calls IH]; intros st I F; [cbn; auto|].
  inversion F; subst. unfold run in *. cbn [fold_left fst snd].
  destruct (add_word_spec o st v I H1) as (I' & E1 & E2 & E3 & _).
  destruct (IH _ I' H2) as (J & G1 & G2 & G3). repeat split; try apply J; congruence.
Qed.

End Invariant.
