(** Proofs about [ngram_movers_distance] in exact arithmetic. *)
From Coq Require Import ZArith NArith QArith Qcanon List Bool Permutation Lia.
From Verif Require Import Num Py ListAux PyDict EmdSpec EmdModel EmdProofs NmdSpec NmdModel.
Import ListNotations.
Open Scope Qc_scope.

(** ** Locations *)

(** Number of n-grams as the program computes it (may be negative). *)
Definition num (n : nat) (w : str) : Z := (zlen w + 2 - Z.of_nat n + 1)%Z.

Lemma num_count n w : Z.to_nat (num n w) = gram_count n w.
Proof. unfold num, gram_count, zlen. lia. Qed.

Lemma num_pos_count n w : (n <= length w + 2)%nat -> num n w = Z.of_nat (gram_count n w).
Proof. unfold num, gram_count, zlen. lia. Qed.

Definition occ (rnd : Qc -> Qc) n w : list (str * Qc) :=
  map (fun i => (gram_at n w i, rnd (position n w i))) (seq 0 (gram_count n w)).

Lemma locations_group rnd n w :
  locations rnd (2%N :: w ++ [3%N]) (Z.of_nat n) (num n w) = group (occ rnd n w).
Proof.
  unfold locations, group, occ, py_range. rewrite Z.sub_0_r, num_count.
  rewrite !fold_left_map. apply fold_left_ext_in. intros d i Hi. apply in_seq in Hi. cbn [fst snd].
  unfold py_slice, gram_at, position, padded.
  replace (Z.to_nat (0 + Z.of_nat i)) with i by lia.
  replace (Z.to_nat (0 + Z.of_nat i + Z.of_nat n) - i)%nat with n by lia.
  replace (qz (0 + Z.of_nat i)) with (qn i) by reflexivity.
  replace (qz (Z.max 1 (num n w - 1))) with (qn (Nat.max 1 (gram_count n w - 1))); [reflexivity|].
  unfold qn. f_equal. unfold num, gram_count, zlen in *. lia.
Qed.

Lemma occ_keys rnd n w : map fst (occ rnd n w) = grams n w.
Proof. unfold occ, grams. rewrite map_map. reflexivity. Qed.

Lemma occ_select rnd n w g : select g (occ rnd n w) = map rnd (positions n w g).
Proof.
  unfold select, occ, positions. rewrite filter_map, !map_map. cbn [fst snd]. reflexivity.
Qed.

Lemma positions_nil n w g : positions n w g = [] <-> ~ In g (grams n w).
Proof.
  rewrite <- (occ_keys (fun x => x)), <- select_nil, occ_select. split.
  - intros ->. reflexivity.
  - intros H. destruct (positions n w g); [auto|discriminate].
Qed.

Lemma positions_length n w g : length (positions n w g) = count_occ eqd (grams n w) g.
Proof.
  unfold positions, grams. rewrite map_length. induction (seq 0 (gram_count n w)) as [|i l IH]; simpl; auto.
  destruct (eqd (gram_at n w i) g); simpl; rewrite IH; reflexivity.
Qed.

Lemma grams_length n w : length (grams n w) = gram_count n w.
Proof. unfold grams. rewrite map_length, seq_length. reflexivity. Qed.

(** ** Sums over sets of n-grams *)

Lemma qsum_map_perm {A} (f : A -> Qc) l1 l2 : Permutation l1 l2 -> qsum (map f l1) = qsum (map f l2).
Proof. intros P. apply qsum_perm, Permutation_map, P. Qed.

Lemma qsum_map_ext {A} (f g : A -> Qc) l : (forall a, In a l -> f a = g a) -> qsum (map f l) = qsum (map g l).
Proof. intros H. f_equal. apply map_ext_in, H. Qed.

Lemma qsum_map_zero {A} (f : A -> Qc) l : (forall a, In a l -> f a = 0) -> qsum (map f l) = 0.
Proof.
  induction l as [|a l IH]; simpl; intros H; auto. rewrite IH, (H a) by auto. qclra.
Qed.

Lemma qsum_map_add {A} (f g : A -> Qc) l : qsum (map (fun a => f a + g a) l) = qsum (map f l) + qsum (map g l).
Proof. induction l; simpl; [qclra|]. rewrite IHl. ring. Qed.
Lemma qsum_map_sub {A} (f g : A -> Qc) l : qsum (map (fun a => f a - g a) l) = qsum (map f l) - qsum (map g l).
Proof. induction l; simpl; [qclra|]. rewrite IHl. ring. Qed.
Lemma qsum_map_le {A} (f g : A -> Qc) l : (forall a, In a l -> f a <= g a) -> qsum (map f l) <= qsum (map g l).
Proof.
  induction l as [|a l IH]; simpl; intros H; [apply Qcle_refl|].
  apply Qcplus_le_compat; [apply H; auto|apply IH; auto].
Qed.
Lemma qsum_map_nonneg {A} (f : A -> Qc) l : (forall a, In a l -> 0 <= f a) -> 0 <= qsum (map f l).
Proof. intros H. rewrite <- (qsum_map_zero (fun _ => 0) l) by auto. apply qsum_map_le; auto. Qed.

Lemma qsum_map_zero_inv {A} (f : A -> Qc) l :
  (forall a, In a l -> 0 <= f a) -> qsum (map f l) <= 0 -> forall a, In a l -> f a = 0.
Proof.
  induction l as [|b l IH]; simpl; intros N H a Ha; [tauto|].
  assert (N1 := N b (or_introl eq_refl)).
  assert (N2 : 0 <= qsum (map f l)) by (apply qsum_map_nonneg; auto).
  destruct Ha as [->|Ha].
  - clear - H N1 N2. qclra.
  - apply IH; auto. clear - H N1 N2. qclra.
Qed.

Lemma qsum_superset {A} (f : A -> Qc) (ea : EqDec A) l l' :
  NoDup l -> NoDup l' -> incl l l' -> (forall a, In a l' -> ~ In a l -> f a = 0) ->
  qsum (map f l) = qsum (map f l').
Proof.
  intros N N' I Z.
  assert (P : Permutation l' (l ++ filter (fun a => if in_dec ea a l then false else true) l')).
  { apply NoDup_Permutation; auto.
    - apply NoDup_app_intro; auto.
      + apply NoDup_filter; auto.
      + intros a H1 H2. apply filter_In in H2. destruct H2 as [_ H2]. destruct (in_dec ea a l); [discriminate|auto].
    - intros a. rewrite in_app_iff, filter_In. destruct (in_dec ea a l); intuition auto; discriminate. }
  rewrite (qsum_map_perm f _ _ P), map_app, qsum_app.
  rewrite (qsum_map_zero f (filter _ l')); [qclra|].
  intros a Ha. apply filter_In in Ha. destruct Ha as [H1 H2]. destruct (in_dec ea a l); [discriminate|auto].
Qed.

(** ** The similarity loop *)

Definition simg n w1 w2 g : Qc :=
  qn (length (positions n w1 g)) + qn (length (positions n w2 g)) - emd (positions n w1 g) (positions n w2 g).

Lemma emd_nil_r xs : emd xs [] = qn (length xs).
Proof.
  pose proof (emd_lower xs []) as H1. pose proof (emd_upper xs []) as H2.
  rewrite Nat.add_0_r in H2. cbn [length] in H1. clear - H1 H2. qclra.
Qed.
Lemma emd_nil_l xs : emd [] xs = qn (length xs).
Proof. rewrite emd_sym. apply emd_nil_r. Qed.

Lemma map_exact l : map exact l = l.
Proof. unfold exact. apply map_id. Qed.

Lemma sim_loop n w2 items s :
  (forall g l, In (g, l) items -> True) ->
  foldM (sim_step exact (group (occ exact n w2))) items s =
  Ok (s + qsum (map (fun it => if dmem (fst it) (group (occ exact n w2))
                             then qn (length (snd it)) + qn (length (positions n w2 (fst it)))
                                  - emd (snd it) (positions n w2 (fst it))
                             else 0) items)).
Proof.
  intros _. revert s. induction items as [|[g l] items IH]; intros s; cbn [foldM map qsum fst snd].
  - f_equal. clear. qclra.
  - unfold sim_step at 1, dmem at 1. destruct (dget g (group (occ exact n w2))) as [l2|] eqn:E.
    + assert (l2 = positions n w2 g).
      { apply dget_In, group_item in E. destruct E as [-> _]. rewrite occ_select. apply map_exact. }
      subst l2. rewrite emd_1d_dp_exact. cbn [bind]. rewrite IH. f_equal.
      unfold zlen. rewrite qz_add. fold (qn (length l)) (qn (length (positions n w2 g))).
      generalize (qsum (map (fun it : str * list Qc =>
       if dmem (fst it) (group (occ exact n w2))
       then qn (length (snd it)) + qn (length (positions n w2 (fst it))) - emd (snd it) (positions n w2 (fst it))
       else 0) items)) (emd l (positions n w2 g)) (qn (length l)) (qn (length (positions n w2 g))).
      clear. unfold exact. intros. qclra.
    + cbn [bind]. rewrite IH. f_equal.
      generalize (qsum (map (fun it : str * list Qc =>
       if dmem (fst it) (group (occ exact n w2))
       then qn (length (snd it)) + qn (length (positions n w2 (fst it))) - emd (snd it) (positions n w2 (fst it))
       else 0) items)). clear. intros. qclra.
Qed.

Lemma simg_unshared n w1 w2 g : ~ In g (grams n w1) \/ ~ In g (grams n w2) -> simg n w1 w2 g = 0.
Proof.
  unfold simg. intros [H|H]; apply positions_nil in H; rewrite H.
  - rewrite emd_nil_l. cbn [length]. clear. qclra.
  - rewrite emd_nil_r. cbn [length]. clear. qclra.
Qed.

Definition sim n w1 w2 : Qc := qsum (map (simg n w1 w2) (all_grams n w1 w2)).
Definition dist n w1 w2 : Qc :=
  qsum (map (fun g => emd (positions n w1 g) (positions n w2 g)) (all_grams n w1 w2)).

Lemma all_grams_in n w1 w2 g : In g (all_grams n w1 w2) <-> In g (grams n w1) \/ In g (grams n w2).
Proof. unfold all_grams. rewrite nodup_In, in_app_iff. reflexivity. Qed.
Lemma all_grams_nodup n w1 w2 : NoDup (all_grams n w1 w2).
Proof. apply NoDup_nodup. Qed.

Lemma sim_loop_value n w1 w2 :
  foldM (sim_step exact (group (occ exact n w2))) (group (occ exact n w1)) 0 = Ok (sim n w1 w2).
Proof.
  rewrite sim_loop by auto. f_equal.
  rewrite (qsum_map_ext _ (fun it => simg n w1 w2 (fst it))).
  - rewrite <- (map_map fst (simg n w1 w2)).
    assert (E : qsum (map (simg n w1 w2) (map fst (group (occ exact n w1)))) = sim n w1 w2); [|rewrite E; clear; qclra].
    unfold sim. apply (qsum_superset _ eqd).
    + apply group_wf.
    + apply all_grams_nodup.
    + intros g Hg. apply (proj1 (group_keys _ _)) in Hg. rewrite occ_keys in Hg. apply all_grams_in. auto.
    + intros g _ Hg. apply simg_unshared. left. intros H. apply Hg. apply (proj2 (group_keys _ _)). rewrite occ_keys. auto.
  - intros [g l] Hit. cbn [fst snd]. apply group_item in Hit. destruct Hit as [-> _].
    rewrite occ_select, map_exact. destruct (dmem g _) eqn:E; [reflexivity|].
    apply dmem_false in E. rewrite group_keys, occ_keys in E. symmetry. apply simg_unshared. auto.
Qed.

Lemma list_sum_count (l ks : list str) :
  NoDup ks -> (forall g, In g l -> In g ks) ->
  qsum (map (fun g => qn (count_occ eqd l g)) ks) = qn (length l).
Proof.
  intros N. induction l as [|a l IH]; intros I.
  - apply qsum_map_zero. reflexivity.
  - cbn [length]. rewrite qn_S, <- IH by (intros; apply I; right; auto).
    assert (Ha : In a ks) by (apply I; left; auto).
    apply in_split in Ha. destruct Ha as (k1 & k2 & ->).
    apply NoDup_remove in N. destruct N as [_ Na].
    rewrite !map_app, !qsum_app. cbn [map qsum].
    rewrite (qsum_map_ext (fun g => qn (count_occ eqd (a :: l) g)) (fun g => qn (count_occ eqd l g)) k1).
    2:{ intros g Hg. rewrite count_occ_cons_neq; auto. intros ->. apply Na, in_app_iff; auto. }
    rewrite (qsum_map_ext (fun g => qn (count_occ eqd (a :: l) g)) (fun g => qn (count_occ eqd l g)) k2).
    2:{ intros g Hg. rewrite count_occ_cons_neq; auto. intros ->. apply Na, in_app_iff; auto. }
    rewrite count_occ_cons_eq by auto. rewrite qn_S. ring.
Qed.

Lemma positions_total n w ks :
  NoDup ks -> (forall g, In g (grams n w) -> In g ks) ->
  qsum (map (fun g => qn (length (positions n w g))) ks) = qn (gram_count n w).
Proof.
  intros N I. rewrite <- grams_length, <- (list_sum_count (grams n w) ks) by auto.
  apply qsum_map_ext. intros g _. rewrite positions_length. reflexivity.
Qed.

Lemma sim_dist n w1 w2 : sim n w1 w2 = qn (gram_count n w1) + qn (gram_count n w2) - dist n w1 w2.
Proof.
  unfold sim, dist, simg. rewrite qsum_map_sub, qsum_map_add.
  rewrite !positions_total; auto using all_grams_nodup.
  - intros g Hg. apply all_grams_in. auto.
  - intros g Hg. apply all_grams_in. auto.
Qed.

Lemma dist_is_nmd n w1 w2 : is_nmd n w1 w2 (dist n w1 w2).
Proof.
  exists (fun g => emd (positions n w1 g) (positions n w2 g)). split; [|reflexivity].
  intros g. apply emd_is_emd.
Qed.

Lemma is_nmd_unique n w1 w2 d : is_nmd n w1 w2 d -> d = dist n w1 w2.
Proof.
  intros (e & He & ->). unfold dist. apply qsum_map_ext. intros g _.
  symmetry. apply emd_unique, He.
Qed.

(** The value returned, for every [n >= 2]. *)
Definition nmd_value (n : nat) (w1 w2 : str) (invert normalize : bool) : result Qc :=
  let total := (num n w1 + num n w2)%Z in
  let out := if invert then sim n w1 w2 else qz total - sim n w1 w2 in
  if normalize then if (total =? 0)%Z then Err ZeroDivisionError else Ok (out / qz total) else Ok out.

Lemma nmd_body_value n w1 w2 invert normalize :
  nmd_body exact w1 w2 (Z.of_nat n) invert normalize = nmd_value n w1 w2 invert normalize.
Proof.
  unfold nmd_body, nmd_value.
  assert (E : forall w, (zlen (2%N :: w ++ [3%N]) - Z.of_nat n + 1)%Z = num n w).
  { intros w. unfold num, zlen. cbn [length]. rewrite app_length. cbn [length]. lia. }
  rewrite !E, !locations_group, sim_loop_value. cbn [bind]. unfold exact. reflexivity.
Qed.

(** ** Argument checks *)

Lemma existsb_N a s : existsb (N.eqb a) s = true <-> In a s.
Proof.
  rewrite existsb_exists. split.
  - intros (x & H & E). apply N.eqb_eq in E. subst. auto.
  - intros H. exists a. split; auto. apply N.eqb_refl.
Qed.

Lemma check_word_clean s : clean s -> check_word (PStr s) = Ok s.
Proof.
  intros [H2 H3]. unfold check_word.
  destruct (existsb (N.eqb 2) s) eqn:E2; [apply existsb_N in E2; contradiction|].
  destruct (existsb (N.eqb 3) s) eqn:E3; [apply existsb_N in E3; contradiction|]. reflexivity.
Qed.

Lemma check_word_dirty s : ~ clean s -> check_word (PStr s) = Err ValueError.
Proof.
  intros H. unfold check_word.
  destruct (existsb (N.eqb 2) s) eqn:E2; [reflexivity|].
  destruct (existsb (N.eqb 3) s) eqn:E3; [reflexivity|].
  exfalso. apply H. split; intros I; apply existsb_N in I; congruence.
Qed.

Lemma clean_dec s : {clean s} + {~ clean s}.
Proof.
  unfold clean. destruct (in_dec N.eq_dec 2%N s); [right; tauto|].
  destruct (in_dec N.eq_dec 3%N s); [right; tauto|left; tauto].
Qed.

Lemma nmd_call w1 w2 n invert normalize :
  clean w1 -> clean w2 -> (2 <= n)%nat ->
  ngram_movers_distance exact (PStr w1) (PStr w2) (PInt (Z.of_nat n)) invert normalize =
  nmd_value n w1 w2 invert normalize.
Proof.
  intros C1 C2 Hn. unfold ngram_movers_distance. rewrite !check_word_clean by auto. cbn [bind].
  unfold check_n. simpl as_int. cbv iota. destruct (Z.ltb_spec (Z.of_nat n) 2); [lia|]. cbn [bind].
  apply nmd_body_value.
Qed.

(** ** Metric properties *)

Lemma dist_superset n w1 w2 ks :
  NoDup ks -> (forall g, In g (all_grams n w1 w2) -> In g ks) ->
  dist n w1 w2 = qsum (map (fun g => emd (positions n w1 g) (positions n w2 g)) ks).
Proof.
  intros N I. unfold dist. apply (qsum_superset _ eqd); auto using all_grams_nodup.
  intros g _ Hg. rewrite all_grams_in in Hg.
  assert (positions n w1 g = []) as -> by (apply positions_nil; tauto).
  assert (positions n w2 g = []) as -> by (apply positions_nil; tauto). reflexivity.
Qed.

Lemma all_grams_swap n w1 w2 : Permutation (all_grams n w1 w2) (all_grams n w2 w1).
Proof.
  apply NoDup_Permutation; auto using all_grams_nodup.
  intros g. rewrite !all_grams_in. tauto.
Qed.

Lemma dist_sym n w1 w2 : dist n w1 w2 = dist n w2 w1.
Proof.
  unfold dist. rewrite (qsum_map_perm _ _ _ (all_grams_swap n w1 w2)).
  apply qsum_map_ext. intros g _. apply emd_sym.
Qed.

Lemma sim_sym n w1 w2 : sim n w1 w2 = sim n w2 w1.
Proof. rewrite !sim_dist, (dist_sym n w1 w2). ring. Qed.

Lemma nmd_value_sym n w1 w2 i m : nmd_value n w1 w2 i m = nmd_value n w2 w1 i m.
Proof. unfold nmd_value. rewrite (Z.add_comm (num n w1)), (sim_sym n w1 w2). reflexivity. Qed.

Lemma dist_self n w : dist n w w = 0.
Proof. unfold dist. apply qsum_map_zero. intros g _. apply emd_zero_iff. reflexivity. Qed.

Lemma dist_triangle n w1 w2 w3 : dist n w1 w3 <= dist n w1 w2 + dist n w2 w3.
Proof.
  set (ks := nodup eqd (grams n w1 ++ grams n w2 ++ grams n w3)).
  assert (N : NoDup ks) by apply NoDup_nodup.
  assert (I : forall g, In g ks <-> In g (grams n w1) \/ In g (grams n w2) \/ In g (grams n w3)).
  { intros g. unfold ks. rewrite nodup_In, !in_app_iff. tauto. }
  rewrite (dist_superset n w1 w3 ks), (dist_superset n w1 w2 ks), (dist_superset n w2 w3 ks) by
    (auto; intros g Hg; apply I; apply all_grams_in in Hg; tauto).
  rewrite <- qsum_map_add. apply qsum_map_le. intros g _. apply emd_triangle.
Qed.

Lemma dist_nonneg n w1 w2 : 0 <= dist n w1 w2.
Proof. apply qsum_map_nonneg. intros. apply emd_nonneg. Qed.

Lemma qn_pos k : (0 < k)%nat -> 0 < qn k.
Proof. intros H. rewrite <- qn_0. apply qn_lt. auto. Qed.

Lemma qdiv_le_1 a b : 0 < b -> a <= b -> a / b <= 1.
Proof.
  intros Hb H. unfold Qcdiv. replace 1 with (b * / b) by (apply Qcmult_inv_r; intros ->; discriminate).
  apply Qcmult_le_compat_r; auto.
  unfold Qcle, Qclt in *. rewrite this_inv. apply Qlt_le_weak, Qinv_lt_0_compat. exact Hb.
Qed.

Lemma qinv_nonneg b : 0 < b -> 0 <= / b.
Proof. intros Hb. unfold Qcle, Qclt in *. rewrite this_inv. apply Qlt_le_weak, Qinv_lt_0_compat. exact Hb. Qed.

Lemma qdiv_nonneg a b : 0 < b -> 0 <= a -> 0 <= a / b.
Proof.
  intros Hb Ha. unfold Qcdiv. replace 0 with (0 * / b) by ring.
  apply Qcmult_le_compat_r; auto. apply qinv_nonneg; auto.
Qed.

Lemma qdiv_inj a b c : 0 < c -> a / c = b / c -> a = b.
Proof.
  intros Hc H. assert (Hn : c <> 0) by (intros ->; discriminate).
  replace a with (a / c * c) by (field; auto). rewrite H. field. auto.
Qed.

Lemma position_unit n w i : (i < gram_count n w)%nat -> 0 <= position n w i <= 1.
Proof.
  intros H. unfold position. split.
  - apply qdiv_nonneg; [apply qn_pos; lia|apply qn_nonneg].
  - apply qdiv_le_1; [apply qn_pos; lia|apply qn_le; lia].
Qed.

Lemma positions_in n w g q :
  In q (positions n w g) <-> exists i, (i < gram_count n w)%nat /\ gram_at n w i = g /\ q = position n w i.
Proof.
  unfold positions. rewrite in_map_iff. split.
  - intros (i & <- & H). apply filter_In in H. destruct H as [H1 H2]. apply in_seq in H1.
    destruct (eqd (gram_at n w i) g); [|discriminate]. exists i. repeat split; auto. lia.
  - intros (i & H & E & ->). exists i. split; auto. apply filter_In. split; [apply in_seq; lia|].
    destruct (eqd (gram_at n w i) g); auto.
Qed.

Lemma positions_unit n w g : in_unit (positions n w g).
Proof.
  apply Forall_forall. intros q H. apply positions_in in H. destruct H as (i & H & _ & ->).
  apply position_unit; auto.
Qed.

Lemma emd_positions_max n w1 w2 g :
  emd (positions n w1 g) (positions n w2 g) <=
  qn (Nat.max (length (positions n w1 g)) (length (positions n w2 g))).
Proof. apply emd_close_upper, in_unit_close; apply positions_unit. Qed.

Lemma simg_bounds n w1 w2 g :
  let m := Nat.min (count_occ eqd (grams n w1) g) (count_occ eqd (grams n w2) g) in
  qn m <= simg n w1 w2 g /\ simg n w1 w2 g <= qn m + qn m.
Proof.
  intros m. unfold m. rewrite <- !positions_length. unfold simg.
  pose proof (emd_positions_max n w1 w2 g) as U.
  set (a := length (positions n w1 g)) in *. set (b := length (positions n w2 g)) in *.
  pose proof (emd_lower (positions n w1 g) (positions n w2 g)) as L1. fold a b in L1.
  pose proof (emd_lower (positions n w2 g) (positions n w1 g)) as L2. fold a b in L2. rewrite emd_sym in L2.
  assert (E : qn (Nat.max a b) + qn (Nat.min a b) = qn a + qn b).
  { rewrite <- !qn_add. f_equal. lia. }
  split.
  - clear - U E. qclra.
  - destruct (Nat.le_ge_cases a b) as [H|H].
    + rewrite Nat.min_l by auto. clear - L2. qclra.
    + rewrite Nat.min_r by auto. clear - L1. qclra.
Qed.

Lemma qn_list_sum l : qn (list_sum l) = qsum (map qn l).
Proof. induction l; simpl; auto. rewrite qn_add, IHl. reflexivity. Qed.

Lemma sim_pinched n w1 w2 :
  qn (shared_count n w1 w2) <= sim n w1 w2 /\ sim n w1 w2 <= qn (2 * shared_count n w1 w2).
Proof.
  assert (E : forall k, (2 * k = k + k)%nat) by (intros; lia). rewrite E. clear E.
  unfold shared_count, sim. rewrite qn_add, !qn_list_sum, !map_map. split.
  - apply qsum_map_le. intros g _. apply simg_bounds.
  - rewrite <- qsum_map_add. apply qsum_map_le. intros g _. apply simg_bounds.
Qed.

Lemma sim_nonneg n w1 w2 : 0 <= sim n w1 w2.
Proof. destruct (sim_pinched n w1 w2) as [H _]. pose proof (qn_nonneg (shared_count n w1 w2)). eapply Qcle_trans; eauto. Qed.

Lemma dist_upper n w1 w2 : dist n w1 w2 <= qn (gram_count n w1) + qn (gram_count n w2).
Proof. pose proof (sim_nonneg n w1 w2). rewrite sim_dist in H. clear - H. qclra. Qed.

Lemma list_sum_zero_iff l : list_sum l = 0%nat <-> forall x, In x l -> x = 0%nat.
Proof.
  induction l as [|a l IH]; simpl; [intuition auto; contradiction|]. split.
  - intros H x [<-|Hx]; [lia|]. apply IH; auto. lia.
  - intros H. rewrite (H a), (proj2 IH); auto.
Qed.

Lemma shared_count_zero n w1 w2 : shared_count n w1 w2 = 0%nat <-> ~ share_gram n w1 w2.
Proof.
  unfold shared_count, share_gram. rewrite list_sum_zero_iff. split.
  - intros H (g & H1 & H2). specialize (H (Nat.min (count_occ eqd (grams n w1) g) (count_occ eqd (grams n w2) g))).
    apply (count_occ_In eqd) in H1. apply (count_occ_In eqd) in H2.
    enough (Nat.min (count_occ eqd (grams n w1) g) (count_occ eqd (grams n w2) g) = 0)%nat by lia.
    apply H. apply in_map_iff. exists g. split; auto. apply all_grams_in. left. apply (count_occ_In eqd). lia.
  - intros H x Hx. apply in_map_iff in Hx. destruct Hx as (g & <- & _).
    destruct (in_dec eqd g (grams n w1)) as [I1|I1]; [destruct (in_dec eqd g (grams n w2)) as [I2|I2]|].
    + exfalso. apply H. eauto.
    + apply (count_occ_not_In eqd) in I2. lia.
    + apply (count_occ_not_In eqd) in I1. lia.
Qed.

Lemma sim_zero_iff n w1 w2 : sim n w1 w2 = 0 <-> ~ share_gram n w1 w2.
Proof.
  rewrite <- shared_count_zero. destruct (sim_pinched n w1 w2) as [H1 H2]. split; intros H.
  - rewrite H in H1. apply qn_le_0 in H1. auto.
  - rewrite H in H1, H2. change (2 * 0)%nat with 0%nat in H2. rewrite qn_0 in H1, H2. clear - H1 H2. qclra.
Qed.

(** ** Separation *)

Lemma dist_zero_positions n w1 w2 : dist n w1 w2 = 0 -> forall g, Permutation (positions n w1 g) (positions n w2 g).
Proof.
  intros H g. apply emd_zero_iff.
  destruct (in_dec eqd g (all_grams n w1 w2)) as [I|I].
  - apply (qsum_map_zero_inv (fun g => emd (positions n w1 g) (positions n w2 g)) (all_grams n w1 w2)); auto.
    + intros; apply emd_nonneg.
    + unfold dist in H. rewrite H. apply Qcle_refl.
  - rewrite all_grams_in in I.
    assert (positions n w1 g = []) as -> by (apply positions_nil; tauto).
    assert (positions n w2 g = []) as -> by (apply positions_nil; tauto). reflexivity.
Qed.

Lemma positions_perm_count n w1 w2 :
  (forall g, Permutation (positions n w1 g) (positions n w2 g)) -> gram_count n w1 = gram_count n w2.
Proof.
  intros H. apply qn_inj.
  rewrite <- (positions_total n w1 (all_grams n w1 w2)), <- (positions_total n w2 (all_grams n w1 w2));
    auto using all_grams_nodup.
  - apply qsum_map_ext. intros g _. rewrite (Permutation_length (H g)). reflexivity.
  - intros g Hg. apply all_grams_in. auto.
  - intros g Hg. apply all_grams_in. auto.
Qed.

Lemma position_inj n w1 w2 i j :
  gram_count n w1 = gram_count n w2 -> position n w1 i = position n w2 j -> i = j.
Proof.
  intros E H. unfold position in H. rewrite E in H. apply qdiv_inj in H; [|apply qn_pos; lia].
  apply qn_inj; auto.
Qed.

Lemma padded_length w : length (padded w) = (length w + 2)%nat.
Proof. unfold padded. rewrite !app_length. simpl. lia. Qed.

Lemma padded_inj w1 w2 : padded w1 = padded w2 -> w1 = w2.
Proof. unfold padded. simpl. intros [= H]. apply app_inj_tail in H. tauto. Qed.

Lemma grams_determine n w1 w2 :
  (1 <= n <= length w1 + 2)%nat -> (n <= length w2 + 2)%nat -> gram_count n w1 = gram_count n w2 ->
  (forall i, (i < gram_count n w1)%nat -> gram_at n w1 i = gram_at n w2 i) -> w1 = w2.
Proof.
  intros H1 H2 Ec H. apply padded_inj, nth_error_ext. intros k.
  assert (El : length w1 = length w2) by (unfold gram_count in Ec; lia).
  destruct (le_lt_dec (length w1 + 2) k) as [G|G].
  - rewrite (proj2 (nth_error_None (padded w1) k)) by (rewrite padded_length; lia).
    rewrite (proj2 (nth_error_None (padded w2) k)) by (rewrite padded_length; lia). reflexivity.
  - set (i := Nat.min k (gram_count n w1 - 1)).
    assert (Hi : (i < gram_count n w1)%nat) by (unfold i, gram_count in *; lia).
    assert (Hk : (k - i < n)%nat) by (unfold i, gram_count in *; lia).
    assert (Hki : (i + (k - i) = k)%nat) by (unfold i; lia).
    specialize (H i Hi). unfold gram_at in H.
    assert (G1 := nth_error_firstn (skipn i (padded w1)) n (k - i) Hk).
    assert (G2 := nth_error_firstn (skipn i (padded w2)) n (k - i) Hk).
    rewrite nth_error_skipn, Hki in G1, G2. congruence.
Qed.

Lemma dist_zero_eq n w1 w2 :
  (1 <= n <= length w1 + 2)%nat -> (n <= length w2 + 2)%nat -> dist n w1 w2 = 0 -> w1 = w2.
Proof.
  intros H1 H2 H. pose proof (dist_zero_positions _ _ _ H) as P.
  pose proof (positions_perm_count _ _ _ P) as Ec.
  apply (grams_determine n); auto. intros i Hi.
  assert (I : In (position n w1 i) (positions n w2 (gram_at n w1 i))).
  { eapply Permutation_in; [apply P|]. apply positions_in. exists i. auto. }
  apply positions_in in I. destruct I as (j & Hj & Eg & Ep).
  apply position_inj in Ep; auto. subst j. auto.
Qed.
