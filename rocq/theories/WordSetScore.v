(** The result of [find_similar] in terms of the entries of the set. *)
From Coq Require Import ZArith NArith QArith Qcanon List Bool Permutation Lia Sorted.
From Verif Require Import Num Py ListAux PyDict Float64 EmdSpec EmdModel EmdProofs EmdFloatProofs NmdSpec NmdModel NmdProofs
  NmdFloatProofs IndexModel WordSetSpec WordSetModel WordSetProofs.
Import ListNotations.
Open Scope Qc_scope.

(** ** n-grams *)

Lemma ws_grams n w : (1 <= n)%nat -> get_n_grams_list w (Z.of_nat n) = grams n w.
Proof.
  intros Hn. unfold get_n_grams_list. destruct (Z.leb_spec (Z.of_nat n) 0); [lia|]. cbv zeta.
  assert (Hl : zlen (2%N :: w ++ [3%N]) = (zlen w + 2)%Z).
  { unfold zlen. cbn [length]. rewrite app_length. cbn [length]. lia. }
  rewrite Hl. unfold grams, gram_count. destruct (Z.leb_spec (zlen w + 2 - Z.of_nat n + 1) 0) as [L|L].
  - unfold zlen in L. replace (length w + 2 + 1 - n)%nat with 0%nat by lia. reflexivity.
  - replace (py_range 0 (zlen w + 2 - Z.of_nat n + 1)) with (map Z.of_nat (seq 0 (length w + 2 + 1 - n))).
    2:{ rewrite <- py_range_nat. f_equal. unfold zlen in *. lia. }
    rewrite map_map. apply map_ext. intros i. unfold gram_at, padded, py_slice.
    replace (Z.to_nat (Z.of_nat i)) with i by lia.
    replace (Z.to_nat (Z.of_nat i + Z.of_nat n) - i)%nat with n by lia. reflexivity.
Qed.

Lemma ws_num n w : (1 <= n)%nat -> get_num_grams (zlen w) (Z.of_nat n) = Z.of_nat (gram_count n w).
Proof.
  intros Hn. unfold get_num_grams, gram_count, zlen. destruct (Z.leb_spec (Z.of_nat n) 0); lia.
Qed.

Lemma zsum_nat l : zsum (map Z.of_nat l) = Z.of_nat (list_sum l).
Proof.
  unfold zsum. assert (H : forall a, fold_left Z.add (map Z.of_nat l) a = (a + Z.of_nat (list_sum l))%Z).
  { induction l as [|x l IH]; intros a; cbn [map fold_left list_sum fold_right]; [simpl; lia|].
    rewrite IH. unfold list_sum. cbn [fold_right]. lia. }
  rewrite H. lia.
Qed.

Lemma zsum_total ns w : Forall (fun n => (1 <= n)%nat) ns ->
  zsum (map (get_num_grams (zlen w)) (map Z.of_nat ns)) = Z.of_nat (total_grams ns w).
Proof.
  intros F. unfold total_grams. rewrite <- zsum_nat, !map_map. f_equal. apply map_ext_in. intros n I.
  rewrite Forall_forall in F. apply ws_num. auto.
Qed.

(** ** Positions *)

Definition occs (rnd : Qc -> Qc) (ns : list nat) (w : str) : list (str * Qc) := flat_map (fun n => occ rnd n w) ns.

Lemma fold_group {K V} `{EqDec K} (kvs : list (K * V)) : forall pre,
  fold_left (fun d kv => dappend (fst kv) (snd kv) d) kvs (group pre) = group (pre ++ kvs).
Proof. intros pre. unfold group. rewrite fold_left_app. reflexivity. Qed.

Lemma enumerate_map {A B} (f : nat -> A) (h : Z * A -> B) n :
  map h (enumerate (map f (seq 0 n))) = map (fun i => h (Z.of_nat i, f i)) (seq 0 n).
Proof.
  unfold enumerate. rewrite map_length, seq_length. generalize (seq 0 n). intros l.
  induction l as [|a l IH]; simpl; auto. rewrite IH. reflexivity.
Qed.

Lemma compute_positions_group rnd ns w : Forall (fun n => (1 <= n)%nat) ns ->
  compute_positions rnd (map Z.of_nat ns) w = group (occs rnd ns w).
Proof.
  intros F. unfold compute_positions, occs.
  assert (H : forall pre,
    fold_left (fun d n => let n_grams_list := get_n_grams_list w n in
      if (0 <? zlen n_grams_list)%Z then
        let divisor := qz (Z.max 1 (zlen n_grams_list - 1)) in
        fold_left (fun d e => dappend (snd e) (rnd (qz (fst e) / divisor)) d) (enumerate n_grams_list) d
      else d) (map Z.of_nat ns) (group pre) = group (pre ++ flat_map (fun n => occ rnd n w) ns)).
  2:{ apply (H []). }
  induction F as [|n ns Hn F IH]; intros pre; cbn [map fold_left flat_map]; [rewrite app_nil_r; reflexivity|].
  rewrite app_assoc, <- IH. f_equal. cbv zeta. rewrite ws_grams by auto.
  assert (Hz : zlen (grams n w) = Z.of_nat (gram_count n w)) by (unfold zlen; rewrite grams_length; reflexivity).
  rewrite Hz. rewrite <- fold_group. destruct (Z.ltb_spec 0 (Z.of_nat (gram_count n w))) as [L|L].
  - unfold occ. replace (map (fun i => (gram_at n w i, rnd (position n w i))) (seq 0 (gram_count n w)))
      with (map (fun e : Z * str => (snd e, rnd (qz (fst e) / qz (Z.max 1 (Z.of_nat (gram_count n w) - 1))))) (enumerate (grams n w))).
    { rewrite fold_left_map. reflexivity. }
    unfold grams. rewrite enumerate_map. apply map_ext. intros i. cbn [fst snd]. f_equal. f_equal.
    unfold position, qn. f_equal. f_equal. f_equal. lia.
  - unfold occ. replace (gram_count n w) with 0%nat by lia. reflexivity.
Qed.

(** ** Scores *)

(** The positions of an n-gram. *)
Definition spots (rnd : Qc -> Qc) (ns : list nat) (w g : str) : list Qc := select g (occs rnd ns w).

(** The function computed by the inner loop, and the score. *)
Definition contrib (rnd : Qc -> Qc) (ns : list nat) (q w : str) : Qc :=
  match contributions rnd (group (occs rnd ns q)) (group (occs rnd ns w)) with Ok t => t | Err _ => 0 end.

Definition wscore (rnd : Qc -> Qc) (ns : list nat) (q w : str) : Qc :=
  qmax 0 (qmin 1 (rnd (contrib rnd ns q w / qn (total_grams ns q + total_grams ns w)))).

Lemma wscore_range rnd ns q w : 0 <= wscore rnd ns q w <= 1.
Proof.
  unfold wscore. set (x := rnd _). clearbody x. unfold qmax, qmin.
  destruct (qleb 1 x) eqn:E1.
  - destruct (qleb 0 1) eqn:E2; [apply qleb_le in E2; split; [exact E2|apply Qcle_refl]|vm_compute in E2; discriminate].
  - apply qleb_nle in E1. destruct (qleb 0 x) eqn:E2; [apply qleb_le in E2|apply qleb_nle in E2]; split; clear - E1 E2; qclra.
Qed.

Definition item (rnd : Qc -> Qc) (a b : list Qc) : Qc :=
  rnd (qz (zlen a + zlen b) - match emd_1d_dp rnd a b with Ok e => e | Err _ => 0 end).

Lemma emd_dp_total rnd a b : exists e, emd_1d_dp rnd a b = Ok e.
Proof. eexists. apply emd_1d_dp_edp_swapped. Qed.

Lemma contributions_loop rnd (q w c : dict str (list Qc)) gs :
  (forall g, In g gs -> dmem g c = true -> dget g q <> None /\ dget g w <> None) -> forall t,
  foldM (fun total g =>
    if dmem g c then
      q_pos <- dict_get g q ;; w_pos <- dict_get g w ;; e <- emd_1d_dp rnd q_pos w_pos ;;
      Ok (rnd (total + rnd (qz (zlen q_pos + zlen w_pos) - e)))
    else Ok total) gs t =
  Ok (fold_left (fun total g => if dmem g c then rnd (total + item rnd (dgetl g q) (dgetl g w)) else total) gs t).
Proof.
  induction gs as [|g gs IH]; intros H t; [reflexivity|]. cbn [foldM fold_left].
  assert (IH' := IH (fun g' I => H g' (or_intror I))). destruct (dmem g c) eqn:E.
  - destruct (H g (or_introl eq_refl) E) as [Hq Hw]. unfold dict_get, dgetl.
    destruct (dget g q) as [a|]; [|congruence]. destruct (dget g w) as [b|]; [|congruence]. cbn [bind].
    unfold item. destruct (emd_dp_total rnd a b) as [e Ee]. rewrite Ee. cbn [bind].
    rewrite IH'. reflexivity.
  - cbn [bind]. apply IH'.
Qed.

Definition shared_keys (q w : dict str (list Qc)) : list str :=
  if (length q <=? length w)%nat then filter (fun g => dmem g w) (dkeys q) else filter (fun g => dmem g q) (dkeys w).

Lemma fold_left_if {A S} (p : A -> bool) (f : S -> A -> S) l : forall s,
  fold_left (fun s a => if p a then f s a else s) l s = fold_left f (filter p l) s.
Proof. induction l as [|a l IH]; intros s; cbn [fold_left filter]; auto. destruct (p a); apply IH. Qed.

Lemma contributions_value rnd q w : contributions rnd q w =
  Ok (fold_left (fun t g => rnd (t + item rnd (dgetl g q) (dgetl g w))) (shared_keys q w) 0).
Proof.
  assert (M : forall g (d : dict str (list Qc)), dmem g d = true -> dget g d <> None).
  { intros g d. unfold dmem. destruct (dget g d); congruence. }
  assert (K : forall g (d : dict str (list Qc)), In g (dkeys d) -> dget g d <> None).
  { intros g d I. apply dmem_true in I. apply M, I. }
  unfold contributions, shared_keys. destruct (length q <=? length w)%nat.
  - rewrite contributions_loop; [rewrite fold_left_if; reflexivity|]. intros g I H. split; auto.
  - rewrite contributions_loop; [rewrite fold_left_if; reflexivity|]. intros g I H. split; auto.
Qed.

Lemma shared_keys_in q w g : In g (shared_keys q w) <-> In g (dkeys q) /\ In g (dkeys w).
Proof.
  unfold shared_keys. destruct (length q <=? length w)%nat; rewrite filter_In, dmem_true; tauto.
Qed.

Lemma shared_keys_nodup q w : dwf q -> dwf w -> NoDup (shared_keys q w).
Proof. intros Q W. unfold shared_keys. destruct (length q <=? length w)%nat; apply NoDup_filter; auto. Qed.

(** ** Candidates and ranking *)

Lemma insert_map {A B} (leb : B -> B -> bool) (f : A -> B) a l :
  insert leb (f a) (map f l) = map f (insert (fun x y => leb (f x) (f y)) a l).
Proof. induction l as [|b l IH]; simpl; auto. destruct (leb (f a) (f b)); simpl; auto. rewrite IH. reflexivity. Qed.

Lemma isort_map {A B} (leb : B -> B -> bool) (f : A -> B) l :
  isort leb (map f l) = map f (isort (fun x y => leb (f x) (f y)) l).
Proof. induction l as [|a l IH]; simpl; auto. unfold isort in *. rewrite IH. apply insert_map. Qed.

Lemma scored_leb_total a b : scored_leb a b = true \/ scored_leb b a = true.
Proof.
  destruct a as [x i], b as [y j]. unfold scored_leb. cbn [fst snd].
  destruct (qltb x y) eqn:E1; [auto|]. destruct (qltb y x) eqn:E2; [auto|]. apply qltb_nlt in E1, E2.
  assert (x = y) as -> by (apply Qcle_antisym; auto).
  assert (qeqb y y = true) as -> by (apply qeqb_eq; auto).
  destruct (Nat.leb_spec i j), (Nat.leb_spec j i); simpl; auto; lia.
Qed.

Lemma scored_leb_iff a b : scored_leb a b = true <-> fst a < fst b \/ (fst a = fst b /\ (snd a <= snd b)%nat).
Proof.
  unfold scored_leb. rewrite orb_true_iff, andb_true_iff, qltb_lt, qeqb_eq, Nat.leb_le. reflexivity.
Qed.

Lemma scored_leb_trans a b c : scored_leb a b = true -> scored_leb b c = true -> scored_leb a c = true.
Proof.
  rewrite !scored_leb_iff. intros [H1|[H1 K1]] [H2|[H2 K2]].
  - left. eapply Qclt_trans; eauto.
  - left. rewrite <- H2. exact H1.
  - left. rewrite H1. exact H2.
  - right. split; [congruence|lia].
Qed.

Section Find.
Variable rnd : Qc -> Qc.
Variable casefold : str -> str.
Notation repr := (repr rnd casefold).

(** The configuration of a set. *)
Definition configured (st : wordset) (ns : list nat) (fn : option nat) : Prop :=
  ws_n_list st = map Z.of_nat ns /\ NoDup ns /\ Forall (fun n => (1 <= n)%nat) ns /\ ns <> [] /\
  ws_filter_n st = option_map Z.of_nat fn /\ filter_size ns fn.

Definition eligibleb (ns : list nat) (fn : option nat) (q w : str) : bool :=
  match fn with
  | Some n => existsb (fun g => if in_dec eqd g (grams n w) then true else false) (grams n q)
  | None => (0 <? total_grams ns q + total_grams ns w)%nat
  end.

Lemma eligibleb_iff ns fn q w : eligibleb ns fn q w = true <-> eligible ns fn q w.
Proof.
  unfold eligibleb, eligible. destruct fn as [n|]; [|apply Nat.ltb_lt]. rewrite existsb_exists. unfold share_gram.
  split; intros (g & H1 & H2); exists g; (split; [exact H1|]); destruct (in_dec eqd g (grams n w)); auto; try discriminate; try contradiction.
Qed.

Lemma configured_filter st ns fn : configured st ns fn -> filtering st = option_map Z.of_nat fn /\
  (forall n, fn = Some n -> (1 <= n)%nat /\ In n ns).
Proof.
  intros (_ & _ & P & _ & E & S). assert (K : forall n, fn = Some n -> (1 <= n)%nat /\ In n ns).
  { intros n ->. rewrite Forall_forall in P. destruct S as [[I E3]|[_ (m & I & _ & E3)]].
    - injection E3 as ->. split; auto.
    - destruct (m <=? 4)%nat; [|discriminate]. injection E3 as ->. split; auto. }
  split; auto. unfold filtering. rewrite E. destruct fn as [n|]; [|reflexivity]. cbn [option_map].
  destruct (K n eq_refl) as [H _]. destruct (Z.eqb_spec (Z.of_nat n) 0); [lia|reflexivity].
Qed.

Lemma fgrams_grams st ns fn u g : configured st ns fn ->
  In g (fgrams st u) <-> exists n, fn = Some n /\ In g (grams n u).
Proof.
  intros C. destruct (configured_filter st ns fn C) as [E K]. unfold fgrams. rewrite E. destruct fn as [n|]; cbn [option_map].
  - rewrite nodup_In, ws_grams by (apply K; auto). split; [eauto|]. intros (m & [= <-] & H). exact H.
  - split; [intros []|]. intros (m & [=] & _).
Qed.

(** A candidate's place in the ranking. *)
Definition key (ns : list nat) (u : str) (e : entry) : Qc * nat := (- wscore rnd ns u (e_norm e), e_id e).

Definition ranked (ns : list nat) (u : str) (es : list entry) : list entry :=
  isort (fun a b => scored_leb (key ns u a) (key ns u b)) es.

Definition positive_total (ns : list nat) (u : str) (e : entry) : bool :=
  (0 <? total_grams ns u + total_grams ns (e_norm e))%nat.

Lemma score_loop st ns fn l u es : configured st ns fn -> repr st l -> incl es l -> forall acc,
  foldM (score_step rnd st (compute_word_info rnd st u)) (map e_id es) acc =
  Ok (acc ++ map (key ns u) (filter (positive_total ns u) es)).
Proof.
  intros C R. assert (N : NoDup (map e_id l)) by (apply asc_NoDup, R).
  destruct C as (En & _ & P & _). induction es as [|e es IH]; intros H acc; cbn [map foldM filter]; [rewrite app_nil_r; reflexivity|].
  assert (He : In e l) by (apply H; left; auto). assert (IH' := IH (fun x I => H x (or_intror I))). clear IH.
  unfold score_step at 1. unfold dict_get.
  assert (dget (e_id e) (word_info st) = Some (compute_word_info rnd st (e_norm e))) as ->.
  { rewrite (r_info _ _ _ _ R). apply (dget_map e_id (fun e => compute_word_info rnd st (e_norm e))); auto. }
  cbn [bind].
  assert (I1 : forall v, ngrams_pos (compute_word_info rnd st v) = group (occs rnd ns v)).
  { intros v. unfold compute_word_info. cbn [ngrams_pos]. rewrite En, compute_positions_group by auto. reflexivity. }
  assert (I2 : forall v, zsum (num_grams_of (compute_word_info rnd st v)) = Z.of_nat (total_grams ns v)).
  { intros v. unfold compute_word_info. cbn [num_grams_of]. rewrite En, zsum_total by auto. reflexivity. }
  rewrite !I1, !I2.
  set (c := contributions rnd _ _). assert (c = Ok (contrib rnd ns u (e_norm e))) as ->.
  { unfold contrib. unfold c. destruct (contributions rnd _ _) eqn:Ec; auto. rewrite contributions_value in Ec. discriminate. }
  cbn [bind]. unfold positive_total at 1.
  replace (0 <? Z.of_nat (total_grams ns u) + Z.of_nat (total_grams ns (e_norm e)))%Z
    with (0 <? total_grams ns u + total_grams ns (e_norm e))%nat.
  2:{ destruct (Nat.ltb_spec 0 (total_grams ns u + total_grams ns (e_norm e))),
       (Z.ltb_spec 0 (Z.of_nat (total_grams ns u) + Z.of_nat (total_grams ns (e_norm e)))); auto; lia. }
  destruct (0 <? total_grams ns u + total_grams ns (e_norm e))%nat; cbn [bind]; rewrite IH'; auto.
  cbn [map]. rewrite <- app_assoc. cbn [app]. unfold key at 2, wscore, qn. rewrite Nat2Z.inj_add. reflexivity.
Qed.

Lemma rank_value st ns fn l u es k : configured st ns fn -> repr st l -> incl es l ->
  rank rnd st u (map e_id es) k =
  Ok (map (fun e => (e_word e, wscore rnd ns u (e_norm e)))
        (firstn (Z.to_nat k) (ranked ns u (filter (positive_total ns u) es)))).
Proof.
  intros C R H. assert (N : NoDup (map e_id l)) by (apply asc_NoDup, R). unfold rank.
  rewrite (score_loop st ns fn l u es C R H). cbn [bind app]. rewrite isort_map. fold (ranked ns u (filter (positive_total ns u) es)).
  rewrite firstn_map. assert (K : incl (firstn (Z.to_nat k) (ranked ns u (filter (positive_total ns u) es))) l).
  { intros e I. apply H. assert (I2 : In e (ranked ns u (filter (positive_total ns u) es))).
    { rewrite <- (firstn_skipn (Z.to_nat k)). apply in_app_iff. auto. }
    unfold ranked in I2. apply (Permutation_in _ (isort_perm _ _)) in I2. apply filter_In in I2. apply I2. }
  induction (firstn _ _) as [|e es' IH]; [reflexivity|]. cbn [map mapM key fst snd]. unfold dict_get at 1.
  assert (dget (e_id e) (to_original st) = Some (e_word e)) as ->.
  { rewrite (r_orig _ _ _ _ R). apply (dget_map e_id e_word); auto. apply K. left; auto. }
  cbn [bind]. rewrite IH by (intros x I; apply K; right; exact I). cbn [bind].
  f_equal. f_equal. f_equal. apply Qcopp_involutive.
Qed.

Lemma total_pos ns n w : In n ns -> (0 < gram_count n w)%nat -> (0 < total_grams ns w)%nat.
Proof.
  intros I H. unfold total_grams. induction ns as [|m ns IH]; [destruct I|]. cbn [map list_sum fold_right].
  unfold list_sum in *. cbn [fold_right]. destruct I as [->|I]; [lia|]. specialize (IH I). lia.
Qed.

Lemma filter_all {A} (p : A -> bool) l : (forall a, In a l -> p a = true) -> filter p l = l.
Proof.
  induction l as [|a l IH]; intros H; simpl; auto. rewrite (H a) by (left; auto). f_equal. apply IH. intros; apply H; right; auto.
Qed.

(** The answer of [find_similar] on valid arguments. *)
Definition answer_of (ns : list nat) (fn : option nat) (l : list entry) (u : str) (k : Z) : list (str * Qc) :=
  map (fun e => (e_word e, wscore rnd ns u (e_norm e)))
    (firstn (Z.to_nat k) (ranked ns u (filter (fun e => eligibleb ns fn u (e_norm e)) l))).

Lemma find_similar_value o st ns fn l q k ms : fair o -> configured st ns fn -> repr st l ->
  find_similar rnd casefold o st q k ms =
  (qk <- check_find q k ms ;;
   let '(q, k) := qk in
   if Nat.eqb (length q) 0 || Nat.eqb (length l) 0 then Ok [] else
   match norm_of casefold st q with
   | None => Err ValueError
   | Some u => Ok (if Nat.eqb (length u) 0 then [] else answer_of ns fn l u k)
   end).
Proof.
  intros [Fo _] C R. unfold find_similar. destruct (check_find q k ms) as [[q0 k0]|]; [|reflexivity]. cbn [bind].
  assert (length (to_id st) = length l) as -> by (rewrite (r_ids _ _ _ _ R), map_length; reflexivity).
  destruct (Nat.eqb (length q0) 0 || Nat.eqb (length l) 0); [reflexivity|].
  rewrite normalize_word_norm. destruct (norm_of casefold st q0) as [u|]; [|reflexivity]. cbn [bind].
  destruct (Nat.eqb (length u) 0); [reflexivity|]. destruct (configured_filter st ns fn C) as [Ef Kf]. rewrite Ef.
  unfold answer_of. destruct fn as [n|]; cbn [option_map].
  - destruct (Kf n eq_refl) as [Hn Hin]. rewrite ws_grams by auto.
    set (gs := o_str o (nodup eqd (grams n u))).
    assert (Gs : forall g, In g gs <-> In g (grams n u)).
    { intros g. rewrite <- (nodup_In eqd (grams n u)). split; apply Permutation_in; [apply Fo|symmetry; apply Fo]. }
    assert (B : forall gs b, asc b -> let b' := fold_left (fun b g => bm_update b (dgetl g (filter_index st))) gs b in
      asc b' /\ forall i, In i b' <-> In i b \/ exists g, In g gs /\ In i (dgetl g (filter_index st))).
    { clear. induction gs as [|g gs IH]; intros b A; cbn [fold_left].
      - split; auto. intros i. split; auto. intros [|(g & [] & _)]; auto.
      - destruct (IH (bm_update b (dgetl g (filter_index st))) (bm_update_asc _ _ A)) as [A' I']. split; auto. intros i.
        rewrite I', bm_update_in. split.
        + intros [[H|H]|(g' & Hg & H)]; auto; right; [exists g|exists g']; split; simpl; auto.
        + intros [H|(g' & [<-|Hg] & H)]; auto. right. exists g'. auto. }
    set (cand := fold_left (fun b g => bm_update b (dgetl g (filter_index st))) gs []).
    assert (Ec : cand = map e_id (filter (fun e => eligibleb ns (Some n) u (e_norm e)) l)).
    { destruct (B gs [] (SSorted_nil _)) as [A' I']. apply asc_ext; auto.
      - apply asc_map_filter, R.
      - intros i. unfold cand. rewrite I'. split.
        + intros [[]|(g & Hg & H)]. apply (r_ix _ _ _ _ R) in H. destruct H as (e & He & <- & H).
          apply in_map_iff. exists e. split; auto. apply filter_In. split; auto. apply eligibleb_iff.
          apply (fgrams_grams st ns (Some n) _ _ C) in H. destruct H as (m & [= <-] & H).
          exists g. split; auto. apply Gs. exact Hg.
        + intros H. apply in_map_iff in H. destruct H as (e & <- & H). apply filter_In in H. destruct H as [He H].
          apply eligibleb_iff in H. destruct H as (g & H1 & H2). right. exists g. split; [apply Gs; auto|].
          apply (r_ix _ _ _ _ R). exists e. split; auto. split; auto. apply (fgrams_grams st ns (Some n) _ _ C). eauto. }
    assert (Pf : filter (positive_total ns u) (filter (fun e => eligibleb ns (Some n) u (e_norm e)) l)
            = filter (fun e => eligibleb ns (Some n) u (e_norm e)) l).
    { apply filter_all. intros e He. apply filter_In in He. destruct He as [_ He]. apply eligibleb_iff in He.
      destruct He as (g & Hg & _). unfold positive_total. apply Nat.ltb_lt.
      assert (0 < gram_count n u)%nat.
      { rewrite <- grams_length. destruct (grams n u); [destruct Hg|simpl; lia]. }
      pose proof (total_pos ns n u Hin H). lia. }
    assert (Hmain : match cand with [] => Ok [] | _ => rank rnd st u cand k0 end =
       Ok (map (fun e => (e_word e, wscore rnd ns u (e_norm e)))
            (firstn (Z.to_nat k0) (ranked ns u (filter (fun e => eligibleb ns (Some n) u (e_norm e)) l))))).
    { assert (Hr : rank rnd st u cand k0 = Ok (map (fun e => (e_word e, wscore rnd ns u (e_norm e)))
            (firstn (Z.to_nat k0) (ranked ns u (filter (fun e => eligibleb ns (Some n) u (e_norm e)) l))))).
      { rewrite Ec, (rank_value st ns (Some n) l) by (auto; intros x I; apply filter_In in I; apply I). rewrite Pf. reflexivity. }
      destruct cand; [|exact Hr]. symmetry in Ec. apply map_eq_nil in Ec. rewrite Ec. cbn. rewrite firstn_nil. reflexivity. }
    destruct gs as [|g0 gs0] eqn:Egs; [|exact Hmain]. exact Hmain.
  - assert (dkeys (word_info st) = map e_id l) as ->.
    { rewrite (r_info _ _ _ _ R). unfold dkeys. rewrite map_map. reflexivity. }
    rewrite (rank_value st ns None l) by (auto; apply incl_refl). reflexivity.
Qed.

End Find.

(** ** The score in exact arithmetic *)

Lemma gram_at_length n w i : (1 <= n)%nat -> (i < gram_count n w)%nat -> length (gram_at n w i) = n.
Proof.
  intros Hn Hi. unfold gram_at. rewrite firstn_length, skipn_length, padded_length. unfold gram_count in Hi. lia.
Qed.

Lemma grams_size_eq n w g : (1 <= n)%nat -> In g (grams n w) -> length g = n.
Proof.
  intros Hn I. unfold grams in I. apply in_map_iff in I. destruct I as (i & <- & I). apply in_seq in I.
  apply gram_at_length; auto. lia.
Qed.

Lemma select_flat_map {A} (f : A -> list (str * Qc)) g l : select g (flat_map f l) = flat_map (fun a => select g (f a)) l.
Proof. induction l as [|a l IH]; simpl; auto. rewrite select_app, IH. reflexivity. Qed.

Lemma spots_positions rnd ns n w g : Forall (fun n => (1 <= n)%nat) ns -> NoDup ns -> In n ns -> length g = n ->
  spots rnd ns w g = map rnd (positions n w g).
Proof.
  intros P N I L. unfold spots, occs. rewrite select_flat_map.
  assert (Z0 : forall m, (1 <= m)%nat -> m <> n -> select g (occ rnd m w) = []).
  { intros m Hm D. rewrite occ_select. replace (positions m w g) with (@nil Qc); [reflexivity|]. symmetry. apply positions_nil.
    intros H. apply grams_size_eq in H; auto. congruence. }
  induction ns as [|m ns IH]; [destruct I|]. inversion P; subst. inversion N; subst. cbn [flat_map].
  destruct (Nat.eq_dec m (length g)) as [->|D].
  - rewrite occ_select. rewrite <- (app_nil_r (map rnd _)) at 2. f_equal.
    assert (H : forall l, Forall (fun n => (1 <= n)%nat) l -> ~ In (length g) l -> flat_map (fun a => select g (occ rnd a w)) l = []).
    { induction l as [|a l IHl]; intros F K; simpl; auto. inversion F; subst. rewrite Z0; auto.
      - apply IHl; auto. intros K'. apply K. right; auto.
      - intros ->. apply K. left; auto. }
    apply H; auto.
  - rewrite Z0 by auto. apply IH; auto. destruct I; [congruence|auto].
Qed.

Lemma occs_keys rnd ns w : map fst (occs rnd ns w) = flat_map (fun n => grams n w) ns.
Proof.
  unfold occs. induction ns as [|n ns IH]; simpl; auto. rewrite map_app, IH, occ_keys. reflexivity.
Qed.

Lemma occs_dgetl rnd ns w g : dgetl g (group (occs rnd ns w)) = spots rnd ns w g.
Proof. apply group_get. Qed.

Lemma fold_left_sum {A} (f : A -> Qc) l : forall s, fold_left (fun t g => exact (t + f g)) l s = s + qsum (map f l).
Proof.
  unfold exact. induction l as [|a l IH]; intros s; simpl; [ring|]. rewrite IH. ring.
Qed.

Definition all_sizes (ns : list nat) (q w : str) : list str := flat_map (fun n => all_grams n q w) ns.

Lemma all_sizes_in ns q w g : In g (all_sizes ns q w) <-> exists n, In n ns /\ (In g (grams n q) \/ In g (grams n w)).
Proof. unfold all_sizes. rewrite in_flat_map. setoid_rewrite all_grams_in. reflexivity. Qed.

Lemma all_sizes_nodup ns q w : Forall (fun n => (1 <= n)%nat) ns -> NoDup ns -> NoDup (all_sizes ns q w).
Proof.
  intros P N. unfold all_sizes. induction ns as [|n ns IH]; cbn [flat_map]; [constructor|]. inversion P; subst. inversion N; subst.
  apply NoDup_app_intro; [apply all_grams_nodup|apply IH; auto|].
  intros g H H'. apply all_grams_in in H. assert (length g = n) by (destruct H as [H|H]; apply grams_size_eq in H; auto).
  apply in_flat_map in H'. destruct H' as (m & Hm & H'). apply all_grams_in in H'.
  rewrite Forall_forall in H2. assert (length g = m) by (destruct H' as [H'|H']; apply grams_size_eq in H'; auto).
  congruence.
Qed.

Lemma qsum_flat_map {A B} (F : B -> Qc) (f : A -> list B) l : qsum (map F (flat_map f l)) = qsum (map (fun a => qsum (map F (f a))) l).
Proof. induction l as [|a l IH]; simpl; auto. rewrite map_app, qsum_app, IH. reflexivity. Qed.

Lemma item_exact a b : item exact a b = qn (length a) + qn (length b) - emd a b.
Proof.
  unfold item. rewrite emd_1d_dp_exact. unfold exact, zlen. rewrite <- Nat2Z.inj_add. change (qz (Z.of_nat ?n)) with (qn n).
  rewrite qn_add. reflexivity.
Qed.

Lemma contrib_exact ns q w : Forall (fun n => (1 <= n)%nat) ns -> NoDup ns ->
  contrib exact ns q w = qsum (map (fun n => sim n q w) ns).
Proof.
  intros P N. unfold contrib. rewrite contributions_value.
  rewrite (fold_left_sum (fun g => item exact (dgetl g (group (occs exact ns q))) (dgetl g (group (occs exact ns w))))).
  set (F := fun g => item exact (dgetl g (group (occs exact ns q))) (dgetl g (group (occs exact ns w)))).
  assert (Hk : forall v g, In g (dkeys (group (occs exact ns v))) <-> exists n, In n ns /\ In g (grams n v)).
  { intros v g. rewrite group_keys, occs_keys, in_flat_map. reflexivity. }
  assert (Hz : forall v g, ~ In g (dkeys (group (occs exact ns v))) -> dgetl g (group (occs exact ns v)) = []).
  { intros v g H. unfold dgetl. apply dget_None in H. rewrite H. reflexivity. }
  rewrite (qsum_superset F (@EqDec_list BinNums.N _) _ (all_sizes ns q w)).
  - unfold all_sizes. rewrite qsum_flat_map.
    replace (qsum (map (fun n => qsum (map F (all_grams n q w))) ns)) with (qsum (map (fun n => sim n q w) ns)); [ring|].
    apply qsum_map_ext. intros n I. unfold sim. apply qsum_map_ext. intros g Hg. unfold F, simg. rewrite item_exact, !occs_dgetl.
    assert (length g = n).
    { rewrite Forall_forall in P. apply all_grams_in in Hg. destruct Hg as [Hg|Hg]; apply grams_size_eq in Hg; auto. }
    rewrite !(spots_positions exact ns n) by auto. rewrite !map_exact. reflexivity.
  - apply shared_keys_nodup; apply group_wf.
  - apply all_sizes_nodup; auto.
  - intros g Hg. apply shared_keys_in in Hg. destruct Hg as [Hg _]. apply Hk in Hg. destruct Hg as (n & I & Hg).
    apply all_sizes_in. exists n. auto.
  - intros g _ Hg. unfold F. rewrite item_exact. rewrite shared_keys_in in Hg.
    destruct (in_dec eqd g (dkeys (group (occs exact ns q)))) as [I1|I1].
    + assert (~ In g (dkeys (group (occs exact ns w)))) as I2 by tauto. rewrite (Hz w g I2).
      rewrite emd_nil_r. cbn [length]. rewrite qn_0. ring.
    + rewrite (Hz q g I1). rewrite emd_nil_l. cbn [length]. rewrite qn_0. ring.
Qed.

Lemma qn_total ns w : qn (total_grams ns w) = qsum (map (fun n => qn (gram_count n w)) ns).
Proof. unfold total_grams. rewrite qn_list_sum, map_map. reflexivity. Qed.

Lemma contrib_dist ns q w : Forall (fun n => (1 <= n)%nat) ns -> NoDup ns ->
  contrib exact ns q w = qn (total_grams ns q + total_grams ns w) - qsum (map (fun n => dist n q w) ns).
Proof.
  intros P N. rewrite contrib_exact by auto. rewrite qn_add, !qn_total, <- qsum_map_add, <- qsum_map_sub.
  apply qsum_map_ext. intros n _. apply sim_dist.
Qed.

Lemma clamp_id x : 0 <= x -> x <= 1 -> qmax 0 (qmin 1 x) = x.
Proof.
  intros H1 H2. unfold qmax, qmin. destruct (qleb 1 x) eqn:E.
  - apply qleb_le in E. assert (x = 1) as -> by (apply Qcle_antisym; auto). reflexivity.
  - apply qleb_le in H1. rewrite H1. reflexivity.
Qed.

Lemma wscore_exact ns q w : Forall (fun n => (1 <= n)%nat) ns -> NoDup ns -> (0 < total_grams ns q + total_grams ns w)%nat ->
  wscore exact ns q w = 1 - qsum (map (fun n => dist n q w) ns) / qn (total_grams ns q + total_grams ns w).
Proof.
  intros P N T. unfold wscore. set (t := qn (total_grams ns q + total_grams ns w)).
  assert (Tp : 0 < t) by (apply qn_pos; auto). assert (Tn : t <> 0) by (intros E; rewrite E in Tp; apply Qclt_not_eq in Tp; congruence).
  unfold exact at 1. rewrite clamp_id.
  - rewrite contrib_dist by auto. fold t. field. exact Tn.
  - apply qdiv_nonneg; auto. rewrite contrib_exact by auto. apply qsum_map_nonneg. intros n _. apply sim_nonneg.
  - apply qdiv_le_1; auto. rewrite contrib_dist by auto. fold t.
    assert (D : 0 <= qsum (map (fun n => dist n q w) ns)) by (apply qsum_map_nonneg; intros; apply dist_nonneg).
    set (d := qsum _) in *. clear - D. qclra.
Qed.

Lemma wscore_is_score ns q w : Forall (fun n => (1 <= n)%nat) ns -> NoDup ns -> (0 < total_grams ns q + total_grams ns w)%nat ->
  is_score ns q w (wscore exact ns q w).
Proof.
  intros P N T. exists (fun n => dist n q w). split; [intros; apply dist_is_nmd|]. apply wscore_exact; auto.
Qed.

Lemma wscore_one_iff ns q w : Forall (fun n => (1 <= n)%nat) ns -> NoDup ns -> (0 < total_grams ns q)%nat ->
  wscore exact ns q w = 1 <-> q = w.
Proof.
  intros P N T. rewrite wscore_exact by (auto; lia). set (t := qn (total_grams ns q + total_grams ns w)).
  assert (Tp : 0 < t) by (apply qn_pos; lia). assert (Tn : t <> 0) by (intros E; rewrite E in Tp; apply Qclt_not_eq in Tp; congruence).
  split.
  - intros E. assert (D : qsum (map (fun n => dist n q w) ns) = 0).
    { set (d := qsum _) in *. assert (d / t = 0). { assert (d / t = 1 - (1 - d / t)) as -> by ring. rewrite E. ring. }
      assert (d = (d / t) * t) as -> by (field; auto). rewrite H. ring. }
    assert (Hn : exists n, In n ns /\ (0 < gram_count n q)%nat).
    { clear - T. unfold total_grams in T. induction ns as [|n ns IH]; [simpl in T; lia|].
      destruct (gram_count n q) eqn:Ec.
      - destruct IH as (m & I & H). { cbn [map list_sum fold_right] in T. unfold list_sum in T. cbn [fold_right] in T. unfold list_sum. lia. }
        exists m. split; [right; auto|auto].
      - exists n. split; [left; auto|lia]. }
    destruct Hn as (n & I & Hc).
    assert (D0 : dist n q w = 0).
    { apply (qsum_map_zero_inv (fun n => dist n q w) ns); auto.
      - intros; apply dist_nonneg.
      - rewrite D. apply Qcle_refl. }
    pose proof (positions_perm_count n q w (dist_zero_positions n q w D0)) as Ec.
    rewrite Forall_forall in P. specialize (P n I).
    apply (dist_zero_eq n); auto; unfold gram_count in *; lia.
  - intros <-. rewrite (qsum_map_zero (fun n => dist n q q)); [|intros; apply dist_self]. field. auto.
Qed.

Lemma wscore_pos ns q w n : Forall (fun n => (1 <= n)%nat) ns -> NoDup ns -> In n ns -> share_gram n q w ->
  0 < wscore exact ns q w.
Proof.
  intros P N I H.
  assert (T : (0 < total_grams ns q + total_grams ns w)%nat).
  { destruct H as (g & Hg & _). assert (0 < gram_count n q)%nat.
    { rewrite <- grams_length. destruct (grams n q); [destruct Hg|simpl; lia]. }
    pose proof (total_pos ns n q I H). lia. }
  destruct (Qcle_lt_or_eq _ _ (proj1 (wscore_range exact ns q w))) as [|E]; auto. exfalso.
  rewrite wscore_exact in E by auto. set (t := qn (total_grams ns q + total_grams ns w)) in *.
  assert (Tp : 0 < t) by (apply qn_pos; lia). assert (Tn : t <> 0) by (intros E'; rewrite E' in Tp; apply Qclt_not_eq in Tp; congruence).
  assert (C0 : contrib exact ns q w = 0).
  { rewrite contrib_dist by auto. fold t. set (d := qsum _) in *.
    assert (d / t = 1). { assert (d / t = 1 - (1 - d / t)) as -> by ring. rewrite <- E. ring. }
    assert (d = (d / t) * t) as -> by (field; auto). rewrite H0. ring. }
  rewrite contrib_exact in C0 by auto.
  assert (S0 : sim n q w = 0).
  { apply (qsum_map_zero_inv (fun n => sim n q w) ns); auto.
    - intros; apply sim_nonneg.
    - rewrite C0. apply Qcle_refl. }
  apply sim_zero_iff in S0. contradiction.
Qed.

(** ** The score of a word with itself, in floating point *)

Section Lawful.
Variable rnd : Qc -> Qc.
Hypothesis L : lawful rnd.

Lemma item_self a : small (length a + length a) -> item rnd a a = qn (length a + length a).
Proof.
  intros Sm. unfold item. rewrite (proj2 (dp_float_zero_iff rnd L a a)) by apply Permutation_refl.
  unfold zlen. rewrite <- Nat2Z.inj_add. change (qz (Z.of_nat ?n)) with (qn n).
  replace (qn (length a + length a) - 0) with (qn (length a + length a)) by ring. apply rnd_qn; auto.
Qed.

Lemma list_sum_app l1 l2 : list_sum (l1 ++ l2) = (list_sum l1 + list_sum l2)%nat.
Proof. induction l1; simpl; auto. unfold list_sum in *. simpl. lia. Qed.

Lemma self_loop (d : dict str (list Qc)) gs : forall K,
  small (K + list_sum (map (fun g => length (dgetl g d) + length (dgetl g d))%nat gs)) ->
  fold_left (fun t g => rnd (t + item rnd (dgetl g d) (dgetl g d))) gs (qn K) =
  qn (K + list_sum (map (fun g => length (dgetl g d) + length (dgetl g d))%nat gs)).
Proof.
  induction gs as [|g gs IH]; intros K H; cbn [fold_left map]; [f_equal; simpl; lia|].
  cbn [map] in H. change (list_sum (?a :: ?b)) with (a + list_sum b)%nat in *.
  rewrite item_self by (eapply small_le; [|exact H]; lia). rewrite <- qn_add.
  rewrite (rnd_qn rnd L) by (eapply small_le; [|exact H]; lia). rewrite IH; [f_equal; lia|].
  eapply small_le; [|exact H]. lia.
Qed.

Lemma spots_total ns w gs : NoDup gs -> (forall g, In g (map fst (occs rnd ns w)) -> In g gs) ->
  list_sum (map (fun g => length (spots rnd ns w g)) gs) = length (occs rnd ns w).
Proof.
  intros N. unfold spots. generalize (occs rnd ns w). intros kvs. induction kvs as [|[a v] kvs IH]; intros H; cbn [map length].
  - clear. induction gs; simpl; auto.
  - rewrite <- IH by (intros g I; apply H; right; auto).
    assert (Ha : In a gs) by (apply H; left; auto). clear IH H.
    assert (E : forall g, length (select g ((a, v) :: kvs)) = ((if eqd a g then 1 else 0) + length (select g kvs))%nat).
    { intros g. unfold select. cbn [filter fst]. destruct (eqd a g); reflexivity. }
    induction gs as [|b gs IH]; [destruct Ha|]. inversion N; subst. cbn [map].
    change (list_sum (?x :: ?y)) with (x + list_sum y)%nat. rewrite E. destruct (eqd a b) as [->|D].
    + assert (Hz : map (fun g => length (select g ((b, v) :: kvs))) gs = map (fun g => length (select g kvs)) gs).
      { apply map_ext_in. intros g I. rewrite E. destruct (eqd b g) as [->|]; [contradiction|reflexivity]. }
      rewrite Hz. lia.
    + destruct Ha as [->|Ha]; [congruence|]. rewrite IH by auto. lia.
Qed.

Lemma occs_length ns w : length (occs rnd ns w) = total_grams ns w.
Proof.
  unfold occs, total_grams. induction ns as [|n ns IH]; cbn [flat_map map]; auto. rewrite app_length, IH.
  unfold occ at 1. rewrite map_length, seq_length. reflexivity.
Qed.

Lemma wscore_self ns w : (0 < total_grams ns w)%nat -> small (total_grams ns w + total_grams ns w) -> wscore rnd ns w w = 1.
Proof.
  intros T Sm. unfold wscore. assert (contrib rnd ns w w = qn (total_grams ns w + total_grams ns w)) as ->.
  { unfold contrib. rewrite contributions_value. set (d := group (occs rnd ns w)). rewrite <- qn_0.
    assert (E : list_sum (map (fun g => length (dgetl g d) + length (dgetl g d))%nat (shared_keys d d)) =
                (total_grams ns w + total_grams ns w)%nat).
    { rewrite <- (occs_length ns w) at 1 2. rewrite <- (spots_total ns w (shared_keys d d)).
      - generalize (shared_keys d d). intros gs. induction gs as [|g gs IH]; [reflexivity|]. cbn [map].
        change (list_sum (?x :: ?y)) with (x + list_sum y)%nat. rewrite IH. unfold d. rewrite occs_dgetl. lia.
      - apply shared_keys_nodup; apply group_wf.
      - intros g I. apply shared_keys_in. unfold d. split; apply group_keys; auto. }
    rewrite self_loop; rewrite E; auto. }
  set (t := qn _). assert (Tp : 0 < t) by (apply qn_pos; lia).
  assert (Tn : t <> 0) by (intros E'; rewrite E' in Tp; apply Qclt_not_eq in Tp; congruence).
  replace (t / t) with (1 : Qc) by (field; auto). rewrite rnd_1 by auto. reflexivity.
Qed.

End Lawful.
