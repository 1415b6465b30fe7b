(** [WordList] and [ApproxWordListV5] with gradual underflow: building and
    looking up give the same as with an unbounded exponent. *)
From Coq Require Import ZArith NArith QArith Qcanon List Bool Permutation Lia.
From Verif Require Import Num Py ListAux PyDict Float64 EmdSpec EmdModel EmdProofs EmdFloatProofs NmdSpec NmdModel NmdProofs NmdFloatProofs Accuracy LookupFloat NmdAccuracy.
From Verif Require Import IndexSpec IndexModel IndexProofs IndexLoops IndexLookupProofs IndexResult IndexTop IndexFacts Ieee NmdIeee.
Import ListNotations.
Open Scope Qc_scope.

(** ** Two runs of a loop of events *)

Fixpoint along (Fs Gs : list (Qc -> result Qc)) (v : Qc) : Prop :=
  match Fs, Gs with
  | [], [] => True
  | F :: Fs, G :: Gs => F v = G v /\ forall v', G v = Ok v' -> along Fs Gs v'
  | _, _ => False
  end.

Lemma default_nth N (i0 : nat) d i k : nth k (dgetl i (if dmem i0 d then d else dset i0 (repeat 0 N) d)) 0 = nth k (dgetl i d) 0.
Proof.
  unfold dmem. destruct (dget i0 d) eqn:E; auto. unfold dgetl. destruct (Nat.eq_dec i i0) as [->|Ni].
  - rewrite dget_dset_eq, E, nth_repeat. destruct k; reflexivity.
  - rewrite dget_dset_neq by auto. reflexivity.
Qed.

Lemma loop_agree N al evs : forall evs' d, map fst evs = map fst evs' -> (forall i k F, In (i, k, F) evs -> (k < N)%nat) -> shaped N d ->
  (forall i k, al i = true -> along (sel i k evs) (sel i k evs') (nth k (dgetl i d) 0)) ->
  foldM (ev_step N al) evs d = foldM (ev_step N al) evs' d.
Proof.
  induction evs as [|[[i0 k0] F] evs IH]; intros [|[[i1 k1] G] evs'] d M HN Sh A; try discriminate; auto.
  cbn [map fst] in M. assert (Hi : i1 = i0) by congruence. assert (Hk : k1 = k0) by congruence. subst i1 k1. assert (M' : map fst evs = map fst evs') by congruence. clear M.
  assert (HN' : forall i k F, In (i, k, F) evs -> (k < N)%nat) by (intros; eapply HN; right; eauto).
  cbn [foldM]. unfold ev_step at 1 3. destruct (al i0) eqn:E0.
  - set (d1 := if dmem i0 d then d else dset i0 (repeat 0 N) d).
    assert (E1 : forall i k, nth k (dgetl i d1) 0 = nth k (dgetl i d) 0) by (intros; apply default_nth).
    destruct (default_get N i0 d Sh) as [G1 G2]. fold d1 in G1, G2.
    assert (Sh1 : shaped N d1) by (apply shaped_default; auto).
    pose proof (A i0 k0 E0) as A0. unfold sel in A0. cbn [flat_map fst snd] in A0. rewrite !Nat.eqb_refl in A0. cbn [andb app] in A0.
    destruct A0 as [EF AF]. fold (sel i0 k0 evs) in AF. fold (sel i0 k0 evs') in AF. rewrite E1, EF.
    destruct (G (nth k0 (dgetl i0 d) 0)) as [v'|e]; [|reflexivity]. cbn [bind].
    specialize (AF v' eq_refl). apply IH; auto.
    + apply shaped_dset; auto. rewrite list_set_length. auto.
    + intros i k Hal. assert (K0 : (k0 < N)%nat) by (eapply HN; left; reflexivity).
      pose proof (A i k Hal) as Aik. unfold sel in Aik. cbn [flat_map fst snd] in Aik. fold (sel i k evs) in Aik. fold (sel i k evs') in Aik.
      unfold dgetl at 1. destruct (Nat.eq_dec i i0) as [->|Ni].
      * rewrite dget_dset_eq. destruct (Nat.eq_dec k k0) as [->|Nk].
        -- rewrite nth_list_set_eq by lia. exact AF.
        -- rewrite nth_list_set_neq by auto. rewrite E1. destruct (Nat.eqb_spec k0 k); [congruence|]. rewrite andb_false_r in Aik. exact Aik.
      * rewrite dget_dset_neq by auto. fold (dgetl i d1). rewrite E1. destruct (Nat.eqb_spec i0 i); [congruence|]. exact Aik.
  - cbn [bind]. apply IH; auto. intros i k Hal. pose proof (A i k Hal) as Aik. unfold sel in Aik. cbn [flat_map fst snd] in Aik. fold (sel i k evs) in Aik. fold (sel i k evs') in Aik.
    destruct (Nat.eqb_spec i0 i); [congruence|]. exact Aik.
Qed.

Lemma events_fst {X} st (items : Z -> list (str * X)) G G' : map fst (events st items G) = map fst (events st items G').
Proof.
  unfold events. rewrite !flat_map_concat_map, !concat_map, !map_map. f_equal. apply map_ext. intros kn.
  rewrite !flat_map_concat_map, !concat_map, !map_map. f_equal. apply map_ext. intros gx. rewrite !map_map. reflexivity.
Qed.

(** ** Values *)

(** Multiples of [2^-e] of size at most [K]. *)
Definition fit (e : Z) (K : nat) (v : Qc) : Prop := grid e v /\ qabs v <= qn K.

Lemma fit_le e e' K K' v : (e <= e')%Z -> (K <= K')%nat -> fit e K v -> fit e' K' v.
Proof. intros He HK [G B]. split; [eapply grid_finer; eauto|]. eapply Qcle_trans; [exact B|]. apply qn_le; auto. Qed.
Lemma fit_0 e K : (0 <= e)%Z -> fit e K 0.
Proof. intros He. split; [change 0 with (qz 0); apply grid_qz; auto|]. change (qabs 0) with 0. apply qn_nonneg. Qed.
Lemma fit_add e K K' a b : fit e K a -> fit e K' b -> fit e (K + K') (a + b).
Proof. intros [G B] [G' B']. split; [apply grid_add; auto|]. rewrite qn_add. clear - B B'. qclra. Qed.
Lemma fit_sub e K K' a b : fit e K a -> fit e K' b -> fit e (K + K') (a - b).
Proof. intros [G B] [G' B']. split; [apply grid_sub; auto|]. rewrite qn_add. clear - B B'. qclra. Qed.
Lemma fit_rnd64 e K v : small K -> fit e K v -> fit e K (rnd64 v).
Proof.
  intros S [G B]. split; [apply grid_rnd64; auto|].
  assert (v <= qn K) by (clear - B; qclra). assert (- v <= qn K) by (clear - B; qclra).
  pose proof (rnd_le_qn rnd64 rnd64_lawful v K S H) as H1. pose proof (rnd_le_qn rnd64 rnd64_lawful (- v) K S H0) as H2. rewrite (rnd_odd _ rnd64_lawful) in H2.
  set (r := rnd64 v) in *. clear - H1 H2. qclra.
Qed.

Section Double.
Variable rnd : Qc -> Qc.
Hypothesis D : double_rounding rnd.

Lemma small_bound K v : small K -> qabs v <= qn K -> qabs v < p2 1023.
Proof. intros S B. pose proof (qn_small_p2 _ S) as P. pose proof (p2_lt 53 1023 ltac:(lia)) as PL. eapply Qcle_lt_trans; [exact B|]. eapply Qcle_lt_trans; eauto. Qed.
Lemma fit_same e K v : (e <= 1074)%Z -> small K -> fit e K v -> rnd v = rnd64 v.
Proof.
  intros He S [G B]. apply double_same; auto; [left; eapply grid_finer; eauto|]. eapply small_bound; eauto.
Qed.
Lemma double_0 : rnd 0 = 0.
Proof. rewrite (fit_same 0 0 0); [apply (rnd_0 _ rnd64_lawful)|lia|unfold small; lia|apply fit_0; lia]. Qed.

(** A quotient by an integer. *)
Lemma quot_same e K v z : (0 <= e <= 900)%Z -> small K -> fit e K v -> z <> 0%Z -> (Z.abs z <= 2 ^ 53)%Z ->
  rnd (v / qz z) = rnd64 (v / qz z) /\ fit (e + 105) K (rnd64 (v / qz z)).
Proof.
  intros He S [G B] Nz Hz.
  destruct (qc_eq_dec v 0) as [->|Nv].
  - replace (0 / qz z) with 0 by (unfold Qcdiv; ring). split; [apply (fit_same 0 0); [lia|unfold small; lia|apply fit_0; lia]|].
    rewrite (rnd_0 _ rnd64_lawful). apply fit_0. lia.
  - assert (QT : qabs (qz z) <= p2 53).
    { rewrite p2_qz by lia. assert (qz z <= qz (2 ^ 53)) by (apply (proj1 (qz_le _ _)); lia).
      assert (qz (- 2 ^ 53) <= qz z) by (apply (proj1 (qz_le _ _)); lia). rewrite qz_opp in H0. set (u := qz (2 ^ 53)) in *. clear - H H0. qclra. }
    assert (TN : qz z <> 0) by (intros F; apply (qz_inj z 0) in F; auto).
    assert (T1 : 1 <= qabs (qz z)) by (apply (grid_lower 0 (qz z) (grid_qz 0 z ltac:(lia)) TN)).
    assert (EA : qabs (v / qz z) = qabs v / qabs (qz z)).
    { apply Qc_is_canon. rewrite this_div, !this_qabs, this_div. unfold Qdiv. rewrite Qabs.Qabs_Qmult, Qabs.Qabs_Qinv. reflexivity. }
    assert (PT : 0 < qabs (qz z)) by (clear - T1; qclra).
    pose proof (grid_lower e v G Nv) as LO.
    assert (LQ : p2 (- (e + 53)) <= qabs (v / qz z)).
    { rewrite EA. apply qdiv_ge; auto. eapply Qcle_trans; [|exact LO].
      eapply Qcle_trans; [apply qmul_le_l; [apply Qclt_le_weak, p2_pos|exact QT]|].
      rewrite <- p2_plus. apply p2_mono. lia. }
    assert (UQ : qabs (v / qz z) <= qn K).
    { rewrite EA. apply Qcle_trans with (qabs v); auto.
      apply qdiv_le_mul; auto. rewrite <- (Qcmult_1_r (qabs v)) at 1. apply qmul_le_l; auto. apply qabs_nonneg. }
    split; [|split].
    + apply double_same; auto; [|eapply small_bound; eauto]. right. eapply Qcle_trans; [|exact LQ]. apply p2_mono. lia.
    + set (t := v / qz z) in *. replace (e + 105)%Z with (e + 53 + 52)%Z by lia. unfold qabs in LQ. destruct (qleb 0 t) eqn:Sg.
      * apply rnd64_coarse. exact LQ.
      * assert (t = - - t) as -> by ring. rewrite (rnd_odd _ rnd64_lawful). apply grid_opp. apply rnd64_coarse. exact LQ.
    + assert (v / qz z <= qn K) by (clear - UQ; set (t := v / qz z) in *; clearbody t; qclra). assert (- (v / qz z) <= qn K) by (clear - UQ; set (t := v / qz z) in *; clearbody t; qclra).
      pose proof (rnd_le_qn rnd64 rnd64_lawful _ K S H) as H1. pose proof (rnd_le_qn rnd64 rnd64_lawful _ K S H0) as H2. rewrite (rnd_odd _ rnd64_lawful) in H2.
      set (r := rnd64 (v / qz z)) in *. clear - H1 H2. qclra.
Qed.

Lemma fit_qz e z K : (0 <= e)%Z -> (Z.abs z <= Z.of_nat K)%Z -> fit e K (qz z).
Proof.
  intros He Hz. split; [apply grid_qz; auto|]. unfold qn.
  assert (qz z <= qz (Z.of_nat K)) by (apply (proj1 (qz_le _ _)); lia).
  assert (qz (- Z.of_nat K) <= qz z) by (apply (proj1 (qz_le _ _)); lia). rewrite qz_opp in H0. set (u := qz (Z.of_nat K)) in *. clear - H H0. qclra.
Qed.

(** Positions. *)
Lemma gocc_double l : small (length l) -> gocc rnd l = gocc rnd64 l.
Proof.
  intros S. unfold gocc. apply map_ext_in. intros [z g] Hz. cbn [fst snd]. f_equal.
  rewrite (enumerate_map l []) in Hz. apply in_map_iff in Hz. destruct Hz as (i & [= <- _] & Hi). apply in_seq in Hi.
  apply (quot_same 0 (length l)); auto; unfold small, zlen in *; try lia. apply fit_qz; lia.
Qed.
Lemma gocc_grid l g x : small (length l) -> dget g (group (gocc rnd64 l)) = Some x -> Forall (grid 105) x.
Proof.
  intros S H. apply dget_In, group_item in H. destruct H as [-> _]. apply Forall_forall.
  intros v Hv. unfold select in Hv. apply in_map_iff in Hv. destruct Hv as ([g' v'] & <- & Hv). apply filter_In in Hv.
  destruct Hv as [Hv _]. unfold gocc in Hv. apply in_map_iff in Hv. destruct Hv as ([z g1] & [= <- <-] & Hz). cbn [fst snd].
  rewrite (enumerate_map l []) in Hz. apply in_map_iff in Hz. destruct Hz as (i & [= <- _] & Hi). apply in_seq in Hi.
  eapply (quot_same 0 (length l)); auto; unfold small, zlen in *; try lia. apply fit_qz; lia.
Qed.

(** Means. *)
Lemma fsum_same e B l : (0 <= e <= 900)%Z -> Forall (fit e B) l -> forall K s, fit e K s -> small (K + length l * B) ->
  fold_left (fun a x => rnd (a + x)) l s = fold_left (fun a x => rnd64 (a + x)) l s /\ fit e (K + length l * B) (fold_left (fun a x => rnd64 (a + x)) l s).
Proof.
  intros He. induction 1 as [|x l Hx Hl IH]; intros K s Hs Sm; cbn [fold_left length] in *.
  - rewrite Nat.add_0_r. auto.
  - assert (F : fit e (K + B) (s + x)) by (apply fit_add; auto).
    assert (S' : small (K + B)) by (eapply small_le; [|exact Sm]; lia).
    rewrite (fit_same e (K + B)) by (auto; lia).
    replace (K + S (length l) * B)%nat with ((K + B) + length l * B)%nat in * by lia.
    apply IH; auto. apply fit_rnd64; auto.
Qed.
Lemma mean_same e B l : (0 <= e <= 900)%Z -> Forall (fit e B) l -> l <> [] -> small (length l * B) -> small (length l) ->
  mean1 rnd l = mean1 rnd64 l /\ fit (e + 105) (length l * B) (mean1 rnd64 l).
Proof.
  intros He F N S S'. unfold mean1, fsum. destruct (fsum_same e B l He F 0 0) as [E G]; [apply fit_0; lia|exact S|].
  rewrite E. cbn [Nat.add] in G. apply (quot_same e); auto.
  - unfold zlen. destruct l; [congruence|cbn [length]; lia].
  - unfold zlen. unfold small in S'. lia.
Qed.

(** ** Lookups *)
Section Lookup.
Variable casefold : str -> str.
Variable st : wordlist.
Hypothesis I : inv rnd64 casefold st.
Hypothesis I' : inv rnd casefold st.
Variable q : str.
(** Sizes. *)
Definition lengths : Prop := (zlen q <= 2 ^ 30)%Z /\ Forall (fun w => zlen w <= 2 ^ 30)%Z (word_list st) /\
  Forall (fun n => n <= 2 ^ 51)%Z (n_list st) /\ (zlen (n_list st) <= 2 ^ 20)%Z.
Hypothesis B : lengths.

Notation W := (word_list st).
Notation NL := (n_list st).

Lemma grams_bound w n : (zlen w <= 2 ^ 30)%Z -> (0 < n)%Z -> (zlen (get_n_grams w n) <= 2 ^ 30 + 2)%Z.
Proof. intros H Hn. rewrite get_n_grams_length. unfold size. destruct (Z.ltb_spec 1 n); lia. Qed.
Lemma grams_small w n : (zlen w <= 2 ^ 30)%Z -> (0 < n)%Z -> (Z.of_nat (length (get_n_grams w n)) <= 2 ^ 30 + 2)%Z.
Proof. apply grams_bound. Qed.
Lemma wd_bound i : (zlen (wd st i) <= 2 ^ 30)%Z.
Proof.
  destruct B as (_ & F & _). destruct (Nat.lt_ge_cases i (length W)) as [H|H].
  - rewrite Forall_forall in F. apply F. unfold wd. apply nth_In; auto.
  - unfold wd. rewrite nth_overflow by auto. unfold zlen. cbn. lia.
Qed.
Lemma NLp n : In n NL -> (0 < n)%Z. Proof. apply (NL_pos rnd64 casefold st I). Qed.
Lemma NLb n : In n NL -> (n <= 2 ^ 51)%Z. Proof. destruct B as (_ & _ & F & _). rewrite Forall_forall in F. auto. Qed.

Lemma items_double n : In n NL -> items rnd q n = items rnd64 q n.
Proof. intros Hn. unfold items. rewrite gocc_double; auto. pose proof (grams_small q n (proj1 B) (NLp n Hn)). unfold small. lia. Qed.

Lemma items_fit n g x : In n NL -> In (g, x) (items rnd64 q n) -> in_unit x /\ Forall (grid 105) x.
Proof.
  intros Hn H. apply In_dget in H; [|apply group_wf]. split; [eapply (gocc_unit rnd64 rnd64_lawful); eauto|].
  eapply gocc_grid; [|exact H]. pose proof (grams_small q n (proj1 B) (NLp n Hn)). unfold small. lia.
Qed.
Lemma locs_fit i g l : In (zlen g) NL -> locs rnd64 (wd st i) g = l -> in_unit l /\ Forall (grid 105) l.
Proof.
  intros Hn E. destruct l as [|y l]; [split; constructor|].
  pose proof (locs_dget rnd64 (wd st i) (zlen g) g (NLp _ Hn)) as H. rewrite Z.eqb_refl, E in H.
  split; [eapply (gocc_unit rnd64 rnd64_lawful); eauto|]. eapply gocc_grid; [|exact H].
  pose proof (grams_small (wd st i) (zlen g) (wd_bound i) (NLp _ Hn)). unfold small. lia.
Qed.

(** *** Counts *)
Definition wt (its : list (str * list Qc)) : nat := list_sum (map (fun gx => length (snd gx)) its).
Lemma wt_dset g l d : (wt (dset g l d) + length (dgetl g d) = wt d + length l)%nat.
Proof.
  unfold wt, dgetl. induction d as [|[a b] d IH]; cbn; [lia|]. destruct (eqd g a) as [->|N]; cbn; [lia|].
  unfold list_sum in *. lia.
Qed.
Lemma wt_group kvs : wt (group kvs) = length kvs.
Proof.
  induction kvs as [|[g v] kvs IH] using rev_ind; [reflexivity|]. rewrite group_snoc. unfold dappend. cbn [fst snd].
  rewrite app_length. cbn [length]. destruct (dget g (group kvs)) as [l|] eqn:E.
  - pose proof (wt_dset g (l ++ [v]) (group kvs)) as H. rewrite app_length in H. unfold dgetl in H. rewrite E in H. cbn [length] in H. lia.
  - pose proof (wt_dset g [v] (group kvs)) as H. unfold dgetl in H. rewrite E in H. cbn [length] in H. lia.
Qed.
Lemma items_wt n : wt (items rnd64 q n) = length (get_n_grams q n).
Proof. unfold items. rewrite wt_group. rewrite <- (gocc_keys rnd64 (get_n_grams q n)) at 2. rewrite map_length. reflexivity. Qed.

Notation clist r nz n i its := (flat_map (fun gx : str * list Qc => match locs rnd64 (wd st i) (fst gx) with [] => [] | l => [count_fun r st q nz n (snd gx) i l] end) its).

Lemma count_along nz n i its : In n NL -> (forall g x, In (g, x) its -> zlen g = n /\ In g (get_n_grams q n)) -> forall K v, fit 105 K v -> small (K + wt its) ->
  along (clist rnd nz n i its) (clist rnd64 nz n i its) v /\
  forall v', foldM appl (clist rnd64 nz n i its) v = Ok v' -> fit 105 (K + wt its) v'.
Proof.
  intros Hn. induction its as [|[g x] its IH]; intros H K v Hv Sm.
  - cbn. split; auto. intros v' E. assert (v' = v) as -> by congruence. rewrite Nat.add_0_r. auto.
  - assert (H' : forall g x, In (g, x) its -> zlen g = n /\ In g (get_n_grams q n)) by (intros; eapply H; right; eauto).
    destruct (H g x (or_introl eq_refl)) as [Hz Hg].
    assert (Ew : wt ((g, x) :: its) = (length x + wt its)%nat) by reflexivity. rewrite Ew in *.
    cbn [flat_map fst snd]. destruct (locs rnd64 (wd st i) g) as [|y l] eqn:E.
    + cbn [app]. destruct (IH H' K v Hv) as [A F]; [eapply small_le; [|exact Sm]; lia|]. split; auto.
      intros v' Ev. apply (fit_le 105 105 (K + wt its)); [lia|lia|auto].
    + cbn [app along foldM]. unfold appl at 1.
      set (m := Z.min (zlen x) (zlen (y :: l))).
      assert (Hm : (0 <= m <= Z.of_nat (length x))%Z) by (unfold m, zlen; lia).
      assert (X : count_fun rnd st q nz n x i (y :: l) v = count_fun rnd64 st q nz n x i (y :: l) v /\
        forall v', count_fun rnd64 st q nz n x i (y :: l) v = Ok v' -> fit 105 (K + length x) v').
      { unfold count_fun. fold m. destruct nz.
        - destruct (Z.eqb_spec (size n q + size n (wd st i)) 0) as [|Nd]; [split; [reflexivity|discriminate]|].
          destruct (quot_same 0 (length x) (qz m) (size n q + size n (wd st i))) as [Q1 Q2]; auto; try lia.
          { eapply small_le; [|exact Sm]; lia. }
          { apply fit_qz; lia. }
          { pose proof (proj1 B). pose proof (wd_bound i). pose proof (NLb n Hn). pose proof (NLp n Hn). unfold size. pose proof (zlen_nonneg q). pose proof (zlen_nonneg (wd st i)). destruct (1 <? n)%Z; lia. }
          cbn [Z.add] in Q2. rewrite Q1. assert (F : fit 105 (K + length x) (v + rnd64 (qz m / qz (size n q + size n (wd st i))))) by (apply fit_add; auto).
          assert (S1 : small (K + length x)) by (eapply small_le; [|exact Sm]; lia).
          rewrite (fit_same 105 (K + length x)) by (auto; lia). split; auto.
          intros v' [= <-]. apply fit_rnd64; auto.
        - split; auto. intros v' [= <-]. apply fit_add; auto. apply fit_qz; lia. }
      destruct X as [X1 X2]. split; [split; auto|].
      * intros v' Ev. apply (IH H' (K + length x)%nat v' (X2 v' Ev)). eapply small_le; [|exact Sm]; lia.
      * intros v' Ev. apply bind_ok in Ev. destruct Ev as (v1 & E1 & E2). rewrite Nat.add_assoc.
        eapply (IH H' (K + length x)%nat v1 (X2 v1 E1)); [|exact E2]. eapply small_le; [|exact Sm]; lia.
Qed.

Lemma min_scores_double nz poss : min_scores rnd st q nz poss = min_scores rnd64 st q nz poss.
Proof.
  rewrite (min_scores_events rnd casefold st I' q), (min_scores_events rnd64 casefold st I q).
  assert (E : events st (items rnd q) (count_fun rnd st q nz) = events st (items rnd64 q) (count_fun rnd st q nz)).
  { unfold events. apply flat_map_ext_in. intros [k n] Hkn. cbn [fst snd]. apply numbered_in, nth_error_In in Hkn. rewrite items_double by auto. reflexivity. }
  rewrite E. assert (Hz : forall m g x, In m NL -> In (g, x) (items rnd64 q m) -> zlen g = m) by (intros; eapply (items_zlen rnd64 casefold st I q); eauto).
  apply loop_agree.
  - apply events_fst.
  - intros i k F H. eapply events_k; eauto.
  - intros i l H. discriminate.
  - intros i k _. cbn [dgetl dget]. replace (nth k [] 0) with 0 by (destruct k; reflexivity).
    destruct (nth_error NL k) as [n|] eqn:Ek; [destruct (Nat.lt_ge_cases i (length W)) as [Hi|Hi]|].
    + rewrite !(sel_events rnd64 casefold st I _ _ i k n (wd st i)) by (auto; apply wd_nth_error; auto).
      assert (Hn : In n NL) by (eapply nth_error_In; eauto).
      apply (count_along nz n i (items rnd64 q n) Hn) with (K := 0%nat).
      * intros g x Hg. eapply (items_in rnd64 casefold st I q); eauto.
      * apply fit_0; lia.
      * rewrite items_wt. pose proof (grams_small q n (proj1 B) (NLp n Hn)). unfold small. lia.
    + rewrite !(sel_out rnd64 casefold st I) by (left; lia). exact Logic.I.
    + assert (~ (k < length NL)%nat) by (intros C; apply nth_error_Some in C; congruence).
      rewrite !(sel_out rnd64 casefold st I) by auto. exact Logic.I.
Qed.

(** The number of additions is bounded by [2^30 + 2]. *)
Definition M : nat := Z.to_nat (2 ^ 30 + 2).
Lemma M_z : Z.of_nat M = (2 ^ 30 + 2)%Z. Proof. unfold M. rewrite Z2Nat.id; lia. Qed.
Local Opaque M.

Lemma min_scores_fit o nz ms : fair o -> min_scores rnd64 st q nz (filter_set o st q) = Ok ms ->
  forall i l, In (i, l) ms -> length l = length NL /\ Forall (fit 105 M) l.
Proof.
  intros F E i l H. destruct (min_scores_spec rnd64 casefold st I q o nz F) as (ms' & E' & Wf & _ & V).
  assert (ms' = ms) by congruence. subst ms'. apply In_dget in H; auto. destruct (V i l H) as [Ln Vk]. split; auto.
  apply Forall_forall. intros v Hv. apply (In_nth _ _ 0) in Hv. destruct Hv as (k & Hk & <-).
  destruct (nth_error NL k) as [n|] eqn:Ek; [|apply nth_error_None in Ek; lia].
  specialize (Vk k n Ek). assert (Hn : In n NL) by (eapply nth_error_In; eauto).
  pose proof (grams_small q n (proj1 B) (NLp n Hn)) as GB.
  destruct (count_along nz n i (items rnd64 q n) Hn) with (K := 0%nat) (v := 0 : Qc) as [_ X].
  - intros g x Hg. eapply (items_in rnd64 casefold st I q); eauto.
  - apply fit_0; lia.
  - rewrite items_wt. unfold small. lia.
  - apply (fit_le 105 105 (0 + wt (items rnd64 q n))); [lia|rewrite items_wt; pose proof M_z; lia|]. apply X. exact Vk.
Qed.

(** *** Matches *)
Notation mlist r n i its := (flat_map (fun gx : str * list Qc => match locs rnd64 (wd st i) (fst gx) with [] => [] | l => [match_fun r n (snd gx) i l] end) its).
Definition ld (i : nat) (its : list (str * list Qc)) : nat :=
  list_sum (map (fun gx => match locs rnd64 (wd st i) (fst gx) with [] => 0 | l => 2 * (length (snd gx) + length l) end)%nat its).

Lemma match_along n i its : In n NL -> (forall g x, In (g, x) its -> zlen g = n /\ in_unit x /\ Forall (grid 105) x) -> forall K v, fit 105 K v -> small (K + ld i its) ->
  along (mlist rnd n i its) (mlist rnd64 n i its) v /\
  forall v', foldM appl (mlist rnd64 n i its) v = Ok v' -> fit 105 (K + ld i its) v'.
Proof.
  intros Hn. induction its as [|[g x] its IH]; intros H K v Hv Sm.
  - cbn. split; auto. intros v' E. assert (v' = v) as -> by congruence. rewrite Nat.add_0_r. auto.
  - assert (H' : forall g x, In (g, x) its -> zlen g = n /\ in_unit x /\ Forall (grid 105) x) by (intros; eapply H; right; eauto).
    destruct (H g x (or_introl eq_refl)) as (Hz & Ux & Gx).
    assert (Ew : ld i ((g, x) :: its) = (match locs rnd64 (wd st i) g with [] => 0 | l => 2 * (length x + length l) end + ld i its)%nat) by reflexivity. rewrite Ew in *.
    cbn [flat_map fst snd]. destruct (locs rnd64 (wd st i) g) as [|y l0] eqn:E.
    + cbn [app]. apply (IH H' K v Hv Sm).
    + cbn [app along foldM]. unfold appl at 1. remember (y :: l0) as l eqn:El. clear El. 
      destruct (locs_fit i g l) as [Ul Gl]; [rewrite Hz; auto|exact E|].
      set (A := (length x + length l)%nat) in *.
      assert (SA : small A) by (eapply small_le; [|exact Sm]; lia).
      assert (X : match_fun rnd n x i l v = match_fun rnd64 n x i l v /\
        forall v', match_fun rnd64 n x i l v = Ok v' -> fit 105 (K + 2 * A) v').
      { unfold match_fun. rewrite (emd_1d_dp_double rnd D x l) by (auto; apply unit_moderate; auto).
        destruct (dp_float_value rnd64 rnd64_lawful x l) as (e & He & _).
        assert (Ge : grid 105 e) by (eapply emd_1d_dp_grid; [| | |exact He]; auto; lia).
        assert (Ue : e <= qn (Nat.max (length x) (length l))) by (eapply (dp_float_unit rnd64 rnd64_lawful); eauto).
        assert (Le : 0 <= e) by (eapply (dp_float_bounds rnd64 rnd64_lawful); eauto).
        assert (Fe : fit 105 A e).
        { split; auto. assert (Em : qn (Nat.max (length x) (length l)) <= qn A) by (apply qn_le; lia). clear - Ue Le Em. qclra. }
        rewrite He. cbn [bind].
        assert (F1 : fit 105 (K + A) (v + qz (zlen x + zlen l))) by (apply fit_add; auto; apply fit_qz; unfold zlen; lia).
        assert (S1 : small (K + A)) by (eapply small_le; [|exact Sm]; lia).
        rewrite (fit_same 105 (K + A) (v + qz (zlen x + zlen l))) by (auto; lia).
        assert (F2 : fit 105 (K + A + A) (rnd64 (v + qz (zlen x + zlen l)) - e)) by (apply fit_sub; auto; apply fit_rnd64; auto).
        assert (S2 : small (K + A + A)) by (eapply small_le; [|exact Sm]; lia).
        rewrite (fit_same 105 (K + A + A)) by (auto; lia). split; auto.
        intros v' [= <-]. replace (K + 2 * A)%nat with (K + A + A)%nat by lia. apply fit_rnd64; auto. }
      destruct X as [X1 X2]. split; [split; auto|].
      * intros v' Ev. apply (IH H' (K + 2 * A)%nat v' (X2 v' Ev)). eapply small_le; [|exact Sm]; lia.
      * intros v' Ev. apply bind_ok in Ev. destruct Ev as (v1 & E1 & E2). rewrite Nat.add_assoc.
        eapply (IH H' (K + 2 * A)%nat v1 (X2 v1 E1)); [|exact E2]. eapply small_le; [|exact Sm]; lia.
Qed.

Lemma ld_bound n i : In n NL -> (Z.of_nat (ld i (items rnd64 q n)) <= 2 ^ 32 + 8)%Z.
Proof.
  intros Hn. pose proof (grams_small q n (proj1 B) (NLp n Hn)) as G1. pose proof (grams_small (wd st i) n (wd_bound i) (NLp n Hn)) as G2.
  pose proof (load_group (gocc rnd64 (get_n_grams q n)) (gocc rnd64 (get_n_grams (wd st i) n))) as H.
  assert (E1 : length (gocc rnd64 (get_n_grams q n)) = length (get_n_grams q n)) by (unfold gocc; rewrite map_length, enumerate_length; auto).
  assert (E2 : length (gocc rnd64 (get_n_grams (wd st i) n)) = length (get_n_grams (wd st i) n)) by (unfold gocc; rewrite map_length, enumerate_length; auto).
  rewrite E1, E2 in H.
  assert (E : ld i (items rnd64 q n) = (2 * list_sum (map (load (group (gocc rnd64 (get_n_grams (wd st i) n)))) (items rnd64 q n)))%nat).
  { unfold ld. assert (Z : forall g x, In (g, x) (items rnd64 q n) -> zlen g = n) by (intros; eapply (items_zlen rnd64 casefold st I q); eauto).
    revert Z. generalize (items rnd64 q n). intros its. induction its as [|[g x] its IH]; intros Z; [reflexivity|].
    cbn [map list_sum fold_right]. change (fold_right Nat.add 0%nat) with list_sum. rewrite IH by (intros; eapply Z; right; eauto).
    unfold load at 2. cbn [fst snd]. rewrite (locs_dget rnd64 (wd st i) n g (NLp n Hn)). rewrite (Z g x (or_introl eq_refl)), Z.eqb_refl.
    destruct (locs rnd64 (wd st i) g); lia. }
  rewrite E. unfold items. lia.
Qed.

Lemma match_items n : In n NL -> forall g x, In (g, x) (items rnd64 q n) -> zlen g = n /\ in_unit x /\ Forall (grid 105) x.
Proof. intros Hn g x H. split; [eapply (items_zlen rnd64 casefold st I q); eauto|]. eapply items_fit; eauto. Qed.

Lemma matches_double poss : matches rnd st q poss = matches rnd64 st q poss.
Proof.
  destruct (single_dec st q) as [Ex|NS].
  - rewrite !matches_single by auto. reflexivity.
  - rewrite (matches_events rnd st q poss NS), (matches_events rnd64 st q poss NS).
    assert (E : events st (items rnd q) (match_fun rnd) = events st (items rnd64 q) (match_fun rnd)).
    { unfold events. apply flat_map_ext_in. intros [k n] Hkn. cbn [fst snd]. apply numbered_in, nth_error_In in Hkn. rewrite items_double by auto. reflexivity. }
    rewrite E. assert (Hz : forall m g x, In m NL -> In (g, x) (items rnd64 q m) -> zlen g = m) by (intros; eapply (items_zlen rnd64 casefold st I q); eauto).
    apply loop_agree.
    + apply events_fst.
    + intros i k F H. eapply events_k; eauto.
    + intros i l H. discriminate.
    + intros i k _. cbn [dgetl dget]. replace (nth k [] 0) with 0 by (destruct k; reflexivity).
      destruct (nth_error NL k) as [n|] eqn:Ek; [destruct (Nat.lt_ge_cases i (length W)) as [Hi|Hi]|].
      * rewrite !(sel_events rnd64 casefold st I _ _ i k n (wd st i)) by (auto; apply wd_nth_error; auto).
        assert (Hn : In n NL) by (eapply nth_error_In; eauto).
        apply (match_along n i (items rnd64 q n) Hn) with (K := 0%nat).
        -- apply match_items; auto.
        -- apply fit_0; lia.
        -- pose proof (ld_bound n i Hn). unfold small. lia.
      * rewrite !(sel_out rnd64 casefold st I) by (left; lia). exact Logic.I.
      * assert (~ (k < length NL)%nat) by (intros C; apply nth_error_Some in C; congruence).
        rewrite !(sel_out rnd64 casefold st I) by auto. exact Logic.I.
Qed.

Definition M2 : nat := Z.to_nat (2 ^ 32 + 8).
Lemma M2_z : Z.of_nat M2 = (2 ^ 32 + 8)%Z. Proof. unfold M2. rewrite Z2Nat.id; lia. Qed.
Local Opaque M2.

Lemma matches_fit poss m : (forall i, In i poss -> cand st q i) -> matches rnd64 st q poss = Ok m ->
  forall i l, In (i, l) m -> length l = length NL /\ Forall (fit 105 M2) l.
Proof.
  intros HC E i l H. destruct (single_dec st q) as [Ex|NS].
  - rewrite matches_single in E by auto. discriminate.
  - destruct (matches_spec rnd64 casefold rnd64_lawful st I q poss NS HC) as (m' & E' & Wf & _ & V).
    assert (m' = m) by congruence. subst m'. apply In_dget in H; auto. destruct (V i l H) as [Ln Vk]. split; auto.
    apply Forall_forall. intros v Hv. apply (In_nth _ _ 0) in Hv. destruct Hv as (k & Hk & <-).
    destruct (nth_error NL k) as [n|] eqn:Ek; [|apply nth_error_None in Ek; lia].
    specialize (Vk k n Ek). assert (Hn : In n NL) by (eapply nth_error_In; eauto).
    unfold simf in Vk. rewrite <- (match_list_sim rnd64 casefold st I n i) in Vk by (auto; intros; eapply (items_zlen rnd64 casefold st I q); eauto).
    pose proof (ld_bound n i Hn) as LB.
    destruct (match_along n i (items rnd64 q n) Hn (match_items n Hn)) with (K := 0%nat) (v := 0 : Qc) as [_ X].
    + apply fit_0; lia.
    + unfold small. lia.
    + apply (fit_le 105 105 (0 + ld i (items rnd64 q n))); [lia|pose proof M2_z; lia|]. apply X. exact Vk.
Qed.

(** *** Pruning *)
Lemma prune_double o nz ms k : fair o -> min_scores rnd64 st q nz (filter_set o st q) = Ok ms ->
  prune (mean1 rnd) k ms = prune (mean1 rnd64) k ms.
Proof.
  intros F E.
  assert (H : forall i l, In (i, l) ms -> mean1 rnd l = mean1 rnd64 l /\ mean1 rnd (map (fun x => x * qz 2) l) = mean1 rnd64 (map (fun x => x * qz 2) l)).
  { intros i l H. destruct (min_scores_fit o nz ms F E i l H) as [Ln Fl].
    assert (Nl : l <> []).
    { intros ->. destruct NL as [|n nl] eqn:EN; [|discriminate]. unfold min_scores in E. rewrite EN in E. cbn in E. injection E as <-. contradiction. }
    assert (Sl : small (length l)) by (unfold small; rewrite Ln; destruct B as (_ & _ & _ & b); unfold zlen in b; lia).
    assert (Sm : small (length l * (M + M))).
    { unfold small. rewrite Ln. destruct B as (_ & _ & _ & b). unfold zlen in b. rewrite Nat2Z.inj_mul, Nat2Z.inj_add, M_z. nia. }
    split.
    - apply (mean_same 105 M l ltac:(lia) Fl Nl); [|exact Sl]. eapply small_le; [|exact Sm]. apply Nat.mul_le_mono_l. lia.
    - apply (mean_same 105 (M + M)); [lia| |destruct l; [congruence|discriminate]| |]; rewrite ?map_length; [|exact Sm|exact Sl].
      apply Forall_forall. intros v Hv. apply in_map_iff in Hv. destruct Hv as (x & <- & Hx). rewrite Forall_forall in Fl.
      replace (x * qz 2) with (x + x); [apply fit_add; auto|].
      replace (qz 2) with (1 + 1 : Qc) by (apply Qc_is_canon; reflexivity). ring. }
  unfold prune. assert (E1 : map (mean1 rnd) (dvals ms) = map (mean1 rnd64) (dvals ms)).
  { unfold dvals. rewrite !map_map. apply map_ext_in. intros [i l] Hi. apply (H i l Hi). }
  rewrite E1. destruct (py_get _ _); [|reflexivity]. cbn [bind]. do 2 f_equal.
  apply filter_ext_in. intros [i l] Hi. cbn [snd]. f_equal. apply (H i l Hi).
Qed.

Lemma prune_in (mn : list Qc -> Qc) k ms poss i : prune mn k ms = Ok poss -> In i poss -> In i (dkeys ms).
Proof.
  unfold prune. intros H Hi. apply bind_ok in H. destruct H as (t & _ & H). injection H as <-.
  apply in_map_iff in Hi. destruct Hi as ([j l] & <- & Hj). apply filter_In in Hj. destruct Hj as [Hj _].
  unfold dkeys. apply (in_map fst) in Hj. exact Hj.
Qed.

Lemma py_get_member {A} (l : list A) z a : py_get l z = Ok a -> In a l.
Proof.
  unfold py_get. repeat match goal with |- context[match ?x with _ => _ end] => destruct x eqn:? end; try discriminate;
  intros [= <-]; eapply nth_error_In; eauto.
Qed.

(** *** Normalizing *)
Lemma mapM_same {A C} (f g : A -> result C) (P : C -> Prop) l :
  (forall a, In a l -> f a = g a /\ forall b, g a = Ok b -> P b) -> mapM f l = mapM g l /\ forall bs, mapM g l = Ok bs -> Forall P bs.
Proof.
  induction l as [|a l IH]; intros H; [split; auto; intros bs [= <-]; constructor|].
  destruct (H a (or_introl eq_refl)) as [E P1]. destruct IH as [E2 P2]; [intros; apply H; right; auto|].
  cbn [mapM]. rewrite E, E2. split; auto. intros bs Eb. apply bind_ok in Eb. destruct Eb as (b & Eb & Ebs).
  apply bind_ok in Ebs. destruct Ebs as (bs' & Ebs & X). injection X as <-. constructor; auto.
Qed.
Lemma mapM_len {A C} (f : A -> result C) l : forall bs, mapM f l = Ok bs -> length bs = length l.
Proof.
  induction l as [|a l IH]; intros bs H; cbn [mapM] in H; [injection H as <-; auto|].
  apply bind_ok in H. destruct H as (b & _ & H). apply bind_ok in H. destruct H as (bs' & H & X). injection X as <-. cbn [length]. f_equal. auto.
Qed.

Lemma M2_small : small M2. Proof. unfold small. rewrite M2_z. lia. Qed.

Lemma norm_double nz i l : length l = length NL -> Forall (fit 105 M2) l ->
  norm_scores rnd st q nz (i, l) = norm_scores rnd64 st q nz (i, l) /\
  forall e, norm_scores rnd64 st q nz (i, l) = Ok e -> length (snd e) = length NL /\ Forall (fit 210 M2) (snd e).
Proof.
  intros Ln Fl. unfold norm_scores. destruct (py_get (word_lens st) (Z.of_nat i)) as [ol|] eqn:Eo; [|split; [reflexivity|discriminate]].
  assert (Ho : (0 <= ol <= 2 ^ 30)%Z).
  { apply py_get_member in Eo. rewrite (inv_lens _ _ _ I) in Eo. apply in_map_iff in Eo. destruct Eo as (w & <- & Hw).
    destruct B as (_ & b & _). rewrite Forall_forall in b. specialize (b w Hw). unfold zlen in *. cbv beta in b. lia. }
  cbn [bind]. destruct nz.
  - destruct (mapM_same (fun ne : Z * Z => let '(n_idx, n) := ne in
         s <- py_get l n_idx ;; let d := (num_grams (zlen q) n + num_grams ol n)%Z in
         if (d =? 0)%Z then Err ZeroDivisionError else Ok (rnd (s / qz d)))
       (fun ne : Z * Z => let '(n_idx, n) := ne in
         s <- py_get l n_idx ;; let d := (num_grams (zlen q) n + num_grams ol n)%Z in
         if (d =? 0)%Z then Err ZeroDivisionError else Ok (rnd64 (s / qz d))) (fit 210 M2) (enumerate NL)) as [E P].
    + intros [k n] Hk. destruct (py_get l k) as [s|] eqn:Es; [|split; [reflexivity|discriminate]]. cbn [bind]. cbv zeta.
      destruct (Z.eqb_spec (num_grams (zlen q) n + num_grams ol n) 0) as [|Nd]; [split; [reflexivity|discriminate]|].
      assert (Hn : In n NL) by (rewrite <- (enumerate_snd NL); apply (in_map snd) in Hk; exact Hk).
      apply py_get_member in Es. rewrite Forall_forall in Fl. specialize (Fl s Es).
      destruct (quot_same 105 M2 s (num_grams (zlen q) n + num_grams ol n)) as [Q1 Q2]; [lia|apply M2_small|exact Fl|exact Nd| |].
      * pose proof (NLp n Hn) as Np. pose proof (NLb n Hn) as Nb. destruct B as (b & _). assert (0 <= zlen q)%Z by (unfold zlen; lia).
        unfold num_grams. destruct (1 <? n)%Z; lia.
      * rewrite Q1. split; [reflexivity|]. intros b [= <-]. exact Q2.
    + split; [exact (f_equal (fun r => v <- r ;; Ok (i, v)) E)|]. intros e He. apply bind_ok in He. destruct He as (v & Ev & X). injection X as <-. cbn [snd].
      split; [|apply P; exact Ev]. apply mapM_len in Ev. rewrite Ev. apply enumerate_length.
  - split; [reflexivity|]. intros e [= <-]. cbn [snd]. split; auto. eapply Forall_impl; [|exact Fl]. intros v. apply fit_le; lia.
Qed.

(** *** The scores *)
Lemma similarity_double o nz k : fair o ->
  lookup_similarity rnd (mean1 rnd) o st q k nz = lookup_similarity rnd64 (mean1 rnd64) o st q k nz /\
  forall sims, lookup_similarity rnd64 (mean1 rnd64) o st q k nz = Ok sims -> Forall (fun e => fit 315 (length NL * M2) (snd e)) sims.
Proof.
  intros F. unfold lookup_similarity. rewrite min_scores_double.
  destruct (min_scores rnd64 st q nz (filter_set o st q)) as [ms|] eqn:E; [|split; [reflexivity|discriminate]]. cbn [bind].
  destruct ms as [|e0 ms0] eqn:Ems; [split; [reflexivity|intros sims [= <-]; constructor]|]. rewrite <- Ems in *. 
  assert (NN : NL <> []).
  { intros EN. unfold min_scores in E. rewrite EN in E. cbn in E. congruence. }
  clear e0 ms0 Ems. rewrite (prune_double o nz ms k F E).
  destruct (prune (mean1 rnd64) k ms) as [poss|] eqn:Ep; [|split; [reflexivity|discriminate]]. cbn [bind].
  rewrite matches_double. destruct (matches rnd64 st q poss) as [m|] eqn:Em; [|split; [reflexivity|discriminate]]. cbn [bind].
  assert (HC : forall i, In i poss -> cand st q i).
  { intros i Hi. apply (prune_in _ _ _ _ _ Ep) in Hi. destruct (min_scores_spec rnd64 casefold st I q o nz F) as (ms' & E' & _ & K & _).
    rewrite E in E'. injection E' as <-. apply K; auto. }
  pose proof (matches_fit poss m HC Em) as MF.
  destruct (mapM_same (norm_scores rnd st q nz) (norm_scores rnd64 st q nz) (fun e => length (snd e) = length NL /\ Forall (fit 210 M2) (snd e)) m) as [En Pn].
  { intros [i l] Hi. destruct (MF i l Hi). apply norm_double; auto. }
  rewrite En. destruct (mapM (norm_scores rnd64 st q nz) m) as [m'|] eqn:Em'; [|split; [reflexivity|discriminate]]. cbn [bind].
  specialize (Pn m' eq_refl). rewrite Forall_forall in Pn.
  assert (X : forall e, In e m' -> mean1 rnd (snd e) = mean1 rnd64 (snd e) /\ fit 315 (length NL * M2) (mean1 rnd64 (snd e))).
  { intros e He. destruct (Pn e He) as [Ln Fl]. destruct B as (_ & _ & _ & b). unfold zlen in b. rewrite <- Ln in *.
    apply (mean_same 210 M2); [lia|exact Fl| | |].
    - intros C. apply NN. rewrite C in Ln. destruct NL; [auto|discriminate].
    - unfold small. rewrite Nat2Z.inj_mul, M2_z. nia.
    - unfold small. lia. }
  split.
  - f_equal. apply map_ext_in. intros e He. f_equal. apply X; auto.
  - intros sims [= <-]. apply Forall_forall. intros e He. apply in_map_iff in He. destruct He as (e' & <- & He). cbn [snd]. apply X; auto.
Qed.

(** *** The similarity of two words *)
Lemma along_fold Fs : forall Gs v, along Fs Gs v -> foldM appl Fs v = foldM appl Gs v.
Proof.
  induction Fs as [|F Fs IH]; intros [|G Gs] v H; cbn in H; try contradiction; auto.
  destruct H as [H1 H2]. cbn [foldM]. unfold appl at 1 3. rewrite H1. destruct (G v); cbn [bind]; auto.
Qed.

Lemma match_list_sim2 n i its s : In n NL -> (forall g x, In (g, x) its -> zlen g = n) ->
  foldM appl (mlist rnd n i its) s = foldM (sim_step rnd (group (gocc rnd64 (get_n_grams (wd st i) n)))) its s.
Proof.
  intros Hn. revert s. induction its as [|[g x] its IH]; intros s H; [reflexivity|].
  cbn [flat_map fst snd foldM]. rewrite foldM_app. unfold sim_step at 1.
  rewrite (locs_dget rnd64) by (apply NLp; auto). rewrite (H g x) by (left; auto). rewrite Z.eqb_refl.
  assert (H' : forall g x, In (g, x) its -> zlen g = n) by (intros; eapply H; right; eauto).
  destruct (locs rnd64 (wd st i) g) as [|y l].
  - cbn [foldM bind]. auto.
  - cbn [foldM]. unfold appl at 1, match_fun at 1. destruct (emd_1d_dp rnd x (y :: l)); cbn [bind]; auto.
Qed.

Lemma simf_double n i : In n NL -> simf rnd q n (wd st i) = simf rnd64 q n (wd st i) /\
  forall v, simf rnd64 q n (wd st i) = Ok v -> fit 105 M2 v.
Proof.
  intros Hn. assert (Hz : forall g x, In (g, x) (items rnd64 q n) -> zlen g = n) by (intros; eapply (items_zlen rnd64 casefold st I q); eauto).
  pose proof (ld_bound n i Hn) as LB.
  destruct (match_along n i (items rnd64 q n) Hn (match_items n Hn) 0 0) as [A1 A2]; [apply fit_0; lia|unfold small; lia|].
  unfold simf. rewrite items_double by auto.
  rewrite gocc_double by (pose proof (grams_small (wd st i) n (wd_bound i) (NLp n Hn)); unfold small; lia).
  rewrite <- match_list_sim2 by auto. rewrite <- (match_list_sim rnd64 casefold st I n i) by auto. split.
  - apply along_fold. exact A1.
  - intros v Hv. apply (fit_le 105 105 (0 + ld i (items rnd64 q n))); [lia|pose proof M2_z; lia|]. apply A2. exact Hv.
Qed.

Lemma size_bound n i : In n NL -> (Z.abs (size n q + size n (wd st i)) <= 2 ^ 53)%Z.
Proof.
  intros Hn. pose proof (NLp n Hn). pose proof (NLb n Hn). pose proof (wd_bound i). destruct B as (b & _).
  assert (0 <= zlen q)%Z by (unfold zlen; lia). assert (0 <= zlen (wd st i))%Z by (unfold zlen; lia).
  unfold size. destruct (1 <? n)%Z; lia.
Qed.

Lemma score1_double nz n i : In n NL -> score1 rnd nz q n (wd st i) = score1 rnd64 nz q n (wd st i) /\
  forall v, score1 rnd64 nz q n (wd st i) = Ok v -> fit 210 M2 v.
Proof.
  intros Hn. destruct (simf_double n i Hn) as [E F]. unfold score1. rewrite E.
  destruct (simf rnd64 q n (wd st i)) as [s|]; [|split; [reflexivity|discriminate]]. specialize (F s eq_refl). cbn [bind]. destruct nz.
  - destruct (Z.eqb_spec (size n q + size n (wd st i)) 0) as [|Nz]; [split; [reflexivity|discriminate]|].
    destruct (quot_same 105 M2 s (size n q + size n (wd st i))) as [Q1 Q2]; [lia|apply M2_small|exact F|exact Nz|apply size_bound; auto|].
    rewrite Q1. split; [reflexivity|]. intros v [= <-]. exact Q2.
  - split; [reflexivity|]. intros v [= <-]. eapply fit_le; [| |exact F]; lia.
Qed.

Lemma score_double nz w : clean q -> In w W -> similarity rnd (mean1 rnd) NL q w nz = similarity rnd64 (mean1 rnd64) NL q w nz.
Proof.
  intros Cq Hw. destruct (in_wd st w Hw) as (i & Hi & <-). assert (Cw : clean (wd st i)) by (eapply words_clean; eauto).
  unfold similarity.
  rewrite (mapM_ext_in _ (fun n => score1 rnd nz q n (wd st i))) by (intros; eapply (pair_score1 rnd); eauto).
  rewrite (mapM_ext_in (pair_score rnd64 q (wd st i) nz) (fun n => score1 rnd64 nz q n (wd st i))) by (intros; eapply (pair_score1 rnd64); eauto).
  destruct (mapM_same (fun n => score1 rnd nz q n (wd st i)) (fun n => score1 rnd64 nz q n (wd st i)) (fit 210 M2) NL) as [E P].
  { intros n Hn. apply score1_double; auto. }
  rewrite E. clear E. destruct (mapM (fun n => score1 rnd64 nz q n (wd st i)) NL) as [vs|] eqn:Ev; [|reflexivity]. cbn [bind]. f_equal.
  specialize (P vs eq_refl). apply mapM_len in Ev. destruct vs as [|v vs'] eqn:Evs; [unfold mean1, fsum; cbn; rewrite qdiv_0, double_0, (rnd_0 _ rnd64_lawful); reflexivity|].
  rewrite <- Evs in *. destruct B as (_ & _ & _ & b). unfold zlen in b. rewrite <- Ev in b.
  apply (mean_same 210 M2); [lia|exact P|congruence| |].
  - unfold small. rewrite Nat2Z.inj_mul, M2_z. nia.
  - unfold small. lia.
Qed.

Lemma sims_small : small (length NL * M2).
Proof. destruct B as (_ & _ & _ & b). unfold zlen in b. unfold small. rewrite Nat2Z.inj_mul, M2_z. nia. Qed.
End Lookup.

(** ** Building *)
Lemma add_locations_double l : small (length l) -> add_locations rnd l = add_locations rnd64 l.
Proof.
  intros S. rewrite !add_locations_group by (apply double_0 || apply (rnd_0 _ rnd64_lawful)). rewrite gocc_double by auto. reflexivity.
Qed.

Section Build.
Variable casefold : str -> str.
Hypothesis CI : forall w, casefold (casefold w) = casefold w.
Definition brief (st : wordlist) : Prop := Forall (fun w => zlen w <= 2 ^ 30)%Z (word_list st).

Lemma add_word_double o st v : fair o -> Forall (fun n => 0 < n)%Z (n_list st) -> brief (fst (add_word rnd casefold o st v)) ->
  add_word rnd casefold o st v = add_word rnd64 casefold o st v.
Proof.
  intros F P Hv. destruct v as [w| | | |]; try reflexivity. unfold add_word in *.
  assert (FF : fold_case casefold st (fold_case casefold st w) = fold_case casefold st w) by (unfold fold_case; destruct (case_insensitive st); auto).
  destruct (zlen w =? 0)%Z; [reflexivity|]. destruct (dmem _ _) eqn:Dm; [reflexivity|]. destruct (_ || _); [reflexivity|].
  destruct (resolve_word_index casefold st (PStr (fold_case casefold st w)) true) as [st1 [[idx|]|e]] eqn:E; try reflexivity.
  assert (N1 : n_list st1 = n_list st /\ In (fold_case casefold st w) (word_list st1)).
  { unfold resolve_word_index in E. destruct (zlen _ =? 0)%Z; [discriminate|]. rewrite FF in E. unfold dmem in Dm. destruct (dget _ _); [discriminate|].
    assert (X := f_equal fst E). cbn [fst] in X. rewrite <- X. split; [reflexivity|]. cbn [word_list]. apply in_app_iff. right. left. reflexivity. }
  destruct N1 as [N1 N2].
  assert (NE : n_list (add_filter o (fold_case casefold st w) idx st1) = n_list st) by (unfold add_filter; destruct (filter_n st1 =? 0)%Z; auto).
  assert (H : (zlen (fold_case casefold st w) <= 2 ^ 30)%Z).
  { unfold brief in Hv. rewrite Forall_forall in Hv. apply (Hv (fold_case casefold st w)). cbn [fst].
    unfold add_grams. cbn [word_list]. unfold add_filter. destruct (filter_n st1 =? 0)%Z; exact N2. }
  f_equal. unfold add_grams. rewrite NE.
  assert (X : flat_map (fun n => add_locations rnd (get_n_grams (fold_case casefold st w) n)) (o_int o (nodup eqd (n_list st))) =
              flat_map (fun n => add_locations rnd64 (get_n_grams (fold_case casefold st w) n)) (o_int o (nodup eqd (n_list st)))).
  { rewrite !flat_map_concat_map. f_equal. apply map_ext_in. intros n Hn.
    assert (Hn' : In n (n_list st)) by (apply (Permutation_in _ (proj2 F _)) in Hn; apply nodup_In in Hn; exact Hn).
    apply add_locations_double. rewrite Forall_forall in P.
    pose proof (grams_small (fold_case casefold st w) n H (P n Hn')). unfold small. lia. }
  rewrite X. reflexivity.
Qed.

Lemma add_word_brief o st v : inv rnd casefold st -> fair o -> brief (fst (add_word rnd casefold o st v)) -> brief st.
Proof.
  intros I F H. destruct (add_word_spec rnd casefold double_0 CI o st v I F) as (_ & _ & _ & _ & W & _).
  unfold brief in *. rewrite W in H. apply Forall_app in H. apply H.
Qed.
Lemma run_brief calls : forall st, inv rnd casefold st -> Forall (fun c => fair (fst c)) calls -> brief (run rnd casefold st calls) -> brief st.
Proof.
  induction calls as [|[o v] calls IH]; intros st I F H; [exact H|]. inversion F; subst. unfold run in *. cbn [fold_left fst snd] in *.
  destruct (add_word_spec rnd casefold double_0 CI o st v I) as (I' & _); auto.
  apply IH in H; auto. eapply add_word_brief; eauto.
Qed.
Lemma run_double calls : forall st, inv rnd casefold st -> Forall (fun c => fair (fst c)) calls -> brief (run rnd casefold st calls) ->
  run rnd casefold st calls = run rnd64 casefold st calls.
Proof.
  induction calls as [|[o v] calls IH]; intros st I F H; [reflexivity|]. inversion F; subst. cbn [fst] in *.
  destruct (add_word_spec rnd casefold double_0 CI o st v I) as (I' & _); auto.
  assert (B1 : brief (fst (add_word rnd casefold o st v))) by (eapply run_brief; eauto).
  assert (E : add_word rnd casefold o st v = add_word rnd64 casefold o st v) by (apply add_word_double; auto; apply (inv_n _ _ _ I)).
  unfold run in *. cbn [fold_left fst snd] in *. rewrite <- E. apply IH; auto.
Qed.
Lemma reachable_double st : reachable rnd casefold st -> brief st -> reachable rnd64 casefold st.
Proof.
  induction 1 as [n c fn st H|o st v H IH F]; intros Hb; [econstructor; eauto|].
  pose proof (reachable_inv rnd casefold st double_0 CI H) as I.
  assert (Bs : brief st) by (eapply add_word_brief; eauto).
  rewrite add_word_double by (auto; apply (inv_n _ _ _ I)). constructor; auto.
Qed.
End Build.
End Double.
