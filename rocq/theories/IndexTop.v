(** [lookup] as a whole: the pruned, ranked and cut list of candidates. *)
From Coq Require Import ZArith NArith QArith Qcanon List Bool Permutation Lia Sorted.
From Verif Require Import Num Py ListAux PyDict Float64 EmdSpec EmdModel EmdProofs EmdFloatProofs
  NmdSpec NmdModel NmdProofs NmdFloatProofs IndexSpec IndexModel IndexProofs IndexLoops IndexLookupProofs IndexResult.
Import ListNotations.
Open Scope Qc_scope.

Lemma mapM_map {A B C} (f : B -> result C) (g : A -> B) l : mapM f (map g l) = mapM (fun a => f (g a)) l.
Proof. induction l; simpl; auto. rewrite IHl. reflexivity. Qed.

Lemma mapM_ext_in {A B} (f g : A -> result B) l : (forall a, In a l -> f a = g a) -> mapM f l = mapM g l.
Proof. induction l; simpl; intros H; auto. rewrite H, IHl; auto. Qed.

Lemma mapM_Ok_in {A B} (f : A -> result B) (g : A -> B) l : (forall a, In a l -> f a = Ok (g a)) -> mapM f l = Ok (map g l).
Proof. intros H. rewrite (mapM_ext_in f (fun a => Ok (g a)) l H). apply mapM_ok. Qed.

Lemma mapM_inv {A B} (f : A -> result B) l bs : mapM f l = Ok bs -> Forall2 (fun a b => f a = Ok b) l bs.
Proof.
  revert bs; induction l as [|a l IH]; intros bs H; simpl in H.
  - injection H as <-. constructor.
  - apply bind_ok in H. destruct H as (b & Hb & H). apply bind_ok in H. destruct H as (bs' & H1 & H2). injection H2 as <-.
    constructor; auto.
Qed.

Lemma Forall2_mapM {A B} (f : A -> result B) l bs : Forall2 (fun a b => f a = Ok b) l bs -> mapM f l = Ok bs.
Proof. induction 1; simpl; auto. rewrite H, IHForall2. reflexivity. Qed.

Lemma mapM_err {A B} (f : A -> result B) e l : (forall a, In a l -> is_ok (f a) = false -> f a = Err e) ->
  mapM f l = Err e \/ exists bs, mapM f l = Ok bs.
Proof.
  induction l as [|a l IH]; intros H; simpl; [right; eauto|].
  destruct (f a) eqn:E; simpl.
  - destruct IH as [->|(bs & ->)]; [intros; apply H; auto; right; auto|left; auto|right; simpl; eauto].
  - left. assert (X : f a = Err e) by (apply H; [left; auto|rewrite E; reflexivity]). congruence.
Qed.

Section Top.
Variable rnd : Qc -> Qc.
Variable casefold : str -> str.
Variable mean : list Qc -> Qc.
Hypothesis L : lawful rnd.
Variable st : wordlist.
Hypothesis I : inv rnd casefold st.
Variable q : str.

Notation W := (word_list st).
Notation NL := (n_list st).
Notation cand := (cand st q).

(** The scores of word number [i], one for each n. *)
Definition score_vec (normalize : bool) (i : nat) : result (list Qc) :=
  mapM (fun n => score1 rnd normalize q n (wd st i)) NL.

Lemma match_list_sim n i its s : In n NL ->
  (forall g x, In (g, x) its -> zlen g = n) ->
  foldM appl (flat_map (fun gx => match locs rnd (wd st i) (fst gx) with [] => [] | l => [match_fun rnd n (snd gx) i l] end) its) s =
  foldM (sim_step rnd (group (gocc rnd (get_n_grams (wd st i) n)))) its s.
Proof.
  intros Hn. revert s. induction its as [|[g x] its IH]; intros s H; [reflexivity|].
  cbn [flat_map fst snd foldM]. rewrite foldM_app. unfold sim_step at 1.
  rewrite locs_dget by (eapply NL_pos; eauto). rewrite (H g x) by (left; auto). rewrite Z.eqb_refl.
  assert (H' : forall g x, In (g, x) its -> zlen g = n) by (intros; eapply H; right; eauto).
  destruct (locs rnd (wd st i) g) as [|y l].
  - cbn [foldM bind]. auto.
  - cbn [foldM]. unfold appl at 1, match_fun at 1. destruct (emd_1d_dp rnd x (y :: l)); cbn [bind]; auto.
Qed.

Lemma matches_spec poss : Forall (fun n => ~ single_gram n q) NL -> (forall i, In i poss -> cand i) ->
  exists m, matches rnd st q poss = Ok m /\ dwf m /\ (forall i, In i (dkeys m) <-> In i poss) /\
    (forall i l, dget i m = Some l -> length l = length NL /\
       forall k n, nth_error NL k = Some n -> simf rnd q n (wd st i) = Ok (nth k l 0)).
Proof.
  intros NS HC. rewrite matches_events by auto.
  set (evs := events st (items rnd q) (match_fun rnd)).
  assert (Hz : forall m g x, In m NL -> In (g, x) (items rnd q m) -> zlen g = m) by (intros; eapply items_zlen; eauto).
  assert (Sel : forall i k n, (i < length W)%nat -> nth_error NL k = Some n ->
     foldM appl (sel i k evs) 0 = simf rnd q n (wd st i)).
  { intros i k n Hi Hk. unfold evs. rewrite (sel_events rnd casefold st I _ _ i k n (wd st i)); auto; [|apply wd_nth_error; auto].
    unfold simf. apply match_list_sim; [eapply nth_error_In; eauto|]. intros g x Hg. eapply items_zlen; eauto. eapply nth_error_In; eauto. }
  destruct (loop_events (length NL) (inb poss) evs) as (m & E & Wf & K & V).
  - intros i k G H. eapply events_k; eauto.
  - intros i k _. destruct (Nat.lt_ge_cases i (length W)) as [Hi|Hi].
    + destruct (nth_error NL k) as [n|] eqn:Ek.
      * rewrite (Sel i k n Hi Ek). apply simf_ok; auto.
      * unfold evs. rewrite (sel_out rnd casefold st I); [eexists; reflexivity|]. right. intros C. apply nth_error_Some in C. congruence.
    + unfold evs. rewrite (sel_out rnd casefold st I); [eexists; reflexivity|]. left. lia.
  - exists m. split; auto. split; auto.
    assert (K' : forall i, In i (dkeys m) <-> In i poss).
    { intros i. rewrite K. unfold inb. split.
      - intros [H _]. destruct in_dec; [auto|discriminate].
      - intros H. destruct in_dec; [|contradiction]. split; auto.
        unfold evs. apply (in_events rnd casefold st I (items rnd q) _ i Hz).
        destruct (HC i H) as [Hi Hc].
        destruct (proj2 (cand_iff rnd casefold st I q {| o_str := fun l => l; o_int := fun l => l |} i ltac:(split; intros; reflexivity)) (HC i H)) as [_ X]. exact X. }
    split; auto. intros i l H. destruct (V i l H) as [Ln Vk]. split; auto.
    intros k n Hk. rewrite <- (Sel i k n); auto.
    + apply Vk. apply nth_error_Some. congruence.
    + apply dget_Some_key, K', HC in H. apply H.
Qed.

Lemma norm_scores_spec normalize i l : (i < length W)%nat -> length l = length NL ->
  (forall k n, nth_error NL k = Some n -> simf rnd q n (wd st i) = Ok (nth k l 0)) ->
  norm_scores rnd st q normalize (i, l) = (v <- score_vec normalize i ;; Ok (i, v)).
Proof.
  intros Hi Hl Hv. unfold norm_scores. rewrite (py_get_nat _ i 0%Z) by (rewrite (inv_lens _ _ _ I), map_length; auto).
  cbn [bind]. rewrite (inv_lens _ _ _ I), (nth_indep _ 0%Z (zlen (@nil N))) by (rewrite map_length; auto).
  rewrite (map_nth zlen). fold (wd st i). unfold score_vec. destruct normalize.
  - f_equal. rewrite enumerate_numbered, mapM_map.
    assert (E : NL = map snd (numbered NL)).
    { rewrite <- (enumerate_snd NL) at 1. rewrite enumerate_numbered, map_map. reflexivity. }
    rewrite E at 2. rewrite mapM_map. apply mapM_ext_in. intros [k n] Hkn. apply numbered_in in Hkn. cbn [fst snd].
    rewrite (py_get_nat _ k 0) by (rewrite Hl; apply nth_error_Some; congruence). cbn [bind].
    unfold score1. rewrite (Hv k n Hkn). cbn [bind]. rewrite !num_grams_size. reflexivity.
  - rewrite (Forall2_mapM _ NL l); [reflexivity|].
    assert (H : forall k n, nth_error NL k = Some n -> score1 rnd false q n (wd st i) = Ok (nth k l 0)).
    { intros k n Hk. unfold score1. rewrite (Hv k n Hk). reflexivity. }
    clear Hv. revert l Hl H. generalize NL. intros nl. induction nl as [|n nl IH]; intros [|x l] Hl H; try discriminate; constructor.
    + apply (H 0%nat n). reflexivity.
    + apply IH; [simpl in Hl; lia|]. intros k m Hk. apply (H (Datatypes.S k) m). auto.
Qed.

Record summary (o : order) (normalize : bool) (k : Z) := {
  s_cands : list nat;
  s_nodup : NoDup s_cands;
  s_cand : forall i, In i s_cands <-> cand i;
  s_low : nat -> list Qc;
  s_low_val : forall i, cand i -> length (s_low i) = length NL /\
     forall k n, nth_error NL k = Some n -> foldM appl (count_list rnd st q normalize n i) 0 = Ok (nth k (s_low i) 0);
  s_none : s_cands = [] -> lookup_similarity rnd mean o st q k normalize = Ok [];
  s_single : s_cands <> [] -> Exists (fun n => single_gram n q) NL ->
     lookup_similarity rnd mean o st q k normalize = Err ZeroDivisionError;
  s_some : s_cands <> [] -> Forall (fun n => ~ single_gram n q) NL ->
     exists surv thr top,
       NoDup surv /\ (forall i, In i surv <-> In i s_cands /\ thr <= mean (map (fun x => x * qz 2) (s_low i))) /\
       NoDup top /\ length top = Nat.min (Z.to_nat k) (length s_cands) /\
       (forall i, In i top -> In i s_cands /\ thr <= mean (s_low i)) /\
       (exists i, In i s_cands /\ thr = mean (s_low i)) /\
       lookup_similarity rnd mean o st q k normalize =
         (vs <- mapM (fun i => v <- score_vec normalize i ;; Ok (i, mean v)) surv ;; Ok vs)
}.

Lemma mapM_bind_map {A B C} (f : A -> result B) (g : B -> C) l :
  (bs <- mapM f l ;; Ok (map g bs)) = mapM (fun a => b <- f a ;; Ok (g b)) l.
Proof.
  induction l as [|a l IH]; simpl; auto. rewrite <- IH. destruct (f a); simpl; auto. destruct (mapM f l); simpl; auto.
Qed.

Lemma bind_ret {A} (m : result A) : (x <- m ;; Ok x) = m.
Proof. destruct m; reflexivity. Qed.

Lemma similarity_summary o normalize k : fair o -> (1 <= k)%Z -> exists s : summary o normalize k, True.
Proof.
  intros F Hk. destruct (min_scores_spec rnd casefold st I q o normalize F) as (ms & E & Wf & K & V).
  assert (Kin : forall i, In i (dkeys ms) -> In (i, dgetl i ms) ms).
  { intros i Hi. apply dget_In. unfold dgetl. destruct (dget i ms) eqn:D; auto. apply dget_None in D. contradiction. }
  assert (Kget : forall i l, In (i, l) ms -> In i (dkeys ms) /\ dgetl i ms = l).
  { intros i l H. split; [apply (in_map fst) in H; exact H|]. apply In_dget in H; auto. unfold dgetl. rewrite H. auto. }
  unshelve eexists {| s_cands := dkeys ms; s_low := fun i => dgetl i ms |}; auto.
  - intros i Hi. apply K, Kin in Hi. apply In_dget in Hi; auto.
  - intros H. unfold lookup_similarity. rewrite E. cbn [bind]. destruct ms; [reflexivity|discriminate].
  - intros H Ex. unfold lookup_similarity. rewrite E. cbn [bind]. destruct ms as [|e ms'] eqn:Ems; [contradiction H; reflexivity|].
    rewrite <- Ems in *.
    destruct (prune_spec mean k ms Hk) as (thr & poss & top & Ep & _); auto; [congruence|]. rewrite Ep. cbn [bind].
    rewrite (matches_single rnd); auto.
  - intros H NS. unfold lookup_similarity. rewrite E. cbn [bind].
    assert (Nms : ms <> []) by (intros C; rewrite C in H; apply H; reflexivity).
    destruct (prune_spec mean k ms Hk Nms Wf) as (thr & poss & top & Ep & P1 & P2 & P3 & P4 & P5).
    assert (HC : forall i, In i poss -> cand i).
    { intros i Hi. apply P1 in Hi. destruct Hi as (l & Hl & _). apply K. apply Kget in Hl. tauto. }
    destruct (matches_spec poss NS HC) as (m & Em & Wm & Km & Vm).
    exists (dkeys m), thr, top. split; [exact Wm|]. split; [|split; [auto|split; [|split; [|split]]]].
    + intros i. rewrite Km, P1. split.
      * intros (l & Hl & T). apply Kget in Hl. destruct Hl as [H1 <-]. auto.
      * intros [H1 T]. exists (dgetl i ms). auto.
    + unfold dkeys. rewrite map_length. auto.
    + intros i Hi. apply P4 in Hi. destruct Hi as (l & Hl & T). apply Kget in Hl. destruct Hl as [H1 <-]. auto.
    + destruct P5 as (i & l & Hl & ->). apply Kget in Hl. destruct Hl as [H1 <-]. exists i. auto.
    + destruct ms as [|e ms'] eqn:Ems; [congruence|]. rewrite <- Ems in *. rewrite Ep. cbn [bind]. rewrite Em. cbn [bind].
      rewrite (mapM_ext_in (norm_scores rnd st q normalize) (fun e => v <- score_vec normalize (fst e) ;; Ok (fst e, v))).
      2:{ intros [i l] Hi. assert (Hg := In_dget _ _ _ Wm Hi). destruct (Vm i l Hg) as [V1 V2].
          apply norm_scores_spec; auto. apply (HC i). apply Km. apply dget_Some_key in Hg. auto. }
      rewrite mapM_bind_map, bind_ret. unfold dkeys. rewrite mapM_map. apply mapM_ext_in. intros [i l] _. cbn [fst].
      destruct (score_vec normalize i); reflexivity.
Qed.

(** The score of word number [i], and its 2-gram similarity. *)
Definition sc (normalize : bool) (i : nat) : Qc :=
  match score_vec normalize i with Ok v => mean v | Err _ => 0 end.
Definition s2 (normalize : bool) (i : nat) : Qc :=
  match ngram_movers_distance rnd (PStr q) (PStr (wd st i)) (PInt 2) true normalize with Ok s => s | Err _ => 0 end.

Definition zero_sum (i : nat) : Prop := exists n, In n NL /\ (size n q + size n (wd st i) = 0)%Z.

Lemma score_vec_outcome normalize i :
  (exists v, score_vec normalize i = Ok v /\ ~ (normalize = true /\ zero_sum i)) \/
  (normalize = true /\ zero_sum i /\ score_vec normalize i = Err ZeroDivisionError).
Proof.
  unfold score_vec, zero_sum. induction NL as [|n nl IH].
  - left. exists []. split; auto. intros (_ & n & [] & _).
  - assert (H : (exists s, score1 rnd normalize q n (wd st i) = Ok s /\ ~ (normalize = true /\ (size n q + size n (wd st i) = 0)%Z)) \/
       (normalize = true /\ (size n q + size n (wd st i) = 0)%Z /\ score1 rnd normalize q n (wd st i) = Err ZeroDivisionError)).
    { unfold score1. destruct (simf_ok rnd L q n (wd st i)) as [s ->]. cbn [bind]. destruct normalize.
      - destruct (Z.eqb_spec (size n q + size n (wd st i)) 0); [right|left]; [auto|eexists; split; [reflexivity|tauto]].
      - left. eexists. split; [reflexivity|]. intros [C _]. discriminate. }
    cbn [mapM]. destruct H as [(s & -> & Hs)|(Hn & Hz & ->)]; cbn [bind].
    + destruct IH as [(v & -> & Hv)|(Hn & (m & Hm & Hz) & ->)]; cbn [bind].
      * left. exists (s :: v). split; auto. intros (N & m & [<-|Hm] & Hz); [apply Hs; auto|apply Hv; split; eauto].
      * right. split; auto. split; auto. exists m. split; auto. right; auto.
    + right. split; auto. split; auto. exists n. split; auto. left; auto.
Qed.

Lemma sc_val normalize i v : score_vec normalize i = Ok v -> sc normalize i = mean v.
Proof. unfold sc. intros ->. reflexivity. Qed.

Lemma word_clean i : (i < length W)%nat -> clean (wd st i).
Proof.
  intros H. destruct (inv_words _ _ _ I) as [_ C]. rewrite Forall_forall in C. apply (C (wd st i)). apply nth_In. auto.
Qed.

Lemma s2_val normalize i : clean q -> (i < length W)%nat ->
  ngram_movers_distance rnd (PStr q) (PStr (wd st i)) (PInt 2) true normalize = Ok (s2 normalize i).
Proof.
  intros Cq Hi. unfold s2. rewrite <- !(score1_nmd rnd) by (auto using word_clean; lia).
  unfold score1. destruct (simf_ok rnd L q 2 (wd st i)) as [s ->]. cbn [bind]. destruct normalize; [|reflexivity].
  destruct (Z.eqb_spec (size 2 q + size 2 (wd st i)) 0) as [E|]; [|reflexivity].
  unfold size in E. cbn in E. unfold zlen in E. lia.
Qed.

(** The dictionary of scores. *)
Lemma surv_scores normalize surv :
  (Forall (fun i => ~ (normalize = true /\ zero_sum i)) surv /\
   (vs <- mapM (fun i => v <- score_vec normalize i ;; Ok (i, mean v)) surv ;; Ok vs) = Ok (map (fun i => (i, sc normalize i)) surv)) \/
  (normalize = true /\ Exists zero_sum surv /\
   (vs <- mapM (fun i => v <- score_vec normalize i ;; Ok (i, mean v)) surv ;; Ok vs) = Err ZeroDivisionError).
Proof.
  rewrite bind_ret. induction surv as [|i surv IH]; [left; split; [constructor|reflexivity]|].
  cbn [mapM map]. destruct (score_vec_outcome normalize i) as [(v & Ev & Hv)|(Hn & Hz & Ev)]; rewrite Ev; cbn [bind].
  - destruct IH as [(HF & ->)|(Hn & HE & ->)]; cbn [bind].
    + left. split; [constructor; auto|]. rewrite (sc_val _ _ _ Ev). reflexivity.
    + right. auto.
  - right. split; auto.
Qed.

Definition top_by_score (normalize : bool) (k : Z) (surv : list nat) : list nat :=
  firstn (Z.to_nat (k * 2)) (best qleb (sc normalize) surv).
Definition ranked (normalize : bool) (k : Z) (surv : list nat) : list nat :=
  firstn (Z.to_nat k) (best pair_leb (fun i => (sc normalize i, s2 normalize i)) (top_by_score normalize k surv)).

Lemma most_common_map {V} (leb : V -> V -> bool) (f : nat -> V) k l :
  most_common leb k (map (fun i => (i, f i)) l) = map (fun i => (i, f i)) (firstn (Z.to_nat k) (best leb f l)).
Proof. unfold most_common, best. rewrite isort_map, map_firstn. reflexivity. Qed.

Definition entry_of (normalize : bool) (i : nat) : str * (Qc * Qc) := (wd st i, (sc normalize i, s2 normalize i)).

Lemma top_by_score_in normalize k surv i : In i (top_by_score normalize k surv) -> In i surv.
Proof. intros H. eapply best_firstn_incl; eauto. Qed.

Lemma ranked_top normalize k surv i : In i (ranked normalize k surv) -> In i (top_by_score normalize k surv).
Proof. intros H. eapply best_firstn_incl; eauto. Qed.

Lemma lookup_rest normalize k surv : clean q -> (forall i, In i surv -> (i < length W)%nat) ->
  (c <- mapM (fun e => other <- py_get W (Z.of_nat (fst e)) ;;
         s <- ngram_movers_distance rnd (PStr q) (PStr other) (PInt 2) true normalize ;;
         Ok (fst e, (snd e, s))) (most_common qleb (k * 2) (map (fun i => (i, sc normalize i)) surv)) ;;
   mapM (fun e => other <- py_get W (Z.of_nat (fst e)) ;; Ok (other, snd e)) (most_common pair_leb k c)) =
  Ok (map (entry_of normalize) (ranked normalize k surv)).
Proof.
  intros Cq HS. rewrite most_common_map. fold (top_by_score normalize k surv). rewrite mapM_map.
  rewrite (mapM_Ok_in _ (fun i => (i, (sc normalize i, s2 normalize i)))).
  2:{ intros i Hi. cbn [fst snd]. apply top_by_score_in, HS in Hi. rewrite (py_get_nat W i (@nil N : str)) by auto. cbn [bind].
      fold (wd st i). rewrite s2_val by auto. reflexivity. }
  cbn [bind]. rewrite (most_common_map pair_leb (fun i => (sc normalize i, s2 normalize i))). fold (ranked normalize k surv).
  rewrite mapM_map. apply mapM_Ok_in. intros i Hi. cbn [fst snd]. apply ranked_top, top_by_score_in, HS in Hi.
  rewrite (py_get_nat W i (@nil N : str)) by auto. reflexivity.
Qed.

Definition v5_value (normalize invert : bool) (i : nat) : str * Qc :=
  (wd st i, if invert then sc normalize i else rnd ((if normalize then 1 else 0) - sc normalize i)).

Lemma lookup_v5_rest (normalize invert : bool) k surv : (forall i, In i surv -> (i < length W)%nat) ->
  (out <- mapM (fun e => other <- py_get W (Z.of_nat (fst e)) ;;
           Ok (other, if invert then snd e else rnd ((if normalize then 1 else 0) - snd e)))
           (most_common qleb (k * 2) (map (fun i => (i, sc normalize i)) surv)) ;;
   Ok (isort (fun a b => qleb (snd b) (snd a)) out)) =
  Ok (best qleb snd (map (v5_value normalize invert) (top_by_score normalize k surv))).
Proof.
  intros HS. rewrite most_common_map. fold (top_by_score normalize k surv). rewrite mapM_map.
  rewrite (mapM_Ok_in _ (v5_value normalize invert)); [reflexivity|].
  intros i Hi. cbn [fst snd]. apply top_by_score_in, HS in Hi. rewrite (py_get_nat W i (@nil N : str)) by auto. reflexivity.
Qed.

(** Everything about one call. *)
Record outcome (o : order) (normalize : bool) (k : Z) (R : result (list (str * (Qc * Qc))))
    (R5 : bool -> result (list (str * Qc))) := {
  oc_cands : list nat;
  oc_nodup : NoDup oc_cands;
  oc_cand : forall i, In i oc_cands <-> cand i;
  oc_low : nat -> list Qc;
  oc_low_val : forall i, cand i -> length (oc_low i) = length NL /\
     forall k n, nth_error NL k = Some n -> foldM appl (count_list rnd st q normalize n i) 0 = Ok (nth k (oc_low i) 0);
  oc_cases :
    (oc_cands = [] /\ R = Ok [] /\ forall invert : bool, R5 invert = Ok []) \/
    (oc_cands <> [] /\ Exists (fun n => single_gram n q) NL /\ R = Err ZeroDivisionError /\
       forall invert : bool, R5 invert = Err ZeroDivisionError) \/
    (oc_cands <> [] /\ Forall (fun n => ~ single_gram n q) NL /\
     exists surv thr top,
       NoDup surv /\ (forall i, In i surv <-> In i oc_cands /\ thr <= mean (map (fun x => x * qz 2) (oc_low i))) /\
       NoDup top /\ length top = Nat.min (Z.to_nat k) (length oc_cands) /\
       (forall i, In i top -> In i oc_cands /\ thr <= mean (oc_low i)) /\
       (exists i, In i oc_cands /\ thr = mean (oc_low i)) /\
       ((Forall (fun i => ~ (normalize = true /\ zero_sum i)) surv /\
         R = Ok (map (entry_of normalize) (ranked normalize k surv)) /\
         forall invert : bool, R5 invert = Ok (best qleb snd (map (v5_value normalize invert) (top_by_score normalize k surv)))) \/
        (normalize = true /\ Exists zero_sum surv /\ R = Err ZeroDivisionError /\
         forall invert : bool, R5 invert = Err ZeroDivisionError)))
}.

Lemma single_dec : Exists (fun n => single_gram n q) NL \/ Forall (fun n => ~ single_gram n q) NL.
Proof.
  induction NL as [|n nl IH]; [right; constructor|].
  destruct IH as [H|H]; [left; right; auto|].
  assert (D : single_gram n q \/ ~ single_gram n q) by (unfold single_gram; destruct (1 <? n)%Z; lia).
  destruct D; [left; left; auto|right; constructor; auto].
Qed.

Lemma lookup_outcome o word top_k normalize k : fair o -> lookup_checks casefold st word top_k = Ok (q, k) ->
  exists oc : outcome o normalize k (lookup rnd casefold mean o st word top_k normalize)
                (fun invert : bool => lookup_v5 rnd casefold mean o st word top_k normalize invert), True.
Proof.
  intros F C.
  assert (CK : clean q /\ (1 <= k)%Z).
  { unfold lookup_checks in C. destruct word as [w| | | |]; try discriminate. destruct (zlen w =? 0)%Z; [discriminate|].
    destruct (as_int top_k) as [z|]; [|discriminate]. destruct (Z.leb_spec z 0); [discriminate|]. cbv zeta in C.
    destruct (existsb _ _ || existsb _ _) eqn:D; [discriminate|]. injection C as <- <-. split; [|lia].
    destruct (clean_dec (fold_case casefold st w)) as [|N]; auto. apply dirty_iff in N. congruence. }
  destruct CK as [Cq Hk]. destruct (similarity_summary o normalize k F Hk) as [[cs ND HC low LV H1 H2 H3] _].
  unfold lookup, lookup_v5. rewrite C. cbn [bind].
  unshelve eexists {| oc_cands := cs; oc_low := low |}; auto.
  destruct (list_eq_dec Nat.eq_dec cs []) as [E|N].
  - left. rewrite H1 by auto. split; [auto|]. split; [|intros invert]; unfold most_common; cbn; repeat (rewrite firstn_nil; cbn); reflexivity.
  - destruct single_dec as [X|X].
    + right. left. rewrite H2 by auto. auto.
    + right. right. split; auto. split; auto.
      destruct (H3 N X) as (surv & thr & top & P1 & P2 & P3 & P4 & P5 & P6 & P7).
      exists surv, thr, top. do 6 (split; [auto|]). rewrite P7.
      assert (HS : forall i, In i surv -> (i < length W)%nat).
      { intros i Hi. apply P2 in Hi. destruct Hi as [Hi _]. apply HC in Hi. apply Hi. }
      destruct (surv_scores normalize surv) as [(HF & ->)|(Hn & HE & ->)]; cbn [bind].
      * left. split; auto. split; [apply lookup_rest; auto|]. intros invert. apply lookup_v5_rest; auto.
      * right. auto.
Qed.

(** ** Consequences *)

(** Upper and lower bounds of the counting phase. *)
Definition tight (normalize : bool) : Prop := forall i l v, cand i ->
  length l = length NL ->
  (forall k n, nth_error NL k = Some n -> foldM appl (count_list rnd st q normalize n i) 0 = Ok (nth k l 0)) ->
  score_vec normalize i = Ok v ->
  nonneg l /\ all_le l v /\ all_le v (map (fun x => x * qz 2) l).

Lemma double_ge l : nonneg l -> all_le l (map (fun x => x * qz 2) l).
Proof.
  induction 1; simpl; constructor; auto. replace (x * qz 2) with (x + x); [clear - H; qclra|].
  replace (qz 2) with (1 + 1 : Qc) by (apply Qc_is_canon; reflexivity). ring.
Qed.

Lemma ranked_length normalize k surv : (1 <= k)%Z -> length (ranked normalize k surv) = Nat.min (Z.to_nat k) (length surv).
Proof.
  intros Hk. unfold ranked, top_by_score. rewrite firstn_length.
  rewrite (Permutation_length (best_perm _ _ _)), firstn_length, (Permutation_length (best_perm _ _ _)). lia.
Qed.

Lemma ranked_nodup normalize k surv : NoDup surv -> NoDup (ranked normalize k surv).
Proof.
  intros H. unfold ranked, top_by_score. apply NoDup_firstn.
  eapply Permutation_NoDup; [symmetry; apply best_perm|]. apply NoDup_firstn.
  eapply Permutation_NoDup; [symmetry; apply best_perm|]. auto.
Qed.

Lemma ranked_best normalize k surv r i : In r (ranked normalize k surv) -> In i surv -> ~ In i (ranked normalize k surv) ->
  sc normalize i <= sc normalize r.
Proof.
  intros Hr Hi Ni. destruct (in_dec Nat.eq_dec i (top_by_score normalize k surv)) as [J|J].
  - pose proof (best_rest pair_leb (fun i => (sc normalize i, s2 normalize i)) pair_leb_total pair_leb_trans _ _ r i Hr J Ni) as H.
    apply pair_leb_fst in H. exact H.
  - apply ranked_top in Hr. pose proof (best_rest qleb (sc normalize) qleb_total qleb_trans _ _ r i Hr Hi J) as H.
    apply qleb_le in H. exact H.
Qed.

Lemma zero_sum_dec i : zero_sum i \/ ~ zero_sum i.
Proof.
  unfold zero_sum. induction NL as [|n nl IH].
  - right. intros (n & [] & _).
  - destruct IH as [(m & H1 & H2)|N]; [left; exists m; split; auto; right; auto|].
    destruct (Z.eq_dec (size n q + size n (wd st i)) 0); [left; exists n; split; auto; left; auto|].
    right. intros (m & [<-|H1] & H2); [contradiction|]. apply N. eauto.
Qed.

Section Lossless.
Hypothesis M : averaging mean.
Variables (normalize : bool) (k : Z).
Hypothesis Hk : (1 <= k)%Z.
Hypothesis T : tight normalize.
Variables (cs surv top : list nat) (thr : Qc) (low : nat -> list Qc).
Hypothesis ND : NoDup cs.
Hypothesis HC : forall i, In i cs <-> cand i.
Hypothesis LV : forall i, cand i -> length (low i) = length NL /\
     forall k n, nth_error NL k = Some n -> foldM appl (count_list rnd st q normalize n i) 0 = Ok (nth k (low i) 0).
Hypothesis NS : NoDup surv.
Hypothesis HS : forall i, In i surv <-> In i cs /\ thr <= mean (map (fun x => x * qz 2) (low i)).
Hypothesis NT : NoDup top.
Hypothesis LT : length top = Nat.min (Z.to_nat k) (length cs).
Hypothesis HT : forall i, In i top -> In i cs /\ thr <= mean (low i).
Hypothesis OKS : Forall (fun i => ~ (normalize = true /\ zero_sum i)) surv.
Hypothesis NN : forall i, cand i -> nonneg (low i).

Lemma top_surv i : In i top -> In i surv.
Proof.
  intros H. destruct (HT i H) as [H1 H2]. apply HS. split; auto.
  eapply Qcle_trans; [exact H2|]. apply (mean_mono _ M); [apply NN, HC; auto|]. apply double_ge. apply NN, HC; auto.
Qed.

Lemma vec_ok i : ~ (normalize = true /\ zero_sum i) -> exists v, score_vec normalize i = Ok v.
Proof. intros H. destruct (score_vec_outcome normalize i) as [(v & Hv & _)|(H1 & H2 & _)]; eauto. tauto. Qed.

Lemma top_score i : In i top -> thr <= sc normalize i.
Proof.
  intros H. pose proof (top_surv i H) as H1. destruct (HT i H) as [H2 H3]. apply HC in H2.
  rewrite Forall_forall in OKS. destruct (vec_ok i (OKS i H1)) as [v Hv]. rewrite (sc_val _ _ _ Hv).
  destruct (LV i H2) as [Ll Lv]. destruct (T i (low i) v H2 Ll Lv Hv) as (N0 & A1 & _).
  eapply Qcle_trans; [exact H3|]. apply (mean_mono _ M); auto.
Qed.

Lemma surv_length : Nat.min (Z.to_nat k) (length surv) = Nat.min (Z.to_nat k) (length cs).
Proof.
  assert (length surv <= length cs)%nat by (apply NoDup_incl_length; auto; intros i Hi; apply HS in Hi; tauto).
  assert (length top <= length surv)%nat by (apply NoDup_incl_length; auto; intros i Hi; apply top_surv; auto).
  lia.
Qed.

Lemma ranked_thr r : In r (ranked normalize k surv) -> thr <= sc normalize r.
Proof.
  intros Hr. destruct (Qclt_le_dec (sc normalize r) thr) as [C|]; auto. exfalso.
  assert (Inc : incl (r :: top) (ranked normalize k surv)).
  { intros i [<-|Hi]; auto. destruct (in_dec Nat.eq_dec i (ranked normalize k surv)) as [|N]; auto. exfalso.
    pose proof (ranked_best normalize k surv r i Hr (top_surv i Hi) N) as H. pose proof (top_score i Hi) as H'.
    clear - H H' C. qclra. }
  assert (Nr : ~ In r top). { intros Hi. apply top_score in Hi. clear - Hi C. qclra. }
  assert (N2 : NoDup (r :: top)) by (constructor; auto).
  pose proof (NoDup_incl_length N2 Inc) as H. cbn [length] in H. rewrite ranked_length, surv_length in H by auto. lia.
Qed.

Lemma lossless r j v : In r (ranked normalize k surv) -> cand j -> ~ In j (ranked normalize k surv) ->
  score_vec normalize j = Ok v -> mean v <= sc normalize r.
Proof.
  intros Hr Hj Nj Hv. rewrite <- (sc_val _ _ _ Hv).
  destruct (in_dec Nat.eq_dec j surv) as [Js|Js]; [eapply ranked_best; eauto|].
  destruct (LV j Hj) as [Ll Lv]. destruct (T j (low j) v Hj Ll Lv Hv) as (N0 & _ & A2).
  assert (mean (map (fun x => x * qz 2) (low j)) < thr).
  { apply Qcnot_le_lt. intros C. apply Js, HS. split; auto. apply HC; auto. }
  pose proof (ranked_thr r Hr) as H1. rewrite (sc_val _ _ _ Hv).
  assert (mean v <= mean (map (fun x => x * qz 2) (low j))).
  { apply (mean_mono _ M); auto. destruct (T j (low j) v Hj Ll Lv Hv) as (_ & A1 & _).
    clear - A1 N0. induction A1; inversion N0; subst; constructor; auto. eapply Qcle_trans; eauto. }
  clear - H H0 H1. qclra.
Qed.

End Lossless.
End Top.
