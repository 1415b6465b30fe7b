(** The word lists of nmd/nmd_index.py look up the same with the compensated
    [sum] of Python 3.12 and later, if there are at most two n-gram sizes. *)
From Coq Require Import ZArith NArith QArith Qcanon List Bool Permutation Lia.
From Verif Require Import Num Py ListAux PyDict Float64 EmdSpec EmdModel EmdProofs EmdFloatProofs NmdSpec NmdModel NmdProofs NmdFloatProofs Accuracy LookupFloat NmdAccuracy.
From Verif Require Import IndexSpec IndexModel IndexProofs IndexLoops IndexLookupProofs IndexResult IndexTop IndexFacts Ieee NmdIeee IndexIeee.
From Verif Require Import SumExact SumModel.
Import ListNotations.
Open Scope Qc_scope.

(** ** At most two summands *)
Lemma qeqb_refl x : qeqb x x = true.
Proof. apply qeqb_eq. reflexivity. Qed.

Lemma sum_step_err f c x : dbl f -> dbl x -> sum_step rnd64 (f, c) x = (rnd64 (f + x), rnd64 (c + (f + x - rnd64 (f + x)))).
Proof.
  intros Df Dx. unfold sum_step. f_equal. destruct (qleb (qabs x) (qabs f)) eqn:E.
  - apply qleb_le in E. rewrite fast_two_sum by auto. reflexivity.
  - assert (L : qabs f <= qabs x).
    { destruct (Qclt_le_dec (qabs f) (qabs x)) as [H|H]; [apply Qclt_le_weak; auto|]. apply qleb_le in H. congruence. }
    rewrite (Qcplus_comm f x). rewrite fast_two_sum by auto. reflexivity.
Qed.

Lemma sum_new_two l : (length l <= 2)%nat -> Forall dbl l -> py_sum_new rnd64 l = py_sum rnd64 l.
Proof.
  intros Ln F. destruct l as [|a [|b [|c l]]]; [reflexivity| | |simpl in Ln; lia].
  - cbn. reflexivity.
  - inversion F as [|? ? Da F']; subst. inversion F' as [|? ? Db _]; subst. unfold py_sum. cbn [fold_left py_sum_new].
    rewrite !Qcplus_0_l, Da. rewrite sum_step_err by auto. rewrite Qcplus_0_l.
    assert (De : dbl (a + b - rnd64 (a + b))).
    { destruct (Qclt_le_dec (qabs a) (qabs b)) as [H|H]; [|apply add_error; auto].
      rewrite (Qcplus_comm a b). apply add_error; auto. apply Qclt_le_weak; auto. }
    rewrite De. destruct (qeqb _ 0); [reflexivity|]. f_equal. ring.
Qed.

Lemma mean_new_two l : (length l <= 2)%nat -> Forall dbl l -> mean_new rnd64 l = mean1 rnd64 l.
Proof. intros Ln F. unfold mean_new, mean1. rewrite sum_new_two by auto. reflexivity. Qed.

(** ** Lookups *)
Section Lookup.
Variable casefold : str -> str.
Variable st : wordlist.
Hypothesis I : inv rnd64 casefold st.
Variable q : str.
Notation W := (word_list st).
Notation NL := (n_list st).
Hypothesis two_sizes : (length NL <= 2)%nat.

Lemma foldM_appl (P : Qc -> Prop) fs v : P 0 -> (forall F a b, In F fs -> P a -> F a = Ok b -> P b) -> foldM appl fs 0 = Ok v -> P v.
Proof. intros P0 H E. eapply (foldM_inv P); [exact P0| |exact E]. intros a F b HF Pa Ea. eapply H; eauto. Qed.

Lemma count_list_in F nz n i : In F (count_list rnd64 st q nz n i) -> exists x l, F = count_fun rnd64 st q nz n x i l.
Proof.
  unfold count_list. intros H. apply in_flat_map in H. destruct H as ([g x] & _ & H). cbn [fst snd] in H.
  destruct (locs _ _ _) as [|y l]; [contradiction|]. destruct H as [<-|[]]. eauto.
Qed.

Lemma min_scores_dbl o nz ms : fair o -> (nz = false -> lengths st q) -> min_scores rnd64 st q nz (filter_set o st q) = Ok ms ->
  forall i l, In (i, l) ms -> length l = length NL /\ Forall dbl l.
Proof.
  intros F B E i l H. destruct (min_scores_spec rnd64 casefold st I q o nz F) as (ms' & E' & Wf & _ & V).
  assert (ms' = ms) by congruence. subst ms'. pose proof H as H0. apply In_dget in H; auto. destruct (V i l H) as [Ln Vk]. split; auto.
  apply Forall_forall. intros v Hv. pose proof Hv as Hv0. apply (In_nth _ _ 0) in Hv. destruct Hv as (k & Hk & <-).
  destruct (nth_error NL k) as [n|] eqn:Ek; [|apply nth_error_None in Ek; lia].
  specialize (Vk k n Ek). destruct nz.
  - revert Vk. apply (foldM_appl dbl); [apply dbl_0|]. intros G a b HG _ Eb. apply count_list_in in HG. destruct HG as (x & l' & ->).
    unfold count_fun in Eb. destruct (_ =? 0)%Z; [discriminate|]. injection Eb as <-. apply dbl_rnd64.
  - assert (Z : exists z, nth k l 0 = qz z).
    { revert Vk. apply (foldM_appl (fun v => exists z, v = qz z)); [exists 0%Z; reflexivity|]. intros G a b HG (z & ->) Eb. apply count_list_in in HG.
      destruct HG as (x & l' & ->). unfold count_fun in Eb. injection Eb as <-. eexists. rewrite <- qz_add. reflexivity. }
    destruct Z as [z Ez]. pose proof (min_scores_fit ieee64 (fun _ _ => eq_refl) casefold st I q (B eq_refl) o false ms F E i l H0) as [_ Fl].
    rewrite Forall_forall in Fl. specialize (Fl _ Hv0). destruct Fl as [_ Fl]. rewrite Ez in *. apply dbl_int.
    assert (qz z <= qn M) by (clear - Fl; qclra). assert (qz (- z) <= qn M) by (rewrite qz_opp; clear - Fl; qclra).
    unfold qn in *. rewrite M_z in *. apply (proj2 (qz_le _ _)) in H1, H2. lia.
Qed.

Lemma matches_dbl poss m : (forall i, In i poss -> cand st q i) -> matches rnd64 st q poss = Ok m ->
  forall i l, In (i, l) m -> length l = length NL /\ Forall dbl l.
Proof.
  intros HC E i l H. destruct (single_dec st q) as [Ex|NS].
  - rewrite matches_single in E by auto. discriminate.
  - destruct (matches_spec rnd64 casefold rnd64_lawful st I q poss NS HC) as (m' & E' & Wf & _ & V).
    assert (m' = m) by congruence. subst m'. apply In_dget in H; auto. destruct (V i l H) as [Ln Vk]. split; auto.
    apply Forall_forall. intros v Hv. apply (In_nth _ _ 0) in Hv. destruct Hv as (k & Hk & <-).
    destruct (nth_error NL k) as [n|] eqn:Ek; [|apply nth_error_None in Ek; lia].
    specialize (Vk k n Ek). unfold simf in Vk. revert Vk. generalize (nth k l 0). intros v Vk.
    eapply (foldM_inv dbl); [apply dbl_0| |exact Vk]. intros a [g x] b _ Da Eb. unfold sim_step in Eb.
    destruct (dget g (group (gocc rnd64 (get_n_grams (wd st i) n)))); [|assert (a = b) by congruence; subst; auto]. apply bind_ok in Eb. destruct Eb as (e & _ & Eb). injection Eb as <-. apply dbl_rnd64.
Qed.

Lemma norm_dbl nz e e' : length (snd e) = length NL /\ Forall dbl (snd e) -> norm_scores rnd64 st q nz e = Ok e' ->
  length (snd e') = length NL /\ Forall dbl (snd e').
Proof.
  intros H E. destruct e as [i l]. unfold norm_scores in E. apply bind_ok in E. destruct E as (ol & _ & E). destruct nz.
  - apply bind_ok in E. destruct E as (l' & El & E). injection E as <-. cbn [snd]. split.
    + apply mapM_len in El. rewrite El. apply enumerate_length.
    + revert l' El. generalize (enumerate NL). intros ns. induction ns as [|[k n] ns IH]; intros l' El; cbn [mapM] in El; [injection El as <-; constructor|].
      apply bind_ok in El. destruct El as (b & Eb & El). apply bind_ok in El. destruct El as (bs & Ebs & X). injection X as <-. constructor; auto.
      apply bind_ok in Eb. destruct Eb as (s & _ & Eb). cbv zeta in Eb. destruct (_ =? 0)%Z; [discriminate|]. injection Eb as <-. apply dbl_rnd64.
  - injection E as <-. exact H.
Qed.

(** Two means that agree on the vectors that occur. *)
Lemma prune_means mn mn' k (ms : dict nat (list Qc)) :
  (forall i l, In (i, l) ms -> mn l = mn' l /\ mn (map (fun x => x * qz 2) l) = mn' (map (fun x => x * qz 2) l)) -> prune mn k ms = prune mn' k ms.
Proof.
  intros X. unfold prune. assert (E1 : map mn (dvals ms) = map mn' (dvals ms)).
  { unfold dvals. rewrite !map_map. apply map_ext_in. intros [i l] Hi. apply (X i l Hi). }
  rewrite E1. destruct (py_get _ _); [|reflexivity]. cbn [bind]. do 2 f_equal.
  apply filter_ext_in. intros [i l] Hi. cbn [snd]. f_equal. apply (X i l Hi).
Qed.

Definition goodvec (l : list Qc) : Prop := length l = length NL /\ Forall dbl l.

Lemma doubled_dbl l : goodvec l -> goodvec (map (fun x => x * qz 2) l).
Proof.
  intros [Ln Fl]. split; [rewrite map_length; auto|].
  apply Forall_forall. intros v Hv. apply in_map_iff in Hv. destruct Hv as (x & <- & Hx). rewrite Forall_forall in Fl. apply dbl_double; auto.
Qed.

(** The vectors that [mean] is applied to. *)
Lemma poss_cand o nz ms mn k poss : fair o -> min_scores rnd64 st q nz (filter_set o st q) = Ok ms -> prune mn k ms = Ok poss ->
  forall i, In i poss -> cand st q i.
Proof.
  intros F E Ep i Hi. apply (prune_in _ _ _ _ _ Ep) in Hi. destruct (min_scores_spec rnd64 casefold st I q o nz F) as (ms' & E' & _ & K & _).
  rewrite E in E'. injection E' as <-. apply K; auto.
Qed.

Lemma normed_dbl nz poss m m' : (forall i, In i poss -> cand st q i) -> matches rnd64 st q poss = Ok m -> mapM (norm_scores rnd64 st q nz) m = Ok m' ->
  forall e, In e m' -> goodvec (snd e).
Proof.
  intros HC Em Em'. pose proof (matches_dbl poss m HC Em) as MF.
  destruct (mapM_same (norm_scores rnd64 st q nz) (norm_scores rnd64 st q nz) (fun e => goodvec (snd e)) m) as [_ Pn].
  { intros [i l] Hi. split; auto. intros e' He'. eapply norm_dbl; [|exact He']. apply (MF i l Hi). }
  specialize (Pn m' Em'). rewrite Forall_forall in Pn. exact Pn.
Qed.

Lemma similarity_new o nz k : fair o -> (nz = false -> lengths st q) ->
  lookup_similarity rnd64 (mean_new rnd64) o st q k nz = lookup_similarity rnd64 (mean1 rnd64) o st q k nz.
Proof.
  intros F B. unfold lookup_similarity.
  destruct (min_scores rnd64 st q nz (filter_set o st q)) as [ms|] eqn:E; [|reflexivity]. cbn [bind].
  destruct ms as [|e0 ms0] eqn:Ems; [reflexivity|]. rewrite <- Ems in *. clear e0 ms0 Ems.
  rewrite (prune_means (mean_new rnd64) (mean1 rnd64)).
  2:{ intros i l H. pose proof (min_scores_dbl o nz ms F B E i l H) as G. pose proof (doubled_dbl l G) as [G1 G2]. destruct G. split; apply mean_new_two; auto; lia. }
  destruct (prune (mean1 rnd64) k ms) as [poss|] eqn:Ep; [|reflexivity]. cbn [bind].
  destruct (matches rnd64 st q poss) as [m|] eqn:Em; [|reflexivity]. cbn [bind].
  pose proof (poss_cand o nz ms _ k poss F E Ep) as HC.
  destruct (mapM (norm_scores rnd64 st q nz) m) as [m'|] eqn:Em'; [|reflexivity]. cbn [bind].
  pose proof (normed_dbl nz poss m m' HC Em Em') as Pn. f_equal. apply map_ext_in. intros e He. f_equal. destruct (Pn e He). apply mean_new_two; auto. lia.
Qed.

(** *** With gradual underflow *)
Section Double.
Variable rnd : Qc -> Qc.
Hypothesis D : double_rounding rnd.
Hypothesis I' : inv rnd casefold st.
Hypothesis B : lengths st q.

Lemma sum_new_double e b l : (0 <= e <= 900)%Z -> (length l <= 2)%nat -> Forall (fit e b) l -> small (12 * b) ->
  py_sum_new rnd l = py_sum_new rnd64 l.
Proof.
  intros He Ln F Sm.
  assert (S : forall k, (k <= 12)%nat -> small (k * b)) by (intros k Hk; eapply small_le; [|exact Sm]; nia).
  assert (R : forall k v, (k <= 12)%nat -> fit e (k * b) v -> rnd v = rnd64 v /\ fit e (k * b) (rnd64 v)).
  { intros k v Hk Fv. split; [apply (fit_same rnd D e (k * b)); auto; lia|apply fit_rnd64; auto]. }
  assert (P : forall j k v w, fit e (j * b) v -> fit e (k * b) w -> fit e ((j + k) * b) (v + w)).
  { intros j k v w Fv Fw. rewrite Nat.mul_add_distr_r. apply fit_add; auto. }
  assert (Mi : forall j k v w, fit e (j * b) v -> fit e (k * b) w -> fit e ((j + k) * b) (v - w)).
  { intros j k v w Fv Fw. rewrite Nat.mul_add_distr_r. apply fit_sub; auto. }
  destruct l as [|x [|y [|z l]]]; [reflexivity| | |simpl in Ln; lia]; cbn [py_sum_new fold_left]; rewrite !Qcplus_0_l.
  - inversion F as [|? ? Fx _]; subst. cbn. destruct (R 1%nat x) as [-> _]; [lia| |reflexivity]. rewrite Nat.mul_1_l. auto.
  - inversion F as [|? ? Fx F']; subst. inversion F' as [|? ? Fy _]; subst. rewrite <- (Nat.mul_1_l b) in Fx, Fy.
    destruct (R 1%nat x) as [-> Fx']; [lia|auto|]. set (x' := rnd64 x) in *. clearbody x'.
    unfold sum_step. destruct (R 2%nat (x' + y)) as [-> Ft]; [lia|apply (P 1%nat 1%nat); auto|]. set (t := rnd64 (x' + y)) in *. clearbody t.
    assert (C : forall u v, fit e (1 * b) u -> fit e (1 * b) v -> rnd (0 + rnd (rnd (u - t) + v)) = rnd64 (0 + rnd64 (rnd64 (u - t) + v)) /\
       fit e (4 * b) (rnd64 (0 + rnd64 (rnd64 (u - t) + v)))).
    { intros u v Fu Fv. destruct (R 3%nat (u - t)) as [-> G1]; [lia|apply (Mi 1%nat 2%nat); auto|].
      destruct (R 4%nat (rnd64 (u - t) + v)) as [-> G2]; [lia|apply (P 3%nat 1%nat); auto|]. rewrite !Qcplus_0_l.
      apply (R 4%nat); [lia|]. exact G2. }
    assert (X : (if qleb (qabs y) (qabs x') then rnd (0 + rnd (rnd (x' - t) + y)) else rnd (0 + rnd (rnd (y - t) + x'))) =
       (if qleb (qabs y) (qabs x') then rnd64 (0 + rnd64 (rnd64 (x' - t) + y)) else rnd64 (0 + rnd64 (rnd64 (y - t) + x'))) /\
       fit e (4 * b) (if qleb (qabs y) (qabs x') then rnd64 (0 + rnd64 (rnd64 (x' - t) + y)) else rnd64 (0 + rnd64 (rnd64 (y - t) + x')))).
    { destruct (qleb (qabs y) (qabs x')); apply C; auto. }
    destruct X as [-> Fc]. set (c := if qleb (qabs y) (qabs x') then _ else _) in *. clearbody c.
    destruct (qeqb c 0); [reflexivity|]. apply (R 6%nat); [lia|]. apply (P 2%nat 4%nat); auto.
Qed.

Lemma mean_new_double e b l : (0 <= e <= 900)%Z -> goodvec l -> l <> [] -> Forall (fit e b) l -> small (12 * b) -> mean_new rnd l = mean1 rnd l.
Proof.
  intros He [Ln Dl] N Fl Sm. destruct (mean_same rnd D e b l He Fl N) as [-> _]; [eapply small_le; [|exact Sm]; nia|unfold small; lia|].
  rewrite <- mean_new_two by (auto; lia). unfold mean_new. rewrite (sum_new_double e b l) by (auto; lia). rewrite sum_new_two by (auto; lia).
  unfold py_sum. destruct (fsum_same rnd D e b l He Fl 0 0) as [_ G]; [apply fit_0; lia|eapply small_le; [|exact Sm]; nia|].
  cbn [Nat.add] in G. apply (quot_same rnd D e (length l * b)); auto; [eapply small_le; [|exact Sm]; nia| |]; unfold zlen; destruct l; cbn [length] in *; try congruence; lia.
Qed.

Lemma similarity_new_double o nz k : fair o ->
  lookup_similarity rnd (mean_new rnd) o st q k nz = lookup_similarity rnd (mean1 rnd) o st q k nz.
Proof.
  intros F. unfold lookup_similarity. rewrite (min_scores_double rnd D casefold st I I' q B).
  destruct (min_scores rnd64 st q nz (filter_set o st q)) as [ms|] eqn:E; [|reflexivity]. cbn [bind].
  destruct ms as [|e0 ms0] eqn:Ems; [reflexivity|]. rewrite <- Ems in *. 
  assert (NN : NL <> []).
  { intros EN. unfold min_scores in E. rewrite EN in E. cbn in E. congruence. }
  assert (NE : forall l, goodvec l -> l <> []) by (intros l [Ln _] ->; destruct NL; [auto|discriminate]).
  clear e0 ms0 Ems.
  assert (Pr : forall k, prune (mean_new rnd) k ms = prune (mean1 rnd) k ms).
  { intros j. apply prune_means. intros i l H. pose proof (min_scores_dbl o nz ms F (fun _ => B) E i l H) as G. pose proof (doubled_dbl l G) as G2.
    destruct (min_scores_fit rnd D casefold st I q B o nz ms F E i l H) as [_ Fl]. split.
    - apply (mean_new_double 105 M); auto; [lia|]. unfold small. rewrite Nat2Z.inj_mul, M_z. lia.
    - apply (mean_new_double 105 (M + M)); auto; [lia| |unfold small; rewrite Nat2Z.inj_mul, Nat2Z.inj_add, M_z; lia].
      apply Forall_forall. intros v Hv. apply in_map_iff in Hv. destruct Hv as (x & <- & Hx). rewrite Forall_forall in Fl.
      replace (x * qz 2) with (x + x); [apply fit_add; auto|].
      replace (qz 2) with (1 + 1 : Qc) by (apply Qc_is_canon; reflexivity). ring. }
  rewrite Pr. destruct (prune (mean1 rnd) k ms) as [poss|] eqn:Ep; [|reflexivity]. cbn [bind].
  pose proof (poss_cand o nz ms _ k poss F E Ep) as HC. rewrite (matches_double rnd D casefold st I q B).
  destruct (matches rnd64 st q poss) as [m|] eqn:Em; [|reflexivity]. cbn [bind].
  pose proof (matches_fit rnd D casefold st I q B poss m HC Em) as MF.
  destruct (mapM_same (norm_scores rnd st q nz) (norm_scores rnd64 st q nz) (fun e => length (snd e) = length NL /\ Forall (fit 210 M2) (snd e)) m) as [En Pf].
  { intros [i l] Hi. destruct (MF i l Hi). apply (norm_double rnd D casefold st I q B); auto. }
  rewrite En. destruct (mapM (norm_scores rnd64 st q nz) m) as [m'|] eqn:Em'; [|reflexivity]. cbn [bind].
  specialize (Pf m' eq_refl). rewrite Forall_forall in Pf.
  pose proof (normed_dbl nz poss m m' HC Em Em') as Pn. f_equal. apply map_ext_in. intros e He. f_equal.
  apply (mean_new_double 210 M2); auto; [lia|apply Pf; auto|]. unfold small. rewrite Nat2Z.inj_mul, M2_z. lia.
Qed.
End Double.
End Lookup.
