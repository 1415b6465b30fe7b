(** The mean with the compensated [sum] of Python 3.12 and later, for any
    number of summands: it is not monotone, but accurate enough for the pruning
    of [lookup].  Nothing here models code of /repo. *)
From Coq Require Import ZArith NArith QArith Qcanon List Bool Permutation Lia.
From Verif Require Import Num Py ListAux PyDict Float64 EmdSpec EmdModel EmdProofs EmdFloatProofs NmdSpec NmdModel NmdProofs NmdFloatProofs Accuracy NmdAccuracy.
From Verif Require Import IndexSpec IndexModel IndexProofs IndexLoops IndexLookupProofs IndexResult IndexTop IndexScore IndexFacts LookupFloat SelfFloat V5bProofs Ieee NmdIeee IndexIeee.
From Verif Require Import SumExact SumModel SumLookup SumAccuracy Props_Index Props_Accuracy.
Import ListNotations.
Open Scope Qc_scope.

(** ** The sum *)
Lemma exact_sum_qsum l : py_sum exact l = qsum l.
Proof. induction l as [|x l IH]; [reflexivity|]. rewrite exact_sum_cons, IH. reflexivity. Qed.

(** One rounding of something close. *)
Lemma sum_new_rounds l : (Z.of_nat (length l) <= 2 ^ 25)%Z -> Forall dbl l -> nonneg l ->
  exists y, py_sum_new rnd64 l = rnd64 y /\ qabs (y - qsum l) <= u64 * qsum l * Q2Qc (1 # 2).
Proof.
  intros Hn D P. rewrite <- exact_sum_qsum. destruct l as [|x l].
  - exists 0. split; [reflexivity|]. change (py_sum exact []) with 0. rewrite Qcmult_0_r, Qcmult_0_l. apply Qcle_refl.
  - cbn [py_sum_new]. set (S := py_sum exact (x :: l)) in *. assert (S0 : 0 <= S) by (apply exact_sum_nonneg; auto).
    assert (ES : S = x + py_sum exact l) by apply exact_sum_cons. clearbody S.
    inversion D as [|? ? Dx Dl]; inversion P as [|? ? Px Pl]; subst x0 l0 x1 l1. rewrite Qcplus_0_l, Dx.
    set (n := length (x :: l)) in *.
    assert (I0 : sum_inv n S 0 x 0 x).
    { split; [auto|]. split; [auto|]. split; [replace (x + 0 - x) with 0 by ring|]; change (qabs 0) with 0; change (4 * 0)%nat with 0%nat; change (qn 0) with 0; rewrite Qcmult_0_l; apply Qcle_refl. }
    assert (B : x + py_sum exact l <= S) by (rewrite ES; apply Qcle_refl).
    pose proof (sum_inv_run n Hn S S0 l 0 x 0 x ltac:(unfold n; cbn [length]; lia) I0 Dl Pl B) as J. cbv zeta in J. rewrite <- ES in J.
    destruct (fold_left (sum_step rnd64) l (x, 0)) as [f c]. cbn [fst snd Nat.add] in J. destruct J as (Df & F0 & E & _).
    exists (f + c). split.
    + destruct (qeqb c 0) eqn:Q; [|reflexivity]. apply qeqb_eq in Q. subst c. rewrite Qcplus_0_r, Df. reflexivity.
    + eapply Qcle_trans; [exact E|]. eapply Qcle_trans; [|exact (nv n Hn S S0)]. apply qmul_le_r; [apply (v0 n S S0)|apply qn_le; unfold n; cbn [length]; lia].
Qed.

(** Sums that need no rounding. *)
Lemma sum_new_ints zs : (forall z, In z zs -> (0 <= z)%Z) -> (fold_right Z.add 0 zs <= 2 ^ 53)%Z ->
  py_sum_new rnd64 (map qz zs) = qz (fold_right Z.add 0 zs)%Z.
Proof.
  intros P B. destruct zs as [|z zs]; [reflexivity|]. cbn [map py_sum_new fold_right] in *. rewrite Qcplus_0_l.
  assert (S0 : forall l, (forall z, In z l -> (0 <= z)%Z) -> (0 <= fold_right Z.add 0 l)%Z).
  { induction l as [|a l IH]; intros H; cbn [fold_right]; [lia|]. pose proof (H a (or_introl eq_refl)). specialize (IH (fun z Hz => H z (or_intror Hz))). lia. }
  pose proof (P z (or_introl eq_refl)) as Hz. assert (P' : forall z, In z zs -> (0 <= z)%Z) by (intros; apply P; right; auto).
  pose proof (S0 zs P') as Hs. rewrite (dbl_int z) by lia. clear P.
  assert (X : forall a, (0 <= a)%Z -> (a + fold_right Z.add 0 zs <= 2 ^ 53)%Z ->
     fold_left (sum_step rnd64) (map qz zs) (qz a, 0) = (qz (a + fold_right Z.add 0 zs)%Z, 0)).
  { clear Hz B Hs. induction zs as [|b zs IH]; intros a Ha B; cbn [map fold_left fold_right] in *; [rewrite Z.add_0_r; reflexivity|].
    pose proof (P' b (or_introl eq_refl)) as Hb. assert (P2 : forall z, In z zs -> (0 <= z)%Z) by (intros; apply P'; right; auto).
    pose proof (S0 zs P2). rewrite sum_step_err by (apply dbl_int; lia). rewrite <- qz_add.
    rewrite (dbl_int (a + b)) by lia. replace (0 + (qz (a + b) - qz (a + b))) with 0 by ring. rewrite dbl_0.
    rewrite IH by (auto; lia). do 2 f_equal. lia. }
  rewrite X by lia. rewrite qeqb_refl. reflexivity.
Qed.

(** Doubling. *)
Lemma qabs_twice x : qabs (x * qz 2) = qabs x * qz 2.
Proof.
  assert (E : forall x, x * qz 2 = x + x). { intros y. replace (qz 2) with (1 + 1 : Qc) by (apply Qc_is_canon; reflexivity). ring. }
  rewrite !E. qclra.
Qed.
Lemma qleb_twice x y : qleb (x * qz 2) (y * qz 2) = qleb x y.
Proof.
  assert (E : forall x, x * qz 2 = x + x). { intros z. replace (qz 2) with (1 + 1 : Qc) by (apply Qc_is_canon; reflexivity). ring. }
  rewrite !E. destruct (qleb x y) eqn:A; destruct (qleb (x + x) (y + y)) eqn:B; auto; exfalso.
  - apply qleb_le in A. assert (H : x + x <= y + y) by (clear - A; qclra). apply qleb_le in H. congruence.
  - apply qleb_le in B. assert (H : x <= y) by (clear - B; qclra). apply qleb_le in H. congruence.
Qed.
Lemma sum_new_twice l : py_sum_new rnd64 (map (fun x => x * qz 2) l) = py_sum_new rnd64 l * qz 2.
Proof.
  assert (D : forall a b, rnd64 (a * qz 2 + b * qz 2) = rnd64 (a + b) * qz 2) by (intros; rewrite <- Qcmult_plus_distr_l; apply rnd64_doubling).
  assert (D' : forall a b, rnd64 (a * qz 2 - b * qz 2) = rnd64 (a - b) * qz 2).
  { intros. replace (a * qz 2 - b * qz 2) with ((a - b) * qz 2) by ring. apply rnd64_doubling. }
  destruct l as [|x l]; [cbn; ring|]. cbn [map py_sum_new]. rewrite !Qcplus_0_l, rnd64_doubling.
  assert (X : forall f c, fold_left (sum_step rnd64) (map (fun x => x * qz 2) l) (f * qz 2, c * qz 2) =
     let r := fold_left (sum_step rnd64) l (f, c) in (fst r * qz 2, snd r * qz 2)).
  { clear x. induction l as [|x l IH]; intros f c; cbn [map fold_left]; [reflexivity|].
    assert (E : sum_step rnd64 (f * qz 2, c * qz 2) (x * qz 2) = let r := sum_step rnd64 (f, c) x in (fst r * qz 2, snd r * qz 2)).
    { unfold sum_step. cbn [fst snd]. rewrite !qabs_twice, qleb_twice, D. f_equal. destruct (qleb (qabs x) (qabs f)); rewrite D', !D; reflexivity. }
    rewrite E. cbv zeta. rewrite IH. rewrite <- surjective_pairing. reflexivity. }
  specialize (X (rnd64 x) 0). rewrite Qcmult_0_l in X. rewrite X. cbv zeta. destruct (fold_left (sum_step rnd64) l (rnd64 x, 0)) as [f c]. cbn [fst snd].
  destruct (qeqb c 0) eqn:Q.
  - apply qeqb_eq in Q. subst c. rewrite Qcmult_0_l, qeqb_refl. reflexivity.
  - assert (qeqb (c * qz 2) 0 = false) as ->; [|apply D].
    destruct (qeqb (c * qz 2) 0) eqn:Q2; auto. apply qeqb_eq in Q2. exfalso.
    assert (c = 0). { replace c with (c * qz 2 * / qz 2) by (field; discriminate). rewrite Q2. ring. }
    subst c. rewrite qeqb_refl in Q. discriminate.
Qed.

(** ** The mean *)
Definition few (l : list Qc) : Prop := (Z.of_nat (length l) <= 2 ^ 25)%Z /\ Forall dbl l.

Lemma few_twice l : few l -> few (map (fun x => x * qz 2) l).
Proof.
  intros [H D]. split; [rewrite map_length; auto|]. apply Forall_map. eapply Forall_impl; [|exact D]. intros x. apply dbl_double.
Qed.

Lemma mean_new_twice l : mean_new rnd64 (map (fun x => x * qz 2) l) = mean_new rnd64 l * qz 2.
Proof.
  unfold mean_new. rewrite sum_new_twice. replace (zlen (map (fun x => x * qz 2) l)) with (zlen l) by (unfold zlen; rewrite map_length; auto).
  rewrite <- rnd64_doubling. f_equal. unfold Qcdiv. ring.
Qed.

Lemma mean_new_nonneg l : few l -> nonneg l -> 0 <= mean_new rnd64 l.
Proof.
  intros [H D] P. destruct l as [|x l]; [discriminate|]. apply (rnd_nonneg rnd64 rnd64_lawful). apply qdiv_nonneg; [apply avg_div; discriminate|].
  apply sum_new_accurate; auto.
Qed.

Lemma mean_new_grows l : few l -> nonneg l -> mean_new rnd64 l <= mean_new rnd64 (map (fun x => x * qz 2) l).
Proof.
  intros H P. rewrite mean_new_twice. pose proof (mean_new_nonneg l H P) as N.
  replace (qz 2) with (1 + 1 : Qc) by (apply Qc_is_canon; reflexivity). rewrite Qcmult_plus_distr_r, Qcmult_1_r.
  set (m := mean_new rnd64 l) in *. clearbody m. clear - N. qclra.
Qed.

Lemma mean_new_near3 l : few l -> nonneg l -> l <> [] -> near u64 3 (mean_new rnd64 l) (avg l).
Proof.
  intros [H D] P N. unfold mean_new, avg. pose proof (avg_div l N) as Dv. assert (Q : 0 <= qsum l) by (apply qsum_nonneg; auto).
  apply (near_rnd u64 u64_0 u64_1 rnd64 rnd64_accurate); [apply qdiv_nonneg; auto|]. apply near_div; auto.
  destruct (sum_new_rounds l H D P) as (y & -> & E). apply (near_rnd u64 u64_0 u64_1 rnd64 rnd64_accurate); auto.
  assert (0 <= u64 * qsum l) by (apply qmul_nonneg; auto; discriminate).
  unfold near, lo, hi. simpl. rewrite !Qcmult_1_r. split.
  - replace ((1 - u64) * qsum l) with (qsum l - u64 * qsum l) by ring. set (e := u64 * qsum l) in *. clearbody e. clear - E H0. qclra.
  - replace ((1 + u64) * qsum l) with (qsum l + u64 * qsum l) by ring. set (e := u64 * qsum l) in *. clearbody e. clear - E H0. qclra.
Qed.

Lemma mean_new_near l : few l -> nonneg l -> l <> [] -> near u64 (S (length l)) (mean_new rnd64 l) (avg l).
Proof.
  intros H P N. destruct l as [|x [|y l]]; [congruence| |].
  - rewrite mean_new_two by (try apply H; cbn [length]; lia). apply (mean1_near u64 u64_0 u64_1 rnd64 rnd64_accurate); auto.
  - apply (near_mono u64 u64_0 u64_1 3); [cbn [length]; lia| |apply mean_new_near3; auto].
    apply qdiv_nonneg; [apply avg_div; auto|apply qsum_nonneg; auto].
Qed.

Lemma unit_sum l : Forall (fun x => 0 <= x /\ x <= 1) l -> qsum l <= qn (length l).
Proof.
  induction 1 as [|x l [_ H] _ IH]; cbn [qsum length]; [apply Qcle_refl|]. rewrite qn_S, Qcplus_comm. apply Qcplus_le_compat; auto.
Qed.

Lemma mean_new_unit l : few l -> Forall (fun x => 0 <= x /\ x <= 1) l -> l <> [] -> mean_new rnd64 l <= 1.
Proof.
  intros [H D] U N. assert (P : nonneg l) by (eapply Forall_impl; [|exact U]; cbv beta; tauto).
  destruct (sum_new_rounds l H D P) as (y & E & A). pose proof (unit_sum l U) as B.
  assert (S0 : 0 <= qsum l) by (apply qsum_nonneg; auto).
  set (n := qn (length l)) in *. assert (Dn : dbl n) by (apply dbl_int; lia).
  assert (Pn : 0 < n) by (apply qn_pos; destruct l; [congruence|cbn [length]; lia]).
  assert (Un : u64 * qsum l <= u64 * n) by (apply qmul_le_l; [discriminate|auto]).
  assert (R : rnd64 y <= n + u64 * n).
  { destruct (Qclt_le_dec n y) as [C|C].
    - pose proof (rnd64_nearest y n Dn) as Nr. set (r := rnd64 y) in *. clearbody r. revert A Un. generalize (u64 * qsum l) (u64 * n). intros a b A Un.
      clear - A Un Nr C B. qclra.
    - pose proof (rnd_mono rnd64 rnd64_lawful y n C) as Mo. rewrite Dn in Mo. eapply Qcle_trans; [exact Mo|].
      assert (Z : 0 <= u64 * n) by (apply qmul_nonneg; [discriminate|apply Qclt_le_weak; auto]). revert Z. generalize (u64 * n). clear. intros. qclra. }
  unfold mean_new. rewrite E. change (qz (zlen l)) with n.
  assert (O : rnd64 (1 + u64) = 1) by (apply qeqb_eq; vm_compute; reflexivity). rewrite <- O.
  apply (rnd_mono rnd64 rnd64_lawful). apply (qdiv_mono _ _ n) in R; [|apply Qclt_le_weak; auto]. eapply Qcle_trans; [exact R|].
  replace ((n + u64 * n) / n) with (1 + u64); [apply Qcle_refl|]. clear - Pn. clearbody n. field. intros C. rewrite C in Pn. discriminate.
Qed.

Lemma mean_new_ones n : (1 <= n)%nat -> (Z.of_nat n <= 2 ^ 53)%Z -> mean_new rnd64 (repeat 1 n) = 1.
Proof.
  intros N H. unfold mean_new. replace (repeat 1 n) with (map qz (repeat 1%Z n)) by (clear; induction n as [|n IH]; [reflexivity|]; cbn [repeat map]; rewrite IH; reflexivity).
  assert (S : fold_right Z.add 0%Z (repeat 1%Z n) = Z.of_nat n). { clear. induction n as [|n IH]; [reflexivity|]. cbn [repeat fold_right]. lia. }
  rewrite sum_new_ints by (rewrite ?S; auto; intros z Hz; apply repeat_spec in Hz; lia). rewrite S. unfold zlen. rewrite map_length, repeat_length.
  replace (qz (Z.of_nat n) / qz (Z.of_nat n)) with 1; [apply dbl_int; lia|]. symmetry. apply Qcmult_inv_r. change (qn n <> 0).
  pose proof (qn_pos n ltac:(lia)) as P. intros C. rewrite C in P. discriminate.
Qed.

(** ** Bounds and scores of [lookup] *)
Section Vectors.
Variable casefold : str -> str.
Variable st : wordlist.
Hypothesis I : inv rnd64 casefold st.
Variable q : str.
Hypothesis Cq : clean q.
Notation NL := (n_list st).
Hypothesis Nf : (zlen NL <= 2 ^ 20)%Z.

Lemma bound_dbl i l : bound rnd64 st q true i l -> few l.
Proof.
  intros [Ln H]. split; [unfold zlen in Nf; lia|]. apply Forall_forall. intros v Hv. apply (In_nth _ _ 0) in Hv. destruct Hv as (k & Hk & <-).
  destruct (nth_error NL k) as [n|] eqn:Ek; [|apply nth_error_None in Ek; lia]. specialize (H k n Ek). revert H. apply (foldM_appl dbl); [apply dbl_0|].
  intros G a b HG _ Eb. apply count_list_in in HG. destruct HG as (x & l' & ->).
  unfold count_fun in Eb. destruct (_ =? 0)%Z; [discriminate|]. injection Eb as <-. apply dbl_rnd64.
Qed.

Lemma simf_dbl n w s : simf rnd64 q n w = Ok s -> dbl s.
Proof.
  intros H. unfold simf in H. eapply (foldM_inv dbl); [apply dbl_0| |exact H]. intros a [g x] b _ Da Eb. unfold sim_step in Eb.
  destruct (dget g _); [|assert (a = b) by congruence; subst; auto]. apply bind_ok in Eb. destruct Eb as (e & _ & Eb). injection Eb as <-. apply dbl_rnd64.
Qed.

Lemma score1_dbl nz n w v : score1 rnd64 nz q n w = Ok v -> dbl v.
Proof.
  intros H. unfold score1 in H. apply bind_ok in H. destruct H as (s & Hs & H). destruct nz; [|injection H as <-; eapply simf_dbl; eauto].
  destruct (_ =? 0)%Z; [discriminate|]. injection H as <-. apply dbl_rnd64.
Qed.

Lemma scores_few nz w v : mapM (fun n => score1 rnd64 nz q n w) NL = Ok v -> few v.
Proof.
  intros H. split; [pose proof (mapM_len _ _ _ H); unfold zlen in Nf; lia|]. pose proof (mapM_inv _ _ _ H) as B. cbn beta in B.
  eapply Forall2_right; [|exact B]. intros n x _ Hx. exact (score1_dbl nz n w x Hx).
Qed.

(** Normalized scores. *)
Lemma keeps_new : moderate (2 ^ 20) 65532 st q -> keeps rnd64 (mean_new rnd64) st q true /\ separated rnd64 (mean_new rnd64) st q true.
Proof.
  intros Mo. destruct (moderate_size 65536) as [W WZ]; [lia|]. destruct (separated64 casefold st I q Cq Mo W WZ) as [_ NN]. split.
  - intros i l Hi Hl. apply mean_new_grows; [eapply bound_dbl; eauto|eapply NN; eauto].
  - assert (W1 : (1 <= W)%nat) by lia.
    assert (SW : small W) by (unfold small; lia).
    assert (HU : qn 2 * (qn (W + 1) * u64) <= 1) by (rewrite qn_add, (W_val W WZ); vm_compute; discriminate).
    assert (G0 : 0 <= gamma u64 W) by (unfold gamma; rewrite (W_err W WZ), (W_val W WZ); vm_compute; discriminate).
    pose proof (weights64 casefold st I q Mo W WZ) as HW. destruct Mo as (N2 & Lm & _).
    assert (GT : qn 4 * (qn (roundings W st) * u64) <= gamma u64 W).
    { assert (X : qn (roundings W st) <= qz (65536 + 2 * 2 ^ 20 + 4)).
      { unfold qn. apply (proj1 (qz_le _ _)). unfold roundings, zlen in *. lia. }
      eapply Qcle_trans; [apply qmul_le_l; [discriminate|]; apply qmul_le_r; [discriminate|exact X]|].
      unfold gamma. rewrite (W_err W WZ), (W_val W WZ). vm_compute. discriminate. }
    eapply (separated_accurate u64 u64_0 u64_lt rnd64 rnd64_lawful rnd64_accurate W W1 SW HU G0 (mean_new rnd64) few); eauto.
    + apply mean_new_near.
    + intros i l _ Hl. apply bound_dbl in Hl. split; auto. apply few_twice; auto.
    + intros i v _ Hv. unfold score_vec in Hv. eapply scores_few; eauto.
Qed.

(** Plain scores. *)
Hypothesis Lw : forall w, In w (vocabulary st) -> (zlen q + zlen w + 4 <= 2 ^ 27)%Z.

Lemma weights27 n w : In n NL -> In w (word_list st) -> (Z.of_nat (weight q n w) <= 2 ^ 27)%Z.
Proof.
  intros Hn Hw. apply vocabulary_in in Hw. specialize (Lw w Hw). pose proof (weight_le q n w ltac:(eapply NL_pos; eauto)). lia.
Qed.

Definition counts (i : nat) : list Z := map (fun n => Z.of_nat (common rnd64 q n (wd st i))) NL.

Lemma bound_counts i l : bound rnd64 st q false i l -> l = map qz (counts i).
Proof.
  intros [Ln H]. unfold counts. rewrite map_map.
  assert (A : Forall2 (fun n x => x = qn (common rnd64 q n (wd st i))) NL l).
  { apply (nth_Forall2 _ 0); auto. intros k n Hk. assert (Hn : In n NL) by (eapply nth_error_In; eauto).
    specialize (H k n Hk). rewrite (count_plain rnd64 casefold st I q n i Hn) in H. congruence. }
  clear - A. induction A as [|n x ns l E _ IH]; cbn [map]; [reflexivity|]. f_equal; [exact E|exact IH].
Qed.

Lemma counts_in i z : cand st q i -> In z (counts i) -> (0 <= z <= 2 ^ 27)%Z.
Proof.
  intros [Hi _] H. unfold counts in H. apply in_map_iff in H. destruct H as (n & <- & Hn).
  destruct (common_le rnd64 q n (wd st i)) as [C _]. pose proof (weights27 n (wd st i) Hn (wd_in st i Hi)) as B. unfold weight in B. lia.
Qed.

Lemma counts_sum i : cand st q i -> (0 <= fold_right Z.add 0 (counts i) <= 2 ^ 47)%Z.
Proof.
  intros Hi. assert (X : forall l, (forall z, In z l -> (0 <= z <= 2 ^ 27)%Z) -> (0 <= fold_right Z.add 0 l <= 2 ^ 27 * zlen l)%Z).
  { induction l as [|a l IH]; intros H; cbn [fold_right]; [unfold zlen; cbn; lia|]. pose proof (H a (or_introl eq_refl)).
    specialize (IH (fun z Hz => H z (or_intror Hz))). unfold zlen in *. cbn [length]. lia. }
  specialize (X (counts i) (fun z => counts_in i z Hi)). assert (E : zlen (counts i) = zlen NL) by (unfold zlen, counts; rewrite map_length; auto).
  rewrite E in X. nia.
Qed.

Lemma twice_sum zs : fold_right Z.add 0%Z (map (fun z => 2 * z)%Z zs) = (2 * fold_right Z.add 0 zs)%Z.
Proof. induction zs as [|z zs IH]; cbn [map fold_right]; lia. Qed.

Lemma qsum_mono a b : all_le a b -> qsum a <= qsum b.
Proof. induction 1; cbn [qsum]; [apply Qcle_refl|]. apply Qcplus_le_compat; auto. Qed.
Lemma qsum_ints zs : qsum (map qz zs) = qz (fold_right Z.add 0 zs)%Z.
Proof. induction zs as [|z zs IH]; cbn [map qsum fold_right]; [reflexivity|]. rewrite IH, <- qz_add. reflexivity. Qed.
Lemma doubled_ints zs : map (fun x => x * qz 2) (map qz zs) = map qz (map (fun z => 2 * z)%Z zs).
Proof. rewrite !map_map. apply map_ext. intros z. rewrite <- qz_mul. f_equal. lia. Qed.

Lemma keeps_new_plain : keeps rnd64 (mean_new rnd64) st q false /\ separated rnd64 (mean_new rnd64) st q false.
Proof.
  assert (Ti : tight rnd64 st q false).
  { apply (tight_plain rnd64 casefold st rnd64_lawful I q). apply lawful_measured; [apply rnd64_lawful|]. intros n w Hn Hw. unfold small. pose proof (weights27 n w Hn Hw). lia. }
  split.
  - intros i l Hi Hl. apply bound_counts in Hl. subst l. apply mean_new_grows.
    + split; [unfold counts; rewrite !map_length; unfold zlen in Nf; lia|]. apply Forall_map, Forall_forall. intros z Hz. apply dbl_int.
      pose proof (counts_in i z Hi Hz). lia.
    + apply Forall_map, Forall_forall. intros z Hz. rewrite <- qz_0. apply (proj1 (qz_le _ _)). apply (counts_in i z Hi Hz).
  - intros i j li lj vi vj Hi Hj Bi Bj Vi Vj Lt.
    destruct (Ti i li vi Hi (proj1 Bi) (proj2 Bi) Vi) as (Pi & Li & _). destruct (Ti j lj vj Hj (proj1 Bj) (proj2 Bj) Vj) as (Pj & Lj & Uj).
    apply bound_counts in Bi, Bj. subst li lj. rewrite doubled_ints in Lt, Uj.
    set (A := (2 * fold_right Z.add 0 (counts j))%Z) in *. set (B := fold_right Z.add 0%Z (counts i)) in *.
    pose proof (counts_sum i Hi) as HB. fold B in HB. pose proof (counts_sum j Hj) as HA.
    assert (SA : py_sum_new rnd64 (map qz (map (fun z => 2 * z)%Z (counts j))) = qz A).
    { unfold A. rewrite <- twice_sum. apply sum_new_ints; [|rewrite twice_sum; lia]. intros z Hz. apply in_map_iff in Hz. destruct Hz as (y & <- & Hy).
      pose proof (counts_in j y Hj Hy). lia. }
    assert (SB : py_sum_new rnd64 (map qz (counts i)) = qz B) by (apply sum_new_ints; [intros z Hz; apply (counts_in i z Hi Hz)|fold B; lia]).
    pose proof (cand_sizes st q i Hi) as Nn.
    set (m := qn (length NL)). assert (Pm : 0 < m) by (apply qn_pos; destruct NL; [congruence|cbn [length]; lia]).
    assert (L1 : qz (zlen (map qz (map (fun z => 2 * z)%Z (counts j)))) = m) by (unfold zlen, counts; rewrite !map_length; reflexivity).
    assert (L2 : qz (zlen (map qz (counts i))) = m) by (unfold zlen, counts; rewrite !map_length; reflexivity).
    unfold mean_new in Lt. rewrite SA, SB, L1, L2 in Lt.
    assert (AB : (A + 1 <= B)%Z).
    { destruct (Z_lt_le_dec A B) as [|C]; [lia|]. exfalso. apply (proj1 (qz_le _ _)) in C.
      apply (qdiv_mono _ _ m) in C; [|apply Qclt_le_weak; auto]. apply (rnd_mono rnd64 rnd64_lawful) in C. revert C Lt. clear.
      generalize (rnd64 (qz A / m)) (rnd64 (qz B / m)). intros. qclra. }
    assert (Nv : forall v : list Qc, length v = length NL -> v <> []) by (intros v E ->; destruct NL; [congruence|discriminate]).
    assert (Li' : length vi = length NL) by (unfold score_vec in Vi; exact (mapM_len _ _ _ Vi)).
    assert (Lj' : length vj = length NL) by (unfold score_vec in Vj; exact (mapM_len _ _ _ Vj)).
    assert (Qi : nonneg vi) by (clear - Li Pi; revert Pi; induction Li; intros Pi; inversion Pi; subst; constructor; auto; eapply Qcle_trans; eauto).
    assert (Qj : nonneg vj) by (clear - Lj Pj; revert Pj; induction Lj; intros Pj; inversion Pj; subst; constructor; auto; eapply Qcle_trans; eauto).
    assert (Fi : few vi) by (unfold score_vec in Vi; eapply scores_few; eauto). assert (Fj : few vj) by (unfold score_vec in Vj; eapply scores_few; eauto).
    destruct (mean_new_near3 vi Fi Qi (Nv vi Li')) as [Mi _]. destruct (mean_new_near3 vj Fj Qj (Nv vj Lj')) as [_ Mj].
    eapply Qcle_trans; [exact Mj|]. eapply Qcle_trans; [|exact Mi]. unfold avg.
    assert (E1 : qz (zlen vi) = m) by (unfold zlen; rewrite Li'; reflexivity). assert (E2 : qz (zlen vj) = m) by (unfold zlen; rewrite Lj'; reflexivity). rewrite E1, E2.
    unfold Qcdiv. rewrite !Qcmult_assoc. apply qmul_le_r; [apply qinv_nonneg; auto|].
    apply qsum_mono in Li, Uj. rewrite qsum_ints in Li. rewrite qsum_ints, twice_sum in Uj. fold A in Uj. fold B in Li.
    assert (H3 : 0 <= hi u64 3) by (vm_compute; discriminate).
    assert (L3 : 0 <= lo u64 3) by (vm_compute; discriminate).
    eapply Qcle_trans; [apply qmul_le_l; [exact H3|exact Uj]|]. eapply Qcle_trans; [|apply qmul_le_l; [exact L3|exact Li]].
    assert (Hb : qz A + 1 <= qz B). { rewrite <- qz_1, <- qz_add. apply (proj1 (qz_le _ _)). exact AB. }
    eapply Qcle_trans; [|apply qmul_le_l; [exact L3|exact Hb]].
    assert (HA' : qz A <= qz (2 ^ 48)) by (apply (proj1 (qz_le _ _)); unfold A; lia).
    assert (A0 : 0 <= qz A) by (rewrite <- qz_0; apply (proj1 (qz_le _ _)); unfold A; lia).
    assert (X1 : (hi u64 3 - lo u64 3) * qz A <= (hi u64 3 - lo u64 3) * qz (2 ^ 48)) by (apply qmul_le_l; auto; vm_compute; discriminate).
    assert (X2 : (hi u64 3 - lo u64 3) * qz (2 ^ 48) <= lo u64 3) by (vm_compute; discriminate).
    replace (hi u64 3 * qz A) with ((hi u64 3 - lo u64 3) * qz A + lo u64 3 * qz A) by ring.
    rewrite Qcmult_plus_distr_r, Qcmult_1_r, Qcplus_comm. apply Qcplus_le_compat; [apply Qcle_refl|]. exact (Qcle_trans _ _ _ X1 X2).
Qed.
End Vectors.

(** ** With gradual underflow *)
Section Double.
Variable rnd : Qc -> Qc.
Hypothesis D : double_rounding rnd.

Lemma sum_steps_double e b l : (0 <= e <= 900)%Z -> Forall (fit e b) l -> forall k f c, fit e (k * b) f -> fit e (k * (k + 1) * b) c ->
  small ((k + length l) * (k + length l + 2) * b) ->
  fold_left (sum_step rnd) l (f, c) = fold_left (sum_step rnd64) l (f, c) /\
  let r := fold_left (sum_step rnd64) l (f, c) in fit e ((k + length l) * b) (fst r) /\ fit e ((k + length l) * (k + length l + 1) * b) (snd r).
Proof.
  intros He F. induction F as [|x l Fx _ IH]; intros k f c Ff Fc Sm; cbn [fold_left length]; [rewrite Nat.add_0_r; auto|].
  assert (S : forall j, (j <= (k + 1) * (k + 3))%nat -> small (j * b)).
  { intros j Hj. eapply small_le; [|exact Sm]. cbn [length]. apply Nat.mul_le_mono_r. nia. }
  assert (R : forall j v, (j <= (k + 1) * (k + 3))%nat -> fit e (j * b) v -> rnd v = rnd64 v /\ fit e (j * b) (rnd64 v)).
  { intros j v Hj Fv. split; [apply (fit_same rnd D e (j * b)); auto; lia|apply fit_rnd64; auto]. }
  assert (P : forall i j v w, fit e (i * b) v -> fit e (j * b) w -> fit e ((i + j) * b) (v + w)).
  { intros i j v w Fv Fw. rewrite Nat.mul_add_distr_r. apply fit_add; auto. }
  assert (Mi : forall i j v w, fit e (i * b) v -> fit e (j * b) w -> fit e ((i + j) * b) (v - w)).
  { intros i j v w Fv Fw. rewrite Nat.mul_add_distr_r. apply fit_sub; auto. }
  rewrite <- (Nat.mul_1_l b) in Fx.
  assert (St : sum_step rnd (f, c) x = sum_step rnd64 (f, c) x /\
     fit e ((k + 1) * b) (fst (sum_step rnd64 (f, c) x)) /\ fit e ((k + 1) * (k + 2) * b) (snd (sum_step rnd64 (f, c) x))).
  { unfold sum_step. cbn [fst snd]. destruct (R (k + 1)%nat (f + x)) as [-> Ft]; [nia|apply P; auto|]. set (t := rnd64 (f + x)) in *. clearbody t.
    assert (C : forall u v a a', (a + a' = k + 1)%nat -> fit e (a * b) u -> fit e (a' * b) v -> rnd (c + rnd (rnd (u - t) + v)) = rnd64 (c + rnd64 (rnd64 (u - t) + v)) /\
       fit e ((k + 1) * (k + 2) * b) (rnd64 (c + rnd64 (rnd64 (u - t) + v)))).
    { intros u v a a' Ha Fu Fv. destruct (R (a + (k + 1))%nat (u - t)) as [-> G1]; [nia|apply Mi; auto|].
      destruct (R (2 * k + 2)%nat (rnd64 (u - t) + v)) as [-> G2]; [nia| |].
      - replace (2 * k + 2)%nat with (a + (k + 1) + a')%nat by lia. apply P; auto.
      - apply (R ((k + 1) * (k + 2))%nat); [nia|]. replace ((k + 1) * (k + 2))%nat with (k * (k + 1) + (2 * k + 2))%nat by nia. apply P; auto. }
    destruct (qleb (qabs x) (qabs f)).
    - destruct (C f x k 1%nat) as [-> G]; auto.
    - destruct (C x f 1%nat k) as [-> G]; auto. lia. }
  destruct St as (-> & G1 & G2). destruct (sum_step rnd64 (f, c) x) as [f' c']. cbn [fst snd] in G1, G2.
  replace (k + Datatypes.S (length l))%nat with ((k + 1) + length l)%nat by lia. apply IH; auto.
  - replace (k + 1 + 1)%nat with (k + 2)%nat by lia. exact G2.
  - cbn [length] in Sm. replace (k + 1 + length l)%nat with (k + Datatypes.S (length l))%nat by lia. exact Sm.
Qed.

Lemma sum_any_double e b l : (0 <= e <= 900)%Z -> Forall (fit e b) l -> small (length l * (length l + 2) * b) ->
  py_sum_new rnd l = py_sum_new rnd64 l /\ fit e (length l * (length l + 2) * b) (py_sum_new rnd64 l).
Proof.
  intros He F Sm. destruct l as [|x l]; [split; [reflexivity|apply fit_0; lia]|]. cbn [py_sum_new]. rewrite Qcplus_0_l.
  inversion F as [|? ? Fx Fl]; subst. rewrite <- (Nat.mul_1_l b) in Fx.
  assert (S1 : small (1 * b)) by (eapply small_le; [|exact Sm]; apply Nat.mul_le_mono_r; cbn [length]; nia).
  rewrite (fit_same rnd D e (1 * b)) by (auto; lia). assert (Fx' : fit e (1 * b) (rnd64 x)) by (apply fit_rnd64; auto).
  destruct (sum_steps_double e b l He Fl 1%nat (rnd64 x) 0 Fx' ltac:(apply fit_0; lia)) as [-> G]; [cbn [length Nat.add] in *; exact Sm|].
  cbv zeta in G. destruct (fold_left (sum_step rnd64) l (rnd64 x, 0)) as [f c]. cbn [fst snd] in G. destruct G as [G1 G2].
  change (1 + length l)%nat with (length (x :: l)) in G1, G2. set (n := length (x :: l)) in *.
  assert (G : fit e (n * (n + 2) * b) (f + c)).
  { replace (n * (n + 2) * b)%nat with (n * b + n * (n + 1) * b)%nat by nia. apply fit_add; auto. }
  destruct (qeqb c 0) eqn:Q.
  - apply qeqb_eq in Q. subst c. rewrite Qcplus_0_r in G. auto.
  - split; [apply (fit_same rnd D e (n * (n + 2) * b)); auto; lia|]. apply fit_rnd64; auto.
Qed.

Lemma mean_any_double e b l : (0 <= e <= 900)%Z -> l <> [] -> (zlen l <= 2 ^ 20)%Z -> Forall (fit e b) l -> small (length l * (length l + 2) * b) ->
  mean_new rnd l = mean_new rnd64 l /\ fit (e + 105) (length l * (length l + 2) * b) (mean_new rnd64 l).
Proof.
  intros He N Hl F Sm. unfold mean_new. destruct (sum_any_double e b l He F Sm) as [-> G].
  apply (quot_same rnd D e (length l * (length l + 2) * b)); auto; unfold zlen in *; destruct l; cbn [length] in *; try congruence; lia.
Qed.

Lemma mean_any_eq e b l : (0 <= e <= 900)%Z -> l <> [] -> (zlen l <= 2 ^ 20)%Z -> Forall (fit e b) l -> small (length l * (length l + 2) * b) ->
  mean_new rnd l = mean_new rnd64 l.
Proof. intros. eapply proj1, mean_any_double; eauto. Qed.

Variable casefold : str -> str.
Variable st : wordlist.
Hypothesis I : inv rnd64 casefold st.
Hypothesis I' : inv rnd casefold st.
Variable q : str.
Notation NL := (n_list st).
Hypothesis B : lengths st q.
Hypothesis N10 : (zlen NL <= 2 ^ 9)%Z.

Lemma similarity_any_double o nz k : fair o ->
  lookup_similarity rnd (mean_new rnd) o st q k nz = lookup_similarity rnd64 (mean_new rnd64) o st q k nz /\
  forall sims, lookup_similarity rnd64 (mean_new rnd64) o st q k nz = Ok sims ->
    Forall (fun e => fit 315 (length NL * (length NL + 2) * M2) (snd e)) sims.
Proof.
  intros F. unfold lookup_similarity. rewrite (min_scores_double rnd D casefold st I I' q B).
  destruct (min_scores rnd64 st q nz (filter_set o st q)) as [ms|] eqn:E; [|split; [reflexivity|discriminate]]. cbn [bind].
  destruct ms as [|e0 ms0] eqn:Ems; [split; [reflexivity|intros sims X; injection X as <-; constructor]|]. rewrite <- Ems in *.
  assert (NN : NL <> []).
  { intros EN. unfold min_scores in E. rewrite EN in E. cbn in E. congruence. }
  assert (NE : forall l : list Qc, length l = length NL -> l <> []) by (intros l Ln ->; destruct NL; [auto|discriminate]).
  clear e0 ms0 Ems.
  assert (Sz : forall (l : list Qc) b, length l = length NL -> (Z.of_nat b <= 2 ^ 33)%Z -> small (length l * (length l + 2) * b)).
  { intros l b Ln Hb. unfold small. rewrite Ln. unfold zlen in N10. rewrite !Nat2Z.inj_mul, Nat2Z.inj_add. nia. }
  assert (Pr : forall k, prune (mean_new rnd) k ms = prune (mean_new rnd64) k ms).
  { intros j. apply prune_means. intros i l H. destruct (min_scores_fit rnd D casefold st I q B o nz ms F E i l H) as [Ln Fl]. split.
    - apply (mean_any_eq 105 M); [lia|apply NE; exact Ln|unfold zlen in *; lia|exact Fl|]. apply Sz; [exact Ln|]. rewrite M_z. lia.
    - apply (mean_any_eq 105 (M + M)); [lia|apply NE; rewrite map_length; exact Ln|unfold zlen in *; rewrite map_length; lia| |].
      + apply Forall_forall. intros v Hv. apply in_map_iff in Hv. destruct Hv as (x & <- & Hx). rewrite Forall_forall in Fl.
        replace (x * qz 2) with (x + x); [apply fit_add; auto|].
        replace (qz 2) with (1 + 1 : Qc) by (apply Qc_is_canon; reflexivity). ring.
      + apply Sz; [rewrite map_length; exact Ln|]. rewrite Nat2Z.inj_add, M_z. lia. }
  rewrite Pr. destruct (prune (mean_new rnd64) k ms) as [poss|] eqn:Ep; [|split; [reflexivity|discriminate]]. cbn [bind].
  pose proof (poss_cand casefold st I q o nz ms _ k poss F E Ep) as HC. rewrite (matches_double rnd D casefold st I q B).
  destruct (matches rnd64 st q poss) as [m|] eqn:Em; [|split; [reflexivity|discriminate]]. cbn [bind].
  pose proof (matches_fit rnd D casefold st I q B poss m HC Em) as MF.
  destruct (mapM_same (norm_scores rnd st q nz) (norm_scores rnd64 st q nz) (fun e => length (snd e) = length NL /\ Forall (fit 210 M2) (snd e)) m) as [En Pf].
  { intros [i l] Hi. destruct (MF i l Hi). apply (norm_double rnd D casefold st I q B); auto. }
  rewrite En. destruct (mapM (norm_scores rnd64 st q nz) m) as [m'|] eqn:Em'; [|split; [reflexivity|discriminate]]. cbn [bind].
  specialize (Pf m' eq_refl). rewrite Forall_forall in Pf. 
  assert (X : forall e, In e m' -> mean_new rnd (snd e) = mean_new rnd64 (snd e) /\ fit 315 (length NL * (length NL + 2) * M2) (mean_new rnd64 (snd e))).
  { intros e He. destruct (Pf e He) as [Ln Fe]. rewrite <- Ln. change 315%Z with (210 + 105)%Z. apply (mean_any_double 210 M2); [lia|apply NE; exact Ln|unfold zlen in *; lia|exact Fe|]. apply Sz; [exact Ln|]. rewrite M2_z. lia. }
  split.
  - f_equal. apply map_ext_in. intros e He. f_equal. apply X; auto.
  - intros sims Es. injection Es as <-. apply Forall_map, Forall_forall. intros e He. cbn [snd]. apply X; auto.
Qed.
End Double.
