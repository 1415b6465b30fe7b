(** Bounds on the scores of [lookup], and what follows for its result. *)
From Coq Require Import ZArith NArith QArith Qcanon List Bool Permutation Lia Sorted.
From Verif Require Import Num Py ListAux PyDict Float64 EmdSpec EmdModel EmdProofs EmdFloatProofs
  NmdSpec NmdModel NmdProofs NmdFloatProofs IndexSpec IndexModel IndexProofs IndexLoops IndexLookupProofs IndexResult IndexTop.
Import ListNotations.
Open Scope Qc_scope.

Lemma nth_Forall2 {A B} (P : A -> B -> Prop) (d : B) : forall la lb, length lb = length la ->
  (forall k a, nth_error la k = Some a -> P a (nth k lb d)) -> Forall2 P la lb.
Proof.
  induction la as [|a la IH]; intros [|b lb] H HP; try discriminate; constructor.
  - apply (HP 0%nat a). reflexivity.
  - apply IH; [simpl in H; lia|]. intros k x Hx. apply (HP (S k) x). exact Hx.
Qed.

Lemma Forall2_join {A B C} (P : A -> B -> Prop) (Q : A -> C -> Prop) (R : B -> C -> Prop) la : forall lb lc,
  (forall a b c, In a la -> P a b -> Q a c -> R b c) -> Forall2 P la lb -> Forall2 Q la lc -> Forall2 R lb lc.
Proof.
  induction la as [|a la IH]; intros lb lc H HP HQ; inversion HP; inversion HQ; subst; constructor.
  - eapply H; eauto. left; auto.
  - eapply IH; eauto. intros; eapply H; eauto. right; auto.
Qed.

Lemma Forall2_right {A B} (P : A -> B -> Prop) (Q : B -> Prop) la : forall lb,
  (forall a b, In a la -> P a b -> Q b) -> Forall2 P la lb -> Forall Q lb.
Proof.
  induction la as [|a la IH]; intros lb H HP; inversion HP; subst; constructor.
  - eapply H; eauto. left; auto.
  - eapply IH; eauto. intros; eapply H; eauto. right; auto.
Qed.

Lemma Forall2_map_r {A B C} (P : A -> C -> Prop) (g : B -> C) la : forall lb, Forall2 (fun a b => P a (g b)) la lb -> Forall2 P la (map g lb).
Proof. induction la; intros lb H; inversion H; subst; simpl; constructor; auto. Qed.

Lemma qz_0' : qz 0 = 0. Proof. apply Qc_is_canon. reflexivity. Qed.

Section Score.
Variable rnd : Qc -> Qc.
Hypothesis L : lawful rnd.

Lemma grams_size n w : (0 < n)%Z -> (Z.of_nat (length (get_n_grams w n)) <= Z.max 0 (size n w))%Z.
Proof.
  intros Hn. unfold get_n_grams, size. destruct (Z.ltb_spec 1 n).
  - rewrite map_length, py_range_length. unfold zlen. cbn [length]. rewrite app_length. cbn [length]. lia.
  - rewrite map_length. unfold zlen. lia.
Qed.

Lemma common_size q n w : (0 < n)%Z -> (0 < common rnd q n w)%nat ->
  (Z.of_nat (2 * common rnd q n w) <= size n q + size n w)%Z /\ (0 < size n q + size n w)%Z.
Proof.
  intros Hn H. destruct (common_le rnd q n w) as [H1 H2].
  pose proof (grams_size n q Hn). pose proof (grams_size n w Hn). lia.
Qed.

Lemma simf_zero q n w : faithful_upto rnd (weight q n w) -> common rnd q n w = 0%nat -> simf rnd q n w = Ok 0.
Proof.
  intros F E. destruct (simf_pinched rnd L q n w F) as (s & Hs & H1 & H2). rewrite E in *. rewrite Hs. f_equal.
  change (qn (2 * 0)) with (qn 0) in H2. rewrite qn_0 in *. clear - H1 H2. qclra.
Qed.

(** An unnormalized score lies between the number of common n-grams and
    twice that; a normalized one between 0 and 1. *)
Lemma score1_plain q n w x : faithful_upto rnd (weight q n w) -> score1 rnd false q n w = Ok x ->
  qn (common rnd q n w) <= x /\ x <= qn (2 * common rnd q n w).
Proof.
  intros F H. destruct (simf_pinched rnd L q n w F) as (s & Hs & H1 & H2). unfold score1 in H. rewrite Hs in H. cbn [bind] in H.
  injection H as <-. auto.
Qed.

Lemma score1_unit q n w x : (0 < n)%Z -> faithful_upto rnd (weight q n w) -> score1 rnd true q n w = Ok x -> 0 <= x /\ x <= 1.
Proof.
  intros Hn F H. destruct (simf_pinched rnd L q n w F) as (s & Hs & H1 & H2). unfold score1 in H. rewrite Hs in H. cbn [bind] in H.
  destruct (Z.eqb_spec (size n q + size n w) 0) as [|N]; [discriminate|].
  destruct (Nat.eq_dec (common rnd q n w) 0) as [E|P].
  - rewrite (simf_zero q n w F E) in Hs. assert (s = 0) by congruence. subst s. rewrite qdiv_0, (rnd_0 rnd L) in H.
    assert (x = 0) by congruence. subst x. clear. split; qclra.
  - destruct (common_size q n w Hn ltac:(lia)) as [S1 S2].
    assert (Hx : x = rnd (s / qz (size n q + size n w))) by congruence. subst x. clear H.
    assert (D : 0 < qz (size n q + size n w)). { rewrite <- qz_0'. apply (proj1 (qz_lt _ _)). lia. }
    assert (S0 : 0 <= s). { eapply Qcle_trans; [|exact H1]. apply qn_nonneg. }
    split.
    + apply (rnd_nonneg rnd L). apply qdiv_nonneg; auto.
    + rewrite <- (rnd_1 rnd L). apply (rnd_mono _ L). apply qdiv_le_1; auto.
      eapply Qcle_trans; [exact H2|]. unfold qn. apply (proj1 (qz_le _ _)). lia.
Qed.

Lemma score1_nonneg nz q n w x : (0 < n)%Z -> faithful_upto rnd (weight q n w) -> score1 rnd nz q n w = Ok x -> 0 <= x.
Proof.
  intros Hn F H. destruct nz; [eapply score1_unit; eauto|]. apply score1_plain in H; auto.
  destruct H as [H _]. eapply Qcle_trans; [apply qn_nonneg|exact H].
Qed.
End Score.

Lemma Ok_inj' {A} (a b : A) : Ok a = Ok b -> a = b. Proof. congruence. Qed.

Lemma double_qn k : qn k * qz 2 = qn (2 * k).
Proof. unfold qn. rewrite <- qz_mul. f_equal. lia. Qed.

Section Tight.
Variable rnd : Qc -> Qc.
Variable casefold : str -> str.
Variable st : wordlist.
Hypothesis L : lawful rnd.
Hypothesis I : inv rnd casefold st.
Variable q : str.

(** No word of the list is so long that numbers become inexact. *)
Definition measured : Prop := forall n w, In n (n_list st) -> In w (word_list st) -> faithful_upto rnd (weight q n w).

Lemma tight_plain : measured -> tight rnd st q false.
Proof.
  intros F i l v Hi Ll HL Hv.
  assert (Fi : forall n, In n (n_list st) -> faithful_upto rnd (weight q n (wd st i))).
  { intros n Hn. apply F; auto. apply nth_In. apply Hi. }
  assert (A : Forall2 (fun n x => x = qn (common rnd q n (wd st i))) (n_list st) l).
  { apply (nth_Forall2 _ 0); auto. intros k n Hk. assert (Hn : In n (n_list st)) by (eapply nth_error_In; eauto).
    specialize (HL k n Hk). rewrite (count_plain rnd casefold st I q n i Hn) in HL. congruence. }
  pose proof (mapM_inv _ _ _ Hv) as B. cbn beta in B.
  assert (S : forall n x, In n (n_list st) -> score1 rnd false q n (wd st i) = Ok x ->
     qn (common rnd q n (wd st i)) <= x /\ x <= qn (2 * common rnd q n (wd st i))).
  { intros n x Hn Hx. apply score1_plain; auto. }
  split; [|split].
  - eapply Forall2_right; [|exact A]. intros n x _ ->. apply qn_nonneg.
  - eapply Forall2_join; [|exact A|exact B]. intros n a b Hn -> Hb. apply S; auto.
  - apply Forall2_map_r. eapply Forall2_join; [|exact B|exact A]. intros n b a Hn Hb ->. rewrite double_qn. apply S; auto.
Qed.
End Tight.

Lemma exact_measured st q : measured exact st q.
Proof. intros n w _ _. apply exact_faithful. Qed.

Lemma lawful_measured rnd st q : lawful rnd ->
  (forall n w, In n (n_list st) -> In w (word_list st) -> small (weight q n w)) -> measured rnd st q.
Proof. intros L H n w Hn Hw. apply lawful_faithful; auto. Qed.

Lemma div_zero_common rnd q n w : (0 < n)%Z -> 0 <= qn (common rnd q n w) / qz (size n q + size n w).
Proof.
  intros Hn. destruct (Nat.eq_dec (common rnd q n w) 0) as [->|P].
  - rewrite qn_0, qdiv_0. apply Qcle_refl.
  - destruct (common_size rnd q n w Hn ltac:(lia)) as [_ S]. apply qdiv_nonneg; [|apply qn_nonneg].
    rewrite <- qz_0'. apply (proj1 (qz_lt _ _)). lia.
Qed.

Lemma tight_exact casefold st q nz : inv exact casefold st -> tight exact st q nz.
Proof.
  intros I. destruct nz; [|apply (tight_plain exact casefold st lawful_exact I q (exact_measured st q))].
  intros i l v Hi Ll HL Hv.
  set (W := wd st i) in *.
  assert (A : Forall2 (fun n x => x = qn (common exact q n W) / qz (size n q + size n W)) (n_list st) l).
  { apply (nth_Forall2 _ 0); auto. intros k n Hk. assert (Hn : In n (n_list st)) by (eapply nth_error_In; eauto).
    specialize (HL k n Hk). rewrite (count_exact casefold st I q n i Hn) in HL. fold W in HL. congruence. }
  pose proof (mapM_inv _ _ _ Hv) as B. cbn beta in B. fold W in B.
  assert (S : forall n x, In n (n_list st) -> score1 exact true q n W = Ok x ->
     qn (common exact q n W) / qz (size n q + size n W) <= x /\ x <= qn (common exact q n W) / qz (size n q + size n W) * qz 2).
  { intros n x Hn Hx. assert (Pn : (0 < n)%Z) by (eapply NL_pos; eauto).
    destruct (simf_pinched exact lawful_exact q n W (exact_faithful _)) as (s & Hs & H1 & H2). unfold score1 in Hx. rewrite Hs in Hx. cbn [bind] in Hx.
    destruct (Z.eqb_spec (size n q + size n W) 0) as [|N]; [discriminate|].
    destruct (Nat.eq_dec (common exact q n W) 0) as [E|P].
    - rewrite (simf_zero exact lawful_exact q n W (exact_faithful _) E) in Hs. assert (s = 0) by congruence. subst s. rewrite qdiv_0 in Hx.
      assert (Hx' : x = 0) by (unfold exact in Hx; congruence). rewrite Hx', E, qn_0, qdiv_0. clear. split; [apply Qcle_refl|].
      rewrite Qcmult_0_l. apply Qcle_refl.
    - destruct (common_size exact q n W Pn ltac:(lia)) as [S1 S2].
      assert (Hx' : x = s / qz (size n q + size n W)) by (unfold exact in Hx; congruence). rewrite Hx'. clear Hx Hx'.
      assert (D : 0 <= qz (size n q + size n W)). { rewrite <- qz_0'. apply (proj1 (qz_le _ _)). lia. }
      split; [apply qdiv_mono; auto|].
      replace (qn (common exact q n W) / qz (size n q + size n W) * qz 2) with (qn (2 * common exact q n W) / qz (size n q + size n W)).
      + apply qdiv_mono; auto.
      + rewrite <- double_qn. unfold Qcdiv. ring. }
  split; [|split].
  - eapply Forall2_right; [|exact A]. intros n x Hn ->. apply div_zero_common. eapply NL_pos; eauto.
  - eapply Forall2_join; [|exact A|exact B]. intros n a b Hn -> Hb. apply S; auto.
  - apply Forall2_map_r. eapply Forall2_join; [|exact B|exact A]. intros n b a Hn Hb ->. apply S; auto.
Qed.

Lemma low_nonneg rnd casefold st q nz i l : lawful rnd -> inv rnd casefold st -> cand st q i -> length l = length (n_list st) ->
  (nz = false \/ rnd = exact) ->
  (forall k n, nth_error (n_list st) k = Some n -> foldM appl (count_list rnd st q nz n i) 0 = Ok (nth k l 0)) -> nonneg l.
Proof.
  intros L I Hi Ll C HL.
  assert (A : Forall2 (fun n x => 0 <= x) (n_list st) l).
  { apply (nth_Forall2 _ 0); auto. intros k n Hk. assert (Hn : In n (n_list st)) by (eapply nth_error_In; eauto).
    specialize (HL k n Hk). destruct nz.
    - destruct C as [|Er]; [discriminate|]. subst rnd. rewrite (count_exact casefold st I q n i Hn) in HL.
      apply Ok_inj' in HL. rewrite <- HL. apply div_zero_common. eapply NL_pos; eauto.
    - rewrite (count_plain rnd casefold st I q n i Hn) in HL. apply Ok_inj' in HL. rewrite <- HL. apply qn_nonneg. }
  eapply Forall2_right; [|exact A]. auto.
Qed.
