(** Theorems about [extended_edit_distance]: properties C73 to C76. *)
From Coq Require Import ZArith NArith QArith Qcanon List Bool Lia String.
From Verif Require Import Num Py ListAux Float64 NmdSpec EditModel EedSpec EedModel EedProofs EedCost Ex.
Import ListNotations.
Local Open Scope string_scope.
Local Open Scope list_scope.
Local Open Scope Qc_scope.
Notation length := List.length.

Definition padded (s : str) : str := [32%N] ++ s ++ [32%N].

Lemma padded_length s : length (padded s) = (length s + 2)%nat.
Proof. unfold padded, str. rewrite !app_length. cbn. lia. Qed.
Lemma padded_inj s t : padded s = padded t -> s = t.
Proof. unfold padded. cbn [app]. intros [= H]. apply app_inv_tail in H. exact H. Qed.

Lemma py_get_last {A} (l : list A) d : l <> [] -> py_get l (-1) = Ok (nth (length l - 1) l d).
Proof.
  intros H. unfold py_get, py_index. change (-1 <? 0)%Z with true. cbv iota. unfold zlen. destruct l as [|a l]; [congruence|]. cbn [length].
  replace (-1 + Z.of_nat (S (length l)))%Z with (Z.of_nat (length l)) by lia.
  destruct (Z.leb_spec 0 (Z.of_nat (length l))); [|lia]. destruct (Z.ltb_spec (Z.of_nat (length l)) (Z.of_nat (S (length l)))); [|lia]. cbn [andb].
  rewrite Nat2Z.id. replace (S (length l) - 1)%nat with (length l) by lia.
  destruct (nth_error (a :: l) (length l)) eqn:E; [|apply nth_error_None in E; cbn in E; lia].
  rewrite (nth_error_nth _ _ d E). reflexivity.
Qed.

Lemma mult_nonneg a b : 0 <= a -> 0 <= b -> 0 <= a * b.
Proof. intros Ha Hb. rewrite <- (Qcmult_0_l b). apply Qcmult_le_compat_r; assumption. Qed.

(** *** The shape of the result *)

Section Any.
Variable rnd : Qc -> Qc.
Variable isspace : N -> bool.
Variables (deletion insertion substitution jump rho : Qc).
Notation eed := (extended_edit_distance rnd isspace deletion insertion substitution jump rho).
Notation row_at := (row_at rnd isspace deletion insertion substitution jump).
Notation cov_at := (cov_at rnd isspace deletion insertion substitution jump).

Definition errors_of (h r : str) : Qc := nth (length (padded h)) (row_at (padded h) (padded r) (length (padded r))) 0.
Definition unevenness (cov : list Qc) : Qc := fold_left (fun s v => rnd (s + qabs (rnd (v - 1)))) cov 0.
Definition coverage_of (h r : str) : Qc := rnd (rho * unevenness (cov_at (padded h) (padded r) (length (padded r)))).
Definition divisor_of (h r : str) : Qc := rnd (rnd (qn (length r + 2)) + coverage_of h r).

Lemma eed_eq h r : eed h r = if qeqb (divisor_of h r) 0 then Err ZeroDivisionError
  else Ok (qmin 1 (rnd (rnd (errors_of h r + coverage_of h r) / divisor_of h r))).
Proof.
  unfold extended_edit_distance. destruct (state_run rnd isspace deletion insertion substitution jump (padded h) (padded r) (length (padded r)) (le_n _)) as (E & L1 & L2).
  unfold str in *. rewrite firstn_all in E. change ([32%N] ++ h ++ [32%N]) with (padded h). change ([32%N] ++ r ++ [32%N]) with (padded r).
  change ([0] ++ repeat 1 (length (padded h))) with (start_row (padded h)). change (repeat 0 (length (padded h) + 1)) with (start_cov (padded h)). rewrite E. cbn [bind].
  rewrite (py_get_last _ 0) by (intros X; rewrite X in L1; discriminate). cbn [bind]. unfold str in *. rewrite L1. replace (S (length (padded h)) - 1)%nat with (length (padded h)) by lia.
  unfold zlen. pose proof (padded_length r) as Hr. unfold str in *. change (qz (Z.of_nat (length (padded r)))) with (qn (length (padded r))). unfold divisor_of, coverage_of, errors_of, unevenness, str. rewrite <- Hr. reflexivity.
Qed.

End Any.

(** *** C73: range *)

Section Lawful.
Variable rnd : Qc -> Qc.
Hypothesis Hrnd : lawful rnd.
Variable isspace : N -> bool.
Variables (deletion insertion substitution jump rho : Qc).
Hypothesis deletion_nonneg : 0 <= deletion.
Hypothesis insertion_nonneg : 0 <= insertion.
Hypothesis substitution_nonneg : 0 <= substitution.
Hypothesis jump_nonneg : 0 <= jump.
Hypothesis rho_nonneg : 0 <= rho.
Notation eed := (extended_edit_distance rnd isspace deletion insertion substitution jump rho).
Notation row_at := (row_at rnd isspace deletion insertion substitution jump).
Notation cov_at := (cov_at rnd isspace deletion insertion substitution jump).
Notation errors_of := (errors_of rnd isspace deletion insertion substitution jump).
Notation coverage_of := (coverage_of rnd isspace deletion insertion substitution jump rho).
Notation divisor_of := (divisor_of rnd isspace deletion insertion substitution jump rho).

Lemma rnd0 : rnd 0 = 0. Proof. change 0 with (qz 0). apply (rnd_int rnd Hrnd). lia. Qed.
Lemma rnd1 : rnd 1 = 1. Proof. change 1 with (qz 1). apply (rnd_int rnd Hrnd). lia. Qed.
Lemma rnd_nonneg a : 0 <= a -> 0 <= rnd a.
Proof. intros H. rewrite <- rnd0. apply (rnd_mono rnd Hrnd). exact H. Qed.
Lemma rnd_pos a : 0 < a -> 0 < rnd a.
Proof.
  intros H. destruct (Qcle_lt_or_eq 0 (rnd a)) as [|E]; [apply rnd_nonneg; qclra|assumption|]. symmetry in E. apply (rnd_zero rnd Hrnd) in E. rewrite E in H. exfalso. qclra.
Qed.

Lemma row_nonneg h r i j : (i <= length r)%nat -> (j <= length h)%nat -> 0 <= nth j (row_at h r i) 0.
Proof.
  unfold str in *. revert j. induction i as [|i IH]; intros j Hi Hj.
  - rewrite row_at_0 by auto. destruct (Nat.eqb j 0); qclra.
  - destruct (nth_error r i) as [a|] eqn:Ea; [|apply nth_error_None in Ea; unfold str in *; lia].
    destruct (state_round rnd isspace deletion insertion substitution jump h r i a Ea) as (nr & v & (N1 & N2 & N3) & (F1 & _) & _ & R). unfold str in *.
    assert (G : forall j, (j <= length h)%nat -> 0 <= nth j nr 0).
    { clear j Hj. induction j as [|j IHj]; intros Hj.
      - rewrite N2. apply rnd_nonneg. specialize (IH 0%nat ltac:(lia) ltac:(lia)). qclra.
      - destruct (nth_error h j) as [b|] eqn:Eb; [|apply nth_error_None in Eb; unfold str in *; lia]. rewrite (N3 j b Eb).
        assert (0 <= rnd (nth j nr 0 + deletion)) by (apply rnd_nonneg; specialize (IHj ltac:(lia)); qclra).
        assert (0 <= rnd (nth j (row_at h r i) 0 + (if N.eqb a b then 0 else substitution))) by (apply rnd_nonneg; specialize (IH j ltac:(lia) ltac:(lia)); destruct (N.eqb a b); qclra).
        assert (0 <= rnd (nth (S j) (row_at h r i) 0 + insertion)) by (apply rnd_nonneg; specialize (IH (S j) ltac:(lia) ltac:(lia)); qclra).
        unfold qmin. repeat destruct (qleb _ _); assumption. }
    rewrite R. destruct (isspace a); [|apply G; exact Hj]. rewrite cell_nr by lia. pose proof (G j Hj).
    assert (0 <= rnd (jump + nth v nr 0)) by (apply rnd_nonneg; specialize (G v ltac:(lia)); qclra). unfold qmin. destruct (qleb _ _); assumption.
Qed.

Lemma unevenness_nonneg cov : 0 <= unevenness rnd cov.
Proof.
  unfold unevenness. assert (G : forall s, 0 <= s -> 0 <= fold_left (fun s v => rnd (s + qabs (rnd (v - 1)))) cov s); [|apply G; qclra].
  induction cov as [|v cov IH]; intros s Hs; [exact Hs|]. cbn [fold_left]. apply IH, rnd_nonneg. qclra.
Qed.

Lemma unevenness_pos cov v : In v cov -> v <> 1 -> 0 < unevenness rnd cov.
Proof.
  unfold unevenness. intros Hv Hne.
  assert (P : forall cov s, 0 < s -> 0 < fold_left (fun s v => rnd (s + qabs (rnd (v - 1)))) cov s).
  { induction cov0 as [|x c IH]; intros s Hs; [exact Hs|]. cbn [fold_left]. apply IH, rnd_pos. qclra. }
  assert (G : forall s, 0 <= s -> 0 < fold_left (fun s v => rnd (s + qabs (rnd (v - 1)))) cov s); [|apply G; qclra].
  induction cov as [|x cov IH]; intros s Hs; [destruct Hv|]. cbn [fold_left]. destruct Hv as [->|Hv].
  - apply P, rnd_pos. assert (rnd (v - 1) <> 0). { intros E. apply (rnd_zero rnd Hrnd) in E. apply Hne. qclra. }
    assert (0 < qabs (rnd (v - 1))); [|qclra]. unfold qabs. destruct (qleb 0 (rnd (v - 1))) eqn:E; [apply qleb_le in E|apply qleb_nle in E; qclra].
    destruct (Qcle_lt_or_eq _ _ E); [assumption|congruence].
  - apply IH; [exact Hv|]. apply rnd_nonneg. qclra.
Qed.

Lemma coverage_nonneg h r : 0 <= coverage_of h r.
Proof. apply rnd_nonneg, mult_nonneg; [exact rho_nonneg|apply unevenness_nonneg]. Qed.

Lemma divisor_pos h r : 1 <= divisor_of h r.
Proof.
  unfold Props_Eed.divisor_of. rewrite <- rnd1. apply (rnd_mono rnd Hrnd). pose proof (coverage_nonneg h r).
  assert (1 <= rnd (qn (length r + 2))); [|qclra]. rewrite <- rnd1. apply (rnd_mono rnd Hrnd). rewrite <- qn_1. apply qn_le. lia.
Qed.

Lemma eed_value h r : eed h r = Ok (qmin 1 (rnd (rnd (errors_of h r + coverage_of h r) / divisor_of h r))).
Proof.
  rewrite eed_eq. pose proof (divisor_pos h r). destruct (qeqb (divisor_of h r) 0) eqn:E; [|reflexivity]. apply qeqb_eq in E. rewrite E in H. exfalso. qclra.
Qed.

Lemma quotient_nonneg a b : 0 <= a -> 0 < b -> 0 <= a / b.
Proof.
  intros Ha Hb. unfold Qcdiv. apply mult_nonneg; [exact Ha|]. apply Qclt_le_weak. unfold Qclt in *. rewrite this_inv. apply Qinv_lt_0_compat. exact Hb.
Qed.

(** For costs that are not negative the function returns a number between 0
    and 1, in floating point too. *)
Theorem eed_range : forall h r : str, exists s, eed h r = Ok s /\ 0 <= s /\ s <= 1.
Proof.
  intros h r. eexists. split; [apply eed_value|]. pose proof (divisor_pos h r). pose proof (coverage_nonneg h r).
  assert (0 <= errors_of h r) by (apply row_nonneg; auto).
  assert (0 <= rnd (rnd (errors_of h r + coverage_of h r) / divisor_of h r)).
  { apply rnd_nonneg, quotient_nonneg; [apply rnd_nonneg|]; qclra. }
  split; qclra.
Qed.

(** *** C74: when it is 0 *)

Hypothesis deletion_pos : 0 < deletion.
Hypothesis insertion_pos : 0 < insertion.
Hypothesis substitution_pos : 0 < substitution.
Hypothesis jump_pos : 0 < jump.

Lemma qmin_zero a b : 0 <= a -> 0 <= b -> qmin a b = 0 -> a = 0 \/ b = 0.
Proof. intros _ _. unfold qmin. destruct (qleb a b); auto. Qed.

Lemma sum_zero a b : 0 <= a -> 0 <= b -> rnd (a + b) = 0 -> a = 0 /\ b = 0.
Proof. intros Ha Hb E. apply (rnd_zero rnd Hrnd) in E. split; qclra. Qed.

Lemma next_zero h r i a nr : nth_error r i = Some a -> next_of rnd deletion insertion substitution h (row_at h r i) a nr ->
  forall j, (j <= length h)%nat -> nth j nr 0 = 0 -> exists k, j = S k /\ nth k (row_at h r i) 0 = 0 /\ nth_error h k = Some a.
Proof.
  intros Ea (N1 & N2 & N3) j Hj Hz. assert (Hi : (i < length r)%nat) by (apply nth_error_Some; congruence). unfold str in *.
  assert (G : forall j, (j <= length h)%nat -> 0 <= nth j nr 0).
  { clear j Hj Hz. induction j as [|j IHj]; intros Hj.
    - rewrite N2. apply rnd_nonneg. pose proof (row_nonneg h r i 0 ltac:(unfold str; lia) ltac:(lia)). qclra.
    - destruct (nth_error h j) as [b|] eqn:Eb; [|apply nth_error_None in Eb; unfold str in *; lia]. rewrite (N3 j b Eb).
      pose proof (row_nonneg h r i j ltac:(unfold str; lia) ltac:(unfold str; lia)). pose proof (row_nonneg h r i (S j) ltac:(unfold str; lia) ltac:(unfold str; lia)).
      assert (0 <= rnd (nth j nr 0 + deletion)) by (apply rnd_nonneg; specialize (IHj ltac:(lia)); qclra).
      assert (0 <= rnd (nth j (row_at h r i) 0 + (if N.eqb a b then 0 else substitution))) by (apply rnd_nonneg; destruct (N.eqb a b); qclra).
      assert (0 <= rnd (nth (S j) (row_at h r i) 0 + insertion)) by (apply rnd_nonneg; qclra).
      unfold qmin. repeat destruct (qleb _ _); assumption. }
  destruct j as [|k].
  - exfalso. rewrite N2 in Hz. pose proof (row_nonneg h r i 0 ltac:(unfold str; lia) ltac:(lia)). apply sum_zero in Hz; [destruct Hz; discriminate|assumption|qclra].
  - exists k. split; [reflexivity|]. destruct (nth_error h k) as [b|] eqn:Eb; [|apply nth_error_None in Eb; unfold str in *; lia]. rewrite (N3 k b Eb) in Hz.
    pose proof (row_nonneg h r i k ltac:(unfold str; lia) ltac:(unfold str; lia)) as P1. pose proof (row_nonneg h r i (S k) ltac:(unfold str; lia) ltac:(unfold str; lia)) as P2. specialize (G k ltac:(lia)).
    assert (D : rnd (nth k nr 0 + deletion) <> 0) by (intros E; apply sum_zero in E; [destruct E; qclra|assumption|qclra]).
    assert (I : rnd (nth (S k) (row_at h r i) 0 + insertion) <> 0) by (intros E; apply sum_zero in E; [destruct E; qclra|assumption|qclra]).
    assert (Z : rnd (nth k (row_at h r i) 0 + (if N.eqb a b then 0 else substitution)) = 0).
    { revert Hz. unfold qmin. repeat destruct (qleb _ _); intros; congruence. }
    destruct (N.eqb_spec a b) as [->|]; [|apply sum_zero in Z; [destruct Z; qclra|assumption|qclra]].
    apply sum_zero in Z; [|assumption|qclra]. split; [apply Z|reflexivity].
Qed.

Lemma row_zero h r i : (i <= length r)%nat -> forall j, (j <= length h)%nat -> nth j (row_at h r i) 0 = 0 -> j = i /\ firstn i h = firstn i r.
Proof.
  induction i as [|i IH]; intros Hi j Hj Hz.
  - rewrite row_at_0 in Hz by auto. destruct (Nat.eqb_spec j 0); [auto|discriminate].
  - destruct (nth_error r i) as [a|] eqn:Ea; [|apply nth_error_None in Ea; unfold str in *; lia].
    destruct (state_round rnd isspace deletion insertion substitution jump h r i a Ea) as (nr & v & Hn & (F1 & F2 & _) & _ & R). pose proof Hn as (N1 & _ & _).
    assert (Z : nth j nr 0 = 0).
    { rewrite R in Hz. destruct (isspace a); [|exact Hz]. rewrite cell_nr in Hz by lia. destruct (qleb (nth j nr 0) (rnd (jump + nth v nr 0))) eqn:E; [unfold qmin in Hz; rewrite E in Hz; exact Hz|].
      unfold qmin in Hz; rewrite E in Hz. apply (rnd_zero rnd Hrnd) in Hz. specialize (F2 j ltac:(lia)). apply qleb_nle in E.
      assert (X : nth v nr 0 = - jump) by qclra. assert (Hlow : 0 <= nth v nr 0); [|exfalso; qclra].
      pose proof (row_nonneg h r (S i) v Hi ltac:(lia)) as P. rewrite R in P. rewrite cell_nr in P by lia. qclra. }
    destruct (next_zero h r i a nr Ea Hn j Hj Z) as (k & -> & Zk & Ek). destruct (IH ltac:(lia) k ltac:(lia) Zk) as [-> Ef].
    split; [reflexivity|]. rewrite (firstn_snoc h i a Ek), (firstn_snoc r i a Ea), Ef. reflexivity.
Qed.

Lemma row_self s i : (i <= length s)%nat -> nth i (row_at s s i) 0 = 0.
Proof.
  induction i as [|i IH]; intros Hi; [rewrite row_at_0 by lia; reflexivity|].
  destruct (nth_error s i) as [a|] eqn:Ea; [|apply nth_error_None in Ea; unfold str in *; lia].
  pose proof (row_nonneg s s (S i) (S i) Hi Hi) as P.
  destruct (state_round rnd isspace deletion insertion substitution jump s s i a Ea) as (nr & v & (N1 & N2 & N3) & (F1 & F2 & _) & _ & R).
  assert (X : nth (S i) nr 0 <= 0).
  { rewrite (N3 i a Ea). rewrite IH by lia. rewrite N.eqb_refl. replace (0 + 0) with 0 by reflexivity. rewrite rnd0. qclra. }
  rewrite R in *. destruct (isspace a); [|qclra]. rewrite cell_nr in * by lia. qclra.
Qed.

Lemma visits_self s i : (i <= length s)%nat -> forall j, (j <= length s)%nat -> nth j (cov_at s s i) 0 = if Nat.leb 1 j && Nat.leb j i then 1 else 0.
Proof.
  induction i as [|i IH]; intros Hi j Hj.
  - rewrite cov_at_0. destruct j; reflexivity.
  - destruct (nth_error s i) as [a|] eqn:Ea; [|apply nth_error_None in Ea; unfold str in *; lia].
    pose proof (row_self s (S i) Hi) as Z.
    destruct (state_round rnd isspace deletion insertion substitution jump s s i a Ea) as (nr & v & Hn & (F1 & F2 & F3) & Hc & R). pose proof Hn as (N1 & _ & N3).
    assert (X : nth (S i) nr 0 <= 0).
    { rewrite (N3 i a Ea). rewrite row_self by lia. rewrite N.eqb_refl. replace (0 + 0) with 0 by reflexivity. rewrite rnd0. qclra. }
    assert (Hv0 : nth v nr 0 = 0).
    { apply Qcle_antisym; [specialize (F2 (S i) ltac:(lia)); qclra|]. pose proof (row_nonneg s s (S i) v Hi ltac:(lia)) as P. rewrite R in P. destruct (isspace a); [rewrite cell_nr in P by lia; qclra|exact P]. }
    assert (Ev : v = S i). { destruct (next_zero s s i a nr Ea Hn v ltac:(lia) Hv0) as (k & -> & Zk & _). destruct (row_zero s s i ltac:(lia) k ltac:(lia) Zk) as [-> _]. reflexivity. }
    subst v. rewrite Hc. destruct (state_run rnd isspace deletion insertion substitution jump s s i) as (_ & _ & Lc); [lia|].
    destruct (Nat.eq_dec (S i) j) as [<-|Hne].
    + rewrite nth_list_set_eq by lia. rewrite (IH ltac:(lia)) by lia. rewrite (proj2 (Nat.leb_gt (S i) i)) by lia. rewrite Nat.leb_refl. cbn [Nat.leb andb].
      replace (0 + 1) with 1 by reflexivity. apply rnd1.
    + rewrite nth_list_set_neq by auto. rewrite (IH ltac:(lia)) by lia. destruct (Nat.leb_spec 1 j), (Nat.leb_spec j i), (Nat.leb_spec j (S i)); cbn; auto; lia.
Qed.

Lemma unevenness_self s : unevenness rnd (cov_at s s (length s)) = 1.
Proof.
  destruct (state_run rnd isspace deletion insertion substitution jump s s (length s) (le_n _)) as (_ & _ & L).
  assert (E : cov_at s s (length s) = 0 :: repeat 1 (length s)).
  { apply (nth_ext _ _ 0 0); [rewrite L; cbn [length]; rewrite repeat_length; reflexivity|]. intros j Hj. rewrite L in Hj. rewrite visits_self by lia.
    destruct j as [|j]; [reflexivity|]. cbn [nth]. rewrite (nth_indep _ 0 1) by (rewrite repeat_length; unfold str in *; lia). rewrite nth_repeat.
    destruct (Nat.leb_spec (S j) (length s)); [|unfold str in *; lia]. reflexivity. }
  rewrite E. unfold unevenness. cbn [fold_left].
  assert (E1 : rnd (0 - 1) = - (1)). { replace (0 - 1) with (- (1)) by qclra. rewrite (rnd_odd rnd Hrnd), rnd1. reflexivity. }
  rewrite E1. replace (0 + qabs (- (1))) with 1 by reflexivity. rewrite rnd1. clear E E1 L. induction (length s) as [|n IH]; [reflexivity|]. cbn [repeat fold_left].
  replace (1 - 1) with 0 by reflexivity. rewrite rnd0. replace (1 + qabs 0) with 1 by reflexivity. rewrite rnd1. exact IH.
Qed.

(** A string compared with itself. *)
Theorem eed_self : forall s : str,
  eed s s = Ok (qmin 1 (rnd (rnd (rnd rho) / rnd (rnd (qn (length s + 2)) + rnd rho)))).
Proof.
  intros s. rewrite eed_value. unfold Props_Eed.errors_of, Props_Eed.divisor_of, Props_Eed.coverage_of. rewrite row_self by auto. rewrite unevenness_self.
  replace (rho * 1) with rho by qclra. replace (0 + rnd rho) with (rnd rho) by qclra. reflexivity.
Qed.

(** The score is 0 only if [rho] is 0 and the strings are the same. *)
Theorem eed_zero : forall h r : str, eed h r = Ok 0 <-> rho = 0 /\ h = r.
Proof.
  intros h r. split.
  - rewrite eed_value. intros [= E]. pose proof (divisor_pos h r) as Dv. pose proof (coverage_nonneg h r) as C. assert (P : 0 <= errors_of h r) by (apply row_nonneg; auto).
    assert (Z : rnd (rnd (errors_of h r + coverage_of h r) / divisor_of h r) = 0). { revert E. unfold qmin. destruct (qleb 1 _); [discriminate|auto]. }
    apply (rnd_zero rnd Hrnd) in Z. assert (Z2 : rnd (errors_of h r + coverage_of h r) = 0).
    { replace (rnd (errors_of h r + coverage_of h r)) with (rnd (errors_of h r + coverage_of h r) / divisor_of h r * divisor_of h r); [rewrite Z; apply Qcmult_0_l|].
      unfold Qcdiv. rewrite <- Qcmult_assoc, (Qcmult_comm (/ _)), Qcmult_inv_r; [apply Qcmult_1_r|]. intros X. rewrite X in Dv. qclra. }
    apply sum_zero in Z2; auto. destruct Z2 as [Ze Zc]. apply row_zero in Ze; auto. destruct Ze as [El Ef].
    rewrite firstn_all in Ef. rewrite <- El in Ef. rewrite firstn_all in Ef. apply padded_inj in Ef. subst r. split; [|reflexivity].
    unfold Props_Eed.coverage_of in Zc. apply (rnd_zero rnd Hrnd) in Zc. rewrite unevenness_self in Zc. qclra.
  - intros [E <-]. rewrite eed_self. rewrite E, !rnd0. unfold Qcdiv. rewrite Qcmult_0_l, rnd0. reflexivity.
Qed.

End Lawful.
Print Assumptions eed_range.
Print Assumptions eed_self.
Print Assumptions eed_zero.

(** *** C75: the least cost of an alignment *)

Section Exact.
Variable isspace : N -> bool.
Variables (deletion insertion substitution jump rho : Qc).
Hypothesis deletion_nonneg : 0 <= deletion.
Hypothesis insertion_nonneg : 0 <= insertion.
Hypothesis substitution_nonneg : 0 <= substitution.
Hypothesis jump_pos : 0 < jump.
Hypothesis rho_nonneg : 0 <= rho.
Let exact := fun q : Qc => q.
Notation eed := (extended_edit_distance exact isspace deletion insertion substitution jump rho).
Notation row_at := (row_at exact isspace deletion insertion substitution jump).
Notation cov_at := (cov_at exact isspace deletion insertion substitution jump).

Lemma jump_nonneg' : 0 <= jump. Proof. qclra. Qed.

Lemma unevenness_fold cov : unevenness exact cov = fold_right (fun v s => qabs (v - 1) + s) 0 cov.
Proof.
  unfold unevenness, exact. rewrite <- (Qcplus_0_l (fold_right _ _ _)). generalize 0 at 1 2. induction cov as [|v cov IH]; intros s; cbn [fold_left fold_right].
  - rewrite Qcplus_0_r. reflexivity.
  - rewrite IH. ring.
Qed.

Lemma uneven_fold (h : str) visits cov : length cov = S (length h) -> (forall j, nth j cov 0 = qn (count_occ Nat.eq_dec visits j)) ->
  unevenness exact cov = uneven h visits.
Proof.
  intros L H. rewrite unevenness_fold. unfold uneven. rewrite <- L. clear L.
  assert (E : cov = map (fun j => qn (count_occ Nat.eq_dec visits j)) (seq 0 (length cov))).
  { apply (nth_ext _ _ 0 (qn (count_occ Nat.eq_dec visits 0%nat))); [rewrite map_length, seq_length; reflexivity|]. intros j Hj. rewrite (map_nth (fun j => qn (count_occ Nat.eq_dec visits j))), seq_nth by exact Hj. apply H. }
  rewrite E at 1. generalize (seq 0 (length cov)). induction l as [|j l IH]; [reflexivity|]. cbn [map fold_right]. rewrite IH. reflexivity.
Qed.

(** In exact arithmetic: the cost of the cheapest alignment and the evenness of
    the visits, both weighed against the length of the reference.  Both
    strings have a space put before and after them. *)
Theorem eed_least : forall h r : str, let h' := padded h in let r' := padded r in
  exists (cost : nat -> nat -> Qc) (visits : list nat),
    (forall i j, (i <= length r')%nat -> (j <= length h')%nat -> least_cost N.eqb isspace deletion insertion substitution jump h' r' i j (cost i j)) /\
    length visits = length r' /\ (forall i v, nth_error visits i = Some v -> visited h' (cost (S i)) v) /\
    let penalty := rho * uneven h' visits in
    eed h r = Ok (qmin 1 ((cost (length r') (length h') + penalty) / (qn (length r') + penalty))).
Proof.
  intros h r h' r'. exists (fun i j => nth j (row_at h' r' i) 0).
  destruct (visits_exist isspace deletion insertion substitution jump h' r' jump_pos (length r') (le_n _)) as (visits & V1 & V2 & V3 & V4).
  exists visits. split; [intros i j Hi Hj; apply rows_least; auto; apply jump_nonneg'|]. split; [exact V1|]. split; [exact V2|].
  rewrite (eed_value exact lawful_exact isspace deletion insertion substitution jump rho); auto using jump_nonneg'.
  unfold divisor_of, coverage_of, errors_of. fold h' r'. destruct (state_run exact isspace deletion insertion substitution jump h' r' (length r') (le_n _)) as (_ & _ & L).
  rewrite (uneven_fold h' visits _ L V3). unfold exact. rewrite <- padded_length. reflexivity.
Qed.

(** *** C76: identical strings score best *)

Hypothesis deletion_pos : 0 < deletion.
Hypothesis insertion_pos : 0 < insertion.
Hypothesis substitution_pos : 0 < substitution.
Hypothesis insertion_le_1 : insertion <= 1.

Lemma never_first h r i : (i < length (padded r))%nat ->
  (exists j, (j <= length (padded h))%nat /\ nth j (row_at (padded h) (padded r) (S i)) 0 < nth 0 (row_at (padded h) (padded r) (S i)) 0) /\
  nth 0 (cov_at (padded h) (padded r) (S i)) 0 = 0.
Proof.
  induction i as [|i IH]; intros Hi.
  - destruct (state_round exact isspace deletion insertion substitution jump (padded h) (padded r) 0 32%N eq_refl) as (nr & v & (N1 & N2 & N3) & F & Hc & R).
    pose proof F as (F1 & F2 & F3). specialize (N3 0%nat 32%N eq_refl). rewrite !row_at_0 in N2 by lia. rewrite row_at_0 in N3 by lia. cbn [Nat.eqb] in *. rewrite N.eqb_refl in N3. unfold exact in *.
    assert (H1 : nth 1 nr 0 <= 0) by (rewrite N3; qclra). clear N3. pose proof (padded_length h) as Lh. specialize (F2 1%nat ltac:(lia)).
    assert (Hv : v <> 0%nat) by (intros ->; qclra). split.
    + exists v. split; [lia|]. rewrite R. destruct (isspace 32%N); [|qclra]. rewrite !cell_nr by lia. qclra.
    + rewrite Hc, nth_list_set_neq by auto. apply cov_at_0.
  - destruct IH as ((j & Hj & Hlt) & Hz); [lia|]. destruct (nth_error (padded r) (S i)) as [a|] eqn:Ea; [|apply nth_error_None in Ea; unfold str in *; lia].
    destruct (state_round exact isspace deletion insertion substitution jump (padded h) (padded r) (S i) a Ea) as (nr & v & (N1 & N2 & N3) & F & Hc & R).
    pose proof F as (F1 & F2 & F3). unfold exact in *. assert (H1 : nth j nr 0 < nth 0 nr 0).
    { destruct j as [|j]; [exfalso; qclra|]. destruct (nth_error (padded h) j) as [b|] eqn:Eb; [|apply nth_error_None in Eb; unfold str in *; lia].
      assert (nth (S j) nr 0 <= nth (S j) (row_at (padded h) (padded r) (S i)) 0 + insertion) by (rewrite (N3 j b Eb); unfold exact; qclra). unfold exact in *. rewrite N2. qclra. }
    specialize (F2 j ltac:(lia)). assert (Hv : v <> 0%nat) by (intros ->; qclra). split.
    + exists v. split; [lia|]. rewrite R. destruct (isspace a); [|qclra]. rewrite !cell_nr by lia. qclra.
    + rewrite Hc, nth_list_set_neq by auto. exact Hz.
Qed.

Lemma unevenness_one cov : cov <> [] -> nth 0 cov 0 = 0 -> 1 <= unevenness exact cov.
Proof.
  rewrite unevenness_fold. destruct cov as [|v cov]; [congruence|]. intros _ E. cbn [nth] in E. subst v. cbn [fold_right].
  assert (0 <= fold_right (fun v s => qabs (v - 1) + s) 0 cov); [|qclra]. induction cov as [|v cov IH]; cbn [fold_right]; qclra.
Qed.

Lemma div_lt a b c : 0 < b -> a < c * b -> a / b < c.
Proof.
  intros Hb H. apply Qcnot_le_lt. intros X. assert (Y : c * b <= a / b * b) by (apply Qcmult_le_compat_r; [exact X|qclra]).
  unfold Qcdiv in Y. rewrite <- Qcmult_assoc, (Qcmult_comm (/ b)), Qcmult_inv_r, Qcmult_1_r in Y; [qclra|intros E; rewrite E in Hb; qclra].
Qed.
Lemma div_mult a b : 0 < b -> a / b * b = a.
Proof. intros Hb. unfold Qcdiv. rewrite <- Qcmult_assoc, (Qcmult_comm (/ b)), Qcmult_inv_r, Qcmult_1_r; [reflexivity|intros E; rewrite E in Hb; qclra]. Qed.

(** No other hypothesis scores as low as the reference itself, whose score is
    not 0 (unless [rho] is). *)
Theorem eed_best : forall h r : str, h <> r -> exists s t, eed r r = Ok s /\ eed h r = Ok t /\ s = rho / (qn (length r + 2) + rho) /\ s < t.
Proof.
  intros h r Hne.
  assert (Et : eed h r = Ok (qmin 1 (exact (exact (errors_of exact isspace deletion insertion substitution jump h r + coverage_of exact isspace deletion insertion substitution jump rho h r) / divisor_of exact isspace deletion insertion substitution jump rho h r)))).
  { apply eed_value; auto using jump_nonneg', lawful_exact. }
  assert (Es : eed r r = Ok (qmin 1 (exact (exact (exact rho) / exact (exact (qn (length r + 2)) + exact rho))))).
  { apply eed_self; auto using jump_nonneg', lawful_exact. }
  set (L := qn (length r + 2)) in *. assert (HL : 1 <= L) by (rewrite <- qn_1; apply qn_le; lia).
  do 2 eexists. split; [exact Es|]. split; [exact Et|]. unfold exact at 1 2 3 4 5. unfold divisor_of. fold L. set (w := coverage_of exact isspace deletion insertion substitution jump rho h r).
  set (e := errors_of exact isspace deletion insertion substitution jump h r).
  assert (Hs : rho / (L + rho) < 1) by (apply div_lt; qclra).
  split; [unfold exact; qclra|]. replace (qmin 1 (exact (exact (exact rho) / exact (exact L + exact rho)))) with (rho / (L + rho)) by (unfold exact; qclra).
  assert (Hw : rho <= w).
  { unfold w, coverage_of, exact at 1. set (cov := cov_at _ _ _). assert (1 <= unevenness exact cov).
    { pose proof (padded_length r). apply unevenness_one.
      - destruct (state_run exact isspace deletion insertion substitution jump (padded h) (padded r) (length (padded r)) (le_n _)) as (_ & _ & Lc). intros X. unfold cov in X. rewrite X in Lc. discriminate.
      - unfold cov. destruct (length (padded r)) as [|n] eqn:El; [lia|]. apply never_first. lia. }
    rewrite <- (Qcmult_1_r rho) at 1. rewrite (Qcmult_comm rho 1), (Qcmult_comm rho). apply Qcmult_le_compat_r; assumption. }
  assert (He : 0 < e).
  { destruct (Qcle_lt_or_eq 0 e) as [|E0]; [|assumption|].
    - apply (row_nonneg exact lawful_exact); auto using jump_nonneg'.
    - exfalso. apply Hne. symmetry in E0. apply (row_zero exact lawful_exact) in E0; auto using jump_nonneg'. destruct E0 as [El Ef].
      rewrite firstn_all in Ef. rewrite <- El in Ef. rewrite firstn_all in Ef. apply padded_inj. exact Ef. }
  unfold exact. assert (G : rho / (L + rho) < (e + w) / (L + w)); [|qclra].
  apply Qcnot_le_lt. intros X. assert (Y : (e + w) / (L + w) * (L + w) <= rho / (L + rho) * (L + w)) by (apply Qcmult_le_compat_r; [exact X|qclra]).
  rewrite div_mult in Y by qclra. set (q := rho / (L + rho)) in *. assert (Eq : q * (L + rho) = rho) by (apply div_mult; qclra).
  assert (Z : (1 - q) * rho <= (1 - q) * w) by (rewrite !(Qcmult_comm (1 - q)); apply Qcmult_le_compat_r; qclra).
  assert (E2 : q * (L + w) = rho + (w - rho) - (1 - q) * w + (1 - q) * rho) by (replace rho with (q * (L + rho)) at 1 by exact Eq; ring). rewrite E2 in Y. qclra.
Qed.

End Exact.
Print Assumptions eed_least.
Print Assumptions eed_best.

(** *** Refutations and cases *)

Definition sp (c : N) : bool := (c =? 32)%N.
Definition q (a b : Z) : Qc := Q2Qc (a # Z.to_pos b).
(** The default costs. *)
Notation eed_default := (extended_edit_distance (fun q => q) sp (q 1 5) 1 1 (q 2 1) (q 3 10)).

Theorem eed_self_zero_refuted : exists (s : str) (x : Qc), eed_default s s = Ok x /\ x <> 0.
Proof. exists (w_ "ab c"). eexists. split; [vm_compute; reflexivity|]. discriminate. Qed.
Print Assumptions eed_self_zero_refuted.

Theorem eed_symmetric_refuted : exists h r : str, eed_default h r <> eed_default r h.
Proof. exists (w_ "ab"), (w_ "abc"). vm_compute. discriminate. Qed.
Print Assumptions eed_symmetric_refuted.

Definition is_q (r : result Qc) (x : Qc) : bool := match r with Ok y => qeqb y x | Err _ => false end.

(** The default costs meet the conditions of all theorems above. *)
Example eed_default_case : 0 < q 1 5 /\ 0 < q 2 1 /\ 0 <= q 3 10 /\
  is_q (eed_default (w_ "ab c") (w_ "ab c")) (q 1 21) = true /\ is_q (eed_default (w_ "c ab") (w_ "ab c")) (q 11 23) = true /\
  is_q (eed_default (w_ "ab") (w_ "abc")) (q 2 7) = true /\ is_q (eed_default (w_ "xyz") (w_ "abc")) (q 51 71) = true /\
  is_q (extended_edit_distance rnd64 sp (rnd64 (q 1 5)) 1 1 (q 2 1) (rnd64 (q 3 10)) (w_ "ab") (w_ "ab")) (rnd64 (q 3 43)) = true.
Proof. vm_compute. repeat split; try reflexivity; discriminate. Qed.

Example eed_best_case : exists s t, eed_default (w_ "ab c") (w_ "ab c") = Ok s /\ eed_default (w_ "c ab") (w_ "ab c") = Ok t /\
  s = q 3 10 / (qn (length (w_ "ab c") + 2) + q 3 10) /\ s < t.
Proof. apply eed_best; try (vm_compute; (reflexivity || discriminate)). Qed.
