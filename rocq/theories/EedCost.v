(** The rows hold the least costs of alignments. *)
From Coq Require Import ZArith NArith QArith Qcanon List Bool Lia.
From Verif Require Import Num Py ListAux Float64 NmdSpec EditModel EedSpec EedModel EedProofs.
Import ListNotations.
Open Scope Qc_scope.

Section Cost.
Variable isspace : N -> bool.
Variables (deletion insertion substitution jump : Qc).
Hypothesis deletion_nonneg : 0 <= deletion.
Hypothesis insertion_nonneg : 0 <= insertion.
Hypothesis substitution_nonneg : 0 <= substitution.
Hypothesis jump_nonneg : 0 <= jump.
Variables hyp ref : str.
Let exact := fun q : Qc => q.
Notation row_at := (row_at exact isspace deletion insertion substitution jump hyp ref).
Notation cov_at := (cov_at exact isspace deletion insertion substitution jump hyp ref).
Notation aligned := (aligned N.eqb isspace deletion insertion substitution jump hyp ref).
Notation least_cost := (least_cost N.eqb isspace deletion insertion substitution jump hyp ref).

Lemma cell_nr nr J j : (j < length nr)%nat -> nth j (map (fun x => qmin x J) nr) 0 = qmin (nth j nr 0) J.
Proof. intros H. rewrite (nth_indep _ 0 (qmin 0 J)) by (rewrite map_length; exact H). apply (map_nth (fun x => qmin x J)). Qed.

Lemma row_lower i j c : aligned i j c -> (i <= length ref)%nat /\ (j <= length hyp)%nat /\ nth j (row_at i) 0 <= c.
Proof.
  induction 1 as [|j Hj|i j c H IH Hi Hj|i j c H IH Hi|i j c a b H IH Ha Hb|i j j' c a H IH Ha Hs Hj].
  - split; [lia|]. split; [lia|]. rewrite row_at_0 by lia. apply Qcle_refl.
  - split; [lia|]. split; [lia|]. rewrite row_at_0 by lia. destruct (Nat.eqb_spec j 0); [lia|]. apply Qcle_refl.
  - destruct IH as (I1 & I2 & I3). split; [auto|]. split; [lia|]. destruct i as [|i]; [lia|].
    destruct (nth_error ref i) as [a|] eqn:Ea; [|apply nth_error_None in Ea; unfold str in *; lia].
    destruct (nth_error hyp j) as [b|] eqn:Eb; [|apply nth_error_None in Eb; unfold str in *; lia].
    destruct (state_round exact isspace deletion insertion substitution jump hyp ref i a Ea) as (nr & v & (N1 & N2 & N3) & F & _ & R).
    specialize (N3 j b Eb). unfold exact in N3. assert (X : nth (S j) nr 0 <= nth j nr 0 + deletion) by (rewrite N3; qclra).
    clear N3. rewrite R in *. destruct (isspace a); [|qclra]. rewrite cell_nr in * by lia. qclra.
  - destruct IH as (I1 & I2 & I3). split; [lia|]. split; [auto|].
    destruct (nth_error ref i) as [a|] eqn:Ea; [|apply nth_error_None in Ea; unfold str in *; lia].
    destruct (state_round exact isspace deletion insertion substitution jump hyp ref i a Ea) as (nr & v & (N1 & N2 & N3) & F & _ & R).
    assert (X : nth j nr 0 <= nth j (row_at i) 0 + if Nat.eqb j 0 then 1 else insertion).
    { destruct j as [|j]; cbn [Nat.eqb]; [rewrite N2; apply Qcle_refl|].
      destruct (nth_error hyp j) as [b|] eqn:Eb; [|apply nth_error_None in Eb; unfold str in *; lia]. rewrite (N3 j b Eb). unfold exact. qclra. }
    assert (Y : nth j (row_at (S i)) 0 <= nth j nr 0) by (rewrite R; destruct (isspace a); [rewrite cell_nr by lia|]; qclra).
    destruct (Nat.eqb j 0); qclra.
  - destruct IH as (I1 & I2 & I3). assert (i < length ref)%nat by (apply nth_error_Some; congruence). assert (j < length hyp)%nat by (apply nth_error_Some; congruence).
    split; [lia|]. split; [lia|].
    destruct (state_round exact isspace deletion insertion substitution jump hyp ref i a Ha) as (nr & v & (N1 & N2 & N3) & F & _ & R).
    assert (X : nth (S j) nr 0 <= nth j (row_at i) 0 + if N.eqb a b then 0 else substitution).
    { rewrite (N3 j b Hb). unfold exact. destruct (N.eqb a b); qclra. }
    assert (Y : nth (S j) (row_at (S i)) 0 <= nth (S j) nr 0) by (rewrite R; destruct (isspace a); [rewrite cell_nr by lia|]; qclra).
    destruct (N.eqb a b); qclra.
  - destruct IH as (I1 & I2 & I3). split; [auto|]. split; [auto|].
    destruct (state_round exact isspace deletion insertion substitution jump hyp ref i a Ha) as (nr & v & (N1 & N2 & N3) & (F1 & F2 & F3) & _ & R).
    rewrite Hs in R. rewrite R in *. rewrite cell_nr in * by lia. specialize (F2 j ltac:(lia)). unfold exact in *. qclra.
Qed.

Lemma row_reached i : (i <= length ref)%nat -> forall j, (j <= length hyp)%nat -> aligned i j (nth j (row_at i) 0).
Proof.
  induction i as [|i IH]; intros Hi.
  - intros j Hj. rewrite row_at_0 by lia. destruct (Nat.eqb_spec j 0) as [->|]; [apply at_front|apply at_start; lia].
  - destruct (nth_error ref i) as [a|] eqn:Ea; [|apply nth_error_None in Ea; unfold str in *; lia].
    destruct (state_round exact isspace deletion insertion substitution jump hyp ref i a Ea) as (nr & v & (N1 & N2 & N3) & (F1 & F2 & F3) & _ & R).
    specialize (IH ltac:(lia)).
    assert (G : forall j, (j <= length hyp)%nat -> aligned (S i) j (nth j nr 0)).
    { induction j as [|j IHj]; intros Hj.
      - rewrite N2. unfold exact. apply (by_insertion _ _ _ _ _ _ _ _ i 0%nat); [apply IH; lia|lia].
      - destruct (nth_error hyp j) as [b|] eqn:Eb; [|apply nth_error_None in Eb; unfold str in *; lia]. rewrite (N3 j b Eb). unfold exact, qmin.
        destruct (qleb _ (nth (S j) _ 0 + insertion)).
        + destruct (qleb _ _).
          * apply by_deletion; [apply IHj; lia|lia|lia].
          * apply by_substitution; auto. apply IH. lia.
        + apply (by_insertion _ _ _ _ _ _ _ _ i (S j)); [apply IH; lia|lia]. }
    intros j Hj. rewrite R. destruct (isspace a) eqn:Es; [|apply G; exact Hj]. rewrite cell_nr by lia. unfold qmin. destruct (qleb _ _); [apply G; exact Hj|].
    unfold exact. rewrite Qcplus_comm. apply (by_jump _ _ _ _ _ _ _ _ i v j _ a); auto. apply G. lia.
Qed.

Theorem rows_least i j : (i <= length ref)%nat -> (j <= length hyp)%nat -> least_cost i j (nth j (row_at i) 0).
Proof. intros Hi Hj. split; [apply row_reached; auto|]. intros c H. apply row_lower in H. apply H. Qed.

Hypothesis jump_pos : 0 < jump.

Lemma first_least_row i a nr v : nth_error ref i = Some a -> length nr = S (length hyp) -> first_least nr v ->
  row_at (S i) = (if isspace a then map (fun x => qmin x (jump + nth v nr 0)) nr else nr) -> visited hyp (fun j => nth j (row_at (S i)) 0) v /\ nth v (row_at (S i)) 0 = nth v nr 0.
Proof.
  intros Ha L (F1 & F2 & F3) R.
  assert (X : forall j, (j < length nr)%nat -> nth v nr 0 <= nth j (row_at (S i)) 0 /\ (nth v nr 0 < nth j nr 0 -> nth v nr 0 < nth j (row_at (S i)) 0)).
  { intros j Hj. rewrite R. specialize (F2 j Hj). destruct (isspace a); [|auto]. rewrite cell_nr by auto. split; intros; qclra. }
  assert (Ev : nth v (row_at (S i)) 0 = nth v nr 0) by (rewrite R; destruct (isspace a); [rewrite cell_nr by auto; qclra|reflexivity]).
  split; [|exact Ev]. split; [lia|]. cbn beta. rewrite Ev. split; intros j Hj; apply X; [lia|lia|]. apply F3. exact Hj.
Qed.

Lemma visits_exist i : (i <= length ref)%nat -> exists visits, length visits = i /\
  (forall k v, nth_error visits k = Some v -> visited hyp (fun j => nth j (row_at (S k)) 0) v) /\
  (forall j, nth j (cov_at i) 0 = qn (count_occ Nat.eq_dec visits j)) /\ (forall v, In v visits -> (v <= length hyp)%nat).
Proof.
  induction i as [|i IH]; intros Hi.
  - exists []. split; [reflexivity|]. split; [intros [|k] v H; discriminate|]. split; [|intros v []]. intros j. rewrite cov_at_0. reflexivity.
  - destruct IH as (vs & L & V & C & B); [lia|]. destruct (nth_error ref i) as [a|] eqn:Ea; [|apply nth_error_None in Ea; unfold str in *; lia].
    destruct (state_round exact isspace deletion insertion substitution jump hyp ref i a Ea) as (nr & v & (N1 & _ & _) & F & Hc & R).
    destruct (first_least_row i a nr v Ea N1 F R) as [Hv _]. exists (vs ++ [v]). split; [rewrite app_length; cbn; lia|]. split; [|split].
    + intros k v' Hk. destruct (Nat.eq_dec k i) as [->|Hne].
      * rewrite nth_error_app2 in Hk by lia. rewrite L, Nat.sub_diag in Hk. injection Hk as <-. exact Hv.
      * assert (k < length (vs ++ [v]))%nat by (apply nth_error_Some; congruence). rewrite app_length in *. cbn [length] in *.
        rewrite nth_error_app1 in Hk by lia. apply V. exact Hk.
    + intros j. rewrite Hc, count_occ_app. cbn [count_occ]. destruct F as (F1 & _ & _).
      destruct (state_run exact isspace deletion insertion substitution jump hyp ref i) as (_ & _ & Lc); [lia|].
      destruct (Nat.eq_dec v j) as [->|Hne]; [rewrite nth_list_set_eq by lia|rewrite nth_list_set_neq by auto; rewrite C, Nat.add_0_r; reflexivity].
      rewrite C, qn_add, qn_1. reflexivity.
    + intros x Hx. apply in_app_iff in Hx. destruct Hx as [Hx|[<-|[]]]; [apply B; exact Hx|]. destruct Hv. assumption.
Qed.

End Cost.
