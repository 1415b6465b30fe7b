(** How far [emd_1d_hybrid] and [emd_1d_old] are from the earth mover's
    distance when every operation is rounded.  The comparisons of the greedy
    loops are made on rounded differences too, so the loops may take a step
    that is not the best one; such a step costs at most the rounding error of
    the comparison. *)
From Coq Require Import ZArith QArith Qcanon List Permutation Sorted Lia Bool.
From Verif Require Import Num Py Float64 EmdSpec EmdModel EmdProofs EmdFloatProofs EmdSlowProofs HybridModel FlowProofs GreedyProofs HybridProofs HybridFloatProofs Accuracy.
From Verif Require Import CheckModel TestSuiteModel SumModel.
Import ListNotations.
Open Scope Qc_scope.

(** ** Matching the first points when the comparison is off by [t] *)
Lemma head_match_t t x xs y ys : 0 <= t ->
  close two (x :: xs) (y :: ys) -> (length ys <= length xs)%nat -> asc (x :: xs) -> asc (y :: ys) ->
  (y <= x \/ exists x1 xs', xs = x1 :: xs' /\ y < x1 /\ y - x <= x1 - y + t) ->
  qabs (x - y) + emd xs ys - t <= emd (x :: xs) (y :: ys) /\ emd (x :: xs) (y :: ys) <= qabs (x - y) + emd xs ys.
Proof.
  intros T0 C L Ax Ay H.
  pose proof (emd_cons_pair x y xs ys) as U. split; [|exact U].
  destruct (emd_combination _ _ C ltac:(simpl; lia) Ax Ay) as (c & Hc & Lc).
  cbn [length combinations] in Hc. apply in_app_iff in Hc. destruct Hc as [Hc|Hc].
  - apply in_map_iff in Hc. destruct Hc as (c' & <- & Hc).
    assert (Len := combinations_length _ _ _ Hc).
    destruct (combinations_sub _ _ _ Hc) as [r P].
    pose proof (sub_emd c' r xs ys P Len) as HS.
    assert (Lx : length xs = (length ys + length r)%nat).
    { apply Permutation_length in P. rewrite P, app_length, Len. reflexivity. }
    cbn [combine length] in Lc. rewrite move_cost_cons in Lc. cbn [fst snd] in Lc.
    rewrite !qn_S, Lx, qn_add in Lc. clear - T0 Lc HS. qclra.
  - assert (Len := combinations_length _ _ _ Hc).
    destruct (combinations_sub _ _ _ Hc) as [r P].
    destruct c as [|c0 c']; [discriminate|]. simpl in Len. injection Len as Len.
    assert (P' : Permutation xs (c' ++ c0 :: r)).
    { rewrite P. simpl. apply Permutation_middle. }
    pose proof (sub_emd c' (c0 :: r) xs ys P' Len) as HS.
    assert (Lx : length xs = (length ys + S (length r))%nat).
    { apply Permutation_length in P'. rewrite P', app_length, Len. reflexivity. }
    cbn [combine length] in Lc. rewrite move_cost_cons in Lc. cbn [fst snd] in Lc.
    rewrite !qn_S, Lx, qn_add, qn_S in Lc. cbn [length] in HS. rewrite qn_S in HS.
    assert (Ic : In c0 xs) by (rewrite P; left; auto).
    apply StronglySorted_inv in Ax. destruct Ax as [Ax Fx]. rewrite Forall_forall in Fx.
    assert (D : qabs (x - y) <= qabs (c0 - y) + t).
    { assert (x <= c0) by auto. destruct H as [H|(x1 & xs' & -> & H1 & H2)].
      - clear - H H0 T0. qclra.
      - assert (x1 <= c0).
        { destruct Ic as [->|Ic]; [apply Qcle_refl|].
          apply StronglySorted_inv in Ax. destruct Ax as [_ F]. rewrite Forall_forall in F. auto. }
        clear - H0 H1 H2 H T0. qclra. }
    clear - Lc HS D. set (q := qabs (x - y)) in *. set (q' := qabs (c0 - y)) in *. clearbody q q'. qclra.
Qed.

Lemma head_match_dsc_t t x xs y ys : 0 <= t ->
  close two (x :: xs) (y :: ys) -> (length ys <= length xs)%nat -> dsc (x :: xs) -> dsc (y :: ys) ->
  (x <= y \/ exists x1 xs', xs = x1 :: xs' /\ x1 < y /\ x - y <= y - x1 + t) ->
  qabs (x - y) + emd xs ys - t <= emd (x :: xs) (y :: ys) /\ emd (x :: xs) (y :: ys) <= qabs (x - y) + emd xs ys.
Proof.
  intros T0 C L Dx Dy H. rewrite <- (emd_opp (x :: xs)), <- (emd_opp xs). cbn [map].
  replace (qabs (x - y)) with (qabs (- x - - y)) by (clear; qclra).
  apply head_match_t; auto.
  - apply (close_opp _ _ _ C).
  - rewrite !map_length. auto.
  - apply (dsc_opp _ Dx).
  - apply (dsc_opp _ Dy).
  - destruct H as [H|(x1 & xs' & -> & H1 & H2)]; [left; clear - H; qclra|right].
    exists (- x1), (map Qcopp xs'). repeat split; [clear - H1; qclra|clear - H2; qclra].
Qed.

Lemma py_min_le2 {A} (f g : A -> Qc) t c l : 0 <= t -> (forall a, In a l -> f a <= g a + t) -> py_min c (map f l) <= py_min c (map g l) + t.
Proof.
  intros T0 H. destruct (py_min_in c (map f l)) as [_ M], (py_min_in c (map g l)) as [I _].
  destruct I as [<-|I].
  - specialize (M c (or_introl eq_refl)). clear - M T0. qclra.
  - apply in_map_iff in I. destruct I as (a & <- & I).
    specialize (M (f a) (or_intror (in_map f l a I))). specialize (H a I). clear - M H. qclra.
Qed.

Section Acc.
Variable u : Qc.
Hypothesis U0 : 0 <= u.
Hypothesis U1 : u <= 1.
Variable rnd : Qc -> Qc.
Hypothesis R : lawful rnd.
Hypothesis A : accurate u rnd.

(** [N] bounds the number of points; every sum on the way is at most [N + 1],
    so that one rounding costs at most [E]. *)
Variable N : nat.
Hypothesis N1 : (1 <= N)%nat.
Definition E : Qc := u * qn (N + 1).
Hypothesis budget : qn (6 * N) * E <= 1.
Hypothesis Nsmall : small N.

Definition within (k : nat) (a b : Qc) : Prop := qabs (a - b) <= qn k * E.

Lemma E_0 : 0 <= E.
Proof. apply qmul_nonneg; auto. apply qn_nonneg. Qed.
Lemma uu_E : u + u <= E.
Proof.
  unfold E. replace (u + u) with (u * qn 2) by (change (qn 2) with (1 + 1); ring). apply qmul_le_l; auto. apply qn_le. lia.
Qed.
Lemma within_mono j k a b : (j <= k)%nat -> within j a b -> within k a b.
Proof. intros H W. unfold within in *. eapply Qcle_trans; [exact W|]. apply qmul_le_r; [apply E_0|]. apply qn_le; auto. Qed.
Lemma within_refl k a : within k a a.
Proof. unfold within. replace (a - a) with 0 by ring. change (qabs 0) with 0. apply qmul_nonneg; [apply qn_nonneg|apply E_0]. Qed.
Lemma qnE_add j k : qn (j + k) * E = qn j * E + qn k * E.
Proof. rewrite qn_add. ring. Qed.
Lemma within_trans j k a b c : within j a b -> within k b c -> within (j + k) a c.
Proof. unfold within. rewrite qnE_add. set (p := qn j * E). set (q := qn k * E). clearbody p q. intros. qclra. Qed.
Lemma within_add j k a b c d : within j a b -> within k c d -> within (j + k) (a + c) (b + d).
Proof. unfold within. rewrite qnE_add. set (p := qn j * E). set (q := qn k * E). clearbody p q. intros. qclra. Qed.
Lemma within_sym k a b : within k a b -> within k b a.
Proof. unfold within. set (p := qn k * E). clearbody p. intros. qclra. Qed.
Lemma within_budget k a b : (k <= 6 * N)%nat -> within k a b -> a <= b + 1.
Proof.
  intros H W. apply (within_mono k _ _ _ H) in W. unfold within in W. revert W budget. generalize (qn (6 * N) * E). intros p W B.
  clear - W B. qclra.
Qed.

(** One rounding of a number that is not too large. *)
Lemma rnd_within a : 0 <= a -> a <= qn N + 1 -> within 1 (rnd a) a.
Proof.
  intros H0 H1. unfold within. eapply Qcle_trans; [apply A|]. replace (qabs a) with a by (clear - H0; qclra).
  unfold E. replace (qn 1 * (u * qn (N + 1))) with (u * qn (N + 1)) by (change (qn 1) with 1; ring).
  apply qmul_le_l; auto. rewrite qn_add. exact H1.
Qed.

(** A difference of two points close to each other. *)
Lemma diff_within a : qabs a <= 1 -> qabs (qabs (rnd a) - qabs a) <= u.
Proof.
  intros H. pose proof (A a) as B.
  assert (u * qabs a <= u * 1) by (apply qmul_le_l; auto). rewrite Qcmult_1_r in H0.
  set (t := u * qabs a) in *. clearbody t. clear - B H0. qclra.
Qed.
Lemma u_within a b : qabs (a - b) <= u -> within 1 a b.
Proof.
  intros H. unfold within. change (qn 1) with 1. rewrite Qcmult_1_l. pose proof uu_E as B. clear - H B U0.
  set (e := E) in *. clearbody e. qclra.
Qed.

(** The state of a computation: [d] is what has been added up, [q] is what
    remains, [T] is the result wanted. *)
Variable T : Qc.
Hypothesis T_N : T <= qn N.

Definition inv (k : nat) (d q : Qc) : Prop := 0 <= d /\ 0 <= q /\ within k (d + q) T.

Lemma inv_mono j k d q : (j <= k)%nat -> inv j d q -> inv k d q.
Proof. intros H (H1 & H2 & H3). repeat split; auto. eapply within_mono; eauto. Qed.

Lemma inv_add k j d a a' q : (k + j < 6 * N)%nat -> 0 <= a' -> 0 <= q -> within j a' a -> inv k d (a + q) -> inv (k + j + 1) (rnd (d + a')) q.
Proof.
  intros B A0 Q0 W (D0 & _ & H).
  assert (W2 : within (k + j) (d + a' + q) T).
  { rewrite Nat.add_comm. apply within_trans with (d + (a + q)); auto.
    unfold within in *. replace (d + a' + q - (d + (a + q))) with (a' - a) by ring. auto. }
  assert (S1 : d + a' <= qn N + 1).
  { pose proof (within_budget _ _ _ (Nat.lt_le_incl _ _ B) W2) as G. clear - G T_N Q0. qclra. }
  assert (S0 : 0 <= d + a') by (clear - A0 D0; qclra).
  split; [apply rnd_nonneg; auto|]. split; auto.
  rewrite Nat.add_comm. apply within_trans with (d + a' + q); auto.
  pose proof (rnd_within _ S0 S1) as W3. unfold within in *. replace (rnd (d + a') + q - (d + a' + q)) with (rnd (d + a') - (d + a')) by ring. auto.
Qed.

(** ** The greedy loops *)
Definition greedy_near (P : list Qc -> Prop) (k : nat) (q : Qc) cy cx (r : list Qc * list Qc * Qc) : Prop :=
  let '(cy', cx', d') := r in
  exists s, (length cy = s + length cy')%nat /\ (length cx = s + length cx')%nat /\ 
  inv (k + 3 * s) d' (emd cx' cy' + q) /\ (length cy' <= length cx')%nat /\ P cy' /\ P cx' /\
  (forall x, In x cx' -> In x cx) /\ (forall y, In y cy' -> In y cy).

Lemma greedy_near_refl (P : list Qc -> Prop) k q cy cx d : inv k d (emd cx cy + q) -> (length cy <= length cx)%nat -> P cy -> P cx ->
  greedy_near P k q cy cx (cy, cx, d).
Proof. intros. exists 0%nat. rewrite Nat.mul_0_r, Nat.add_0_r. repeat split; auto; apply H. Qed.

Lemma greedy_near_step (P : list Qc -> Prop) k q cy cx y x d d' r :
  (k + 3 * length (y :: cy) <= 6 * N)%nat -> 0 <= q -> qabs (x - y) <= 1 ->
  qabs (x - y) + emd cx cy - (u + u) <= emd (x :: cx) (y :: cy) -> emd (x :: cx) (y :: cy) <= qabs (x - y) + emd cx cy ->
  inv k d (emd (x :: cx) (y :: cy) + q) -> d' = rnd (d + qabs (rnd (x - y))) ->
  (inv (k + 3) d' (emd cx cy + q) -> greedy_near P (k + 3) q cy cx r) -> greedy_near P k q (y :: cy) (x :: cx) r.
Proof.
  intros B Q0 C E1 E2 I -> G. destruct r as [[cy' cx'] d''].
  assert (I2 : inv (k + 3) (rnd (d + qabs (rnd (x - y)))) (emd cx cy + q)).
  { pose proof (emd_nonneg cx cy) as M0. pose proof (emd_nonneg (x :: cx) (y :: cy)) as M1.
    assert (I' : inv (k + 1) d (qabs (x - y) + (emd cx cy + q))).
    { destruct I as (I0 & I1 & I2). split; auto. split; [pose proof (qabs_nonneg (x - y)); clear - M0 Q0 H; set (p := qabs _) in *; clearbody p; qclra|].
      rewrite Nat.add_comm. eapply within_trans; [|exact I2].
      unfold within. change (qn 1) with 1. rewrite Qcmult_1_l. pose proof uu_E as V.
      set (p := qabs (x - y)) in *. clearbody p. set (e := E) in *. clearbody e.
      set (m1 := emd cx cy) in *. set (m2 := emd (x :: cx) (y :: cy)) in *. clearbody m1 m2. clear - E1 E2 V U0. qclra. }
    replace (k + 3)%nat with (k + 1 + 1 + 1)%nat by lia. apply inv_add with (qabs (x - y)); auto.
    - cbn [length] in B. lia.
    - apply qabs_nonneg.
    - clear - M0 Q0. qclra.
    - apply u_within, diff_within; auto. }
  destruct (G I2) as (s & L1 & L2 & I3 & L3 & P1 & P2 & S1 & S2).
  exists (S s). cbn [length]. repeat split; try lia; auto.
  - apply I3.
  - apply I3.
  - replace (k + 3 * S s)%nat with (k + 3 + 3 * s)%nat by lia. apply I3.
  - intros; right; auto.
  - intros; right; auto.
Qed.

(** What a comparison of rounded differences tells. *)
Lemma rnd_compare a b : 0 <= a -> 0 <= b -> a <= 1 -> b <= 1 -> rnd a <= rnd b -> a <= b + (u + u).
Proof.
  intros A0 B0 A1 B1 H. pose proof (A a) as Ha. pose proof (A b) as Hb.
  replace (qabs a) with a in Ha by (clear - A0; qclra). replace (qabs b) with b in Hb by (clear - B0; qclra).
  assert (u * a <= u * 1) by (apply qmul_le_l; auto). assert (u * b <= u * 1) by (apply qmul_le_l; auto). rewrite Qcmult_1_r in *.
  set (p := u * a) in *. set (q := u * b) in *. clearbody p q. clear - H Ha Hb H0 H1. qclra.
Qed.
Lemma uu_0 : 0 <= u + u. Proof. clear - U0. qclra. Qed.
Lemma close_hd x xs y ys : close 1 (x :: xs) (y :: ys) -> qabs (x - y) <= 1.
Proof. intros C. apply C; left; auto. Qed.

Lemma greedy_small_near cy : forall cx d k q,
  close 1 cx cy -> (length cy <= length cx)%nat -> asc cx -> asc cy -> (k + 3 * length cy <= 6 * N)%nat -> 0 <= q ->
  inv k d (emd cx cy + q) -> greedy_near asc k q cy cx (greedy_small rnd cy cx d).
Proof.
  induction cy as [|y cy IH]; intros cx d k q C L Ax Ay B Q0 I; [apply greedy_near_refl; auto|].
  destruct cx as [|x cx]; [simpl in L; lia|].
  assert (L' : (length cy <= length cx)%nat) by (simpl in L; lia).
  assert (C' : close 1 cx cy) by (eapply close_sub; [exact C|intros; right; auto..]).
  assert (B' : (k + 3 + 3 * length cy <= 6 * N)%nat) by (cbn [length] in B; lia).
  assert (Ax' : asc cx) by (inversion Ax; auto). assert (Ay' : asc cy) by (inversion Ay; auto).
  cbn [greedy_small]. destruct (qleb y x) eqn:F.
  - destruct (head_match_t (u + u) x cx y cy uu_0 (close_1_2 _ _ C) L' Ax Ay) as [H1 H2]; [left; clear - F; qclra|].
    eapply greedy_near_step; eauto using close_hd.
  - destruct cx as [|x1 cx]; [apply greedy_near_refl; auto|].
    destruct (qltb y x1 && qleb (rnd (y - x)) (rnd (x1 - y))) eqn:E2; [|apply greedy_near_refl; auto].
    apply andb_true_iff in E2. destruct E2 as [E2 E3]. apply qleb_le in E3.
    assert (c1 : qabs (x - y) <= 1) by (apply C; left; auto). assert (c2 : qabs (x1 - y) <= 1) by (apply C; [right|]; left; auto).
    apply rnd_compare in E3; [|clear - F c1; qclra|clear - E2 c2; qclra|clear - F c1; qclra|clear - E2 c2; qclra].
    destruct (head_match_t (u + u) x (x1 :: cx) y cy uu_0 (close_1_2 _ _ C) L' Ax Ay) as [H1 H2].
    { right. exists x1, cx. repeat split; auto. clear - E2. qclra. }
    rewrite (rnd_abs_comm rnd (rnd_odd _ R) y x). eapply greedy_near_step; eauto.
Qed.

Lemma greedy_large_near cy : forall cx d k q,
  close 1 cx cy -> (length cy <= length cx)%nat -> dsc cx -> dsc cy -> (k + 3 * length cy <= 6 * N)%nat -> 0 <= q ->
  inv k d (emd cx cy + q) -> greedy_near dsc k q cy cx (greedy_large rnd cy cx d).
Proof.
  induction cy as [|y cy IH]; intros cx d k q C L Ax Ay B Q0 I; [apply greedy_near_refl; auto|].
  destruct cx as [|x cx]; [simpl in L; lia|].
  assert (L' : (length cy <= length cx)%nat) by (simpl in L; lia).
  assert (C' : close 1 cx cy) by (eapply close_sub; [exact C|intros; right; auto..]).
  assert (B' : (k + 3 + 3 * length cy <= 6 * N)%nat) by (cbn [length] in B; lia).
  assert (Ax' : dsc cx) by (inversion Ax; auto). assert (Ay' : dsc cy) by (inversion Ay; auto).
  cbn [greedy_large]. destruct (qleb x y) eqn:F.
  - destruct (head_match_dsc_t (u + u) x cx y cy uu_0 (close_1_2 _ _ C) L' Ax Ay) as [H1 H2]; [left; clear - F; qclra|].
    rewrite (rnd_abs_comm rnd (rnd_odd _ R) y x). eapply greedy_near_step; eauto using close_hd.
  - destruct cx as [|x1 cx]; [apply greedy_near_refl; auto|].
    destruct (qltb x1 y && qleb (rnd (x - y)) (rnd (y - x1))) eqn:E2; [|apply greedy_near_refl; auto].
    apply andb_true_iff in E2. destruct E2 as [E2 E3]. apply qleb_le in E3.
    assert (c1 : qabs (x - y) <= 1) by (apply C; left; auto). assert (c2 : qabs (x1 - y) <= 1) by (apply C; [right|]; left; auto).
    apply rnd_compare in E3; [|clear - F c1; qclra|clear - E2 c2; qclra|clear - F c1; qclra|clear - E2 c2; qclra].
    destruct (head_match_dsc_t (u + u) x (x1 :: cx) y cy uu_0 (close_1_2 _ _ C) L' Ax Ay) as [H1 H2].
    { right. exists x1, cx. repeat split; auto. clear - E2. qclra. }
    rewrite (rnd_abs_comm rnd (rnd_odd _ R) y x). eapply greedy_near_step; eauto.
Qed.

Lemma rnd_pos_abs a : 0 <= a -> rnd a = qabs (rnd a).
Proof. intros H. pose proof (rnd_nonneg rnd R a H) as H'. revert H'. generalize (rnd a). clear. intros. qclra. Qed.

Lemma greedy_small_old_near cy : forall cx d k q,
  close 1 cx cy -> (length cy <= length cx)%nat -> asc cx -> asc cy -> (k + 3 * length cy <= 6 * N)%nat -> 0 <= q ->
  inv k d (emd cx cy + q) -> exists r, greedy_small_old rnd cy cx d = Ok r /\ greedy_near asc k q cy cx r.
Proof.
  induction cy as [|y cy IH]; intros cx d k q C L Ax Ay B Q0 I; [eexists; split; [reflexivity|apply greedy_near_refl; auto]|].
  destruct cx as [|x cx]; [simpl in L; lia|].
  assert (L' : (length cy <= length cx)%nat) by (simpl in L; lia).
  assert (C' : close 1 cx cy) by (eapply close_sub; [exact C|intros; right; auto..]).
  assert (B' : (k + 3 + 3 * length cy <= 6 * N)%nat) by (cbn [length] in B; lia).
  assert (Ax' : asc cx) by (inversion Ax; auto). assert (Ay' : asc cy) by (inversion Ay; auto).
  assert (STEP : forall d', d' = rnd (d + qabs (rnd (x - y))) -> 
     (y <= x \/ exists x1 xs', cx = x1 :: xs' /\ y < x1 /\ y - x <= x1 - y + (u + u)) ->
     exists r, greedy_small_old rnd cy cx d' = Ok r /\ greedy_near asc k q (y :: cy) (x :: cx) r).
  { intros d' Hd' H. destruct (head_match_t (u + u) x cx y cy uu_0 (close_1_2 _ _ C) L' Ax Ay H) as [H1 H2].
    destruct (greedy_small_old rnd cy cx d') as [r|e] eqn:G.
    - exists r. split; auto. eapply greedy_near_step; eauto using close_hd.
      intros I'. destruct (IH cx d' (k + 3)%nat q C' L' Ax' Ay' B' Q0 I') as (r' & Er & Gr). rewrite G in Er. injection Er as ->. exact Gr.
    - exfalso. assert (I' : inv (k + 3) d' (emd cx cy + q)).
      { assert (X : greedy_near (fun _ => True) k q (y :: cy) (x :: cx) (cy, cx, d')).
        { eapply greedy_near_step; eauto using close_hd. intros. apply greedy_near_refl; auto. }
        destruct X as (s & S1 & _ & S2 & _). cbn [length] in S1. assert (s = 1%nat) by lia. subst s. exact S2. }
      destruct (IH cx d' (k + 3)%nat q C' L' Ax' Ay' B' Q0 I') as (r' & Er & Gr). rewrite G in Er. discriminate. }
  cbn [greedy_small_old]. destruct (qleb y x) eqn:F.
  - apply STEP; [|left; clear - F; qclra]. f_equal. f_equal. apply rnd_pos_abs. clear - F. qclra.
  - destruct cx as [|x1 cx]; [eexists; split; [reflexivity|apply greedy_near_refl; auto]|].
    destruct (qltb y x1 && qleb (rnd (y - x)) (rnd (x1 - y))) eqn:E2; [|eexists; split; [reflexivity|apply greedy_near_refl; auto]].
    apply andb_true_iff in E2. destruct E2 as [E2 E3]. apply qleb_le in E3.
    assert (c1 : qabs (x - y) <= 1) by (apply C; left; auto). assert (c2 : qabs (x1 - y) <= 1) by (apply C; [right|]; left; auto).
    apply rnd_compare in E3; [|clear - F c1; qclra|clear - E2 c2; qclra|clear - F c1; qclra|clear - E2 c2; qclra].
    apply STEP.
    + rewrite (rnd_abs_comm rnd (rnd_odd _ R) x y). f_equal. f_equal. apply rnd_pos_abs. clear - F. qclra.
    + right. exists x1, cx. repeat split; auto. clear - E2. qclra.
Qed.

Lemma greedy_large_old_near cy : forall cx d k q,
  close 1 cx cy -> (length cy <= length cx)%nat -> dsc cx -> dsc cy -> (k + 3 * length cy <= 6 * N)%nat -> 0 <= q ->
  inv k d (emd cx cy + q) -> exists r, greedy_large_old rnd cy cx d = Ok r /\ greedy_near dsc k q cy cx r.
Proof.
  induction cy as [|y cy IH]; intros cx d k q C L Ax Ay B Q0 I; [eexists; split; [reflexivity|apply greedy_near_refl; auto]|].
  destruct cx as [|x cx]; [simpl in L; lia|].
  assert (L' : (length cy <= length cx)%nat) by (simpl in L; lia).
  assert (C' : close 1 cx cy) by (eapply close_sub; [exact C|intros; right; auto..]).
  assert (B' : (k + 3 + 3 * length cy <= 6 * N)%nat) by (cbn [length] in B; lia).
  assert (Ax' : dsc cx) by (inversion Ax; auto). assert (Ay' : dsc cy) by (inversion Ay; auto).
  cbn [greedy_large_old]. destruct (qleb x y) eqn:F.
  - set (d' := rnd (d + rnd (y - x))). assert (Hd' : d' = rnd (d + qabs (rnd (x - y)))).
    { unfold d'. rewrite (rnd_abs_comm rnd (rnd_odd _ R) x y). f_equal. f_equal. apply rnd_pos_abs. clear - F. qclra. }
    clearbody d'.
    destruct (head_match_dsc_t (u + u) x cx y cy uu_0 (close_1_2 _ _ C) L' Ax Ay) as [H1 H2]; [left; clear - F; qclra|].
    assert (I' : inv (k + 3) d' (emd cx cy + q)).
    { assert (X : greedy_near (fun _ => True) k q (y :: cy) (x :: cx) (cy, cx, d')).
      { eapply greedy_near_step; eauto using close_hd. intros. apply greedy_near_refl; auto. }
      destruct X as (s & S1 & _ & S2 & _). cbn [length] in S1. assert (s = 1%nat) by lia. subst s. exact S2. }
    destruct (IH cx d' (k + 3)%nat q C' L' Ax' Ay' B' Q0 I') as (r' & Er & Gr). exists r'. split; auto.
    eapply greedy_near_step; eauto using close_hd.
  - destruct cx as [|x1 cx]; [eexists; split; [reflexivity|apply greedy_near_refl; auto]|].
    destruct (qltb x1 y && qleb (rnd (x - y)) (rnd (y - x))) eqn:E2; [|eexists; split; [reflexivity|apply greedy_near_refl; auto]].
    exfalso. apply andb_true_iff in E2. destruct E2 as [_ E2]. apply qleb_le in E2. apply (lawful_order rnd R) in E2. clear - F E2. qclra.
Qed.

(** ** A single y, sums, the fallbacks *)
Lemma min_near (f g : Qc -> Qc) t x0 xs0 : 0 <= t -> (forall x, In x (x0 :: xs0) -> f x <= g x + t) ->
  py_min (f x0) (map f xs0) <= py_min (g x0) (map g xs0) + t.
Proof.
  intros T0 H. destruct (py_min_in (f x0) (map f xs0)) as [_ M], (py_min_in (g x0) (map g xs0)) as [I _].
  change (g x0 :: map g xs0) with (map g (x0 :: xs0)) in I. apply in_map_iff in I. destruct I as (x & <- & I).
  change (f x0 :: map f xs0) with (map f (x0 :: xs0)) in M.
  specialize (M (f x) (in_map f _ _ I)). specialize (H x I). clear - M H. qclra.
Qed.

Lemma single_near xs y : close 1 xs [y] -> xs <> [] -> (S (length xs) <= N)%nat ->
  exists m, min_of (map (fun x => qabs (rnd (x - y))) xs) = Ok m /\
    0 <= rnd (rnd (m + qz (zlen xs)) - 1) /\ within 3 (rnd (rnd (m + qz (zlen xs)) - 1)) (emd xs [y]).
Proof.
  intros C NE LN. destruct (emd_single xs y (close_1_2 _ _ C) NE) as (m & M1 & M2).
  destruct xs as [|x0 xs0]; [contradiction|]. cbn [map min_of] in M1 |- *. injection M1 as M1.
  eexists. split; [reflexivity|]. set (m' := py_min _ _).
  assert (B : qabs (m' - m) <= u).
  { assert (m' <= m + u).
    { rewrite <- M1. apply (min_near (fun x => qabs (rnd (x - y))) (fun x => qabs (exact (x - y)))); auto.
      intros x I. pose proof (diff_within (x - y) (C x y I (or_introl eq_refl))) as D. unfold exact.
      revert D. generalize (qabs (rnd (x - y))) (qabs (x - y)). clear. intros. qclra. }
    assert (m <= m' + u).
    { rewrite <- M1. apply (min_near (fun x => qabs (exact (x - y))) (fun x => qabs (rnd (x - y)))); auto.
      intros x I. pose proof (diff_within (x - y) (C x y I (or_introl eq_refl))) as D. unfold exact.
      revert D. generalize (qabs (rnd (x - y))) (qabs (x - y)). clear. intros. qclra. }
    clear - H H0. qclra. }
  assert (m'0 : 0 <= m').
  { eapply (min_of_nonneg (map (fun x => qabs (rnd (x - y))) (x0 :: xs0))); [|reflexivity].
    apply Forall_map, Forall_forall. intros. apply qabs_nonneg. }
  assert (m1 : m <= 1).
  { rewrite <- M1. eapply Qcle_trans; [apply (proj2 (py_min_in _ _)); left; reflexivity|]. unfold exact. apply C; left; auto. }
  change (qz (zlen (x0 :: xs0))) with (qn (length (x0 :: xs0))).
  set (n := length (x0 :: xs0)) in *. assert (n1 : (1 <= n)%nat) by (unfold n; simpl; lia). rewrite M2. clearbody m'.
  assert (nN := proj1 (qn_le _ _) LN). rewrite qn_S in nN. pose proof (qn_nonneg n) as n0.
  assert (Sn : small n) by (unfold small in *; lia).
  assert (G1 : qn n <= rnd (m' + qn n)) by (apply rnd_ge_qn; auto; clear - m'0; qclra).
  assert (W1 : within 2 (rnd (m' + qn n)) (m + qn n)).
  { change 2%nat with (1 + 1)%nat. apply within_trans with (m' + qn n).
    - apply rnd_within; [clear - m'0 n0; qclra|]. clear - nN B m1 U1 m'0. qclra.
    - apply u_within. clear - B. replace (m' + qn n - (m + qn n)) with (m' - m) by ring. auto. }
  assert (W1' := within_budget 2 _ _ ltac:(lia) W1).
  apply (proj1 (qn_le 1 n)) in n1. change (qn 1) with 1 in n1.
  set (s := rnd (m' + qn n)) in *. clearbody s.
  split; [apply rnd_nonneg; auto; clear - G1 n1; qclra|].
  change 3%nat with (1 + 2)%nat. apply within_trans with (s - 1).
  - apply rnd_within; [clear - G1 n1; qclra|]. clear - W1' m1 nN. qclra.
  - unfold within in *. replace (s - 1 - (m + qn n - 1)) with (s - (m + qn n)) by ring. auto.
Qed.

Lemma zip_near px : forall py c c' j, close 1 px py -> (j + length px <= N)%nat -> 0 <= c -> c <= qn j -> 0 <= c' -> within (2 * j) c' c ->
  within (2 * (j + length px)) (fold_left (fun a b => rnd (a + b)) (zip_abs rnd px py) c') (fold_left (fun a b => exact (a + b)) (zip_abs exact px py) c).
Proof.
  induction px as [|x px IH]; intros [|y py] c c' j C HN C0 CJ C0' W.
  - cbn [zip_abs fold_left length]. rewrite Nat.add_0_r. auto.
  - cbn [zip_abs fold_left length]. rewrite Nat.add_0_r. auto.
  - cbn [zip_abs fold_left]. eapply within_mono; [|exact W]. lia.
  - cbn [zip_abs fold_left length] in *. assert (Cxy : qabs (x - y) <= 1) by (apply C; left; auto).
    assert (W2 : within (2 * j + 1) (c' + qabs (rnd (x - y))) (c + qabs (x - y))) by (apply within_add; auto; apply u_within, diff_within; auto).
    pose proof (within_budget (2 * j + 1) _ _ ltac:(lia) W2) as B. pose proof (qabs_nonneg (rnd (x - y))) as P1. pose proof (qabs_nonneg (x - y)) as P2.
    assert (JN : qn (S j) <= qn N) by (apply qn_le; lia). rewrite qn_S in JN.
    set (a' := qabs (rnd (x - y))) in *. unfold exact at 3 4. set (a := qabs (x - y)) in *. clearbody a a'.
    replace (j + S (length px))%nat with (S j + length px)%nat by lia. apply IH.
    + eapply close_sub; [exact C|intros; right; auto..].
    + lia.
    + clear - C0 P2. qclra.
    + rewrite qn_S. clear - CJ Cxy. qclra.
    + apply rnd_nonneg; auto. clear - C0' P1. qclra.
    + replace (2 * S j)%nat with (1 + (2 * j + 1))%nat by lia. apply within_trans with (c' + a'); auto.
      apply rnd_within; [clear - C0' P1; qclra|]. clear - B CJ Cxy JN. qclra.
Qed.
Lemma zip_sum_near px py : close 1 px py -> (length px <= N)%nat ->
  within (2 * length px) (py_sum rnd (zip_abs rnd px py)) (py_sum exact (zip_abs exact px py)).
Proof.
  intros C HN. unfold py_sum. apply (zip_near px py 0 0 0); auto; try apply Qcle_refl. apply within_refl.
Qed.

Lemma qsort_id l : asc l -> qsort l = l.
Proof.
  intros S. apply isort_sorted_id. clear - S. induction S; constructor; auto.
  eapply Forall_impl; [|eassumption]. intros b Hb. clear - Hb. qclra.
Qed.

Lemma dp_fallback_edp cx cy : dp_fallback rnd cx cy = Ok (edp rnd (rev cx) (rev cy)).
Proof.
  assert (main : forall x y,
     (rows <- foldM (dp_row_copy rnd x y) (py_range 1 (zlen x + 1))
                (map qz (py_range 0 (zlen y + 1)), map (fun _ => 0) (py_range 0 (zlen y + 1))) ;;
      py_get (fst rows) (zlen y)) = Ok (edp rnd (rev x) (rev y))).
  { intros x y. rewrite <- (row_0 rnd x y).
    replace (py_range 1 (zlen x + 1)) with (map Z.of_nat (seq 1 (length x))).
    2:{ rewrite <- py_range_nat. f_equal. unfold zlen. lia. }
    destruct (dp_copy_outer rnd x y (length x) (map (fun _ => 0) (py_range 0 (zlen y + 1)))) as (o & _ & F).
    { lia. } { rewrite map_length, py_range_length. unfold zlen. lia. }
    rewrite F. cbn [bind fst]. unfold zlen. rewrite (py_get_nat _ _ 0) by (rewrite row_length; lia).
    rewrite nth_row by lia. unfold cell. rewrite !firstn_all. reflexivity. }
  unfold dp_fallback. destruct (Z.gtb (zlen cx) (zlen cy)); rewrite main; auto. f_equal. apply edp_sym. apply (rnd_odd _ R).
Qed.

(** A relative error becomes an absolute one. *)
Lemma near_within m d e : (m <= N)%nat -> 0 <= e -> e <= qn m -> near u (m + 1) d e -> within (2 * (m + 1)) d e.
Proof.
  intros HN E0 Em [H1 H2].
  assert (K : qn 2 * (qn (m + 1) * u) <= 1).
  { eapply Qcle_trans; [|exact budget]. unfold E. replace (qn 2 * (qn (m + 1) * u)) with (qn 2 * (u * qn (m + 1))) by ring.
    apply qmul_le; try apply qn_nonneg; [apply E_0|apply qn_le; lia|]. apply qmul_le_l; auto. apply qn_le. lia. }
  pose proof (lo_linear u U0 U1 (m + 1)) as L1. pose proof (hi_linear u U0 U1 (m + 1) K) as L2.
  assert (Q0 : 0 <= qn (m + 1) * u) by (apply qmul_nonneg; auto; apply qn_nonneg).
  assert (B1 : (1 - qn (m + 1) * u) * e <= d) by (eapply Qcle_trans; [apply qmul_le_r; [auto|exact L1]|auto]).
  assert (B2 : d <= (1 + qn 2 * (qn (m + 1) * u)) * e) by (eapply Qcle_trans; [exact H2|apply qmul_le_r; auto]).
  assert (B3 : qn (m + 1) * u * e <= qn (m + 1) * E).
  { unfold E. rewrite <- Qcmult_assoc. apply qmul_le_l; [apply qn_nonneg|]. apply qmul_le_l; auto.
    eapply Qcle_trans; [exact Em|]. apply qn_le. lia. }
  assert (B4 : 0 <= qn (m + 1) * u * e) by (apply qmul_nonneg; auto).
  unfold within. replace (2 * (m + 1))%nat with (m + 1 + (m + 1))%nat by lia. rewrite qnE_add.
  replace ((1 - qn (m + 1) * u) * e) with (e - qn (m + 1) * u * e) in B1 by ring.
  replace ((1 + qn 2 * (qn (m + 1) * u)) * e) with (e + (qn (m + 1) * u * e + qn (m + 1) * u * e)) in B2 by (change (qn 2) with (1 + 1); ring).
  set (p := qn (m + 1) * u * e) in *. set (p' := qn (m + 1) * E) in *. clearbody p p'. clear - B1 B2 B3 B4. qclra.
Qed.

Lemma dp_fallback_near cx cy : asc cx -> asc cy -> (length cx + length cy <= N)%nat ->
  exists e, dp_fallback rnd cx cy = Ok e /\ 0 <= e /\ within (2 * (length cx + length cy + 1)) e (emd cx cy).
Proof.
  intros Ax Ay HN. rewrite dp_fallback_edp. eexists. split; [reflexivity|]. split; [apply edp_nonneg; auto|].
  apply near_within; auto; [apply emd_nonneg|apply emd_upper|].
  unfold emd. rewrite !qsort_id by auto. apply edp_near; auto. rewrite !rev_length. lia.
Qed.

(** ** One component *)
Lemma xy_length C : (length (xs_of C) + length (ys_of C) = length C)%nat.
Proof. unfold xs_of, ys_of. rewrite !map_length. induction C as [|[q []] C IH]; simpl; lia. Qed.

Definition body_near L (body : Z * Qc -> Z * Z -> result (Z * Qc)) : Prop :=
  forall Pre G C Tl last d k q,
  L = Pre ++ G ++ C ++ Tl -> zlen Pre = (last + 1)%Z -> ys_of G = [] -> (net C <= 0)%Z -> 0 <= q -> (k + 3 * length C + 2 <= 6 * N)%nat ->
  inv k d (qz (zlen G) + (emd (xs_of C) (ys_of C) + q)) ->
  exists d', body (last, d) ((last + 1 + zlen G)%Z, (last + zlen G + zlen C)%Z) = Ok ((last + zlen G + zlen C)%Z, d') /\
    inv (k + 3 * length C + 2) d' q.

Lemma hybrid_body_near L : (length L <= N)%nat -> asc (map fst L) -> close 1 (xs_of L) (ys_of L) -> body_near L (hybrid_component rnd L).
Proof.
  intros LN SL CL Pre G C Tl last d k q HL Hlen YG NC Q0 B I. unfold hybrid_component.
  pose proof (zlen_nonneg G) as LG0. pose proof (emd_nonneg (xs_of C) (ys_of C)) as EC0.
  assert (LCN : (length C <= N)%nat) by (rewrite HL, !app_length in LN; lia).
  assert (I0 : inv (k + 1) (if (last + 1 <? last + 1 + zlen G)%Z then rnd (d + qz (count_x L (last + 1) (last + 1 + zlen G))) else d)
      (emd (xs_of C) (ys_of C) + q)).
  { destruct (last + 1 <? last + 1 + zlen G)%Z eqn:F.
    - rewrite (count_x_slice L Pre G (C ++ Tl)); auto; [|lia]. rewrite (no_y_length _ YG).
      replace (k + 1)%nat with (k + 0 + 1)%nat by lia. apply inv_add with (qz (zlen G)); auto; try lia; [apply qz_nonneg; auto| |apply within_refl].
      clear - EC0 Q0. qclra.
    - assert (zlen G = 0)%Z by lia. rewrite H in I. change (qz 0) with 0 in I. rewrite Qcplus_0_l in I. eapply inv_mono; [|exact I]. lia. }
  set (d0 := if (last + 1 <? last + 1 + zlen G)%Z then _ else d) in *. clearbody d0. clear I EC0.
  rewrite !(component_slice L (Pre ++ G) C Tl) by (rewrite ?zlen_app, ?HL, ?app_assoc; auto; lia).
  assert (AC : asc (map fst C)).
  { apply (sub_sorted L SL (Pre ++ G) C Tl). rewrite HL, <- app_assoc. reflexivity. }
  assert (CC : close 1 (xs_of C) (ys_of C)).
  { intros x y Hx Hy. apply CL; rewrite HL, ?xs_of_app, ?ys_of_app, !in_app_iff; auto. }
  rewrite net_len in NC. unfold zlen in NC. pose proof (xy_length C) as XY.
  assert (AX : asc (xs_of C)) by (apply asc_filter; auto). assert (AY : asc (ys_of C)) by (apply asc_filter; auto).
  set (cy := ys_of C) in *. set (cx := xs_of C) in *. clearbody cy cx.
  pose proof (greedy_small_near cy cx d0 (k + 1) q CC ltac:(lia) AX AY ltac:(lia) Q0 I0) as G1.
  destruct (greedy_small rnd cy cx d0) as [[cy1 cx1] d1]. destruct G1 as (s1 & Ly1 & Lx1 & I1 & L1 & A1 & A1' & S1 & S1').
  assert (CC1 : close 1 (rev cx1) (rev cy1)).
  { eapply close_sub; [exact CC| |]; intros v H; rewrite <- in_rev in H; auto. }
  rewrite <- (emd_perm _ _ _ _ (Permutation_sym (Permutation_rev cx1)) (Permutation_sym (Permutation_rev cy1))) in I1.
  pose proof (greedy_large_near (rev cy1) (rev cx1) d1 (k + 1 + 3 * s1) q CC1 ltac:(rewrite !rev_length; auto) (asc_rev _ A1') (asc_rev _ A1)
     ltac:(rewrite rev_length; lia) Q0 I1) as G2.
  destruct (greedy_large rnd (rev cy1) (rev cx1) d1) as [[cy2 cx2] d2]. destruct G2 as (s2 & Ly2 & Lx2 & I2 & L2 & A2 & A2' & S2 & S2').
  rewrite rev_length in Ly2, Lx2.
  rewrite <- (emd_perm _ _ _ _ (Permutation_sym (Permutation_rev cx2)) (Permutation_sym (Permutation_rev cy2))) in I2.
  unfold zlen. rewrite !rev_length.
  destruct (Z.of_nat (length cy2) =? 0)%Z eqn:Z1.
  - destruct cy2; [|simpl in Z1; lia]. cbn [bind]. cbn [rev app] in I2. rewrite emd_nil_r, rev_length in I2.
    eexists. split; [reflexivity|]. change (qz (Z.of_nat (length cx2))) with (qn (length cx2)).
    apply inv_mono with (k + 1 + 3 * s1 + 3 * s2 + 0 + 1)%nat; [lia|].
    apply inv_add with (qn (length cx2)); auto; [lia|apply qn_nonneg|apply within_refl].
  - destruct (Z.of_nat (length cx2) =? 0)%Z eqn:Z2; [exfalso; lia|].
    destruct (dp_fallback_near (rev cx2) (rev cy2) (dsc_rev _ A2') (dsc_rev _ A2)) as (e & Ee & E0 & We); [rewrite !rev_length; lia|].
    rewrite Ee. cbn [bind]. eexists. split; [reflexivity|]. rewrite !rev_length in We.
    eapply inv_mono; [|apply inv_add with (emd (rev cx2) (rev cy2)); [|exact E0|exact Q0|exact We|exact I2]]; lia.
Qed.

(** Any way of adding up that is as close as adding from the left.  The
    results are not negative. *)
Definition adds_up (add_up : list Qc -> Qc) : Prop := forall px py, close 1 px py -> (length px <= N)%nat ->
  0 <= add_up (zip_abs rnd px py) /\ within (2 * length px) (add_up (zip_abs rnd px py)) (py_sum exact (zip_abs exact px py)).
Lemma py_sum_adds_up : adds_up (py_sum rnd).
Proof. intros px py C H. split; [apply (py_sum_nonneg rnd R), zip_abs_nonneg|apply zip_sum_near; auto]. Qed.

Section AddUp.
Variable add_up : list Qc -> Qc.
Hypothesis AU : adds_up add_up.

(** Trying every combination (old). *)
Lemma costs_near cx cy : close 1 cx cy -> (length cx + length cy <= N)%nat ->
  let m' := py_min (qn (length cy)) (map (fun comb => add_up (zip_abs rnd comb cy)) (combinations (length cy) cx)) in
  within (2 * length cy) m' (py_min (qn (length cy)) (map (fun comb => py_sum exact (zip_abs exact comb cy)) (combinations (length cy) cx))) /\
  0 <= m' /\ m' <= qn (length cy).
Proof.
  intros C HN. cbv zeta.
  set (cs := combinations (length cy) cx) in *.
  set (f := fun comb => add_up (zip_abs rnd comb cy)) in *. set (g := fun comb => py_sum exact (zip_abs exact comb cy)) in *.
  assert (FG2 : forall c, In c cs -> 0 <= f c /\ within (2 * length cy) (f c) (g c)).
  { intros c I. pose proof (combinations_length _ _ _ I) as Lc. destruct (combinations_sub _ _ _ I) as [r P].
    rewrite <- Lc. apply AU; [|lia]. eapply close_sub; [exact C| |auto]. intros x Hx. rewrite P. apply in_app_iff; auto. }
  assert (FG : forall c, In c cs -> within (2 * length cy) (f c) (g c)) by (intros; apply FG2; auto).
  assert (K0 : 0 <= qn (2 * length cy) * E) by (apply qmul_nonneg; [apply qn_nonneg|apply E_0]).
  assert (W0 : within (2 * length cy) (py_min (qn (length cy)) (map f cs)) (py_min (qn (length cy)) (map g cs))).
  { assert (H1 := py_min_le2 f g (qn (2 * length cy) * E) (qn (length cy)) cs K0).
    assert (H2 := py_min_le2 g f (qn (2 * length cy) * E) (qn (length cy)) cs K0).
    unfold within in *. revert FG K0 H1 H2. generalize (qn (2 * length cy) * E). intros t FG K0 H1 H2.
    assert (A1 : py_min (qn (length cy)) (map f cs) <= py_min (qn (length cy)) (map g cs) + t).
    { apply H1. intros a I. specialize (FG a I). clear - FG. revert FG. generalize (f a) (g a). intros. qclra. }
    assert (A2 : py_min (qn (length cy)) (map g cs) <= py_min (qn (length cy)) (map f cs) + t).
    { apply H2. intros a I. specialize (FG a I). clear - FG. revert FG. generalize (f a) (g a). intros. qclra. }
    revert A1 A2. generalize (py_min (qn (length cy)) (map f cs)) (py_min (qn (length cy)) (map g cs)). clear. intros. qclra. }
  assert (m0 : 0 <= py_min (qn (length cy)) (map f cs)).
  { destruct (py_min_in (qn (length cy)) (map f cs)) as [[<-|I] _]; [apply qn_nonneg|].
    apply in_map_iff in I. destruct I as (c & <- & I). apply FG2; auto. }
  assert (m1 : py_min (qn (length cy)) (map f cs) <= qn (length cy)) by (apply (proj2 (py_min_in _ _)); left; auto).
  auto.
Qed.
Lemma combinations_near cx cy : close 1 cx cy -> (length cy <= length cx)%nat -> asc cx -> asc cy -> (length cx + length cy <= N)%nat ->
  let e := rnd (rnd (py_min (qz (zlen cy)) (map (fun comb => add_up (zip_abs rnd comb cy)) (combinations (length cy) cx)) + qz (zlen cx)) - qz (zlen cy)) in
  0 <= e /\ within (2 * length cy + 2) e (emd cx cy).
Proof.
  intros C Len Ax Ay HN. pose proof (slow_sorted cx cy C Len Ax Ay) as HS. destruct (costs_near cx cy C HN) as (W0 & m0 & m1).
  change (qz (zlen cy)) with (qn (length cy)) in *. change (qz (zlen cx)) with (qn (length cx)) in *. cbv zeta.
  set (m' := py_min (qn (length cy)) (map (fun comb => add_up _) _)) in *. set (m := py_min (qn (length cy)) (map (fun comb => py_sum exact _) _)) in *. clearbody m m'.
  assert (NN : qn (length cx + length cy) <= qn N) by (apply qn_le; auto). rewrite qn_add in NN.
  pose proof (qn_nonneg (length cx)) as x0. assert (yx : qn (length cy) <= qn (length cx)) by (apply qn_le; auto).
  assert (S2 : small (length cx + length cy)) by (unfold small in *; lia).
  assert (G1 : qn (length cx) <= rnd (m' + qn (length cx))) by (apply rnd_ge_qn; auto; [unfold small in *; lia|clear - m0; qclra]).
  assert (G2 : rnd (m' + qn (length cx)) <= qn (length cx) + qn (length cy)).
  { rewrite <- qn_add. apply rnd_le_qn; auto. rewrite qn_add. clear - m1. qclra. }
  assert (W1 : within (1 + 2 * length cy) (rnd (m' + qn (length cx))) (m + qn (length cx))).
  { apply within_trans with (m' + qn (length cx)).
    - apply rnd_within; [clear - m0 x0; qclra|]. clear - m1 NN. qclra.
    - unfold within in *. replace (m' + qn (length cx) - (m + qn (length cx))) with (m' - m) by ring. auto. }
  set (s := rnd (m' + qn (length cx))) in *. clearbody s.
  split; [apply rnd_nonneg; auto; clear - G1 yx; qclra|].
  rewrite <- HS. replace (2 * length cy + 2)%nat with (1 + (1 + 2 * length cy))%nat by lia. apply within_trans with (s - qn (length cy)).
  - apply rnd_within; [clear - G1 yx; qclra|]. pose proof (qn_nonneg (length cy)) as y0. clear - G2 NN y0. qclra.
  - unfold within in *. replace (s - qn (length cy) - (m + qn (length cx) - qn (length cy))) with (s - (m + qn (length cx))) by ring. auto.
Qed.

(** [emd_1d_slow] *)
Lemma slow_front_near cx cy : close 1 cx cy -> (length cy <= length cx)%nat -> asc cx -> asc cy -> (length cx + length cy <= N)%nat ->
  within (2 * length cy + 1)
    (rnd (qz (zlen cx - zlen cy) + py_min (qz (zlen cy)) (map (fun comb => add_up (zip_abs rnd comb cy)) (combinations (length cy) cx)))) (emd cx cy).
Proof.
  intros C Len Ax Ay HN. pose proof (slow_sorted cx cy C Len Ax Ay) as HS. destruct (costs_near cx cy C HN) as (W0 & m0 & m1).
  unfold Z.sub. rewrite qz_add, qz_opp.
  change (qz (zlen cy)) with (qn (length cy)) in *. change (qz (zlen cx)) with (qn (length cx)) in *.
  set (m' := py_min (qn (length cy)) (map (fun comb => add_up _) _)) in *. set (m := py_min (qn (length cy)) (map (fun comb => py_sum exact _) _)) in *. clearbody m m'.
  assert (NN : qn (length cx) <= qn N) by (apply qn_le; lia). assert (yx : qn (length cy) <= qn (length cx)) by (apply qn_le; auto).
  rewrite <- HS, Nat.add_comm. apply within_trans with (qn (length cx) + - qn (length cy) + m').
  - apply rnd_within; [clear - yx m0; qclra|clear - m1 NN; qclra].
  - unfold within in *. replace (qn (length cx) + - qn (length cy) + m' - (m + qn (length cx) - qn (length cy))) with (m' - m) by ring. auto.
Qed.
Lemma slow_with_near xs ys : close 1 xs ys -> (length xs + length ys <= N)%nat ->
  within (2 * N + 1) (emd_1d_slow_with rnd add_up xs ys) (emd xs ys).
Proof.
  intros C HN. assert (K : forall px py, close 1 px py -> (length py <= length px)%nat -> (length px + length py <= N)%nat ->
    within (2 * N + 1) (rnd (qz (zlen (qsort px) - zlen (qsort py)) + py_min (qz (zlen (qsort py)))
      (map (fun comb => add_up (zip_abs rnd comb (qsort py))) (combinations (length (qsort py)) (qsort px))))) (emd px py)).
  { clear - AU R A N1 budget U0 U1 Nsmall. intros px py C Len HN. rewrite <- (emd_perm _ _ _ _ (qsort_perm px) (qsort_perm py)).
    eapply within_mono; [|apply slow_front_near]; rewrite ?qsort_length; auto using qsort_sorted; [lia|].
    eapply close_sub; [exact C| |]; intros q H; rewrite qsort_perm in H; auto. }
  unfold emd_1d_slow_with. destruct (Z.ltb_spec (zlen xs) (zlen ys)); cbv zeta; unfold zlen in H.
  - rewrite emd_sym. apply K; [apply close_sym; auto|lia|lia].
  - apply K; auto. lia.
Qed.

Lemma old_body_near L : (length L <= N)%nat -> asc (map fst L) -> close 1 (xs_of L) (ys_of L) -> body_near L (old_component_with rnd add_up L).
Proof.
  intros LN SL CL Pre G C Tl last d k q HL Hlen YG NC Q0 B I. unfold old_component_with.
  pose proof (zlen_nonneg G) as LG0. pose proof (emd_nonneg (xs_of C) (ys_of C)) as EC0.
  assert (LCN : (length C <= N)%nat) by (rewrite HL, !app_length in LN; lia).
  assert (I0 : inv (k + 1) (if (last + 1 <? last + 1 + zlen G)%Z then rnd (d + qz (last + 1 + zlen G - last - 1)) else d)
      (emd (xs_of C) (ys_of C) + q)).
  { replace (last + 1 + zlen G - last - 1)%Z with (zlen G) by lia. destruct (last + 1 <? last + 1 + zlen G)%Z eqn:F.
    - replace (k + 1)%nat with (k + 0 + 1)%nat by lia. apply inv_add with (qz (zlen G)); auto; try lia; [apply qz_nonneg; auto| |apply within_refl].
      clear - EC0 Q0. qclra.
    - assert (zlen G = 0)%Z by lia. rewrite H in I. change (qz 0) with 0 in I. rewrite Qcplus_0_l in I. eapply inv_mono; [|exact I]. lia. }
  set (d0 := if (last + 1 <? last + 1 + zlen G)%Z then _ else d) in *. clearbody d0. clear I EC0.
  rewrite !(component_slice L (Pre ++ G) C Tl) by (rewrite ?zlen_app, ?HL, ?app_assoc; auto; lia).
  assert (AC : asc (map fst C)).
  { apply (sub_sorted L SL (Pre ++ G) C Tl). rewrite HL, <- app_assoc. reflexivity. }
  assert (CC : close 1 (xs_of C) (ys_of C)).
  { intros x y Hx Hy. apply CL; rewrite HL, ?xs_of_app, ?ys_of_app, !in_app_iff; auto. }
  rewrite net_len in NC. unfold zlen in NC. pose proof (xy_length C) as XY.
  assert (AX : asc (xs_of C)) by (apply asc_filter; auto). assert (AY : asc (ys_of C)) by (apply asc_filter; auto).
  set (cy := ys_of C) in *. set (cx := xs_of C) in *. clearbody cy cx.
  destruct (greedy_small_old_near cy cx d0 (k + 1) q CC ltac:(lia) AX AY ltac:(lia) Q0 I0) as (r1 & R1 & G1).
  rewrite R1. cbn [bind]. destruct r1 as [[cy1 cx1] d1]. destruct G1 as (s1 & Ly1 & Lx1 & I1 & L1 & A1 & A1' & S1 & S1').
  assert (CC1 : close 1 (rev cx1) (rev cy1)).
  { eapply close_sub; [exact CC| |]; intros v H; rewrite <- in_rev in H; auto. }
  rewrite <- (emd_perm _ _ _ _ (Permutation_sym (Permutation_rev cx1)) (Permutation_sym (Permutation_rev cy1))) in I1.
  destruct (greedy_large_old_near (rev cy1) (rev cx1) d1 (k + 1 + 3 * s1) q CC1 ltac:(rewrite !rev_length; auto) (asc_rev _ A1') (asc_rev _ A1)
     ltac:(rewrite rev_length; lia) Q0 I1) as (r2 & R2 & G2).
  rewrite R2. cbn [bind]. destruct r2 as [[cy2 cx2] d2]. destruct G2 as (s2 & Ly2 & Lx2 & I2 & L2 & A2 & A2' & S2 & S2').
  rewrite rev_length in Ly2, Lx2.
  rewrite <- (emd_perm _ _ _ _ (Permutation_sym (Permutation_rev cx2)) (Permutation_sym (Permutation_rev cy2))) in I2.
  assert (CC2 : close 1 (rev cx2) (rev cy2)).
  { eapply close_sub; [exact CC1| |]; intros v H; rewrite <- in_rev in H; auto. }
  apply dsc_rev in A2, A2'. rewrite <- (rev_length cy2), <- (rev_length cx2) in L2. rewrite <- (rev_length cy2) in Ly2. rewrite <- (rev_length cx2) in Lx2.
  set (cy3 := rev cy2) in *. set (cx3 := rev cx2) in *. clearbody cy3 cx3. clear S2 S2'.
  destruct cy3 as [|y [|y' cy3]].
  - cbn [bind]. eexists. split; [reflexivity|]. change (qz (zlen cx3)) with (qn (length cx3)). rewrite emd_nil_r in I2.
    apply inv_mono with (k + 1 + 3 * s1 + 3 * s2 + 0 + 1)%nat; [lia|].
    apply inv_add with (qn (length cx3)); auto; [lia|apply qn_nonneg|apply within_refl].
  - cbn [length] in *.
    destruct (single_near cx3 y) as (m & M1 & M2 & M3); auto; [destruct cx3; [simpl in L2; lia|discriminate]|lia|].
    rewrite M1. cbn [bind]. eexists. split; [reflexivity|].
    eapply inv_mono; [|apply inv_add with (emd cx3 [y]); [|exact M2|exact Q0|exact M3|exact I2]]; lia.
  - cbn [bind]. eexists. split; [reflexivity|]. remember (y :: y' :: cy3) as cy4 eqn:E4.
    assert (L4 : (2 <= length cy4)%nat) by (rewrite E4; simpl; lia). clear E4.
    destruct (combinations_near cx3 cy4) as [M1 M2]; auto; [lia|].
    eapply inv_mono; [|apply inv_add with (emd cx3 cy4); [|exact M1|exact Q0|exact M2|exact I2]]; lia.
Qed.
End AddUp.

(** ** The loop over the components *)
Section Loop.
Variable L : list point.
Variable body : Z * Qc -> Z * Z -> result (Z * Qc).
Hypothesis L_sorted : asc (map fst L).
Hypothesis L_close : close two (xs_of L) (ys_of L).
Hypothesis L_net : (net L <= 0)%Z.
Hypothesis body_ok : body_near L body.

Lemma loop_near cs : forall done last d k Pre Rem,
  components L = done ++ cs -> (forall lo hi, In (lo, hi) done -> (hi <= last)%Z) -> chain (zlen L) last cs ->
  L = Pre ++ Rem -> zlen Pre = (last + 1)%Z -> (k + 5 * length Rem <= 6 * N)%nat -> inv k d (emd (xs_of Rem) (ys_of Rem)) ->
  exists last' d' k' Pre' Rem', foldM body cs (last, d) = Ok (last', d') /\
    L = Pre' ++ Rem' /\ zlen Pre' = (last' + 1)%Z /\ ys_of Rem' = [] /\
    (k' + 5 * length Rem' <= k + 5 * length Rem)%nat /\ inv k' d' (qz (zlen Rem')).
Proof.
  induction cs as [|[lo hi] cs IH]; intros done last d k Pre Rem HC Hd Hch HL Hlen B I.
  - exists last, d, k, Pre, Rem. split; [reflexivity|]. split; [auto|]. split; [auto|].
    assert (Y : ys_of Rem = []).
    { destruct (ys_of Rem) as [|y ys] eqn:F; auto. exfalso.
      assert (I' : In y (ys_of Rem)) by (rewrite F; left; auto). unfold ys_of in I'. apply in_map_iff in I'.
      destruct I' as ([q b] & Eq & I'). apply filter_In in I'. cbn [fst snd] in *. destruct I' as [I' ->]. subst q.
      apply in_split in I'. destruct I' as (R1 & R2 & ER).
      destruct (component_y L (Pre ++ R1) y R2) as (lo & hi & I' & B').
      { rewrite HL, ER, app_assoc. reflexivity. }
      rewrite HC, app_nil_r in I'. apply Hd in I'. rewrite zlen_app in B'. pose proof (zlen_nonneg R1). lia. }
    split; auto. split; auto. rewrite Y, emd_nil_r in I. rewrite <- (no_y_length _ Y). exact I.
  - destruct (loop_split L L_net lo hi cs done last Pre Rem HC Hd Hch HL Hlen) as (G & C & Tl & -> & LG & LC & YG & NR & NCT & NC & cutlo & cuthi).
    destruct Hch as [Hlh Hch].
    assert (SP1 : emd (xs_of (G ++ C ++ Tl)) (ys_of (G ++ C ++ Tl)) = qz (zlen G) + emd (xs_of (C ++ Tl)) (ys_of (C ++ Tl))).
    { assert (EG : emd (xs_of G) (ys_of G) = qz (zlen G)).
      { rewrite YG, emd_nil_r, <- (no_y_length _ YG). reflexivity. }
      rewrite <- EG. destruct cutlo as [->|[H|H]].
      - cbn [app]. change (xs_of []) with (@nil Qc). change (ys_of []) with (@nil Qc). rewrite emd_nil. ring.
      - rewrite H, app_nil_r. change (xs_of []) with (@nil Qc). change (ys_of []) with (@nil Qc). rewrite emd_nil. ring.
      - apply emd_cut_sorted; auto.
        + apply (sub_sorted L L_sorted Pre _ []). rewrite app_nil_r. auto.
        + apply (sub_close L L_close Pre _ []). rewrite app_nil_r. auto.
        + apply ys_nil_suffix_ok; auto. }
    assert (SP2 : emd (xs_of (C ++ Tl)) (ys_of (C ++ Tl)) = emd (xs_of C) (ys_of C) + emd (xs_of Tl) (ys_of Tl)).
    { destruct cuthi as [->|[->|[H H']]].
      - cbn [app]. change (xs_of []) with (@nil Qc). change (ys_of []) with (@nil Qc). rewrite emd_nil. ring.
      - rewrite app_nil_r. change (xs_of []) with (@nil Qc). change (ys_of []) with (@nil Qc). rewrite emd_nil. ring.
      - apply emd_cut_sorted; auto.
        + apply (sub_sorted L L_sorted (Pre ++ G) _ []). rewrite app_nil_r, HL, !app_assoc. auto.
        + apply (sub_close L L_close (Pre ++ G) _ []). rewrite app_nil_r, HL, !app_assoc. auto. }
    rewrite SP1, SP2 in I. rewrite !app_length in B. assert (C1 : (1 <= length C)%nat) by (unfold zlen in LC; lia).
    destruct (body_ok Pre G C Tl last d k _ HL Hlen YG NC (emd_nonneg _ _) ltac:(lia) I) as (d1 & B1 & I1).
    replace (last + 1 + zlen G)%Z with lo in B1 by lia. replace (last + zlen G + zlen C)%Z with hi in B1 by lia.
    cbn [foldM]. rewrite B1. cbn [bind].
    destruct (IH (done ++ [(lo, hi)]) hi d1 (k + 3 * length C + 2)%nat (Pre ++ G ++ C) Tl) as (last' & d' & k' & Pre' & Rem' & R1 & R2 & R3 & R4 & R5 & R6); auto.
    + rewrite HC, <- app_assoc. reflexivity.
    + intros a b I'. apply in_app_iff in I'. destruct I' as [I'|[I'|[]]]; [apply Hd in I'; lia|inversion I'; subst; lia].
    + rewrite HL, <- !app_assoc. reflexivity.
    + rewrite !zlen_app. lia.
    + lia.
    + exists last', d', k', Pre', Rem'. rewrite !app_length. repeat split; auto; try lia; apply R6.
Qed.

Lemma loop_near_total : (length L <= N)%nat -> inv 0 0 (emd (xs_of L) (ys_of L)) ->
  exists last d k Pre Rem, foldM body (components L) ((-1)%Z, 0) = Ok (last, d) /\
    L = Pre ++ Rem /\ zlen Pre = (last + 1)%Z /\ ys_of Rem = [] /\ (k < 6 * N)%nat /\ inv k d (qz (zlen Rem)).
Proof.
  intros LN I. destruct (loop_near (components L) [] (-1) 0 0 [] L) as (last & d & k & Pre & Rem & R1 & R2 & R3 & R4 & R5 & R6); auto.
  - intros ? ? [].
  - apply components_spec.
  - lia.
  - exists last, d, k, Pre, Rem. repeat split; auto; try lia; apply R6.
Qed.
End Loop.
End Acc.

(** ** The functions *)
Definition front_with (rnd : Qc -> Qc) (add_up : list Qc -> Qc) (rest : list Qc -> list Qc -> result Qc) (px py : list Qc) : result Qc :=
  match py with
  | [] => Ok (qz (zlen px))
  | [y] => single_y rnd px y
  | _ =>
      let px := rev (qsort px) in
      let py := rev (qsort py) in
      if (zlen px =? zlen py)%Z then Ok (add_up (zip_abs rnd px py))
      else let '(xs, ys) := drop_common (rev px) (rev py) in rest xs ys
  end.
Definition ordered_with (rnd : Qc -> Qc) (add_up : list Qc -> Qc) (rest : list Qc -> list Qc -> result Qc) (px py : list Qc) : result Qc :=
  if Z.ltb (zlen px) (zlen py) then front_with rnd add_up rest py px else front_with rnd add_up rest px py.
Lemma hybrid_with_ordered rnd add_up xs ys : emd_1d_hybrid_with rnd add_up xs ys = ordered_with rnd add_up (hybrid_rest rnd) xs ys.
Proof. unfold emd_1d_hybrid_with, ordered_with. destruct (Z.ltb _ _); reflexivity. Qed.
Lemma old_with_ordered rnd add_up xs ys : emd_1d_old_with rnd add_up xs ys = ordered_with rnd add_up (old_rest_with rnd add_up) xs ys.
Proof. unfold emd_1d_old_with, ordered_with. destruct (Z.ltb _ _); reflexivity. Qed.

Section Total.
Variable u : Qc.
Hypothesis U0 : 0 <= u.
Hypothesis U1 : u <= 1.
Variable rnd : Qc -> Qc.
Hypothesis R : lawful rnd.
Hypothesis A : accurate u rnd.
Variable N : nat.
Hypothesis N1 : (1 <= N)%nat.
Hypothesis budget : qn (6 * N) * (u * qn (N + 1)) <= 1.
Hypothesis Nsmall : small N.

Definition good (r : result Qc) (e : Qc) : Prop := exists d, r = Ok d /\ within u N (6 * N) d e.

Lemma single_good xs y : close 1 xs [y] -> xs <> [] -> (S (length xs) <= N)%nat -> good (single_y rnd xs y) (emd xs [y]).
Proof.
  intros C NE LN. destruct (single_near u U0 U1 rnd R A N N1 budget Nsmall xs y C NE LN) as (m & M1 & _ & M3).
  unfold single_y. rewrite M1. cbn [bind]. eexists. split; [reflexivity|]. eapply within_mono; [auto| |exact M3]. lia.
Qed.

Definition rest_body (rest : list Qc -> list Qc -> result Qc) : Prop :=
  forall xs ys, (length ys <= length xs)%nat -> (length xs + length ys <= N)%nat -> close 1 xs ys -> good (rest xs ys) (emd xs ys).

Lemma hybrid_rest_near : rest_body (hybrid_rest rnd).
Proof.
  intros xs ys Len HN C. unfold hybrid_rest. destruct ys as [|y [|y' ys']] eqn:F.
  - exists (qz (zlen xs)). split; auto. rewrite emd_nil_r. apply within_refl; auto.
  - cbn [length] in *. apply single_good; auto; [|lia]. intros ->. simpl in Len. lia.
  - rewrite <- F in *. clear F y y' ys'. set (L := merge_points xs ys).
    assert (SL : asc (map fst L)) by apply merge_points_sorted.
    assert (CL := merged_close xs ys 1 C). fold L in CL.
    assert (LN : (length L <= N)%nat).
    { unfold L, merge_points. rewrite isort_length, app_length, !map_length. auto. }
    assert (EE : emd xs ys = emd (xs_of L) (ys_of L)).
    { apply emd_perm; symmetry; [apply merge_points_xs|apply merge_points_ys]. }
    assert (TN : emd (xs_of L) (ys_of L) <= qn N).
    { rewrite <- EE. eapply Qcle_trans; [apply emd_upper|]. apply qn_le; auto. }
    pose proof (hybrid_body_near u U0 U1 rnd R A N N1 budget _ TN L LN SL CL) as HB.
    destruct (loop_near_total u N N1 _ L (hybrid_component rnd L) SL (close_1_2 _ _ CL) (merged_net xs ys Len) HB LN)
      as (last & d & k & Pre & Rem & R1 & R2 & R3 & R4 & R5 & R6).
    { split; [apply Qcle_refl|]. split; [apply emd_nonneg|]. rewrite Qcplus_0_l. apply within_refl; auto. }
    rewrite R1. cbn [bind]. eexists. split; [reflexivity|]. rewrite EE. assert (LL : zlen L = (last + 1 + zlen Rem)%Z) by (rewrite R2, zlen_app; lia).
    destruct (last + 1 <? zlen L)%Z eqn:F.
    + rewrite (count_x_slice L Pre Rem []); [|rewrite app_nil_r; auto|auto|lia]. rewrite no_y_length by auto.
      assert (I : inv u N (emd (xs_of L) (ys_of L)) (k + 0 + 1) (rnd (d + qz (zlen Rem))) 0).
      { eapply inv_add; eauto; [lia|apply qz_nonneg, zlen_nonneg|apply Qcle_refl|apply within_refl; auto|]. rewrite Qcplus_0_r. auto. }
      destruct I as (_ & _ & I). rewrite Qcplus_0_r in I. eapply within_mono; [auto| |exact I]. lia.
    + pose proof (zlen_nonneg Rem). assert (Z : (zlen Rem = 0)%Z) by lia. rewrite Z in R6. destruct R6 as (_ & _ & I). change (qz 0) with 0 in I. rewrite Qcplus_0_r in I.
      eapply within_mono; [auto| |exact I]. lia.
Qed.

Lemma old_rest_with_near add_up : adds_up u rnd N add_up -> rest_body (old_rest_with rnd add_up).
Proof.
  intros AU xs ys Len HN C. unfold old_rest_with. destruct ys as [|y [|y' ys']] eqn:F.
  - exists (qz (zlen xs)). split; auto. rewrite emd_nil_r. apply within_refl; auto.
  - cbn [length] in *. apply single_good; auto; [|lia]. intros ->. simpl in Len. lia.
  - rewrite <- F in *. clear F y y' ys'. set (L := merge_points xs ys).
    assert (SL : asc (map fst L)) by apply merge_points_sorted.
    assert (CL := merged_close xs ys 1 C). fold L in CL.
    assert (LN : (length L <= N)%nat).
    { unfold L, merge_points. rewrite isort_length, app_length, !map_length. auto. }
    assert (EE : emd xs ys = emd (xs_of L) (ys_of L)).
    { apply emd_perm; symmetry; [apply merge_points_xs|apply merge_points_ys]. }
    assert (TN : emd (xs_of L) (ys_of L) <= qn N).
    { rewrite <- EE. eapply Qcle_trans; [apply emd_upper|]. apply qn_le; auto. }
    pose proof (old_body_near u U0 U1 rnd R A N N1 budget Nsmall _ TN add_up AU L LN SL CL) as HB.
    destruct (loop_near_total u N N1 _ L (old_component_with rnd add_up L) SL (close_1_2 _ _ CL) (merged_net xs ys Len) HB LN)
      as (last & d & k & Pre & Rem & R1 & R2 & R3 & R4 & R5 & R6).
    { split; [apply Qcle_refl|]. split; [apply emd_nonneg|]. rewrite Qcplus_0_l. apply within_refl; auto. }
    rewrite R1. cbn [bind]. eexists. split; [reflexivity|]. rewrite EE. assert (LL : zlen L = (last + 1 + zlen Rem)%Z) by (rewrite R2, zlen_app; lia).
    replace (zlen L - last - 1)%Z with (zlen Rem) by lia.
    destruct (last + 1 <? zlen L)%Z eqn:F.
    + assert (I : inv u N (emd (xs_of L) (ys_of L)) (k + 0 + 1) (rnd (d + qz (zlen Rem))) 0).
      { eapply inv_add; eauto; [lia|apply qz_nonneg, zlen_nonneg|apply Qcle_refl|apply within_refl; auto|]. rewrite Qcplus_0_r. auto. }
      destruct I as (_ & _ & I). rewrite Qcplus_0_r in I. eapply within_mono; [auto| |exact I]. lia.
    + pose proof (zlen_nonneg Rem). assert (Z : (zlen Rem = 0)%Z) by lia. rewrite Z in R6. destruct R6 as (_ & _ & I). change (qz 0) with 0 in I. rewrite Qcplus_0_r in I.
      eapply within_mono; [auto| |exact I]. lia.
Qed.

Lemma front_with_near add_up rest : adds_up u rnd N add_up -> rest_body rest -> forall px py, (length py <= length px)%nat -> (length px + length py <= N)%nat -> close 1 px py ->
  good (front_with rnd add_up rest px py) (emd px py).
Proof.
  intros AU HR px py Len HN C. unfold front_with. destruct py as [|y [|y' py']] eqn:F.
  - exists (qz (zlen px)). split; auto. rewrite emd_nil_r. apply within_refl; auto.
  - cbn [length] in *. apply single_good; auto; [|lia]. intros ->. simpl in Len. lia.
  - rewrite <- F in *. clear F y y' py'. cbv zeta. unfold zlen at 1 2. rewrite !rev_length, !qsort_length.
    destruct (Z.of_nat (length px) =? Z.of_nat (length py))%Z eqn:F.
    + eexists. split; [reflexivity|]. rewrite <- (zip_desc_exact px py); [|lia|apply close_1_2; auto].
      assert (Cs : close 1 (rev (qsort px)) (rev (qsort py))).
      { eapply close_sub; [exact C| |]; intros q H; rewrite <- in_rev, qsort_perm in H; auto. }
      assert (Ln : (length (rev (qsort px)) <= N)%nat) by (rewrite rev_length, qsort_length; lia).
      destruct (AU _ _ Cs Ln) as [_ W].
      eapply within_mono; [auto| |exact W]. lia.
    + rewrite !rev_involutive.
      destruct (drop_common_spec _ (qsort px) (qsort py) (le_n _) (qsort_sorted px) (qsort_sorted py)) as (a & b & c & ED & P1 & P2 & Aa & Ab & _).
      rewrite ED. assert (EE : emd px py = emd a b).
      { rewrite <- (emd_common_list c a b). symmetry. apply emd_perm; rewrite <- ?P1, <- ?P2; apply qsort_perm. }
      pose proof (Permutation_length P1) as Q1. pose proof (Permutation_length P2) as Q2. rewrite qsort_length, app_length in Q1, Q2.
      rewrite EE. apply HR; [lia|lia|].
      eapply close_sub; [exact C| |]; intros q H.
      * rewrite <- (qsort_perm px), P1, in_app_iff. auto.
      * rewrite <- (qsort_perm py), P2, in_app_iff. auto.
Qed.

Lemma ordered_with_near add_up rest : adds_up u rnd N add_up -> rest_body rest -> forall px py, (length px + length py <= N)%nat -> close 1 px py ->
  good (ordered_with rnd add_up rest px py) (emd px py).
Proof.
  intros AU HR px py HN C. unfold ordered_with. destruct (Z.ltb _ _) eqn:F; unfold zlen in F.
  - rewrite emd_sym. apply front_with_near; auto; [lia|lia|apply close_sym; auto].
  - apply front_with_near; auto. lia.
Qed.

Lemma old_rest_near : rest_body (old_rest rnd).
Proof. change (old_rest rnd) with (old_rest_with rnd (py_sum rnd)). apply old_rest_with_near, py_sum_adds_up; auto. Qed.
Lemma ordered_near rest : rest_body rest -> forall px py, (length px + length py <= N)%nat -> close 1 px py ->
  good (ordered rnd rest px py) (emd px py).
Proof. intros H. change (ordered rnd rest) with (ordered_with rnd (py_sum rnd) rest). apply ordered_with_near; auto. apply py_sum_adds_up; auto. Qed.
End Total.

(** Absolute error of both functions: [6 n (n + 1) u] for [n] points. *)
Section Final.
Variable u : Qc.
Hypothesis U0 : 0 <= u.
Hypothesis U1 : u <= 1.
Variable rnd : Qc -> Qc.
Hypothesis R : lawful rnd.
Hypothesis A : accurate u rnd.

Lemma ordered_final rest xs ys d e :
  (forall N, (1 <= N)%nat -> qn (6 * N) * (u * qn (N + 1)) <= 1 -> small N -> rest_body u N rest) ->
  (length xs + length ys <> 0)%nat ->
  close 1 xs ys -> small (length xs + length ys) ->
  qn (6 * (length xs + length ys)) * (u * qn (length xs + length ys + 1)) <= 1 ->
  ordered rnd rest xs ys = Ok d -> is_emd xs ys e ->
  qabs (d - e) <= qn (6 * (length xs + length ys)) * (u * qn (length xs + length ys + 1)).
Proof.
  intros HR NZ C S B H He. rewrite <- (emd_unique xs ys e He). set (N := (length xs + length ys)%nat) in *.
  assert (N1 : (1 <= N)%nat) by lia.
  destruct (ordered_near u U0 U1 rnd R A N N1 B S rest (HR N N1 B S) xs ys (le_n _) C) as (d' & H' & W).
  rewrite H in H'. injection H' as <-. exact W.
Qed.
End Final.
