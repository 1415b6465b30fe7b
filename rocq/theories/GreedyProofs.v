(** The simplification steps of [emd_1d_hybrid] and [emd_1d_old] preserve the
    earth mover's distance. *)
From Coq Require Import ZArith QArith Qcanon List Permutation Sorted Lia Bool.
From Verif Require Import Num Py EmdSpec EmdModel EmdProofs EmdSlowProofs HybridModel FlowProofs.
Import ListNotations.
Open Scope Qc_scope.

Notation two := (Q2Qc 2).

Lemma close_sub r xs ys xs' ys' :
  close r xs ys -> (forall x, In x xs' -> In x xs) -> (forall y, In y ys' -> In y ys) -> close r xs' ys'.
Proof. intros C Hx Hy x y Ix Iy. apply C; auto. Qed.

Lemma combine_fst {A B} (c : list A) (l : list B) : length c = length l -> map fst (combine c l) = c.
Proof. revert l; induction c; intros [|b l] H; simpl in *; try lia; auto. f_equal. apply IHc. lia. Qed.
Lemma combine_snd {A B} (c : list A) (l : list B) : length c = length l -> map snd (combine c l) = l.
Proof. revert l; induction c; intros [|b l] H; simpl in *; try lia; auto. f_equal. apply IHc. lia. Qed.

Lemma sub_emd c r xs ys : Permutation xs (c ++ r) -> length c = length ys ->
  emd xs ys <= move_cost (combine c ys) + qn (length r).
Proof.
  intros P L. apply emd_le. exists (combine c ys), r, []. split.
  - split; [rewrite combine_fst by auto; auto|]. rewrite combine_snd by auto. rewrite app_nil_r. auto.
  - cbn [length]. change (qn 0) with 0. ring.
Qed.

(** The best matching as a combination, for sorted lists. *)
Lemma emd_combination xs ys : close two xs ys -> (length ys <= length xs)%nat -> asc xs -> asc ys ->
  exists c, In c (combinations (length ys) xs) /\
    move_cost (combine c ys) + qn (length xs) - qn (length ys) <= emd xs ys.
Proof.
  intros C L Ax Ay. destruct (emd_full xs ys C L) as (p & rx & M & E).
  destruct (full_matching_combination xs ys p rx Ax Ay M) as (c & Hc & Lc).
  exists c. split; auto. apply matching_length in M. destruct M as [L1 L2]. cbn [length] in L2.
  rewrite L1, L2, Nat.add_0_r, qn_add, E. clear - Lc. qclra.
Qed.

(** ** Matching the first points *)
Lemma head_match x xs y ys :
  close two (x :: xs) (y :: ys) -> (length ys <= length xs)%nat -> asc (x :: xs) -> asc (y :: ys) ->
  (y <= x \/ exists x1 xs', xs = x1 :: xs' /\ y < x1 /\ y - x <= x1 - y) ->
  emd (x :: xs) (y :: ys) = qabs (x - y) + emd xs ys.
Proof.
  intros C L Ax Ay H.
  pose proof (emd_cons_pair x y xs ys) as U.
  destruct (emd_combination _ _ C ltac:(simpl; lia) Ax Ay) as (c & Hc & Lc).
  cbn [length combinations] in Hc. apply in_app_iff in Hc. destruct Hc as [Hc|Hc].
  - apply in_map_iff in Hc. destruct Hc as (c' & <- & Hc).
    assert (Len := combinations_length _ _ _ Hc).
    destruct (combinations_sub _ _ _ Hc) as [r P].
    pose proof (sub_emd c' r xs ys P Len) as HS.
    assert (Lx : length xs = (length ys + length r)%nat).
    { apply Permutation_length in P. rewrite P, app_length, Len. reflexivity. }
    cbn [combine length] in Lc. rewrite move_cost_cons in Lc. cbn [fst snd] in Lc.
    rewrite !qn_S, Lx, qn_add in Lc. clear - U Lc HS. qclra.
  - assert (Len := combinations_length _ _ _ Hc).
    destruct (combinations_sub _ _ _ Hc) as [r P].
    destruct c as [|c0 c']; [discriminate|]. simpl in Len. injection Len as Len.
    assert (P' : Permutation xs (c' ++ c0 :: r)).
    { rewrite P. simpl. apply Permutation_middle. }
    pose proof (sub_emd c' (c0 :: r) xs ys P' Len) as HS.
    assert (Lx : length xs = (length ys + S (length r))%nat).
    { apply Permutation_length in P'. rewrite P', app_length, Len. reflexivity. }
    cbn [combine length] in Lc. rewrite move_cost_cons in Lc. cbn [fst snd] in Lc.
    rewrite !qn_S, Lx, qn_add, qn_S in Lc. cbn [length] in HS. rewrite qn_S in HS.
    assert (Ic : In c0 xs) by (rewrite P; left; auto).
    apply StronglySorted_inv in Ax. destruct Ax as [Ax Fx]. rewrite Forall_forall in Fx.
    assert (D : qabs (x - y) <= qabs (c0 - y)).
    { assert (x <= c0) by auto. destruct H as [H|(x1 & xs' & -> & H1 & H2)].
      - clear - H H0. qclra.
      - assert (x1 <= c0).
        { destruct Ic as [->|Ic]; [apply Qcle_refl|].
          apply StronglySorted_inv in Ax. destruct Ax as [_ F]. rewrite Forall_forall in F. auto. }
        clear - H0 H1 H2 H. qclra. }
    clear - U Lc HS D. qclra.
Qed.

(** ** Reflection *)
Lemma move_cost_opp p : move_cost (map (fun q => (- fst q, - snd q)) p) = move_cost p.
Proof.
  induction p as [|[a b] p IH]; [reflexivity|]. cbn [map]. rewrite !move_cost_cons, IH. cbn [fst snd].
  f_equal. clear. qclra.
Qed.
Lemma matching_cost_opp xs ys c : matching_cost xs ys c -> matching_cost (map Qcopp xs) (map Qcopp ys) c.
Proof.
  intros (p & rx & ry & [M1 M2] & E).
  exists (map (fun q => (- fst q, - snd q)) p), (map Qcopp rx), (map Qcopp ry). split.
  - split.
    + rewrite M1, map_app, !map_map. reflexivity.
    + rewrite M2, map_app, !map_map. reflexivity.
  - rewrite move_cost_opp, !map_length. exact E.
Qed.
Lemma map_opp_opp l : map Qcopp (map Qcopp l) = l.
Proof. rewrite map_map. rewrite <- (map_id l) at 2. apply map_ext. intros. ring. Qed.
Lemma emd_opp xs ys : emd (map Qcopp xs) (map Qcopp ys) = emd xs ys.
Proof.
  apply emd_unique. split.
  - apply matching_cost_opp, emd_is_emd.
  - intros c H. apply emd_le. apply matching_cost_opp in H. rewrite !map_opp_opp in H. exact H.
Qed.
Lemma close_opp r xs ys : close r xs ys -> close r (map Qcopp xs) (map Qcopp ys).
Proof.
  intros C x y Hx Hy. apply in_map_iff in Hx, Hy. destruct Hx as (a & <- & Ha), Hy as (b & <- & Hb).
  specialize (C a b Ha Hb). clear - C. qclra.
Qed.
Notation dsc := (StronglySorted (fun a b : Qc => b <= a)).
Lemma dsc_opp l : dsc l -> asc (map Qcopp l).
Proof.
  induction 1; simpl; constructor; auto. apply Forall_map. eapply Forall_impl; [|eassumption].
  intros b Hb. clear - Hb. qclra.
Qed.

Lemma head_match_dsc x xs y ys :
  close two (x :: xs) (y :: ys) -> (length ys <= length xs)%nat -> dsc (x :: xs) -> dsc (y :: ys) ->
  (x <= y \/ exists x1 xs', xs = x1 :: xs' /\ x1 < y /\ x - y <= y - x1) ->
  emd (x :: xs) (y :: ys) = qabs (x - y) + emd xs ys.
Proof.
  intros C L Dx Dy H. rewrite <- (emd_opp (x :: xs)), <- (emd_opp xs). cbn [map].
  rewrite head_match.
  - f_equal. clear. qclra.
  - apply (close_opp _ _ _ C).
  - rewrite !map_length. auto.
  - apply (dsc_opp _ Dx).
  - apply (dsc_opp _ Dy).
  - destruct H as [H|(x1 & xs' & -> & H1 & H2)]; [left; clear - H; qclra|right].
    exists (- x1), (map Qcopp xs'). repeat split; [clear - H1; qclra|clear - H2; qclra].
Qed.

(** ** The greedy loops *)

(** What a greedy loop achieves. *)
Definition greedy_ok (P : list Qc -> Prop) cy cx d (r : list Qc * list Qc * Qc) : Prop :=
  let '(cy', cx', d') := r in
  d' + emd cx' cy' = d + emd cx cy /\ (length cy' <= length cx')%nat /\ P cy' /\ P cx' /\
  (forall x, In x cx' -> In x cx) /\ (forall y, In y cy' -> In y cy).

Lemma greedy_ok_refl (P : list Qc -> Prop) cy cx d : (length cy <= length cx)%nat -> P cy -> P cx -> greedy_ok P cy cx d (cy, cx, d).
Proof. intros. repeat split; auto. Qed.

Lemma greedy_ok_step (P : list Qc -> Prop) cy cx y x d d' r :
  emd (x :: cx) (y :: cy) = qabs (x - y) + emd cx cy -> d' = d + qabs (x - y) ->
  greedy_ok P cy cx d' r -> greedy_ok P (y :: cy) (x :: cx) d r.
Proof.
  intros E -> G. destruct r as [[cy' cx'] d'']. destruct G as (G1 & G2 & G3 & G4 & G5 & G6).
  repeat split; auto.
  - rewrite E, G1. ring.
  - intros; right; auto.
  - intros; right; auto.
Qed.

Lemma greedy_small_ok cy : forall cx d,
  close two cx cy -> (length cy <= length cx)%nat -> asc cx -> asc cy ->
  greedy_ok asc cy cx d (greedy_small exact cy cx d).
Proof.
  induction cy as [|y cy IH]; intros cx d C L Ax Ay; [apply greedy_ok_refl; auto|].
  destruct cx as [|x cx]; [simpl in L; lia|].
  assert (L' : (length cy <= length cx)%nat) by (simpl in L; lia).
  assert (C' : close two cx cy) by (eapply close_sub; [exact C|intros; right; auto..]).
  assert (Ax' : asc cx) by (inversion Ax; auto). assert (Ay' : asc cy) by (inversion Ay; auto).
  cbn [greedy_small]. destruct (qleb y x) eqn:E.
  - apply (greedy_ok_step asc cy cx y x d (d + qabs (x - y))); [|reflexivity|unfold exact; apply IH; auto].
    apply head_match; auto. left. clear - E. qclra.
  - destruct cx as [|x1 cx]; [apply greedy_ok_refl; auto|].
    destruct (qltb y x1 && qleb (exact (y - x)) (exact (x1 - y))) eqn:E2; [|apply greedy_ok_refl; auto].
    apply andb_true_iff in E2. unfold exact in E2 at 1 2. destruct E2 as [E2 E3].
    apply (greedy_ok_step asc cy (x1 :: cx) y x d (d + qabs (y - x))).
    + apply head_match; auto. right. exists x1, cx. repeat split; auto; [clear - E2; qclra|clear - E3; qclra].
    + clear. qclra.
    + apply IH; auto.
Qed.

Lemma greedy_large_ok cy : forall cx d,
  close two cx cy -> (length cy <= length cx)%nat -> dsc cx -> dsc cy ->
  greedy_ok dsc cy cx d (greedy_large exact cy cx d).
Proof.
  induction cy as [|y cy IH]; intros cx d C L Ax Ay; [apply greedy_ok_refl; auto|].
  destruct cx as [|x cx]; [simpl in L; lia|].
  assert (L' : (length cy <= length cx)%nat) by (simpl in L; lia).
  assert (C' : close two cx cy) by (eapply close_sub; [exact C|intros; right; auto..]).
  assert (Ax' : dsc cx) by (inversion Ax; auto). assert (Ay' : dsc cy) by (inversion Ay; auto).
  cbn [greedy_large]. destruct (qleb x y) eqn:E.
  - apply (greedy_ok_step dsc cy cx y x d (d + qabs (y - x))); [|clear; qclra|unfold exact; apply IH; auto].
    apply head_match_dsc; auto. left. clear - E. qclra.
  - destruct cx as [|x1 cx]; [apply greedy_ok_refl; auto|].
    destruct (qltb x1 y && qleb (exact (x - y)) (exact (y - x1))) eqn:E2; [|apply greedy_ok_refl; auto].
    apply andb_true_iff in E2. unfold exact in E2 at 1 2. destruct E2 as [E2 E3].
    apply (greedy_ok_step dsc cy (x1 :: cx) y x d (d + qabs (y - x))).
    + apply head_match_dsc; auto. right. exists x1, cx. repeat split; auto; [clear - E2; qclra|clear - E3; qclra].
    + clear. qclra.
    + apply IH; auto.
Qed.

Lemma greedy_small_old_ok cy : forall cx d,
  close two cx cy -> (length cy <= length cx)%nat -> asc cx -> asc cy ->
  exists r, greedy_small_old exact cy cx d = Ok r /\ greedy_ok asc cy cx d r.
Proof.
  induction cy as [|y cy IH]; intros cx d C L Ax Ay; [eexists; split; [reflexivity|apply greedy_ok_refl; auto]|].
  destruct cx as [|x cx]; [simpl in L; lia|].
  assert (L' : (length cy <= length cx)%nat) by (simpl in L; lia).
  assert (C' : close two cx cy) by (eapply close_sub; [exact C|intros; right; auto..]).
  assert (Ax' : asc cx) by (inversion Ax; auto). assert (Ay' : asc cy) by (inversion Ay; auto).
  cbn [greedy_small_old]. destruct (qleb y x) eqn:E.
  - destruct (IH cx (d + (x - y)) C' L' Ax' Ay') as (r & Er & G). exists r. split; auto.
    apply (greedy_ok_step asc cy cx y x d (d + (x - y))); [|clear - E; qclra|auto].
    apply head_match; auto. left. clear - E. qclra.
  - destruct cx as [|x1 cx]; [eexists; split; [reflexivity|apply greedy_ok_refl; auto]|].
    destruct (qltb y x1 && qleb (exact (y - x)) (exact (x1 - y))) eqn:E2; [|eexists; split; [reflexivity|apply greedy_ok_refl; auto]].
    apply andb_true_iff in E2. unfold exact in E2 at 1 2. destruct E2 as [E2 E3].
    destruct (IH (x1 :: cx) (d + (y - x)) C' L' Ax' Ay') as (r & Er & G). exists r. split; auto.
    apply (greedy_ok_step asc cy (x1 :: cx) y x d (d + (y - x))); [| |auto].
    + apply head_match; auto. right. exists x1, cx. repeat split; auto; [clear - E2; qclra|clear - E3; qclra].
    + clear - E. qclra.
Qed.

Lemma greedy_large_old_ok cy : forall cx d,
  close two cx cy -> (length cy <= length cx)%nat -> dsc cx -> dsc cy ->
  exists r, greedy_large_old exact cy cx d = Ok r /\ greedy_ok dsc cy cx d r.
Proof.
  induction cy as [|y cy IH]; intros cx d C L Ax Ay; [eexists; split; [reflexivity|apply greedy_ok_refl; auto]|].
  destruct cx as [|x cx]; [simpl in L; lia|].
  assert (L' : (length cy <= length cx)%nat) by (simpl in L; lia).
  assert (C' : close two cx cy) by (eapply close_sub; [exact C|intros; right; auto..]).
  assert (Ax' : dsc cx) by (inversion Ax; auto). assert (Ay' : dsc cy) by (inversion Ay; auto).
  cbn [greedy_large_old]. destruct (qleb x y) eqn:E.
  - destruct (IH cx (d + (y - x)) C' L' Ax' Ay') as (r & Er & G). exists r. split; auto.
    apply (greedy_ok_step dsc cy cx y x d (d + (y - x))); [|clear - E; qclra|auto].
    apply head_match_dsc; auto. left. clear - E. qclra.
  - destruct cx as [|x1 cx]; [eexists; split; [reflexivity|apply greedy_ok_refl; auto]|].
    destruct (qltb x1 y && qleb (exact (x - y)) (exact (y - x))) eqn:E2; [|eexists; split; [reflexivity|apply greedy_ok_refl; auto]].
    exfalso. apply andb_true_iff in E2. unfold exact in E2. destruct E2 as [E2 E3]. clear - E E3. qclra.
Qed.

(** ** Special cases *)
Lemma py_min_in a l : In (py_min a l) (a :: l) /\ forall c, In c (a :: l) -> py_min a l <= c.
Proof.
  destruct (py_min_spec l a) as (H1 & H2 & H3). split.
  - destruct H1 as [->|H1]; [left|right]; auto.
  - intros c [<-|Hc]; auto.
Qed.

Lemma emd_single xs y : close two xs [y] -> xs <> [] ->
  exists m, min_of (map (fun x => qabs (exact (x - y))) xs) = Ok m /\ emd xs [y] = m + qn (length xs) - 1.
Proof.
  intros C N. destruct xs as [|x0 xs0]; [contradiction|]. set (xs := x0 :: xs0) in *.
  pose (m := py_min (qabs (exact (x0 - y))) (map (fun x => qabs (exact (x - y))) xs0)).
  exists m. split; [reflexivity|].
  destruct (py_min_in (qabs (exact (x0 - y))) (map (fun x => qabs (exact (x - y))) xs0)) as [I M]. fold m in I, M.
  change (In m (map (fun x => qabs (x - y)) xs)) in I.
  change (forall c, In c (map (fun x => qabs (x - y)) xs) -> m <= c) in M.
  apply in_map_iff in I. destruct I as (x & Em & Ix).
  apply in_split in Ix. destruct Ix as (l1 & l2 & Exs).
  assert (P : Permutation xs (x :: l1 ++ l2)) by (rewrite Exs; symmetry; apply Permutation_middle).
  assert (U : emd xs [y] <= m + qn (length xs) - 1).
  { pose proof (sub_emd [x] (l1 ++ l2) xs [y] P eq_refl) as HS. cbn [combine] in HS. rewrite move_cost_cons in HS.
    change (move_cost []) with 0 in HS. cbn [fst snd] in HS.
    assert (L : length xs = S (length (l1 ++ l2))) by (apply Permutation_length in P; exact P).
    rewrite L, qn_S, <- Em. clear - HS. qclra. }
  destruct (emd_full xs [y] C ltac:(subst xs; simpl; lia)) as (p & rx & Mt & E).
  assert (Lm := matching_length _ _ _ _ _ Mt). cbn [length] in Lm. destruct Lm as [L1 L2].
  destruct p as [|[a b] [|? ?]]; simpl in L2; try lia.
  destruct (matching_in _ _ _ _ _ Mt (a, b)) as [Ia Ib]; [left; auto|]. cbn [fst snd] in Ia, Ib.
  destruct Ib as [<-|[]].
  assert (m <= qabs (a - y)) by (apply M; apply (in_map (fun x => qabs (x - y))); auto).
  rewrite move_cost_cons in E. cbn [fst snd] in E. change (move_cost []) with 0 in E.
  rewrite L1 in U |- *. cbn [length Nat.add] in *. rewrite qn_S in *. clear - U E H. qclra.
Qed.

Lemma combinations_all l : combinations (length l) l = [l].
Proof.
  assert (N : forall (l : list Qc) k, (length l < k)%nat -> combinations k l = []).
  { clear. induction l as [|a l IH]; intros [|k] H; simpl in *; try lia; auto. rewrite !IH by lia. reflexivity. }
  induction l as [|a l IH]; auto. cbn [length combinations]. rewrite IH, N by lia. reflexivity.
Qed.

Lemma emd_equal_length xs ys : close two xs ys -> length xs = length ys -> asc xs -> asc ys ->
  emd xs ys = move_cost (combine xs ys).
Proof.
  intros C L Ax Ay. destruct (emd_combination xs ys C ltac:(lia) Ax Ay) as (c & Hc & Lc).
  rewrite <- L, combinations_all in Hc. destruct Hc as [<-|[]].
  pose proof (sub_emd xs [] xs ys) as HS. rewrite app_nil_r in HS. specialize (HS ltac:(reflexivity) L).
  cbn [length] in HS. change (qn 0) with 0 in HS. rewrite L in Lc. clear - Lc HS. qclra.
Qed.

Lemma emd_nil_r xs : emd xs [] = qn (length xs).
Proof.
  apply emd_unique. split.
  - exists [], xs, []. split; [split; reflexivity|]. change (move_cost []) with 0. cbn [length]. change (qn 0) with 0. ring.
  - intros c (p & rx & ry & M & ->). apply matching_length in M. destruct M as [L1 L2]. cbn [length] in L2.
    assert (length p = 0%nat) by lia. destruct p; [|discriminate]. simpl in L1. rewrite L1.
    pose proof (qn_nonneg (length ry)) as Hr. change (move_cost []) with 0. clear - Hr. qclra.
Qed.

(** ** Common points *)
Lemma emd_common a xs ys : emd (a :: xs) (a :: ys) = emd xs ys.
Proof.
  assert (U := emd_cons_pair a a xs ys).
  assert (Z : qabs (a - a) = 0) by (replace (a - a) with 0 by ring; reflexivity). rewrite Z in U.
  assert (L : emd xs ys <= emd (a :: xs) (a :: ys)).
  { destruct (emd_is_emd (a :: xs) (a :: ys)) as [(p & rx & ry & [M1 M2] & ->) _].
    assert (Ia : In a (map fst p ++ rx)) by (eapply Permutation_in; [exact M1|left; auto]).
    assert (Ib : In a (map snd p ++ ry)) by (eapply Permutation_in; [exact M2|left; auto]).
    apply in_app_iff in Ia, Ib.
    destruct Ia as [Ia|Ia].
    - apply in_map_fst_split in Ia. destruct Ia as (b & p1 & p2 & Ep).
      assert (Pp : Permutation p ((a, b) :: p1 ++ p2)) by (rewrite Ep; symmetry; apply Permutation_middle).
      rewrite (move_cost_perm _ _ Pp), move_cost_cons. cbn [fst snd].
      rewrite (Permutation_map fst Pp) in M1. rewrite (Permutation_map snd Pp) in M2. cbn [map fst snd app] in M1, M2.
      apply Permutation_cons_inv in M1. clear Ep.
      assert (Ib' : In a (b :: map snd (p1 ++ p2) ++ ry)) by (eapply Permutation_in; [exact M2|left; auto]).
      clear Ib Pp. set (q := p1 ++ p2) in *. clearbody q. clear p p1 p2. rename q into p. rename Ib' into Ib.
      destruct Ib as [->|Ib].
      { apply Permutation_cons_inv in M2. rewrite Z.
        apply Qcle_trans with (move_cost p + qn (length rx) + qn (length ry)); [|clear; qclra].
        apply emd_le. exists p, rx, ry. repeat split; auto. }
      apply in_app_iff in Ib. destruct Ib as [Ib|Ib].
      + apply in_map_snd_split in Ib. destruct Ib as (x & q1 & q2 & Eq).
        assert (Pq : Permutation p ((x, a) :: q1 ++ q2)) by (rewrite Eq; symmetry; apply Permutation_middle).
        rewrite (move_cost_perm _ _ Pq), move_cost_cons. cbn [fst snd].
        rewrite (Permutation_map fst Pq) in M1. rewrite (Permutation_map snd Pq) in M2. cbn [map fst snd app] in M1, M2.
        apply Qcle_trans with (move_cost ((x, b) :: q1 ++ q2) + qn (length rx) + qn (length ry)).
        * apply emd_le. exists ((x, b) :: q1 ++ q2), rx, ry. split; auto. split; auto.
          cbn [map snd app]. apply Permutation_cons_inv with a. rewrite M2. apply perm_swap.
        * rewrite move_cost_cons. cbn [fst snd]. clear. qclra.
      + apply in_split in Ib. destruct Ib as (r1 & r2 & ->).
        apply Qcle_trans with (move_cost p + qn (length rx) + qn (length (b :: r1 ++ r2))).
        * apply emd_le. exists p, rx, (b :: r1 ++ r2). split; auto. split; auto.
          apply Permutation_cons_inv with a. rewrite M2. 
          rewrite <- !Permutation_middle. apply perm_swap.
        * cbn [length]. rewrite !app_length. cbn [length]. rewrite !qn_add, !qn_S, !qn_add. pose proof (qabs_nonneg (a - b)). clear - H. qclra.
    - apply in_split in Ia. destruct Ia as (r1 & r2 & ->).
      assert (M1' : Permutation xs (map fst p ++ r1 ++ r2)).
      { apply Permutation_cons_inv with a. rewrite M1, !app_assoc. symmetry. apply Permutation_middle. }
      destruct Ib as [Ib|Ib].
      + apply in_map_snd_split in Ib. destruct Ib as (x & q1 & q2 & Eq).
        assert (Pq : Permutation p ((x, a) :: q1 ++ q2)) by (rewrite Eq; symmetry; apply Permutation_middle).
        rewrite (move_cost_perm _ _ Pq), move_cost_cons. cbn [fst snd].
        rewrite (Permutation_map fst Pq) in M1'. rewrite (Permutation_map snd Pq) in M2. cbn [map fst snd app] in M1', M2.
        apply Permutation_cons_inv in M2.
        apply Qcle_trans with (move_cost (q1 ++ q2) + qn (length (x :: r1 ++ r2)) + qn (length ry)).
        * apply emd_le. exists (q1 ++ q2), (x :: r1 ++ r2), ry. split; auto. split; auto.
          rewrite M1'. apply Permutation_middle.
        * cbn [length]. rewrite !app_length. cbn [length]. rewrite !qn_add, !qn_S, !qn_add. pose proof (qabs_nonneg (x - a)). clear - H. qclra.
      + apply in_split in Ib. destruct Ib as (s1 & s2 & ->).
        apply Qcle_trans with (move_cost p + qn (length (r1 ++ r2)) + qn (length (s1 ++ s2))).
        * apply emd_le. exists p, (r1 ++ r2), (s1 ++ s2). split; auto. split; auto.
          apply Permutation_cons_inv with a. rewrite M2, !app_assoc. symmetry. apply Permutation_middle.
        * rewrite !app_length. cbn [length]. rewrite !qn_add, !qn_S. clear. qclra. }
  clear - U L. qclra.
Qed.

Lemma drop_common_nil_r xs : drop_common xs [] = (xs, []).
Proof. destruct xs; reflexivity. Qed.
Lemma drop_common_cons x xs y ys :
  drop_common (x :: xs) (y :: ys) =
  if qltb x y then let '(a, b) := drop_common xs (y :: ys) in (x :: a, b)
  else if qltb y x then let '(a, b) := drop_common (x :: xs) ys in (a, y :: b)
  else drop_common xs ys.
Proof. reflexivity. Qed.

(** Dropping points: what remains, what was common, and that nothing common
    is left. *)
Lemma drop_common_spec n : forall xs ys, (length xs + length ys <= n)%nat -> asc xs -> asc ys ->
  exists a b c, drop_common xs ys = (a, b) /\ Permutation xs (c ++ a) /\ Permutation ys (c ++ b) /\
    asc a /\ asc b /\ (forall v, In v a -> In v b -> False).
Proof.
  induction n as [|n IH]; intros xs ys Hn Ax Ay.
  - destruct xs, ys; simpl in Hn; try lia. exists [], [], []. repeat split; auto.
  - destruct xs as [|x xs].
    { exists [], ys, []. repeat split; auto. }
    destruct ys as [|y ys].
    { exists (x :: xs), [], []. rewrite drop_common_nil_r. repeat split; auto. }
    assert (Ax' : asc xs /\ Forall (fun b => x <= b) xs) by (apply StronglySorted_inv in Ax; auto).
    assert (Ay' : asc ys /\ Forall (fun b => y <= b) ys) by (apply StronglySorted_inv in Ay; auto).
    destruct Ax' as [Ax' Fx], Ay' as [Ay' Fy]. rewrite Forall_forall in Fx, Fy.
    rewrite drop_common_cons. destruct (qltb x y) eqn:E1; [|destruct (qltb y x) eqn:E2].
    + destruct (IH xs (y :: ys)) as (a & b & c & E & P1 & P2 & Aa & Ab & D); auto; [simpl in *; lia|].
      rewrite E. exists (x :: a), b, c. repeat split; auto.
      * rewrite P1. apply Permutation_middle.
      * constructor; auto. apply Forall_forall. intros v Hv. apply Fx. rewrite P1. apply in_app_iff. auto.
      * intros v [<-|Hv] Hb; [|eauto].
        assert (In x (y :: ys)) by (rewrite P2; apply in_app_iff; auto).
        destruct H as [->|H]; [clear - E1; qclra|]. apply Fy in H. clear - E1 H. qclra.
    + destruct (IH (x :: xs) ys) as (a & b & c & E & P1 & P2 & Aa & Ab & D); auto; [simpl in *; lia|].
      rewrite E. exists a, (y :: b), c. repeat split; auto.
      * rewrite P2. apply Permutation_middle.
      * constructor; auto. apply Forall_forall. intros v Hv. apply Fy. rewrite P2. apply in_app_iff. auto.
      * intros v Ha [<-|Hv]; [|eauto].
        assert (In y (x :: xs)) by (rewrite P1; apply in_app_iff; auto).
        destruct H as [->|H]; [clear - E2; qclra|]. apply Fx in H. clear - E2 H. qclra.
    + assert (x = y) by (clear - E1 E2; qclra). subst y.
      destruct (IH xs ys) as (a & b & c & E & P1 & P2 & Aa & Ab & D); auto; [simpl in *; lia|].
      rewrite E. exists a, b, (x :: c). repeat split; auto; simpl; constructor; auto.
Qed.

Lemma emd_common_list c xs ys : emd (c ++ xs) (c ++ ys) = emd xs ys.
Proof. induction c; simpl; auto. rewrite emd_common. auto. Qed.

(** ** The table of the fallback *)
Lemma dp_row_copy_step rnd x y i old :
  (i < length x)%nat -> length old = S (length y) ->
  dp_row_copy rnd x y (row rnd x y i, old) (Z.of_nat (S i)) = Ok (row rnd x y (S i), row rnd x y (S i)).
Proof.
  intros Hi Ho. pose proof (dp_row_step rnd x y i old Hi Ho) as H.
  unfold dp_row in H. unfold dp_row_copy.
  destruct (py_set old 0 (qz (Z.of_nat (S i)))) as [c0|]; [|discriminate]. cbn [bind] in *.
  destruct (foldM _ _ c0) as [c'|]; [|discriminate]. cbn [bind] in *. injection H as ->. reflexivity.
Qed.

Lemma dp_copy_outer rnd x y k old :
  (k <= length x)%nat -> length old = S (length y) ->
  exists old', length old' = S (length y) /\
  foldM (dp_row_copy rnd x y) (map Z.of_nat (seq 1 k)) (row rnd x y 0, old) = Ok (row rnd x y k, old').
Proof.
  intros Hk Ho. induction k as [|k IH].
  - exists old. split; auto.
  - destruct IH as (old' & Lo & E); [lia|].
    rewrite seq_S, map_app, foldM_app, E. cbn [bind foldM map]. 
    replace (1 + k)%nat with (S k) by lia. rewrite dp_row_copy_step by (auto; lia). cbn [bind].
    eexists. split; [|reflexivity]. apply row_length.
Qed.

Lemma dp_fallback_exact cx cy : asc cx -> asc cy -> dp_fallback exact cx cy = Ok (emd cx cy).
Proof.
  intros Ax Ay.
  assert (main : forall x y, asc x -> asc y ->
     (rows <- foldM (dp_row_copy exact x y) (py_range 1 (zlen x + 1))
                (map qz (py_range 0 (zlen y + 1)), map (fun _ => 0) (py_range 0 (zlen y + 1))) ;;
      py_get (fst rows) (zlen y)) = Ok (emd x y)).
  { clear. intros x y Ax Ay. rewrite <- (row_0 exact x y).
    replace (py_range 1 (zlen x + 1)) with (map Z.of_nat (seq 1 (length x))).
    2:{ rewrite <- py_range_nat. f_equal. unfold zlen. lia. }
    destruct (dp_copy_outer exact x y (length x) (map (fun _ => 0) (py_range 0 (zlen y + 1)))) as (o & _ & E).
    { lia. } { rewrite map_length, py_range_length. unfold zlen. lia. }
    rewrite E. cbn [bind fst]. unfold zlen. rewrite (py_get_nat _ _ 0) by (rewrite row_length; lia).
    rewrite nth_row by lia. unfold cell. rewrite !firstn_all. unfold emd.
    assert (I : forall l, asc l -> qsort l = l).
    { intros l A. apply isort_sorted_id. clear - A. induction A; constructor; auto.
      eapply Forall_impl; [|eassumption]. intros b Hb. clear - Hb. qclra. }
    rewrite !I by auto. reflexivity. }
  unfold dp_fallback. destruct (Z.gtb (zlen cx) (zlen cy)).
  - rewrite main by auto. rewrite emd_sym. reflexivity.
  - apply main; auto.
Qed.
