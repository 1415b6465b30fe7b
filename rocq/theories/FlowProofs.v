(** Earth mover's distance as a flow along the line, and where the line can be
    cut without changing it. *)
From Coq Require Import ZArith QArith Qcanon List Permutation Sorted Lia Bool.
From Verif Require Import Num Py EmdSpec EmdModel EmdProofs EmdSlowProofs HybridModel.
Import ListNotations.
Open Scope Qc_scope.

(** The points of either kind, in order. *)
Definition xs_of (l : list point) : list Qc := map fst (filter (fun e => negb (snd e)) l).
Definition ys_of (l : list point) : list Qc := map fst (filter (fun e => snd e) l).

Definition locs_sorted (p : Qc) (l : list point) : Prop :=
  StronglySorted (fun a b : Qc => a <= b) (p :: map fst l).

(** Number of y minus number of x. *)
Fixpoint net (l : list point) : Z :=
  match l with [] => 0 | (_, true) :: l' => net l' + 1 | (_, false) :: l' => net l' - 1 end.

Lemma net_app l1 l2 : net (l1 ++ l2) = (net l1 + net l2)%Z.
Proof. induction l1 as [|[q []] l1 IH]; simpl; lia. Qed.
Lemma net_len l : net l = (zlen (ys_of l) - zlen (xs_of l))%Z.
Proof.
  unfold zlen. induction l as [|[q []] l IH]; [reflexivity| |].
  - change (ys_of ((q, true) :: l)) with (q :: ys_of l). change (xs_of ((q, true) :: l)) with (xs_of l).
    cbn [net length]. lia.
  - change (ys_of ((q, false) :: l)) with (ys_of l). change (xs_of ((q, false) :: l)) with (q :: xs_of l).
    cbn [net length]. lia.
Qed.
Lemma xs_of_app l1 l2 : xs_of (l1 ++ l2) = xs_of l1 ++ xs_of l2.
Proof. unfold xs_of. rewrite filter_app, map_app. reflexivity. Qed.
Lemma ys_of_app l1 l2 : ys_of (l1 ++ l2) = ys_of l1 ++ ys_of l2.
Proof. unfold ys_of. rewrite filter_app, map_app. reflexivity. Qed.

(** [path f p l g c]: walking from position [p] over the points [l], carrying
    [f] units at the start ([f] pending y when positive, [-f] pending x when
    negative) and [g] at the end, costs [c].  Every y is matched, an x may be
    skipped for cost 1. *)
Inductive path : Z -> Qc -> list point -> Z -> Qc -> Prop :=
| path_nil f p : path f p [] f 0
| path_y f p q l g c : path (f + 1) q l g c -> path f p ((q, true) :: l) g (qz (Z.abs f) * (q - p) + c)
| path_use f p q l g c : path (f - 1) q l g c -> path f p ((q, false) :: l) g (qz (Z.abs f) * (q - p) + c)
| path_skip f p q l g c : path f q l g c -> path f p ((q, false) :: l) g (qz (Z.abs f) * (q - p) + 1 + c).

Definition endpos (p : Qc) (l : list point) : Qc := last (map fst l) p.

Lemma endpos_cons p e l : endpos p (e :: l) = endpos (fst e) l.
Proof.
  unfold endpos. cbn [map]. generalize (map fst l) (fst e). clear. intros l.
  revert p. induction l as [|b l IH]; intros p a; [reflexivity|].
  change (last (a :: b :: l) p) with (last (b :: l) p). rewrite !IH. reflexivity.
Qed.

Lemma path_app l1 l2 : forall f p h g c1 c2,
  path f p l1 h c1 -> path h (endpos p l1) l2 g c2 -> path f p (l1 ++ l2) g (c1 + c2).
Proof.
  induction l1 as [|[q b] l1 IH]; intros f p h g c1 c2 H1 H2.
  - inversion H1; subst. replace (0 + c2) with c2 by ring. exact H2.
  - rewrite endpos_cons in H2. simpl in *. inversion H1; subst.
    + replace (qz (Z.abs f) * (q - p) + c + c2) with (qz (Z.abs f) * (q - p) + (c + c2)) by ring.
      constructor. eauto.
    + replace (qz (Z.abs f) * (q - p) + c + c2) with (qz (Z.abs f) * (q - p) + (c + c2)) by ring.
      apply path_use. eauto.
    + replace (qz (Z.abs f) * (q - p) + 1 + c + c2) with (qz (Z.abs f) * (q - p) + 1 + (c + c2)) by ring.
      apply path_skip. eauto.
Qed.

Lemma path_app_inv l1 l2 : forall f p g c,
  path f p (l1 ++ l2) g c ->
  exists h c1 c2, path f p l1 h c1 /\ path h (endpos p l1) l2 g c2 /\ c = c1 + c2.
Proof.
  induction l1 as [|[q b] l1 IH]; intros f p g c H.
  - exists f, 0, c. repeat split; [constructor|exact H|ring].
  - rewrite endpos_cons. simpl in H. inversion H; subst;
      match goal with P : path _ _ (l1 ++ l2) _ _ |- _ => apply IH in P as (h & c1 & c2 & P1 & P2 & ->) end;
      do 3 eexists; (split; [econstructor; eassumption|split; [exact P2|ring]]).
Qed.

(** A start without flow is not tied to a position. *)
Lemma path_zero_start p p' l g c : path 0 p l g c -> path 0 p' l g c.
Proof.
  intros H. inversion H; subst; change (qz (Z.abs 0)) with 0.
  - constructor.
  - replace (0 * (q - p) + c0) with (qz (Z.abs 0) * (q - p') + c0) by (change (qz (Z.abs 0)) with 0; ring).
    constructor. auto.
  - replace (0 * (q - p) + c0) with (qz (Z.abs 0) * (q - p') + c0) by (change (qz (Z.abs 0)) with 0; ring).
    apply path_use. auto.
  - replace (0 * (q - p) + 1 + c0) with (qz (Z.abs 0) * (q - p') + 1 + c0) by (change (qz (Z.abs 0)) with 0; ring).
    apply path_skip. auto.
Qed.

Lemma locs_sorted_tail p q b l : locs_sorted p ((q, b) :: l) -> p <= q /\ locs_sorted q l.
Proof.
  unfold locs_sorted. simpl. intros H. apply StronglySorted_inv in H. destruct H as [H F].
  split; auto. inversion F; auto.
Qed.

Lemma qz_mul_le a b g : (a <= b)%Z -> 0 <= g -> qz a * g <= qz b * g.
Proof. intros H Hg. apply Qcmult_le_compat_r; auto. apply (proj1 (qz_le a b)). exact H. Qed.

(** ** Moving the flow across a cut *)

(** Every final part of [l] has at least as many x as y. *)
Definition suffix_ok (l : list point) : Prop := forall l1 l2, l = l1 ++ l2 -> (net l2 <= 0)%Z.
(** Every initial part of [l] has at least as many x as y. *)
Definition prefix_ok (l : list point) : Prop := forall l1 l2, l = l1 ++ l2 -> (net l1 <= 0)%Z.

Lemma suffix_ok_tail e l : suffix_ok (e :: l) -> suffix_ok l.
Proof. intros H l1 l2 ->. apply (H (e :: l1) l2). reflexivity. Qed.

Lemma left_pos l : forall f p k c,
  locs_sorted p l -> suffix_ok l -> (1 <= k)%Z -> path f p l k c ->
  (exists c', path f p l (k - 1) c' /\ c' + 1 <= c) \/
  (f = k - net l)%Z /\ (exists c', path (f - 1) p l (k - 1) c' /\ c' <= c).
Proof.
  induction l as [|[q b] l IH]; intros f p k c S Hs Hk H.
  - inversion H; subst. right. split; [simpl; lia|]. exists 0. split; [constructor|apply Qcle_refl].
  - apply locs_sorted_tail in S. destruct S as [Hpq S].
    assert (Hpq' : 0 <= q - p) by (clear - Hpq; qclra).
    assert (N : (net ((q, b) :: l) <= 0)%Z) by (apply (Hs [] _ eq_refl)).
    inversion H; subst;
      match goal with P : path _ _ l _ _ |- _ => destruct (IH _ _ _ _ S (suffix_ok_tail _ _ Hs) Hk P) as [(c' & P' & L)|(E & c' & P' & L)] end.
    + left. eexists. split; [constructor; exact P'|]. clear - L. qclra.
    + right. simpl in *. split; [lia|].
      eexists. split; [constructor; replace (f - 1 + 1)%Z with (f + 1 - 1)%Z by lia; exact P'|].
      pose proof (qz_mul_le (Z.abs (f - 1)) (Z.abs f) (q - p) ltac:(lia) Hpq') as M. clear - M L.
      revert M. generalize (qz (Z.abs (f - 1)) * (q - p)) (qz (Z.abs f) * (q - p)). intros. qclra.
    + left. eexists. split; [apply path_use; exact P'|]. clear - L. qclra.
    + right. simpl in *. split; [lia|].
      eexists. split; [apply path_use; exact P'|].
      pose proof (qz_mul_le (Z.abs (f - 1)) (Z.abs f) (q - p) ltac:(lia) Hpq') as M. clear - M L.
      revert M. generalize (qz (Z.abs (f - 1)) * (q - p)) (qz (Z.abs f) * (q - p)). intros. qclra.
    + left. eexists. split; [apply path_skip; exact P'|]. clear - L. qclra.
    + left. eexists. split; [apply path_use; exact P'|]. clear - L. qclra.
Qed.

Lemma right_pos l : forall k p c,
  locs_sorted p l -> (1 <= k)%Z -> path k p l 0 c -> exists c', path (k - 1) p l 0 c' /\ c' <= c + 1.
Proof.
  induction l as [|[q b] l IH]; intros k p c S Hk H.
  - inversion H; subst. lia.
  - apply locs_sorted_tail in S. destruct S as [Hpq S].
    assert (Hpq' : 0 <= q - p) by (clear - Hpq; qclra).
    pose proof (qz_mul_le (Z.abs (k - 1)) (Z.abs k) (q - p) ltac:(lia) Hpq') as M.
    assert (M' := M). revert M'. clear M.
    inversion H; subst; intros M.
    + destruct (IH (k + 1)%Z q c0 S) as (c' & P' & L); [lia|assumption|].
      eexists. split; [constructor; replace (k - 1 + 1)%Z with (k + 1 - 1)%Z by lia; exact P'|].
      clear - M L. revert M. generalize (qz (Z.abs (k - 1)) * (q - p)) (qz (Z.abs k) * (q - p)). intros. qclra.
    + destruct (Z.eq_dec k 1) as [->|Hk'].
      * eexists. split; [apply path_skip; exact H7|].
        clear - M. simpl (1 - 1)%Z in *. revert M. generalize (qz (Z.abs 0) * (q - p)) (qz (Z.abs 1) * (q - p)). intros. qclra.
      * destruct (IH (k - 1)%Z q c0 S) as (c' & P' & L); [lia|assumption|].
        eexists. split; [apply path_use; exact P'|].
        clear - M L. revert M. generalize (qz (Z.abs (k - 1)) * (q - p)) (qz (Z.abs k) * (q - p)). intros. qclra.
    + destruct (IH k q c0 S) as (c' & P' & L); [lia|assumption|].
      eexists. split; [apply path_skip; exact P'|].
      clear - M L. revert M. generalize (qz (Z.abs (k - 1)) * (q - p)) (qz (Z.abs k) * (q - p)). intros. qclra.
Qed.

Lemma left_neg l : forall f p k c,
  locs_sorted p l -> (k <= -1)%Z -> path f p l k c ->
  (exists c', path f p l (k + 1) c' /\ c' <= c + 1) \/
  (f <= -1)%Z /\ (exists c', path (f + 1) p l (k + 1) c' /\ c' <= c).
Proof.
  induction l as [|[q b] l IH]; intros f p k c S Hk H.
  - inversion H; subst. right. split; [lia|]. exists 0. split; [constructor|apply Qcle_refl].
  - apply locs_sorted_tail in S. destruct S as [Hpq S].
    assert (Hpq' : 0 <= q - p) by (clear - Hpq; qclra).
    inversion H; subst;
      match goal with P : path _ _ l _ _ |- _ => destruct (IH _ _ _ _ S Hk P) as [(c' & P' & L)|(E & c' & P' & L)] end.
    + left. eexists. split; [constructor; exact P'|]. clear - L. qclra.
    + right. split; [lia|].
      eexists. split; [constructor; exact P'|].
      pose proof (qz_mul_le (Z.abs (f + 1)) (Z.abs f) (q - p) ltac:(lia) Hpq') as M. clear - M L.
      revert M. generalize (qz (Z.abs (f + 1)) * (q - p)) (qz (Z.abs f) * (q - p)). intros. qclra.
    + left. eexists. split; [apply path_use; exact P'|]. clear - L. qclra.
    + destruct (Z_le_gt_dec f (-1)) as [Hf|Hf].
      * right. split; [lia|].
        eexists. split; [apply path_use; replace (f + 1 - 1)%Z with (f - 1 + 1)%Z by lia; exact P'|].
        pose proof (qz_mul_le (Z.abs (f + 1)) (Z.abs f) (q - p) ltac:(lia) Hpq') as M. clear - M L.
        revert M. generalize (qz (Z.abs (f + 1)) * (q - p)) (qz (Z.abs f) * (q - p)). intros. qclra.
      * left. assert (f = 0)%Z by lia. subst f.
        eexists. split; [apply path_skip; exact P'|]. clear - L. qclra.
    + left. eexists. split; [apply path_skip; exact P'|]. clear - L. qclra.
    + right. split; [lia|].
      eexists. split; [apply path_skip; exact P'|].
      pose proof (qz_mul_le (Z.abs (f + 1)) (Z.abs f) (q - p) ltac:(lia) Hpq') as M. clear - M L.
      revert M. generalize (qz (Z.abs (f + 1)) * (q - p)) (qz (Z.abs f) * (q - p)). intros. qclra.
Qed.

Lemma right_neg l : forall f p c,
  locs_sorted p l -> (forall l1 l2, l = l1 ++ l2 -> f + net l1 <= -1)%Z ->
  path f p l 0 c -> exists c', path (f + 1) p l 0 c' /\ c' + 1 <= c.
Proof.
  induction l as [|[q b] l IH]; intros f p c S Hp H.
  - inversion H; subst. specialize (Hp [] [] eq_refl). simpl in Hp. lia.
  - apply locs_sorted_tail in S. destruct S as [Hpq S].
    assert (Hpq' : 0 <= q - p) by (clear - Hpq; qclra).
    assert (Hf : (f <= -1)%Z) by (specialize (Hp [] _ eq_refl); simpl in Hp; lia).
    pose proof (qz_mul_le (Z.abs (f + 1)) (Z.abs f) (q - p) ltac:(lia) Hpq') as M.
    revert M.
    inversion H; subst; intros M.
    + destruct (IH (f + 1)%Z q c0 S) as (c' & P' & L); auto.
      { intros l1 l2 ->. specialize (Hp ((q, true) :: l1) l2 eq_refl). simpl in Hp. lia. }
      eexists. split; [constructor; exact P'|].
      clear - M L. revert M. generalize (qz (Z.abs (f + 1)) * (q - p)) (qz (Z.abs f) * (q - p)). intros. qclra.
    + destruct (IH (f - 1)%Z q c0 S) as (c' & P' & L); auto.
      { intros l1 l2 ->. specialize (Hp ((q, false) :: l1) l2 eq_refl). simpl in Hp. lia. }
      eexists. split; [apply path_use; replace (f + 1 - 1)%Z with (f - 1 + 1)%Z by lia; exact P'|].
      clear - M L. revert M. generalize (qz (Z.abs (f + 1)) * (q - p)) (qz (Z.abs f) * (q - p)). intros. qclra.
    + eexists. split; [apply path_use; replace (f + 1 - 1)%Z with f by lia; eassumption|].
      clear - M. revert M. generalize (qz (Z.abs (f + 1)) * (q - p)) (qz (Z.abs f) * (q - p)). intros. qclra.
Qed.

Lemma cut_path n : forall l1 l2 p k c1 c2,
  (Z.abs k <= Z.of_nat n)%Z -> locs_sorted p l1 -> locs_sorted (endpos p l1) l2 ->
  suffix_ok l1 -> prefix_ok l2 ->
  path 0 p l1 k c1 -> path k (endpos p l1) l2 0 c2 ->
  exists d1 d2, path 0 p l1 0 d1 /\ path 0 (endpos p l1) l2 0 d2 /\ d1 + d2 <= c1 + c2.
Proof.
  induction n as [|n IH]; intros l1 l2 p k c1 c2 Hk S1 S2 Sx Px H1 H2.
  - assert (k = 0)%Z by lia. subst k. exists c1, c2. repeat split; auto. apply Qcle_refl.
  - destruct (Z_lt_le_dec k 0) as [K|K]; [|destruct (Z.eq_dec k 0) as [->|K0]].
    + destruct (left_neg l1 0%Z p k c1 S1 ltac:(lia) H1) as [(d1 & P1 & L1)|(E & _)]; [|lia].
      destruct (right_neg l2 k (endpos p l1) c2 S2) as (d2 & P2 & L2); auto.
      { intros a b ->. specialize (Px a b eq_refl). lia. }
      destruct (IH l1 l2 p (k + 1)%Z d1 d2) as (e1 & e2 & Q1 & Q2 & L); auto; try lia.
      exists e1, e2. repeat split; auto. clear - L L1 L2. qclra.
    + exists c1, c2. repeat split; auto. apply Qcle_refl.
    + destruct (left_pos l1 0%Z p k c1 S1 Sx ltac:(lia) H1) as [(d1 & P1 & L1)|(E & _)].
      2:{ specialize (Sx [] l1 eq_refl). lia. }
      destruct (right_pos l2 k (endpos p l1) c2 S2) as (d2 & P2 & L2); auto; try lia.
      destruct (IH l1 l2 p (k - 1)%Z d1 d2) as (e1 & e2 & Q1 & Q2 & L); auto; try lia.
      exists e1, e2. repeat split; auto. clear - L L1 L2. qclra.
Qed.

(** ** Paths and matchings *)

Lemma emd_cons_pair x y xs ys : emd (x :: xs) (y :: ys) <= qabs (x - y) + emd xs ys.
Proof.
  destruct (emd_is_emd xs ys) as [(p & rx & ry & [M1 M2] & E) _].
  apply emd_le. exists ((x, y) :: p), rx, ry. split.
  - split; simpl; constructor; auto.
  - rewrite move_cost_cons, E. cbn [fst snd]. ring.
Qed.
Lemma emd_cons_l x xs ys : emd (x :: xs) ys <= 1 + emd xs ys.
Proof.
  destruct (emd_is_emd xs ys) as [(p & rx & ry & [M1 M2] & E) _].
  apply emd_le. exists p, (x :: rx), ry. split.
  - split; auto. rewrite M1. apply Permutation_middle.
  - rewrite E. cbn [length]. rewrite qn_S. ring.
Qed.
Lemma emd_app x1 x2 y1 y2 : emd (x1 ++ x2) (y1 ++ y2) <= emd x1 y1 + emd x2 y2.
Proof.
  destruct (emd_is_emd x1 y1) as [(p & rx & ry & [M1 M2] & E) _].
  destruct (emd_is_emd x2 y2) as [(p' & rx' & ry' & [M1' M2'] & E') _].
  apply emd_le. exists (p ++ p'), (rx ++ rx'), (ry ++ ry'). split.
  - split; rewrite map_app.
    + rewrite M1, M1', <- !app_assoc. apply Permutation_app_head. rewrite !app_assoc.
      apply Permutation_app_tail, Permutation_app_comm.
    + rewrite M2, M2', <- !app_assoc. apply Permutation_app_head. rewrite !app_assoc.
      apply Permutation_app_tail, Permutation_app_comm.
  - rewrite E, E', move_cost_app, !app_length, !qn_add. ring.
Qed.

Lemma qsum_sub_shift (l : list Qc) p q :
  qsum (map (fun a => q - a) l) = qsum (map (fun a => p - a) l) + qn (length l) * (q - p).
Proof.
  induction l as [|a l IH]; simpl; [change (qn 0) with 0; ring|]. rewrite IH, qn_S. ring.
Qed.

Lemma qsum_rsub_shift (l : list Qc) p q :
  qsum (map (fun a => a - p) l) = qsum (map (fun a => a - q) l) + qn (length l) * (q - p).
Proof.
  induction l as [|a l IH]; simpl; [change (qn 0) with 0; ring|]. rewrite IH, qn_S. ring.
Qed.

Lemma emd_nil : emd [] [] = 0.
Proof. apply emd_zero_iff. constructor. Qed.

(** Any path gives a matching. *)
Lemma emd_le_path l : forall p c,
  locs_sorted p l ->
  (forall Q, Forall (fun a => a <= p) Q -> path (Z.of_nat (length Q)) p l 0 c ->
     emd (xs_of l) (Q ++ ys_of l) <= c + qsum (map (fun a => p - a) Q)) /\
  (forall Q, Forall (fun a => a <= p) Q -> path (- Z.of_nat (length Q)) p l 0 c ->
     emd (Q ++ xs_of l) (ys_of l) <= c + qsum (map (fun a => p - a) Q)).
Proof.
  induction l as [|[q b] l IH]; intros p c S.
  - split; intros Q F H; inversion H; subst.
    + destruct Q; [|simpl in *; lia]. change (emd (xs_of []) ([] ++ ys_of [])) with (emd [] []). change (emd ([] ++ xs_of []) (ys_of [])) with (emd [] []). rewrite emd_nil. cbn [map qsum length]. clear. vm_compute. discriminate.
    + destruct Q; [|simpl in *; lia]. change (emd (xs_of []) ([] ++ ys_of [])) with (emd [] []). change (emd ([] ++ xs_of []) (ys_of [])) with (emd [] []). rewrite emd_nil. cbn [map qsum length]. clear. vm_compute. discriminate.
  - apply locs_sorted_tail in S. destruct S as [Hpq S].
    assert (Fq : forall Q, Forall (fun a => a <= p) Q -> Forall (fun a => a <= q) Q).
    { intros Q. apply Forall_impl. intros a Ha. clear - Ha Hpq. qclra. }
    assert (Aq : forall Q, qz (Z.abs (Z.of_nat (length (A := Qc) Q))) = qn (length Q)).
    { intros Q. unfold qn. f_equal. lia. }
    assert (Aq' : forall Q, qz (Z.abs (- Z.of_nat (length (A := Qc) Q))) = qn (length Q)).
    { intros Q. unfold qn. f_equal. lia. }
    split; intros Q F H; inversion H; subst; rewrite ?Aq, ?Aq'; cbn [xs_of ys_of].
    + (* y, pending y *)
      destruct (IH q c0 S) as [I _]. specialize (I (Q ++ [q])).
      change (ys_of ((q, true) :: l)) with (q :: ys_of l).
      change (xs_of ((q, true) :: l)) with (xs_of l).
      rewrite <- app_assoc in I. cbn [app] in I.
      assert (G : emd (xs_of l) (Q ++ q :: ys_of l) <= c0 + qsum (map (fun a => q - a) (Q ++ [q]))).
      { apply I; [apply Forall_app; split; auto; repeat constructor; apply Qcle_refl|].
        rewrite app_length, Nat2Z.inj_add. exact H7. }
      rewrite map_app, qsum_app, (qsum_sub_shift Q p q) in G. cbn [map qsum] in G.
      clear - G. revert G. generalize (qn (length Q) * (q - p)). intros. qclra.
    + (* use x, pending y *)
      change (ys_of ((q, false) :: l)) with (ys_of l).
      change (xs_of ((q, false) :: l)) with (q :: xs_of l).
      destruct Q as [|a Q].
      * destruct (IH q c0 S) as [_ I]. specialize (I [q]). cbn [app length] in I.
        assert (G := I ltac:(repeat constructor; apply Qcle_refl) H7).
        cbn [app map qsum length] in *. change (qn 0) with 0. clear - G. revert G. 
        replace (0 * (q - p)) with 0 by ring. intros. qclra.
      * destruct (IH q c0 S) as [I _]. specialize (I Q).
        assert (G : emd (xs_of l) (Q ++ ys_of l) <= c0 + qsum (map (fun a => q - a) Q)).
        { inversion F; subst. apply I; auto. cbn [length] in H7.
          replace (Z.of_nat (Datatypes.S (length Q)) - 1)%Z with (Z.of_nat (length Q)) in H7 by lia. exact H7. }
        pose proof (emd_cons_pair q a (xs_of l) (Q ++ ys_of l)) as P.
        rewrite (qsum_sub_shift Q p q) in G. cbn [app map qsum length]. rewrite qn_S.
        replace ((qn (length Q) + 1) * (q - p)) with (qn (length Q) * (q - p) + (q - p)) by ring.
        assert (Ha : a <= q) by (apply Fq in F; inversion F; auto).
        clear - G P Ha. revert G. generalize (qn (length Q) * (q - p)). intros. qclra.
    + (* skip x, pending y *)
      change (ys_of ((q, false) :: l)) with (ys_of l).
      change (xs_of ((q, false) :: l)) with (q :: xs_of l).
      destruct (IH q c0 S) as [I _]. specialize (I Q (Fq _ F) H7).
      rewrite (qsum_sub_shift Q p q) in I.
      pose proof (emd_cons_l q (xs_of l) (Q ++ ys_of l)) as P.
      clear - I P. revert I. generalize (qn (length Q) * (q - p)). intros. qclra.
    + (* y, pending x *)
      change (ys_of ((q, true) :: l)) with (q :: ys_of l).
      change (xs_of ((q, true) :: l)) with (xs_of l).
      destruct Q as [|a Q].
      * destruct (IH q c0 S) as [I _]. specialize (I [q]). cbn [app length] in I.
        assert (G := I ltac:(repeat constructor; apply Qcle_refl) H7).
        cbn [app map qsum length] in *. change (qn 0) with 0. clear - G. revert G. 
        replace (0 * (q - p)) with 0 by ring. intros. qclra.
      * destruct (IH q c0 S) as [_ I]. specialize (I Q).
        assert (G : emd (Q ++ xs_of l) (ys_of l) <= c0 + qsum (map (fun a => q - a) Q)).
        { inversion F; subst. apply I; auto. cbn [length] in H7.
          replace (- Z.of_nat (Datatypes.S (length Q)) + 1)%Z with (- Z.of_nat (length Q))%Z in H7 by lia. exact H7. }
        pose proof (emd_cons_pair a q (Q ++ xs_of l) (ys_of l)) as P.
        rewrite (qsum_sub_shift Q p q) in G. cbn [app map qsum length]. rewrite qn_S.
        replace ((qn (length Q) + 1) * (q - p)) with (qn (length Q) * (q - p) + (q - p)) by ring.
        assert (Ha : a <= q) by (apply Fq in F; inversion F; auto).
        clear - G P Ha. revert G. generalize (qn (length Q) * (q - p)). intros. qclra.
    + (* use x, pending x *)
      change (ys_of ((q, false) :: l)) with (ys_of l).
      change (xs_of ((q, false) :: l)) with (q :: xs_of l).
      destruct (IH q c0 S) as [_ I]. specialize (I (Q ++ [q])).
      rewrite <- app_assoc in I. cbn [app] in I.
      assert (G : emd (Q ++ q :: xs_of l) (ys_of l) <= c0 + qsum (map (fun a => q - a) (Q ++ [q]))).
      { apply I; [apply Forall_app; split; auto; repeat constructor; apply Qcle_refl|].
        rewrite app_length, Nat2Z.inj_add. cbn [length].
        replace (- (Z.of_nat (length Q) + Z.of_nat 1))%Z with (- Z.of_nat (length Q) - 1)%Z by lia. exact H7. }
      rewrite map_app, qsum_app, (qsum_sub_shift Q p q) in G. cbn [map qsum] in G.
      clear - G. revert G. generalize (qn (length Q) * (q - p)). intros. qclra.
    + (* skip x, pending x *)
      change (ys_of ((q, false) :: l)) with (ys_of l).
      change (xs_of ((q, false) :: l)) with (q :: xs_of l).
      destruct (IH q c0 S) as [_ I]. specialize (I Q (Fq _ F) H7).
      rewrite (qsum_sub_shift Q p q) in I.
      pose proof (emd_cons_l q (Q ++ xs_of l) (ys_of l)) as P.
      rewrite (emd_perm (q :: Q ++ xs_of l) (Q ++ q :: xs_of l) (ys_of l) (ys_of l)) in P
        by (auto; apply Permutation_middle).
      clear - I P. revert I. generalize (qn (length Q) * (q - p)). intros. qclra.
Qed.

Lemma emd_le_path0 p l c : locs_sorted p l -> path 0 p l 0 c -> emd (xs_of l) (ys_of l) <= c.
Proof.
  intros S H. destruct (emd_le_path l p c S) as [I _]. specialize (I [] ltac:(constructor) H).
  cbn [app map qsum] in I. clear - I. qclra.
Qed.

Lemma locs_sorted_in p l q : locs_sorted p l -> In q (map fst l) -> p <= q.
Proof.
  unfold locs_sorted. intros S H. apply StronglySorted_inv in S. destruct S as [_ F].
  rewrite Forall_forall in F. auto.
Qed.

Lemma xs_of_in l q : In q (xs_of l) -> In q (map fst l).
Proof. unfold xs_of. rewrite !in_map_iff. intros (e & E & H). apply filter_In in H. firstorder. Qed.
Lemma ys_of_in l q : In q (ys_of l) -> In q (map fst l).
Proof. unfold ys_of. rewrite !in_map_iff. intros (e & E & H). apply filter_In in H. firstorder. Qed.

(** Any matching of all y gives a path. *)
Lemma path_of_matching l : forall p P R pairs rx,
  locs_sorted p l ->
  Permutation (xs_of l) (map fst pairs ++ P ++ rx) ->
  Permutation (ys_of l) (map snd pairs ++ R) ->
  exists c, path (Z.of_nat (length P) - Z.of_nat (length R)) p l 0 c /\
    c <= move_cost pairs + qsum (map (fun a => a - p) P) + qsum (map (fun a => a - p) R) + qn (length rx).
Proof.
  induction l as [|[q b] l IH]; intros p P R pairs rx S Hx Hy.
  - assert (map fst pairs ++ P ++ rx = []) by (apply Permutation_nil; auto).
    assert (map snd pairs ++ R = []) by (apply Permutation_nil; auto).
    apply app_eq_nil in H. destruct H as [H1 H2]. apply app_eq_nil in H2. destruct H2 as [-> ->].
    apply app_eq_nil in H0. destruct H0 as [_ ->]. destruct pairs; [|discriminate].
    exists 0. split; [constructor|]. change (move_cost []) with 0. simpl. change (qn 0) with 0. qclra.
  - apply locs_sorted_tail in S. destruct S as [Hpq S].
    assert (Hpq' : 0 <= q - p) by (clear - Hpq; qclra).
    assert (Inq : forall a, In a (xs_of l) \/ In a (ys_of l) -> q <= a).
    { intros a H. apply (locs_sorted_in q l a S). destruct H; [apply xs_of_in|apply ys_of_in]; auto. }
    assert (M := qz_mul_le (Z.abs (Z.of_nat (length P) - Z.of_nat (length R))) (Z.of_nat (length P) + Z.of_nat (length R)) (q - p) ltac:(lia) Hpq').
    rewrite qz_add in M. change (qz (Z.of_nat (length P))) with (qn (length P)) in M.
    change (qz (Z.of_nat (length R))) with (qn (length R)) in M.
    replace ((qn (length P) + qn (length R)) * (q - p)) with (qn (length P) * (q - p) + qn (length R) * (q - p)) in M by ring.
    rewrite (qsum_rsub_shift P p q), (qsum_rsub_shift R p q).
    set (mp := qn (length P) * (q - p)) in *. set (mr := qn (length R) * (q - p)) in *.
    destruct b.
    + change (ys_of ((q, true) :: l)) with (q :: ys_of l) in Hy.
      change (xs_of ((q, true) :: l)) with (xs_of l) in Hx.
      assert (I : In q (map snd pairs ++ R)) by (eapply Permutation_in; [exact Hy|left; auto]).
      apply in_app_iff in I. destruct I as [I|I].
      * apply in_map_snd_split in I. destruct I as (x & p1 & p2 & ->).
        rewrite map_app in Hx, Hy. cbn [map fst snd app] in Hx, Hy.
        destruct (IH q (x :: P) R (p1 ++ p2) rx S) as (c & H & L).
        { rewrite Hx, map_app, <- !app_assoc. apply Permutation_app_head. cbn [app].
          apply Permutation_middle. }
        { rewrite map_app. apply Permutation_cons_inv with q. rewrite Hy, <- !app_assoc. symmetry. cbn [app]. apply Permutation_middle. }
        assert (Hq : q <= x).
        { apply Inq. left. rewrite Hx. apply in_app_iff. left. apply in_app_iff. right. left. auto. }
        eexists. split.
        { constructor. cbn [length] in H.
          replace (Z.of_nat (length P) - Z.of_nat (length R) + 1)%Z with (Z.of_nat (Datatypes.S (length P)) - Z.of_nat (length R))%Z by lia. exact H. }
        rewrite move_cost_app, move_cost_cons. rewrite move_cost_app in L. cbn [fst snd]. cbn [map qsum] in L.
        clear - L M Hq. generalize dependent (qz (Z.abs (Z.of_nat (length P) - Z.of_nat (length R))) * (q - p)). intros. qclra.
      * apply in_split in I. destruct I as (r1 & r2 & ->).
        destruct (IH q P (r1 ++ r2) pairs rx S Hx) as (c & H & L).
        { apply Permutation_cons_inv with q. rewrite Hy, !app_assoc. symmetry. apply Permutation_middle. }
        eexists. split.
        { constructor.
          replace (Z.of_nat (length P) - Z.of_nat (length (r1 ++ q :: r2)) + 1)%Z with (Z.of_nat (length P) - Z.of_nat (length (r1 ++ r2)))%Z.
          2:{ rewrite !app_length. simpl. lia. } exact H. }
        rewrite map_app, qsum_app. rewrite map_app, qsum_app in L. cbn [map qsum].
        clear - L M. generalize dependent (qz (Z.abs (Z.of_nat (length P) - Z.of_nat (length (r1 ++ q :: r2)))) * (q - p)). intros. qclra.
    + change (ys_of ((q, false) :: l)) with (ys_of l) in Hy.
      change (xs_of ((q, false) :: l)) with (q :: xs_of l) in Hx.
      assert (I : In q (map fst pairs ++ P ++ rx)) by (eapply Permutation_in; [exact Hx|left; auto]).
      rewrite !in_app_iff in I. destruct I as [I|[I|I]].
      * apply in_map_fst_split in I. destruct I as (y & p1 & p2 & ->).
        rewrite map_app in Hx, Hy. cbn [map fst snd app] in Hx, Hy.
        destruct (IH q P (y :: R) (p1 ++ p2) rx S) as (c & H & L).
        { rewrite map_app. apply Permutation_cons_inv with q. rewrite Hx, <- !app_assoc. symmetry. cbn [app]. apply Permutation_middle. }
        { rewrite Hy, map_app, <- !app_assoc. apply Permutation_app_head. cbn [app].
          apply Permutation_middle. }
        assert (Hq : q <= y).
        { apply Inq. right. rewrite Hy. apply in_app_iff. left. apply in_app_iff. right. left. auto. }
        eexists. split.
        { apply path_use. cbn [length] in H.
          replace (Z.of_nat (length P) - Z.of_nat (length R) - 1)%Z with (Z.of_nat (length P) - Z.of_nat (Datatypes.S (length R)))%Z by lia. exact H. }
        rewrite move_cost_app, move_cost_cons. rewrite move_cost_app in L. cbn [fst snd]. cbn [map qsum] in L.
        clear - L M Hq. generalize dependent (qz (Z.abs (Z.of_nat (length P) - Z.of_nat (length R))) * (q - p)). intros. qclra.
      * apply in_split in I. destruct I as (r1 & r2 & ->).
        destruct (IH q (r1 ++ r2) R pairs rx S) as (c & H & L); auto.
        { apply Permutation_cons_inv with q. rewrite Hx.
          rewrite <- !app_assoc. cbn [app]. rewrite (app_assoc (map fst pairs) r1 (q :: r2 ++ rx)), (app_assoc (map fst pairs) r1 (r2 ++ rx)).
          symmetry. apply Permutation_middle. }
        eexists. split.
        { apply path_use.
          replace (Z.of_nat (length (r1 ++ q :: r2)) - Z.of_nat (length R) - 1)%Z with (Z.of_nat (length (r1 ++ r2)) - Z.of_nat (length R))%Z.
          2:{ rewrite !app_length. simpl. lia. } exact H. }
        rewrite map_app, qsum_app. rewrite map_app, qsum_app in L. cbn [map qsum].
        clear - L M. generalize dependent (qz (Z.abs (Z.of_nat (length (r1 ++ q :: r2)) - Z.of_nat (length R))) * (q - p)). intros. qclra.
      * apply in_split in I. destruct I as (r1 & r2 & ->).
        destruct (IH q P R pairs (r1 ++ r2) S) as (c & H & L); auto.
        { apply Permutation_cons_inv with q. rewrite Hx, !app_assoc. symmetry. apply Permutation_middle. }
        eexists. split; [apply path_skip; exact H|].
        rewrite app_length, qn_add. rewrite app_length, qn_add in L. cbn [length]. rewrite qn_S.
        clear - L M. generalize dependent (qz (Z.abs (Z.of_nat (length P) - Z.of_nat (length R))) * (q - p)). intros. qclra.
Qed.

(** The best matching of all y, when no distance exceeds 2. *)
Lemma emd_full xs ys : close (Q2Qc 2) xs ys -> (length ys <= length xs)%nat ->
  exists p rx, is_matching xs ys p rx [] /\ emd xs ys = move_cost p + qn (length rx).
Proof.
  intros C L. destruct (emd_is_emd xs ys) as [(p & rx & ry & M & E) Min].
  destruct (extend_matching xs ys (length ry) p rx ry C L M eq_refl) as (p' & rx' & M' & C').
  exists p', rx'. split; auto.
  assert (U : emd xs ys <= move_cost p' + qn (length rx')).
  { apply emd_le. exists p', rx', []. split; auto. cbn [length]. change (qn 0) with 0. ring. }
  rewrite <- E in C'. clear - U C'. qclra.
Qed.

Lemma locs_sorted_app_l p l1 l2 : locs_sorted p (l1 ++ l2) -> locs_sorted p l1.
Proof.
  unfold locs_sorted. rewrite map_app. change (p :: map fst l1 ++ map fst l2) with ((p :: map fst l1) ++ map fst l2).
  generalize (p :: map fst l1). intros l. induction l; intros H; [constructor|].
  simpl in H. inversion H; subst. constructor; auto. apply Forall_app in H3. tauto.
Qed.
Lemma locs_sorted_app_r p l1 l2 : locs_sorted p (l1 ++ l2) -> locs_sorted (endpos p l1) l2.
Proof.
  revert p. induction l1 as [|[q b] l1 IH]; intros p H; [exact H|].
  rewrite endpos_cons. apply IH. apply locs_sorted_tail in H. tauto.
Qed.

(** ** The cut theorem *)
Lemma emd_cut p l1 l2 :
  locs_sorted p (l1 ++ l2) -> close (Q2Qc 2) (xs_of (l1 ++ l2)) (ys_of (l1 ++ l2)) ->
  (net (l1 ++ l2) <= 0)%Z -> suffix_ok l1 -> prefix_ok l2 ->
  emd (xs_of (l1 ++ l2)) (ys_of (l1 ++ l2)) = emd (xs_of l1) (ys_of l1) + emd (xs_of l2) (ys_of l2).
Proof.
  intros S C N Sx Px.
  assert (U : emd (xs_of (l1 ++ l2)) (ys_of (l1 ++ l2)) <= emd (xs_of l1) (ys_of l1) + emd (xs_of l2) (ys_of l2)).
  { rewrite xs_of_app, ys_of_app. apply emd_app. }
  assert (S1 := locs_sorted_app_l _ _ _ S). assert (S2 := locs_sorted_app_r _ _ _ S).
  assert (L : (length (ys_of (l1 ++ l2)) <= length (xs_of (l1 ++ l2)))%nat).
  { rewrite net_len in N. unfold zlen in N. lia. }
  destruct (emd_full _ _ C L) as (pairs & rx & [M1 M2] & E).
  destruct (path_of_matching (l1 ++ l2) p [] [] pairs rx S) as (c & H & Lc).
  { exact M1. } { exact M2. }
  cbn [length map qsum] in H, Lc. change (Z.of_nat 0 - Z.of_nat 0)%Z with 0%Z in H.
  apply path_app_inv in H. destruct H as (k & c1 & c2 & H1 & H2 & ->).
  destruct (cut_path (Z.to_nat (Z.abs k)) l1 l2 p k c1 c2) as (d1 & d2 & D1 & D2 & D); auto; try lia.
  apply emd_le_path0 in D1; auto. apply emd_le_path0 in D2; auto.
  clear - U E Lc D D1 D2. qclra.
Qed.
