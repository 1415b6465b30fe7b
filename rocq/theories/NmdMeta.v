(** Changes of both words that do not change their distance. *)
From Coq Require Import ZArith NArith QArith Qcanon List Bool Permutation Lia.
From Verif Require Import Num Py ListAux PyDict EmdSpec EmdModel EmdProofs NmdSpec NmdModel NmdProofs.
From Verif Require Import NmdEdit.
Import ListNotations.
Open Scope Qc_scope.

(** ** Other letters *)

Section Keys.
Context {V : Type}.
Variables (h : str -> str) (P : str -> Prop).
Hypothesis inj : forall x y, P x -> P y -> h x = h y -> x = y.

Definition mapk (d : dict str V) : dict str V := map (fun e => (h (fst e), snd e)) d.
Definition keysP (d : dict str V) : Prop := forall k v, In (k, v) d -> P k.

Lemma dget_mapk k d : P k -> keysP d -> dget (h k) (mapk d) = dget k d.
Proof.
  intros Pk Kd. induction d as [|[k' v] d IH]; [reflexivity|]. cbn [mapk map fst snd dget].
  assert (Pk' : P k') by (eapply Kd; left; reflexivity). assert (IH' : dget (h k) (mapk d) = dget k d) by (apply IH; intros a b H; eapply Kd; right; exact H).
  destruct (eqd (h k) (h k')) as [E|E], (eqd k k') as [E'|E']; auto.
  - exfalso. apply E', inj; auto.
  - exfalso. apply E. congruence.
Qed.

Lemma dset_mapk k v d : P k -> keysP d -> dset (h k) v (mapk d) = mapk (dset k v d).
Proof.
  intros Pk Kd. induction d as [|[k' v'] d IH]; [reflexivity|]. cbn [mapk map fst snd dset].
  assert (Pk' : P k') by (eapply Kd; left; reflexivity). assert (IH' : dset (h k) v (mapk d) = mapk (dset k v d)) by (apply IH; intros a b H; eapply Kd; right; exact H).
  destruct (eqd (h k) (h k')) as [E|E], (eqd k k') as [E'|E']; cbn [mapk map fst snd].
  - reflexivity.
  - exfalso. apply E', inj; auto.
  - exfalso. apply E. congruence.
  - f_equal. exact IH'.
Qed.

Lemma keysP_dset k v d : P k -> keysP d -> keysP (dset k v d).
Proof.
  intros Pk Kd a b H. apply (in_map fst) in H. change (In a (dkeys (dset k v d))) in H. apply in_dkeys_dset in H. destruct H as [->|H]; auto.
  apply in_map_iff in H. destruct H as ([a' b'] & E & H). cbn in E. subst. eapply Kd; eauto.
Qed.
End Keys.

Section Relabel.
Variables (rnd : Qc -> Qc) (f : N -> N) (w1 w2 : str).
Hypothesis f_inj : forall c d, In c (w1 ++ w2) -> In d (w1 ++ w2) -> f c = f d -> c = d.
Hypothesis f_mark : forall c, In c (w1 ++ w2) -> f c <> 2%N /\ f c <> 3%N.
Hypothesis (C1 : clean w1) (C2 : clean w2).

Definition keep_marks (c : N) : N := if (c =? 2)%N || (c =? 3)%N then c else f c.
Definition known (c : N) : Prop := c = 2%N \/ c = 3%N \/ In c (w1 ++ w2).
Definition over (g : str) : Prop := Forall known g.

Lemma clean_app : ~ In 2%N (w1 ++ w2) /\ ~ In 3%N (w1 ++ w2).
Proof. destruct C1, C2. rewrite !in_app_iff. tauto. Qed.

Lemma keep_marks_inj c d : known c -> known d -> keep_marks c = keep_marks d -> c = d.
Proof.
  destruct clean_app as [M2 M3].
  assert (X : forall c, In c (w1 ++ w2) -> keep_marks c = f c).
  { intros c0 H. unfold keep_marks. destruct (N.eqb_spec c0 2); [subst; contradiction|]. destruct (N.eqb_spec c0 3); [subst; contradiction|]. reflexivity. }
  assert (X2 : keep_marks 2%N = 2%N) by reflexivity. assert (X3 : keep_marks 3%N = 3%N) by reflexivity.
  intros [->|[->|Hc]] [->|[->|Hd]]; rewrite ?X2, ?X3; auto; try discriminate.
  - rewrite (X d Hd). intros E. destruct (f_mark d Hd). congruence.
  - rewrite (X d Hd). intros E. destruct (f_mark d Hd). congruence.
  - rewrite (X c Hc). intros E. destruct (f_mark c Hc). congruence.
  - rewrite (X c Hc). intros E. destruct (f_mark c Hc). congruence.
  - rewrite (X c Hc), (X d Hd). auto.
Qed.

Lemma map_keep_marks_inj x y : over x -> over y -> map keep_marks x = map keep_marks y -> x = y.
Proof.
  revert y. induction x as [|c x IH]; intros [|d y] Hx Hy E; try discriminate; auto. inversion Hx; inversion Hy; subst. cbn in E. injection E as E1 E2. f_equal; auto using keep_marks_inj.
Qed.

Lemma padded_relabel w : (forall c, In c w -> In c (w1 ++ w2)) -> 2%N :: map f w ++ [3%N] = map keep_marks (2%N :: w ++ [3%N]).
Proof.
  intros H. cbn. f_equal. rewrite map_app. f_equal. apply map_ext_in. intros c Hc. unfold keep_marks. destruct clean_app as [M2 M3]. apply H in Hc.
  destruct (N.eqb_spec c 2); [subst; contradiction|]. destruct (N.eqb_spec c 3); [subst; contradiction|]. reflexivity.
Qed.

Lemma padded_over w : (forall c, In c w -> In c (w1 ++ w2)) -> over (2%N :: w ++ [3%N]).
Proof.
  intros H. constructor; [left; auto|]. apply Forall_app. split; [|constructor; [right; left; auto|constructor]]. apply Forall_forall. intros c Hc. right. right. auto.
Qed.

Lemma slice_map {A B} (g : A -> B) l i j : py_slice (map g l) i j = map g (py_slice l i j).
Proof. unfold py_slice. rewrite skipn_map, firstn_map. reflexivity. Qed.

Lemma slice_over w i j : over w -> over (py_slice w i j).
Proof.
  intros H. unfold py_slice, over in *. rewrite Forall_forall in *. intros c Hc. apply H.
  assert (X : forall (l : str) k, In c (firstn k l) -> In c l) by (intros l k Hk; rewrite <- (firstn_skipn k l); apply in_app_iff; auto).
  apply X in Hc. rewrite <- (firstn_skipn i w). apply in_app_iff. auto.
Qed.

Lemma locations_relabel w n num : over w ->
  locations rnd (map keep_marks w) n num = mapk (map keep_marks) (locations rnd w n num) /\ keysP over (locations rnd w n num).
Proof.
  intros Hw. unfold locations. assert (X : forall l d, keysP (V := list Qc) over d ->
    fold_left (fun d idx => dappend (py_slice (map keep_marks w) (Z.to_nat idx) (Z.to_nat (idx + n))) (rnd (qz idx / qz (Z.max 1 (num - 1)))) d) l (mapk (map keep_marks) d) =
    mapk (map keep_marks) (fold_left (fun d idx => dappend (py_slice w (Z.to_nat idx) (Z.to_nat (idx + n))) (rnd (qz idx / qz (Z.max 1 (num - 1)))) d) l d) /\
    keysP over (fold_left (fun d idx => dappend (py_slice w (Z.to_nat idx) (Z.to_nat (idx + n))) (rnd (qz idx / qz (Z.max 1 (num - 1)))) d) l d)).
  { induction l as [|i l IH]; intros d Hd; [auto|]. cbn [fold_left]. rewrite slice_map.
    pose proof (slice_over w (Z.to_nat i) (Z.to_nat (i + n)) Hw) as Hs.
    assert (E : dappend (map keep_marks (py_slice w (Z.to_nat i) (Z.to_nat (i + n)))) (rnd (qz i / qz (Z.max 1 (num - 1)))) (mapk (map keep_marks) d) =
      mapk (map keep_marks) (dappend (py_slice w (Z.to_nat i) (Z.to_nat (i + n))) (rnd (qz i / qz (Z.max 1 (num - 1)))) d)).
    { unfold dappend. rewrite (dget_mapk _ over map_keep_marks_inj) by auto. unfold str in *. match goal with |- context [dget ?k d] => destruct (dget k d) end; rewrite (dset_mapk _ over map_keep_marks_inj) by auto; reflexivity. }
    rewrite E. apply IH. unfold dappend. match goal with |- context [dget ?k d] => destruct (dget k d) end; apply keysP_dset; auto. }
  apply (X (py_range 0 num) []). intros k v [].
Qed.

Lemma sim_relabel l1 l2 s : keysP over l1 -> keysP over l2 ->
  foldM (sim_step rnd (mapk (map keep_marks) l2)) (mapk (map keep_marks) l1) s = foldM (sim_step rnd l2) l1 s.
Proof.
  intros H1 H2. revert s. induction l1 as [|[g l] l1 IH]; intros s; [reflexivity|]. cbn [mapk map fst snd foldM]. unfold sim_step at 1 3.
  rewrite (dget_mapk _ over map_keep_marks_inj) by (auto; eapply H1; left; reflexivity).
  assert (H1' : keysP over l1) by (intros a b H; eapply H1; right; exact H).
  destruct (dget g l2) as [l'|]; cbn [bind].
  - destruct (emd_1d_dp rnd l l') as [e|]; cbn [bind]; [|reflexivity]. apply IH; auto.
  - apply IH; auto.
Qed.

Lemma body_relabel n i m : nmd_body rnd (map f w1) (map f w2) n i m = nmd_body rnd w1 w2 n i m.
Proof.
  unfold nmd_body. rewrite !padded_relabel by (intros; apply in_app_iff; auto).
  assert (O1 : over (2%N :: w1 ++ [3%N])) by (apply padded_over; intros; apply in_app_iff; auto).
  assert (O2 : over (2%N :: w2 ++ [3%N])) by (apply padded_over; intros; apply in_app_iff; auto).
  assert (L : forall w : str, zlen (map keep_marks w) = zlen w) by (intros; unfold zlen; rewrite map_length; reflexivity). rewrite !L.
  destruct (locations_relabel _ n (zlen (2%N :: w1 ++ [3%N]) - n + 1) O1) as [-> K1]. destruct (locations_relabel _ n (zlen (2%N :: w2 ++ [3%N]) - n + 1) O2) as [-> K2].
  rewrite sim_relabel by auto. reflexivity.
Qed.

Lemma relabel_clean w : (forall c, In c w -> In c (w1 ++ w2)) -> clean (map f w).
Proof. intros H. split; intros I; apply in_map_iff in I; destruct I as (c & E & I); apply H, f_mark in I; tauto. Qed.

Lemma call_relabel vn i m :
  ngram_movers_distance rnd (PStr (map f w1)) (PStr (map f w2)) vn i m = ngram_movers_distance rnd (PStr w1) (PStr w2) vn i m.
Proof.
  unfold ngram_movers_distance. rewrite !check_word_clean; auto; [|apply relabel_clean; intros; apply in_app_iff; auto|apply relabel_clean; intros; apply in_app_iff; auto].
  cbn [bind]. destruct (check_n vn); cbn [bind]; [apply body_relabel|reflexivity].
Qed.
End Relabel.

(** ** Reading backwards *)

Definition mirror (c : Qc) (l : list Qc) : list Qc := map (fun q => c - q) l.

Lemma mirror_mirror c l : mirror c (mirror c l) = l.
Proof. unfold mirror. rewrite map_map. rewrite <- (map_id l) at 2. apply map_ext. intros. ring. Qed.

Lemma matching_mirror c xs ys k : matching_cost xs ys k -> matching_cost (mirror c xs) (mirror c ys) k.
Proof.
  intros (p & rx & ry & [P1 P2] & ->). exists (map (fun q => (c - fst q, c - snd q)) p), (mirror c rx), (mirror c ry). split.
  - split; rewrite map_map; cbn [fst snd]; unfold mirror.
    + eapply Permutation_trans; [apply Permutation_map, P1|]. rewrite map_app, map_map. apply Permutation_refl.
    + eapply Permutation_trans; [apply Permutation_map, P2|]. rewrite map_app, map_map. apply Permutation_refl.
  - unfold mirror, move_cost. rewrite !map_length, map_map. cbn [fst snd]. f_equal. f_equal. f_equal. apply map_ext. intros q.
    replace (c - fst q - (c - snd q)) with (snd q - fst q) by ring. apply qabs_sub_comm.
Qed.

Lemma emd_mirror c xs ys : emd (mirror c xs) (mirror c ys) = emd xs ys.
Proof.
  symmetry. apply emd_unique. destruct (emd_is_emd (mirror c xs) (mirror c ys)) as [H1 H2]. split.
  - apply (matching_mirror c) in H1. rewrite !mirror_mirror in H1. exact H1.
  - intros k Hk. apply H2, matching_mirror, Hk.
Qed.

Definition swap_marks (c : N) : N := if (c =? 2)%N then 3%N else if (c =? 3)%N then 2%N else c.
Definition backwards (g : str) : str := map swap_marks (rev g).

Lemma swap_swap c : swap_marks (swap_marks c) = c.
Proof. unfold swap_marks. destruct (N.eqb_spec c 2); [subst; reflexivity|]. destruct (N.eqb_spec c 3); [subst; reflexivity|]. destruct (N.eqb_spec c 2); [congruence|]. destruct (N.eqb_spec c 3); congruence. Qed.
Lemma backwards_involutive g : backwards (backwards g) = g.
Proof. unfold backwards. rewrite <- map_rev, rev_involutive, map_map. rewrite <- (map_id g) at 2. apply map_ext. apply swap_swap. Qed.
Lemma backwards_inj g g' : backwards g = backwards g' -> g = g'.
Proof. intros E. rewrite <- (backwards_involutive g), E. apply backwards_involutive. Qed.

Lemma padded_backwards w : clean w -> padded (rev w) = backwards (padded w).
Proof.
  intros [M2 M3]. unfold padded, backwards. cbn [app rev]. rewrite rev_app_distr. cbn [rev app map]. f_equal. rewrite map_app. f_equal.
  rewrite <- (map_id (rev w)) at 1. apply map_ext_in. intros c Hc. apply in_rev in Hc. unfold swap_marks.
  destruct (N.eqb_spec c 2); [subst; contradiction|]. destruct (N.eqb_spec c 3); [subst; contradiction|]. reflexivity.
Qed.

Lemma count_backwards n w : gram_count n (rev w) = gram_count n w.
Proof. unfold gram_count. rewrite rev_length. reflexivity. Qed.

Lemma nth_error_rev {A} (l : list A) i : (i < length l)%nat -> nth_error (rev l) i = nth_error l (length l - 1 - i).
Proof.
  revert i. induction l as [|a l IH]; intros i H; cbn [length rev] in *; [lia|]. destruct (Nat.lt_ge_cases i (length l)) as [L|L].
  - rewrite nth_error_app1 by (rewrite rev_length; auto). rewrite IH by auto. replace (S (length l) - 1 - i)%nat with (S (length l - 1 - i)) by lia. reflexivity.
  - rewrite nth_error_app2 by (rewrite rev_length; auto). rewrite rev_length. replace i with (length l) by lia. rewrite Nat.sub_diag. replace (S (length l) - 1 - length l)%nat with 0%nat by lia. reflexivity.
Qed.

Lemma gram_length n w i : (i < gram_count n w)%nat -> length (gram_at n w i) = n.
Proof. intros H. unfold gram_at. rewrite firstn_length, skipn_length, padded_length. unfold gram_count in H. lia. Qed.

Lemma gram_backwards n w i : clean w -> (i < gram_count n w)%nat -> gram_at n (rev w) i = backwards (gram_at n w (gram_count n w - 1 - i)).
Proof.
  intros C H. assert (L1 : length (gram_at n (rev w) i) = n) by (apply gram_length; rewrite count_backwards; auto).
  assert (L2 : length (gram_at n w (gram_count n w - 1 - i)) = n) by (apply gram_length; lia).
  apply nth_error_ext. intros k. destruct (Nat.lt_ge_cases k n) as [L|L].
  - rewrite nth_gram by auto. rewrite padded_backwards by auto. unfold backwards. rewrite !nth_error_map. f_equal.
    rewrite nth_error_rev by (rewrite padded_length; unfold gram_count in H; lia). rewrite nth_error_rev by lia. rewrite L2, padded_length, nth_gram by lia. f_equal. unfold gram_count in *. lia.
  - transitivity (@None N); [|symmetry]; apply nth_error_None; unfold backwards; rewrite ?map_length, ?rev_length; lia.
Qed.

Lemma nodup_map_on {A B} (g : A -> B) l : NoDup l -> (forall x y, In x l -> In y l -> g x = g y -> x = y) -> NoDup (map g l).
Proof.
  induction 1 as [|x l Hx N IH]; intros I; cbn; constructor.
  - intros C. apply in_map_iff in C. destruct C as (y & E & Hy). apply I in E; [subst; contradiction|right; auto|left; auto].
  - apply IH. intros a b Ha Hb. apply I; right; auto.
Qed.

Lemma seq_rev_perm N : Permutation (seq 0 N) (map (fun i => (N - 1 - i)%nat) (seq 0 N)).
Proof.
  apply NoDup_Permutation; [apply seq_NoDup| |].
  - apply nodup_map_on; [apply seq_NoDup|]. intros x y Hx Hy E. apply in_seq in Hx, Hy. lia.
  - intros x. rewrite in_map_iff, in_seq. split.
    + intros H. exists (N - 1 - x)%nat. rewrite in_seq. lia.
    + intros (y & <- & Hy). apply in_seq in Hy. lia.
Qed.

(** The last position: 1, or 0 for a single n-gram *)
Definition last_position (n : nat) (w : str) : Qc := position n w (gram_count n w - 1).

Lemma position_backwards n w i : (i < gram_count n w)%nat -> position n (rev w) (gram_count n w - 1 - i) = last_position n w - position n w i.
Proof.
  intros H. unfold last_position, position. rewrite count_backwards. set (N := gram_count n w) in *. set (D := qn (Nat.max 1 (N - 1))).
  assert (E : qn (N - 1) = qn (N - 1 - i) + qn i) by (rewrite <- qn_add; f_equal; lia).
  assert (E' : qn (N - 1 - i) = qn (N - 1) - qn i) by (rewrite E; ring).
  rewrite E'. unfold Qcdiv. ring.
Qed.

Lemma filter_map_comm {A B} (p : B -> bool) (g : A -> B) l : filter p (map g l) = map g (filter (fun x => p (g x)) l).
Proof. induction l as [|a l IH]; [reflexivity|]. cbn. destruct (p (g a)); cbn; rewrite IH; reflexivity. Qed.
Lemma filter_ext_on {A} (p q : A -> bool) l : (forall x, In x l -> p x = q x) -> filter p l = filter q l.
Proof. induction l as [|a l IH]; intros H; [reflexivity|]. cbn. rewrite H by (left; auto). rewrite IH by (intros; apply H; right; auto). reflexivity. Qed.

Lemma positions_backwards n w g : clean w -> Permutation (positions n (rev w) (backwards g)) (mirror (last_position n w) (positions n w g)).
Proof.
  intros C. unfold positions, mirror. rewrite count_backwards. set (N := gram_count n w).
  eapply Permutation_trans; [apply Permutation_map, filter_perm, (seq_rev_perm N)|].
  rewrite filter_map_comm, !map_map.
  rewrite (filter_ext_on _ (fun i => if eqd (gram_at n w i) g then true else false)).
  - erewrite map_ext_in; [apply Permutation_refl|]. intros i Hi. apply filter_In in Hi. destruct Hi as [Hi _]. apply in_seq in Hi. apply position_backwards. fold N. lia.
  - intros i Hi. apply in_seq in Hi. rewrite gram_backwards by (auto; fold N; lia). fold N. replace (N - 1 - (N - 1 - i))%nat with i by lia.
    destruct (eqd (gram_at n w i) g) as [G|G]; destruct (eqd (backwards (gram_at n w i)) (backwards g)) as [E|E]; auto.
    + exfalso. apply E. f_equal. exact G.
    + exfalso. apply G, backwards_inj, E.
Qed.

Lemma grams_backwards n w g : clean w -> In g (grams n (rev w)) <-> In (backwards g) (grams n w).
Proof.
  intros C. unfold grams. rewrite !in_map_iff. rewrite count_backwards. split; intros (i & E & Hi); apply in_seq in Hi.
  - exists (gram_count n w - 1 - i)%nat. rewrite in_seq. split; [|lia]. rewrite <- E, gram_backwards by (auto; lia). symmetry. apply backwards_involutive.
  - exists (gram_count n w - 1 - i)%nat. rewrite in_seq. split; [|lia]. rewrite gram_backwards by (auto; lia). replace (gram_count n w - 1 - (gram_count n w - 1 - i))%nat with i by lia. rewrite E. apply backwards_involutive.
Qed.

Lemma padded_marks w i : clean w -> (nth_error (padded w) i = Some 2%N -> i = 0%nat) /\ (nth_error (padded w) i = Some 3%N -> i = S (length w)).
Proof.
  intros [M2 M3]. unfold padded. cbn [app]. destruct i as [|i]; cbn [nth_error]; [split; auto; discriminate|].
  destruct (Nat.lt_trichotomy i (length w)) as [L|[->|L]].
  - rewrite nth_error_app1 by auto. split; intros E; apply nth_error_In in E; contradiction.
  - rewrite nth_error_app2, Nat.sub_diag by auto. cbn. split; auto; discriminate.
  - rewrite nth_error_app2 by lia. destruct (i - length w)%nat as [|[|k]] eqn:E; cbn; [lia| |]; split; discriminate.
Qed.

(** A word that is one n-gram shares it only with another such word. *)
Lemma single_shared n w1 w2 g : (1 <= n)%nat -> clean w1 -> clean w2 -> In g (grams n w1) -> In g (grams n w2) -> gram_count n w1 = 1%nat -> gram_count n w2 = 1%nat.
Proof.
  intros Hn C1 C2 I1 I2 E. unfold grams in I1, I2. rewrite E in I1. cbn [seq map] in I1. destruct I1 as [<-|[]].
  apply in_map_iff in I2. destruct I2 as (j & G & Hj). apply in_seq in Hj.
  assert (A : nth_error (gram_at n w2 j) 0 = Some 2%N) by (rewrite G, nth_gram by lia; reflexivity). rewrite nth_gram in A by lia. apply (proj1 (padded_marks w2 _ C2)) in A.
  assert (B : nth_error (gram_at n w2 j) (n - 1) = Some 3%N).
  { rewrite G, nth_gram by lia. cbn [Nat.add]. unfold gram_count in E. replace (n - 1)%nat with (S (length w1)) by lia. unfold padded. cbn [app nth_error]. rewrite nth_error_app2, Nat.sub_diag by auto. reflexivity. }
  rewrite nth_gram in B by lia. apply (proj2 (padded_marks w2 _ C2)) in B. unfold gram_count in *. lia.
Qed.

Lemma last_position_shared n w1 w2 g : (1 <= n)%nat -> clean w1 -> clean w2 -> In g (grams n w1) -> In g (grams n w2) -> last_position n w1 = last_position n w2.
Proof.
  intros Hn C1 C2 I1 I2.
  assert (P : forall w, In g (grams n w) -> (1 <= gram_count n w)%nat). { intros w I. unfold grams in I. apply in_map_iff in I. destruct I as (i & _ & Hi). apply in_seq in Hi. lia. }
  pose proof (P _ I1) as P1. pose proof (P _ I2) as P2. pose proof (single_shared n w1 w2 g Hn C1 C2 I1 I2) as X. pose proof (single_shared n w2 w1 g Hn C2 C1 I2 I1) as Y.
  unfold last_position, position. destruct (Nat.eq_dec (gram_count n w1) 1) as [E|E].
  - rewrite E, (X E). reflexivity.
  - assert (E2 : gram_count n w2 <> 1%nat) by auto. assert (Z : forall k, (2 <= k)%nat -> qn (k - 1) / qn (Nat.max 1 (k - 1)) = 1).
    { intros k Hk. rewrite Nat.max_r by lia. apply Qcmult_inv_r. intros C. change 0 with (qn 0) in C. apply qz_inj in C. lia. }
    rewrite !Z by lia. reflexivity.
Qed.

Lemma emd_positions_backwards n w1 w2 g : (1 <= n)%nat -> clean w1 -> clean w2 ->
  emd (positions n (rev w1) (backwards g)) (positions n (rev w2) (backwards g)) = emd (positions n w1 g) (positions n w2 g).
Proof.
  intros Hn C1 C2. rewrite (emd_perm _ _ _ _ (positions_backwards n w1 g C1) (positions_backwards n w2 g C2)).
  destruct (positions n w1 g) as [|x xs] eqn:E1.
  - cbn [mirror map]. rewrite !emd_nil_l. unfold mirror. rewrite map_length. reflexivity.
  - destruct (positions n w2 g) as [|y ys] eqn:E2.
    + cbn [mirror map]. rewrite !emd_nil_r. unfold mirror. cbn [length map]. rewrite map_length. reflexivity.
    + assert (I1 : In g (grams n w1)). { destruct (in_dec eqd g (grams n w1)) as [I|I]; auto. apply positions_nil in I. congruence. }
      assert (I2 : In g (grams n w2)). { destruct (in_dec eqd g (grams n w2)) as [I|I]; auto. apply positions_nil in I. congruence. }
      rewrite (last_position_shared n w1 w2 g Hn C1 C2 I1 I2). apply emd_mirror.
Qed.

Lemma dist_backwards n w1 w2 : (1 <= n)%nat -> clean w1 -> clean w2 -> dist n (rev w1) (rev w2) = dist n w1 w2.
Proof.
  intros Hn C1 C2. rewrite (dist_superset n (rev w1) (rev w2) (map backwards (all_grams n w1 w2))).
  - unfold dist. rewrite map_map. f_equal. apply map_ext. intros g. apply emd_positions_backwards; auto.
  - apply nodup_map_on; [apply all_grams_nodup|]. intros x y _ _. apply backwards_inj.
  - intros g Hg. apply in_map_iff. exists (backwards g). split; [apply backwards_involutive|]. rewrite all_grams_in in *. rewrite !grams_backwards in Hg by auto. exact Hg.
Qed.
