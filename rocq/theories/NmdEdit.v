(** The n-gram mover's distance of words that differ by edits. *)
From Coq Require Import ZArith NArith QArith Qcanon List Bool Permutation Lia.
From Verif Require Import Num Py ListAux PyDict EmdSpec EmdModel EmdProofs NmdSpec NmdModel NmdProofs EditSpec.
Import ListNotations.
Open Scope Qc_scope.

Lemma filter_perm {A} (p : A -> bool) l l' : Permutation l l' -> Permutation (filter p l) (filter p l').
Proof.
  induction 1 as [|x l l' H IH|x y l|l l' l'' H1 IH1 H2 IH2]; cbn; [constructor| | |eapply Permutation_trans; eauto].
  - destruct (p x); auto.
  - destruct (p x), (p y); auto using perm_swap.
Qed.

Notation is_gram g := (fun h : str => if eqd h g then true else false).

(** Summing up class by class *)
Lemma qsum_by_key {X} (key : X -> str) (f : X -> Qc) (ks : list str) l : NoDup ks -> (forall x, In x l -> In (key x) ks) ->
  qsum (map (fun g => qsum (map f (filter (fun x => is_gram g (key x)) l))) ks) = qsum (map f l).
Proof.
  intros Nk. induction l as [|a l IH]; intros I.
  - apply qsum_map_zero. reflexivity.
  - cbn [map qsum]. rewrite <- IH by (intros; apply I; right; auto).
    assert (Ha : In (key a) ks) by (apply I; left; auto).
    apply in_split in Ha. destruct Ha as (k1 & k2 & ->).
    apply NoDup_remove in Nk. destruct Nk as [_ Na].
    assert (E : forall k', (forall g, In g k' -> g <> key a) ->
      qsum (map (fun g => qsum (map f (filter (fun x => is_gram g (key x)) (a :: l)))) k') = qsum (map (fun g => qsum (map f (filter (fun x => is_gram g (key x)) l))) k')).
    { intros k' H. apply qsum_map_ext. intros g Hg. cbn [filter]. destruct (eqd (key a) g) as [E|]; [exfalso; eapply H; eauto|reflexivity]. }
    rewrite !map_app, !qsum_app. cbn [map qsum]. rewrite !E.
    + cbn [filter]. destruct (eqd (key a) (key a)); [|congruence]. cbn [map qsum]. ring.
    + intros g Hg ->. apply Na, in_app_iff; auto.
    + intros g Hg ->. apply Na, in_app_iff; auto.
Qed.

Lemma qn_length {X} (l : list X) : qn (length l) = qsum (map (fun _ => 1) l).
Proof. induction l; cbn [length map qsum]; [reflexivity|]. rewrite qn_S, IHl. ring. Qed.

(** A matching of indices with equal n-grams bounds the distance. *)
Lemma dist_le_pairs n w1 w2 (M : list (nat * nat)) r1 r2 :
  Permutation (seq 0 (gram_count n w1)) (map fst M ++ r1) ->
  Permutation (seq 0 (gram_count n w2)) (map snd M ++ r2) ->
  (forall i j, In (i, j) M -> gram_at n w1 i = gram_at n w2 j) ->
  dist n w1 w2 <= qsum (map (fun p => qabs (position n w1 (fst p) - position n w2 (snd p))) M) + qn (length r1) + qn (length r2).
Proof.
  intros P1 P2 G. set (ks := all_grams n w1 w2).
  set (f := fun p : nat * nat => qabs (position n w1 (fst p) - position n w2 (snd p))).
  assert (B1 : forall i, In i (map fst M ++ r1) -> In (gram_at n w1 i) ks).
  { intros i Hi. apply all_grams_in. left. apply in_map_iff. exists i. split; auto. eapply Permutation_in; [symmetry; exact P1|exact Hi]. }
  assert (B2 : forall i, In i (map snd M ++ r2) -> In (gram_at n w2 i) ks).
  { intros i Hi. apply all_grams_in. right. apply in_map_iff. exists i. split; auto. eapply Permutation_in; [symmetry; exact P2|exact Hi]. }
  rewrite (qn_length r1), (qn_length r2).
  rewrite <- (qsum_by_key (fun p => gram_at n w1 (fst p)) f ks M (all_grams_nodup _ _ _)) by (intros p Hp; apply B1, in_app_iff; left; apply in_map; auto).
  rewrite <- (qsum_by_key (gram_at n w1) (fun _ => 1) ks r1 (all_grams_nodup _ _ _)) by (intros p Hp; apply B1, in_app_iff; auto).
  rewrite <- (qsum_by_key (gram_at n w2) (fun _ => 1) ks r2 (all_grams_nodup _ _ _)) by (intros p Hp; apply B2, in_app_iff; auto).
  rewrite <- !qsum_map_add. unfold dist. apply qsum_map_le. intros g _. apply emd_le.
  exists (map (fun p => (position n w1 (fst p), position n w2 (snd p))) (filter (fun p => is_gram g (gram_at n w1 (fst p))) M)).
  exists (map (position n w1) (filter (fun i => is_gram g (gram_at n w1 i)) r1)), (map (position n w2) (filter (fun i => is_gram g (gram_at n w2 i)) r2)).
  split.
  - assert (E : filter (fun p : nat * nat => is_gram g (gram_at n w1 (fst p))) M = filter (fun p : nat * nat => is_gram g (gram_at n w2 (snd p))) M).
    { apply filter_ext_in. intros [i j] Hp. cbn [fst snd]. rewrite (G i j Hp). reflexivity. }
    split.
    + unfold positions. eapply Permutation_trans; [apply Permutation_map, filter_perm, P1|]. rewrite filter_app, map_app. apply Permutation_app_tail.
      rewrite filter_map, !map_map. apply Permutation_refl.
    + rewrite E. unfold positions. eapply Permutation_trans; [apply Permutation_map, filter_perm, P2|]. rewrite filter_app, map_app. apply Permutation_app_tail.
      rewrite filter_map, !map_map. apply Permutation_refl.
  - unfold move_cost. rewrite !map_length, !map_map. cbn [fst snd]. rewrite <- !qn_length. reflexivity.
Qed.

(** ** One edit *)

Lemma gram_at_alt n w i : gram_at n w i = firstn n (skipn i (2%N :: w ++ [3%N])).
Proof. reflexivity. Qed.

Lemma nth_gram n w i k : (k < n)%nat -> nth_error (gram_at n w i) k = nth_error (padded w) (i + k).
Proof. intros H. unfold gram_at. rewrite nth_error_firstn by auto. apply nth_error_skipn. Qed.

Lemma gram_eq n u v i j : (forall k, (k < n)%nat -> nth_error (padded u) (i + k) = nth_error (padded v) (j + k)) -> gram_at n u i = gram_at n v j.
Proof.
  intros H. apply nth_error_ext. intros k. destruct (Nat.lt_ge_cases k n) as [L|L].
  - rewrite !nth_gram by auto. auto.
  - transitivity (@None N); [|symmetry]; apply nth_error_None; unfold gram_at; pose proof (firstn_le_length n (skipn i (padded u))); pose proof (firstn_le_length n (skipn j (padded v))); lia.
Qed.

(** Padded words that agree up to [p] and, shifted, from [q] on *)
Lemma padded_mid a m b : padded (a ++ m ++ b) = (2%N :: a) ++ m ++ (b ++ [3%N]).
Proof. unfold padded. rewrite <- !app_assoc. reflexivity. Qed.

Lemma nth_mid_before {A} (a m b m' : list A) i : (i < length a)%nat -> nth_error (a ++ m ++ b) i = nth_error (a ++ m' ++ b) i.
Proof. intros H. rewrite !nth_error_app1; auto. Qed.
Lemma nth_mid_after {A} (a m b m' : list A) i : nth_error (a ++ m ++ b) (length a + length m + i) = nth_error (a ++ m' ++ b) (length a + length m' + i).
Proof.
  rewrite !app_assoc, (nth_error_app2 (a ++ m)), (nth_error_app2 (a ++ m')); rewrite ?app_length; try lia. f_equal. lia.
Qed.

(** Positions are within 1/N of each other when all are shifted by one place. *)
Lemma seq_split_at a b c : (a <= b)%nat -> (b <= c)%nat -> seq 0 c = seq 0 a ++ seq a (b - a) ++ seq b (c - b).
Proof.
  intros H1 H2. replace c with (a + ((b - a) + (c - b)))%nat at 1 by lia. rewrite seq_app, Nat.add_0_l, seq_app. repeat f_equal; lia.
Qed.


Lemma shift_seq B k : map (fun i => (B + i)%nat) (seq 0 k) = seq B k.
Proof.
  assert (X : forall s, map (fun i => (B + i)%nat) (seq s k) = seq (B + s) k).
  { induction k as [|k IH]; intros s; [reflexivity|]. cbn [seq map]. f_equal. rewrite IH. f_equal. lia. }
  rewrite X. f_equal. lia.
Qed.

(** The first [K] indices, those from [B] on, and the rest *)
Lemma cover K B N : (K <= N)%nat -> (K <= B)%nat ->
  exists r, Permutation (seq 0 N) ((seq 0 K ++ map (fun i => (B + i)%nat) (seq 0 (N - B))) ++ r) /\ (length r + (K + (N - B)) = N)%nat.
Proof.
  intros H1 H2. rewrite shift_seq. destruct (Nat.le_gt_cases N B) as [H|H].
  - replace (N - B)%nat with 0%nat by lia. cbn [seq]. rewrite app_nil_r. exists (seq K (N - K)). rewrite seq_length. split; [|lia].
    replace N with (K + (N - K))%nat at 1 by lia. rewrite seq_app. apply Permutation_refl.
  - exists (seq K (B - K)). rewrite seq_length. split; [|lia]. rewrite (seq_split_at K B N) by lia. rewrite <- app_assoc. apply Permutation_app_head, Permutation_app_comm.
Qed.

Section Replace.
Variables (n : nat) (a m m' b : str).
Let u := a ++ m ++ b.
Let v := a ++ m' ++ b.
Let A := S (length a).
Let N1 := gram_count n u.
Let N2 := gram_count n v.
(** windows before and after the replaced part *)
Let K := Nat.min (A + 1 - n) (Nat.min N1 N2).
Let B1 := (A + length m)%nat.
Let B2 := (A + length m')%nat.
Definition front : list (nat * nat) := map (fun i => (i, i)) (seq 0 K).
Definition back : list (nat * nat) := map (fun i => (B1 + i, B2 + i)%nat) (seq 0 (N1 - B1)).

Lemma back_same : (N1 - B1 = N2 - B2)%nat.
Proof. unfold N1, N2, B1, B2, gram_count, u, v, A. rewrite !app_length. lia. Qed.

Lemma kept_grams i j : In (i, j) (front ++ back) -> gram_at n u i = gram_at n v j.
Proof.
  intros H. apply in_app_iff in H. unfold front, back in H. destruct H as [H|H]; apply in_map_iff in H; destruct H as (k & E & H); apply in_seq in H.
  - assert (Ei : i = k) by congruence. assert (Ej : j = k) by congruence. subst i j.
    apply gram_eq. intros x Hx. unfold u, v. rewrite !padded_mid. apply nth_mid_before. cbn [length]. fold A. unfold K in H. lia.
  - assert (Ei : i = (B1 + k)%nat) by congruence. assert (Ej : j = (B2 + k)%nat) by congruence. subst i j.
    apply gram_eq. intros x Hx. unfold u, v. rewrite !padded_mid.
    pose proof (nth_mid_after (2%N :: a) m (b ++ [3%N]) m' (k + x)) as E'. rewrite !Nat.add_assoc in E'. exact E'.
Qed.

Lemma replace_bound : (1 <= n)%nat -> exists r1 r2,
  dist n u v <= qsum (map (fun p => qabs (position n u (fst p) - position n v (snd p))) (front ++ back)) + qn r1 + qn r2 /\
  (r1 + (K + (N1 - B1)) = N1)%nat /\ (r2 + (K + (N2 - B2)) = N2)%nat.
Proof.
  intros Hn. destruct (cover K B1 N1) as (r1 & P1 & E1); [unfold K; lia|unfold K, B1; lia|].
  destruct (cover K B2 N2) as (r2 & P2 & E2); [unfold K; lia|unfold K, B2; lia|].
  exists (length r1), (length r2). split; [|split; auto]. apply dist_le_pairs; [| |apply kept_grams].
  - unfold front, back. rewrite map_app, !map_map. cbn [fst]. rewrite map_id. exact P1.
  - unfold front, back. rewrite map_app, !map_map. cbn [snd]. rewrite map_id. rewrite back_same. exact P2.
Qed.

(** parts of the same length: no n-gram moves *)
Lemma same_length_moves : length m = length m' -> qsum (map (fun p => qabs (position n u (fst p) - position n v (snd p))) (front ++ back)) = 0.
Proof.
  intros E. apply qsum_map_zero. intros [i j] H. cbn [fst snd].
  assert (EN : N1 = N2) by (unfold N1, N2, gram_count, u, v; rewrite !app_length, E; reflexivity).
  assert (Eij : i = j).
  { apply in_app_iff in H. unfold front, back in H. destruct H as [H|H]; apply in_map_iff in H; destruct H as (k & E' & _); [congruence|]. unfold B1, B2 in E'. rewrite E in E'. congruence. }
  subst j. unfold position. fold N1 N2. rewrite EN. unfold qabs. match goal with |- (if qleb 0 ?t then _ else _) = _ => replace t with 0 by ring end. reflexivity.
Qed.
End Replace.

Lemma substitute_bound n a x y b : (1 <= n)%nat -> dist n (a ++ x :: b) (a ++ y :: b) <= qn (2 * n).
Proof.
  intros Hn. destruct (replace_bound n a [x] [y] b Hn) as (r1 & r2 & H & E1 & E2). rewrite same_length_moves in H by reflexivity. cbn [app] in H.
  eapply Qcle_trans; [exact H|]. rewrite Qcplus_0_l, <- qn_add. apply qn_le. unfold gram_count in *. rewrite !app_length in *. cbn [length] in *. lia.
Qed.

Lemma transpose_bound n a x y b : (1 <= n)%nat -> dist n (a ++ x :: y :: b) (a ++ y :: x :: b) <= qn (2 * n + 2).
Proof.
  intros Hn. destruct (replace_bound n a [x; y] [y; x] b Hn) as (r1 & r2 & H & E1 & E2). rewrite same_length_moves in H by reflexivity. cbn [app] in H.
  eapply Qcle_trans; [exact H|]. rewrite Qcplus_0_l, <- qn_add. apply qn_le. unfold gram_count in *. rewrite !app_length in *. cbn [length] in *. lia.
Qed.

(** One place more: a position changes by at most 1/N. *)
Lemma qabs_le t c : t <= c -> - c <= t -> qabs t <= c.
Proof. intros H1 H2. unfold qabs. destruct (qleb 0 t); auto. clear H1. qclra. Qed.

Lemma frac_shift (i p : Qc) : 0 < p -> 0 <= i -> i <= p -> qabs (i / p - i / (p + 1)) <= / (p + 1) /\ qabs (i / p - (i + 1) / (p + 1)) <= / (p + 1).
Proof.
  intros P I0 I1. assert (P1 : 0 < p + 1) by qclra. assert (N0 : p <> 0) by (intros E; rewrite E in P; discriminate). assert (N1 : p + 1 <> 0) by (intros E; rewrite E in P1; discriminate).
  set (w := / (p * (p + 1))). assert (W : 0 <= w) by (apply qinv_nonneg; rewrite <- (Qcmult_0_l (p + 1)); apply Qcmult_lt_compat_r; auto).
  assert (E0 : / (p + 1) = p * w) by (unfold w; field; auto).
  replace (i / p - i / (p + 1)) with (i * w) by (unfold w; field; auto).
  replace (i / p - (i + 1) / (p + 1)) with ((i - p) * w) by (unfold w; field; auto). rewrite E0.
  assert (X1 : 0 <= i * w) by (rewrite <- (Qcmult_0_l w); apply Qcmult_le_compat_r; auto).
  assert (X2 : i * w <= p * w) by (apply Qcmult_le_compat_r; auto).
  split; apply qabs_le; auto.
  - clear - X1 X2. qclra.
  - replace ((i - p) * w) with (i * w - p * w) by ring. clear - X1 X2. qclra.
  - replace ((i - p) * w) with (i * w - p * w) by ring. clear - X1 X2. qclra.
Qed.

Lemma position_shift n u v i : gram_count n v = S (gram_count n u) -> (i < gram_count n u)%nat ->
  qabs (position n u i - position n v i) <= / qn (gram_count n u) /\ qabs (position n u i - position n v (S i)) <= / qn (gram_count n u).
Proof.
  intros E L. unfold position. rewrite E. set (N := gram_count n u) in *. replace (Nat.max 1 (S N - 1)) with N by lia.
  destruct N as [|[|k]]; [lia| |].
  - replace i with 0%nat by lia. split; discriminate.
  - replace (Nat.max 1 (S (S k) - 1)) with (S k) by lia. rewrite !(qn_S (S k)), (qn_S i). apply frac_shift.
    + apply qn_pos. lia.
    + apply qn_nonneg.
    + apply qn_le. lia.
Qed.

Lemma qsum_map_const {X} (l : list X) (c : Qc) : qsum (map (fun _ => c) l) = qn (length l) * c.
Proof. induction l; cbn [length map qsum]; [rewrite qn_0; ring|]. rewrite qn_S, IHl. ring. Qed.

Lemma insert_bound n a x b : (1 <= n)%nat -> dist n (a ++ b) (a ++ x :: b) <= qn (2 * n).
Proof.
  intros Hn. destruct (replace_bound n a [] [x] b Hn) as (r1 & r2 & H & E1 & E2). cbn [app] in *.
  set (u := a ++ b) in *. set (v := a ++ x :: b) in *. set (M := front n a [] [x] b ++ back n a [] [x] b) in *.
  assert (Hl : length v = S (length u)) by (unfold u, v; rewrite !app_length; cbn; lia).
  assert (HA : (length a <= length u)%nat) by (unfold u; rewrite app_length; lia).
  destruct (gram_count n u) as [|k] eqn:Ek.
  - eapply Qcle_trans; [apply dist_upper|]. rewrite <- qn_add. apply qn_le. unfold gram_count in *. lia.
  - assert (Ev : gram_count n v = S (gram_count n u)) by (unfold gram_count in *; lia).
    assert (LM : length M = (Nat.min (S (length a) + 1 - n) (Nat.min (gram_count n u) (gram_count n v)) + (gram_count n u - S (length a)))%nat).
    { unfold M, front, back. rewrite app_length, !map_length, !seq_length. cbn [app length]. fold u v. rewrite Nat.add_0_r. reflexivity. }
    assert (S1 : qsum (map (fun p => qabs (position n u (fst p) - position n v (snd p))) M) <= 1).
    { apply Qcle_trans with (qsum (map (fun _ => / qn (gram_count n u)) M)).
      - apply qsum_map_le. intros [i j] Hp. cbn [fst snd]. unfold M in Hp. apply in_app_iff in Hp. unfold front, back in Hp. cbn [app length] in Hp. fold u v in Hp.
        destruct Hp as [Hp|Hp]; apply in_map_iff in Hp; destruct Hp as (t & E & Ht); apply in_seq in Ht.
        + assert (i = t) by congruence. assert (j = t) by congruence. subst i j. refine (proj1 (position_shift n u v t Ev _)). clear - Ht. lia.
        + assert (i = (S (length a) + 0 + t)%nat) by congruence. assert (j = (S (length a) + 1 + t)%nat) by congruence. subst i j.
          replace (S (length a) + 1 + t)%nat with (S (S (length a) + 0 + t)) by (clear; lia). refine (proj2 (position_shift n u v (S (length a) + 0 + t) Ev _)). clear - Ht. lia.
      - rewrite qsum_map_const. assert (Pu : 0 < qn (gram_count n u)) by (apply qn_pos; lia).
        apply Qcle_trans with (qn (gram_count n u) * / qn (gram_count n u)).
        + apply Qcmult_le_compat_r; [apply qn_le; rewrite LM; clear - HA Hn; unfold gram_count; lia|apply qinv_nonneg; auto].
        + rewrite Qcmult_inv_r; [apply Qcle_refl|]. intros E. rewrite E in Pu. discriminate. }
    eapply Qcle_trans; [exact H|]. apply Qcle_trans with (1 + qn r1 + qn r2).
    + apply Qcplus_le_compat; [|apply Qcle_refl]. apply Qcplus_le_compat; [exact S1|apply Qcle_refl].
    + rewrite <- qn_1, <- !qn_add. apply qn_le. unfold gram_count in *. cbn [length] in *. lia.
Qed.

(** ** Many edits *)

Lemma one_edit_bound n u v : (1 <= n)%nat -> one_edit u v -> dist n u v <= qn (2 * n).
Proof.
  intros Hn [a x b|a x b|a x y b].
  - apply insert_bound; auto.
  - rewrite dist_sym. apply insert_bound; auto.
  - apply substitute_bound; auto.
Qed.

Lemma one_edit_t_bound n u v : (1 <= n)%nat -> one_edit_t u v -> dist n u v <= qn (2 * n + 2).
Proof.
  intros Hn [u' v' H|a x y b].
  - eapply Qcle_trans; [apply one_edit_bound; eauto|]. apply qn_le. lia.
  - apply transpose_bound; auto.
Qed.

Lemma steps_bound n (step : str -> str -> Prop) c : (forall u v, step u v -> dist n u v <= qn c) -> forall k u v, in_steps step k u v -> dist n u v <= qn (c * k).
Proof.
  intros H. induction 1 as [u|k u v w S IH E].
  - rewrite dist_self, Nat.mul_0_r. apply Qcle_refl.
  - eapply Qcle_trans; [apply (dist_triangle n u v w)|]. rewrite Nat.mul_succ_r, qn_add. apply Qcplus_le_compat; auto.
Qed.
