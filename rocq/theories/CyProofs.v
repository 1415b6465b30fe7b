(** Proofs about experiments/emd_1d_cython.pyx (model: CyModel.v). *)
From Coq Require Import ZArith QArith Qcanon List Bool Permutation Lia.
From Verif Require Import Num Py ListAux Float64 EmdSpec EmdModel EmdProofs EmdFloatProofs CyModel.
Import ListNotations.
Open Scope Qc_scope.

Lemma update_same b p v : update b p v p = v.
Proof. unfold update. rewrite Nat.eqb_refl. reflexivity. Qed.
Lemma update_other b p v i : i <> p -> update b p v i = b i.
Proof. intros H. unfold update. destruct (Nat.eqb_spec i p); [contradiction|reflexivity]. Qed.

(** [s'] is [s] with the block [p] replaced by [b]. *)
Definition becomes (s : mem) (p : nat) (b : list (option Qc)) (s' : mem) : Prop :=
  next s' = next s /\ blocks s' p = Some b /\ forall i, i <> p -> blocks s' i = blocks s i.

Lemma becomes_trans s p b s1 b' s2 : becomes s p b s1 -> becomes s1 p b' s2 -> becomes s p b' s2.
Proof. intros (N1 & B1 & O1) (N2 & B2 & O2). split; [congruence|]. split; auto. intros i Hi. rewrite O2, O1; auto. Qed.

Section Rnd.
Variables (rnd : Qc -> Qc) (succeeds : nat -> bool).

Lemma store_ok s p b k v : blocks s p = Some b -> (k < length b)%nat ->
  exists s', store (Some p) k v s = Done tt s' /\ becomes s p (list_set b k (Some v)) s'.
Proof.
  intros B K. unfold store. rewrite B. destruct (Nat.ltb_spec k (length b)); [|lia]. eexists. split; [reflexivity|].
  split; [reflexivity|]. split; [apply update_same|]. intros. apply update_other. auto.
Qed.

Lemma load_ok s p b k v : blocks s p = Some b -> nth_error b k = Some (Some v) -> load (Some p) k s = Done v s.
Proof. intros B K. unfold load. rewrite B, K. reflexivity. Qed.

Lemma load_map s p l k : blocks s p = Some (map Some l) -> (k < length l)%nat -> load (Some p) k s = Done (nth k l 0) s.
Proof.
  intros B K. eapply load_ok; eauto. rewrite nth_error_map, (nth_error_nth' _ 0) by auto. reflexivity.
Qed.

Lemma loop_app {A S} (f : S -> A -> M S) l1 l2 st s :
  loop f (l1 ++ l2) st s = (st' <~ loop f l1 st ;; loop f l2 st') s.
Proof.
  revert st s. induction l1 as [|a l1 IH]; intros st s; [reflexivity|]. cbn [loop app]. unfold seqM at 1 2 3.
  destruct (f st a s); auto. apply IH.
Qed.

(** Storing the elements of a list one after the other. *)
Lemma fill s p b vs k : blocks s p = Some b -> (k + length vs <= length b)%nat ->
  exists s', each (fun e => store (Some p) (fst e) (snd e)) (combine (seq k (length vs)) vs) s = Done tt s' /\
    becomes s p (firstn k b ++ map Some vs ++ skipn (k + length vs) b) s'.
Proof.
  revert s b k. induction vs as [|v vs IH]; intros s b k B K.
  - exists s. split; [reflexivity|]. split; auto. split; auto. cbn [map app length]. rewrite Nat.add_0_r, firstn_skipn. exact B.
  - cbn [length] in K. destruct (store_ok s p b k v B) as (s1 & E1 & Be1); [lia|].
    assert (Bl := proj1 (proj2 Be1)). destruct (IH s1 (list_set b k (Some v)) (S k) Bl) as (s2 & E2 & Be2).
    { rewrite list_set_length. lia. }
    exists s2. split.
    + unfold each in *. cbn [length seq combine loop fst snd]. unfold seqM. rewrite E1. exact E2.
    + eapply becomes_trans; [exact Be1|]. replace (firstn k b ++ map Some (v :: vs) ++ skipn (k + length (v :: vs)) b)
        with (firstn (S k) (list_set b k (Some v)) ++ map Some vs ++ skipn (S k + length vs) (list_set b k (Some v))); [exact Be2|].
      assert (Hb : b = firstn k b ++ nth k b None :: skipn (S k) b).
      { rewrite <- (skipn_cons_nth b k None) by lia. symmetry. apply firstn_skipn. }
      assert (Lk : length (firstn k b) = k) by (rewrite firstn_length; lia).
      assert (Hs : list_set b k (Some v) = firstn k b ++ Some v :: skipn (S k) b).
      { rewrite Hb at 1. pose proof (list_set_app (firstn k b) (skipn (S k) b) (nth k b None) (Some v)) as X. rewrite Lk in X. exact X. }
      rewrite Hs. rewrite <- (Nat.add_1_r k) at 1. rewrite <- Lk at 1.
      rewrite firstn_app_2. cbn [firstn]. rewrite <- app_assoc. cbn [app map length]. do 3 f_equal.
      rewrite <- Lk at 1. replace (S (length (firstn k b)) + length vs)%nat with (length (firstn k b) + S (length vs))%nat by lia.
      rewrite skipn_app, skipn_all2 by lia. cbn [app]. replace (length (firstn k b) + S (length vs) - length (firstn k b))%nat with (S (length vs)) by lia.
      rewrite skipn_cons. assert (Sk : forall (l : list (option Qc)) i j, skipn i (skipn j l) = skipn (j + i) l).
      { clear. induction l as [|a l IH]; intros i j; [rewrite !skipn_nil; reflexivity|]. destruct j; [reflexivity|]. cbn [skipn Nat.add]. apply IH. }
      rewrite Sk. f_equal. lia.
Qed.

Lemma fill_all s p b vs : blocks s p = Some b -> length vs = length b ->
  exists s', each (fun e => store (Some p) (fst e) (snd e)) (combine (seq 0 (length vs)) vs) s = Done tt s' /\ becomes s p (map Some vs) s'.
Proof.
  intros B L. destruct (fill s p b vs 0 B) as (s' & E & Be); [lia|]. exists s'. split; auto.
  cbn [firstn app Nat.add] in Be. rewrite L, skipn_all, app_nil_r in Be. exact Be.
Qed.

(** Reading a whole block. *)
Lemma read_all s p l k acc : blocks s p = Some (map Some l) -> (k <= length l)%nat ->
  loop (fun acc i => v <~ load (Some p) i ;; ret (acc ++ [v])) (seq 0 k) acc s = Done (acc ++ firstn k l) s.
Proof.
  intros B. induction k as [|k IH]; intros K; [cbn; rewrite app_nil_r; reflexivity|].
  rewrite seq_S, loop_app. unfold seqM at 1. rewrite IH by lia. cbn [loop Nat.add]. unfold seqM. rewrite (load_map s p l k B) by lia.
  unfold ret. rewrite (firstn_snoc l k 0) by lia. rewrite app_assoc. reflexivity.
Qed.

Fixpoint all_numbers (l : list (option Qc)) : option (list Qc) :=
  match l with
  | [] => Some []
  | Some q :: l => match all_numbers l with Some r => Some (q :: r) | None => None end
  | None :: _ => None
  end.

Lemma all_numbers_map l qs : all_numbers l = Some qs <-> l = map Some qs.
Proof.
  revert qs. induction l as [|[q|] l IH]; intros qs; cbn [all_numbers].
  - destruct qs; split; intros H; try reflexivity; discriminate.
  - destruct (all_numbers l) as [r|].
    + split; [intros [= <-]; cbn; f_equal; apply IH; reflexivity|]. destruct qs as [|q' qs]; intros H; [discriminate|]. injection H as <- H.
      apply IH in H. congruence.
    + split; [discriminate|]. destruct qs as [|q' qs]; intros H; [discriminate|]. injection H as <- H. apply IH in H. discriminate.
  - split; [discriminate|]. destruct qs; discriminate.
Qed.

Lemma convert_stores s p l k b : blocks s p = Some b -> (k + length l <= length b)%nat ->
  match all_numbers l with
  | Some qs => each (fun e => match snd e with Some q => store (Some p) (fst e) (rnd q) | None => raise BadElement end) (combine (seq k (length l)) l) s
               = each (fun e => store (Some p) (fst e) (snd e)) (combine (seq k (length (map rnd qs))) (map rnd qs)) s
  | None => exists s' b', each (fun e => match snd e with Some q => store (Some p) (fst e) (rnd q) | None => raise BadElement end) (combine (seq k (length l)) l) s
               = Raised BadElement s' /\ becomes s p b' s'
  end.
Proof.
  revert s k b. induction l as [|[q|] l IH]; intros s k b B K; cbn [all_numbers].
  - reflexivity.
  - cbn [length] in K. destruct (store_ok s p b k (rnd q) B) as (s1 & E1 & Be); [lia|].
    assert (B1 := proj1 (proj2 Be)). specialize (IH s1 (S k) _ B1). rewrite list_set_length in IH. specialize (IH ltac:(lia)).
    destruct (all_numbers l) as [qs|].
    + unfold each in *. cbn [map length seq combine loop fst snd]. unfold seqM at 1. rewrite E1. unfold seqM. rewrite E1. exact IH.
    + destruct IH as (s' & b' & E & Be'). exists s', b'. split; [|eapply becomes_trans; eauto].
      unfold each in *. cbn [length seq combine loop fst snd]. unfold seqM. rewrite E1. exact E.
  - exists s, b. split; [reflexivity|]. split; auto.
Qed.

Lemma convert_spec s p l : blocks s p = Some (repeat None (length l)) ->
  match all_numbers l with
  | Some qs => exists s', convert rnd (Some p) l s = Done tt s' /\ becomes s p (map Some (qsort (map rnd qs))) s'
  | None => exists s' b, convert rnd (Some p) l s = Raised BadElement s' /\ becomes s p b s'
  end.
Proof.
  intros B. assert (Lb : length (repeat (@None Qc) (length l)) = length l) by apply repeat_length.
  pose proof (convert_stores s p l 0 _ B) as C. rewrite Lb in C. specialize (C (le_n _)). unfold convert.
  destruct (all_numbers l) as [qs|] eqn:En.
  - apply all_numbers_map in En. assert (Lq : length (map rnd qs) = length l) by (rewrite En, !map_length; reflexivity).
    destruct (fill_all s p _ (map rnd qs) B) as (s1 & E1 & Be1); [congruence|].
    assert (B1 := proj1 (proj2 Be1)).
    destruct (fill_all s1 p _ (qsort (map rnd qs)) B1) as (s2 & E2 & Be2); [rewrite qsort_length, !map_length; reflexivity|].
    exists s2. split; [|eapply becomes_trans; eauto].
    unfold seqM at 1. rewrite C, E1. unfold seqM. rewrite <- Lq at 1. rewrite (read_all s1 p (map rnd qs)) by auto. rewrite firstn_all. cbn [app].
    rewrite qsort_length in E2. rewrite Lq in E2. exact E2.
  - destruct C as (s' & b & E & Be). exists s', b. split; auto. unfold seqM. rewrite E. reflexivity.
Qed.

(** The table. *)
Definition c_mixed x y i k (old : list (option Qc)) : list (option Qc) :=
  map (fun j => Some (cell rnd x y i j)) (seq 0 (S k)) ++ skipn (S k) old.

Lemma c_mixed_length x y i k old : (k <= length y)%nat -> length old = S (length y) -> length (c_mixed x y i k old) = S (length y).
Proof. intros Hk Hl. unfold c_mixed. rewrite app_length, map_length, seq_length, skipn_length. lia. Qed.

Lemma nth_c_mixed x y i k old j : (j <= k)%nat -> nth_error (c_mixed x y i k old) j = Some (Some (cell rnd x y i j)).
Proof.
  intros H. unfold c_mixed. rewrite nth_error_app1 by (rewrite map_length, seq_length; lia).
  rewrite nth_error_map. rewrite (nth_error_nth' _ 0%nat) by (rewrite seq_length; lia). rewrite seq_nth by lia. reflexivity.
Qed.

Lemma c_mixed_step x y i k old : (S k <= length y)%nat -> length old = S (length y) ->
  list_set (c_mixed x y i k old) (S k) (Some (cell rnd x y i (S k))) = c_mixed x y i (S k) old.
Proof.
  intros Hk Hl. unfold c_mixed. rewrite (skipn_cons_nth old (S k) None) by lia.
  pose proof (list_set_app (map (fun j => Some (cell rnd x y i j)) (seq 0 (S k))) (skipn (S (S k)) old) (nth (S k) old None)
                (Some (cell rnd x y i (S k)))) as E.
  rewrite map_length, seq_length in E. rewrite E. rewrite (seq_S (S k) 0), map_app, <- app_assoc. reflexivity.
Qed.

Lemma c_mixed_full x y i old : length old = S (length y) -> c_mixed x y i (length y) old = map Some (row rnd x y i).
Proof. intros Hl. unfold c_mixed, row. rewrite skipn_all2 by lia. rewrite app_nil_r, map_map. reflexivity. Qed.

(** The comparisons of lines 130-135 choose the minimum. *)
Lemma choose_min (f : Qc -> M unit) a b c :
  (if qleb a b && qleb a c then f a else if qleb b a && qleb b c then f b else f c) = f (qmin3 a b c).
Proof.
  assert (H : (if qleb a b && qleb a c then a else if qleb b a && qleb b c then b else c) = qmin3 a b c).
  { unfold qmin3, qmin. destruct (qleb a b) eqn:E1, (qleb a c) eqn:E2, (qleb b a) eqn:E3, (qleb b c) eqn:E4; simpl; rewrite ?E1, ?E2, ?E3, ?E4; auto; qclra. }
  rewrite <- H. destruct (qleb a b && qleb a c); [reflexivity|]. destruct (qleb b a && qleb b c); reflexivity.
Qed.

Section Rows.
Variables (x y : list Qc) (xp yp : nat).

Lemma c_cell_step s pp cp i k old : (i < length x)%nat -> (k < length y)%nat -> length old = S (length y) ->
  blocks s xp = Some (map Some x) -> blocks s yp = Some (map Some y) -> blocks s pp = Some (map Some (row rnd x y i)) ->
  blocks s cp = Some (c_mixed x y (S i) k old) ->
  exists s', c_cell rnd (Some xp) (Some yp) (Some pp) (Some cp) (S i) (S k) s = Done tt s' /\ becomes s cp (c_mixed x y (S i) (S k) old) s'.
Proof.
  intros Hi Hk Hl Bx By Bp Bc. unfold c_cell, seqM. replace (S i - 1)%nat with i by lia. replace (S k - 1)%nat with k by lia.
  rewrite (load_map s xp x i Bx Hi), (load_map s yp y k By Hk).
  rewrite (load_map s pp _ k Bp), (load_map s pp _ (S k) Bp) by (rewrite row_length; lia).
  rewrite (load_ok s cp _ k _ Bc (nth_c_mixed x y (S i) k old k (le_n _))). cbv zeta. rewrite choose_min.
  rewrite !nth_row by lia. rewrite <- cell_SS by auto.
  destruct (store_ok s cp _ (S k) (cell rnd x y (S i) (S k)) Bc) as (s' & E & Be); [rewrite c_mixed_length; lia|].
  exists s'. split; [exact E|]. rewrite c_mixed_step in Be by (auto; lia). exact Be.
Qed.

Lemma c_inner s pp cp i old k : (i < length x)%nat -> (k <= length y)%nat -> length old = S (length y) ->
  xp <> cp -> yp <> cp -> pp <> cp ->
  blocks s xp = Some (map Some x) -> blocks s yp = Some (map Some y) -> blocks s pp = Some (map Some (row rnd x y i)) ->
  blocks s cp = Some (c_mixed x y (S i) 0 old) ->
  exists s', each (c_cell rnd (Some xp) (Some yp) (Some pp) (Some cp) (S i)) (seq 1 k) s = Done tt s' /\ becomes s cp (c_mixed x y (S i) k old) s'.
Proof.
  intros Hi Hk Hl N1 N2 N3 Bx By Bp Bc. induction k as [|k IH].
  - exists s. split; [reflexivity|]. split; auto.
  - destruct IH as (s1 & E1 & Be); [lia|]. destruct Be as (Nx & B1 & O1).
    destruct (c_cell_step s1 pp cp i k old) as (s2 & E2 & Be2); auto; try (rewrite O1 by auto; auto).
    exists s2. split; [|eapply becomes_trans; [split; [|split]|]; eauto].
    unfold each in *. rewrite seq_S, loop_app. unfold seqM at 1. rewrite E1. cbn [loop Nat.add]. unfold seqM. rewrite E2. reflexivity.
Qed.

Lemma c_row_step s pp cp i old : (i < length x)%nat -> length old = S (length y) ->
  xp <> cp -> yp <> cp -> pp <> cp ->
  blocks s xp = Some (map Some x) -> blocks s yp = Some (map Some y) -> blocks s pp = Some (map Some (row rnd x y i)) ->
  blocks s cp = Some old ->
  exists s', c_row rnd (Some xp) (Some yp) (length y) (Some pp, Some cp) (S i) s = Done (Some cp, Some pp) s' /\
    becomes s cp (map Some (row rnd x y (S i))) s'.
Proof.
  intros Hi Hl N1 N2 N3 Bx By Bp Bc. unfold c_row.
  destruct (store_ok s cp old 0 (qn (S i)) Bc) as (s1 & E1 & Be1); [lia|]. destruct Be1 as (Nx & B1 & O1).
  assert (Em : list_set old 0 (Some (qn (S i))) = c_mixed x y (S i) 0 old).
  { unfold c_mixed. destruct old as [|o old]; [discriminate|]. cbn [list_set seq map app skipn]. rewrite cell_0_r by lia. reflexivity. }
  rewrite Em in B1.
  destruct (c_inner s1 pp cp i old (length y)) as (s2 & E2 & Be2); auto; try (rewrite O1 by auto; auto).
  rewrite c_mixed_full in Be2 by auto. exists s2. split; [|eapply becomes_trans; [split; [|split]|]; eauto].
  unfold seqM. rewrite E1, E2. reflexivity.
Qed.

(** After [k] rounds the two buffers have changed roles [k] times. *)
Lemma c_outer s pp cp k : (k <= length x)%nat ->
  xp <> cp -> yp <> cp -> pp <> cp -> xp <> pp -> yp <> pp ->
  blocks s xp = Some (map Some x) -> blocks s yp = Some (map Some y) -> blocks s pp = Some (map Some (row rnd x y 0)) ->
  blocks s cp = Some (repeat None (S (length y))) ->
  exists s' a b old, loop (c_row rnd (Some xp) (Some yp) (length y)) (seq 1 k) (Some pp, Some cp) s = Done (Some a, Some b) s' /\
    (a = pp /\ b = cp \/ a = cp /\ b = pp) /\ blocks s' a = Some (map Some (row rnd x y k)) /\ blocks s' b = Some old /\ length old = S (length y) /\
    forall i, i <> pp -> i <> cp -> blocks s' i = blocks s i.
Proof.
  intros Hk N1 N2 N3 N4 N5 Bx By Bp Bc. induction k as [|k IH].
  - exists s, pp, cp, (repeat None (S (length y))). repeat split; auto. apply repeat_length.
  - destruct IH as (s1 & a & b & old & E & Ab & Ba & Bb & Lo & O1); [lia|].
    assert (N : xp <> b /\ yp <> b /\ a <> b) by (destruct Ab as [[-> ->]|[-> ->]]; auto). destruct N as (M1 & M2 & M3).
    destruct (c_row_step s1 a b k old) as (s2 & E2 & (Nx & B2 & O2)); auto; try (rewrite O1 by auto; auto).
    exists s2, b, a, (map Some (row rnd x y k)). split; [|split; [|split; [|split; [|split]]]].
    + rewrite seq_S, loop_app. unfold seqM at 1. rewrite E. cbn [loop Nat.add]. unfold seqM. rewrite E2. reflexivity.
    + tauto.
    + exact B2.
    + rewrite O2; auto.
    + rewrite map_length. apply row_length.
    + intros i Hi1 Hi2. rewrite O2, O1; auto. destruct Ab as [[_ ->]|[_ ->]]; auto.
Qed.
End Rows.

Lemma free_ok s p b : blocks s p = Some b -> exists s', free (Some p) s = Done tt s' /\ blocks s' p = None /\ forall i, i <> p -> blocks s' i = blocks s i.
Proof.
  intros B. unfold free. rewrite B. eexists. split; [reflexivity|]. cbn [blocks]. split; [apply update_same|]. intros. apply update_other. auto.
Qed.

Lemma malloc_ok s n : succeeds (next s) = true ->
  exists s', malloc succeeds n s = Done (Some (next s)) s' /\ next s' = S (next s) /\ blocks s' (next s) = Some (repeat None n) /\
    forall i, i <> next s -> blocks s' i = blocks s i.
Proof.
  intros H. unfold malloc. rewrite H. eexists. split; [reflexivity|]. cbn [blocks next]. split; auto. split; [apply update_same|].
  intros. apply update_other. auto.
Qed.

Lemma malloc_fail s n : succeeds (next s) = false ->
  exists s', malloc succeeds n s = Done None s' /\ next s' = S (next s) /\ forall i, blocks s' i = blocks s i.
Proof. intros H. unfold malloc. rewrite H. eexists. split; [reflexivity|]. auto. Qed.

Lemma first_row s p m : blocks s p = Some (repeat None (S m)) ->
  exists s', each (fun j => store (Some p) j (qn j)) (seq 0 (m + 1)) s = Done tt s' /\ becomes s p (map (fun j => Some (qn j)) (seq 0 (S m))) s'.
Proof.
  intros B. destruct (fill_all s p _ (map qn (seq 0 (S m))) B) as (s' & E & Be); [rewrite map_length, seq_length, repeat_length; reflexivity|].
  exists s'. rewrite map_map in Be. split; auto. rewrite <- E, map_length, seq_length, Nat.add_1_r.
  clear. assert (G : forall n k st, each (fun j => store (Some p) j (qn j)) (seq k n) st =
    each (fun e => store (Some p) (fst e) (snd e)) (combine (seq k n) (map qn (seq k n))) st).
  { induction n as [|n IH]; intros k st; [reflexivity|]. unfold each in *. cbn [seq map combine loop fst snd]. unfold seqM.
    destruct (store _ _ _ _) as [[] ?| |]; auto. }
  apply G.
Qed.

(** The second half of the function, for sorted arrays [x] (the shorter) and
    [y] in the blocks [xp] and [yp], which are the only live ones. *)
Definition tail_of (swapped : bool) (x_ptr y_ptr : pointer) (n m : nat) : M Qc :=
  prev <~ malloc succeeds (m + 1) ;;
  curr <~ malloc succeeds (m + 1) ;;
  match prev, curr with
  | Some _, Some _ =>
      each (fun j => store prev j (qn j)) (seq 0 (m + 1)) ;~
      rows <~ loop (c_row rnd x_ptr y_ptr m) (seq 1 n) (prev, curr) ;;
      final_emd <~ load (fst rows) m ;;
      free (fst rows) ;~ free (snd rows) ;~
      free_arguments swapped x_ptr y_ptr ;~
      ret final_emd
  | _, _ =>
      free prev ;~ free curr ;~
      free_arguments swapped x_ptr y_ptr ;~
      raise MemoryError
  end.

Definition all_freed (s : mem) : Prop := forall i, blocks s i = None.

Lemma free_two s swapped xp yp bx by_ : xp <> yp -> blocks s xp = Some bx -> blocks s yp = Some by_ ->
  (forall i, i <> xp -> i <> yp -> blocks s i = None) ->
  exists s', free_arguments swapped (Some xp) (Some yp) s = Done tt s' /\ all_freed s'.
Proof.
  intros N Bx By O. unfold free_arguments. destruct swapped.
  - destruct (free_ok s yp _ By) as (s1 & E1 & F1 & O1). destruct (free_ok s1 xp bx) as (s2 & E2 & F2 & O2); [rewrite O1; auto|].
    exists s2. split; [unfold seqM; rewrite E1; exact E2|]. intros i. destruct (Nat.eq_dec i xp) as [->|]; auto. rewrite O2 by auto.
    destruct (Nat.eq_dec i yp) as [->|]; auto. rewrite O1; auto.
  - destruct (free_ok s xp _ Bx) as (s1 & E1 & F1 & O1). destruct (free_ok s1 yp by_) as (s2 & E2 & F2 & O2); [rewrite O1; auto|].
    exists s2. split; [unfold seqM; rewrite E1; exact E2|]. intros i. destruct (Nat.eq_dec i yp) as [->|]; auto. rewrite O2 by auto.
    destruct (Nat.eq_dec i xp) as [->|]; auto. rewrite O1; auto.
Qed.

Lemma tail_spec s swapped x y xp yp : xp <> yp -> (xp < next s)%nat -> (yp < next s)%nat ->
  blocks s xp = Some (map Some x) -> blocks s yp = Some (map Some y) -> (forall i, i <> xp -> i <> yp -> blocks s i = None) ->
  exists s', all_freed s' /\
    tail_of swapped (Some xp) (Some yp) (length x) (length y) s =
    if succeeds (next s) && succeeds (S (next s)) then Done (edp rnd (rev x) (rev y)) s' else Raised MemoryError s'.
Proof.
  intros N Lx Ly Bx By O. unfold tail_of. set (p := next s). set (m := length y).
  destruct (succeeds p) eqn:S1; cbn [andb].
  - destruct (malloc_ok s (m + 1) S1) as (s1 & E1 & X1 & B1 & O1). fold p in E1, X1, B1, O1.
    destruct (succeeds (S p)) eqn:S2.
    + rewrite <- X1 in S2. destruct (malloc_ok s1 (m + 1) S2) as (s2 & E2 & X2 & B2 & O2). rewrite X1 in E2, B2, O2.
      rewrite Nat.add_1_r in B1, B2.
      destruct (first_row s2 p m) as (s3 & E3 & (_ & B3 & O3)); [rewrite O2 by lia; exact B1|].
      destruct (c_outer x y xp yp s3 p (S p) (length x)) as (s4 & a & b & old & E4 & Ab & Ba & Bb & _ & O4); auto; try lia;
        try (rewrite O3, O2, O1 by lia; auto).
      { rewrite B3. f_equal. unfold row. rewrite map_map. apply map_ext_in. intros j Hj. apply in_seq in Hj. rewrite cell_0_l by lia. reflexivity. }
      { rewrite O3 by lia. exact B2. }
      destruct (free_ok s4 a _ Ba) as (s5 & E5 & F5 & O5).
      destruct (free_ok s5 b old) as (s6 & E6 & F6 & O6); [rewrite O5; [auto|destruct Ab as [[-> ->]|[-> ->]]; lia]|].
      assert (Hab : forall i, i <> a /\ i <> b <-> i <> p /\ i <> S p) by (destruct Ab as [[-> ->]|[-> ->]]; tauto).
      destruct (free_two s6 swapped xp yp (map Some x) (map Some y)) as (s7 & E7 & F7); auto.
      { assert (H : xp <> a /\ xp <> b) by (apply Hab; lia). rewrite O6, O5, O4, O3, O2, O1 by (tauto || lia). auto. }
      { assert (H : yp <> a /\ yp <> b) by (apply Hab; lia). rewrite O6, O5, O4, O3, O2, O1 by (tauto || lia). auto. }
      { intros i H1 H2. destruct (Nat.eq_dec i b) as [->|Nb]; auto. rewrite O6 by auto. destruct (Nat.eq_dec i a) as [->|Na]; auto.
        rewrite O5 by auto. assert (H : i <> p /\ i <> S p) by (apply Hab; auto). rewrite O4, O3, O2, O1 by tauto. auto. }
      exists s7. split; auto. fold m in E4. unfold seqM. rewrite E1, E2, E3.
      change (@pair pointer pointer (Some p) (Some (S p))) with (Some p, Some (S p)). rewrite E4. cbn [fst snd].
      rewrite (load_map s4 a _ m Ba) by (rewrite row_length; unfold m; lia). rewrite E5, E6, E7.
      rewrite nth_row by (unfold m; lia). unfold cell, m. rewrite !firstn_all. reflexivity.
    + rewrite <- X1 in S2. destruct (malloc_fail s1 (m + 1) S2) as (s2 & E2 & X2 & O2).
      destruct (free_ok s2 p (repeat None (m + 1))) as (s3 & E3 & F3 & O3); [rewrite O2; auto|].
      destruct (free_two s3 swapped xp yp (map Some x) (map Some y)) as (s4 & E4 & F4); auto;
        try (rewrite O3, O2, O1 by lia; auto).
      { intros i H1 H2. destruct (Nat.eq_dec i p) as [->|]; auto. rewrite O3, O2, O1 by auto. auto. }
      exists s4. split; auto. unfold seqM. rewrite E1, E2, E3. unfold free at 1. rewrite E4. reflexivity.
  - destruct (malloc_fail s (m + 1) S1) as (s1 & E1 & X1 & O1). fold p in X1.
    destruct (succeeds (S p)) eqn:S2.
    + rewrite <- X1 in S2. destruct (malloc_ok s1 (m + 1) S2) as (s2 & E2 & X2 & B2 & O2). rewrite X1 in E2, B2, O2.
      destruct (free_ok s2 (S p) _ B2) as (s3 & E3 & F3 & O3).
      destruct (free_two s3 swapped xp yp (map Some x) (map Some y)) as (s4 & E4 & F4); auto;
        try (rewrite O3, O2, O1 by (unfold p; lia); auto).
      { intros i H1 H2. destruct (Nat.eq_dec i (S p)) as [->|]; auto. rewrite O3, O2, O1 by auto. auto. }
      exists s4. split; auto. unfold seqM. rewrite E1, E2. unfold free at 1. rewrite E3, E4. reflexivity.
    + rewrite <- X1 in S2. destruct (malloc_fail s1 (m + 1) S2) as (s2 & E2 & X2 & O2).
      destruct (free_two s2 swapped xp yp (map Some x) (map Some y)) as (s4 & E4 & F4); auto;
        try (rewrite O2, O1; auto).
      { intros i H1 H2. rewrite O2, O1. auto. }
      exists s4. split; auto. unfold seqM. rewrite E1, E2. unfold free at 1 2. rewrite E4. reflexivity.
Qed.

Lemma cython_spec px py : exists s', all_freed s' /\
  emd_1d_dp_cython rnd succeeds px py empty_mem =
  if succeeds 0%nat then
    match all_numbers px with
    | None => Raised BadElement s'
    | Some qx =>
        if succeeds 1%nat then
          match all_numbers py with
          | None => Raised BadElement s'
          | Some qy =>
              if succeeds 2%nat && succeeds 3%nat
              then Done (if (length qy <? length qx)%nat then edp rnd (rev (qsort (map rnd qy))) (rev (qsort (map rnd qx)))
                         else edp rnd (rev (qsort (map rnd qx))) (rev (qsort (map rnd qy)))) s'
              else Raised MemoryError s'
          end
        else Raised MemoryError s'
    end
  else Raised MemoryError s'.
Proof.
  unfold emd_1d_dp_cython. unfold seqM at 1.
  destruct (succeeds 0%nat) eqn:S0.
  2:{ destruct (malloc_fail empty_mem (length px) S0) as (s1 & E1 & _ & O1). rewrite E1. exists s1. split; [|reflexivity]. intros i. rewrite O1. reflexivity. }
  destruct (malloc_ok empty_mem (length px) S0) as (s1 & E1 & X1 & B1 & O1). cbn [next empty_mem] in *. rewrite E1.
  unfold seqM at 1, on_error at 1.
  pose proof (convert_spec s1 0 px B1) as C1. destruct (all_numbers px) as [qx|] eqn:Ex.
  2:{ destruct C1 as (s2 & b & E2 & (_ & B2 & O2)). destruct (free_ok s2 0%nat b B2) as (s3 & E3 & F3 & O3). exists s3.
      rewrite E2. unfold seqM. rewrite E3. split; [|reflexivity]. intros i. destruct (Nat.eq_dec i 0) as [->|]; auto. rewrite O3, O2, O1 by auto. reflexivity. }
  destruct C1 as (s2 & E2 & (X2 & B2 & O2)). rewrite E2. cbv zeta. unfold seqM at 1.
  rewrite X1 in X2. assert (S1eq : succeeds (next s2) = succeeds 1%nat) by (rewrite X2; reflexivity).
  destruct (succeeds 1%nat) eqn:S1.
  2:{ destruct (malloc_fail s2 (length py) S1eq) as (s3 & E3 & _ & O3). rewrite E3. unfold seqM.
      destruct (free_ok s3 0%nat (map Some (qsort (map rnd qx)))) as (s4 & E4 & F4 & O4); [rewrite O3; auto|]. exists s4. rewrite E4. split; [|reflexivity].
      intros i. destruct (Nat.eq_dec i 0) as [->|]; auto. rewrite O4, O3, O2, O1 by auto. reflexivity. }
  destruct (malloc_ok s2 (length py) S1eq) as (s3 & E3 & X3 & B3 & O3). rewrite X2 in E3, X3, B3, O3. rewrite E3.
  unfold seqM at 1, on_error at 1.
  pose proof (convert_spec s3 1 py B3) as C3. destruct (all_numbers py) as [qy|] eqn:Ey.
  2:{ destruct C3 as (s4 & b & E4 & (_ & B4 & O4)).
      destruct (free_ok s4 0%nat (map Some (qsort (map rnd qx)))) as (s5 & E5 & F5 & O5); [rewrite O4, O3 by lia; auto|].
      destruct (free_ok s5 1%nat b) as (s6 & E6 & F6 & O6); [rewrite O5 by lia; auto|]. exists s6.
      rewrite E4. unfold seqM. rewrite E5, E6. split; [|reflexivity]. intros i. destruct (Nat.eq_dec i 1) as [->|]; auto. rewrite O6 by auto.
      destruct (Nat.eq_dec i 0) as [->|]; auto. rewrite O5, O4, O3, O2, O1 by auto. reflexivity. }
  destruct C3 as (s4 & E4 & (X4 & B4 & O4)). rewrite E4. rewrite X3 in X4.
  apply all_numbers_map in Ex, Ey. subst px py. rewrite !map_length in *.
  set (x := qsort (map rnd qx)) in *. set (y := qsort (map rnd qy)) in *.
  assert (Lx : length qx = length x) by (unfold x; rewrite qsort_length, map_length; reflexivity).
  assert (Ly : length qy = length y) by (unfold y; rewrite qsort_length, map_length; reflexivity). rewrite Lx, Ly.
  assert (Bx : blocks s4 0%nat = Some (map Some x)) by (rewrite O4, O3 by lia; auto).
  assert (Ot : forall i, i <> 0%nat -> i <> 1%nat -> blocks s4 i = None) by (intros i H1 H2; rewrite O4, O3, O2, O1 by auto; reflexivity).
  destruct (length y <? length x)%nat.
  - destruct (tail_spec s4 true y x 1 0) as (s5 & F & E); auto; try lia. rewrite X4 in E. exists s5. split; auto.
  - destruct (tail_spec s4 false x y 0 1) as (s5 & F & E); auto; try lia. rewrite X4 in E. exists s5. split; auto.
Qed.
End Rnd.
