(** The rows of [extended_edit_distance]. *)
From Coq Require Import ZArith NArith QArith Qcanon List Bool Lia.
From Verif Require Import Num Py ListAux Float64 NmdSpec EditModel EedSpec EedModel.
Import ListNotations.
Open Scope Qc_scope.

Lemma enum_snoc {A} (l : list A) a : enum (l ++ [a]) = enum l ++ [(length l, a)].
Proof.
  unfold enum. rewrite app_length. cbn [length]. rewrite Nat.add_1_r, seq_S.
  assert (H : forall (n m : list nat) (x y : list A), length n = length x -> combine (n ++ m) (x ++ y) = combine n x ++ combine m y).
  { induction n as [|i n IH]; intros m [|b x] y H; try discriminate; [reflexivity|]. cbn [app combine]. rewrite IH by (cbn in H; lia). reflexivity. }
  rewrite H by apply seq_length. reflexivity.
Qed.

Lemma firstn_snoc {A} (l : list A) i a : nth_error l i = Some a -> firstn (S i) l = firstn i l ++ [a].
Proof.
  revert l. induction i as [|i IH]; intros [|b l] H; try discriminate; [injection H as <-; reflexivity|].
  cbn [nth_error] in H. apply IH in H. cbn [firstn app]. cbn [firstn] in H. rewrite H. reflexivity.
Qed.

Section Rows.
Variable rnd : Qc -> Qc.
Variable isspace : N -> bool.
Variables (deletion insertion substitution jump : Qc).
Notation eed_row := (eed_row rnd deletion insertion substitution).
Notation eed_step := (eed_step rnd isspace deletion insertion substitution jump).

(** The cells of a row before any jump. *)
Definition next_of (hyp : str) (row : list Qc) (rc : N) (nr : list Qc) : Prop :=
  length nr = S (length hyp) /\ nth 0 nr 0 = rnd (nth 0 row 0 + 1) /\
  forall k hc, nth_error hyp k = Some hc ->
    nth (S k) nr 0 = qmin (qmin (rnd (nth k nr 0 + deletion)) (rnd (nth k row 0 + if N.eqb rc hc then 0 else substitution))) (rnd (nth (S k) row 0 + insertion)).

Lemma eed_row_next hyp row rc : length row = S (length hyp) -> exists nr, eed_row hyp row rc = Ok nr /\ next_of hyp row rc nr.
Proof.
  unfold str in *. intros Hl. unfold EedModel.eed_row. change 0%Z with (Z.of_nat 0). rewrite (py_get_nat row 0 0) by lia. cbn [bind].
  assert (G : (length hyp < length row)%nat) by lia. clear Hl. revert G. induction hyp as [|hc hyp IH] using rev_ind; intros G.
  - eexists. split; [reflexivity|]. split; [reflexivity|]. split; [reflexivity|]. intros [|k] hc H; discriminate.
  - rewrite app_length in G. cbn [length] in G. destruct IH as (nr & E & L & N0 & NS); [lia|]. unfold str in *.
    rewrite enum_snoc, foldM_app, E. cbn [foldM bind]. rewrite (py_get_nat nr (length hyp) 0) by lia. cbn [bind].
    rewrite (py_get_nat row (length hyp) 0) by lia. cbn [bind]. replace (Z.of_nat (length hyp) + 1)%Z with (Z.of_nat (S (length hyp))) by lia.
    rewrite (py_get_nat row (S (length hyp)) 0) by lia. cbn [bind]. eexists. split; [reflexivity|]. split; [rewrite !app_length, L; cbn [length]; lia|]. split.
    + rewrite app_nth1 by lia. exact N0.
    + intros k c Hk. destruct (Nat.eq_dec k (length hyp)) as [->|Hne].
      * rewrite nth_error_app2, Nat.sub_diag in Hk by lia. injection Hk as ->.
        rewrite (app_nth2 nr) by lia. rewrite L, Nat.sub_diag. cbn [nth]. rewrite (app_nth1 nr) by lia. reflexivity.
      * assert (k < length hyp)%nat. { assert (k < length (hyp ++ [hc]))%nat by (apply nth_error_Some; congruence). rewrite app_length in *. cbn in *. lia. }
        rewrite nth_error_app1 in Hk by auto. rewrite !(app_nth1 nr) by lia. apply NS; auto.
Qed.

Definition first_least (l : list Qc) (v : nat) : Prop :=
  (v < length l)%nat /\ (forall j, (j < length l)%nat -> nth v l 0 <= nth j l 0) /\ (forall j, (j < v)%nat -> nth v l 0 < nth j l 0).

Lemma min_cost_spec l : l <> [] -> exists v, min_cost l = Ok (nth v l 0, v) /\ first_least l v.
Proof.
  unfold min_cost. destruct l as [|x l]; [congruence|]. intros _.
  assert (G : forall rest pre v, first_least (pre) v ->
     exists v', fold_left pair_min (map (fun e => (snd e, fst e)) (combine (seq (length pre) (length rest)) rest)) (nth v pre 0, v) = (nth v' (pre ++ rest) 0, v') /\ first_least (pre ++ rest) v').
  { induction rest as [|y rest IH]; intros pre v (H1 & H2 & H3).
    - exists v. rewrite app_nil_r. split; [reflexivity|]. split; auto.
    - cbn [length seq combine map fold_left fst snd].
      assert (X : exists v1, pair_min (nth v pre 0, v) (y, length pre) = (nth v1 (pre ++ [y]) 0, v1) /\ first_least (pre ++ [y]) v1).
      { unfold pair_min. cbn [fst snd].
        assert (Hlt : (Nat.ltb (length pre) v) = false) by (apply Nat.ltb_ge; lia). rewrite Hlt, andb_false_r, orb_false_r.
        destruct (qltb y (nth v pre 0)) eqn:E.
        - apply qltb_lt in E. exists (length pre). assert (Ey : nth (length pre) (pre ++ [y]) 0 = y) by (rewrite app_nth2, Nat.sub_diag by lia; reflexivity).
          split; [rewrite Ey; reflexivity|]. unfold first_least; rewrite Ey. split; [rewrite app_length; cbn; lia|]. split; intros j Hj.
          + rewrite app_length in Hj. cbn in Hj. destruct (Nat.eq_dec j (length pre)) as [->|]; [rewrite Ey; apply Qcle_refl|]. rewrite app_nth1 by lia. specialize (H2 j ltac:(lia)). qclra.
          + rewrite app_nth1 by lia. specialize (H2 j ltac:(lia)). qclra.
        - apply qltb_nlt in E. exists v. assert (Ev : nth v (pre ++ [y]) 0 = nth v pre 0) by (rewrite app_nth1 by lia; reflexivity).
          split; [rewrite Ev; reflexivity|]. unfold first_least. rewrite Ev. split; [rewrite app_length; cbn; lia|]. split; intros j Hj.
          + rewrite app_length in Hj. cbn in Hj. destruct (Nat.eq_dec j (length pre)) as [->|]; [rewrite app_nth2, Nat.sub_diag by lia; exact E|]. rewrite app_nth1 by lia. apply H2. lia.
          + rewrite app_nth1 by lia. apply H3. exact Hj. }
      destruct X as (v1 & E1 & F1). rewrite E1. destruct (IH (pre ++ [y]) v1 F1) as (v' & E' & F'). exists v'. rewrite app_length in E'. cbn [length] in E'. rewrite Nat.add_1_r in E'.
      rewrite <- app_assoc in E', F'. split; assumption. }
  destruct (G l [x] 0%nat) as (v & E & F).
  - split; [cbn; lia|]. split; intros j Hj; [|lia]. cbn in Hj. replace j with 0%nat by lia. apply Qcle_refl.
  - exists v. cbn [enum length seq combine map]. unfold enum. cbn [length seq combine map fst snd]. cbn [length nth app] in E. rewrite E. split; [reflexivity|exact F].
Qed.

(** One round of the main loop. *)
Definition round (hyp : str) (row cov : list Qc) (rc : N) (row' cov' : list Qc) : Prop :=
  exists nr v, next_of hyp row rc nr /\ first_least nr v /\
    cov' = list_set cov v (rnd (nth v cov 0 + 1)) /\
    row' = if isspace rc then map (fun x => qmin x (rnd (jump + nth v nr 0))) nr else nr.

Lemma eed_step_round hyp row cov rc : length row = S (length hyp) -> length cov = S (length hyp) ->
  exists row' cov', eed_step hyp (row, cov) rc = Ok (row', cov') /\ round hyp row cov rc row' cov' /\ length row' = S (length hyp) /\ length cov' = S (length hyp).
Proof.
  intros H1 H2. destruct (eed_row_next hyp row rc H1) as (nr & E & N). unfold EedModel.eed_step. rewrite E. cbn [bind].
  pose proof N as (L & _ & _). destruct (min_cost_spec nr) as (v & Em & F); [destruct nr; [cbn in L; lia|congruence]|]. rewrite Em. cbn [bind].
  pose proof F as (F1 & _ & _). rewrite (py_get_nat cov v 0) by lia. cbn [bind]. rewrite py_set_nat by lia. cbn [bind].
  do 2 eexists. split; [reflexivity|]. split; [exists nr, v; split; [exact N|split; [exact F|split; reflexivity]]|]. split; [|rewrite list_set_length; lia].
  destruct (isspace rc); rewrite ?map_length; exact L.
Qed.

Definition start_row (hyp : str) : list Qc := [0] ++ repeat 1 (length hyp).
Definition start_cov (hyp : str) : list Qc := repeat 0 (length hyp + 1).

(** The state after [i] characters of the reference. *)
Definition state (hyp ref : str) (i : nat) : list Qc * list Qc :=
  match foldM (eed_step hyp) (firstn i ref) (start_row hyp, start_cov hyp) with Ok s => s | Err _ => ([], []) end.
Definition row_at hyp ref i := fst (state hyp ref i).
Definition cov_at hyp ref i := snd (state hyp ref i).

Lemma state_run hyp ref i : (i <= length ref)%nat ->
  foldM (eed_step hyp) (firstn i ref) (start_row hyp, start_cov hyp) = Ok (row_at hyp ref i, cov_at hyp ref i) /\
  length (row_at hyp ref i) = S (length hyp) /\ length (cov_at hyp ref i) = S (length hyp).
Proof.
  unfold row_at, cov_at, state. induction i as [|i IH]; intros Hi.
  - cbn [firstn foldM fst snd]. split; [reflexivity|]. unfold start_row, start_cov. rewrite app_length, !repeat_length. cbn [length]. lia.
  - destruct IH as (E & L1 & L2); [lia|]. destruct (nth_error ref i) as [a|] eqn:Ea; [|apply nth_error_None in Ea; unfold str in *; lia].
    rewrite (firstn_snoc ref i a Ea), foldM_app, E. cbn [foldM bind].
    destruct (foldM (eed_step hyp) (firstn i ref) (start_row hyp, start_cov hyp)) as [[r c]|]; [|discriminate]. cbn [fst snd] in *.
    destruct (eed_step_round hyp r c a L1 L2) as (row' & cov' & E' & _ & L1' & L2'). rewrite E'. cbn [bind fst snd]. auto.
Qed.

Lemma state_round hyp ref i a : nth_error ref i = Some a ->
  round hyp (row_at hyp ref i) (cov_at hyp ref i) a (row_at hyp ref (S i)) (cov_at hyp ref (S i)).
Proof.
  intros Ea. assert (Hi : (i < length ref)%nat) by (apply nth_error_Some; congruence).
  destruct (state_run hyp ref i) as (E & L1 & L2); [lia|]. destruct (state_run hyp ref (S i)) as (E' & _); [lia|].
  rewrite (firstn_snoc ref i a Ea), foldM_app, E in E'. cbn [foldM bind] in E'.
  destruct (eed_step_round hyp _ _ a L1 L2) as (row' & cov' & E2 & R & _). rewrite E2 in E'. cbn [bind] in E'. injection E' as <- <-. exact R.
Qed.

Lemma row_at_0 hyp ref j : (j <= length hyp)%nat -> nth j (row_at hyp ref 0) 0 = if Nat.eqb j 0 then 0 else 1.
Proof.
  intros Hj. unfold row_at, state. cbn [firstn foldM fst]. unfold start_row. destruct j as [|j]; [reflexivity|]. cbn [app nth Nat.eqb].
  rewrite (nth_indep _ 0 1) by (rewrite repeat_length; lia). apply nth_repeat.
Qed.
Lemma cov_at_0 hyp ref j : nth j (cov_at hyp ref 0) 0 = 0.
Proof. unfold cov_at, state. cbn [firstn foldM snd]. unfold start_cov. apply nth_repeat. Qed.

End Rows.
