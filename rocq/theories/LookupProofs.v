(** Searching a trie by edit distance. *)
From Coq Require Import ZArith QArith Qcanon List Bool Lia.
From Verif Require Import Num Py PyDict ListAux EmdSpec EmdProofs TrieModel TrieProofs EditSpec EditProofs EditModel EditDp LookupModel.
Import ListNotations.
Open Scope Qc_scope.

Lemma get_last2 {B} (l : list B) x y : py_get (l ++ [x; y]) (-2) = Ok x.
Proof.
  unfold py_get, py_index, zlen. rewrite app_length. cbn [List.length Z.ltb Z.compare].
  destruct ((0 <=? -2 + Z.of_nat (List.length l + 2)) && (-2 + Z.of_nat (List.length l + 2) <? Z.of_nat (List.length l + 2)))%Z eqn:E; [|apply andb_false_iff in E; rewrite Z.leb_gt, Z.ltb_ge in E; lia].
  replace (Z.to_nat (-2 + Z.of_nat (List.length l + 2))) with (List.length l) by lia. rewrite nth_error_app2, Nat.sub_diag by lia. reflexivity.
Qed.

Lemma set_last {B} (l : list B) x y : py_set (l ++ [x]) (-1) y = Ok (l ++ [y]).
Proof.
  unfold py_set, py_index, zlen. rewrite app_length. cbn [List.length Z.ltb Z.compare].
  destruct ((0 <=? -1 + Z.of_nat (List.length l + 1)) && (-1 + Z.of_nat (List.length l + 1) <? Z.of_nat (List.length l + 1)))%Z eqn:E; [|apply andb_false_iff in E; rewrite Z.leb_gt, Z.ltb_ge in E; lia].
  replace (Z.to_nat (-1 + Z.of_nat (List.length l + 1))) with (List.length l) by lia. rewrite list_set_app. reflexivity.
Qed.

Lemma fold_qmin l x d : qleb (fold_left qmin l x) d = true <-> exists y, In y (x :: l) /\ y <= d.
Proof.
  revert x; induction l as [|a l IH]; intros x; cbn [fold_left].
  - rewrite qleb_le. split; [intros L; exists x; simpl; auto|]. intros (y & [->|[]] & L). exact L.
  - rewrite IH. split.
    + intros (y & [E|I] & L).
      * unfold qmin in E. destruct (qleb x a); subst y; [exists x|exists a]; simpl; auto.
      * exists y. simpl; auto.
    + intros (y & [->|[->|I]] & L).
      * exists (qmin y a). split; [simpl; auto|]. qclra.
      * exists (qmin x y). split; [simpl; auto|]. qclra.
      * exists y. simpl; auto.
Qed.

Lemma row_min_le row d : row <> [] -> exists m, row_min row = Ok m /\ (qleb m d = true <-> exists y, In y row /\ y <= d).
Proof. destruct row as [|x l]; [congruence|]. intros _. exists (fold_left qmin l x). split; [reflexivity|]. apply fold_qmin. Qed.

(** ** The walk *)
Section Walk.
Context {T V : Type} `{EqDec T}.
Variable next_row_of : list T -> list (list Qc) -> T -> result (list Qc).
Variables (last_index : Z) (distance : Qc).
Variable row : list T -> list Qc.
Variable d : list T -> Qc.
Definition table_of (path : list T) : list (list Qc) := straight (fun i => row (firstn i path)) (List.length path).
Hypothesis R : forall path key, next_row_of path (table_of path) key = Ok (row (path ++ [key])).
Hypothesis L : forall path, py_get (row path) last_index = Ok (d path).
Hypothesis M : forall path, row path <> [].
Hypothesis P : forall path q, d (path ++ q) <= distance -> path <> [] -> exists y, In y (row path) /\ y <= distance.

Lemma table_snoc path key : table_of (path ++ [key]) = table_of path ++ [row (path ++ [key])].
Proof.
  unfold table_of. rewrite app_length, Nat.add_comm. cbn [List.length Nat.add]. rewrite straight_snoc. f_equal.
  - apply straight_ext. intros i Li. rewrite firstn_app. replace (i - List.length path)%nat with 0%nat by lia. cbn [firstn]. rewrite app_nil_r. reflexivity.
  - rewrite firstn_all2; [reflexivity|]. rewrite app_length. cbn [List.length]. lia.
Qed.

Definition near (kv : list T * V) : bool := qleb (d (fst kv)) distance.

Lemma pruned path (kvs : list (list T * V)) : (forall y, In y (row path) -> ~ y <= distance) -> path <> [] ->
  filter near (map (below path) kvs) = [].
Proof.
  intros N Np. induction kvs as [|[ts v] kvs IH]; cbn [map filter]; auto. unfold near at 1, below at 1. cbn [fst snd].
  destruct (qleb (d (path ++ ts)) distance) eqn:E; auto. exfalso. apply qleb_le in E. destruct (P _ _ E Np) as (y & I & Ly). apply (N y I Ly).
Qed.

Lemma lookup_loop_run (n : node T V) : wf n -> forall l r, children n = l ++ r -> forall path, exists used, (used <= cost_of l)%nat /\
  forall stack fuel out,
  lookup_loop next_row_of last_index distance (used + fuel) path (table_of path) ((n, rev (dkeys l)) :: stack) out =
  lookup_loop next_row_of last_index distance fuel path (table_of path) ((n, []) :: stack) (out ++ map fst (filter near (map (below path) (paths_of l)))).
Proof.
  induction n as [v cs IH] using node_ind'. intros W. apply wf_split in W. destruct W as [D F]. cbn [children] in *.
  induction l as [|[t c] l IHl] using rev_ind; intros r E path.
  - exists 0%nat. split; [lia|]. intros stack fuel out. cbn [paths_of map filter]. rewrite app_nil_r. reflexivity.
  - assert (Ec : dget t cs = Some c).
    { apply In_dget; auto. rewrite E. rewrite !in_app_iff. simpl. auto. }
    assert (Ic : In (t, c) cs) by (apply dget_In; auto).
    assert (Ez : cost_of (l ++ [(t, c)]) = S (cost_of (children c) + S (cost_of l))).
    { unfold cost_of. rewrite map_app, list_sum_app. cbn [map list_sum fold_right snd]. rewrite (size_unfold c). lia. }
    rewrite Forall_forall in IH, F. assert (Wc : wf c) by apply (F _ Ic).
    assert (Pl : forall l, paths_of (l ++ [(t, c)]) = map (under t) (all_paths c) ++ paths_of l).
    { clear. induction l as [|[a b] l IH]; cbn [app paths_of]; [rewrite app_nil_r; reflexivity|]. rewrite IH, app_assoc. reflexivity. }
    assert (Np : path ++ [t] <> []) by (destruct path; discriminate).
    assert (Eb : forall kvs : list (list T * V), map (below path) (map (under t) kvs) = map (below (path ++ [t])) kvs).
    { intros kvs. rewrite map_map. apply map_ext. intros [us w]. unfold below, under. cbn [fst snd]. rewrite <- app_assoc. reflexivity. }
    destruct (IHl ((t, c) :: r) ltac:(rewrite E, <- app_assoc; reflexivity) path) as (u1 & L1 & H1).
    destruct (row_min_le (row (path ++ [t])) distance (M _)) as (m & Em & Hm). destruct (qleb m distance) eqn:Eq.
    + pose proof (IH (t, c) Ic Wc (children c) [] ltac:(cbn [snd]; rewrite app_nil_r; reflexivity) (path ++ [t])) as (u2 & L2 & H2). cbn [snd] in H2.
      exists (S (u2 + S u1)). split; [lia|]. intros stack fuel out.
      unfold dkeys. rewrite map_app, rev_app_distr. cbn [map rev app fst]. cbn [Nat.add lookup_loop]. cbn [children]. rewrite Ec, R. cbn [bind]. rewrite Em. cbn [bind]. rewrite Eq, L. cbn [bind].
      rewrite <- table_snoc, <- Nat.add_assoc. fold (dkeys (children c)). rewrite H2. cbn [Nat.add lookup_loop].
      destruct (path ++ [t]) eqn:Ep; [congruence|]. rewrite <- Ep in Eb |- *. rewrite table_snoc, !removelast_snoc.
      change (map fst l) with (dkeys l). rewrite H1. f_equal. rewrite Pl, map_app, filter_app, map_app, app_assoc. f_equal.
      rewrite Eb. unfold all_paths. rewrite map_app, filter_app, map_app, app_assoc, paths_unfold. f_equal.
      unfold own. destruct (value c); cbn [map filter]; [|destruct (qleb (d (path ++ [t])) distance); rewrite app_nil_r; reflexivity].
      unfold near, below. cbn [fst snd]. rewrite app_nil_r. destruct (qleb (d (path ++ [t])) distance); cbn [map fst]; [|rewrite app_nil_r]; reflexivity.
    + exists (S u1). split; [lia|]. intros stack fuel out.
      unfold dkeys. rewrite map_app, rev_app_distr. cbn [map rev app fst]. cbn [Nat.add lookup_loop]. cbn [children]. rewrite Ec, R. cbn [bind]. rewrite Em. cbn [bind]. rewrite Eq.
      change (map fst l) with (dkeys l). rewrite H1. f_equal. rewrite Pl, map_app, filter_app, Eb, (pruned (path ++ [t])); [reflexivity| |exact Np].
      intros y I Ly. assert (X : false = true); [|discriminate]. apply Hm. eauto.
Qed.

Lemma lookup_run (t : trie T V) : wf (root t) ->
  lookup_loop next_row_of last_index distance (S (2 * size (root t))) [] (table_of []) [(root t, rev (dkeys (children (root t))))] [] =
  Ok (map fst (filter near (paths (root t)))).
Proof.
  intros W. rewrite size_unfold.
  set (k := list_sum _). destruct (lookup_loop_run (root t) W (children (root t)) [] ltac:(rewrite app_nil_r; reflexivity) []) as (u & Lu & Hu).
  assert (Ek : exists z, S (2 * S k) = (u + S z)%nat) by (unfold cost_of in Lu; fold k in Lu; exists (S (2 * S k) - u - 1)%nat; lia). destruct Ek as (z & ->).
  rewrite Hu. cbn [lookup_loop]. change (table_of []) with [row []]. rewrite paths_unfold. cbn [app]. do 3 f_equal.
  rewrite <- (map_id (paths_of _)) at 2. apply map_ext. intros [ts v]. reflexivity.
Qed.
End Walk.

(** ** The rows *)
Section Rows.
Context {T : Type} `{EqDec T}.
Variables ins del sub trans : Qc.
Let c : costs := {| insertion := ins; deletion := del; substitution := sub; transposition := Some trans |}.
Variable word : list T.
Notation D i p := (dist c (firstn i word) p).

Lemma swapped_ok path key idx x : nth_error word idx = Some x -> exists b,
  swapped word path key idx x = Ok b /\
  if b then exists i0 p0, idx = S i0 /\ nth_error word i0 = Some key /\ path = p0 ++ [x]
  else forall u0 v0, ~ crossed (firstn idx word) path x key u0 v0.
Proof.
  intros Ex. unfold swapped. destruct path as [|z0 p] eqn:Ep; [|rewrite <- Ep].
  { exists false. split; auto. intros u0 v0 [_ E]. destruct v0; discriminate. }
  assert (Np : path <> []) by (rewrite Ep; discriminate). destruct (exists_last Np) as (p0 & z & E). clear Ep z0 p. rewrite E. clear path Np E.
  destruct idx as [|i0]; cbn [Nat.eqb].
  { exists false. split; auto. intros u0 v0 [E _]. destruct u0; discriminate. }
  replace (Z.of_nat (S i0) - 1)%Z with (Z.of_nat i0) by lia.
  destruct (nth_error word i0) as [k|] eqn:Ek; [|apply nth_error_None in Ek; apply nth_error_lt in Ex; lia].
  rewrite (nth_get _ _ _ Ek). cbn [bind]. rewrite (firstn_snoc word i0 k) by auto. destruct (eqd key k) as [<-|N].
  2:{ exists false. split; auto. intros u0 v0 [E _]. apply snoc_inv in E. destruct E. congruence. }
  rewrite get_last. cbn [bind]. destruct (eqd z x) as [->|N].
  - exists true. split; auto. exists i0, p0. auto.
  - exists false. split; auto. intros u0 v0 [_ E]. apply snoc_inv in E. destruct E. congruence.
Qed.

(** One cell is the distance, given its neighbours. *)
Definition cell path key idx x : Qc :=
  if eqd key x then D idx path
  else qmin (qmin (D (S idx) path + ins) (D idx (path ++ [key]) + del)) (D idx path + sub).

Lemma cell_plain path key idx x : nth_error word idx = Some x ->
  (key <> x -> forall u0 v0, ~ crossed (firstn idx word) path x key u0 v0) -> D (S idx) (path ++ [key]) = cell path key idx x.
Proof.
  intros Ex X. unfold cell. rewrite (firstn_snoc word idx x) by auto. destruct (eqd key x) as [->|N]; [apply dist_equal|].
  rewrite dist_differ; auto.
Qed.

Lemma cell_crossed p0 key i0 x : nth_error word (S i0) = Some x -> nth_error word i0 = Some key -> key <> x ->
  D (S (S i0)) ((p0 ++ [x]) ++ [key]) = qmin (cell (p0 ++ [x]) key (S i0) x) (D i0 p0 + trans).
Proof.
  intros Ex Ek N. unfold cell. destruct (eqd key x); [congruence|]. rewrite (firstn_snoc word (S i0) x), (firstn_snoc word i0 key) by auto.
  rewrite <- !app_assoc. cbn [app]. rewrite (dist_crossed c _ _ x key trans) by (auto; congruence). unfold three. cbn [insertion deletion substitution c].
  rewrite <- !app_assoc. reflexivity.
Qed.

Definition lrow (p : list T) : list Qc := straight (fun i => D i p) (List.length word).
Definition drow (p : list T) : list Qc := rotated (fun i => D i p) 0 (List.length word) (List.length word).

Lemma table_last (row : list T -> list Qc) path : py_get (table_of row path) (-1) = Ok (row path).
Proof. unfold table_of. rewrite straight_last, firstn_len. reflexivity. Qed.

Lemma table_last2 (row : list T -> list Qc) path z : py_get (table_of row (path ++ [z])) (-2) = Ok (row path).
Proof.
  rewrite table_snoc. unfold table_of. destruct (List.length path) eqn:E.
  - destruct path; [reflexivity|discriminate].
  - rewrite straight_snoc, <- app_assoc. cbn [app]. rewrite get_last2, <- E, firstn_len. reflexivity.
Qed.

Lemma lev_row_ok path key : lev_row ins del sub trans word path (table_of lrow path) key = Ok (lrow (path ++ [key])).
Proof.
  unfold lev_row. set (f := fun i => D i (path ++ [key])). set (n := List.length word).
  assert (E0 : py_set (repeat 0 (n + 1)) 0 (qz (zlen (table_of lrow path)) * ins) = Ok (filling f 0 0 n)).
  { rewrite Nat.add_comm. cbn [Nat.add repeat]. unfold filling. rewrite Nat.sub_0_r. cbn [straight seq map app]. unfold f. cbn [firstn]. rewrite dist_nil_l.
    unfold table_of, zlen. rewrite straight_len, app_length. cbn [List.length insertion c]. rewrite Nat.add_1_r. reflexivity. }
  rewrite E0. cbn [bind]. unfold lrow at 2. fold f n. rewrite <- (filling_full f 0 n). 
  apply (foldM_seq _ (fun i => filling f 0 i n)). intros i x Ex. pose proof (nth_error_lt _ _ _ Ex) as Li. fold n in Li.
  rewrite <- (filling_set f 0 i n Li). unfold lev_cell. rewrite table_last. cbn [bind]. unfold lrow at 1 2 3. fold n.
  replace (Z.of_nat i + 1)%Z with (Z.of_nat (S i)) by lia. rewrite !straight_get by lia. rewrite filling_get by lia. cbn [bind].
  destruct (swapped_ok path key i x Ex) as (b & Eb & Hb). rewrite Eb. cbn [bind]. destruct b.
  - destruct Hb as (i0 & p0 & -> & Ek & ->). rewrite table_last2. cbn [bind]. replace (Z.of_nat (S i0) - 1)%Z with (Z.of_nat i0) by lia.
    unfold lrow. rewrite straight_get by lia. cbn [bind]. destruct (eqd key x) as [->|N].
    + change (f (S (S i0))) with (D (S (S i0)) ((p0 ++ [x]) ++ [x])). rewrite (cell_plain _ _ _ _ Ex) by congruence. unfold cell. destruct (eqd x x); [reflexivity|congruence].
    + change (f (S (S i0))) with (D (S (S i0)) ((p0 ++ [x]) ++ [key])). rewrite (cell_crossed _ _ _ _ Ex Ek N). unfold cell. destruct (eqd key x); [congruence|]. reflexivity.
  - change (f (S i)) with (D (S i) (path ++ [key])). rewrite (cell_plain _ _ _ _ Ex) by auto. unfold cell. destruct (eqd key x); reflexivity.
Qed.

Lemma dam_row_ok path key : dam_row ins del sub trans word path (table_of drow path) key = Ok (drow (path ++ [key])).
Proof.
  unfold dam_row. set (f := fun i => D i (path ++ [key])). set (n := List.length word).
  rewrite table_last. cbn [bind]. unfold drow at 1. fold n. change (-1)%Z with (Z.of_nat 0 - 1)%Z at 1. rewrite rotated_get by lia. cbn [bind].
  assert (E0 : py_set (repeat 0 (n + 1)) (-1) (D 0 path + ins) = Ok (rotated f 0 0 n)).
  { rewrite repeat_app. cbn [repeat]. rewrite set_last. unfold rotated. rewrite Nat.sub_0_r. cbn [seq map app]. do 3 f_equal. unfold f. cbn [firstn]. rewrite !dist_nil_l, app_length.
    cbn [List.length insertion c]. rewrite Nat.add_1_r, qn_S. ring. }
  rewrite E0. cbn [bind]. unfold drow at 2. fold f n.
  apply (foldM_seq _ (fun i => rotated f 0 i n)). intros i x Ex. pose proof (nth_error_lt _ _ _ Ex) as Li. fold n in Li.
  rewrite <- (rotated_set f 0 i n Li). unfold dam_cell. rewrite table_last. cbn [bind]. unfold drow at 1 2 3. fold n.
  rewrite !rotated_get by lia. rewrite rotated_get' by lia. cbn [bind].
  destruct (swapped_ok path key i x Ex) as (b & Eb & Hb). rewrite Eb. cbn [bind]. destruct b.
  - destruct Hb as (i0 & p0 & -> & Ek & ->). rewrite table_last2. cbn [bind]. replace (Z.of_nat (S i0) - 2)%Z with (Z.of_nat i0 - 1)%Z by lia.
    unfold drow. rewrite rotated_get by lia. cbn [bind]. destruct (eqd key x) as [->|N].
    + change (f (S (S i0))) with (D (S (S i0)) ((p0 ++ [x]) ++ [x])). rewrite (cell_plain _ _ _ _ Ex) by congruence. unfold cell. destruct (eqd x x); [reflexivity|congruence].
    + change (f (S (S i0))) with (D (S (S i0)) ((p0 ++ [x]) ++ [key])). rewrite (cell_crossed _ _ _ _ Ex Ek N). unfold cell. destruct (eqd key x); [congruence|]. reflexivity.
  - change (f (S i)) with (D (S i) (path ++ [key])). rewrite (cell_plain _ _ _ _ Ex) by auto. unfold cell. destruct (eqd key x); reflexivity.
Qed.

Lemma lev_first_ok : lev_first del word = lrow [].
Proof.
  unfold lev_first, lrow, zlen, straight. replace (Z.of_nat (List.length word) + 1)%Z with (0 + Z.of_nat (S (List.length word)))%Z by lia.
  rewrite (py_range_nat 0 (S (List.length word)) : py_range 0 (0 + Z.of_nat (S (List.length word))) = _), map_map. apply map_ext_in. intros i I. apply in_seq in I.
  rewrite dist_nil_r, firstn_length. cbn [deletion c]. unfold qn. do 3 f_equal. lia.
Qed.

Lemma dam_first_ok : dam_first del word = drow [].
Proof.
  unfold dam_first, drow, zlen, rotated. rewrite Nat.sub_diag. cbn [repeat app firstn]. rewrite dist_nil_l. cbn [List.length]. rewrite qn_0, Qcmult_0_l. f_equal.
  replace (Z.of_nat (List.length word) + 1)%Z with (1 + Z.of_nat (List.length word))%Z by lia.
  rewrite (py_range_nat 1 (List.length word) : py_range 1 (1 + Z.of_nat (List.length word)) = _), map_map. apply map_ext_in. intros i I. apply in_seq in I.
  rewrite dist_nil_r, firstn_length. cbn [deletion c]. unfold qn. do 3 f_equal. lia.
Qed.

Lemma lrow_in p y : In y (lrow p) <-> exists i, (i <= List.length word)%nat /\ y = D i p.
Proof.
  unfold lrow, straight. rewrite in_map_iff. split.
  - intros (i & <- & I). apply in_seq in I. exists i. split; auto. lia.
  - intros (i & Li & ->). exists i. split; auto. apply in_seq. lia.
Qed.

Lemma drow_in p y : In y (drow p) <-> exists i, (i <= List.length word)%nat /\ y = D i p.
Proof.
  unfold drow, rotated. rewrite Nat.sub_diag. cbn [repeat app]. rewrite in_app_iff, in_map_iff. split.
  - intros [(i & <- & I)|[<-|[]]]; [apply in_seq in I; exists i; split; auto; lia|exists 0%nat; split; auto; lia].
  - intros ([|i] & Li & ->); [right; left; reflexivity|]. left. exists (S i). split; auto. apply in_seq. lia.
Qed.

Lemma lrow_get p : py_get (lrow p) (-1) = Ok (dist c word p).
Proof. unfold lrow. rewrite straight_last, firstn_len. reflexivity. Qed.

Lemma drow_get p : word <> [] -> py_get (drow p) (-2) = Ok (dist c word p).
Proof.
  intros N. unfold drow, rotated. rewrite Nat.sub_diag. cbn [repeat app]. destruct (List.length word) as [|n] eqn:E; [destruct word; [congruence|discriminate]|].
  rewrite (seq_S n 1), map_app, <- app_assoc. cbn [map app]. rewrite get_last2. cbn [Nat.add]. rewrite <- E, firstn_len. reflexivity.
Qed.

(** Pruning. *)
Lemma prune : sane c -> ins <= trans \/ sub <= trans -> forall path q d, dist c word (path ++ q) <= d -> exists i, (i <= List.length word)%nat /\ D i path <= d.
Proof.
  intros P B path q d L.
  assert (G : forall q u k, al c u (path ++ q) k -> exists a b k', u = a ++ b /\ al c a path k' /\ k' <= k).
  { clear q d L. intros q. induction q as [|x q IH] using rev_ind; intros u k A.
    - rewrite app_nil_r in A. exists u, [], k. rewrite app_nil_r. split; auto. split; auto. apply Qcle_refl.
    - rewrite app_assoc in A. destruct (al_prefix c u _ k P ltac:(intros t [= <-]; exact B) A (path ++ q) x eq_refl) as (a & b & k' & -> & A' & L').
      destruct (IH _ _ A') as (a' & b' & k2 & -> & A2 & L2). exists a', (b' ++ b), k2. rewrite app_assoc. split; auto. split; auto. qclra. }
  destruct (dist_best c word (path ++ q) P) as [A _]. destruct (G _ _ _ A) as (a & b & k & E & A' & L'). exists (List.length a).
  assert (Ef : firstn (List.length a) word = a). { rewrite E, firstn_app, firstn_len, Nat.sub_diag. apply app_nil_r. }
  rewrite Ef. split; [rewrite E, app_length; lia|]. destruct (dist_best c a path P) as [_ Mn]. apply Mn in A'. qclra.
Qed.
End Rows.

(** ** The two lookups *)
Section Lookups.
Context {T V K : Type} `{EqDec T}.
Variable detokenizer : list T -> K.
Variables ins del sub trans : Qc.
Let c : costs := {| insertion := ins; deletion := del; substitution := sub; transposition := Some trans |}.

Lemma checks_ok (word : list T) distance : sane c -> word <> [] -> 0 <= distance -> lookup_checks ins del sub true word distance = Ok tt.
Proof.
  intros [Pi Pd Ps _] N L. unfold lookup_checks, guard. cbn [negb bind c insertion deletion substitution] in *.
  destruct (qltb distance 0) eqn:E; [apply qltb_lt in E; qclra|]. cbn [bind]. destruct word; [congruence|]. cbn [bind].
  destruct (qltb ins 0) eqn:E1; [apply qltb_lt in E1; qclra|]. destruct (qltb del 0) eqn:E2; [apply qltb_lt in E2; qclra|]. destruct (qltb sub 0) eqn:E3; [apply qltb_lt in E3; qclra|].
  reflexivity.
Qed.

Lemma lrow_ne (word p : list T) : lrow ins del sub trans word p <> [].
Proof. unfold lrow, straight. discriminate. Qed.
Lemma drow_ne (word p : list T) : drow ins del sub trans word p <> [].
Proof. unfold drow, rotated. intros E. apply app_eq_nil in E. destruct E as [_ E]. rewrite Nat.sub_diag in E. discriminate. Qed.

Lemma lookup_ok (t : trie T V) word distance : wf (root t) -> sane c -> ins <= trans \/ sub <= trans -> word <> [] -> 0 <= distance ->
  levenshtein_lookup detokenizer ins del sub trans true t word distance =
  Ok (map detokenizer (map fst (filter (near distance (dist c word)) (paths (root t))))).
Proof.
  intros W P B N L. unfold levenshtein_lookup. rewrite checks_ok by auto. cbn [bind].
  rewrite (lev_first_ok ins del sub trans word).
  change [lrow ins del sub trans word []] with (table_of (lrow ins del sub trans word) []).
  rewrite (lookup_run _ (-1) distance (lrow ins del sub trans word) (dist c word)); auto.
  - apply lev_row_ok.
  - apply lrow_get.
  - apply lrow_ne.
  - intros path q Lq _. destruct (prune ins del sub trans word P B path q distance Lq) as (i & Li & Ld). exists (dist c (firstn i word) path). split; auto.
    apply lrow_in. eauto.
Qed.

Lemma simulation next1 next2 i1 i2 row1 row2 distance (d : list T -> Qc) :
  (forall path key, next1 path (table_of row1 path) key = Ok (row1 (path ++ [key]))) ->
  (forall path key, next2 path (table_of row2 path) key = Ok (row2 (path ++ [key]))) ->
  (forall path, py_get (row1 path) i1 = Ok (d path)) -> (forall path, py_get (row2 path) i2 = Ok (d path)) ->
  (forall path, row1 path <> []) -> (forall path, row2 path <> []) ->
  (forall path y, In y (row1 path) <-> In y (row2 path)) ->
  forall fuel path (stack : list (node T V * list T)) out,
  lookup_loop next1 i1 distance fuel path (table_of row1 path) stack out = lookup_loop next2 i2 distance fuel path (table_of row2 path) stack out.
Proof.
  intros R1 R2 G1 G2 N1 N2 I. induction fuel as [|fuel IH]; intros path stack out; [reflexivity|]. cbn [lookup_loop].
  destruct stack as [|[head [|key keys]] stack]; auto.
  - destruct path as [|x p] eqn:Ep.
    + cbn. reflexivity.
    + assert (Np : x :: p <> []) by discriminate. destruct (exists_last Np) as (p0 & z & ->). rewrite !table_snoc, !removelast_snoc. apply IH.
  - destruct (dget key (children head)); auto. rewrite R1, R2. cbn [bind].
    destruct (row_min_le (row1 (path ++ [key])) distance (N1 _)) as (m1 & E1 & H1). destruct (row_min_le (row2 (path ++ [key])) distance (N2 _)) as (m2 & E2 & H2).
    rewrite E1, E2. cbn [bind]. assert (Em : qleb m1 distance = qleb m2 distance).
    { apply eq_true_iff_eq. rewrite H1, H2. split; intros (y & Y & Ly); exists y; split; auto; apply I; auto. }
    rewrite Em. destruct (qleb m2 distance); [|apply IH]. rewrite G1, G2. cbn [bind]. rewrite <- !table_snoc. apply IH.
Qed.

Lemma agree (t : trie T V) char_tokenizer word distance : 0 <= trans ->
  damerau_levenshtein_lookup detokenizer ins del sub trans char_tokenizer t word distance =
  levenshtein_lookup detokenizer ins del sub trans char_tokenizer t word distance.
Proof.
  intros Lt. unfold damerau_levenshtein_lookup, levenshtein_lookup. destruct (lookup_checks ins del sub char_tokenizer word distance) as [|] eqn:E; auto. cbn [bind].
  unfold guard. destruct (qltb trans 0) eqn:Et; [apply qltb_lt in Et; qclra|]. cbn [bind].
  assert (N : word <> []).
  { intros ->. unfold lookup_checks, guard in E. destruct char_tokenizer; cbn [negb bind] in E; [|discriminate]. destruct (qltb distance 0); discriminate. }
  rewrite (lev_first_ok ins del sub trans word), (dam_first_ok ins del sub trans word).
  change [lrow ins del sub trans word []] with (table_of (lrow ins del sub trans word) []). change [drow ins del sub trans word []] with (table_of (drow ins del sub trans word) []).
  rewrite (simulation (dam_row ins del sub trans word) (lev_row ins del sub trans word) (-2) (-1) _ (lrow ins del sub trans word) distance (dist c word)); auto.
  - apply dam_row_ok.
  - apply lev_row_ok.
  - intros p. apply drow_get. exact N.
  - apply lrow_get.
  - apply drow_ne.
  - apply lrow_ne.
  - intros p y. rewrite drow_in, lrow_in. reflexivity.
Qed.
End Lookups.
