(** The dynamic programs compute the distance. *)
From Coq Require Import ZArith QArith Qcanon Qround List Bool Lia.
From Verif Require Import Num Py PyDict ListAux EmdSpec EmdProofs EditSpec EditProofs EditModel.
Import ListNotations.
Open Scope Z_scope.

(** ** Loops over positions *)
Lemma foldM_seq {S A} (step : S -> nat * A -> result S) (st : nat -> S) (l : list A) :
  (forall i x, nth_error l i = Some x -> step (st i) (i, x) = Ok (st (Datatypes.S i))) -> foldM step (enum l) (st 0%nat) = Ok (st (length l)).
Proof.
  unfold enum. intros F. 
  assert (G : forall k m, (k + length m = length l)%nat -> (forall i, (i < length m)%nat -> nth_error m i = nth_error l (k + i)) ->
    foldM step (combine (seq k (length m)) m) (st k) = Ok (st (length l))).
  { intros k m; revert k; induction m as [|a m IH]; intros k E N; cbn [length seq combine foldM].
    - cbn [length] in E. rewrite Nat.add_0_r in E. subst. reflexivity.
    - rewrite (F k a); [cbn [bind]|].
      + apply IH; [cbn [length] in E; lia|]. intros i Li. specialize (N (Datatypes.S i) ltac:(cbn [length]; lia)). cbn in N. rewrite N. f_equal. lia.
      + specialize (N 0%nat ltac:(cbn [length]; lia)). cbn in N. rewrite Nat.add_0_r in N. auto. }
  apply G; auto.
Qed.

Lemma foldM_range {S} (step : S -> Z -> result S) (st : nat -> S) n :
  (forall i, (i < n)%nat -> step (st i) (Z.of_nat i) = Ok (st (Datatypes.S i))) -> foldM step (py_range 0 (Z.of_nat n)) (st 0%nat) = Ok (st n).
Proof.
  intros F. rewrite <- (Z.add_0_l (Z.of_nat n)), (py_range_nat 0 n : py_range 0 (0 + Z.of_nat n) = _).
  assert (G : forall m k, (k + m = n)%nat -> foldM step (map Z.of_nat (seq k m)) (st k) = Ok (st n)).
  { induction m as [|m IH]; intros k E; cbn [seq map foldM]; [rewrite Nat.add_0_r in E; subst; reflexivity|].
    rewrite F by lia. cbn [bind]. apply IH. lia. }
  apply G; auto.
Qed.

Lemma firstn_snoc {A} (l : list A) i x : nth_error l i = Some x -> firstn (S i) l = firstn i l ++ [x].
Proof. revert l; induction i as [|i IH]; intros [|a l] E; try discriminate; cbn in *; [congruence|]. f_equal. apply IH; auto. Qed.

Lemma nth_error_lt {A} (l : list A) i x : nth_error l i = Some x -> (i < length l)%nat.
Proof. intros E. apply nth_error_Some. congruence. Qed.

Lemma firstn_len {A} (l : list A) : firstn (length l) l = l.
Proof. apply firstn_all. Qed.

(** ** Rows: values [f 0 .. f n], in place, or with the first one at the end *)
Section Rows.
Context {B : Type} (f : nat -> B) (z : B).

Definition straight (i : nat) : list B := map f (seq 0 (S i)).
Definition filling (i n : nat) : list B := straight i ++ repeat z (n - i).
Definition rotated (i n : nat) : list B := map f (seq 1 i) ++ repeat z (n - i) ++ [f 0%nat].

Lemma straight_len i : length (straight i) = S i.
Proof. unfold straight. rewrite map_length, seq_length. reflexivity. Qed.

Lemma straight_snoc i : straight (S i) = straight i ++ [f (S i)].
Proof. unfold straight. rewrite (seq_S (S i) 0), map_app. reflexivity. Qed.

Lemma straight_nth i j d : (j <= i)%nat -> nth j (straight i) d = f j.
Proof. intros L. unfold straight. rewrite (nth_indep _ d (f 0%nat)) by (rewrite map_length, seq_length; lia). rewrite map_nth, seq_nth by lia. reflexivity. Qed.

Lemma straight_get i j : (j <= i)%nat -> py_get (straight i) (Z.of_nat j) = Ok (f j).
Proof. intros L. rewrite (py_get_nat _ _ (f 0%nat)) by (rewrite straight_len; lia). rewrite straight_nth; auto. Qed.

Lemma get_last (l : list B) x : py_get (l ++ [x]) (-1) = Ok x.
Proof.
  unfold py_get, py_index, zlen. rewrite app_length. cbn [length Z.ltb Z.compare].
  destruct ((0 <=? -1 + Z.of_nat (length l + 1)) && (-1 + Z.of_nat (length l + 1) <? Z.of_nat (length l + 1))) eqn:E; [|apply andb_false_iff in E; rewrite Z.leb_gt, Z.ltb_ge in E; lia].
  replace (Z.to_nat (-1 + Z.of_nat (length l + 1))) with (length l) by lia. rewrite nth_error_app2, Nat.sub_diag by lia. reflexivity.
Qed.

Lemma straight_last i : py_get (straight i) (-1) = Ok (f i).
Proof. destruct i; [reflexivity|]. rewrite straight_snoc. apply get_last. Qed.

Lemma filling_get i n j : (j <= i <= n)%nat -> py_get (filling i n) (Z.of_nat j) = Ok (f j).
Proof.
  intros L. unfold filling. rewrite (py_get_nat _ _ (f 0%nat)) by (rewrite app_length, straight_len; lia).
  rewrite app_nth1 by (rewrite straight_len; lia). rewrite straight_nth by lia. reflexivity.
Qed.

Lemma filling_set i n : (i < n)%nat -> py_set (filling i n) (Z.of_nat i + 1) (f (S i)) = Ok (filling (S i) n).
Proof.
  intros L. unfold filling. replace (Z.of_nat i + 1) with (Z.of_nat (S i)) by lia.
  rewrite py_set_nat by (rewrite app_length, straight_len, repeat_length; lia). f_equal.
  destruct (n - i)%nat eqn:E; [lia|]. cbn [repeat]. pose proof (list_set_app (straight i) (repeat z n0) z (f (S i))) as X. rewrite straight_len in X. rewrite X, straight_snoc, <- app_assoc.
  cbn [app]. do 3 f_equal. lia.
Qed.

Lemma filling_full n : filling n n = straight n.
Proof. unfold filling. rewrite Nat.sub_diag. apply app_nil_r. Qed.

Lemma rotated_len i n : (i <= n)%nat -> length (rotated i n) = S n.
Proof. intros L. unfold rotated. rewrite !app_length, map_length, seq_length, repeat_length. cbn [length]. lia. Qed.

Lemma rotated_get i n j : (j <= i <= n)%nat -> py_get (rotated i n) (Z.of_nat j - 1) = Ok (f j).
Proof.
  intros L. destruct j as [|j].
  - unfold rotated. rewrite app_assoc. apply get_last.
  - replace (Z.of_nat (S j) - 1) with (Z.of_nat j) by lia. rewrite (py_get_nat _ _ (f 0%nat)) by (rewrite rotated_len; lia).
    unfold rotated. rewrite app_nth1 by (rewrite map_length, seq_length; lia). rewrite map_nth, seq_nth by lia. reflexivity.
Qed.

Lemma rotated_get' i n j : (j < i)%nat -> (i <= n)%nat -> py_get (rotated i n) (Z.of_nat j) = Ok (f (S j)).
Proof. intros L L'. replace (Z.of_nat j) with (Z.of_nat (S j) - 1) by lia. apply rotated_get. lia. Qed.

Lemma rotated_set i n : (i < n)%nat -> py_set (rotated i n) (Z.of_nat i) (f (S i)) = Ok (rotated (S i) n).
Proof.
  intros L. rewrite py_set_nat by (rewrite rotated_len; lia). f_equal. unfold rotated.
  destruct (n - i)%nat eqn:E; [lia|]. cbn [repeat app].
  pose proof (list_set_app (map f (seq 1 i)) (repeat z n0 ++ [f 0%nat]) z (f (S i))) as X. rewrite map_length, seq_length in X. rewrite X.
  rewrite (seq_S i 1), map_app, <- app_assoc. cbn [map app Nat.add]. do 3 f_equal. f_equal. lia.
Qed.
End Rows.

Lemma straight_ext {B} (f g : nat -> B) n : (forall i, (i <= n)%nat -> f i = g i) -> straight f n = straight g n.
Proof. intros E. unfold straight. apply map_ext_in. intros i I. apply in_seq in I. apply E. lia. Qed.

(** ** Unit costs: integers *)
Section Unit.
Context {A : Type} `{EqDec A}.
Variable c : costs.
Hypothesis C : c = unit_costs \/ c = unit_costs_t.

Lemma unit_sane : sane c.
Proof. destruct C; subst; [apply sane_unit|apply sane_unit_t]. Qed.

Lemma unit_integral (u v : list A) k : al c u v k -> exists n, k = qn n.
Proof.
  assert (Ci : insertion c = 1%Qc) by (destruct C; subst; reflexivity). assert (Cd : deletion c = 1%Qc) by (destruct C; subst; reflexivity).
  assert (Cs : substitution c = 1%Qc) by (destruct C; subst; reflexivity). assert (Ct : forall t, transposition c = Some t -> t = 1%Qc) by (destruct C; subst; [discriminate|intros t [= <-]; reflexivity]).
  induction 1 as [|u v k x H' (n & ->)|u v k x H' (n & ->)|u v k x H' (n & ->)|u v k x y H' (n & ->)|u v k x y t Et H' (n & ->)];
    rewrite ?Ci, ?Cd, ?Cs; try (apply Ct in Et; subst t); try (rewrite <- qn_S; eauto); eauto. exists 0%nat. reflexivity.
Qed.

Definition zdist (u v : list A) : Z := Qfloor (this (dist c u v)).

Lemma zdist_qz u v : dist c u v = qz (zdist u v).
Proof.
  destruct (dist_best c u v unit_sane) as [H' _]. apply unit_integral in H'. destruct H' as (n & E). unfold zdist. rewrite E.
  unfold qn. f_equal. rewrite this_qz. symmetry. apply Qfloor_Z.
Qed.

Lemma zdist_nil_r u : zdist u [] = zlen u.
Proof.
  apply qz_inj. rewrite <- zdist_qz, dist_nil_r. replace (deletion c) with 1%Qc by (destruct C; subst; reflexivity). unfold qn, zlen. ring.
Qed.
Lemma zdist_nil_l u : zdist [] u = zlen u.
Proof.
  apply qz_inj. rewrite <- zdist_qz, dist_nil_l. replace (insertion c) with 1%Qc by (destruct C; subst; reflexivity). unfold qn, zlen. ring.
Qed.
Lemma zdist_equal u v x : zdist (u ++ [x]) (v ++ [x]) = zdist u v.
Proof. unfold zdist. rewrite dist_equal. reflexivity. Qed.

Lemma qz_min a b : qmin (qz a) (qz b) = qz (Z.min a b).
Proof.
  unfold qmin. destruct (qleb (qz a) (qz b)) eqn:E.
  - apply qleb_le, qz_le in E. rewrite Z.min_l; auto.
  - apply qleb_nle, qz_lt in E. rewrite Z.min_r; auto. lia.
Qed.

Definition zthree (u v : list A) x y : Z := Z.min (Z.min (zdist (u ++ [x]) v + 1) (zdist u (v ++ [y]) + 1)) (zdist u v + 1).

Lemma three_qz u v x y : three c u v x y = qz (zthree u v x y).
Proof.
  unfold three, zthree. rewrite !zdist_qz. assert (Ci : insertion c = qz 1) by (destruct C; subst; reflexivity). assert (Cd : deletion c = qz 1) by (destruct C; subst; reflexivity).
  assert (Cs : substitution c = qz 1) by (destruct C; subst; reflexivity). rewrite Ci, Cd, Cs, <- !qz_add, !qz_min. reflexivity.
Qed.

Lemma zdist_differ u v x y : x <> y -> (forall t u0 v0, transposition c = Some t -> ~ crossed u v x y u0 v0) -> zdist (u ++ [x]) (v ++ [y]) = zthree u v x y.
Proof. intros N X. apply qz_inj. rewrite <- zdist_qz, dist_differ, three_qz; auto. Qed.

Lemma zdist_crossed u v x y t : x <> y -> transposition c = Some t ->
  zdist (u ++ [y; x]) (v ++ [x; y]) = Z.min (zthree (u ++ [y]) (v ++ [x]) x y) (zdist u v + 1).
Proof.
  intros N E. apply qz_inj. rewrite <- zdist_qz, (dist_crossed c u v x y t), three_qz, zdist_qz; auto.
  assert (t = qz 1) as -> by (destruct C; subst; [discriminate|injection E as <-; reflexivity]). rewrite <- qz_add, qz_min. reflexivity.
Qed.

(** Neighbouring cells differ by at most 1. *)
Lemma zdist_near u v x : zdist u v <= zdist (u ++ [x]) v + 1 /\ zdist u v <= zdist u (v ++ [x]) + 1.
Proof.
  pose proof unit_sane as P. split; apply qz_le; rewrite qz_add, <- !zdist_qz; change (qz 1) with 1%Qc.
  - destruct (dist_best c (u ++ [x]) v P) as [H' _]. apply al_drop_l in H'; auto. destruct H' as (k' & H' & L). destruct (dist_best c u v P) as [_ M].
    apply M in H'. replace (insertion c) with 1%Qc in L by (destruct C; subst; reflexivity). qclra.
  - destruct (dist_best c u (v ++ [x]) P) as [H' _]. destruct (al_drop c _ _ _ P H' v x eq_refl) as (k' & H2 & L). destruct (dist_best c u v P) as [_ M].
    apply M in H2. replace (deletion c) with 1%Qc in L by (destruct C; subst; reflexivity). qclra.
Qed.
End Unit.

(** ** [edit_distance], [levenshtein] *)
Section Plain.
Context {A : Type} `{EqDec A}.
Notation zd := (zdist unit_costs).
Let CU : unit_costs = unit_costs \/ unit_costs = unit_costs_t := or_introl eq_refl.

(** The row of distances of the prefixes of [w] to [p]. *)
Definition zrow (w p : list A) : list Z := straight (fun i => zd (firstn i w) p) (length w).

Lemma zrow_nil (w : list A) : py_range 0 (zlen w + 1) = zrow w [].
Proof.
  unfold zrow, zlen. replace (Z.of_nat (length w) + 1) with (0 + Z.of_nat (S (length w))) by lia.
  rewrite (py_range_nat 0 (S (length w)) : py_range 0 (0 + Z.of_nat (S (length w))) = _). unfold straight. apply map_ext_in. intros i I. apply in_seq in I.
  rewrite zdist_nil_r by auto. unfold zlen. rewrite firstn_length. lia.
Qed.

Lemma edit_row_ok s1 p i2 c2 : i2 = length p -> edit_row s1 (zrow s1 p) (i2, c2) = Ok (zrow s1 (p ++ [c2])).
Proof.
  intros ->. unfold edit_row, zrow.
  assert (E0 : [Z.of_nat (length p) + 1] = straight (fun i => zd (firstn i s1) (p ++ [c2])) 0).
  { cbn [straight seq map firstn]. rewrite zdist_nil_l by auto. unfold zlen. rewrite app_length. cbn [length]. f_equal. lia. }
  rewrite E0. apply (foldM_seq _ (straight (fun i => zd (firstn i s1) (p ++ [c2])))). intros i x Ex. pose proof (nth_error_lt _ _ _ Ex) as Li.
  rewrite straight_snoc. destruct (eqd x c2) as [->|N].
  - rewrite straight_get by lia. cbn [bind]. rewrite (firstn_snoc s1 i c2) by auto. rewrite zdist_equal. reflexivity.
  - rewrite straight_get by lia. replace (Z.of_nat i + 1) with (Z.of_nat (S i)) by lia. rewrite straight_get by lia. rewrite straight_last. cbn [bind].
    rewrite (firstn_snoc s1 i x) by auto. rewrite (zdist_differ unit_costs CU _ _ _ _ N); [|intros; discriminate]. unfold zthree. do 3 f_equal. lia.
Qed.

Lemma levenshtein_row_ok s2 p i1 c1 : i1 = length p -> levenshtein_row s2 (zrow s2 p) (i1, c1) = Ok (zrow s2 (p ++ [c1])).
Proof.
  intros ->. unfold levenshtein_row, zrow.
  assert (E0 : [Z.of_nat (length p) + 1] = straight (fun i => zd (firstn i s2) (p ++ [c1])) 0).
  { cbn [straight seq map firstn]. rewrite zdist_nil_l by auto. unfold zlen. rewrite app_length. cbn [length]. f_equal. lia. }
  rewrite E0. apply (foldM_seq _ (straight (fun i => zd (firstn i s2) (p ++ [c1])))). intros i x Ex. pose proof (nth_error_lt _ _ _ Ex) as Li.
  rewrite straight_snoc. replace (Z.of_nat i + 1) with (Z.of_nat (S i)) by lia. rewrite !straight_get by lia. cbn [bind].
  rewrite (firstn_snoc s2 i x) by auto. destruct (eqd c1 x) as [->|N].
  - rewrite zdist_equal. do 3 f_equal. pose proof (zdist_near unit_costs CU (firstn i s2) p x). lia.
  - rewrite (zdist_differ unit_costs CU (firstn i s2) p x c1); [|congruence|intros; discriminate]. unfold zthree. do 3 f_equal.
Qed.

Lemma rows_ok (row : list A -> list Z -> nat * A -> result (list Z)) w l :
  (forall p i x, i = length p -> row w (zrow w p) (i, x) = Ok (zrow w (p ++ [x]))) ->
  foldM (row w) (enum l) (zrow w []) = Ok (zrow w l).
Proof.
  intros R. rewrite <- (firstn_len l) at 2. apply (foldM_seq _ (fun i => zrow w (firstn i l))). intros i x Ex. rewrite (firstn_snoc l i x) by auto.
  apply R. rewrite firstn_length. apply nth_error_lt in Ex. lia.
Qed.

Lemma zrow_last (w l : list A) : py_get (zrow w l) (-1) = Ok (zd w l).
Proof. unfold zrow. rewrite straight_last, firstn_len. reflexivity. Qed.

Lemma zd_sym (u v : list A) : zd u v = zd v u.
Proof.
  apply qz_inj. rewrite <- !zdist_qz by auto. apply dist_eq; [apply sane_unit|]. change unit_costs with (flip unit_costs) at 1.
  apply best_flip, dist_best, sane_unit.
Qed.

Lemma edit_distance_ok (s1 s2 : list A) : edit_distance s1 s2 = Ok (zd s1 s2).
Proof.
  unfold edit_distance. destruct (zlen s2 <? zlen s1).
  - rewrite zrow_nil, (rows_ok edit_row) by (intros; apply edit_row_ok; auto). cbn [bind]. rewrite zrow_last, zd_sym. reflexivity.
  - rewrite zrow_nil, (rows_ok edit_row) by (intros; apply edit_row_ok; auto). cbn [bind]. rewrite zrow_last. reflexivity.
Qed.

Lemma levenshtein_ok (s1 s2 : list A) : levenshtein s1 s2 = Ok (zd s1 s2).
Proof.
  unfold levenshtein.
  assert (G : forall u v, (match u with [] => Ok (zlen v) | _ :: _ => row <- foldM (levenshtein_row v) (enum u) (py_range 0 (zlen v + 1)) ;; py_get row (-1) end) = Ok (zd u v)).
  { intros u v. rewrite zrow_nil, (rows_ok levenshtein_row) by (intros; apply levenshtein_row_ok; auto). cbn [bind]. rewrite zrow_last, zd_sym.
    destruct u; [rewrite zdist_nil_l by auto|]; reflexivity. }
  destruct (zlen s1 <? zlen s2); rewrite G; [rewrite zd_sym|]; reflexivity.
Qed.

Lemma zd_least (u v : list A) : 0 <= zd u v /\ least_steps one_edit u v (Z.to_nat (zd u v)).
Proof.
  assert (L : 0 <= zd u v).
  { apply qz_le. rewrite <- zdist_qz by auto. destruct (dist_best unit_costs u v sane_unit) as [H' _]. apply al_nonneg in H'; auto using sane_unit. }
  split; auto. apply best_steps. unfold qn. rewrite Z2Nat.id by auto. rewrite <- zdist_qz by auto. apply dist_best, sane_unit.
Qed.
End Plain.

(** ** [damerau_levenshtein_distance] *)
Section Damerau.
Context {A : Type} `{EqDec A}.
Notation zd := (zdist unit_costs_t).
Let CU : unit_costs_t = unit_costs \/ unit_costs_t = unit_costs_t := or_intror eq_refl.

Definition drow (w p : list A) : list Z := rotated (fun i => zd (firstn i w) p) 0 (length w) (length w).

Lemma drow_nil (w : list A) : py_range 1 (zlen w + 1) ++ [0] = drow w [].
Proof.
  unfold drow, zlen, rotated. rewrite Nat.sub_diag. cbn [repeat app firstn]. rewrite zdist_nil_l by auto. cbn [zlen length Z.of_nat]. f_equal.
  replace (Z.of_nat (length w) + 1) with (1 + Z.of_nat (length w)) by lia.
  rewrite (py_range_nat 1 (length w) : py_range 1 (1 + Z.of_nat (length w)) = _). apply map_ext_in. intros i I. apply in_seq in I.
  rewrite zdist_nil_r by auto. unfold zlen. rewrite firstn_length. lia.
Qed.

Lemma nth_get {B} (l : list B) i x : nth_error l i = Some x -> py_get l (Z.of_nat i) = Ok x.
Proof. intros E. unfold py_get. rewrite py_index_nat by (apply nth_error_lt in E; auto). rewrite E. reflexivity. Qed.

Lemma transposed_ok (s1 s2 : list A) (x y : nat) a b : nth_error s1 x = Some a -> nth_error s2 y = Some b ->
  exists r, transposed s1 s2 (Z.of_nat x) (Z.of_nat y) = Ok r /\
  if r then exists x0 y0, x = S x0 /\ y = S y0 /\ nth_error s2 y0 = Some a /\ nth_error s1 x0 = Some b /\ a <> b
  else a = b \/ forall u0 v0, ~ crossed (firstn y s2) (firstn x s1) b a u0 v0.
Proof.
  intros Ea Eb. unfold transposed.
  destruct x as [|x]; [exists false; split; [reflexivity|]; right; intros u0 v0 [_ E]; destruct v0; discriminate|].
  destruct y as [|y]; [exists false; split; [reflexivity|]; right; intros u0 v0 [E _]; destruct u0; discriminate|].
  replace ((0 <? Z.of_nat (S x)) && (0 <? Z.of_nat (S y))) with true by (symmetry; apply andb_true_intro; split; apply Z.ltb_lt; lia).
  rewrite (nth_get _ _ _ Ea), (nth_get _ _ _ Eb). cbn [bind]. replace (Z.of_nat (S y) - 1) with (Z.of_nat y) by lia. replace (Z.of_nat (S x) - 1) with (Z.of_nat x) by lia.
  destruct (nth_error s2 y) as [b'|] eqn:Eb'; [|apply nth_error_None in Eb'; apply nth_error_lt in Eb; lia].
  destruct (nth_error s1 x) as [a'|] eqn:Ea'; [|apply nth_error_None in Ea'; apply nth_error_lt in Ea; lia].
  rewrite (nth_get _ _ _ Ea'), (nth_get _ _ _ Eb'). cbn [bind]. rewrite (firstn_snoc s2 y b'), (firstn_snoc s1 x a') by auto.
  destruct (eqd a b') as [<-|N1].
  2:{ exists false. split; auto. right. intros u0 v0 [E _]. apply snoc_inv in E. destruct E. congruence. }
  destruct (eqd a' b) as [<-|N2].
  2:{ exists false. split; auto. right. intros u0 v0 [_ E]. apply snoc_inv in E. destruct E. congruence. }
  destruct (eqd a a') as [<-|N3]; [exists false; split; auto|]. exists true. split; auto. exists x, y. repeat split; auto.
Qed.

Lemma list_set_twice {B} (l : list B) i x y : list_set (list_set l i x) i y = list_set l i y.
Proof. revert i; induction l as [|b l IH]; intros [|i]; cbn; auto. rewrite IH. reflexivity. Qed.

Lemma damerau_cell_ok (s1 s2 : list A) (x y : nat) a b twoago : nth_error s1 x = Some a -> nth_error s2 y = Some b ->
  (forall x0, x = S x0 -> twoago = Some (drow s2 (firstn x0 s1))) ->
  damerau_cell s1 s2 (Z.of_nat x) twoago (drow s2 (firstn x s1)) (rotated (fun i => zd (firstn i s2) (firstn (S x) s1)) 0 y (length s2)) (Z.of_nat y)
  = Ok (rotated (fun i => zd (firstn i s2) (firstn (S x) s1)) 0 (S y) (length s2)).
Proof.
  intros Ea Eb Et. pose proof (nth_error_lt _ _ _ Eb) as Ly. pose proof (nth_error_lt _ _ _ Ea) as Lx.
  unfold damerau_cell. set (f := fun i => zd (firstn i s2) (firstn (S x) s1)). unfold drow at 1 2.
  rewrite rotated_get' by lia. rewrite !rotated_get by lia. rewrite (nth_get _ _ _ Ea), (nth_get _ _ _ Eb). cbn [bind].
  destruct (transposed_ok s1 s2 x y a b Ea Eb) as (r & Er & Hr). rewrite Er. clear Er.
  rewrite py_set_nat by (rewrite rotated_len; lia). cbn [bind].
  pose proof (rotated_set f 0 y (length s2) Ly) as RS. rewrite py_set_nat in RS by (rewrite rotated_len; lia).
  pose proof (zdist_near unit_costs_t CU (firstn y s2) (firstn x s1)) as Nr.
  destruct r.
  - destruct Hr as (x0 & y0 & -> & -> & E2 & E1 & N). rewrite (Et x0 eq_refl). unfold drow.
    rewrite (py_get_nat _ _ 0) by (rewrite list_set_length, rotated_len; lia). rewrite nth_list_set_eq by (rewrite rotated_len; lia). cbn [bind].
    replace (Z.of_nat (S y0) - 2) with (Z.of_nat y0 - 1) by lia. rewrite rotated_get by lia. cbn [bind].
    rewrite py_set_nat by (rewrite list_set_length, rotated_len; lia). rewrite list_set_twice. rewrite <- RS. do 2 f_equal.
    unfold f. rewrite (firstn_snoc s2 (S y0) b), (firstn_snoc s1 (S x0) a) by auto. rewrite (firstn_snoc s2 y0 a), (firstn_snoc s1 x0 b) by auto.
    rewrite <- !app_assoc. cbn [app]. rewrite (zdist_crossed unit_costs_t CU _ _ b a 1%Qc) by (auto; reflexivity).
    unfold zthree. rewrite <- !app_assoc. cbn [app]. destruct (eqd a b); [congruence|]. 
    lia.
  - rewrite <- RS. do 2 f_equal. unfold f. rewrite (firstn_snoc s2 y b), (firstn_snoc s1 x a) by auto. destruct (eqd a b) as [<-|N].
    + rewrite zdist_equal. pose proof (Nr a). lia.
    + rewrite (zdist_differ unit_costs_t CU _ _ b a); [|congruence|intros t u0 v0 _; destruct Hr as [Hr|Hr]; [congruence|apply Hr]]. unfold zthree. lia.
Qed.

Lemma damerau_ok (s1 s2 : list A) : damerau_levenshtein_distance s1 s2 = Ok (zd s1 s2).
Proof.
  unfold damerau_levenshtein_distance. rewrite drow_nil.
  set (st := fun x => (match x with O => None | S x0 => Some (drow s2 (firstn x0 s1)) end, drow s2 (firstn x s1))).
  change (None, drow s2 []) with (st 0%nat). unfold zlen at 1. rewrite (foldM_range _ st).
  - cbn [bind]. unfold st. cbn [snd]. rewrite firstn_len. unfold drow, zlen. rewrite rotated_get by lia. rewrite firstn_len. f_equal.
    apply qz_inj. rewrite <- !zdist_qz by auto. apply dist_eq; [apply sane_unit_t|]. change unit_costs_t with (flip unit_costs_t) at 1.
    apply best_flip, dist_best, sane_unit_t.
  - intros x Lx. unfold damerau_row, st at 1. destruct (nth_error s1 x) as [a|] eqn:Ea; [|apply nth_error_None in Ea; lia].
    assert (E0 : repeat 0 (length s2) ++ [Z.of_nat x + 1] = rotated (fun i => zd (firstn i s2) (firstn (S x) s1)) 0 0 (length s2)).
    { unfold rotated. cbn [seq map app]. rewrite Nat.sub_0_r. change (firstn 0 s2) with (@nil A). rewrite zdist_nil_l by auto. unfold zlen. rewrite firstn_length. do 3 f_equal. lia. }
    rewrite E0. unfold zlen. rewrite (foldM_range _ (fun y => rotated (fun i => zd (firstn i s2) (firstn (S x) s1)) 0 y (length s2))).
    + cbn [bind]. reflexivity.
    + intros y Ly. destruct (nth_error s2 y) as [b|] eqn:Eb; [|apply nth_error_None in Eb; lia].
      eapply damerau_cell_ok; eauto. intros x0 ->. reflexivity.
Qed.
End Damerau.
