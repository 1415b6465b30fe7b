(** [ApproxWordListV5b]: the state, and the two loops of a lookup computed. *)
From Coq Require Import ZArith NArith QArith Qcanon List Bool Permutation Lia Lqa Sorted.
From Verif Require Import Num Py ListAux PyDict Float64 EmdSpec EmdModel EmdProofs EmdFloatProofs
  NmdSpec NmdModel NmdProofs NmdFloatProofs IndexSpec IndexModel IndexProofs IndexLoops IndexLookupProofs IndexResult IndexTop.
From Verif Require Import V5bModel.
Import ListNotations.
Open Scope Qc_scope.

(** ** Rounding and doubling *)

(** No underflow: rounding commutes with doubling. *)
Definition doubling (rnd : Qc -> Qc) : Prop := forall x, rnd (x * qz 2) = rnd x * qz 2.

Lemma exact_doubling : doubling exact.
Proof. intros x. reflexivity. Qed.

Lemma ilog2_double q : (0 < q)%Q -> ilog2 (q * 2) = (ilog2 q + 1)%Z.
Proof.
  intros H. destruct (ilog2_spec q H) as [A1 A2]. assert (H2 : (0 < q * 2)%Q) by lra. destruct (ilog2_spec (q * 2) H2) as [B1 B2].
  apply Z.le_antisymm.
  - assert (P : (pow2 (ilog2 (q * 2)) < pow2 (ilog2 q + 1 + 1))%Q) by (rewrite (pow2_S (ilog2 q + 1)); lra). apply pow2_lt_inv in P. lia.
  - assert (P : (pow2 (ilog2 q + 1) < pow2 (ilog2 (q * 2) + 1))%Q) by (rewrite (pow2_S (ilog2 q)); lra). apply pow2_lt_inv in P. lia.
Qed.

Lemma rnd_pos_double q : (0 < q)%Q -> (rnd_pos (q * 2) == rnd_pos q * 2)%Q.
Proof.
  intros H. unfold rnd_pos. rewrite ilog2_double by auto. replace (ilog2 q + 1 - 52)%Z with (ilog2 q - 52 + 1)%Z by lia.
  pose proof (pow2_pos (ilog2 q - 52)) as P. rewrite (rne_comp (q * 2 / pow2 (ilog2 q - 52 + 1)) (q / pow2 (ilog2 q - 52))).
  - rewrite pow2_S. ring.
  - rewrite pow2_S. field. lra.
Qed.

Lemma rndQ_double a : (rndQ (a * 2) == rndQ a * 2)%Q.
Proof.
  destruct (Q_dec a 0) as [[Na|Pa]|Za].
  - rewrite (rndQ_neg a), (rndQ_neg (a * 2)) by lra. rewrite (rnd_pos_comp (- (a * 2)) (- a * 2)); [|lra|ring].
    rewrite rnd_pos_double by lra. ring.
  - rewrite (rndQ_pos a), (rndQ_pos (a * 2)) by lra. apply rnd_pos_double; auto.
  - rewrite !rndQ_zero by lra. reflexivity.
Qed.

Lemma rnd64_doubling : doubling rnd64.
Proof.
  intros x. unfold rnd64. apply Qc_is_canon. eapply Qeq_trans; [apply Qred_correct|].
  assert (E : (this (x * qz 2)%Qc == this x * 2)%Q) by (apply Qred_correct).
  eapply Qeq_trans; [apply rndQ_comp, E|]. eapply Qeq_trans; [apply rndQ_double|]. apply Qeq_sym.
  eapply Qeq_trans; [apply Qred_correct|]. apply Qmult_comp; [apply Qred_correct|reflexivity].
Qed.

(** ** First occurrences *)

Definition addk (acc : list nat) (x : nat) : list nat := if in_dec eqd x acc then acc else acc ++ [x].
Definition firsts (l : list nat) : list nat := fold_left addk l [].

Lemma firsts_snoc l x : firsts (l ++ [x]) = addk (firsts l) x.
Proof. unfold firsts. rewrite fold_left_app. reflexivity. Qed.

Lemma firsts_in l x : In x (firsts l) <-> In x l.
Proof.
  induction l as [|y l IH] using rev_ind; [reflexivity|]. rewrite firsts_snoc. unfold addk.
  destruct in_dec as [J|J]; rewrite ?in_app_iff, IH; cbn [In]; split; auto.
  - intros [H|[<-|[]]]; auto. apply IH; auto.
Qed.

Lemma firsts_nodup l : NoDup (firsts l).
Proof.
  induction l as [|y l IH] using rev_ind; [constructor|]. rewrite firsts_snoc. unfold addk.
  destruct in_dec as [J|J]; auto. apply NoDup_app_intro; auto.
  - repeat constructor. intros [].
  - intros x H1 [<-|[]]. contradiction.
Qed.

Lemma firsts_filter p l : firsts (filter p l) = filter p (firsts l).
Proof.
  induction l as [|y l IH] using rev_ind; [reflexivity|]. rewrite filter_app, firsts_snoc. cbn [filter]. unfold addk.
  destruct (p y) eqn:P.
  - rewrite firsts_snoc, IH. unfold addk. destruct in_dec as [J|J], in_dec as [K|K]; auto.
    + exfalso. apply K. apply filter_In in J. tauto.
    + exfalso. apply J. apply filter_In. auto.
    + rewrite filter_app. cbn [filter]. rewrite P. reflexivity.
  - rewrite app_nil_r, IH. destruct in_dec as [K|K]; auto. rewrite filter_app. cbn [filter]. rewrite P, app_nil_r. reflexivity.
Qed.

(** ** Loops over events, with the order of the keys *)

Lemma dkeys_dset i (l : list Qc) d : dkeys (dset i l d) = addk (dkeys d) i.
Proof.
  unfold addk, dkeys. induction d as [|[a b] d IH]; cbn [dset map fst].
  - destruct in_dec as [[]|_]. reflexivity.
  - destruct (eqd i a) as [->|N].
    + cbn [map fst]. destruct (in_dec eqd a (a :: map fst d)) as [_|K]; [reflexivity|]. exfalso. apply K. left; auto.
    + cbn [map fst]. rewrite IH. destruct in_dec as [J|J], in_dec as [K|K]; auto.
      * exfalso. apply K. right; auto.
      * exfalso. destruct K as [K|K]; congruence || contradiction.
Qed.

Lemma addk_in acc x : In x acc -> addk acc x = acc.
Proof. intros H. unfold addk. destruct in_dec; [auto|contradiction]. Qed.

Lemma ev_step_keys N al d i k F d' : ev_step N al d (i, k, F) = Ok d' ->
  dkeys d' = if al i then addk (dkeys d) i else dkeys d.
Proof.
  unfold ev_step. destruct (al i); [|congruence]. intros H. apply bind_ok in H. destruct H as (v & _ & H). injection H as <-.
  rewrite dkeys_dset. destruct (dmem i d) eqn:M; auto. rewrite dkeys_dset. apply addk_in. unfold addk.
  destruct in_dec as [J|J]; auto. apply in_app_iff. right; left; auto.
Qed.

Definition idx (e : event) : nat := fst (fst e).

Lemma loop_keys N al evs d : foldM (ev_step N al) evs [] = Ok d -> dkeys d = filter al (firsts (map idx evs)).
Proof.
  rewrite <- firsts_filter. unfold firsts. change (@nil nat) with (dkeys (@nil (nat * list Qc))).
  generalize (@nil (nat * list Qc)). induction evs as [|[[i k] F] evs IH]; intros d0 H.
  - cbn in *. congruence.
  - cbn [foldM] in H. apply bind_ok in H. destruct H as (d1 & H1 & H2). cbn [map filter]. unfold idx at 1 2. cbn [fst].
    rewrite (IH _ H2). rewrite (ev_step_keys _ _ _ _ _ _ _ H1). destruct (al i); reflexivity.
Qed.

Lemma dict_of_keys {V} (d : dict nat (list V)) : dwf d -> d = map (fun i => (i, dgetl i d)) (dkeys d).
Proof.
  intros W. unfold dkeys. rewrite map_map. rewrite <- (map_id d) at 1. apply map_ext_in. intros [i l] H. cbn [fst].
  apply In_dget in H; auto. unfold dgetl. rewrite H. reflexivity.
Qed.

(** Loops that add a contribution to a component of the scores of a word. *)
Lemma foldM_total {A B} (f : A -> B -> A) l : forall a, foldM (fun a b => Ok (f a b)) l a = Ok (fold_left f l a).
Proof. induction l; intros; simpl; auto. Qed.

(** ** The cut *)

Lemma insert_filter {A} (leb : A -> A -> bool) (p : A -> bool) a m :
  (forall x y z, leb x y = true -> leb y z = true -> leb x z = true) ->
  StronglySorted (fun x y => leb x y = true) m ->
  filter p (insert leb a m) = if p a then insert leb a (filter p m) else filter p m.
Proof.
  intros T S. induction S as [|b m S IH Hb]; cbn [insert filter].
  - destruct (p a); reflexivity.
  - destruct (leb a b) eqn:E; cbn [filter].
    + destruct (p a) eqn:Pa; auto. destruct (p b) eqn:Pb; cbn [insert]; [rewrite E; reflexivity|].
      destruct (filter p m) as [|x r] eqn:Ef; [reflexivity|]. cbn [insert].
      assert (Hx : In x m) by (assert (H : In x (filter p m)) by (rewrite Ef; left; auto); apply filter_In in H; tauto).
      rewrite Forall_forall in Hb. rewrite (T a b x); auto.
    + rewrite IH. destruct (p a) eqn:Pa, (p b) eqn:Pb; cbn [insert]; auto. rewrite E. reflexivity.
Qed.

Lemma isort_filter {A} (leb : A -> A -> bool) (p : A -> bool) l :
  (forall x y, leb x y = true \/ leb y x = true) ->
  (forall x y z, leb x y = true -> leb y z = true -> leb x z = true) ->
  isort leb (filter p l) = filter p (isort leb l).
Proof.
  intros To Tr. induction l as [|a l IH]; [reflexivity|]. change (isort leb (a :: l)) with (insert leb a (isort leb l)).
  rewrite insert_filter; [|auto|apply isort_sorted; auto]. cbn [filter]. destruct (p a); rewrite <- IH; reflexivity.
Qed.

Lemma firstn_filter {A} (p : A -> bool) k l : (forall x, In x (firstn k l) -> p x = true) -> firstn k (filter p l) = firstn k l.
Proof.
  revert k. induction l as [|a l IH]; intros [|k] H; cbn [filter firstn] in *; auto.
  rewrite (H a) by (left; auto). cbn [firstn]. f_equal. apply IH. intros x Hx. apply H. right; auto.
Qed.

(** Removing elements that score less than [k] others does not change the
    first [k]. *)
Lemma cut_best (sc : nat -> Qc) (p : nat -> bool) (thr : Qc) (top l : list nat) k :
  NoDup top -> incl top l -> length top = Nat.min k (length l) ->
  (forall i, In i top -> thr <= sc i) -> (forall i, In i l -> p i = false -> sc i < thr) ->
  firstn k (best qleb sc (filter p l)) = firstn k (best qleb sc l).
Proof.
  intros NT IT LT HT HP.
  assert (Th : forall r, In r (firstn k (best qleb sc l)) -> thr <= sc r).
  { intros r Hr. destruct (Qclt_le_dec (sc r) thr) as [C|]; auto. exfalso.
    assert (Inc : incl (r :: top) (firstn k (best qleb sc l))).
    { intros i [<-|Hi]; auto. destruct (in_dec Nat.eq_dec i (firstn k (best qleb sc l))) as [|N]; auto. exfalso.
      pose proof (best_rest qleb sc qleb_total qleb_trans l k r i Hr (IT i Hi) N) as H. apply qleb_le in H.
      pose proof (HT i Hi) as H'. clear - H H' C. qclra. }
    assert (Nr : ~ In r top). { intros Hi. apply HT in Hi. clear - Hi C. qclra. }
    assert (N2 : NoDup (r :: top)) by (constructor; auto).
    pose proof (NoDup_incl_length N2 Inc) as H. cbn [length] in H. rewrite firstn_length, (Permutation_length (best_perm qleb sc l)) in H. lia. }
  unfold best at 1. rewrite isort_filter.
  - fold (best qleb sc l). apply firstn_filter. intros r Hr. destruct (p r) eqn:Pr; auto.
    pose proof (Th r Hr) as H. apply best_firstn_incl in Hr. pose proof (HP r Hr Pr) as H'. exfalso. clear - H H'. qclra.
  - intros x y. apply qleb_total.
  - intros x y z H1 H2. eapply qleb_trans; eauto.
Qed.

(** ** The state *)

Section State.
Variable rnd : Qc -> Qc.
Hypothesis R0 : rnd 0 = 0.

Definition ident (w : str) : str := w.
Definition ordw (o : order) : order := {| o_str := o_str o; o_int := fun l => l |}.

Lemma ordw_fair o : fair o -> fair (ordw o).
Proof. intros [F _]. split; [exact F|]. intros l. apply Permutation_refl. Qed.

Lemma locations5b_group l : locations5b rnd l = group (gocc rnd l).
Proof. unfold locations5b, group, gocc. rewrite fold_left_map. reflexivity. Qed.

Lemma fold_pair {A B C} (f : A -> C -> A) (g : B -> C -> B) l : forall a b,
  fold_left (fun p c => (f (fst p) c, g (snd p) c)) l (a, b) = (fold_left f l a, fold_left g l b).
Proof. induction l; intros; simpl; auto. Qed.

Lemma fold_left_flat_map {A B C} (f : A -> C -> A) (g : B -> list C) l : forall a,
  fold_left f (flat_map g l) a = fold_left (fun a b => fold_left f (g b) a) l a.
Proof. induction l; intros; simpl; auto. rewrite fold_left_app. auto. Qed.

Lemma add_grams5b_eq o w i st : NoDup (n_list st) -> add_grams5b rnd w i st = add_grams rnd (ordw o) w i st.
Proof.
  intros N. unfold add_grams5b, add_grams. cbn [o_int ordw]. rewrite nodup_fixed_point by auto.
  set (its := flat_map (fun n => add_locations rnd (get_n_grams w n)) (n_list st)).
  assert (E : fold_left (add_size5b rnd w i) (n_list st) (ngram_counts st, ngram_positions st) =
     (fold_left (fun d it => dappend (fst it) (i, zlen (snd it)) d) its (ngram_counts st),
      fold_left (fun d it => dappend (fst it) (i, snd it) d) its (ngram_positions st))).
  { rewrite <- (fold_pair (fun d (it : str * list Qc) => dappend (fst it) (i, zlen (snd it)) d) (fun d it => dappend (fst it) (i, snd it) d)).
    unfold its. rewrite fold_left_flat_map. apply fold_left_ext_in. intros cp n _. unfold add_size5b.
    rewrite add_locations_group by auto. rewrite locations5b_group.
    destruct (Z.eqb_spec (zlen (get_n_grams w n)) 0) as [E|_]; [|reflexivity].
    destruct (get_n_grams w n); [reflexivity|]. unfold zlen in E. cbn [length] in E. lia. }
  rewrite E. reflexivity.
Qed.

Lemma fold_ident st w : fold_case ident st w = w.
Proof. unfold fold_case, ident. destruct (case_insensitive st); reflexivity. Qed.

Lemma zlen0 (w : str) : zlen w = 0%Z <-> w = [].
Proof. unfold zlen. destruct w; cbn [length]; split; intros H; auto; try discriminate; lia. Qed.

Lemma marked_iff w : marked w = true <-> ~ clean w.
Proof. apply dirty_iff. Qed.

Lemma marked_clean w : marked w = false <-> clean w.
Proof.
  destruct (marked w) eqn:M.
  - split; [discriminate|]. intros C. apply marked_iff in M. contradiction.
  - split; auto. intros _. destruct (clean_dec w) as [|N]; auto. apply marked_iff in N. congruence.
Qed.

Variable casefold : str -> str.

(** The word a call adds, if any. *)
Definition added5b (st : wordlist) (v : pyval) : list str :=
  match v with
  | PStr w => let u := fold_case casefold st w in
              if (zlen w =? 0)%Z || (zlen u =? 0)%Z || marked u || dmem u (word_indices st) then [] else [u]
  | _ => []
  end.

Lemma add_word5b_new o st w u : inv rnd ident st -> w <> [] -> u = fold_case casefold st w -> u <> [] -> clean u -> ~ In u (word_list st) ->
  add_word5b rnd casefold o st (PStr w) = add_word rnd ident (ordw o) st (PStr u).
Proof.
  intros I Hw Eu Hu Cu Nu. unfold add_word5b, add_word. rewrite <- Eu.
  destruct (Z.eqb_spec (zlen w) 0) as [E|_]; [apply zlen0 in E; contradiction|].
  destruct (Z.eqb_spec (zlen u) 0) as [E|_]; [apply zlen0 in E; contradiction|].
  rewrite (proj2 (marked_clean u) Cu). cbv zeta. rewrite fold_ident. fold (marked u). rewrite (proj2 (marked_clean u) Cu).
  destruct (dmem u (word_indices st)) eqn:D; [exfalso; apply Nu; apply (known_iff _ _ _ I); auto|].
  unfold resolve5b, resolve_word_index. cbv zeta. rewrite fold_ident.
  destruct (Z.eqb_spec (zlen u) 0) as [E|_]; [apply zlen0 in E; contradiction|].
  destruct (dget u (word_indices st)) eqn:G; [unfold dmem in D; rewrite G in D; discriminate|].
  cbn [word_list word_lens word_indices].
  assert (Ln : length (dset u (length (word_list st)) (word_indices st)) = (length (word_list st) + 1)%nat).
  { rewrite (dset_app u) by auto. rewrite app_length. cbn [length]. f_equal.
    rewrite (inv_indices _ _ _ I), map_length, numbered_length. reflexivity. }
  rewrite Ln, app_length. cbn [length]. rewrite !Nat.eqb_refl. cbn [andb].
  rewrite nth_error_app2, Nat.sub_diag by lia. cbn [nth_error].
  assert (LL : length (word_lens st) = length (word_list st)) by (rewrite (inv_lens _ _ _ I), map_length; reflexivity).
  rewrite nth_error_app2, LL, Nat.sub_diag by lia. cbn [nth_error]. destruct (eqd u u); [|congruence]. rewrite Z.eqb_refl.
  f_equal. apply add_grams5b_eq.
  unfold add_filter. cbn [filter_n]. destruct (filter_n st =? 0)%Z; cbn [n_list]; apply (inv_n _ _ _ I).
Qed.

Lemma add_word5b_spec o st v : inv rnd ident st -> fair o ->
  let st' := fst (add_word5b rnd casefold o st v) in
  inv rnd ident st' /\ n_list st' = n_list st /\ case_insensitive st' = case_insensitive st /\ filter_n st' = filter_n st /\
  word_list st' = word_list st ++ added5b st v /\ (added5b st v = [] -> st' = st) /\
  snd (add_word5b rnd casefold o st v) =
    match v with
    | PStr w => let u := fold_case casefold st w in
                if (zlen w =? 0)%Z || (zlen u =? 0)%Z || marked u then Err ValueError else Ok tt
    | _ => Err ValueError
    end.
Proof.
  intros I F.
  assert (Same : forall (a : list str) (r r' : result unit), a = [] -> r = r' ->
     inv rnd ident st /\ n_list st = n_list st /\ case_insensitive st = case_insensitive st /\ filter_n st = filter_n st /\
     word_list st = word_list st ++ a /\ (a = [] -> st = st) /\ r = r').
  { intros a r r' -> H. rewrite app_nil_r. intuition auto. }
  destruct v as [w| | | |]; try (apply Same; reflexivity).
  cbv zeta. cbn [added5b]. set (u := fold_case casefold st w).
  destruct (Z.eqb_spec (zlen w) 0) as [Ew|Nw].
  { unfold add_word5b. rewrite Ew. apply Same; reflexivity. }
  destruct (Z.eqb_spec (zlen u) 0) as [Eu|Nu].
  { unfold add_word5b. destruct (Z.eqb_spec (zlen w) 0); [contradiction|]. fold u. rewrite Eu. apply Same; reflexivity. }
  destruct (marked u) eqn:M.
  { unfold add_word5b. destruct (Z.eqb_spec (zlen w) 0); [contradiction|]. fold u.
    destruct (Z.eqb_spec (zlen u) 0); [contradiction|]. rewrite M. apply Same; reflexivity. }
  destruct (dmem u (word_indices st)) eqn:D.
  { unfold add_word5b. destruct (Z.eqb_spec (zlen w) 0); [contradiction|]. fold u.
    destruct (Z.eqb_spec (zlen u) 0); [contradiction|]. rewrite M, D. apply Same; reflexivity. }
  cbn [orb].
  assert (Cu : clean u) by (apply marked_clean; auto).
  assert (Hu : u <> []) by (rewrite <- zlen0; auto).
  assert (Hw : w <> []) by (rewrite <- zlen0; auto).
  assert (Ni : ~ In u (word_list st)) by (rewrite <- (known_iff _ _ _ I), D; discriminate).
  rewrite (add_word5b_new o st w u I Hw eq_refl Hu Cu Ni).
  destruct (add_word_spec rnd ident R0 (fun w => eq_refl) (ordw o) st (PStr u) I (ordw_fair o F)) as (I' & E1 & E2 & E3 & E4 & E5 & E6).
  assert (A : added ident st (PStr u) = [u]).
  { unfold added. cbv zeta. rewrite fold_ident. destruct u as [|c u'] eqn:Eu'; [congruence|].
    destruct in_dec as [J|_]; [contradiction|]. destruct clean_dec; [reflexivity|contradiction]. }
  rewrite A in *. split; [auto|]. split; [auto|]. split; [auto|]. split; [auto|]. split; [auto|]. split; [discriminate|].
  assert (O : is_ok (snd (add_word rnd ident (ordw o) st (PStr u))) = true).
  { apply E6. exists u. rewrite fold_ident. auto. }
  destruct (snd (add_word rnd ident (ordw o) st (PStr u))) as [[]|]; [reflexivity|discriminate].
Qed.

Lemma init5b_inv n c fn st : init5b n c fn = Ok st -> inv rnd ident st /\ word_list st = [] /\ n_list st <> [].
Proof.
  unfold init5b. intros H. apply bind_ok in H. destruct H as (nl & H1 & H). apply bind_ok in H. destruct H as (cs & H2 & H).
  apply bind_ok in H. destruct H as (f & H3 & H). injection H as <-.
  assert (N : (Forall (fun n => 0 < n)%Z nl /\ NoDup nl) /\ nl <> []).
  { unfold sizes5b in H1. destruct n as [z|l|]; [| |discriminate].
    - destruct (Z.leb_spec z 0); [discriminate|]. injection H1 as <-. split; [|discriminate]. split; [repeat constructor; auto|].
      constructor; [intros []|constructor].
    - cbv zeta in H1. destruct (isort Z.leb (nodup eqd l)) as [|a u] eqn:E; [discriminate|]. rewrite <- E in *.
      destruct (existsb _ _) eqn:X; [discriminate|]. injection H1 as <-. split; [|rewrite E; discriminate]. split.
      + apply Forall_forall. intros z Hz. destruct (Z.leb_spec z 0); [|auto]. exfalso.
        assert (existsb (fun z => (z <=? 0)%Z) (isort Z.leb (nodup eqd l)) = true) by (apply existsb_exists; exists z; split; auto; apply Z.leb_le; auto).
        congruence.
      + eapply Permutation_NoDup; [symmetry; apply isort_perm|]. apply NoDup_nodup. }
  destruct N as [N1 N2]. split; [|auto]. split; cbn; auto.
  - split; constructor.
  - intros g. match goal with |- context [if ?x then _ else _] => destruct x end; reflexivity.
  - intros _ g i. split; [intros []|]. intros (w & H & _). destruct i; discriminate.
Qed.

End State.
