(** Proofs about the WordSet model: the state always represents a list of
    entries, and every call acts on it as the specification says. *)
From Coq Require Import ZArith NArith QArith Qcanon List Bool Permutation Lia Sorted.
From Verif Require Import Num Py ListAux PyDict EmdModel NmdSpec NmdModel NmdProofs IndexModel WordSetSpec WordSetModel.
Import ListNotations.
Open Scope Qc_scope.

(** ** BitMaps *)

Definition asc (b : list nat) : Prop := StronglySorted lt b.

Lemma bm_add_in i j b : In j (bm_add i b) <-> j = i \/ In j b.
Proof.
  induction b as [|k b IH]; simpl; [intuition auto|].
  destruct (Nat.ltb_spec i k); simpl; [intuition auto|].
  destruct (Nat.eqb_spec i k); simpl; [subst; intuition auto|]. rewrite IH. intuition auto.
Qed.

Lemma bm_add_asc i b : asc b -> asc (bm_add i b).
Proof.
  unfold asc. induction 1 as [|k b Hs IH Hk]; simpl; [repeat constructor|].
  destruct (Nat.ltb_spec i k).
  - constructor; [constructor; auto|]. constructor; auto. eapply Forall_impl; [|apply Hk]. intros; simpl in *; lia.
  - destruct (Nat.eqb_spec i k); [constructor; auto|]. constructor; auto.
    apply Forall_forall. intros j Hj. apply bm_add_in in Hj. destruct Hj as [->|Hj]; [lia|].
    rewrite Forall_forall in Hk. apply Hk; auto.
Qed.

Lemma bm_discard_in i j b : In j (bm_discard i b) <-> j <> i /\ In j b.
Proof.
  unfold bm_discard. rewrite filter_In. destruct (Nat.eqb_spec j i); simpl; intuition congruence.
Qed.

Lemma filter_asc p b : asc b -> asc (filter p b).
Proof.
  unfold asc. induction 1 as [|k b Hs IH Hk]; simpl; [constructor|]. destruct (p k); auto. constructor; auto.
  apply Forall_forall. intros j Hj. apply filter_In in Hj. rewrite Forall_forall in Hk. apply Hk, Hj.
Qed.

Lemma bm_update_in j b : forall a, In j (bm_update a b) <-> In j a \/ In j b.
Proof.
  unfold bm_update. induction b as [|k b IH]; intros a; simpl; [intuition auto|].
  rewrite IH, bm_add_in. intuition auto.
Qed.

Lemma bm_update_asc b : forall a, asc a -> asc (bm_update a b).
Proof. unfold bm_update. induction b as [|k b IH]; intros a H; simpl; auto. apply IH, bm_add_asc, H. Qed.

Lemma asc_ext a b : asc a -> asc b -> (forall i, In i a <-> In i b) -> a = b.
Proof.
  intros Ha. revert b. induction Ha as [|x a Hs IH Hx]; intros b Hb E.
  - destruct b as [|y b]; auto. exfalso. apply (proj2 (E y)). left; auto.
  - destruct Hb as [|y b Hb Hy]; [exfalso; apply (proj1 (E x)); left; auto|].
    rewrite Forall_forall in Hx, Hy. assert (x = y) as ->.
    { destruct (proj1 (E x) (or_introl eq_refl)) as [|Hxb]; auto.
      destruct (proj2 (E y) (or_introl eq_refl)) as [|Hya]; auto.
      specialize (Hx y Hya). specialize (Hy x Hxb). lia. }
    f_equal. apply IH; auto. intros i. split; intros Hi.
    + destruct (proj1 (E i) (or_intror Hi)) as [<-|]; auto. specialize (Hx y Hi). lia.
    + destruct (proj2 (E i) (or_intror Hi)) as [<-|]; auto. specialize (Hy y Hi). lia.
Qed.

(** ** The filter index *)

Lemma index_add_wf i ix g : dwf ix -> dwf (index_add i ix g).
Proof. intros W. unfold index_add. apply dset_wf. destruct (dmem g ix); auto. apply dset_wf; auto. Qed.

Lemma index_add_get i ix g h :
  dgetl h (index_add i ix g) = if eqd h g then bm_add i (dgetl g ix) else dgetl h ix.
Proof.
  unfold index_add, dgetl. destruct (eqd h g) as [->|N].
  - rewrite dget_dset_eq. unfold dmem. destruct (dget g ix) eqn:E; [rewrite E; auto|rewrite dget_dset_eq; auto].
  - rewrite dget_dset_neq by auto. destruct (dmem g ix); auto. rewrite dget_dset_neq by auto. auto.
Qed.

Lemma in_dset {K V} `{EqDec K} (k k' : K) (v v' : V) d :
  dwf d -> In (k, v) (dset k' v' d) -> (k = k' /\ v = v') \/ (k <> k' /\ In (k, v) d).
Proof.
  intros W I. apply In_dget in I; [|apply dset_wf; auto]. destruct (eqd k k') as [->|N].
  - rewrite dget_dset_eq in I. left. split; congruence.
  - rewrite dget_dset_neq in I by auto. right. split; auto. apply dget_In; auto.
Qed.

Lemma bm_add_ne i b : bm_add i b <> [].
Proof. intros E. assert (H : In i (bm_add i b)) by (apply bm_add_in; auto). rewrite E in H. destruct H. Qed.

Definition no_empty (ix : dict str (list nat)) : Prop := forall g b, In (g, b) ix -> b <> [].

Lemma index_add_ne i ix g : dwf ix -> no_empty ix -> no_empty (index_add i ix g).
Proof.
  intros W N h b I. unfold index_add in I. apply in_dset in I.
  - destruct I as [[-> ->]|[Nh I]]; [apply bm_add_ne|]. destruct (dmem g ix); [apply (N h b I)|].
    apply in_dset in I; auto. destruct I as [[-> _]|[_ I]]; [congruence|apply (N h b I)].
  - destruct (dmem g ix); auto. apply dset_wf; auto.
Qed.

Lemma index_add_all i gs : forall ix, dwf ix -> no_empty ix -> (forall g, asc (dgetl g ix)) ->
  let ix' := fold_left (index_add i) gs ix in
  dwf ix' /\ no_empty ix' /\ (forall g, asc (dgetl g ix')) /\
  forall g j, In j (dgetl g ix') <-> In j (dgetl g ix) \/ (j = i /\ In g gs).
Proof.
  induction gs as [|g0 gs IH]; intros ix W N A; cbn [fold_left].
  - repeat split; auto; try tauto. intros [|[_ []]]; auto.
  - destruct (IH (index_add i ix g0)) as (W' & N' & A' & G').
    + apply index_add_wf; auto.
    + apply index_add_ne; auto.
    + intros g. rewrite index_add_get. destruct (eqd g g0); auto. apply bm_add_asc; auto.
    + repeat split; auto; rewrite ?G', ?index_add_get.
      * intros [H|[-> H]]; [|right; split; auto; right; auto].
        destruct (eqd g g0) as [->|]; auto. apply bm_add_in in H. destruct H as [->|H]; auto.
        right. split; auto. left; auto.
      * intros [H|[-> [->|H]]]; auto.
        -- left. destruct (eqd g g0) as [->|]; auto. apply bm_add_in; auto.
        -- left. destruct (eqd g g) as [_|]; [|congruence]. apply bm_add_in; auto.
Qed.

Lemma index_discard_wf i ix g : dwf ix -> dwf (index_discard i ix g).
Proof.
  intros W. unfold index_discard. destruct (dget g ix); auto. cbv zeta.
  destruct (bm_discard i l); [apply ddel_wf; auto|apply dset_wf; auto].
Qed.

Lemma index_discard_get i ix g h : dwf ix ->
  dgetl h (index_discard i ix g) = if eqd h g then bm_discard i (dgetl g ix) else dgetl h ix.
Proof.
  intros W. unfold index_discard, dgetl. destruct (dget g ix) as [b|] eqn:E; cbv zeta.
  - destruct (eqd h g) as [->|N].
    + destruct (bm_discard i b) eqn:E2; [rewrite dget_ddel_eq by auto; auto|rewrite dget_dset_eq; auto].
    + destruct (bm_discard i b); [rewrite dget_ddel_neq by auto; auto|rewrite dget_dset_neq by auto; auto].
  - destruct (eqd h g) as [->|N]; auto. rewrite E. reflexivity.
Qed.

Lemma in_ddel {K V} `{EqDec K} (k k' : K) (v : V) d : In (k, v) (ddel k' d) -> In (k, v) d.
Proof.
  induction d as [|[a b] d IH]; simpl; auto. destruct (eqd k' a); auto. simpl. intuition auto.
Qed.

Lemma index_discard_ne i ix g : dwf ix -> no_empty ix -> no_empty (index_discard i ix g).
Proof.
  intros W N h b I. unfold index_discard in I. destruct (dget g ix) as [b0|] eqn:E; [|apply (N h b I)].
  cbv zeta in I. destruct (bm_discard i b0) eqn:E2.
  - apply in_ddel in I. apply (N h b I).
  - apply in_dset in I; auto. destruct I as [[-> ->]|[_ I]]; [discriminate|apply (N h b I)].
Qed.

Lemma index_discard_all i gs : forall ix, dwf ix -> no_empty ix -> (forall g, asc (dgetl g ix)) ->
  let ix' := fold_left (index_discard i) gs ix in
  dwf ix' /\ no_empty ix' /\ (forall g, asc (dgetl g ix')) /\
  forall g j, In j (dgetl g ix') <-> In j (dgetl g ix) /\ ~ (j = i /\ In g gs).
Proof.
  induction gs as [|g0 gs IH]; intros ix W N A; cbn [fold_left].
  - split; [exact W|]. split; [exact N|]. split; [exact A|]. simpl. tauto.
  - destruct (IH (index_discard i ix g0)) as (W' & N' & A' & G').
    + apply index_discard_wf; auto.
    + apply index_discard_ne; auto.
    + intros g. rewrite index_discard_get by auto. destruct (eqd g g0); auto. apply filter_asc; auto.
    + split; auto. split; auto. split; auto. intros g j. rewrite G', index_discard_get by auto.
      destruct (eqd g g0) as [->|Ng].
      * rewrite bm_discard_in. simpl. intuition auto.
      * simpl. intuition congruence.
Qed.

(** ** Representation *)

Record entry := { e_norm : str; e_id : nat; e_word : str }.

Definition id_pair (e : entry) : str * nat := (e_norm e, e_id e).
Definition orig_pair (e : entry) : nat * str := (e_id e, e_word e).
Definition member (e : entry) : str * str := (e_norm e, e_word e).

Section Repr.
Variable rnd : Qc -> Qc.
Variable casefold : str -> str.

Definition fgrams (st : wordset) (u : str) : list str :=
  match filtering st with Some n => nodup eqd (get_n_grams_list u n) | None => [] end.

Definition info_pair (st : wordset) (e : entry) : nat * winfo := (e_id e, compute_word_info rnd st (e_norm e)).

Record repr (st : wordset) (l : list entry) : Prop := {
  r_ids : to_id st = map id_pair l;
  r_orig : to_original st = map orig_pair l;
  r_info : word_info st = map (info_pair st) l;
  r_asc : asc (map e_id l);
  r_bound : Forall (fun e => (e_id e < next_id st)%nat) l;
  r_nodup : NoDup (map e_norm l);
  r_norm : Forall (fun e => normalize_word casefold st (e_word e) = Ok (e_norm e) /\ e_norm e <> []) l;
  r_ixwf : dwf (filter_index st);
  r_ixne : no_empty (filter_index st);
  r_ixasc : forall g, asc (dgetl g (filter_index st));
  r_ix : forall g i, In i (dgetl g (filter_index st)) <-> exists e, In e l /\ e_id e = i /\ In g (fgrams st (e_norm e))
}.

(** Configuration *)
Definition norm_of (st : wordset) : str -> option str := normal_form casefold (ws_case_sensitive st) (ws_normalizer st).

Definition same_config (a b : wordset) : Prop :=
  ws_case_sensitive a = ws_case_sensitive b /\ ws_normalizer a = ws_normalizer b /\
  ws_n_list a = ws_n_list b /\ ws_filter_n a = ws_filter_n b.

Lemma same_config_refl a : same_config a a. Proof. repeat split. Qed.
Lemma same_config_trans a b c : same_config a b -> same_config b c -> same_config a c.
Proof. unfold same_config. intuition congruence. Qed.
Lemma same_config_put st a b c d e : same_config (put st a b c d e) st.
Proof. repeat split. Qed.

Lemma normalize_word_norm st w :
  normalize_word casefold st w = match norm_of st w with Some u => Ok u | None => Err ValueError end.
Proof.
  unfold normalize_word, norm_of, normal_form. cbv zeta.
  set (x := if ws_case_sensitive st then w else casefold w).
  assert (H : forall y, (if existsb (N.eqb 0) y then Err ValueError else Ok y) =
              match (if in_dec N.eq_dec 0%N y then None else Some y) with Some u => Ok u | None => Err ValueError end).
  { intros y. destruct (in_dec N.eq_dec 0%N y) as [I|I].
    - apply existsb_N in I. rewrite I. reflexivity.
    - destruct (existsb (N.eqb 0) y) eqn:E; auto. apply existsb_N in E. contradiction. }
  destruct (ws_normalizer st) as [f|]; [destruct (f x) as [y|]; cbn [bind]; auto|cbn [bind]; auto].
Qed.

Lemma map_filter_key {A K V} `{EqDec K} (f : A -> K) (g : A -> V) k l :
  NoDup (map f l) -> ddel k (map (fun a => (f a, g a)) l) =
  map (fun a => (f a, g a)) (filter (fun a => if eqd (f a) k then false else true) l).
Proof.
  intros N. rewrite ddel_filter.
  - rewrite filter_map. reflexivity.
  - unfold dwf, dkeys. rewrite map_map. exact N.
Qed.

Lemma asc_NoDup l : asc l -> NoDup l.
Proof.
  induction 1; constructor; auto. rewrite Forall_forall in H0. intros I. specialize (H0 _ I). lia.
Qed.

Lemma NoDup_map_eq {A B} (f : A -> B) l a b : NoDup (map f l) -> In a l -> In b l -> f a = f b -> a = b.
Proof.
  induction l as [|x l IH]; simpl; [tauto|]. intros N Ha Hb E. inversion N; subst.
  destruct Ha as [->|Ha], Hb as [->|Hb]; auto.
  - exfalso. apply H1. rewrite E. apply in_map; auto.
  - exfalso. apply H1. rewrite <- E. apply in_map; auto.
Qed.

Lemma dget_map {A K V} `{EqDec K} (f : A -> K) (g : A -> V) l a :
  NoDup (map f l) -> In a l -> dget (f a) (map (fun a => (f a, g a)) l) = Some (g a).
Proof.
  intros N I. apply In_dget.
  - unfold dwf, dkeys. rewrite map_map. exact N.
  - apply (in_map (fun a => (f a, g a))) in I. exact I.
Qed.

Lemma holds_in m u : holds m u = true <-> In u (map fst m).
Proof.
  unfold holds. rewrite existsb_exists, in_map_iff. split.
  - intros (e & I & H). destruct (eqd (fst e) u); [eauto|discriminate].
  - intros (e & <- & I). exists e. split; auto. destruct (eqd (fst e) (fst e)); congruence.
Qed.

Lemma member_keys l : map fst (map member l) = map e_norm l.
Proof. rewrite map_map. reflexivity. Qed.

Lemma ids_keys st l : repr st l -> dkeys (to_id st) = map e_norm l.
Proof. intros R. rewrite (r_ids _ _ R). unfold dkeys. rewrite map_map. reflexivity. Qed.

Lemma dmem_holds st l u : repr st l -> dmem u (to_id st) = holds (map member l) u.
Proof.
  intros R. destruct (holds (map member l) u) eqn:E.
  - apply dmem_true. rewrite (ids_keys st l R). apply holds_in in E. rewrite member_keys in E. exact E.
  - apply dmem_false. rewrite (ids_keys st l R). intros I. rewrite <- member_keys in I. apply holds_in in I. congruence.
Qed.

Lemma length_zero {A} (l : list A) : Nat.eqb (length l) 0 = true <-> l = [].
Proof. destruct l; simpl; split; congruence. Qed.

Lemma without_absent m u : ~ In u (map fst m) -> without m u = m.
Proof.
  unfold without. induction m as [|[a b] m IH]; simpl; auto. intros N.
  destruct (eqd a u); [tauto|]. f_equal. apply IH. tauto.
Qed.

Lemma filter_incl_forall {A} (p : A -> bool) P l : Forall P l -> Forall P (filter p l).
Proof. rewrite !Forall_forall. intros H a I. apply filter_In in I. apply H, I. Qed.

Lemma NoDup_map_filter {A B} (f : A -> B) p l : NoDup (map f l) -> NoDup (map f (filter p l)).
Proof.
  induction l as [|a l IH]; simpl; auto. intros N. inversion N; subst. destruct (p a); auto. simpl. constructor; auto.
  intros I. apply in_map_iff in I. destruct I as (b & E & I). apply filter_In in I. apply H1. rewrite <- E. apply in_map, I.
Qed.

Lemma asc_map_filter {A} (f : A -> nat) p l : asc (map f l) -> asc (map f (filter p l)).
Proof.
  unfold asc. induction l as [|a l IH]; simpl; auto. intros N. inversion N; subst. destruct (p a); auto. simpl. constructor; auto.
  rewrite Forall_forall in *. intros b I. apply in_map_iff in I. destruct I as (c & <- & I). apply filter_In in I.
  apply H2, in_map, I.
Qed.

Lemma asc_snoc l a : asc l -> (forall b, In b l -> (b < a)%nat) -> asc (l ++ [a]).
Proof.
  unfold asc. induction 1 as [|x l Hs IH Hx]; simpl; intros H; [repeat constructor|].
  constructor; [apply IH; auto|]. rewrite Forall_forall in *. intros b Hb. apply in_app_iff in Hb.
  destruct Hb as [Hb|[<-|[]]]; auto.
Qed.

(** *** [add] *)
Lemma ws_add_spec o st l v : fair o -> repr st l ->
  exists l', repr (fst (ws_add rnd casefold o st v)) l' /\ same_config (fst (ws_add rnd casefold o st v)) st /\
    (map member l', snd (ws_add rnd casefold o st v)) = command_spec (norm_of st) (map member l) (CAdd v).
Proof.
  intros [Fo _] R. unfold ws_add. destruct v as [w| | | |]; try (exists l; split; [exact R|]; split; [apply same_config_refl|reflexivity]).
  cbn [command_spec]. destruct w as [|c w]; [exists l; split; [exact R|]; split; [apply same_config_refl|reflexivity]|].
  cbn [length Nat.eqb]. set (w0 := c :: w) in *. rewrite normalize_word_norm.
  destruct (norm_of st w0) as [u|] eqn:En; [|exists l; split; [exact R|]; split; [apply same_config_refl|reflexivity]].
  destruct u as [|c' u']; [exists l; split; [exact R|]; split; [apply same_config_refl|reflexivity]|].
  cbn [length Nat.eqb]. set (u := c' :: u') in *. rewrite (dmem_holds st l u R).
  destruct (holds (map member l) u) eqn:Eh; [exists l; split; [exact R|]; split; [apply same_config_refl|reflexivity]|].
  assert (Nu : ~ In u (map e_norm l)).
  { intros I. rewrite <- member_keys in I. apply holds_in in I. congruence. }
  cbn [fst snd]. exists (l ++ [{| e_norm := u; e_id := next_id st; e_word := w0 |}]).
  split; [|split; [apply same_config_put|rewrite map_app; reflexivity]].
  assert (Hfresh : ~ In (next_id st) (map e_id l)).
  { intros I. apply in_map_iff in I. destruct I as (e & E & I). pose proof (r_bound _ _ R) as B.
    rewrite Forall_forall in B. specialize (B e I). lia. }
  assert (IX : let ix' := match filtering st with
                 | Some _ => fold_left (index_add (next_id st)) (o_str o (filter_grams (compute_word_info rnd st u))) (filter_index st)
                 | None => filter_index st end in
          dwf ix' /\ no_empty ix' /\ (forall g, asc (dgetl g ix')) /\
          forall g j, In j (dgetl g ix') <-> In j (dgetl g (filter_index st)) \/ (j = next_id st /\ In g (fgrams st u))).
  { cbv zeta. destruct (filtering st) as [n|] eqn:Ef.
    - destruct (index_add_all (next_id st) (o_str o (filter_grams (compute_word_info rnd st u))) (filter_index st))
        as (W & N & A & G); try apply R.
      repeat split; auto; try (apply W); rewrite ?G.
      + intros [H|[-> H]]; auto. right. split; auto. unfold fgrams. rewrite Ef.
        unfold compute_word_info in H. cbn [filter_grams] in H. rewrite Ef in H.
        eapply Permutation_in; [apply Fo|exact H].
      + intros [H|[-> H]]; auto. right. split; auto. unfold fgrams in H. rewrite Ef in H.
        unfold compute_word_info. cbn [filter_grams]. rewrite Ef.
        eapply Permutation_in; [symmetry; apply Fo|exact H].
    - split; [apply R|]. split; [apply R|]. split; [apply R|]. intros g j. unfold fgrams. rewrite Ef. simpl. tauto. }
  cbv zeta in IX. destruct IX as (W & N & A & G).
  constructor; cbn [put to_id to_original word_info next_id filter_index].
  - rewrite map_app. cbn [map]. rewrite <- (r_ids _ _ R). apply dset_app.
    rewrite <- (dmem_holds st l u R) in Eh. exact Eh.
  - rewrite map_app. cbn [map]. rewrite <- (r_orig _ _ R). apply dset_app. apply dmem_false.
    rewrite (r_orig _ _ R). unfold dkeys. rewrite map_map. exact Hfresh.
  - rewrite map_app. cbn [map]. change (map (info_pair (put st _ _ _ _ _)) l) with (map (info_pair st) l).
    rewrite <- (r_info _ _ R). apply dset_app. apply dmem_false.
    rewrite (r_info _ _ R). unfold dkeys. rewrite map_map. exact Hfresh.
  - rewrite map_app. cbn [map]. apply asc_snoc; [apply R|]. cbn [e_id]. intros b Hb. apply in_map_iff in Hb.
    destruct Hb as (e & <- & I). pose proof (r_bound _ _ R) as B. rewrite Forall_forall in B. apply B; auto.
  - apply Forall_app. split.
    + eapply Forall_impl; [|apply (r_bound _ _ R)]. intros; simpl in *; lia.
    + repeat constructor. cbn [e_id]. lia.
  - rewrite map_app. cbn [map e_norm]. apply NoDup_app_intro; [apply R|repeat constructor; intros []|].
    intros a Ha [<-|[]]. contradiction.
  - apply Forall_app. split; [apply (r_norm _ _ R)|]. repeat constructor.
    + cbn [e_word e_norm]. change (normalize_word casefold st w0 = Ok u). rewrite normalize_word_norm, En. reflexivity.
    + cbn [e_norm]. discriminate.
  - exact W.
  - exact N.
  - exact A.
  - intros g i. rewrite G. rewrite (r_ix _ _ R). split.
    + intros [(e & I & E & H)|[-> H]].
      * exists e. split; [apply in_app_iff; auto|auto].
      * eexists. split; [apply in_app_iff; right; left; reflexivity|]. split; auto.
    + intros (e & I & E & H). apply in_app_iff in I. destruct I as [I|[<-|[]]].
      * left. exists e. auto.
      * right. split; [symmetry; exact E|exact H].
Qed.

(** *** [discard] *)
Definition drop (u : str) (l : list entry) : list entry := filter (fun e => if eqd (e_norm e) u then false else true) l.

Lemma member_drop u l : map member (drop u l) = without (map member l) u.
Proof. unfold drop, without. rewrite filter_map. reflexivity. Qed.

Lemma drop_absent u l : ~ In u (map e_norm l) -> drop u l = l.
Proof.
  unfold drop. induction l as [|a m IH]; simpl; auto. intros N.
  destruct (eqd (e_norm a) u); [tauto|]. f_equal. apply IH. tauto.
Qed.

Lemma drop_by_id l e0 : NoDup (map e_norm l) -> NoDup (map e_id l) -> In e0 l ->
  filter (fun e => if eqd (e_id e) (e_id e0) then false else true) l = drop (e_norm e0) l.
Proof.
  intros N1 N2 I. unfold drop. apply filter_ext_in. intros e He.
  destruct (eqd (e_id e) (e_id e0)) as [E|E], (eqd (e_norm e) (e_norm e0)) as [E2|E2]; auto; exfalso.
  - apply E2. rewrite (NoDup_map_eq e_id l e e0); auto.
  - apply E. rewrite (NoDup_map_eq e_norm l e e0); auto.
Qed.

Lemma ws_discard_spec o st l v : fair o -> repr st l ->
  exists l', repr (fst (ws_discard casefold o st v)) l' /\ same_config (fst (ws_discard casefold o st v)) st /\
    (map member l', snd (ws_discard casefold o st v)) = command_spec (norm_of st) (map member l) (CDiscard v).
Proof.
  intros [Fo _] R. unfold ws_discard. destruct v as [w| | | |]; try (exists l; split; [exact R|]; split; [apply same_config_refl|reflexivity]).
  cbn [command_spec]. rewrite normalize_word_norm.
  destruct (norm_of st w) as [u|] eqn:En; [|exists l; split; [exact R|]; split; [apply same_config_refl|reflexivity]].
  destruct (dget u (to_id st)) as [i|] eqn:Eg.
  2:{ exists l. split; [exact R|]. split; [apply same_config_refl|]. cbn [fst snd].
      rewrite <- member_drop, drop_absent; auto. rewrite <- (ids_keys st l R). apply dget_None. exact Eg. }
  assert (exists e0, In e0 l /\ e_norm e0 = u /\ e_id e0 = i) as (e0 & I0 & <- & <-).
  { apply dget_In in Eg. rewrite (r_ids _ _ R) in Eg. apply in_map_iff in Eg. destruct Eg as (e & E & I).
    exists e. unfold id_pair in E. injection E as <- <-. auto. }
  assert (ND : NoDup (map e_id l)) by (apply asc_NoDup, R).
  cbn [put to_id to_original word_info next_id filter_index filtering ws_filter_n].
  assert (dmem (e_id e0) (to_original st) = true) as ->.
  { apply dmem_true. rewrite (r_orig _ _ R). unfold dkeys. rewrite map_map. apply in_map_iff. exists e0. auto. }
  assert (dget (e_id e0) (word_info st) = Some (compute_word_info rnd st (e_norm e0))) as ->.
  { rewrite (r_info _ _ R). apply (dget_map e_id (fun e => compute_word_info rnd st (e_norm e))); auto. }
  cbn [fst snd]. exists (drop (e_norm e0) l). split; [|split; [repeat split|rewrite member_drop; reflexivity]].
  change (filtering (put _ _ _ _ _ _)) with (filtering st).
  cbn [put to_id to_original word_info next_id filter_index].
  assert (IX : let ix' := match filtering st with
                 | Some _ => fold_left (index_discard (e_id e0)) (o_str o (filter_grams (compute_word_info rnd st (e_norm e0)))) (filter_index st)
                 | None => filter_index st end in
          dwf ix' /\ no_empty ix' /\ (forall g, asc (dgetl g ix')) /\
          forall g j, In j (dgetl g ix') <-> In j (dgetl g (filter_index st)) /\ ~ (j = e_id e0 /\ In g (fgrams st (e_norm e0)))).
  { cbv zeta. destruct (filtering st) as [n|] eqn:Ef.
    - destruct (index_discard_all (e_id e0) (o_str o (filter_grams (compute_word_info rnd st (e_norm e0)))) (filter_index st))
        as (W & N & A & G); try apply R.
      assert (EQ : forall g, In g (o_str o (filter_grams (compute_word_info rnd st (e_norm e0)))) <-> In g (fgrams st (e_norm e0))).
      { intros g. unfold fgrams, compute_word_info. cbn [filter_grams]. rewrite Ef.
        split; apply Permutation_in; [apply Fo|symmetry; apply Fo]. }
      split; [exact W|]. split; [exact N|]. split; [exact A|]. intros g j. rewrite G, EQ. reflexivity.
    - split; [apply R|]. split; [apply R|]. split; [apply R|]. intros g j. unfold fgrams. rewrite Ef. simpl. tauto. }
  cbv zeta in IX. destruct IX as (W & N & A & G).
  constructor; cbn [put to_id to_original word_info next_id filter_index].
  - rewrite (r_ids _ _ R). apply (map_filter_key e_norm e_id). apply R.
  - rewrite (r_orig _ _ R). rewrite <- drop_by_id by (auto; apply R). apply (map_filter_key e_id e_word). exact ND.
  - rewrite (r_info _ _ R). rewrite <- drop_by_id by (auto; apply R).
    apply (map_filter_key e_id (fun e => compute_word_info rnd st (e_norm e))). exact ND.
  - apply asc_map_filter, R.
  - apply filter_incl_forall. apply (r_bound _ _ R).
  - apply NoDup_map_filter. apply R.
  - apply filter_incl_forall. apply (r_norm _ _ R).
  - exact W.
  - exact N.
  - exact A.
  - intros g i. change (fgrams (put _ _ _ _ _ _)) with (fgrams st). rewrite G, (r_ix _ _ R). split.
    + intros [(e & I & E & H) K]. exists e. split; auto. unfold drop. apply filter_In. split; auto.
      destruct (eqd (e_norm e) (e_norm e0)) as [E2|]; auto. exfalso. apply K.
      assert (e = e0) by (apply (NoDup_map_eq e_norm l); auto; apply R). subst. auto.
    + intros (e & I & E & H). unfold drop in I. apply filter_In in I. destruct I as [I D]. split; [exists e; auto|].
      intros [K _]. destruct (eqd (e_norm e) (e_norm e0)) as [|E2]; [discriminate|]. apply E2.
      rewrite (NoDup_map_eq e_id l e e0); auto. congruence.
Qed.

(** *** [remove], [pop], [clear] *)
Lemma ws_remove_spec o st l v : fair o -> repr st l ->
  exists l', repr (fst (ws_remove casefold o st v)) l' /\ same_config (fst (ws_remove casefold o st v)) st /\
    (map member l', snd (ws_remove casefold o st v)) = command_spec (norm_of st) (map member l) (CRemove v).
Proof.
  intros F R. unfold ws_remove. destruct v as [w| | | |]; try (exists l; split; [exact R|]; split; [apply same_config_refl|reflexivity]).
  cbn [command_spec]. rewrite normalize_word_norm.
  destruct (norm_of st w) as [u|] eqn:En; [|exists l; split; [exact R|]; split; [apply same_config_refl|reflexivity]].
  rewrite (dmem_holds st l u R). destruct (holds (map member l) u) eqn:Eh.
  2:{ exists l. split; [exact R|]. split; [apply same_config_refl|reflexivity]. }
  destruct (ws_discard_spec o st l (PStr w) F R) as (l' & R' & C & E). exists l'. split; auto. split; auto.
  rewrite E. cbn [command_spec]. rewrite En. reflexivity.
Qed.

Lemma ws_pop_spec o st l : fair o -> repr st l ->
  exists l', repr (fst (ws_pop casefold o st)) l' /\ same_config (fst (ws_pop casefold o st)) st /\
    (map member l', snd (ws_pop casefold o st)) = command_spec (norm_of st) (map member l) CPop.
Proof.
  intros F R. unfold ws_pop. assert (ws_iter st = map e_word l) as ->.
  { unfold ws_iter, dvals. rewrite (r_orig _ _ R), map_map. reflexivity. }
  destruct l as [|e l]; [exists []; split; [exact R|]; split; [apply same_config_refl|reflexivity]|]. cbn [map].
  destruct (ws_discard_spec o st (e :: l) (PStr (e_word e)) F R) as (l' & R' & C & E).
  destruct (ws_discard casefold o st (PStr (e_word e))) as [st' r] eqn:Ed. cbn [fst snd] in *. exists l'.
  split; auto. split; auto. cbn [command_spec] in E.
  pose proof (r_norm _ _ R) as Nm. inversion Nm as [|? ? [En _] _]; subst. rewrite normalize_word_norm in En.
  destruct (norm_of st (e_word e)) as [u|]; [|discriminate]. injection En as ->. injection E as E1 E2. rewrite E1, E2.
  cbn [rmap member]. f_equal. unfold without. cbn [map filter member fst]. destruct (eqd (e_norm e) (e_norm e)); [|congruence].
  fold (without (map member l) (e_norm e)). cbn [command_spec member]. f_equal. apply without_absent. rewrite member_keys.
  pose proof (r_nodup _ _ R) as Nd. inversion Nd; auto.
Qed.

Lemma empty_repr st : to_id st = [] -> to_original st = [] -> word_info st = [] -> filter_index st = [] -> repr st [].
Proof.
  intros E1 E2 E3 E4. constructor; rewrite ?E1, ?E2, ?E3, ?E4; try constructor; try (intros ? ? []); auto.
  - intros [].
  - intros (e & [] & _).
Qed.

Lemma ws_call_spec o st l c : fair o -> repr st l ->
  exists l', repr (fst (ws_call rnd casefold o st c)) l' /\ same_config (fst (ws_call rnd casefold o st c)) st /\
    (map member l', snd (ws_call rnd casefold o st c)) = command_spec (norm_of st) (map member l) c.
Proof.
  intros F R. destruct c as [v|v|v| |]; unfold ws_call.
  - apply ws_add_spec; auto.
  - apply ws_discard_spec; auto.
  - apply ws_remove_spec; auto.
  - apply ws_pop_spec; auto.
  - exists []. split; [apply empty_repr; reflexivity|]. split; [repeat split|reflexivity].
Qed.

(** ** Histories *)

Lemma norm_of_config a b : same_config a b -> norm_of a = norm_of b.
Proof. intros (A & B & _). unfold norm_of. rewrite A, B. reflexivity. Qed.

Lemma ws_run_spec calls : Forall (fun c => fair (fst c)) calls -> forall st l, repr st l ->
  exists l', repr (fst (ws_run rnd casefold st calls)) l' /\ same_config (fst (ws_run rnd casefold st calls)) st /\
    (map member l', snd (ws_run rnd casefold st calls)) = spec_run (norm_of st) (map member l) (map snd calls).
Proof.
  induction 1 as [|[o c] calls F Fs IH]; intros st l R.
  - exists l. split; [exact R|]. split; [apply same_config_refl|reflexivity].
  - cbn [ws_run map snd spec_run]. destruct (ws_call_spec o st l c F R) as (l1 & R1 & C1 & E1).
    destruct (ws_call rnd casefold o st c) as [st1 r1]. cbn [fst snd] in *.
    destruct (IH st1 l1 R1) as (l2 & R2 & C2 & E2). destruct (ws_run rnd casefold st1 calls) as [st2 rs]. cbn [fst snd] in *.
    exists l2. split; auto. split; [eapply same_config_trans; eauto|]. rewrite <- E1.
    rewrite <- (norm_of_config st1 st) by auto. rewrite <- E2. reflexivity.
Qed.

Lemma ws_init_repr cs nz sz st : ws_init cs nz sz = Ok st -> repr st [].
Proof.
  unfold ws_init. intros E. destruct cs; try discriminate. cbn [bind] in E. apply bind_ok in E. destruct E as (f & _ & E).
  apply bind_ok in E. destruct E as (nl & _ & E). apply bind_ok in E. destruct E as (fn & _ & E). injection E as <-.
  apply empty_repr; reflexivity.
Qed.

(** ** Observations *)

Lemma ws_len_repr st l : repr st l -> ws_len st = length l.
Proof. intros R. unfold ws_len. rewrite (r_ids _ _ R), map_length. reflexivity. Qed.

Lemma ws_iter_repr st l : repr st l -> ws_iter st = map e_word l.
Proof. intros R. unfold ws_iter, dvals. rewrite (r_orig _ _ R), map_map. reflexivity. Qed.

Lemma ws_contains_repr st l v : repr st l -> ws_contains casefold st v = contains_spec (norm_of st) (map member l) v.
Proof.
  intros R. destruct v; try reflexivity. cbn [ws_contains contains_spec]. rewrite normalize_word_norm.
  destruct (norm_of st s); [|reflexivity]. cbn [bind]. rewrite (dmem_holds st l) by auto. reflexivity.
Qed.

End Repr.
