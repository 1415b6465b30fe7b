(** Theorems about experiments/find_replace_trie.py, [Trie.to_regex] and
    [to_regex]: properties C85 to C89. *)
From Coq Require Import ZArith NArith List Bool String Lia Sorted.
From Verif Require Import Py PyDict TrieSpec TrieModel TrieProofs TrieFind Props_Trie Props_Find Ex.
From Verif Require Import RegexSpec RegexModel RegexTree RegexPasses RegexSimplify RegexParse RegexLang RegexOrder RegexSpaces.
Import ListNotations.
Open Scope string_scope.
Open Scope list_scope.
Open Scope N_scope.

Section Theorems.
Variables is_space is_word : N -> bool.
Context {V : Type}.
Variable tokenizer : str -> list str.
Variable detokenizer : list str -> str.
Notation to_regex := (@RegexModel.to_regex is_space is_word V tokenizer).
Notation reached := (@Props_Find.reached str V str _ tokenizer detokenizer).
Notation answers := (@Props_Find.answers str V str _ tokenizer).

(** The check at the start of [to_regex]. *)
Definition characters : Prop := tokenizer (w_ "test-test test") = map (fun c => [c]) (w_ "test-test test").

(** A character of a key and a character of a text *)
Definition agrees (o : options) (kc tc : N) : Prop :=
  if fuzzy_spaces o && is_space kc then is_space tc = true
  else if fffd_any o && (kc =? 0xfffd) then tc <> 10
  else tc = kc.

(** [\b] between two texts *)
Definition ends_in_word (s : str) : Prop := exists s' c, s = s' ++ [c] /\ is_word c = true.
Definition starts_with_word (s : str) : Prop := exists c s', s = c :: s' /\ is_word c = true.
Definition at_edge (a b : str) : Prop := ends_in_word a <-> ~ starts_with_word b.

(** [w] is an occurrence of a key between [before] and [after]. *)
Definition occurrence (o : options) (m : list str -> option V) (before w after : str) : Prop :=
  (exists ts, m ts <> None /\ Forall2 (agrees o) (List.concat ts) w) /\
  (boundary o = true -> at_edge before (w ++ after) /\ at_edge (before ++ w) after).

(** What the keys must be like. *)
Definition plain_token (tk : str) : Prop := (exists c, tk = [c]) \/ (tk <> [] /\ ~ In 92 tk).
Definition plain_keys (m : list str -> option V) : Prop := forall ts, m ts <> None -> Forall plain_token ts.
Definition no_any (o : options) (m : list str -> option V) : Prop :=
  simplify o = true -> fffd_any o = true -> forall ts, m ts <> None -> ~ In 0xfffd (List.concat ts).
Record tidy_spaces (o : options) (m : list str -> option V) : Prop := {
  ts_space : is_space 32 = true;
  ts_single : forall ts, m ts <> None -> Forall (fun tk => exists c, tk = [c]) ts;
  ts_absent : (forall ts, m ts <> None -> ~ In 92 (List.concat ts)) \/ (forall ts, m ts <> None -> ~ In 115 (List.concat ts)) \/
    (forall ts c, m ts <> None -> In c (List.concat ts) -> is_space c = false);
  ts_lone : forall ts a c d b, m ts <> None -> List.concat ts = a ++ c :: d :: b -> is_space c = true -> is_space d = false;
  ts_only : simplify o = true -> forall ts c, m ts <> None -> In c (List.concat ts) -> is_space c = true -> c = 32 }.

Definition writable (o : options) (m : list str -> option V) : Prop :=
  plain_keys m /\ no_any o m /\ (fuzzy_spaces o = true -> tidy_spaces o m).

(** ** The tree *)
Lemma tokens_of (Q : str -> Prop) (n : node str V) : wf n -> live_below n -> (forall ts, look ts n <> None -> Forall Q ts) ->
  forall k c, In (k, c) (children n) -> Q k /\ wf c /\ live_below c /\ (forall ts, look ts c <> None -> Forall Q ts).
Proof.
  intros W B H k c I. assert (D : dget k (children n) = Some c) by (apply wf_split in W; apply In_dget; [apply W|exact I]).
  assert (Lc : live c) by (eapply live_child; eauto).
  assert (X : forall ts, look ts c <> None -> Q k /\ Forall Q ts).
  { intros ts Hl. specialize (H (k :: ts)). rewrite look_cons, D in H. specialize (H Hl). inversion H; auto. }
  destruct (live_has c Lc) as (ts & Hl). split; [apply (X ts Hl)|]. split; [eapply wf_child; eauto|]. split; [apply live_split in Lc; apply Lc|]. intros us Hu. apply X; exact Hu.
Qed.

Lemma tree_good (n : node str V) : wf n -> live_below n -> (forall ts, look ts n <> None -> Forall plain_token ts) -> good_tokens n.
Proof.
  induction n as [v cs IH] using node_ind'. intros W B H. constructor. apply Forall_forall. intros [k c] I. rewrite Forall_forall in IH. specialize (IH _ I).
  destruct (tokens_of _ _ W B H k c I) as (Qk & Wc & Bc & Hc). cbn [fst snd] in *. split; [exact Qk|auto].
Qed.

Lemma tree_full (n : node str V) : wf n -> live_below n -> (forall ts, look ts n <> None -> Forall (fun tk => tk <> []) ts) -> full_tokens n.
Proof.
  induction n as [v cs IH] using node_ind'. intros W B H. constructor. apply Forall_forall. intros [k c] I. rewrite Forall_forall in IH. specialize (IH _ I).
  destruct (tokens_of _ _ W B H k c I) as (Qk & Wc & Bc & Hc). cbn [fst snd] in *. split; [exact Qk|auto].
Qed.

Definition tree (o : options) (t : trie str V) : seq := build (prims is_space (fuzzy_spaces o) (fffd_any o)) (root t).
Definition final (o : options) (t : trie str V) : seq := if simplify o then simpler (tree o t) else tree o t.
Definition sps (o : options) : str := if fuzzy_spaces o then w_ "\s" else w_ " ".
Definition text_of (o : options) (t : trie str V) : str := opening (boundary o) ++ RegexTree.show (sps o) (final o t) ++ closing (boundary o).

Lemma prims_nonempty fs fa k : k <> [] -> prims is_space fs fa k <> [].
Proof. destruct k; [congruence|discriminate]. Qed.

Lemma plain_nonempty tk : plain_token tk -> tk <> [].
Proof. intros [(c & ->)|[N _]]; [discriminate|exact N]. Qed.

Lemma simpler_ok s : ok s -> ok (simpler s).
Proof. intros O. unfold simpler. apply pass5_ok, pass4_ok, pass1_ok, O. Qed.

Section Reached.
Variable o : options.
Variable t : trie str V.
Variable m : list str -> option V.
Hypothesis Rt : reached t.
Hypothesis At : answers t m.
Hypothesis Ct : characters.
Hypothesis Pk : plain_keys m.

Lemma m_look ts : m ts = look ts (root t).
Proof. exact (answers_look tokenizer detokenizer t m Rt At ts). Qed.

Lemma tree_wf : wf (root t).
Proof. apply (g_wf tokenizer), (reached_good tokenizer detokenizer t Rt). Qed.
Lemma tree_live_below : live_below (root t).
Proof. apply (g_live tokenizer), (reached_good tokenizer detokenizer t Rt). Qed.
Lemma tree_live : (exists ts, m ts <> None) -> live (root t).
Proof.
  intros (ts & H). apply live_split. split; [|apply tree_live_below]. rewrite m_look in H. destruct ts as [|k ts]; [left; rewrite look_nil in H; exact H|right].
  eapply has_children; [|exact H]. discriminate.
Qed.

Lemma plain_look ts : look ts (root t) <> None -> Forall plain_token ts.
Proof. rewrite <- m_look. apply Pk. Qed.

Lemma tree_ok : ok (tree o t).
Proof.
  apply build_ok; [intros k; apply prims_nonempty|]. apply tree_full; [apply tree_wf|apply tree_live_below|]. intros ts H. eapply Forall_impl; [|apply (plain_look ts H)].
  intros tk. apply plain_nonempty.
Qed.
Lemma final_ok : ok (final o t).
Proof. unfold final. destruct (simplify o); [apply simpler_ok|]; apply tree_ok. Qed.

Lemma to_regex_text : to_regex t o = spaced (fuzzy_spaces o) (opening (boundary o) ++ show (final o t) ++ closing (boundary o)).
Proof.
  unfold RegexModel.to_regex. rewrite Ct. destruct (list_eq_dec _ _ _) as [_|N]; [|destruct N; reflexivity]. cbn [negb guard bind].
  rewrite raw_pattern_els by apply tree_wf. cbn [bind].
  rewrite (els_build (regex_token is_space (fuzzy_quotes o) (fuzzy_spaces o) (fffd_any o)) (prims is_space (fuzzy_spaces o) (fffd_any o))).
  2: { intros tk G. apply token_shows. exact G. }
  2: { apply tree_good; [apply tree_wf|apply tree_live_below|exact plain_look]. }
  fold (tree o t).
  assert (E : (if simplify o then simplified is_word (show (tree o t)) else Ok (show (tree o t))) = Ok (show (final o t))).
  { unfold final. destruct (simplify o); [|reflexivity]. apply simplified_show. apply tree_ok. }
  unfold str in *. rewrite E. cbn [bind]. rewrite wrapped_show. reflexivity.
Qed.

(** [to_regex] does not raise. *)
Lemma to_regex_returns : exists p, to_regex t o = Ok p.
Proof.
  rewrite to_regex_text. unfold spaced. destruct (fuzzy_spaces o); [|eauto]. rewrite replace_show.
  assert (E : has (w_ " ") (opening (boundary o) ++ RegexTree.show (w_ "\s") (final o t) ++ closing (boundary o)) = false).
  { apply has_space. rewrite !in_app_iff. intros [I|[I|I]]; [|exact (show_32 _ I)|]; destruct (boundary o); cbn in I; intuition discriminate. }
  rewrite E. cbn [guard bind]. apply spaces_loop_ends. lia.
Qed.

Hypothesis Some_key : exists ts, m ts <> None.

Lemma concat_prims fs fa ts : flat_map (prims is_space fs fa) ts = map (primc is_space fs fa) (List.concat ts).
Proof. induction ts as [|tk ts IH]; [reflexivity|]. cbn [flat_map List.concat]. rewrite map_app, IH. reflexivity. Qed.

(** Different tokens differ in what they match. *)
Definition separate : Prop := fuzzy_spaces o = true -> forall ts c, m ts <> None -> In c (List.concat ts) -> is_space c = true -> c = 32.

Lemma tree_apart : (fuzzy_spaces o = true -> is_space 32 = true) -> (forall ts, m ts <> None -> Forall (fun tk => exists c, tk = [c]) ts) -> separate ->
  (fffd_any o = true -> forall ts, m ts <> None -> ~ In 0xfffd (List.concat ts)) -> apart is_space (fuzzy_spaces o) (tree o t).
Proof.
  intros S32 Si Se Fa. apply build_apart.
  - intros k. apply prims_nonempty.
  - apply tree_wf.
  - apply tree_live. exact Some_key.
  - apply tree_full; [apply tree_wf|apply tree_live_below|]. intros ts H. eapply Forall_impl; [|apply (plain_look ts H)]. intros tk. apply plain_nonempty.
  - intros ts ts' k k' H H' I I' N. rewrite <- m_look in H, H'. pose proof (Si ts H) as Sk. pose proof (Si ts' H') as Sk'. rewrite Forall_forall in Sk, Sk'.
    destruct (Sk k I) as (c & ->). destruct (Sk' k' I') as (c' & ->).
    assert (Ic : In c (List.concat ts)) by (apply in_concat; exists [c]; split; [exact I|left; reflexivity]).
    assert (Ic' : In c' (List.concat ts')) by (apply in_concat; exists [c']; split; [exact I'|left; reflexivity]).
    assert (Nc : c <> c') by congruence.
    assert (D : forall x tx, m tx <> None -> In x (List.concat tx) -> primc is_space (fuzzy_spaces o) (fffd_any o) x = PChar x).
    { intros x tx Hx Ix. unfold primc. assert (E : (if fuzzy_spaces o && is_space x then 32 else x) = x).
      { destruct (fuzzy_spaces o && is_space x) eqn:E; [|reflexivity]. apply andb_prop in E. symmetry. apply (Se (proj1 E) tx x Hx Ix). apply E. }
      rewrite E. destruct (fffd_any o && (x =? 0xfffd)) eqn:E2; [|reflexivity]. apply andb_prop in E2. destruct E2 as [E2 E3]. apply N.eqb_eq in E3. subst x.
      destruct (Fa E2 tx Hx Ix). }
    intros p q Hp Hq d Ep Eq. cbn [prims map hd_error] in Hp, Hq. rewrite (D c ts H Ic) in Hp. rewrite (D c' ts' H' Ic') in Hq. injection Hp as <-. injection Hq as <-.
    cbn [den] in Ep, Eq. destruct (fuzzy_spaces o) eqn:Ef; cbn [andb] in Ep, Eq.
    + specialize (S32 eq_refl).
      destruct (N.eqb_spec c 32) as [->|N1]; destruct (N.eqb_spec c' 32) as [->|N2]; [congruence| | |].
      * apply N.eqb_eq in Eq. subst d. apply N2. symmetry. rewrite <- (Se Ef ts' c' H' Ic' Ep) at 1. congruence.
      * apply N.eqb_eq in Ep. subst d. apply N1. apply (Se Ef ts c H Ic Eq).
      * apply N.eqb_eq in Ep, Eq. congruence.
    + apply N.eqb_eq in Ep, Eq. congruence.
Qed.

Hypothesis Na : no_any o m.
Hypothesis Ti : fuzzy_spaces o = true -> tidy_spaces o m.

Lemma final_tidy : fuzzy_spaces o = true -> exists absent, In absent [92; 115; 32] /\ tidy absent (final o t).
Proof.
  intros Ef. destruct (Ti Ef) as [S32 Si Sb Sl So].
  assert (Ab : exists absent, In absent [92; 115; 32] /\
    forall ts c, m ts <> None -> In c (List.concat ts) -> primc is_space (fuzzy_spaces o) (fffd_any o) c <> PChar absent).
  { assert (G : forall a, In a [92; 115; 32] -> (forall ts c, m ts <> None -> In c (List.concat ts) -> (if is_space c then 32 else c) <> a) ->
      exists absent, In absent [92; 115; 32] /\ forall ts c, m ts <> None -> In c (List.concat ts) -> primc is_space (fuzzy_spaces o) (fffd_any o) c <> PChar absent).
    { intros a Ia Ha. exists a. split; [exact Ia|]. intros ts c H I E. specialize (Ha ts c H I). unfold primc in E. rewrite Ef in E. cbn [andb] in E.
      destruct (fffd_any o && _); [discriminate|]. congruence. }
    destruct Sb as [Sb|[Sb|Sb]]; [apply (G 92)|apply (G 115)|apply (G 32)]; try (cbn; tauto); intros ts c H I.
    - destruct (is_space c); [discriminate|]. intros ->. exact (Sb ts H I).
    - destruct (is_space c); [discriminate|]. intros ->. exact (Sb ts H I).
    - rewrite (Sb ts c H I). intros ->. rewrite (Sb ts 32 H I) in S32. discriminate. }
  destruct Ab as (absent & Ia & Ab). exists absent. split; [exact Ia|]. assert (T0 : tidy absent (tree o t)).
  { unfold tree. assert (E : forall s, s = add [] s) by (intros [? ?]; reflexivity). rewrite (E (build _ _)). apply build_tidy.
    - apply tree_wf.
    - apply tree_live. exact Some_key.
    - constructor.
    - intros ts H. rewrite <- m_look in H. rewrite concat_prims. split.
      + apply Forall_map. apply Forall_forall. intros c I. apply (Ab ts c H I).
      + cbn [app]. unfold lone. rewrite map_map. specialize (Sl ts). revert Sl. generalize (List.concat ts). intros l Sl.
        assert (Sl' : forall a c d b, l = a ++ c :: d :: b -> is_space c = true -> is_space d = false) by (intros; eapply Sl; eauto). clear Sl.
        induction l as [|c l IHl]; [reflexivity|]. assert (IH' := IHl (fun a x y b E => Sl' (c :: a) x y b (f_equal (cons c) E))).
        destruct l as [|d l]; [reflexivity|]. cbn [map] in *. rewrite adj_cons, IH', orb_false_r. specialize (Sl' [] c d l eq_refl).
        assert (Q : forall x, sp (primc is_space (fuzzy_spaces o) (fffd_any o) x) = true -> is_space x = true).
        { intros x Hx. unfold primc in Hx. rewrite Ef in Hx. cbn [andb] in Hx. destruct (is_space x) eqn:Ex; [reflexivity|]. destruct (fffd_any o && (x =? 0xfffd)); [discriminate|].
          cbn [sp] in Hx. apply N.eqb_eq in Hx. subst x. congruence. }
        destruct (sp (primc is_space (fuzzy_spaces o) (fffd_any o) c)) eqn:E1; [|reflexivity].
        destruct (sp (primc is_space (fuzzy_spaces o) (fffd_any o) d)) eqn:E2; [|reflexivity].
        apply Q in E1, E2. specialize (Sl' E1). congruence. }
  unfold final. destruct (simplify o) eqn:Es; [|exact T0]. apply (simpler_tidy absent is_space S32); [|exact T0]. rewrite <- Ef. apply tree_apart; auto.
  intros _ ts c H I. apply (So eq_refl ts c H I).
Qed.

Lemma to_regex_is : to_regex t o = Ok (text_of o t).
Proof.
  pose proof final_tidy as Ft. rewrite to_regex_text. unfold spaced, text_of, sps. clear Ti. destruct (fuzzy_spaces o) eqn:Ef; [|rewrite replace_show; reflexivity].
  rewrite replace_show.
  assert (E : has (w_ " ") (opening (boundary o) ++ RegexTree.show (w_ "\s") (final o t) ++ closing (boundary o)) = false).
  { apply has_space. rewrite !in_app_iff. intros [I|[I|I]]; [|exact (show_32 _ I)|]; destruct (boundary o); cbn in I; intuition discriminate. }
  rewrite E. cbn [guard bind spaces_loop]. destruct (Ft eq_refl) as (absent & Ia & Tf). rewrite (tidy_clean absent Ia) by exact Tf. reflexivity.
Qed.

Definition expr : rx := whole is_space (fuzzy_spaces o) (boundary o) (final o t).

Lemma text_compiles : compile is_space (text_of o t) = Some expr.
Proof. unfold text_of, expr, sps. apply (compile_show is_space is_word). apply final_ok. Qed.

Lemma den_agrees : (fuzzy_spaces o = true -> is_space 32 = true) -> forall kc tc,
  den is_space (fuzzy_spaces o) (primc is_space (fuzzy_spaces o) (fffd_any o) kc) tc = true <-> agrees o kc tc.
Proof.
  intros S32 kc tc. unfold agrees, primc. destruct (fuzzy_spaces o && is_space kc) eqn:E.
  - change (32 =? 0xfffd) with false. rewrite andb_false_r. cbn [den]. apply andb_prop in E. destruct E as [-> _]. cbn. tauto.
  - destruct (fffd_any o && (kc =? 0xfffd)).
    + cbn [den]. rewrite negb_true_iff, N.eqb_neq. tauto.
    + cbn [den]. destruct (fuzzy_spaces o && (kc =? 32)) eqn:E2; [|rewrite N.eqb_eq; intuition].
      apply andb_prop in E2. destruct E2 as [E2 E3]. apply N.eqb_eq in E3. subst kc. rewrite E2 in E. cbn [andb] in E. rewrite (S32 E2) in E. discriminate.
Qed.

Lemma final_lang w : L is_space (fuzzy_spaces o) (final o t) w <-> exists ts, m ts <> None /\ Forall2 (agrees o) (List.concat ts) w.
Proof.
  assert (S32 : fuzzy_spaces o = true -> is_space 32 = true) by (intros E; apply (ts_space o m (Ti E))).
  assert (T0 : L is_space (fuzzy_spaces o) (tree o t) w <-> exists ts, m ts <> None /\ Forall2 (agrees o) (List.concat ts) w).
  { unfold tree. rewrite build_lang; [|apply tree_wf|apply tree_live; exact Some_key].
    split; intros (ts & H & F); exists ts; rewrite m_look in *; (split; [exact H|]); unfold key_matches in *; rewrite concat_prims in *.
    - revert w F. induction (List.concat ts) as [|c l IHl]; intros w F; inversion F; subst; constructor; [apply den_agrees; auto|apply IHl; auto].
    - revert w F. induction (List.concat ts) as [|c l IHl]; intros w F; inversion F; subst; constructor; [apply den_agrees; auto|apply IHl; auto]. }
  unfold final. destruct (simplify o) eqn:Es; [|exact T0]. rewrite simpler_lang; [exact T0|].
  apply build_allp; [apply tree_wf|apply tree_live; exact Some_key|]. intros ts k p H I Ip. rewrite <- m_look in H. unfold prims in Ip. apply in_map_iff in Ip. destruct Ip as (c & <- & Ic).
  unfold no_dot, primc. set (c' := if fuzzy_spaces o && is_space c then 32 else c). destruct (fffd_any o && (c' =? 0xfffd)) eqn:E; [|discriminate].
  apply andb_prop in E. destruct E as [E1 E2]. apply N.eqb_eq in E2. exfalso. apply (Na Es E1 ts H). apply in_concat. exists k. split; [exact I|].
  unfold c' in E2. destruct (fuzzy_spaces o && is_space c); [discriminate|]. subst c. exact Ic.
Qed.

Lemma edge_at a b : at_edge a b <-> Bool.eqb (word_at is_word (rev a)) (word_at is_word b) = false.
Proof.
  assert (E1 : ends_in_word a <-> word_at is_word (rev a) = true).
  { split.
    - intros (s & c & -> & E). rewrite rev_app_distr. exact E.
    - intros E. destruct (rev a) as [|c r] eqn:Er; [discriminate|]. exists (rev r), c. split; [|exact E]. rewrite <- (rev_involutive a), Er. reflexivity. }
  assert (E2 : starts_with_word b <-> word_at is_word b = true).
  { split; [intros (c & s & -> & E); exact E|]. destruct b as [|c s]; [discriminate|]. intros E. exists c, s. auto. }
  unfold at_edge. rewrite E1, E2. destruct (word_at is_word (rev a)), (word_at is_word b); cbn; intuition congruence.
Qed.

Lemma ways_expr z : ways is_word expr z =
  if boundary o then
    if Bool.eqb (word_at is_word (fst z)) (word_at is_word (snd z)) then [] else
    filter (fun y => negb (Bool.eqb (word_at is_word (fst y)) (word_at is_word (snd y)))) (ways is_word (cat (rxs is_space (fuzzy_spaces o) (final o t))) z)
  else ways is_word (cat (rxs is_space (fuzzy_spaces o) (final o t))) z.
Proof.
  unfold expr, whole. change (ways is_word (Cat ?a Empty) z) with (flat_map (fun y => [y]) (ways is_word a z)).
  assert (X : forall l : list place, flat_map (fun y => [y]) l = l) by (induction l as [|y l IHl]; [reflexivity|]; cbn [flat_map app]; rewrite IHl; reflexivity).
  cbn [ways]. change (flat_map (fun z0 : place => [z0])) with (flat_map (fun y : place => [y])). rewrite X.
  destruct (boundary o); [|reflexivity].
  change (cat (Edge :: ?l ++ [Edge])) with (Cat Edge (cat (l ++ [Edge]))). cbn [ways].
  destruct (Bool.eqb _ _); [reflexivity|]. cbn [flat_map]. rewrite app_nil_r, ways_cat_app.
  induction (ways is_word (cat (rxs is_space (fuzzy_spaces o) (final o t))) z) as [|y l IHl]; [reflexivity|]. cbn [flat_map filter]. rewrite IHl, ways_cat1. cbn [ways].
  destruct (Bool.eqb _ _); reflexivity.
Qed.

Lemma in_ways_expr b x z : In z (ways is_word expr (rev b, x)) <-> exists w after, x = w ++ after /\ occurrence o m b w after /\ z = (rev (b ++ w), after).
Proof.
  rewrite ways_expr. cbn [fst snd]. pose proof (reads_show is_space is_word (fuzzy_spaces o) (final o t) final_ok (rev b) x z) as R. unfold occurrence.
  destruct (boundary o) eqn:Eb.
  - destruct (Bool.eqb (word_at is_word (rev b)) (word_at is_word x)) eqn:E1.
    + split; [contradiction|]. intros (w & after & -> & [_ Hb] & _). destruct (Hb eq_refl) as [H1 _]. apply edge_at in H1. congruence.
    + rewrite filter_In, R. split.
      * intros [(w & r & -> & H & ->) E2]. cbn [fst snd] in E2. apply negb_true_iff in E2. rewrite <- rev_app_distr in E2. exists w, r. rewrite rev_app_distr. split; [reflexivity|]. split; [|reflexivity].
        split; [apply final_lang; exact H|]. intros _. split; apply edge_at; auto.
      * intros (w & after & -> & [H Hb] & ->). destruct (Hb eq_refl) as [_ H2]. apply edge_at in H2. cbn [fst snd]. rewrite H2. split; [|reflexivity].
        exists w, after. rewrite rev_app_distr. split; [reflexivity|]. split; [apply final_lang; exact H|reflexivity].
  - rewrite R. split.
    + intros (w & r & -> & H & ->). exists w, r. rewrite rev_app_distr. split; [reflexivity|]. split; [|reflexivity]. split; [apply final_lang; exact H|discriminate].
    + intros (w & after & -> & [H _] & ->). exists w, after. rewrite rev_app_distr. split; [reflexivity|]. split; [apply final_lang; exact H|reflexivity].
Qed.

Lemma expr_matches before w after : can_match is_word expr before w after <-> occurrence o m before w after.
Proof.
  unfold can_match. rewrite in_ways_expr. split.
  - intros (w' & after' & E & H & Ez). rewrite <- rev_app_distr in Ez. injection Ez as E1 <-. apply (f_equal (@rev N)) in E1. rewrite !rev_involutive in E1.
    apply app_inv_head in E1. subst w'. exact H.
  - intros H. exists w, after. rewrite rev_app_distr. auto.
Qed.
End Reached.

(** ** C85 [to_regex] always returns a string. *)
Theorem to_regex_total : forall o t m, reached t -> answers t m -> characters -> plain_keys m -> exists p, to_regex t o = Ok p.
Proof. intros o t m Rt At Ct Pk. exact (to_regex_returns o t m Rt At Ct Pk). Qed.

(** ** C86 The expression matches the keys and nothing else. *)
Theorem to_regex_matches : forall o t m, reached t -> answers t m -> characters -> (exists ts, m ts <> None) -> writable o m ->
  exists p r, to_regex t o = Ok p /\ compile is_space p = Some r /\
  forall before w after, can_match is_word r before w after <-> occurrence o m before w after.
Proof.
  intros o t m Rt At Ct Sk (Pk & Na & Ti). exists (text_of o t), (expr o t). split; [eapply to_regex_is; eauto|]. split; [eapply text_compiles; eauto|].
  intros before w after. eapply expr_matches; eauto.
Qed.

(** ** C87 Searching with the expression finds the leftmost-longest
    occurrences. *)
Record exact_keys (o : options) (m : list str -> option V) : Prop := {
  ek_single : forall ts, m ts <> None -> Forall (fun tk => exists c, tk = [c]) ts;
  ek_spaces : fuzzy_spaces o = true -> forall ts c, m ts <> None -> In c (List.concat ts) -> is_space c = true -> c = 32;
  ek_any : fffd_any o = true -> forall ts, m ts <> None -> ~ In 0xfffd (List.concat ts) }.

Lemma in_order_filter f l : in_order l -> in_order (filter f l).
Proof.
  intros O. induction O as [|z l O IH F]; [constructor|]. cbn [filter]. destruct (f z); [|exact IH]. constructor; [exact IH|].
  apply Forall_forall. intros y I. apply filter_In in I. rewrite Forall_forall in F. apply F. apply I.
Qed.

Lemma found_ext (M M' : str -> str -> str -> Prop) b x l : (forall a c d, M a c d <-> M' a c d) -> found M b x l -> found M' b x l.
Proof.
  intros E F. induction F as [b|b w r l Nw Hm Hl F IH|b c r l Hn F IH]; [constructor| |].
  - constructor; auto; [apply E; exact Hm|]. intros w' r' Ew Lw Hm'. apply (Hl w' r' Ew Lw). apply E. exact Hm'.
  - constructor; auto. intros w r' Ew Nw Hm'. apply (Hn w r' Ew Nw). apply E. exact Hm'.
Qed.

Theorem to_regex_scans : forall o t m, reached t -> answers t m -> characters -> (exists ts, m ts <> None) -> writable o m ->
  exact_keys o m -> m [] = None ->
  exists p r, to_regex t o = Ok p /\ compile is_space p = Some r /\
  forall text, found (occurrence o m) [] text (RegexSpec.finditer is_word r text).
Proof.
  intros o t m Rt At Ct Sk (Pk & Na & Ti) [Si Sp Fa] M0. exists (text_of o t), (expr o t). split; [eapply to_regex_is; eauto|]. split; [eapply text_compiles; eauto|].
  intros text. apply (found_ext (can_match is_word (expr o t))); [intros; eapply expr_matches; eauto|].
  apply finditer_found.
  - intros z. rewrite ways_expr.
    assert (X : in_order (ways is_word (cat (rxs is_space (fuzzy_spaces o) (final o t))) z)).
    { apply in_order_show; [eapply final_ok; eauto|].
      assert (A : apart is_space (fuzzy_spaces o) (tree o t)).
      { eapply tree_apart; eauto. intros E. apply (ts_space o m (Ti E)). }
      unfold final. destruct (simplify o); [apply simpler_apart|]; exact A. }
    destruct (boundary o); [|exact X]. destruct (Bool.eqb _ _); [constructor|]. apply in_order_filter. exact X.
  - intros b x z I. rewrite <- (rev_involutive b) in I. apply (in_ways_expr o t m Rt At Pk Sk Na Ti) in I.
    destruct I as (w & after & -> & [(ts & H & F) _] & ->). exists w, after. split; [reflexivity|]. split; [|rewrite rev_app_distr, rev_involutive; reflexivity].
    intros ->. inversion F as [E|]. destruct ts as [|tk ts]; [congruence|]. pose proof (Pk _ H) as Fp. apply Forall_inv in Fp. apply plain_nonempty in Fp.
    destruct tk; [congruence|discriminate].
Qed.

(** ** C88 [fuzzy_quotes] changes nothing. *)
Theorem fuzzy_quotes_ignored : forall o o' t m, reached t -> answers t m -> characters -> plain_keys m ->
  fuzzy_spaces o' = fuzzy_spaces o -> fffd_any o' = fffd_any o -> simplify o' = simplify o -> boundary o' = boundary o ->
  to_regex t o' = to_regex t o.
Proof.
  intros o o' t m Rt At Ct Pk E1 E2 E3 E4. rewrite !(to_regex_text _ t m Rt At Ct Pk). unfold final, tree. rewrite E1, E2, E3, E4. reflexivity.
Qed.
End Theorems.
Print Assumptions to_regex_total.
Print Assumptions to_regex_matches.
Print Assumptions to_regex_scans.
Print Assumptions fuzzy_quotes_ignored.

(** ** Searching with the expression or with the trie *)
Lemma found_unique (M : str -> str -> str -> Prop) b x l1 : found M b x l1 -> forall l2, found M b x l2 -> l1 = l2.
Proof.
  intros F. induction F as [b|b w r l Nw Hm Hl F IH|b c r l Hn F IH]; intros l2 F2.
  - inversion F2 as [|? w r l Nw Hm Hl F' E1 E2|]; subst; [reflexivity|]. destruct w; [congruence|discriminate].
  - remember (w ++ r) as x eqn:Ex. destruct F2 as [b|b w2 r2 l2 Nw2 Hm2 Hl2 F2|b c r2 l2 Hn2 F2].
    + destruct w; [congruence|discriminate].
    + assert (El : List.length w = List.length w2).
      { destruct (Nat.lt_trichotomy (List.length w) (List.length w2)) as [Lt|[Eq|Lt]]; [|exact Eq|].
        - destruct (Hl w2 r2 eq_refl Lt Hm2).
        - destruct (Hl2 w r (eq_sym Ex) Lt Hm). }
      assert (Ew : w2 = w).
      { apply (f_equal (firstn (List.length w))) in Ex. rewrite !firstn_app, El, !Nat.sub_diag, !firstn_O, !app_nil_r, firstn_all, <- El, firstn_all in Ex. exact Ex. }
      subst w2. apply app_inv_head in Ex. subst r2. f_equal. apply IH. exact F2.
    + destruct (Hn2 w r (eq_sym Ex) Nw Hm).
  - remember (c :: r) as x eqn:Ex. destruct F2 as [b|b w2 r2 l2 Nw2 Hm2 Hl2 F2|b c2 r2 l2 Hn2 F2].
    + discriminate.
    + destruct (Hn w2 r2 eq_refl Nw2 Hm2).
    + injection Ex as -> ->. apply IH. exact F2.
Qed.

Section Agreement.
Variables is_space is_word : N -> bool.
Context {V : Type}.

Lemma chars_app a b : chars (a ++ b) = chars a ++ chars b.
Proof. unfold chars. apply map_app. Qed.
Lemma concat_chars s : List.concat (chars s) = s.
Proof. unfold chars. induction s as [|c s IH]; [reflexivity|]. cbn. rewrite IH. reflexivity. Qed.
Lemma chars_split text k rest : chars text = k ++ rest -> exists w r, text = w ++ r /\ k = chars w /\ rest = chars r.
Proof.
  revert text. induction k as [|tk k IH]; intros text E; [exists [], text; auto|]. destruct text as [|c text]; [discriminate|]. cbn in E. injection E as <- E.
  destruct (IH text E) as (w & r & -> & -> & ->). exists (c :: w), r. auto.
Qed.

(** The matches of the expression are those of [Trie.finditer], with the default
    tokenizer. *)
Theorem to_regex_agrees_with_trie : forall o (t : trie str V) m, reached chars join t -> answers chars t m -> (exists ts, m ts <> None) ->
  writable is_space o m -> exact_keys is_space o m -> m [] = None -> boundary o = false ->
  exists p r, RegexModel.to_regex is_space is_word chars t o = Ok p /\ compile is_space p = Some r /\
  forall text, (fuzzy_spaces o = true -> forall c, In c text -> is_space c = true -> c = 32) ->
  TrieModel.finditer chars join t text false = Ok (RegexSpec.finditer is_word r text).
Proof.
  intros o t m Rt At Sk Wr Ek M0 Eb.
  destruct (to_regex_scans is_space is_word chars join o t m Rt At eq_refl Sk Wr Ek M0) as (p & r & E1 & E2 & F).
  exists p, r. split; [exact E1|]. split; [exact E2|]. intros text Ht.
  destruct (finditer_leftmost_longest chars join t m Rt At text) as (ms & E3 & Sc). rewrite E3. f_equal.
  destruct Ek as [Si Ss Sa].
  assert (Oc : forall b w after, (forall c, In c w -> fuzzy_spaces o = true -> is_space c = true -> c = 32) -> (occurrence is_space is_word o m b w after <-> m (chars w) <> None)).
  { intros b w after Hw. unfold occurrence. split.
    - intros [(ts & H & Fw) _]. assert (E : List.concat ts = w).
      { assert (Hk : forall c, In c (List.concat ts) -> (fuzzy_spaces o = true -> is_space c = true -> c = 32) /\ (fffd_any o = true -> c <> 0xfffd)).
        { intros c I. split; [intros Ef; apply (Ss Ef ts c H I)|]. intros Ea ->. exact (Sa Ea ts H I). }
        clear H. induction Fw as [|kc tc k w Ag Fw IH]; [reflexivity|]. f_equal.
        - destruct (Hk kc (or_introl eq_refl)) as [H1 H2]. unfold agrees in Ag. destruct (fuzzy_spaces o) eqn:Ef; cbn [andb] in Ag.
          + destruct (is_space kc) eqn:Es; [rewrite (H1 eq_refl eq_refl); symmetry; apply Hw; auto; left; reflexivity|].
            destruct (fffd_any o && (kc =? 0xfffd)) eqn:E; [|congruence]. apply andb_prop in E. destruct E as [E E']. apply N.eqb_eq in E'. destruct (H2 E E').
          + destruct (fffd_any o && (kc =? 0xfffd)) eqn:E; [|congruence]. apply andb_prop in E. destruct E as [E E']. apply N.eqb_eq in E'. destruct (H2 E E').
        - apply IH; intros c I; [apply Hw; right; exact I|apply Hk; right; exact I]. }
      subst w. destruct At as [_ A2]. destruct (A2 ts H) as (k & ->). rewrite concat_chars. exact H.
    - intros H. split; [|congruence]. exists (chars w). split; [exact H|]. rewrite concat_chars.
      assert (Hk : forall c, In c w -> fffd_any o = true -> c <> 0xfffd). { intros c I Ea ->. apply (Sa Ea _ H). rewrite concat_chars. exact I. }
      clear H. induction w as [|c w IH]; [constructor|]. constructor.
      + unfold agrees. destruct (fuzzy_spaces o && is_space c) eqn:E; [apply andb_prop in E; apply E|].
        destruct (fffd_any o && (c =? 0xfffd)) eqn:E'; [|reflexivity]. apply andb_prop in E'. destruct E' as [E1' E2']. apply N.eqb_eq in E2'. destruct (Hk c (or_introl eq_refl) E1' E2').
      + apply IH; intros d I; [apply Hw; right; exact I|apply Hk; right; exact I]. }
  assert (G : forall pos x ms, scanned m pos x ms -> forall b rest, x = chars rest -> pos = List.length b ->
    (forall c, In c rest -> fuzzy_spaces o = true -> is_space c = true -> c = 32) ->
    found (occurrence is_space is_word o m) b rest (map (fun y => (fst y, join (snd y))) ms)).
  { clear - Oc M0. intros pos x ms Sc. induction Sc as [pos|pos k rest v ms Lk Sc IH|pos tk rest ms Nk Sc IH]; intros b text Ex Ep Hw.
    - destruct text; [|discriminate]. constructor.
    - symmetry in Ex. destruct (chars_split _ _ _ Ex) as (w & r & -> & -> & ->). destruct Lk as (Nw & Mk & Lg). cbn [map fst snd].
      assert (El : List.length (chars w) = List.length w) by (unfold chars; apply map_length). rewrite El, Ep. unfold join. rewrite concat_chars.
      apply found_match.
      + intros ->. apply Nw. reflexivity.
      + apply Oc; [intros c I; apply Hw; apply in_or_app; left; exact I|]. congruence.
      + intros w' r' Ew Ll Hm. apply Oc in Hm.
        2: { intros c I. apply Hw. rewrite <- Ew. apply in_or_app. left. exact I. }
        apply Hm. apply (Lg (chars w') (chars r')); [rewrite <- !chars_app, Ew; reflexivity|]. unfold chars. rewrite !map_length. exact Ll.
      + apply IH; [reflexivity| |intros c I; apply Hw; apply in_or_app; right; exact I]. rewrite app_length, El. lia.
    - destruct text as [|c text]; [discriminate|]. cbn in Ex. injection Ex as -> ->. apply found_skip.
      + intros w r' Ew Nw Hm. apply Oc in Hm.
        2: { intros d I. apply Hw. rewrite <- Ew. apply in_or_app. left. exact I. }
        apply Hm. apply (Nk (chars w) (chars r')); [rewrite <- chars_app, Ew; reflexivity|]. destruct w; [congruence|discriminate].
      + apply IH; [reflexivity| |intros d I; apply Hw; right; exact I]. rewrite app_length. cbn. lia. }
  eapply found_unique; [|apply F]. apply (G O (chars text) ms Sc [] text); auto.
Qed.
End Agreement.
Print Assumptions to_regex_agrees_with_trie.

(** ** The function [to_regex] *)
Section Strings.
Variables is_space is_word : N -> bool.
Variable lower : N -> str.
Variable case_sensitive : bool.
Notation tok := (char_tokenizer lower (negb case_sensitive)).

(** The keys of the trie. *)
Definition listed (keys : list str) (ts : list str) : option str :=
  if existsb (fun key => if list_eq_dec (list_eq_dec N.eq_dec) ts (tok key) then true else false) keys then Some [] else None.

Lemma listed_in keys ts : listed keys ts <> None <-> exists key, In key keys /\ ts = tok key.
Proof.
  unfold listed. destruct (existsb _ keys) eqn:E.
  - split; [|discriminate]. intros _. apply existsb_exists in E. destruct E as (key & I & E). exists key. split; [exact I|]. destruct (list_eq_dec (list_eq_dec N.eq_dec) ts (tok key)); [assumption|discriminate].
  - split; [congruence|]. intros (key & I & ->). assert (X : existsb (fun key0 => if list_eq_dec (list_eq_dec N.eq_dec) (tok key) (tok key0) then true else false) keys = true); [|congruence].
    apply existsb_exists. exists key. split; [exact I|]. destruct (list_eq_dec _ _ _); [reflexivity|congruence].
Qed.

Lemma run_sets (l : list (str * str)) t : fst (run tok join t (map (fun kv => SetItem (fst kv) (snd kv)) l)) = update tok t l.
Proof.
  revert t. induction l as [|kv l IH]; intros t; [reflexivity|]. cbn [map run step]. unfold update in *. cbn [fold_left]. rewrite <- IH.
  destruct (run tok join (setitem tok t (fst kv) (snd kv)) (map (fun kv0 => SetItem (fst kv0) (snd kv0)) l)). reflexivity.
Qed.

Lemma fromkeys_reached keys : reached tok join (fromkeys lower keys case_sensitive).
Proof.
  exists (map (fun kv => SetItem (fst kv) (snd kv)) (map (fun key => (key, [])) keys)). split.
  - right. rewrite map_map. intros I. apply in_map_iff in I. destruct I as (k & E & _). discriminate.
  - rewrite run_sets. reflexivity.
Qed.

Lemma update_look (l : list (str * str)) t ts : look ts (root (update tok t l)) = 
  fold_left (fun r kv => if eqd ts (tok (fst kv)) then Some (snd kv) else r) l (look ts (root t)).
Proof.
  revert t. induction l as [|kv l IH]; intros t; [reflexivity|]. unfold update in *. cbn [fold_left]. rewrite IH. f_equal.
  unfold setitem. cbn [root]. apply look_put.
Qed.

Lemma fromkeys_answers keys : answers tok (fromkeys lower keys case_sensitive) (listed keys).
Proof.
  assert (X : forall ts, look ts (root (fromkeys lower keys case_sensitive)) = listed keys ts).
  { intros ts. unfold fromkeys. rewrite update_look. cbn [root new_trie]. rewrite look_new. unfold listed.
    assert (Y : forall l r, fold_left (fun r kv => if eqd ts (tok (fst kv)) then Some (snd kv) else r) (map (fun key : str => (key, @nil N)) l) r =
                if existsb (fun key => if list_eq_dec (list_eq_dec N.eq_dec) ts (tok key) then true else false) l then Some [] else r).
    { induction l as [|k l IHl]; intros r; [reflexivity|]. cbn [map fold_left existsb fst snd]. rewrite IHl.
      destruct (eqd ts (tok k)) as [E|E]; destruct (list_eq_dec (list_eq_dec N.eq_dec) ts (tok k)) as [E'|E']; try congruence; cbn [orb]; destruct (existsb _ l); reflexivity. }
    apply Y. }
  split.
  - intros k. rewrite getitem_look, X. reflexivity.
  - intros ts H. apply listed_in in H. destruct H as (key & _ & ->). eauto.
Qed.

Theorem strings_to_regex_matches : forall o keys, characters tok -> keys <> [] -> writable is_space o (listed keys) ->
  exists p r, strings_to_regex is_space is_word lower keys case_sensitive o = Ok p /\ compile is_space p = Some r /\
  forall before w after, can_match is_word r before w after <->
    (exists key, In key keys /\ Forall2 (agrees is_space o) (List.concat (tok key)) w) /\
    (boundary o = true -> at_edge is_word before (w ++ after) /\ at_edge is_word (before ++ w) after).
Proof.
  intros o keys Ct Nk Wr.
  destruct (to_regex_matches is_space is_word tok join o _ (listed keys) (fromkeys_reached keys) (fromkeys_answers keys) Ct) as (p & r & E1 & E2 & H); [|exact Wr|].
  { destruct keys as [|k keys]; [congruence|]. exists (tok k). apply listed_in. exists k. split; [left|]; reflexivity. }
  exists p, r. split; [exact E1|]. split; [exact E2|]. intros before w after. rewrite H. unfold occurrence.
  assert (X : (exists ts, listed keys ts <> None /\ Forall2 (agrees is_space o) (List.concat ts) w) <-> (exists key, In key keys /\ Forall2 (agrees is_space o) (List.concat (tok key)) w)).
  { split.
    - intros (ts & Hl & F). apply listed_in in Hl. destruct Hl as (key & I & ->). eauto.
    - intros (key & I & F). exists (tok key). split; [|exact F]. apply listed_in. eauto. }
  rewrite X. tauto.
Qed.
End Strings.
Print Assumptions strings_to_regex_matches.

(** ** Concrete cases *)
Definition ascii_space (c : N) : bool := existsb (N.eqb c) [32; 9; 10; 11; 12; 13].
Definition ascii_word (c : N) : bool := letter_or_digit c || (c =? 95).
Definition ascii_lower (c : N) : str := if (65 <=? c) && (c <=? 90) then [c + 32] else [c].
Definition default_options : options := {| fuzzy_quotes := true; fuzzy_spaces := true; fffd_any := true; simplify := true; boundary := false |}.
Definition with_boundary : options := {| fuzzy_quotes := true; fuzzy_spaces := true; fffd_any := true; simplify := true; boundary := true |}.

Definition regex_of (keys : list str) (case_sensitive : bool) (o : options) : result str :=
  strings_to_regex ascii_space ascii_word ascii_lower keys case_sensitive o.

(** wordlist-to-regex.py:5-8 *)
Example regex_case1 : regex_of (map w_ ["understand"; "understate"; "undertake"; "undergo"]) true default_options
  = Ok (w_ "(?:under(?:go|take|sta(?:te|nd)))").
Proof. vm_compute. reflexivity. Qed.
Example regex_case2 : regex_of (map w_ ["grapefruit"; "grape"; "tangerine"; "tangelo"; "kumquat"]) true with_boundary
  = Ok (w_ "(?:\b(?:kumquat|tange(?:lo|rine)|grape(?:fruit)?)\b)").
Proof. vm_compute. reflexivity. Qed.

(** [to_regex_total], [to_regex_matches], [to_regex_scans],
    [to_regex_agrees_with_trie], [strings_to_regex_matches] *)
Definition some_keys : list str := map w_ ["New York"; "New"; "a.b"; "N"].

Example regex_case3 :
  characters (char_tokenizer ascii_lower false) /\ writable ascii_space default_options (listed ascii_lower true some_keys) /\
  exact_keys ascii_space default_options (listed ascii_lower true some_keys) /\ listed ascii_lower true some_keys [] = None /\
  regex_of some_keys true default_options = Ok (w_ "(?:(?:a\.b|N(?:ew(?:\sYork)?)?))").
Proof.
  assert (Si : forall ts, listed ascii_lower true some_keys ts <> None -> Forall (fun tk => exists c, tk = [c]) ts).
  { intros ts H. apply listed_in in H. destruct H as (key & _ & ->). unfold char_tokenizer. cbn [negb]. apply Forall_map. apply Forall_forall. intros c _. exists c. reflexivity. }
  assert (Cs : forall ts c, listed ascii_lower true some_keys ts <> None -> In c (List.concat ts) -> In c (List.concat some_keys)).
  { intros ts c H Ic. apply listed_in in H. destruct H as (key & I & ->). change (char_tokenizer ascii_lower (negb true) key) with (chars key) in Ic. rewrite concat_chars in Ic.
    apply in_concat. exists key. auto. }
  assert (B : forall (P : N -> bool), forallb P (List.concat some_keys) = true -> forall ts c, listed ascii_lower true some_keys ts <> None -> In c (List.concat ts) -> P c = true).
  { intros P E ts c H Ic. rewrite forallb_forall in E. apply E. apply (Cs ts c H Ic). }
  split; [reflexivity|]. split; [|split; [|split; [vm_compute; reflexivity|vm_compute; reflexivity]]].
  - split; [|split].
    + intros ts H. eapply Forall_impl; [|apply (Si ts H)]. intros tk Ht. left. exact Ht.
    + intros _ _ ts H I. pose proof (B (fun c => negb (c =? 0xfffd)) eq_refl ts _ H I) as X. discriminate.
    + intros _. constructor.
      * reflexivity.
      * exact Si.
      * left. intros ts H I. pose proof (B (fun c => negb (c =? 92)) eq_refl ts _ H I) as X. discriminate.
      * intros ts a c d b H E Ec. apply listed_in in H. destruct H as (key & I & ->).
        change (char_tokenizer ascii_lower (negb true) key) with (chars key) in E. rewrite concat_chars in E. subst key.
        assert (X : forallb (fun key => negb (adj (map ascii_space key))) some_keys = true) by reflexivity. rewrite forallb_forall in X. specialize (X _ I).
        apply negb_true_iff in X. rewrite map_app in X. apply adj_app_r in X. cbn [map] in X. rewrite adj_cons, Ec in X. apply orb_false_iff in X. apply X.
      * intros _ ts c H I Ec. pose proof (B (fun c => negb (ascii_space c) || (c =? 32)) eq_refl ts c H I) as X. cbn beta in X. rewrite Ec in X. apply N.eqb_eq in X. exact X.
  - constructor.
    + exact Si.
    + intros _ ts c H I Ec. pose proof (B (fun c => negb (ascii_space c) || (c =? 32)) eq_refl ts c H I) as X. cbn beta in X. rewrite Ec in X. apply N.eqb_eq in X. exact X.
    + intros _ ts H I. pose proof (B (fun c => negb (c =? 0xfffd)) eq_refl ts _ H I) as X. discriminate.
Qed.

Definition search (p : str) (text : str) : option (list (nat * nat * str)) := option_map (fun r => RegexSpec.finditer ascii_word r text) (compile ascii_space p).
Definition full (p : str) (text : str) : option bool :=
  option_map (fun r => existsb (fun z => match snd z with [] => true | _ => false end) (ways ascii_word r ([], text))) (compile ascii_space p).

Lemma full_matches p text r : compile ascii_space p = Some r -> (full p text = Some true <-> fullmatch ascii_word r text).
Proof.
  intros E. unfold full, fullmatch, can_match. rewrite E. cbn [option_map rev app]. rewrite !app_nil_r. split.
  - intros F. injection F as F. apply existsb_exists in F. destruct F as ([b x] & I & F). cbn [snd] in F. destruct x; [|discriminate].
    assert (X : b = rev text); [|subst b; exact I].
    assert (P : forall r z z', In z' (ways ascii_word r z) -> rev (fst z') ++ snd z' = rev (fst z) ++ snd z).
    { clear. induction r as [|p|r1 IH1 r2 IH2|r1 IH1 r2 IH2|r IH|r IH| |c]; intros z z' I; cbn [ways] in I.
      - destruct I as [<-|[]]. reflexivity.
      - destruct (snd z) as [|c s] eqn:E; [contradiction|]. destruct (p c); [|contradiction]. destruct I as [<-|[]]. cbn [fst snd rev]. rewrite <- app_assoc. reflexivity.
      - apply in_flat_map in I. destruct I as (y & I1 & I2). rewrite (IH2 _ _ I2). apply IH1. exact I1.
      - apply in_app_iff in I. destruct I as [I|I]; [apply IH1|apply IH2]; exact I.
      - apply in_app_iff in I. destruct I as [I|[<-|[]]]; [apply IH; exact I|reflexivity].
      - revert I. generalize (S (List.length (snd z))). intros n. revert z z'. induction n as [|n IHn]; intros z z' I; [contradiction|]. cbn [iterate] in I.
        apply in_flat_map in I. destruct I as (y & I1 & I2). apply in_app_iff in I2. destruct I2 as [I2|[<-|[]]]; [|apply IH; exact I1].
        destruct (List.length (snd y) <? List.length (snd z))%nat; [|contradiction]. rewrite (IHn _ _ I2). apply IH. exact I1.
      - destruct (Bool.eqb _ _); [contradiction|]. destruct I as [<-|[]]. reflexivity.
      - destruct z as [[|b s] x]; cbn [fst snd] in *; [destruct I as [<-|[]]; reflexivity|]. destruct (b =? c); [contradiction|]. destruct I as [<-|[]]. reflexivity. }
    apply P in I. cbn [fst snd] in I. rewrite app_nil_r in I. cbn [rev app] in I. rewrite <- I, rev_involutive. reflexivity.
  - intros I. f_equal. apply existsb_exists. exists (rev text, []). split; [exact I|reflexivity].
Qed.

Example regex_case4 : match regex_of some_keys true default_options with Ok p => search p (w_ "Ne New York a.bNew a-b") | Err _ => None end
  = Some [(0%nat, 1%nat, w_ "N"); (3%nat, 11%nat, w_ "New York"); (12%nat, 15%nat, w_ "a.b"); (15%nat, 18%nat, w_ "New")].
Proof. vm_compute. reflexivity. Qed.

(** ** C89 What the documentation promises and does not hold *)
Definition accepts (keys : list str) (case_sensitive : bool) (o : options) (text : str) : Prop :=
  exists p r, regex_of keys case_sensitive o = Ok p /\ compile ascii_space p = Some r /\ fullmatch ascii_word r text.
Definition rejects (keys : list str) (case_sensitive : bool) (o : options) (text : str) : Prop :=
  exists p r, regex_of keys case_sensitive o = Ok p /\ compile ascii_space p = Some r /\ ~ fullmatch ascii_word r text.

Lemma accepts_ok keys cs o text p : regex_of keys cs o = Ok p -> full p text = Some true -> accepts keys cs o text.
Proof.
  intros E F. destruct (compile ascii_space p) as [r|] eqn:Ec; [|unfold full in F; rewrite Ec in F; discriminate]. exists p, r. split; [exact E|]. split; [exact Ec|]. apply (full_matches p text r Ec). exact F.
Qed.
Lemma rejects_ok keys cs o text p : regex_of keys cs o = Ok p -> full p text = Some false -> rejects keys cs o text.
Proof.
  intros E F. destruct (compile ascii_space p) as [r|] eqn:Ec; [|unfold full in F; rewrite Ec in F; discriminate]. exists p, r. split; [exact E|]. split; [exact Ec|].
  intros M. apply (full_matches p text r Ec) in M. congruence.
Qed.
Ltac accepted := eapply accepts_ok; [vm_compute; reflexivity|vm_compute; reflexivity].
Ltac rejected := eapply rejects_ok; [vm_compute; reflexivity|vm_compute; reflexivity].

(** Without keys the expression should match nothing; it matches the empty
    string. *)
Theorem no_keys_refuted : accepts [] true default_options [].
Proof. accepted. Qed.

(** A key is not matched by its own expression: [\s] followed by a space, where
    the [s] belongs to an escaped backslash. *)
Theorem own_key_refuted : exists key, rejects [key] true default_options key.
Proof. exists (w_ "\s "). rejected. Qed.

(** Nor is a key of one character, beside others: a space, [s] and [\] give
    a group in which a backslash, an [s] and [\s] are neighbours. *)
Theorem own_character_refuted : exists keys c, (forall key, In key keys -> List.length key = 1%nat) /\ In [c] keys /\ rejects keys true default_options [c].
Proof.
  exists [[32]; [115]; [92]], 32. split; [intros key [<-|[<-|[<-|[]]]]; reflexivity|]. split; [left; reflexivity|]. rejected.
Qed.

(** Case-insensitive, which is the default of the function [to_regex], a key is
    not matched either. *)
Theorem case_insensitive_refuted : exists key, rejects [key] false default_options key.
Proof. exists (w_ "New"). rejected. Qed.

(** A text without any character of the keys is matched. *)
Theorem foreign_text_refuted : exists keys text, (forall key c, In key keys -> In c key -> ascii_space c = true) /\
  (forall c, In c text -> ascii_space c = false) /\ accepts keys true default_options text.
Proof.
  exists [[9]; [10]], (w_ "+"). split; [|split; [|accepted]].
  - intros key c [<-|[<-|[]]] [<-|[]]; reflexivity.
  - intros c [<-|[]]. reflexivity.
Qed.

(** Two spaces are matched by one and by three, and another key ends that. *)
Theorem space_runs_refuted : exists keys key text,
  accepts keys true default_options text /\ rejects (keys ++ [key]) true default_options text.
Proof. exists [w_ "a  b"], (w_ "a c"), (w_ "a b"). split; [accepted|rejected]. Qed.

(** "unicode quotes also match ascii quotes" *)
Theorem fuzzy_quotes_refuted : exists q a, In (q, a) quotes /\ fuzzy_quotes default_options = true /\ rejects [[q]] true default_options [a].
Proof. exists 0x2019, 39. split; [cbn; tauto|]. split; [reflexivity|]. rejected. Qed.

(** "lets the U+FFFD char match anything": not a newline, and only a dot when it
    ends in a group of characters. *)
Theorem fffd_newline_refuted : fffd_any default_options = true /\ rejects [[0xfffd]] true default_options [10].
Proof. split; [reflexivity|]. rejected. Qed.
Theorem fffd_group_refuted : fffd_any default_options = true /\ rejects [[0xfffd]; w_ "a"] true default_options (w_ "x") /\ accepts [[0xfffd]] true default_options (w_ "x").
Proof. split; [reflexivity|]. split; [rejected|accepted]. Qed.

(** "shorten the output": [simplify] changes what is matched. *)
Definition unsimplified : options := {| fuzzy_quotes := true; fuzzy_spaces := true; fffd_any := true; simplify := false; boundary := false |}.
Theorem simplify_refuted : exists keys text, accepts keys true unsimplified text /\ rejects keys true default_options text.
Proof. exists [[0xfffd]; w_ "a"], (w_ "x"). split; [accepted|rejected]. Qed.
Print Assumptions no_keys_refuted.
Print Assumptions own_key_refuted.
Print Assumptions own_character_refuted.
Print Assumptions case_insensitive_refuted.
Print Assumptions foreign_text_refuted.
Print Assumptions space_runs_refuted.
Print Assumptions fuzzy_quotes_refuted.
Print Assumptions fffd_newline_refuted.
Print Assumptions fffd_group_refuted.
Print Assumptions simplify_refuted.
