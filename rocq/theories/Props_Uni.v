(** Theorems about the unicode normalizers of nmd/nmd_word_set.py and what they
    make of a [WordSet].  Property C123. *)
From Coq Require Import NArith ZArith QArith Qcanon List Bool Arith Lia Permutation String.
From Verif Require Import Num Float64 EmdModel Py PyDict NmdSpec NmdModel NmdProofs IndexModel WordSetSpec WordSetModel WordSetProofs Props_Index Props_WordSet UniModel UniProofs Ex.
Import ListNotations.
Open Scope N_scope.
Open Scope string_scope.
Open Scope list_scope.

(** *** normalize_nfd_strip_marks *)

(** The result has no marks and is its own result; a text can be handled piece
    by piece; neither the marks of a text nor the way it is encoded matter. *)
Theorem strip_marks_meaning : forall u, sound u ->
  let strip := normalize_nfd_strip_marks u in
  (forall s c, In c (strip s) -> mark u c = false) /\
  (forall s, strip (strip s) = strip s) /\
  (forall s t, strip (s ++ t) = strip s ++ strip t) /\
  (forall s t, filter (fun c => negb (mark u c)) s = filter (fun c => negb (mark u c)) t -> strip s = strip t) /\
  (forall s, strip (nfd u s) = strip s) /\
  (forall s, (forall c, In c s -> mark u c = false /\ decomp u c = [c]) -> strip s = s).
Proof.
  intros u Hs strip. assert (B : forall s, strip s = flat_map (bare u) s) by (intros; apply strip_bare; auto). repeat split.
  - intros s c I. unfold strip, normalize_nfd_strip_marks in I. apply filter_In in I. destruct I as [_ I]. apply negb_true_iff, I.
  - intros s. rewrite !B, flat_map_flat_map. apply flat_map_ext. intros c. apply flat_map_single. intros d. apply bare_bare. exact Hs.
  - intros s t. rewrite !B. apply flat_map_app.
  - intros s t E. rewrite !B. rewrite (flat_map_drop (bare u) (mark u) s), (flat_map_drop (bare u) (mark u) t), E; auto; intros; apply bare_mark; auto.
  - intros s. unfold strip at 1, normalize_nfd_strip_marks. unfold nfd at 1. rewrite reorder_filter by auto.
    unfold strip, normalize_nfd_strip_marks. f_equal. apply flat_map_single. intros c I.
    assert (I' : In c (flat_map (decomp u) s)) by (eapply Permutation_in; [apply Permutation_sym, (swaps_perm u), reorder_swaps|exact I]).
    apply in_flat_map in I'. destruct I' as (e & _ & I'). apply (s_stable u Hs e c I').
  - intros s H. rewrite B. apply flat_map_single. intros c I. destruct (H c I) as [M D]. unfold bare. rewrite D. cbn. rewrite M. reflexivity.
Qed.
Print Assumptions strip_marks_meaning.

Definition eacute : str := [0xE9].
Example strip_case : normalize_nfd_strip_marks excerpt (w_ "caf" ++ eacute) = w_ "cafe" /\
  normalize_nfd_strip_marks excerpt (w_ "ca" ++ [0x323; 0x300] ++ w_ "fe") = w_ "cafe" /\ sound excerpt.
Proof. split; [vm_compute; reflexivity|]. split; [vm_compute; reflexivity|apply excerpt_sound]. Qed.

(** *** Words that a WordSet cannot tell apart *)

(** Asking for, discarding, removing and searching give the same; after adding
    one, adding the other changes nothing. *)
Definition same_word (casefold : str -> str) (st : wordset) (a b : str) : Prop :=
  ws_contains casefold st (PStr a) = ws_contains casefold st (PStr b) /\
  (forall o, ws_discard casefold o st (PStr a) = ws_discard casefold o st (PStr b)) /\
  (forall o, ws_remove casefold o st (PStr a) = ws_remove casefold o st (PStr b)) /\
  (forall rnd o k t, find_similar rnd casefold o st (PStr a) k t = find_similar rnd casefold o st (PStr b) k t) /\
  (forall rnd o o' st' r, ws_add rnd casefold o st (PStr a) = (st', Ok r) -> ws_add rnd casefold o' st' (PStr b) = (st', Ok ANone)).

Lemma same_normal casefold st a b : a <> [] -> b <> [] -> normalize_word casefold st a = normalize_word casefold st b -> same_word casefold st a b.
Proof.
  intros Ha Hb E. assert (La : Nat.eqb (List.length a) 0 = false) by (destruct a; [congruence|reflexivity]).
  assert (Lb : Nat.eqb (List.length b) 0 = false) by (destruct b; [congruence|reflexivity]). unfold same_word. repeat split.
  - cbn [ws_contains]. rewrite E. reflexivity.
  - intros o. cbn [ws_discard]. rewrite E. reflexivity.
  - intros o. cbn [ws_remove ws_discard]. rewrite E. reflexivity.
  - intros rnd o k t. unfold find_similar.
    assert (Ck : check_find (PStr b) k t = match check_find (PStr a) k t with Ok (_, n) => Ok (b, n) | Err e => Err e end).
    { unfold check_find. repeat match goal with |- context [match ?x with _ => _ end] => destruct x end; reflexivity. }
    assert (Ca : forall q n, check_find (PStr a) k t = Ok (q, n) -> q = a).
    { unfold check_find. intros q n. repeat match goal with |- context [match ?x with _ => _ end] => destruct x end; congruence. }
    rewrite Ck. destruct (check_find (PStr a) k t) as [[q n]|e] eqn:C0; [|reflexivity]. specialize (Ca q n eq_refl). subst q.
    cbn [bind]. rewrite La, Lb, E. reflexivity.
  - intros rnd o o' st' r. cbn [ws_add]. rewrite La, Lb.
    destruct (normalize_word casefold st a) as [v|e] eqn:Na; [|discriminate]. destruct (Nat.eqb (List.length v) 0) eqn:Lv; [discriminate|].
    destruct (dmem v (to_id st)) eqn:Dm.
    + intros H. injection H as <- _. rewrite <- E, Lv, Dm. reflexivity.
    + intros H. injection H as <- _.
      match goal with |- context [normalize_word casefold ?st2 b] => change (normalize_word casefold st2 b) with (normalize_word casefold st b) end.
      rewrite <- E, Lv. cbn [to_id put]. replace (dmem v (dset v (next_id st) (to_id st))) with true; [reflexivity|]. symmetry. apply dmem_true, in_dkeys_dset. left. reflexivity.
Qed.

Lemma reached_config rnd casefold b f sz cs st : ws_reached rnd casefold b (as_normalizer f) sz cs st -> forall w,
  normalize_word casefold st w = (let v := f (if b then w else casefold w) in if existsb (N.eqb 0) v then Err ValueError else Ok v).
Proof.
  intros H w. destruct (reached_conf _ _ _ _ _ _ _ H) as (l & R & _ & _ & Hn). rewrite normalize_word_norm, Hn. unfold normal_form.
  cbv zeta. cbn [as_normalizer normalizer_of]. set (v := f (if b then w else casefold w)). destruct (in_dec N.eq_dec 0 v) as [I|I].
  - apply existsb_N in I. rewrite I. reflexivity.
  - destruct (existsb (N.eqb 0) v) eqn:Ev; [|reflexivity]. apply existsb_N in Ev. contradiction.
Qed.

(** A mark that casefolding does not turn into something else. *)
Definition ignored (u : ucd) (case_sensitive : bool) (c : N) : bool := mark u c && (case_sensitive || forallb (mark u) (fold u c)).

Theorem wordset_ignores_marks : forall u rnd case_sensitive sz cs st, sound u ->
  ws_reached rnd (uni_casefold u) case_sensitive (as_normalizer (normalize_nfd_strip_marks u)) sz cs st ->
  forall a b, a <> [] -> b <> [] ->
  filter (fun c => negb (ignored u case_sensitive c)) a = filter (fun c => negb (ignored u case_sensitive c)) b ->
  same_word (uni_casefold u) st a b.
Proof.
  intros u rnd cse sz cs st Hs H a b Ha Hb E. apply same_normal; auto. rewrite !(reached_config _ _ _ _ _ _ _ H). cbv zeta.
  assert (K : forall w, normalize_nfd_strip_marks u (if cse then w else uni_casefold u w) =
    flat_map (fun c => if cse then bare u c else flat_map (bare u) (fold u c)) (filter (fun c => negb (ignored u cse c)) w)).
  { intros w. rewrite strip_bare by auto. destruct cse.
    - apply flat_map_drop. intros c I. apply andb_true_iff in I. apply bare_mark; auto. apply I.
    - unfold uni_casefold. rewrite flat_map_flat_map. apply flat_map_drop. intros c I. apply andb_true_iff in I. destruct I as [_ I].
      cbn in I. rewrite forallb_forall in I. induction (fold u c) as [|d l IH]; [reflexivity|]. cbn.
      rewrite bare_mark by (auto; apply I; left; auto). apply IH. intros x Hx. apply I. right. auto. }
  rewrite !K, E. reflexivity.
Qed.
Print Assumptions wordset_ignores_marks.

(** *** NFC, the default: words that are canonically equivalent *)

Theorem wordset_canonical : forall u rnd case_sensitive sz cs st, sound u ->
  ws_reached rnd (uni_casefold u) case_sensitive (as_normalizer (normalize_nfc u)) sz cs st ->
  forall a b, a <> [] -> b <> [] -> nfd u a = nfd u b ->
  (case_sensitive = true \/ forall c, In c (nfd u a) -> ccc u c <> 0 -> fold u c = [c]) ->
  same_word (uni_casefold u) st a b.
Proof.
  intros u rnd cse sz cs st Hs H a b Ha Hb E Hc. apply same_normal; auto. rewrite !(reached_config _ _ _ _ _ _ _ H). cbv zeta.
  assert (K : nfd u (if cse then a else uni_casefold u a) = nfd u (if cse then b else uni_casefold u b)).
  { destruct cse; [exact E|]. destruct Hc as [Hc|Hc]; [discriminate|]. rewrite (nfd_casefold u a), (nfd_casefold u b), E; auto. rewrite <- E. exact Hc. }
  unfold normalize_nfc. rewrite K. reflexivity.
Qed.
Print Assumptions wordset_canonical.

(** A set and its history, for the cases. *)
Definition uni_set (case_sensitive : bool) (f : str -> str) (words : list str) : wordset :=
  match ws_init (PBool case_sensitive) (as_normalizer f) (SInt 2) with
  | Ok st => fst (ws_run exact (uni_casefold excerpt) st (map (fun w => (ord0, CAdd (PStr w))) words))
  | Err _ => ws_fresh true [2]%Z
  end.

Lemma uni_set_reached c f words : ws_reached exact (uni_casefold excerpt) c (as_normalizer f) (SInt 2) (map (fun w => CAdd (PStr w)) words) (uni_set c f words).
Proof.
  unfold uni_set. destruct (ws_init (PBool c) (as_normalizer f) (SInt 2)) as [st|e] eqn:E; [|exfalso; revert E; vm_compute; congruence].
  exists st, (map (fun w => (ord0, CAdd (PStr w))) words). split; [exact E|]. split; [|split; [|reflexivity]].
  - apply Forall_forall. intros x I. apply in_map_iff in I. destruct I as (w & <- & _). apply ord0_fair.
  - rewrite map_map. reflexivity.
Qed.

(** "cafe" with an acute, added as one character, asked for as two, or with a
    dot below as well, in capitals. *)
Example wordset_marks_case :
  let st := uni_set false (normalize_nfd_strip_marks excerpt) [w_ "caf" ++ eacute] in
  ws_iter st = [w_ "caf" ++ eacute] /\
  ws_contains (uni_casefold excerpt) st (PStr (w_ "cafe")) = Ok true /\
  ws_contains (uni_casefold excerpt) st (PStr (w_ "cafE" ++ [0x301; 0x323])) = Ok true /\
  ignored excerpt false 0x301 = true /\ ignored excerpt false 0x345 = false /\ ignored excerpt true 0x345 = true.
Proof. vm_compute. repeat split; reflexivity. Qed.
Example wordset_canonical_case :
  let st := uni_set false (normalize_nfc excerpt) [w_ "caf" ++ eacute] in
  nfd excerpt (w_ "caf" ++ eacute) = nfd excerpt (w_ "cafe" ++ [0x301]) /\ w_ "caf" ++ eacute <> w_ "cafe" ++ [0x301] /\
  ws_contains (uni_casefold excerpt) st (PStr (w_ "cafe" ++ [0x301])) = Ok true /\
  ws_contains (uni_casefold excerpt) st (PStr (w_ "cafE" ++ [0x301])) = Ok true /\
  ws_contains (uni_casefold excerpt) st (PStr (w_ "cafe")) = Ok false.
Proof. cbv zeta. repeat split; try (vm_compute; reflexivity). discriminate. Qed.

(** The iota subscript is a mark, but casefolding makes a letter of it: a set
    that ignores marks and case tells alpha from alpha with a subscript. *)
Theorem wordset_ignores_marks_refuted : exists a b st,
  ws_reached exact (uni_casefold excerpt) false (as_normalizer (normalize_nfd_strip_marks excerpt)) (SInt 2) [CAdd (PStr a)] st /\
  normalize_nfd_strip_marks excerpt a = normalize_nfd_strip_marks excerpt b /\
  filter (fun c => negb (mark excerpt c)) a = filter (fun c => negb (mark excerpt c)) b /\
  ws_contains (uni_casefold excerpt) st (PStr b) = Ok false.
Proof.
  exists [0x3B1], [0x3B1; 0x345], (uni_set false (normalize_nfd_strip_marks excerpt) [[0x3B1]]).
  split; [exact (uni_set_reached false _ [[0x3B1]])|]. vm_compute. repeat split; reflexivity.
Qed.
Print Assumptions wordset_ignores_marks_refuted.

(** With the default normalizer, case ignored: canonically equivalent words
    that the set tells apart. *)
Theorem wordset_canonical_refuted : exists a b st,
  ws_reached exact (uni_casefold excerpt) false (as_normalizer (normalize_nfc excerpt)) (SInt 2) [CAdd (PStr a)] st /\
  nfd excerpt a = nfd excerpt b /\ normalize_nfc excerpt a = normalize_nfc excerpt b /\
  ws_contains (uni_casefold excerpt) st (PStr b) = Ok false.
Proof.
  exists [0x1FB4], [0x3B1; 0x345; 0x301], (uni_set false (normalize_nfc excerpt) [[0x1FB4]]).
  split; [exact (uni_set_reached false _ [[0x1FB4]])|]. vm_compute. repeat split; reflexivity.
Qed.
Print Assumptions wordset_canonical_refuted.

(** With NFKC, case ignored: the trade mark sign is "TM" by NFKC, but a set
    holding "TM" does not contain it, while it contains "tm"; a set that does
    not ignore case contains it. *)
Theorem wordset_compatibility_refuted : exists a b c st st',
  ws_reached exact (uni_casefold excerpt) false (as_normalizer (normalize_nfkc excerpt)) (SInt 2) [CAdd (PStr a)] st /\
  ws_reached exact (uni_casefold excerpt) true (as_normalizer (normalize_nfkc excerpt)) (SInt 2) [CAdd (PStr a)] st' /\
  normalize_nfkc excerpt b = a /\ normalize_nfkc excerpt a = a /\
  ws_contains (uni_casefold excerpt) st (PStr b) = Ok false /\ ws_contains (uni_casefold excerpt) st (PStr c) = Ok true /\ c = uni_casefold excerpt a /\
  ws_contains (uni_casefold excerpt) st' (PStr b) = Ok true.
Proof.
  exists (w_ "TM"), [0x2122], (w_ "tm"), (uni_set false (normalize_nfkc excerpt) [w_ "TM"]), (uni_set true (normalize_nfkc excerpt) [w_ "TM"]).
  split; [exact (uni_set_reached false _ [w_ "TM"])|]. split; [exact (uni_set_reached true _ [w_ "TM"])|]. vm_compute. repeat split; reflexivity.
Qed.
Print Assumptions wordset_compatibility_refuted.
