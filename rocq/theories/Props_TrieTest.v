(** Property C112: the tests of the trie. *)
From Coq Require Import ZArith NArith List Bool String Lia Permutation.
From Verif Require Import Py PyDict NmdSpec IndexModel TrieSpec TrieModel TrieSliceModel TrieProofs Props_Trie Props_Find Props_TrieSlice Ex.
From Verif Require Import Props_Index RegexSpec RegexModel RegexOrder Props_Regex TrieTestModel.
Import ListNotations.
Open Scope string_scope.
Open Scope list_scope.
Open Scope N_scope.

(** [a] occurs in [b]. *)
Definition inside_of (a b : str) : Prop := exists x y, b = x ++ a ++ y.

(** Words that a search cannot confuse: different from each other, not empty,
    none occurring in another. *)
Definition independent (words : list str) : Prop :=
  NoDup words /\ (forall w, In w words -> w <> []) /\ (forall a b, In a words -> In b words -> inside_of a b -> a = b).

Section Fuzz.
Variables is_space is_word : N -> bool.
Variable lower : N -> str.
Hypothesis space_is_space : is_space 32 = true.

(** ** Searching among independent words that are separated by spaces *)
Section Search.
Variables words chosen : list str.
Hypothesis ind : independent words.
Hypothesis no_space : forall w, In w words -> ~ In 32 w.
Hypothesis sub : incl chosen words.
Variable M : str -> str -> str -> Prop.
Hypothesis M_iff : forall b w r, M b w r <-> In w chosen.

(** A chosen word at the start of [s], followed by a space or nothing, lies
    within [s]. *)
Lemma prefix_inside w s rest r' : In w chosen -> ~ In 32 s -> (rest = [] \/ exists rest', rest = 32 :: rest') ->
  w ++ r' = s ++ rest -> exists y, s = w ++ y.
Proof.
  intros I Ns Hr E. pose proof (no_space w (sub w I)) as Nw. clear I. revert s Ns E. induction w as [|c w IH]; intros s Ns E; [exists s; reflexivity|].
  destruct s as [|d s].
  - cbn [app] in E. destruct Hr as [->|(rest' & ->)]; [discriminate|]. injection E as -> _. destruct Nw. left. reflexivity.
  - cbn [app] in E. injection E as -> E. destruct (IH (fun I => Nw (or_intror I)) s (fun I => Ns (or_intror I)) E) as (y & ->). exists y. reflexivity.
Qed.

Lemma found_word p rest b l : In p words -> (rest = [] \/ exists rest', rest = 32 :: rest') -> found M (b ++ p) rest l ->
  exists l', found M b (p ++ rest) l' /\ map snd l' = (if mem chosen p then [p] else []) ++ map snd l.
Proof.
  intros I Hr F. destruct ind as (_ & Ne & Inf). unfold mem. destruct (in_dec (list_eq_dec N.eq_dec) p chosen) as [C|C].
  - eexists. split; [apply found_match; [apply Ne; exact I|apply M_iff; exact C| |exact F]|reflexivity].
    intros w' r' E Lt Hm. apply M_iff in Hm. destruct (prefix_inside w' p rest r' Hm (no_space p I) Hr E) as (y & ->).
    rewrite app_length in Lt. lia.
  - exists l. split; [|reflexivity].
    assert (G : forall s x, p = x ++ s -> forall b, found M (b ++ s) rest l -> found M b (s ++ rest) l).
    { induction s as [|c s IH]; intros x Ex b0 Fb; [cbn [app]; rewrite app_nil_r in Fb; exact Fb|]. cbn [app]. apply found_skip.
      - intros w r' E Nw Hm. apply M_iff in Hm. change (c :: s ++ rest) with ((c :: s) ++ rest) in E.
        assert (Ns : ~ In 32 (c :: s)) by (intros J; apply (no_space p I); rewrite Ex; apply in_or_app; right; exact J).
        destruct (prefix_inside w (c :: s) rest r' Hm Ns Hr E) as (y & Ey).
        apply C. replace p with w; [exact Hm|]. apply Inf; [apply sub; exact Hm|exact I|]. exists x, y. rewrite Ex, Ey. reflexivity.
      - apply (IH (x ++ [c])); [rewrite Ex, <- app_assoc; reflexivity|]. rewrite <- app_assoc. exact Fb. }
    apply (G p []); [reflexivity|exact F].
Qed.

Lemma found_join ws : incl ws words -> forall b, exists l, found M b (spaced_join ws) l /\ map snd l = filter (mem chosen) ws.
Proof.
  induction ws as [|p ws IH]; intros Sub b; [exists []; split; [constructor|reflexivity]|].
  assert (Ip : In p words) by (apply Sub; left; reflexivity).
  assert (IH' : forall b, exists l, found M b (spaced_join ws) l /\ map snd l = filter (mem chosen) ws) by (apply IH; intros x J; apply Sub; right; exact J).
  clear IH. destruct ws as [|q ws].
  - destruct (found_word p [] b [] Ip (or_introl eq_refl) (found_end M _)) as (l' & F & E).
    rewrite app_nil_r in F. exists l'. split; [exact F|]. rewrite E. cbn [filter]. destruct (mem chosen p); reflexivity.
  - change (spaced_join (p :: q :: ws)) with (p ++ 32 :: spaced_join (q :: ws)).
    destruct (IH' ((b ++ p) ++ [32])) as (l0 & F0 & E0).
    assert (Fr : found M (b ++ p) (32 :: spaced_join (q :: ws)) l0).
    { apply found_skip; [|exact F0]. intros w r' E Nw Hm. apply M_iff in Hm. destruct w as [|c w]; [congruence|]. cbn [app] in E. injection E as -> _.
      apply (no_space _ (sub _ Hm)). left. reflexivity. }
    destruct (found_word p _ b l0 Ip (or_intror (ex_intro _ _ eq_refl)) Fr) as (l' & F & E).
    exists l'. split; [exact F|]. rewrite E, E0. cbn [filter]. destruct (mem chosen p); reflexivity.
Qed.
End Search.

(** Crossing off the members of [l], each once. *)
Lemma cross_off_all l : NoDup l -> forall chosen, incl l chosen ->
  exists rest, foldM cross_off l chosen = Ok rest /\ forall w, In w rest <-> In w chosen /\ ~ In w l.
Proof.
  intros N. induction N as [|p l Np N IH]; intros chosen Sub; [exists chosen; split; [reflexivity|intros w; cbn; tauto]|].
  cbn [foldM]. unfold cross_off at 1, mem. destruct (in_dec (list_eq_dec N.eq_dec) p chosen) as [C|C]; [|destruct C; apply Sub; left; reflexivity].
  cbn [bind]. destruct (IH (List.remove (list_eq_dec N.eq_dec) p chosen)) as (rest & E & H).
  { intros w I. apply in_in_remove; [congruence|]. apply Sub. right. exact I. }
  exists rest. split; [exact E|]. intros w. rewrite H. cbn [In]. split.
  - intros [I Nl]. apply in_remove in I. intuition congruence.
  - intros [I Nl]. split; [apply in_in_remove|]; intuition congruence.
Qed.

(** ** C112 *)

(** One round of the fuzz test passes whatever [random.choice] gives. *)
Theorem fuzz_round_passes : forall words choices o,
  independent words -> (forall w c, In w words -> In c w -> is_space c = false /\ c <> 0xfffd) ->
  choices <> [] -> incl choices words -> fair o ->
  fuzz_round is_space is_word lower words choices o = Ok tt.
Proof.
  intros words choices o Ind Ch Nc Sub [Fo _]. set (chosen := nodup (list_eq_dec N.eq_dec) choices).
  assert (Nd : NoDup chosen) by apply NoDup_nodup.
  assert (In_c : forall w, In w chosen <-> In w choices) by (intros w; apply nodup_In).
  assert (In_o : forall w, In w (o_str o chosen) <-> In w choices).
  { intros w. rewrite <- In_c. split; apply Permutation_in; [|symmetry]; apply Fo. }
  assert (No_space : forall w, In w words -> ~ In 32 w).
  { intros w I J. destruct (Ch w 32 I J) as [E _]. congruence. }
  set (keys := o_str o chosen) in *.
  unfold fuzz_round. fold chosen. fold keys.
  assert (Tk : forall s, char_tokenizer lower false s = chars s) by reflexivity.
  pose proof (fromkeys_reached lower true keys) as Rt. pose proof (fromkeys_answers lower true keys) as At.
  assert (Lk : forall ts, listed lower true keys ts <> None <-> exists w, In w choices /\ ts = chars w).
  { intros ts. rewrite listed_in. split; intros (w & I & ->); exists w; (split; [apply In_o; exact I|reflexivity]). }
  assert (Lc : forall ts c, listed lower true keys ts <> None -> In c (List.concat ts) -> is_space c = false /\ c <> 0xfffd).
  { intros ts c H I. apply Lk in H. destruct H as (w & Iw & ->). rewrite concat_chars in I. apply (Ch w c (Sub w Iw) I). }
  assert (Si : forall ts, listed lower true keys ts <> None -> Forall (fun tk => exists c, tk = [c]) ts).
  { intros ts H. apply Lk in H. destruct H as (w & _ & ->). apply Forall_map. apply Forall_forall. intros c _. exists c. reflexivity. }
  assert (Le0 : listed lower true keys [] = None).
  { destruct (listed lower true keys []) eqn:E; [|reflexivity]. assert (H : listed lower true keys [] <> None) by congruence.
    apply Lk in H. destruct H as (w & I & Ew). destruct w; [|discriminate]. destruct Ind as (_ & Ne & _). destruct (Ne [] (Sub _ I)). reflexivity. }
  assert (Le : trie_len join (trie_of lower keys) = Ok (zlen chosen)).
  { pose proof (reached_good _ _ _ Rt) as G. unfold trie_of. cbn [negb] in *. rewrite (len_spec _ _ _ G).
    rewrite <- (answers_look _ _ _ _ Rt At), Le0.
    f_equal. unfold zlen. f_equal. etransitivity; [symmetry; apply (map_length fst)|]. etransitivity; [|apply (map_length chars)]. apply Permutation_length.
    apply NoDup_Permutation; [apply all_paths_nodup, (g_wf _ _ G)|apply FinFun.Injective_map_NoDup; [|exact Nd]|].
    - intros x y E. rewrite <- (concat_chars x), <- (concat_chars y), E. reflexivity.
    - intros ts. rewrite !in_map_iff. split.
      + intros ([ts' v] & <- & I). apply in_all_paths in I; [|apply (g_wf _ _ G)]. cbn [fst]. rewrite <- (answers_look _ _ _ _ Rt At) in I.
        assert (H : listed lower true keys ts' <> None) by congruence. apply Lk in H. destruct H as (w & Iw & ->). exists w. split; [reflexivity|apply In_c; exact Iw].
      + intros (w & <- & I). apply In_c in I. assert (H : listed lower true keys (chars w) <> None) by (apply Lk; eauto).
        destruct (listed lower true keys (chars w)) as [v|] eqn:Ev; [|congruence]. exists (chars w, v). split; [reflexivity|].
        apply in_all_paths; [apply (g_wf _ _ G)|]. rewrite <- (answers_look _ _ _ _ Rt At). exact Ev. }
  rewrite Le. cbn [bind]. unfold assert_ at 1. rewrite Z.eqb_refl. cbn [bind].
  destruct (to_regex_scans is_space is_word (char_tokenizer lower (negb true)) join fuzz_options _ (listed lower true keys) Rt At) as (p & r & E1 & E2 & F).
  - reflexivity.
  - destruct choices as [|w ws]; [congruence|]. exists (chars w). apply Lk. exists w. split; [left|]; reflexivity.
  - split; [|split].
    + intros ts H. eapply Forall_impl; [|apply (Si ts H)]. intros tk T. left. exact T.
    + intros _ _ ts H I. destruct (Lc ts _ H I) as [_ X]. congruence.
    + intros _. constructor; auto.
      * right. right. intros ts c H I. apply (Lc ts c H I).
      * intros ts a c d b H E Ec. destruct (Lc ts c H) as [X _]; [rewrite E; apply in_or_app; right; left; reflexivity|]. congruence.
      * intros _ ts c H I Ec. destruct (Lc ts c H I) as [X _]. congruence.
  - constructor; auto.
    + intros _ ts c H I Ec. destruct (Lc ts c H I) as [X _]. congruence.
    + intros _ ts H I. destruct (Lc ts _ H I) as [_ X]. congruence.
  - exact Le0.
  - cbn [negb] in E1. unfold trie_of. rewrite E1. cbn [bind]. unfold re_findall. rewrite E2. cbn [bind].
    assert (Oc : forall b w r', occurrence is_space is_word fuzz_options (listed lower true keys) b w r' <-> In w chosen).
    { intros b w r'. unfold occurrence. rewrite In_c. split.
      - intros [(ts & H & Fw) _]. pose proof (Lc ts) as L. apply Lk in H. destruct H as (k & Ik & ->).
        assert (L' : forall c, In c k -> is_space c = false /\ c <> 0xfffd) by (intros c J; apply (Ch k c (Sub k Ik) J)).
        rewrite concat_chars in Fw. replace w with k; [exact Ik|]. clear - Fw L'. induction Fw as [|kc tc k w Ag Fw IH]; [reflexivity|].
        destruct (L' kc (or_introl eq_refl)) as [X Y]. unfold agrees in Ag. rewrite X in Ag. cbn [fuzzy_spaces fuzz_options fffd_any andb] in Ag.
        destruct (N.eqb_spec kc 0xfffd); [contradiction|]. subst tc. f_equal. apply IH. intros c J. apply L'. right. exact J.
      - intros I. split; [|discriminate]. exists (chars w). split; [apply Lk; eauto|]. rewrite concat_chars.
        assert (L' : forall c, In c w -> is_space c = false /\ c <> 0xfffd) by (intros c J; apply (Ch w c (Sub w I) J)).
        clear - L'. induction w as [|c w IH]; [constructor|]. constructor; [|apply IH; intros d J; apply L'; right; exact J].
        destruct (L' c (or_introl eq_refl)) as [X Y]. unfold agrees. rewrite X. cbn [fuzzy_spaces fuzz_options fffd_any andb].
        destruct (N.eqb_spec c 0xfffd); [contradiction|]. reflexivity. }
    assert (Sc : incl chosen words) by (intros w I; apply Sub, In_c, I).
    destruct (found_join words chosen Ind No_space Sc _ Oc words (fun w I => I) []) as (l & Fl & El).
    rewrite (found_unique _ _ _ _ (F (spaced_join words)) _ Fl), El.
    destruct (cross_off_all (filter (mem chosen) words)) with (chosen := chosen) as (rest & Er & Hr).
    + apply NoDup_filter. apply Ind.
    + intros w I. apply filter_In in I. destruct I as [_ I]. unfold mem in I. destruct (in_dec (list_eq_dec N.eq_dec) w chosen); [assumption|discriminate].
    + rewrite Er. cbn [bind]. destruct rest as [|w rest]; [reflexivity|]. exfalso. destruct (proj1 (Hr w) (or_introl eq_refl)) as [I Nf]. apply Nf.
      apply filter_In. split; [apply Sc; exact I|]. unfold mem. destruct (in_dec (list_eq_dec N.eq_dec) w chosen); [reflexivity|contradiction].
Qed.
End Fuzz.

(** ** The word list of the test *)
Fixpoint power (al : str) (n : nat) : list str :=
  match n with O => [[]] | S n => flat_map (fun a => map (cons a) (power al n)) al end.

Lemma in_power al n w : In w (power al n) <-> List.length w = n /\ incl w al.
Proof.
  revert w. induction n as [|n IH]; intros w; cbn [power].
  - split; [intros [<-|[]]; split; [reflexivity|intros x []]|]. intros [L _]. destruct w; [left; reflexivity|discriminate].
  - rewrite in_flat_map. split.
    + intros (a & Ia & I). apply in_map_iff in I. destruct I as (v & <- & I). apply IH in I. destruct I as [L J].
      split; [cbn; congruence|]. intros x [<-|X]; auto.
    + intros [L J]. destruct w as [|a w]; [discriminate|]. exists a. split; [apply J; left; reflexivity|]. apply in_map. apply IH.
      split; [cbn in L; congruence|]. intros x X. apply J. right. exact X.
Qed.

Lemma power_nodup al n : NoDup al -> NoDup (power al n).
Proof.
  intros Na. induction n as [|n IH]; cbn [power]; [repeat constructor; intros []|].
  generalize dependent (power al n). intros W NW. revert Na. generalize al as l. intros l Nl. induction Nl as [|a l Ia Nl IHl]; cbn [flat_map]; [constructor|].
  assert (A : forall x : str, In x (map (cons a) W) -> ~ In x (flat_map (fun a => map (cons a) W) l)).
  { intros x I J. apply in_map_iff in I. destruct I as (v & <- & _). apply in_flat_map in J. destruct J as (b & Ib & J).
    apply in_map_iff in J. destruct J as (u & E & _). injection E as -> _. contradiction. }
  assert (Nm : NoDup (map (cons a) W)) by (apply FinFun.Injective_map_NoDup; [intros x y E; congruence|exact NW]).
  revert A Nm. generalize (map (cons a) W) as X. intros X A Nm. induction Nm as [|x X Ix Nm IHX]; cbn [app]; [exact IHl|].
  constructor; [|apply IHX; intros y Iy; apply A; right; exact Iy]. intros J. apply in_app_or in J. destruct J as [J|J]; [contradiction|].
  apply (A x (or_introl eq_refl) J).
Qed.

Lemma permutations_power : permutations = power letters 4 ++ power punctuation 3.
Proof. unfold permutations. f_equal; vm_compute; reflexivity. Qed.

Lemma inside_length a b : inside_of a b -> List.length a = List.length b -> a = b.
Proof.
  intros (x & y & ->) L. rewrite !app_length in L. destruct x; [|cbn in L; lia]. destruct y; [|cbn in L; lia]. rewrite app_nil_r. reflexivity.
Qed.

Lemma disjoint_alphabets c : In c letters -> In c punctuation -> False.
Proof.
  intros A B. assert (E : forallb (fun c => negb (existsb (N.eqb c) punctuation)) letters = true) by (vm_compute; reflexivity).
  rewrite forallb_forall in E. specialize (E c A). rewrite (proj2 (existsb_exists _ _)) in E; [discriminate|]. exists c. split; [exact B|apply N.eqb_refl].
Qed.

Lemma permutations_independent : independent permutations.
Proof.
  rewrite permutations_power. split; [|split].
  - assert (A : NoDup letters) by (replace letters with (nodup N.eq_dec letters) by (vm_compute; reflexivity); apply NoDup_nodup).
    assert (B : NoDup punctuation) by (replace punctuation with (nodup N.eq_dec punctuation) by (vm_compute; reflexivity); apply NoDup_nodup).
    apply (power_nodup _ 3) in B. apply (power_nodup _ 4) in A.
    assert (D : forall w, In w (power letters 4) -> ~ In w (power punctuation 3)).
    { intros w I J. apply in_power in I, J. destruct I as [L _], J as [L' _]. congruence. }
    revert A B D. generalize (power letters 4) (power punctuation 3). intros X Y Nx Ny D. induction Nx as [|x X Ix Nx IH]; [exact Ny|].
    cbn [app]. constructor; [|apply IH; intros w I; apply D; right; exact I]. intros J. apply in_app_or in J. destruct J as [J|J]; [contradiction|].
    apply (D x (or_introl eq_refl) J).
  - intros w I ->. apply in_app_or in I. destruct I as [I|I]; apply in_power in I; destruct I as [L _]; discriminate.
  - intros a b Ia Ib In_. apply in_app_or in Ia, Ib. destruct Ia as [Ia|Ia], Ib as [Ib|Ib]; apply in_power in Ia, Ib; destruct Ia as [La Ja], Ib as [Lb Jb];
      try (apply inside_length; [exact In_|congruence]); exfalso; destruct In_ as (x & y & ->); destruct a as [|c a]; try discriminate.
    + apply (disjoint_alphabets c); [apply Ja; left; reflexivity|apply Jb; apply in_or_app; right; left; reflexivity].
    + apply (disjoint_alphabets c); [apply Jb; apply in_or_app; right; left; reflexivity|apply Ja; left; reflexivity].
Qed.

(** The fuzz test: every choice of the words, in every order. *)
Theorem fuzz_test_passes : forall is_space is_word lower rounds,
  is_space 32 = true -> (forall c, In c (letters ++ punctuation) -> is_space c = false) ->
  (forall choices o, In (choices, o) rounds -> choices <> [] /\ incl choices permutations /\ fair o) ->
  fuzz_test is_space is_word lower permutations rounds = Ok tt.
Proof.
  intros is_space is_word lower rounds S32 Sn H. unfold fuzz_test. induction rounds as [|[choices o] rounds IH]; [reflexivity|].
  cbn [foldM fst snd]. destruct (H choices o (or_introl eq_refl)) as (A & B & C).
  rewrite fuzz_round_passes; [cbn [bind]; apply IH; intros; apply H; right; assumption|exact S32|apply permutations_independent| |exact A|exact B|exact C].
  intros w c I J. rewrite permutations_power in I.
  assert (K : In c (letters ++ punctuation)).
  { apply in_app_or in I. destruct I as [I|I]; apply in_power in I; destruct I as [_ I]; apply in_or_app; [left|right]; apply I; exact J. }
  split; [apply Sn; exact K|]. intros ->. revert K. vm_compute. intuition discriminate.
Qed.

(** The other tests hold no random numbers: they are runs of the model. *)
Example trie_tests_pass : [test_tuples; test_dict; test_operations ascii_space ascii_word; self_test_end ascii_space ascii_word ascii_lower]
  = [Ok tt; Ok tt; Ok tt; Ok tt].
Proof. vm_compute. reflexivity. Qed.

(** The test that is commented out expects a list that [findall] does not give. *)
Theorem commented_out_test_refuted : forall lower, test_commented_out lower = Err AssertionError.
Proof. intros lower. vm_compute. reflexivity. Qed.

(** Cases that meet the hypotheses. *)
Definition fuzz_choices : list str := [w_ "abca"; [92; 124; 46]; w_ "abca"; w_ "eeee"; [0; 93; 94]].
Example fuzz_case : fuzz_choices <> [] /\ incl fuzz_choices permutations /\
  fuzz_round ascii_space ascii_word ascii_lower (w_ "edcb" :: [92; 92; 124] :: nodup (list_eq_dec N.eq_dec) fuzz_choices) fuzz_choices ord1 = Ok tt.
Proof.
  split; [discriminate|split; [|vm_compute; reflexivity]]. intros w I. rewrite permutations_power.
  assert (E : forallb (fun w => orb ((List.length w =? 4)%nat && forallb (fun c => existsb (N.eqb c) letters) w)
                                ((List.length w =? 3)%nat && forallb (fun c => existsb (N.eqb c) punctuation) w)) fuzz_choices = true) by (vm_compute; reflexivity).
  rewrite forallb_forall in E. specialize (E w I). apply in_or_app.
  assert (Sub : forall al, forallb (fun c => existsb (N.eqb c) al) w = true -> incl w al).
  { intros al F c J. rewrite forallb_forall in F. specialize (F c J). apply existsb_exists in F. destruct F as (d & Id & Ed). apply N.eqb_eq in Ed. subst d. exact Id. }
  apply orb_true_iff in E. destruct E as [E|E]; apply andb_true_iff in E; destruct E as [L F]; apply Nat.eqb_eq in L; [left|right]; apply in_power; auto.
Qed.

(** A word list that is not independent: the test would fail. *)
Example fuzz_dependent : fuzz_round ascii_space ascii_word ascii_lower [w_ "abc"; w_ "b"] [w_ "b"] ord1 = Err AssertionError.
Proof. vm_compute. reflexivity. Qed.

Print Assumptions fuzz_round_passes.
Print Assumptions fuzz_test_passes.
Print Assumptions commented_out_test_refuted.
