(** Theorems about [levenshtein_lookup] and [damerau_levenshtein_lookup] of
    experiments/find_replace_trie.py: C42, C56. *)
From Coq Require Import ZArith NArith QArith Qcanon List Bool Lia String.
From Verif Require Import Num Py PyDict ListAux TrieSpec TrieModel TrieProofs EditSpec EditProofs EditModel EditDp LookupModel LookupProofs
  NmdSpec IndexModel Props_Index Props_Trie Props_Find Props_Edit Ex.
Import ListNotations.
Open Scope string_scope.
Open Scope list_scope.
Open Scope Qc_scope.

(** The costs the caller gives. *)
Definition given (ins del sub trans : Qc) : costs := {| insertion := ins; deletion := del; substitution := sub; transposition := Some trans |}.

Section Theorems.
Context {T V K : Type} `{EqDec T}.
Variable tokenizer : K -> list T.
Variable detokenizer : list T -> K.

Lemma given_sane ins del sub trans : 0 <= ins -> 0 <= del -> 0 <= sub -> 0 <= trans -> sane (given ins del sub trans).
Proof. intros. constructor; auto. intros t [= <-]. auto. Qed.

(** C42 The keys that can be made from the word at a cost of at most [distance],
    in the order of [items()], each once: if a transposition costs at least as
    much as an insertion or a substitution. *)
Theorem lookup_exact : forall (t : trie T V) m ins del sub trans word distance,
  reached tokenizer detokenizer t -> answers tokenizer t m ->
  0 <= ins -> 0 <= del -> 0 <= sub -> 0 <= trans -> ins <= trans \/ sub <= trans -> word <> [] -> 0 <= distance ->
  exists l chosen, items detokenizer t = Ok (map (fun kv => (detokenizer (fst kv), snd kv)) l) /\
    let ks := map fst (filter chosen l) in
    levenshtein_lookup detokenizer ins del sub trans true t word distance = Ok (map detokenizer ks) /\ NoDup ks /\
    forall k, In k ks <-> k <> [] /\ m k <> None /\ within (given ins del sub trans) word k distance.
Proof.
  intros t m ins del sub trans word distance Rt At Pi Pd Ps Pt B N L. pose proof (given_sane _ _ _ _ Pi Pd Ps Pt) as P.
  pose proof (reached_good _ _ t Rt) as G. pose proof (g_wf _ _ G) as W.
  exists (paths (root t)), (near distance (dist (given ins del sub trans) word)). split; [apply (items_ok tokenizer); auto|]. cbn zeta.
  split; [apply lookup_ok; auto|]. split.
  - pose proof (paths_nodup _ W) as D. revert D. generalize (paths (root t)). clear. intros l.
    induction l as [|a l IH]; cbn [map filter]; intros D; auto. inversion D; subst. destruct (near _ _ a); auto. cbn [map]. constructor; auto.
    intros I. apply H2. apply in_map_iff in I. destruct I as (b & E & I). apply filter_In in I. rewrite <- E. apply in_map. tauto.
  - intros k. rewrite (answers_look tokenizer detokenizer t m Rt At k). rewrite (best_within _ _ _ _ distance (dist_best (given ins del sub trans) word k P)). rewrite in_map_iff. split.
    + intros ([k' v] & <- & I). apply filter_In in I. destruct I as [I Ln]. apply in_paths in I; auto. destruct I as [Nk E]. cbn [fst]. split; auto. split; [congruence|].
      unfold near in Ln. apply qleb_le in Ln. exact Ln.
    + intros (Nk & E & Lk). destruct (look k (root t)) as [v|] eqn:Ek; [|congruence]. exists (k, v). split; auto. apply filter_In. split; [apply in_paths; auto|].
      unfold near. apply qleb_le. exact Lk.
Qed.

(** C56 Both lookups give the same answer, for all costs and all errors. *)
Theorem lookups_agree : forall (t : trie T V) ins del sub trans char_tokenizer word distance, 0 <= trans ->
  damerau_levenshtein_lookup detokenizer ins del sub trans char_tokenizer t word distance =
  levenshtein_lookup detokenizer ins del sub trans char_tokenizer t word distance.
Proof. intros. apply agree; auto. Qed.

(** What is refused. *)
Theorem lookup_errors : forall (t : trie T V) ins del sub trans char_tokenizer word distance,
  char_tokenizer = false \/ word = [] \/ distance < 0 \/ ins < 0 \/ del < 0 \/ sub < 0 ->
  levenshtein_lookup detokenizer ins del sub trans char_tokenizer t word distance = Err AssertionError /\
  damerau_levenshtein_lookup detokenizer ins del sub trans char_tokenizer t word distance = Err AssertionError.
Proof.
  intros t ins del sub trans b word d C. assert (E : LookupModel.lookup_checks ins del sub b word d = Err AssertionError).
  { unfold LookupModel.lookup_checks, guard. destruct b; cbn [negb bind]; auto. destruct (qltb d 0) eqn:E0; cbn [bind]; auto. destruct word; cbn [bind]; auto.
    destruct (qltb ins 0) eqn:E1; cbn [bind]; auto. destruct (qltb del 0) eqn:E2; cbn [bind]; auto. destruct (qltb sub 0) eqn:E3; cbn [bind]; auto.
    destruct C as [C|[C|[C|[C|[C|C]]]]]; try discriminate; apply qltb_lt in C; congruence. }
  unfold levenshtein_lookup, damerau_levenshtein_lookup. rewrite E. auto.
Qed.
End Theorems.
Print Assumptions lookup_exact.
Print Assumptions lookups_agree.
Print Assumptions lookup_errors.

(** ** Strings *)
Section Map.
Context {A B : Type} (f : A -> B).
Hypothesis inj : forall a b, f a = f b -> a = b.

Lemma al_map c u v k : al c u v k -> al c (map f u) (map f v) k.
Proof. induction 1; rewrite ?map_app; cbn [map]; econstructor; eauto. Qed.

Lemma snoc_map (l : list A) m y : map f l = m ++ [y] -> exists l0 x, l = l0 ++ [x] /\ m = map f l0 /\ y = f x.
Proof.
  intros E. destruct l as [|a l'] using rev_ind; [destruct m; discriminate|]. rewrite map_app in E. apply snoc_inv in E. destruct E as [<- <-]. eauto.
Qed.

Lemma map_al c u' v' k : al c u' v' k -> forall u v, u' = map f u -> v' = map f v -> al c u v k.
Proof.
  induction 1 as [|u' v' k x H IH|u' v' k x H IH|u' v' k x H IH|u' v' k x y H IH|u' v' k x y t Et H IH]; intros u v Eu Ev.
  - destruct u, v; try discriminate. constructor.
  - symmetry in Eu, Ev. apply snoc_map in Eu, Ev. destruct Eu as (u0 & a & -> & -> & ->), Ev as (v0 & b & -> & -> & E). apply inj in E. subst. constructor. auto.
  - symmetry in Ev. apply snoc_map in Ev. destruct Ev as (v0 & b & -> & -> & ->). constructor. auto.
  - symmetry in Eu. apply snoc_map in Eu. destruct Eu as (u0 & a & -> & -> & ->). constructor. auto.
  - symmetry in Eu, Ev. apply snoc_map in Eu, Ev. destruct Eu as (u0 & a & -> & -> & ->), Ev as (v0 & b & -> & -> & ->). constructor. auto.
  - change [x; y] with ([x] ++ [y]) in Eu. change [y; x] with ([y] ++ [x]) in Ev. rewrite app_assoc in Eu, Ev. symmetry in Eu, Ev. apply snoc_map in Eu, Ev.
    destruct Eu as (u0 & a & -> & Eu & ->), Ev as (v0 & b & -> & Ev & ->). symmetry in Eu, Ev. apply snoc_map in Eu, Ev.
    destruct Eu as (u1 & a' & -> & -> & E1), Ev as (v1 & b' & -> & -> & E2). apply inj in E1, E2. subst. rewrite <- !app_assoc. cbn [app]. apply al_swap; auto.
Qed.

Lemma dist_map `{EqDec A} `{EqDec B} c u v : sane c -> dist c (map f u) (map f v) = dist c u v.
Proof.
  intros P. apply dist_eq; auto. destruct (dist_best c u v P) as [A1 M]. split; [apply al_map; auto|]. intros k' A2. apply M. eapply map_al; eauto.
Qed.
End Map.

Lemma chars_inj s s' : chars s = chars s' -> s = s'.
Proof. revert s'; induction s as [|a s IH]; intros [|b s'] E; try discriminate; auto. cbn in E. injection E as -> E. f_equal. auto. Qed.
Lemma join_chars s : join (chars s) = s.
Proof. unfold join, chars. induction s as [|a s IH]; cbn; auto. f_equal. exact IH. Qed.
Lemma dist_chars c s s' : sane c -> dist c (chars s) (chars s') = dist c s s'.
Proof. intros P. unfold chars. apply dist_map; auto. intros a b [= E]. auto. Qed.

(** A trie of strings, whatever has been done to it; all costs. *)
Theorem string_lookup_exact : forall (V : Type) (os : list (op str V str)) ins del sub trans word distance,
  0 <= ins -> 0 <= del -> 0 <= sub -> 0 <= trans -> ins <= trans \/ sub <= trans -> word <> [] -> 0 <= distance ->
  let t := fst (run chars join new_trie os) in
  exists l, levenshtein_lookup join ins del sub trans true t (chars word) distance = Ok l /\ NoDup l /\
    forall s, In s l <-> s <> [] /\ contains chars t s = true /\ within (given ins del sub trans) word s distance.
Proof.
  intros V os ins del sub trans word distance Pi Pd Ps Pt B N L t. pose proof (given_sane _ _ _ _ Pi Pd Ps Pt) as P.
  assert (R : reached chars join t) by (exists os; split; [left; apply chars_join|reflexivity]). pose proof (reached_answers chars join t R) as A.
  destruct (lookup_exact chars join t _ ins del sub trans (chars word) distance R A Pi Pd Ps Pt B) as (l & ch & _ & E & D & Hk); auto.
  { destruct word; [congruence|discriminate]. }
  exists (map join (map fst (filter ch l))). split; [exact E|]. clear E.
  assert (Ck : forall k, In k (map fst (filter ch l)) -> exists s, k = chars s).
  { intros k I. apply Hk in I. destruct I as (_ & I & _). destruct A as [_ A2]. apply (A2 k I). }
  assert (Wi : forall s, within (given ins del sub trans) (chars word) (chars s) distance <-> within (given ins del sub trans) word s distance).
  { intros s. rewrite (best_within _ _ _ _ distance (dist_best _ word s P)), (best_within _ _ _ _ distance (dist_best _ (chars word) (chars s) P)), dist_chars by auto. reflexivity. }
  split.
  - revert D Ck. generalize (map fst (filter ch l)). clear. intros ks D C. induction D as [|k ks N D IH]; cbn [map]; constructor.
    + intros I. apply in_map_iff in I. destruct I as (k' & E & I). destruct (C k) as (s & ->); [simpl; auto|]. destruct (C k') as (s' & ->); [simpl; auto|].
      rewrite !join_chars in E. subst. auto.
    + apply IH. intros k' I. apply C. simpl; auto.
  - intros s. rewrite in_map_iff. split.
    + intros (k & <- & I). destruct (Ck _ I) as (s & ->). rewrite join_chars. apply Hk in I. destruct I as (Nk & Lk & W). split; [intros ->; apply Nk; reflexivity|].
      split; [|apply Wi; auto]. unfold contains. unfold look in Lk. destruct (walk (chars s) (root t)) as [h|]; [|congruence]. destruct (value h); congruence.
    + intros (Ns & C & W). exists (chars s). split; [apply join_chars|]. apply Hk. split; [destruct s; [congruence|discriminate]|]. split; [|apply Wi; auto].
      unfold contains in C. unfold look. destruct (walk (chars s) (root t)) as [h|]; [|discriminate]. destruct (value h); [discriminate|]. discriminate.
Qed.
Print Assumptions string_lookup_exact.

(** With the default costs: the keys within edit distance [k]. *)
Theorem default_lookup : forall (V : Type) (os : list (op str V str)) word k, word <> [] -> (0 <= k)%Z ->
  let t := fst (run chars join new_trie os) in
  exists l, levenshtein_lookup join 1 1 1 (qz 2) true t (chars word) (qz k) = Ok l /\
    damerau_levenshtein_lookup join 1 1 1 (qz 2) true t (chars word) (qz k) = Ok l /\ NoDup l /\
    forall s, In s l <-> s <> [] /\ contains chars t s = true /\ exists e, edit_distance word s = Ok e /\ (e <= k)%Z.
Proof.
  intros V os word k N L t. assert (P2 : 1 + 1 <= qz 2) by (intros X; discriminate). assert (P1 : 0 <= 1) by (intros X; discriminate). assert (P0 : 0 <= qz 2) by (intros X; discriminate).
  assert (P3 : 1 <= qz 2) by (intros X; discriminate).
  rewrite lookups_agree by auto.
  assert (Lk : 0 <= qz k) by (change 0 with (qz 0); rewrite <- qz_le; exact L).
  destruct (string_lookup_exact V os 1 1 1 (qz 2) word (qz k) P1 P1 P1 P0 (or_introl P3) N Lk) as (l & E & D & Hs).
  exists l. split; [exact E|]. split; [exact E|]. split; auto. intros s. rewrite Hs. apply and_iff_compat_l, and_iff_compat_l.
  rewrite edit_distance_ok. rewrite (best_within _ _ _ (dist unit_costs word s)).
  - rewrite zdist_qz by auto. rewrite <- qz_le. split; [intros X; eauto|]. intros (e & [= <-] & X). exact X.
  - apply best_no_swap; [intros ? E2; injection E2 as <-; exact P2|].
    change (no_swap (given 1 1 1 (qz 2))) with unit_costs. apply dist_best, sane_unit.
Qed.
Print Assumptions default_lookup.

(** With [transposition_cost=1]: the keys within [damerau_levenshtein_distance] [k]. *)
Theorem unit_transposition_lookup : forall (V : Type) (os : list (op str V str)) word k, word <> [] -> (0 <= k)%Z ->
  let t := fst (run chars join new_trie os) in
  exists l, damerau_levenshtein_lookup join 1 1 1 1 true t (chars word) (qz k) = Ok l /\ NoDup l /\
    forall s, In s l <-> s <> [] /\ contains chars t s = true /\ exists e, damerau_levenshtein_distance word s = Ok e /\ (e <= k)%Z.
Proof.
  intros V os word k N L t. assert (P1 : 0 <= 1) by (intros X; discriminate). assert (P3 : 1 <= 1) by apply Qcle_refl.
  rewrite lookups_agree by auto. assert (Lk : 0 <= qz k) by (change 0 with (qz 0); rewrite <- qz_le; exact L).
  destruct (string_lookup_exact V os 1 1 1 1 word (qz k) P1 P1 P1 P1 (or_introl P3) N Lk) as (l & E & D & Hs).
  exists l. split; [exact E|]. split; auto. intros s. rewrite Hs. apply and_iff_compat_l, and_iff_compat_l.
  rewrite damerau_ok. rewrite (best_within _ _ _ (dist unit_costs_t word s)).
  - rewrite zdist_qz by auto. rewrite <- qz_le. split; [intros X; eauto|]. intros (e & [= <-] & X). exact X.
  - apply (dist_best (given 1 1 1 1)), sane_unit_t.
Qed.
Print Assumptions unit_transposition_lookup.

(** ** Cases *)
Definition near_words : list (op str str str) :=
  [SetItem (w_ "abc") (w_ "1"); SetItem (w_ "acb") (w_ "2"); SetItem (w_ "ab") (w_ "3"); SetItem (w_ "abcd") (w_ "4"); SetItem (w_ "xyz") (w_ "5"); SetItem (w_ "bca") (w_ "6"); Pop (Some (w_ "ab")); SetItem (w_ "c") (w_ "7")].
Definition near_trie : trie str str := fst (run chars join new_trie near_words).

Example lookup_case : reached chars join near_trie /\ answers chars near_trie (fun ts => look ts (root near_trie)) /\
  levenshtein_lookup join 1 1 1 (qz 2) true near_trie (chars (w_ "abc")) (qz 1) = Ok [w_ "abc"; w_ "abcd"] /\
  levenshtein_lookup join 1 1 1 (qz 2) true near_trie (chars (w_ "abc")) (qz 2) = Ok [w_ "c"; w_ "bca"; w_ "acb"; w_ "abc"; w_ "abcd"] /\
  levenshtein_lookup join 1 1 1 1 true near_trie (chars (w_ "abc")) (qz 1) = Ok [w_ "acb"; w_ "abc"; w_ "abcd"] /\
  levenshtein_lookup join (qz 3) (qz 2) 1 1 true near_trie (chars (w_ "abc")) (qz 4) = Ok [w_ "c"; w_ "bca"; w_ "xyz"; w_ "acb"; w_ "abc"; w_ "abcd"].
Proof.
  assert (R : reached chars join near_trie) by (exists near_words; split; [left; apply chars_join|reflexivity]).
  split; [exact R|]. split; [apply (reached_answers chars join); exact R|]. vm_compute. repeat split.
Qed.

(** A cheap transposition: its key is cut off before the second letter. *)
Theorem cheap_transposition_refuted : exists (os : list (op str str str)) word s half,
  let t := fst (run chars join new_trie os) in
  0 < half /\ within (given 1 1 1 half) word s half /\ contains chars t s = true /\ s <> [] /\
  levenshtein_lookup join 1 1 1 half true t (chars word) half = Ok [].
Proof.
  exists [SetItem (w_ "ba") (w_ "x")], (w_ "ab"), (w_ "ba"), (Q2Qc (1 # 2)). split; [reflexivity|]. split.
  - exists [Transpose 97%N 98%N]. split; [split; [repeat constructor; discriminate|split; reflexivity]|]. intros X; discriminate.
  - split; [vm_compute; reflexivity|]. split; [discriminate|]. vm_compute. reflexivity.
Qed.
Print Assumptions cheap_transposition_refuted.

(** [damerau_levenshtein_lookup] with its default costs misses a key whose
    [damerau_levenshtein_distance] is small enough. *)
Theorem damerau_lookup_default_refuted : exists (os : list (op str str str)) word s,
  let t := fst (run chars join new_trie os) in
  damerau_levenshtein_distance word s = Ok 1%Z /\ contains chars t s = true /\
  damerau_levenshtein_lookup join 1 1 1 (qz 2) true t (chars word) (qz 1) = Ok [].
Proof. exists [SetItem (w_ "ba") (w_ "x")], (w_ "ab"), (w_ "ba"). vm_compute. auto. Qed.
Print Assumptions damerau_lookup_default_refuted.
