(** The ways to find the words within an edit distance of a query: the trie of
    experiments/find_replace_trie.py and, from experiments/automata.py, the
    BK-tree, the automaton and comparing with every word.  Property C122. *)
From Coq Require Import ZArith NArith QArith Qcanon List Bool Lia Permutation Sorted String.
From Verif Require Import Num Py PyDict ListAux TrieSpec TrieModel TrieProofs EditSpec EditProofs EditModel EditDp EditBk LookupModel LookupProofs
  NmdSpec IndexModel Props_Index Props_Trie Props_Find Props_Edit Props_Lookup AutoModel AutoProofs AutoLev AutoNext Props_Auto Ex.
Import ListNotations.
Open Scope string_scope.
Open Scope list_scope.
Open Scope Z_scope.

Lemma near_least (q w : str) k : (exists n, in_steps one_edit n q w /\ Z.of_nat n <= k) <-> exists e, edit_distance q w = Ok e /\ e <= k.
Proof.
  destruct (edit_distance_least q w) as (n & E & S & M). split.
  - intros (m & Sm & L). exists (Z.of_nat n). split; auto. apply M in Sm. lia.
  - intros (e & E' & L). assert (e = Z.of_nat n) by congruence. subst. exists n. auto.
Qed.

Lemma near_least' (q w : str) k : (exists n, in_steps one_edit n w q /\ Z.of_nat n <= k) <-> exists e, levenshtein w q = Ok e /\ e <= k.
Proof.
  destruct (levenshtein_least w q) as (n & E & S & M). split.
  - intros (m & Sm & L). exists (Z.of_nat n). split; auto. apply M in Sm. lia.
  - intros (e & E' & L). assert (e = Z.of_nat n) by congruence. subst. exists n. auto.
Qed.

(** Whatever the history of the trie, the order in which the words were put
    into the BK-tree and the order in which sets are gone through: all find the
    same words, those whose distance by [edit_distance] is at most [k]. *)
Theorem near_searches_agree : forall (V : Type) (os : list (op str V str)) (root : str) rest entries arrange query k,
  rearranges arrange -> query <> [] -> 0 <= k ->
  let t := fst (run chars join new_trie os) in
  (forall w, contains chars t w = true <-> In w entries) -> (forall w, w = root \/ In w rest <-> In w entries) -> ~ In [] entries ->
  StronglySorted (fun a b => str_leb a b = true) entries -> (forall w c, In w entries -> In c w -> (c < 1114111)%N) ->
  exists tree by_trie by_bk by_automaton bound,
    levenshtein_lookup join 1 1 1 (qz 2) true t (chars query) (qz k) = Ok by_trie /\
    bk_build (bk_new root) rest = Ok tree /\ bk_search tree query k = Ok by_bk /\
    (forall fuel, (bound <= fuel)%nat -> find_all_matches (matcher entries) arrange fuel query k 0%nat = Ok by_automaton) /\
    forall w, let found := In w entries /\ exists e, levenshtein w query = Ok e /\ e <= k in
      (In w by_trie <-> found) /\ (In w by_bk <-> found) /\ (In w by_automaton <-> found).
Proof.
  intros V os root rest entries arrange query k Ar Hq Hk t Ht Hb He So Lc.
  destruct (default_lookup V os query k Hq Hk) as (L & E1 & _ & _ & H1).
  destruct (bk_search_exact root rest query k) as (tree & B & E2 & E3 & H2).
  destruct (find_all_matches_exact arrange query k entries Ar So Lc) as (bound & M & E4 & H3 & _).
  exists tree, L, B, M, bound. split; [exact E1|]. split; [exact E2|]. split; [exact E3|]. split; [exact E4|]. intros w found.
  assert (Ne : In w entries -> w <> []) by (intros I ->; auto).
  assert (Ef : (exists e, edit_distance query w = Ok e /\ e <= k) <-> exists e, levenshtein w query = Ok e /\ e <= k).
  { rewrite <- near_least, <- near_least'. split; intros (n & Sn & L0); exists n; (split; [apply steps_sym; exact Sn|exact L0]). }
  split; [|split].
  - rewrite H1. fold t. rewrite Ht. unfold found. rewrite Ef. tauto.
  - rewrite H2, Hb. unfold found. rewrite near_least'. tauto.
  - rewrite H3. unfold near. rewrite near_least. unfold found. rewrite Ef. tauto.
Qed.
Print Assumptions near_searches_agree.

(** The empty word is found by the BK-tree only, though it is within the
    distance. *)
Theorem near_searches_empty_refuted : exists query k, levenshtein [] query = Ok k /\
  exists tree, bk_build (bk_new (w_ "cat")) [[]] = Ok tree /\ bk_search tree query k = Ok [[]] /\
  levenshtein_lookup join 1 1 1 (qz 2) true (fst (run chars join new_trie [SetItem (w_ "cat") (w_ "1"); SetItem [] (w_ "2")])) (chars query) (qz k) = Ok [] /\
  find_all_matches (matcher [[]; w_ "cat"]) as_is 100 query k 0%nat = Ok [].
Proof.
  exists (w_ "a"), 1. split; [vm_compute; reflexivity|]. eexists. split; [vm_compute; reflexivity|]. split; [vm_compute; reflexivity|].
  split; vm_compute; reflexivity.
Qed.
Print Assumptions near_searches_empty_refuted.

(** Five words and their history in the trie. *)
Definition near_entries : list str := map w_ ["bat"; "cat"; "cats"; "coat"; "dog"].
Definition near_history : list (op str str str) :=
  [SetItem (w_ "dog") (w_ "1"); SetItem (w_ "cats") (w_ "2"); SetItem (w_ "hat") (w_ "3"); SetItem (w_ "bat") (w_ "4"); SetItem (w_ "cat") (w_ "5");
   Pop (Some (w_ "hat")); SetItem (w_ "coat") (w_ "6")].
Example near_case :
  let t := fst (run chars join new_trie near_history) in
  (forall w, In w near_entries -> contains chars t w = true) /\ contains chars t (w_ "hat") = false /\
  StronglySorted (fun a b => str_leb a b = true) near_entries /\
  levenshtein_lookup join 1 1 1 (qz 2) true t (chars (w_ "cat")) (qz 1) = Ok (map w_ ["bat"; "coat"; "cat"; "cats"]) /\
  (exists tree, bk_build (bk_new (w_ "coat")) (map w_ ["dog"; "cat"; "bat"; "cats"]) = Ok tree /\ bk_search tree (w_ "cat") 1 = Ok (map w_ ["coat"; "cat"; "bat"; "cats"])) /\
  find_all_matches (matcher near_entries) as_is 100 (w_ "cat") 1 0%nat = Ok (map w_ ["bat"; "cat"; "cats"; "coat"]).
Proof.
  cbv zeta. split; [intros w I; repeat (destruct I as [<-|I]; [vm_compute; reflexivity|]); destruct I|]. split; [vm_compute; reflexivity|].
  split; [repeat constructor|]. split; [vm_compute; reflexivity|]. split; [eexists; split; vm_compute; reflexivity|]. vm_compute. reflexivity.
Qed.
