(** Theorems about experiments/automata.py.

    The order in which the code goes through a set is arbitrary: [arrange] is any
    function that rearranges lists.  "For enough fuel" means that the loops of
    the code end. *)
From Coq Require Import ZArith NArith List Bool Lia Permutation Sorted String.
From Verif Require Import Py PyDict NmdSpec Ex IndexModel EditSpec EditProofs EditModel EditDp Props_Edit AutoModel AutoProofs AutoLev AutoNext Props_Index.
Import ListNotations.
Local Open Scope string_scope.
Local Open Scope list_scope.
Open Scope nat_scope.

Definition rearranges (arrange : forall A, list A -> list A) : Prop := forall A l, Permutation (arrange A l) l.
Definition as_is (A : Type) (l : list A) : list A := l.
Definition backwards (A : Type) (l : list A) : list A := rev l.
Lemma as_is_ok : rearranges as_is.
Proof. intros A l. apply Permutation_refl. Qed.
Lemma backwards_ok : rearranges backwards.
Proof. intros A l. symmetry. apply Permutation_rev. Qed.

(** ** C46: to_dfa *)
(** The calls that build an automaton, and its language told from the calls. *)
Inductive nfa_call := AddTransition (src : state) (l : label) (dest : state) | AddFinal (q : state).
Definition do_call (n : nfa) (c : nfa_call) : nfa := match c with AddTransition q l d => add_transition n q l d | AddFinal q => add_final_state n q end.
Definition assemble (cs : list nfa_call) : nfa := fold_left do_call cs new_nfa.

Inductive path (cs : list nfa_call) : str -> state -> Prop :=
| path_start : path cs [] (0, 0)%Z
| path_epsilon s q q' : path cs s q -> In (AddTransition q EPSILON q') cs -> path cs s q'
| path_char s c q q' : path cs s q -> In (AddTransition q (Char c) q') cs -> path cs (s ++ [c]) q'
| path_any s c q q' : path cs s q -> In (AddTransition q ANY q') cs -> path cs (s ++ [c]) q'.
Definition language (cs : list nfa_call) (s : str) : Prop := exists q, path cs s q /\ In (AddFinal q) cs.

Lemma assemble_nfa_ok cs : nfa_ok (assemble cs).
Proof. apply nfa_ok_fold; [|apply nfa_ok_new]. intros n [q l d|q] B; cbn [do_call]; auto using nfa_ok_add, nfa_ok_final. Qed.
Lemma assemble_targets cs q l x : In x (targets (assemble cs) q l) <-> In (AddTransition q l x) cs.
Proof.
  unfold assemble. rewrite (targets_fold do_call (fun c => c = AddTransition q l x)).
  - split; [intros [[]|(c & I & ->)]; auto|]. intros I. right. eexists. eauto.
  - intros n [q' l' d|q']; cbn [do_call].
    + rewrite in_targets_add. split; [intros [(-> & -> & ->)|I]; auto|]. intros [I|[= -> -> ->]]; auto.
    + rewrite targets_final. intuition discriminate.
Qed.
Lemma assemble_finals cs q : In q (final_states (assemble cs)) <-> In (AddFinal q) cs.
Proof.
  unfold assemble. rewrite (finals_fold do_call (fun c => c = AddFinal q)).
  - split; [intros [[]|(c & I & ->)]; auto|]. intros I. right. eexists. eauto.
  - intros n [q' l' d|q']; cbn [do_call add_transition add_final_state final_states].
    + intuition discriminate.
    + rewrite in_sadd. split; [intros [->|I]; auto|]. intros [I|[= ->]]; auto.
Qed.
Lemma assemble_reaches cs s q : reaches (assemble cs) s q <-> path cs s q.
Proof.
  split; induction 1; try rewrite assemble_targets in *; [constructor|eapply path_epsilon; eauto|eapply path_char; eauto|eapply path_any; eauto|constructor| | |].
  - eapply reach_epsilon; [eauto|]. apply assemble_targets; auto.
  - eapply reach_char; [eauto|]. apply assemble_targets; auto.
  - eapply reach_any; [eauto|]. apply assemble_targets; auto.
Qed.

(** [state = dfa.start_state; for c in s: state = dfa.next_state(state, c)],
    then [dfa.is_final(state)] *)
Definition dfa_says (d : dfa) (s : str) : bool := is_final d (fold_left (next_state d) s (Some (start_state d))).
Lemma dfa_says_accepts d s : dfa_says d s = true <-> dfa_accepts d s.
Proof.
  unfold dfa_says, dfa_accepts. assert (E : forall q, fold_left (next_state d) s q = drun d q s); [|rewrite E; reflexivity].
  induction s as [|c s IH]; intros q; cbn [fold_left drun]; auto.
Qed.

(** The automaton made accepts the strings of the language, except those that
    lead to exactly the states in which the run started. *)
Theorem to_dfa_language : forall arrange cs, rearranges arrange -> exists bound d,
  (forall fuel, bound <= fuel -> to_dfa arrange fuel (assemble cs) = Ok d) /\
  forall s, dfa_says d s = true <-> language cs s /\ ~ (forall q, path cs s q <-> path cs [] q).
Proof.
  intros arrange cs Ar. destruct (assemble_nfa_ok cs) as [F D]. destruct (to_dfa_ok arrange Ar (assemble cs) D F) as (bound & d & E & _ & _ & _ & A).
  exists bound, d. split; auto. intros s. rewrite dfa_says_accepts, A. unfold nfa_accepts, language. split.
  - intros [(q & R & I) X]. split; [exists q; rewrite <- assemble_reaches, <- assemble_finals; auto|]. intros Y. apply X. intros q'. rewrite !assemble_reaches. apply Y.
  - intros [(q & R & I) X]. split; [exists q; rewrite assemble_reaches, assemble_finals; auto|]. intros Y. apply X. intros q'. rewrite <- !assemble_reaches. apply Y.
Qed.
Print Assumptions to_dfa_language.

(** (0,0) -a-> (1,0) -?-> (0,1), with an epsilon transition (1,0) -> (2,0) *)
Definition three_calls : list nfa_call :=
  [AddTransition (0, 0)%Z (Char 97%N) (1, 0)%Z; AddTransition (1, 0)%Z ANY (0, 1)%Z; AddTransition (1, 0)%Z EPSILON (2, 0)%Z; AddFinal (0, 1)%Z; AddFinal (2, 0)%Z].
Example to_dfa_case : rearranges backwards /\ exists d, to_dfa backwards 20 (assemble three_calls) = Ok d /\ to_dfa as_is 20 (assemble three_calls) = Ok d /\
  map (dfa_says d) [[]; w_ "a"; w_ "ab"; w_ "b"; w_ "abc"] = [false; true; true; false; false] /\
  language three_calls (w_ "ab") /\ ~ (forall q, path three_calls (w_ "ab") q <-> path three_calls [] q).
Proof.
  split; [apply backwards_ok|]. eexists. split; [vm_compute; reflexivity|]. split; [vm_compute; reflexivity|]. split; [vm_compute; reflexivity|]. 
  assert (P : path three_calls (w_ "ab") (0, 1)%Z).
  { apply (path_any three_calls [97%N] 98%N (1, 0)%Z); [apply (path_char three_calls [] 97%N (0, 0)%Z); [constructor|]|]; simpl; auto. }
  split; [exists (0, 1)%Z; split; [exact P|simpl; auto]|]. intros X. apply X in P. clear X.
  assert (Y : forall s q, path three_calls s q -> s = [] -> q = (0, 0)%Z); [|apply Y in P; [discriminate|reflexivity]]. clear P.
  induction 1 as [|s q q' P IH I|s c q q' P IH I|s c q q' P IH I]; intros E; auto; try (destruct s; discriminate).
  specialize (IH E). subst q. simpl in I. intuition discriminate.
Qed.

(** The strings that lead back to the start are lost: the start state is never
    made final. *)
Theorem to_dfa_start_refuted : exists cs s, s <> [] /\ language cs [] /\ language cs s /\
  exists d, (forall fuel, 10 <= fuel -> to_dfa as_is fuel (assemble cs) = Ok d) /\ dfa_says d [] = false /\ dfa_says d s = false.
Proof.
  set (cs := [AddTransition (0, 0)%Z (Char 97%N) (0, 0)%Z; AddFinal (0, 0)%Z]). exists cs, (w_ "a"). split; [discriminate|].
  split; [exists (0, 0)%Z; split; [constructor|simpl; auto]|]. split.
  { exists (0, 0)%Z. split; [|simpl; auto]. apply (path_char cs [] 97%N (0, 0)%Z); [constructor|simpl; auto]. }
  eexists. split; [|split].
  - intros fuel L. do 10 (destruct fuel as [|fuel]; [lia|]). vm_compute. reflexivity.
  - reflexivity.
  - reflexivity.
Qed.
Print Assumptions to_dfa_start_refuted.

(** *** The Levenshtein automaton *)
(** [near word k s]: at most [k] insertions, deletions and substitutions, one
    after the other, turn [word] into [s] (AutoLev.v). *)
Theorem near_edit_distance : forall word k s, near word k s <-> exists dist, edit_distance word s = Ok dist /\ (dist <= k)%Z.
Proof.
  intros word k s. destruct (edit_distance_least word s) as (m & E & H & M). split.
  - intros (m' & H' & L). exists (Z.of_nat m). split; auto. apply M in H'. lia.
  - intros (dist & E' & L). rewrite E in E'. injection E' as <-. exists m. auto.
Qed.
Print Assumptions near_edit_distance.

Definition nfa_says (n : nfa) (s : str) : Prop := exists q, reaches n s q /\ In q (final_states n).

Theorem levenshtein_nfa : forall word k s, nfa_says (levenshtein_automaton word k) s <-> near word k s.
Proof. intros word k s. apply lev_accepts. Qed.
Print Assumptions levenshtein_nfa.

Lemma near_self_lev word k : (0 <= k)%Z -> near word k word.
Proof. intros L. exists 0. split; [constructor|lia]. Qed.

(** Everything the search needs to know about the automaton. *)
Lemma levenshtein_dfa_facts arrange word k : rearranges arrange -> exists bound d,
  (forall fuel, bound <= fuel -> to_dfa arrange fuel (levenshtein_automaton word k) = Ok d) /\ start_state d = 0 /\
  (forall s, drun d (Some 0) s = Some 0 -> s = []) /\
  (forall s, accepts d s <-> s <> [] /\ near word k s) /\
  (forall s, s <> [] -> drun d (Some 0) s <> None -> exists t, accepts d (s ++ t)) /\
  (forall s, accepts d s -> List.length s <= List.length word + Z.to_nat k).
Proof.
  intros Ar. destruct (lev_nfa_ok word k) as [F D]. destruct (to_dfa_ok arrange Ar _ D F) as (bound & d & E & S0 & Dn & D0 & A).
  assert (Neg : (k < 0)%Z -> forall s q, reaches (levenshtein_automaton word k) s q -> s = [] /\ q = (0, 0)%Z).
  { intros K. induction 1 as [|s q q' R IH T|s q q' c R IH T|s q q' c R IH T]; auto; exfalso; apply lev_targets in T;
      destruct T as [(i & c' & d' & _ & L & _)|(d' & L & _)]; lia. }
  assert (Back : forall s, (forall q, reaches (levenshtein_automaton word k) s q <-> reaches (levenshtein_automaton word k) [] q) -> s = []).
  { intros s X. assert (R : reaches (levenshtein_automaton word k) s (0, 0)%Z) by (apply X; constructor). destruct (Z.lt_ge_cases k 0) as [K|K]; [apply (Neg K) in R; tauto|].
    destruct (lev_reaches_al word k K s _ R) as (i & d' & [= Ei Ed] & _ & _ & H). assert (i = 0) as -> by lia. assert (d' = 0) as -> by lia.
    apply al_steps in H. destruct H as (m & Em & H). apply qn_inj in Em. subst m. inversion H. reflexivity. }
  assert (Acc : forall s, accepts d s <-> s <> [] /\ near word k s).
  { intros s. specialize (A s). unfold dfa_accepts in A. rewrite S0 in A. unfold accepts. rewrite A, lev_accepts. split.
    - intros [H X]. split; auto. intros ->. apply X. reflexivity.
    - intros [N H]. split; auto. }
  exists bound, d. split; auto. split; auto. split; [intros s X; apply Back, D0, X|]. split; auto. split.
  - intros s Ns X. destruct (Dn s X) as (q & R'). destruct (Z.lt_ge_cases k 0) as [K|K]; [apply (Neg K) in R'; tauto|].
    destruct (lev_live word k s q K R') as (t & H). exists t. apply Acc. split; auto. destruct s; [congruence|discriminate].
  - intros s X. apply Acc in X. destruct X as [_ X]. destruct (Z.lt_ge_cases k 0) as [K|K]; [destruct X as (m & _ & L); lia|]. apply near_len in X. lia.
Qed.

(** [levenshtein_automaton(word, k).to_dfa()] accepts exactly the non-empty
    strings within edit distance [k]. *)
Theorem levenshtein_dfa : forall arrange word k, rearranges arrange -> exists bound d,
  (forall fuel, bound <= fuel -> to_dfa arrange fuel (levenshtein_automaton word k) = Ok d) /\
  forall s, dfa_says d s = true <-> s <> [] /\ near word k s.
Proof.
  intros arrange word k Ar. destruct (levenshtein_dfa_facts arrange word k Ar) as (bound & d & E & S0 & _ & A & _). exists bound, d. split; auto.
  intros s. rewrite dfa_says_accepts, <- A. unfold dfa_accepts, accepts. rewrite S0. reflexivity.
Qed.
Print Assumptions levenshtein_dfa.

(** The empty string is lost, even for the empty word. *)
Theorem levenshtein_dfa_empty_refuted : exists word k, near word k [] /\ nfa_says (levenshtein_automaton word k) [] /\
  exists d, (forall fuel, 10 <= fuel -> to_dfa as_is fuel (levenshtein_automaton word k) = Ok d) /\ dfa_says d [] = false.
Proof.
  exists [], 1%Z. assert (H : near [] 1 []) by (apply near_self_lev; lia). split; auto. split; [apply levenshtein_nfa; auto|]. eexists. split.
  - intros fuel L. do 10 (destruct fuel as [|fuel]; [lia|]). vm_compute. reflexivity.
  - reflexivity.
Qed.
Print Assumptions levenshtein_dfa_empty_refuted.

Example levenshtein_case : exists d, to_dfa backwards 50 (levenshtein_automaton (w_ "abc") 1) = Ok d /\
  map (dfa_says d) [w_ "abc"; w_ "ab"; w_ "xabc"; w_ "axc"; w_ "bac"; w_ "a"; []] = [true; true; true; true; false; false; false] /\
  near (w_ "abc") 1 (w_ "axc").
Proof.
  eexists. split; [vm_compute; reflexivity|]. split; [vm_compute; reflexivity|]. exists 1. split; [|lia]. econstructor; [constructor|]. apply (one_substitute [97%N] 98%N 120%N [99%N]).
Qed.

(** ** C57: next_valid_string *)
(** On a Levenshtein automaton it finds the first non-empty string within [k]
    that is not below the input, in the order of strings. *)
Theorem next_valid_string_least : forall arrange word k s, rearranges arrange -> (forall c, In c s -> (c < 1114111)%N) -> exists bound r,
  (forall fuel, bound <= fuel -> (d <- to_dfa arrange fuel (levenshtein_automaton word k) ;; next_valid_string d fuel s) = Ok r) /\
  match r with
  | Some t => (t <> [] /\ near word k t /\ str_leb s t = true) /\ forall t', t' <> [] -> near word k t' -> str_leb s t' = true -> str_leb t t' = true
  | None => forall t, t <> [] -> near word k t -> str_leb s t = false
  end.
Proof.
  intros arrange word k s Ar Lc. destruct (levenshtein_dfa_facts arrange word k Ar) as (bound & d & E & S0 & O & A & Lv & B).
  destruct (next_valid_ok d S0 O Lv _ B s Lc) as (r & Er & Hr). exists (bound + (List.length s + (List.length word + Z.to_nat k) + 3)), r. split.
  - intros fuel L. rewrite E by lia. cbn [bind]. apply Er. lia.
  - destruct r as [t|].
    + destruct Hr as [[At Lt] M]. apply A in At. split; [tauto|]. intros t' N H L. apply M. rewrite A. auto.
    + intros t N H. apply Hr. apply A. auto.
Qed.
Print Assumptions next_valid_string_least.

Example next_valid_case : exists d, to_dfa as_is 50 (levenshtein_automaton (w_ "food") 1) = Ok d /\
  next_valid_string d 30 (w_ "foogle") = Ok (Some (w_ "fooh")) /\ next_valid_string d 30 (w_ "xfoo") = Ok (Some (w_ "xfood")) /\ next_valid_string d 30 (w_ "fope") = Ok (Some (w_ "fopod")) /\
  exists d0, to_dfa as_is 50 (levenshtein_automaton (w_ "food") 0) = Ok d0 /\ next_valid_string d0 30 (w_ "b") = Ok (Some (w_ "food")) /\ next_valid_string d0 30 (w_ "x") = Ok None.
Proof. eexists. split; [vm_compute; reflexivity|]. split; [vm_compute; reflexivity|]. split; [vm_compute; reflexivity|]. split; [vm_compute; reflexivity|]. eexists. split; [vm_compute; reflexivity|]. vm_compute. auto. Qed.

(** ** C58: find_all_matches *)
Theorem find_all_matches_exact : forall arrange word k entries, rearranges arrange ->
  StronglySorted (fun a b => str_leb a b = true) entries -> (forall w c, In w entries -> In c w -> (c < 1114111)%N) -> exists bound out,
  (forall fuel, bound <= fuel -> find_all_matches (matcher entries) arrange fuel word k 0 = Ok out) /\
  (forall w, In w out <-> In w entries /\ w <> [] /\ near word k w) /\
  StronglySorted (fun a b => str_leb a b = true /\ a <> b) out.
Proof.
  intros arrange word k entries Ar So Lc. destruct (levenshtein_dfa_facts arrange word k Ar) as (bound & d & E & S0 & O & A & Lv & B).
  destruct (matches_ok d S0 O Lv _ B entries So Lc) as (bound' & r & Er & F & M). exists (bound + bound'), r. split; [|split; auto].
  - intros fuel L. unfold find_all_matches. rewrite E by lia. cbn [bind]. apply Er. lia.
  - intros w. rewrite M, A. tauto.
Qed.
Print Assumptions find_all_matches_exact.

Definition dictionary : list str := [[]; w_ "bat"; w_ "cat"; w_ "cat"; w_ "cats"; w_ "coat"; w_ "dog"; w_ "hat"].
Example find_all_matches_case : StronglySorted (fun a b => str_leb a b = true) dictionary /\
  find_all_matches (matcher dictionary) backwards 100 (w_ "cat") 1 0 = Ok [w_ "bat"; w_ "cat"; w_ "cats"; w_ "coat"; w_ "hat"] /\
  find_all_matches (matcher dictionary) as_is 200 (w_ "at") 2 0 = Ok [w_ "bat"; w_ "cat"; w_ "cats"; w_ "coat"; w_ "hat"] /\
  find_all_matches (matcher dictionary) as_is 200 (w_ "at") (-1) 0 = Ok [].
Proof. split; [repeat constructor|]. vm_compute. auto. Qed.

(** The last code point has no successor: one entry that contains it can make
    the search fail. *)
Theorem find_all_matches_last_character_refuted : exists word k entries, StronglySorted (fun a b => str_leb a b = true) entries /\
  (forall w c, In w entries -> In c w -> (c < 1114112)%N) /\ exists err, forall fuel, 20 <= fuel -> find_all_matches (matcher entries) as_is fuel word k 0 = Err err.
Proof.
  exists (w_ "a"), 0%Z, [[1114111%N]]. split; [repeat constructor|]. split; [intros w c [<-|[]] [<-|[]]; reflexivity|]. exists ValueError.
  intros fuel L. do 20 (destruct fuel as [|fuel]; [lia|]). vm_compute. reflexivity.
Qed.
Print Assumptions find_all_matches_last_character_refuted.

(** Unsorted entries: matches are missed. *)
Theorem find_all_matches_unsorted_refuted : exists word k entries w, In w entries /\ near word k w /\ w <> [] /\
  exists out, (forall fuel, 40 <= fuel -> find_all_matches (matcher entries) as_is fuel word k 0 = Ok out) /\ ~ In w out.
Proof.
  exists (w_ "a"), 0%Z, [w_ "b"; w_ "a"], (w_ "a"). split; [simpl; auto|]. split; [apply near_self_lev; lia|]. split; [discriminate|]. exists []. split; [|intros []].
  intros fuel L. do 40 (destruct fuel as [|fuel]; [lia|]). vm_compute. reflexivity.
Qed.
Print Assumptions find_all_matches_unsorted_refuted.
