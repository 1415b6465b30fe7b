(** The two word graphs (experiments/dawg.py, experiments/dawg-orig.py) and the
    trie (experiments/find_replace_trie.py) as dictionaries.  Property C125. *)
From Coq Require Import ZArith NArith List Bool Permutation Lia Sorted String.
From Verif Require Import Num Py ListAux PyDict NmdSpec IndexModel Props_Index TrieSpec TrieModel TrieProofs Props_Trie.
From Verif Require Import DawgModel DawgRepr DawgProofs DawgFinal DawgAsk DawgQuery DawgLate Props_Dawg OrigModel OrigProofs OrigFinish Props_Orig Ex.
Import ListNotations.
Local Open Scope string_scope.
Local Open Scope list_scope.
Open Scope nat_scope.

Lemma sum_nat_perm a b : Permutation a b -> sum_nat a = sum_nat b.
Proof. unfold sum_nat. induction 1; cbn [fold_right]; lia. Qed.

(** The same calls of [insert] with the same words give graphs with the same
    answers and of the same size, whatever hashes and ids are. *)
Theorem dawgs_agree : forall (D : Type) printable hash (ident ident' : nat -> nat),
  (forall i j, ident i = ident j -> i = j) -> (forall i j, ident' i = ident' j -> i = j) ->
  forall (calls : list (str * D)) limit, short limit calls ->
  let dawg := run_inserts (py_repr printable) ident calls dawg_init in let orig := orun hash ident' calls odawg_init in
  (forall w v, (exists g, insert (py_repr printable) ident dawg w v = Ok g) <-> (exists o, oinsert hash ident' orig w v = Ok o)) /\
  exists g o, finalize (py_repr printable) ident limit dawg = Ok g /\ finish hash ident' limit orig = Ok o /\
  (forall w, lookup g w = olookup o w) /\ count_nodes g = node_count o /\ count_edges g = edge_count o.
Proof.
  intros D printable hash ident ident' Hi Hi' calls limit Hs dawg orig. split.
  - intros w v. destruct (dawg_insert printable ident Hi calls w v) as (A1 & A2 & _). destruct (orig_insert hash ident' Hi' calls w v) as (B1 & B2 & _).
    fold dawg in A1, A2. fold orig in B1, B2.
    assert (X : (w <> [] /\ (forall x, In x (map fst (accepted calls)) -> str_leb w x = false)) \/
      (w = [] \/ (exists x, In x (map fst (accepted calls)) /\ str_leb w x = true))).
    { destruct w as [|c w]; [right; left; reflexivity|]. destruct (forallb (fun x => negb (str_leb (c :: w) x)) (map fst (accepted calls))) eqn:E.
      - left. split; [discriminate|]. rewrite forallb_forall in E. intros x I. apply negb_true_iff, E, I.
      - right. right. clear - E. induction (map fst (accepted calls)) as [|x l IH]; [discriminate|]. cbn [forallb] in E. destruct (str_leb (c :: w) x) eqn:Ex.
        + exists x. split; [left; auto|auto].
        + cbn [negb andb] in E. destruct (IH E) as (y & I & Ey). exists y. split; [right; auto|auto]. }
    destruct X as [X|X]; [split; intros _; [apply B1, X|apply A1, X]|]. specialize (A2 X). specialize (B2 X). split; intros (g & Eg); congruence.
  - destruct (dawg_answers printable ident Hi calls limit Hs) as (g & Eg & _ & Ag & Ng & _). destruct (orig_answers hash ident' Hi' calls limit Hs) as (o & Eo & _ & Ao & No).
    exists g, o. split; [exact Eg|]. split; [exact Eo|]. split.
    + intros w. destruct (in_dec (list_eq_dec N.eq_dec) w (map fst (accepted calls))) as [I|I].
      * apply in_map_iff in I. destruct I as ((w' & v) & Ew & I). cbn [fst] in Ew. subst w'. rewrite (Ao w v I). apply In_nth_error in I. destruct I as (k & I).
        apply (Ag k w v I).
      * rewrite (No w I). apply (Ng w I).
    + destruct (dawg_minimal printable ident Hi calls limit g Hs Eg) as [(ls & N1 & M1 & C1 & E1) _].
      destruct (orig_minimal hash ident' Hi' calls limit o Hs Eo) as [(ls' & N2 & M2 & C2 & E2) _].
      assert (P : Permutation ls ls') by (apply NoDup_Permutation; auto; intros l; rewrite M1, M2; reflexivity).
      split; [rewrite C1, C2; apply Permutation_length, P|]. rewrite E1, E2. f_equal. apply sum_nat_perm, Permutation_map, P.
Qed.
Print Assumptions dawgs_agree.

(** ** The trie *)

Section Trie.
Context {D : Type}.
Variable t : trie str D.

Definition step (p : list str) (c : N) : option (list str) := match TrieModel.walk (p ++ [[c]]) (TrieModel.root t) with Some _ => Some (p ++ [[c]]) | None => None end.
Definition ends (p : list str) : bool := match TrieModel.walk p (TrieModel.root t) with Some n => match value n with Some _ => true | None => false end | None => false end.

Lemma drive_walk w p : TrieModel.walk p (TrieModel.root t) <> None ->
  drive step p w = match TrieModel.walk (p ++ chars w) (TrieModel.root t) with Some _ => Some (p ++ chars w) | None => None end.
Proof.
  revert p. induction w as [|c w IH]; intros p Hp; cbn [drive].
  - change (chars []) with (@nil str). rewrite app_nil_r. destruct (TrieModel.walk p (TrieModel.root t)); [reflexivity|congruence].
  - unfold step. destruct (TrieModel.walk (p ++ [[c]]) (TrieModel.root t)) as [n|] eqn:E.
    + rewrite IH by congruence. assert (A : p ++ chars (c :: w) = (p ++ [[c]]) ++ chars w) by (rewrite <- app_assoc; reflexivity). rewrite A. reflexivity.
    + assert (A : p ++ chars (c :: w) = (p ++ [[c]]) ++ chars w) by (rewrite <- app_assoc; reflexivity). rewrite A, TrieProofs.walk_app, E. reflexivity.
Qed.

Lemma trie_language w : TrieModel.contains chars t w = true <-> exists q, drive step [] w = Some q /\ ends q = true.
Proof.
  rewrite (drive_walk w []) by discriminate. cbn [app]. unfold TrieModel.contains. split.
  - destruct (TrieModel.walk (chars w) (TrieModel.root t)) as [n|] eqn:E; [|discriminate]. intros H. exists (chars w). split; [reflexivity|]. unfold ends. rewrite E. exact H.
  - intros (q & E & H). destruct (TrieModel.walk (chars w) (TrieModel.root t)) as [n|] eqn:Ew; [|discriminate]. injection E as <-. unfold ends in H. rewrite Ew in H. exact H.
Qed.
End Trie.

(** A trie with the accepted words as its keys gives the same answers, and has
    at least as many nodes ([places] lists where they are). *)
Theorem dawg_and_trie : forall (D : Type) printable (ident : nat -> nat), (forall i j, ident i = ident j -> i = j) ->
  forall (calls : list (str * D)) limit, short limit calls ->
  forall t : trie str D, (forall w v, In (w, v) (accepted calls) <-> getitem chars t w = Ok v) ->
  exists g, finalize (py_repr printable) ident limit (run_inserts (py_repr printable) ident calls dawg_init) = Ok g /\
  (forall w, lookup g w = match getitem chars t w with Ok v => Ok (Some v) | Err _ => Ok None end) /\
  (forall w, contains g w = Ok (TrieModel.contains chars t w)) /\
  (accepted calls <> [] -> forall places : list (list str), (forall p, TrieModel.walk p (TrieModel.root t) <> None -> In p places) -> count_nodes g + 1 <= List.length places).
Proof.
  intros D printable ident Hi calls limit Hs t Ht. destruct (dawg_answers printable ident Hi calls limit Hs) as (g & Eg & _ & Ag & Ng & _).
  assert (Hc : forall w, In w (map fst (accepted calls)) <-> TrieModel.contains chars t w = true).
  { intros w. rewrite in_map_iff. split.
    - intros ((w' & v) & E & I). cbn [fst] in E. subst w'. apply Ht in I. revert I. unfold getitem, TrieModel.contains.
      destruct (TrieModel.walk (chars w) (TrieModel.root t)) as [n|]; [destruct (value n)|]; congruence.
    - intros H. unfold TrieModel.contains in H. destruct (TrieModel.walk (chars w) (TrieModel.root t)) as [n|] eqn:E; [|discriminate].
      destruct (value n) as [v|] eqn:Ev; [|discriminate]. exists (w, v). split; auto. apply Ht. unfold getitem. rewrite E, Ev. reflexivity. }
  exists g. split; [exact Eg|]. split; [|split].
  - intros w. destruct (getitem chars t w) as [v|e] eqn:E.
    + apply Ht in E. apply In_nth_error in E. destruct E as (k & E). apply (Ag k w v E).
    + apply Ng. intros I. apply in_map_iff in I. destruct I as ((w' & v) & Ew & I). cbn [fst] in Ew. subst w'. apply Ht in I. congruence.
  - intros w. destruct (in_dec (list_eq_dec N.eq_dec) w (map fst (accepted calls))) as [I|I].
    + rewrite (proj1 (Hc w) I). apply in_map_iff in I. destruct I as ((w' & v) & Ew & I). cbn [fst] in Ew. subst w'. apply In_nth_error in I. destruct I as (k & I).
      apply (Ag k w v I).
    + destruct (TrieModel.contains chars t w) eqn:E; [apply Hc in E; contradiction|]. apply (Ng w I).
  - intros Ne places Hp. destruct (dawg_minimal printable ident Hi calls limit g Hs Eg) as (_ & Mi & _).
    apply (Mi ltac:(intros E; apply map_eq_nil in E; contradiction) (list str) (step t) (ends t) [] places).
    + intros w. rewrite Hc. apply trie_language.
    + intros w q Eq. apply Hp. rewrite (drive_walk t w []) in Eq by discriminate. cbn [app] in Eq.
      destruct (TrieModel.walk (chars w) (TrieModel.root t)) as [n|] eqn:E; [|discriminate]. injection Eq as <-. congruence.
Qed.
Print Assumptions dawg_and_trie.

(** Such a trie is what setting the accepted words in any order gives. *)
Definition fill {D} (l : list (str * D)) (t : trie str D) : trie str D := fold_left (fun t wv => setitem chars t (fst wv) (snd wv)) l t.

Lemma getitem_look {D} (t : trie str D) w v : getitem chars t w = Ok v <-> look (chars w) (TrieModel.root t) = Some v.
Proof. unfold getitem, look. destruct (TrieModel.walk (chars w) (TrieModel.root t)) as [n|]; [destruct (value n)|]; split; congruence. Qed.

Lemma chars_same a b : chars a = chars b -> a = b.
Proof. revert b. induction a as [|x a IH]; intros [|y b] E; try discriminate; auto. cbn in E. injection E as -> E. f_equal. apply IH, E. Qed.

Lemma fill_getitem {D} (l : list (str * D)) t w v : NoDup (map fst l) ->
  getitem chars (fill l t) w = Ok v <-> In (w, v) l \/ (~ In w (map fst l) /\ getitem chars t w = Ok v).
Proof.
  revert t. induction l as [|(x, y) l IH]; intros t Nd; cbn [fill fold_left map In fst snd].
  - tauto.
  - inversion Nd; subst. change (fold_left _ l ?t') with (fill l t'). rewrite IH by assumption. rewrite !getitem_look. unfold setitem. cbn [TrieModel.root]. rewrite look_put.
    destruct (eqd (chars w) (chars x)) as [E|E].
    + apply chars_same in E. subst x. split.
      * intros [I|[_ I]]; [auto|]. left. left. congruence.
      * intros [[I|I]|[I _]]; [|auto|exfalso; auto]. right. split; congruence.
    + split.
      * intros [I|[I J]]; [auto|]. right. split; auto. intros [F|F]; [congruence|auto].
      * intros [[I|I]|[I J]]; [exfalso; congruence|auto|]. right. split; auto.
Qed.

Theorem dawg_and_filled_trie : forall (D : Type) printable (ident : nat -> nat), (forall i j, ident i = ident j -> i = j) ->
  forall (calls l : list (str * D)) limit, short limit calls -> Permutation l (accepted calls) -> let t := fill l new_trie in
  exists g, finalize (py_repr printable) ident limit (run_inserts (py_repr printable) ident calls dawg_init) = Ok g /\
  (forall w, lookup g w = match getitem chars t w with Ok v => Ok (Some v) | Err _ => Ok None end) /\
  (forall w, contains g w = Ok (TrieModel.contains chars t w)) /\
  (l <> [] -> forall places : list (list str), (forall p, TrieModel.walk p (TrieModel.root t) <> None -> In p places) -> count_nodes g + 1 <= List.length places).
Proof.
  intros D printable ident Hi calls l limit Hs P t.
  assert (Nd : NoDup (map fst l)).
  { apply (Permutation_NoDup (Permutation_map fst (Permutation_sym P))). destruct calls as [|(w0 & v0) calls]; [constructor|].
    destruct (dawg_insert printable ident Hi ((w0, v0) :: calls) [] v0) as (_ & _ & _ & So). revert So. generalize (map fst (accepted ((w0, v0) :: calls))). clear.
    induction l as [|x l IH]; intros So; [constructor|]. inversion So; subst. constructor; [|auto]. intros I. rewrite Forall_forall in H2. specialize (H2 x I).
    assert (R : str_leb x x = true) by (clear; induction x as [|c x IH]; [reflexivity|]; cbn [str_leb]; rewrite N.eqb_refl, IH; apply orb_true_r). congruence. }
  destruct (dawg_and_trie D printable ident Hi calls limit Hs t) as (g & Eg & L & C & M).
  - intros w v. unfold t. rewrite (fill_getitem l new_trie w v Nd). split; [intros I; left; apply (Permutation_in _ (Permutation_sym P)), I|].
    intros [I|[_ I]]; [apply (Permutation_in _ P), I|]. exfalso. apply getitem_look in I. destruct w; discriminate.
  - exists g. split; [exact Eg|]. split; [exact L|]. split; [exact C|]. intros Nl. apply M. intros E. rewrite E in P. apply Permutation_sym, Permutation_nil in P. contradiction.
Qed.
Print Assumptions dawg_and_filled_trie.

(** Three words; the trie has twelve nodes, the graphs have six with the
    root. *)
Definition same_calls : list (str * nat) := [(w_ "taps", 1); (w_ "tap", 2); (w_ "tops", 3); (w_ "zaps", 4)].
Definition same_filled : list (str * nat) := [(w_ "zaps", 4); (w_ "tops", 3); (w_ "taps", 1)].
Example same_case :
  short 10 same_calls /\ Permutation same_filled (accepted same_calls) /\
  (exists g, finalize (py_repr (fun _ => true)) (fun i => i) 10 (run_inserts (py_repr (fun _ => true)) (fun i => i) same_calls dawg_init) = Ok g /\
     map (lookup g) (map w_ ["taps"; "tap"; "tops"; "zaps"]) = map Ok [Some 1; None; Some 3; Some 4] /\ count_nodes g = 5 /\ count_edges g = Ok 5) /\
  (exists o, finish (fun _ => 7%Z) (fun i => 2 * i) 10 (orun (fun _ => 7%Z) (fun i => 2 * i) same_calls odawg_init) = Ok o /\
     map (olookup o) (map w_ ["taps"; "tap"; "tops"; "zaps"]) = map Ok [Some 1; None; Some 3; Some 4] /\ node_count o = 5 /\ edge_count o = Ok 5) /\
  map (getitem chars (fill same_filled new_trie)) (map w_ ["taps"; "tap"; "tops"; "zaps"]) = [Ok 1; Err KeyError; Ok 3; Ok 4].
Proof.
  split. { split; [lia|]. intros w v I. vm_compute in I. repeat (destruct I as [I|I]; [injection I as <- <-; vm_compute; lia|]). destruct I. }
  split. { change (accepted same_calls) with (rev same_filled). apply Permutation_rev. }
  split; [eexists; split; [vm_compute; reflexivity|vm_compute; auto]|]. split; [eexists; split; [vm_compute; reflexivity|vm_compute; auto]|]. vm_compute. reflexivity.
Qed.
