(** Theorems about [Trie.nbytes] of experiments/find_replace_trie.py: property
    C126. *)
From Coq Require Import ZArith NArith List Bool Permutation Lia String.
From Verif Require Import Py ListAux PyDict NmdSpec IndexModel Props_Index TrieSpec TrieModel TrieProofs Props_Trie NbytesModel Ex.
From Verif Require SizeofModel Props_Sizeof.
Import ListNotations.
Local Open Scope string_scope.
Local Open Scope list_scope.
Open Scope Z_scope.

Definition sum_z (l : list Z) : Z := fold_right Z.add 0 l.

Lemma sum_z_app a b : sum_z (a ++ b) = sum_z a + sum_z b.
Proof. unfold sum_z. induction a as [|x a IH]; cbn [app fold_right]; lia. Qed.
Lemma sum_z_perm a b : Permutation a b -> sum_z a = sum_z b.
Proof. unfold sum_z. induction 1; cbn [fold_right]; lia. Qed.

Lemma seen_spec o l : seen_in o l = true <-> In o l.
Proof.
  unfold seen_in. rewrite existsb_exists. split.
  - intros (x & I & E). apply Nat.eqb_eq in E. subst. exact I.
  - intros I. exists o. split; [exact I|apply Nat.eqb_refl].
Qed.

Section Theorems.
Context {T V : Type} `{EqDec T}.
Variable i : ids T.
Variable size : nat -> Z.

Lemma once_spec os : forall tot seen, NoDup seen -> tot = sum_z (map size seen) ->
  exists seen', fold_left (count_once size) os (tot, seen) = (sum_z (map size seen'), seen') /\ NoDup seen' /\ forall o, In o seen' <-> In o seen \/ In o os.
Proof.
  induction os as [|o os IH]; intros tot seen Nd ->; cbn [fold_left].
  - exists seen. split; [reflexivity|]. split; [exact Nd|]. intros o. cbn [In]. tauto.
  - unfold count_once at 2. destruct (seen_in o seen) eqn:E.
    + apply seen_spec in E. destruct (IH _ seen Nd eq_refl) as (s & Es & Ns & Hs). exists s. split; [exact Es|]. split; [exact Ns|].
      intros x. rewrite Hs. cbn [In]. split; [tauto|]. intros [I|[I|I]]; [auto|subst; auto|auto].
    + assert (Nd' : NoDup (seen ++ [o])).
      { apply (Permutation_NoDup (Permutation_cons_append seen o)). constructor; [|exact Nd]. intros I. apply seen_spec in I. congruence. }
      destruct (IH (sum_z (map size seen) + size o) (seen ++ [o]) Nd') as (s & Es & Ns & Hs).
      { rewrite map_app, sum_z_app. cbn. lia. }
      exists s. split; [exact Es|]. split; [exact Ns|]. intros x. rewrite Hs, in_app_iff. cbn [In]. tauto.
Qed.

Fixpoint weight (n : node T V) : nat :=
  match n with Node _ cs => S ((fix go (l : list (T * node T V)) : nat := match l with [] => O | (_, c) :: l' => (weight c + go l')%nat end) cs) end.
Definition weights (l : list (list T * node T V)) : nat := fold_right (fun pn a => (weight (snd pn) + a)%nat) O l.

Lemma weight_unfold n p : weight n = S (weights (map (fun kc => (p ++ [fst kc], snd kc)) (children n))).
Proof. destruct n as [v cs]. cbn [weight children]. f_equal. induction cs as [|(k, c) cs IH]; cbn; auto. Qed.
Lemma weights_app a b : weights (a ++ b) = (weights a + weights b)%nat.
Proof. unfold weights. induction a as [|x a IH]; cbn [app fold_right]; lia. Qed.
Lemma weights_rev a : weights (rev a) = weights a.
Proof. induction a as [|x a IH]; cbn [rev]; auto. rewrite weights_app, IH. unfold weights. cbn [fold_right]. lia. Qed.

(** The objects at and below [n], which is at [p]. *)
Definition below (p : list T) (n : node T V) (o : nat) : Prop :=
  exists q m, walk q n = Some m /\ (o = id_node i (p ++ q) \/ o = id_value i (p ++ q) \/ (q <> [] /\ o = id_key i (p ++ q))).

Lemma below_step p n o : wf n ->
  below p n o <-> In o (id_node i p :: id_value i p :: map (fun kc => id_key i (p ++ [fst kc])) (children n)) \/
                  exists pc, In pc (map (fun kc => (p ++ [fst kc], snd kc)) (children n)) /\ below (fst pc) (snd pc) o.
Proof.
  intros W. apply wf_split in W. destruct W as [Wd _]. split.
  - intros (q & m & E & O). destruct q as [|k q].
    + rewrite app_nil_r in O. left. cbn [In]. destruct O as [O|[O|[O _]]]; [auto|auto|congruence].
    + cbn [walk] in E. destruct (dget k (children n)) as [c|] eqn:Ek; [|discriminate]. apply dget_In in Ek.
      assert (A : p ++ k :: q = (p ++ [k]) ++ q) by (rewrite <- app_assoc; reflexivity). rewrite A in O.
      destruct q as [|k' q].
      * destruct O as [O|[O|[_ O]]].
        -- right. exists (p ++ [k], c). split; [apply in_map_iff; exists (k, c); auto|]. exists [], m. split; [exact E|auto].
        -- right. exists (p ++ [k], c). split; [apply in_map_iff; exists (k, c); auto|]. exists [], m. split; [exact E|auto].
        -- left. rewrite app_nil_r in O. right. right. apply in_map_iff. exists (k, c). auto.
      * right. exists (p ++ [k], c). split; [apply in_map_iff; exists (k, c); auto|]. exists (k' :: q), m. split; [exact E|].
        destruct O as [O|[O|[_ O]]]; [auto|auto|]. right. right. split; [discriminate|exact O].
  - intros [I|(pc & I & (q & m & E & O))].
    + cbn [In] in I. destruct I as [I|[I|I]].
      * exists [], n. rewrite app_nil_r. auto.
      * exists [], n. rewrite app_nil_r. auto.
      * apply in_map_iff in I. destruct I as ((k, c) & I & J). cbn [fst] in I. exists [k], c. cbn [walk]. rewrite (In_dget k c _ Wd J). split; [reflexivity|].
        right. right. split; [discriminate|auto].
    + apply in_map_iff in I. destruct I as ((k, c) & <- & J). cbn [fst snd] in *. exists (k :: q), m. cbn [walk]. rewrite (In_dget k c _ Wd J). split; [exact E|].
      assert (A : p ++ k :: q = (p ++ [k]) ++ q) by (rewrite <- app_assoc; reflexivity). rewrite A. destruct O as [O|[O|[_ O]]]; [auto|auto|].
      right. right. split; [discriminate|exact O].
Qed.

Lemma loop_spec fuel : forall stack tot seen, (weights stack < fuel)%nat -> (forall p n, In (p, n) stack -> wf n) -> NoDup seen -> tot = sum_z (map size seen) ->
  exists seen', bytes_loop i size fuel stack (tot, seen) = Some (sum_z (map size seen')) /\ NoDup seen' /\
    forall o, In o seen' <-> In o seen \/ exists pn, In pn stack /\ below (fst pn) (snd pn) o.
Proof.
  induction fuel as [|fuel IH]; intros stack tot seen F W Nd E; [lia|]. cbn [bytes_loop]. destruct stack as [|(p, n) stack].
  - exists seen. cbn [fst]. subst tot. split; [reflexivity|]. split; [exact Nd|]. intros o. split; [auto|]. intros [I|(pn & [] & _)]. exact I.
  - destruct (once_spec (id_node i p :: id_value i p :: map (fun kc => id_key i (p ++ [fst kc])) (children n)) tot seen Nd E) as (s & Es & Ns & Hs).
    rewrite Es. pose proof (W p n (or_introl eq_refl)) as Wn.
    destruct (IH (rev (map (fun kc => (p ++ [fst kc], snd kc)) (children n)) ++ stack) (sum_z (map size s)) s) as (s' & Es' & Ns' & Hs').
    + rewrite weights_app, weights_rev. unfold weights at 1 in F. cbn [fold_right snd] in F. fold (weights stack) in F. rewrite (weight_unfold n p) in F. lia.
    + intros p' n' I. apply in_app_iff in I. destruct I as [I|I]; [|apply (W p' n'); right; exact I].
      apply in_rev, in_map_iff in I. destruct I as ((k, c) & Ek & J). injection Ek as <- <-. apply wf_split in Wn. destruct Wn as [_ Wn]. rewrite Forall_forall in Wn. apply (Wn (k, c) J).
    + exact Ns.
    + reflexivity.
    + exists s'. split; [exact Es'|]. split; [exact Ns'|]. intros o. rewrite Hs', Hs. split.
      * intros [[I|I]|(pn & I & B)]; [auto| |].
        -- right. exists (p, n). split; [left; auto|]. apply below_step; auto.
        -- apply in_app_iff in I. destruct I as [I|I]; [|right; exists pn; split; [right; exact I|exact B]].
           right. exists (p, n). split; [left; auto|]. apply below_step; [auto|]. right. exists pn. split; [apply in_rev, I|exact B].
      * intros [I|(pn & [<-|I] & B)]; [auto| |].
        -- apply below_step in B; [|exact Wn]. destruct B as [B|(pc & I & B)]; [auto|]. right. exists pc. split; [apply in_app_iff; left; apply in_rev; rewrite rev_involutive; exact I|exact B].
        -- right. exists pn. split; [apply in_app_iff; auto|exact B].
Qed.

(** What belongs to a trie: itself, its counter and its two functions, and for
    every node the node, its value and (but for the root) its token. *)
Definition part_of (t : trie T V) (o : nat) : Prop :=
  In o [id_self i; id_length i; id_tokenizer i; id_detokenizer i] \/
  exists p, walk p (root t) <> None /\ (o = id_node i p \/ o = id_value i p \/ (p <> [] /\ o = id_key i p)).

Lemma first_spec os : forall tot seen, NoDup (seen ++ os) -> foldM (count_first size) os (tot, seen) = Ok (tot + sum_z (map size os), seen ++ os).
Proof.
  induction os as [|o os IH]; intros tot seen Nd; cbn [foldM].
  - rewrite app_nil_r. cbn. f_equal. f_equal. lia.
  - unfold count_first at 1. assert (A : seen ++ o :: os = (seen ++ [o]) ++ os) by (rewrite <- app_assoc; reflexivity). destruct (seen_in o seen) eqn:E.
    + apply seen_spec in E. exfalso. apply NoDup_remove_2 in Nd. apply Nd, in_app_iff. auto.
    + cbn [bind]. rewrite IH by (rewrite <- A; exact Nd). rewrite <- A. unfold sum_z. cbn [map fold_right]. f_equal. f_equal. lia.
Qed.

Lemma first_fails os : forall tot seen, NoDup seen -> ~ NoDup (seen ++ os) -> foldM (count_first size) os (tot, seen) = Err AssertionError.
Proof.
  induction os as [|o os IH]; intros tot seen Ns Nd; cbn [foldM].
  - rewrite app_nil_r in Nd. contradiction.
  - unfold count_first at 1. destruct (seen_in o seen) eqn:E; [reflexivity|]. cbn [bind]. apply IH.
    + apply (Permutation_NoDup (Permutation_cons_append seen o)). constructor; [|exact Ns]. intros I. apply seen_spec in I. congruence.
    + rewrite <- app_assoc. exact Nd.
Qed.

Lemma nbytes_wf (t : trie T V) : wf (root t) -> NoDup [id_self i; id_length i; id_tokenizer i; id_detokenizer i] ->
  exists rounds R, NoDup R /\ (forall o, In o R <-> part_of t o) /\ forall fuel, (rounds <= fuel)%nat -> nbytes i size fuel t = Ok (Some (sum_z (map size R))).
Proof.
  intros W Nd. set (first := [id_self i; id_length i; id_tokenizer i; id_detokenizer i]) in *.
  assert (B : forall o, below [] (root t) o <-> exists p, walk p (root t) <> None /\ (o = id_node i p \/ o = id_value i p \/ (p <> [] /\ o = id_key i p))).
  { intros o. split.
    - intros (q & m & E & O). exists q. split; [congruence|exact O].
    - intros (q & E & O). destruct (walk q (root t)) as [m|] eqn:Em; [|congruence]. exists q, m. split; [exact Em|exact O]. }
  assert (L : forall fuel, (S (weights [([], root t)]) <= fuel)%nat -> exists R, NoDup R /\ (forall o, In o R <-> part_of t o) /\ nbytes i size fuel t = Ok (Some (sum_z (map size R)))).
  { intros fuel F. destruct (loop_spec fuel [([], root t)] (sum_z (map size first)) first) as (R & E & N & HR); [lia| |exact Nd|reflexivity|].
    - intros p n [I|[]]. injection I as <- <-. exact W.
    - exists R. split; [exact N|]. split.
      + intros o. rewrite HR. unfold part_of. fold first. rewrite <- B. split; [intros [I|(pn & [<-|[]] & Bo)]; auto|intros [I|I]; [auto|right; exists ([], root t); split; [left; auto|exact I]]].
      + unfold nbytes. fold first. rewrite (first_spec first 0 [] Nd). cbn [bind app]. rewrite Z.add_0_l, E. reflexivity. }
  destruct (L _ (le_n _)) as (R & N & HR & _). exists (S (weights [([], root t)])), R. split; [exact N|]. split; [exact HR|].
  intros fuel F. destruct (L fuel F) as (R' & N' & HR' & E). rewrite E. do 2 f_equal. apply sum_z_perm, Permutation_map, NoDup_Permutation; auto. intros o. rewrite HR, HR'. reflexivity.
Qed.
End Theorems.

(** For every history of a trie [nbytes] ends and is the sum of the sizes of
    the objects that belong to the trie, each counted once however many nodes
    share it, provided the four objects looked at first are different ones.
    Otherwise it raises. *)
Theorem nbytes_sum : forall (T V K : Type) (ED : EqDec T) (tokenizer : K -> list T) (detokenizer : list T -> K) (os : list (op T V K)),
  (forall k, tokenizer (detokenizer (tokenizer k)) = tokenizer k) \/ ~ In (Pop None) os ->
  forall (i : ids T) (size : nat -> Z), let t := fst (run tokenizer detokenizer new_trie os) in
  (NoDup [id_self i; id_length i; id_tokenizer i; id_detokenizer i] ->
     exists rounds R, NoDup R /\ (forall o, In o R <-> part_of i t o) /\ forall fuel, (rounds <= fuel)%nat -> nbytes i size fuel t = Ok (Some (sum_z (map size R)))) /\
  (~ NoDup [id_self i; id_length i; id_tokenizer i; id_detokenizer i] -> forall fuel, nbytes i size fuel t = Err AssertionError).
Proof.
  intros T V K ED tokenizer detokenizer os RT i size t. split.
  - intros Nd. apply nbytes_wf; [|exact Nd]. destruct (run_ok tokenizer detokenizer os RT new_trie (good_new tokenizer)) as [G _]. apply (g_wf _ _ G).
  - intros Nd fuel. unfold nbytes. rewrite first_fails; [reflexivity|constructor|exact Nd].
Qed.
Print Assumptions nbytes_sum.

(** So the answer does not depend on the order of insertion or of sorting: it
    is the same for tries with the same nodes and objects. *)
Theorem nbytes_order : forall (T V K : Type) (ED : EqDec T) (tokenizer : K -> list T) (detokenizer : list T -> K) (os os' : list (op T V K)),
  (forall k, tokenizer (detokenizer (tokenizer k)) = tokenizer k) ->
  let t := fst (run tokenizer detokenizer new_trie os) in let t' := fst (run tokenizer detokenizer new_trie os') in
  (forall k, getitem tokenizer t k = getitem tokenizer t' k) ->
  forall (i : ids T) (size : nat -> Z), exists rounds, forall fuel fuel', (rounds <= fuel)%nat -> (rounds <= fuel')%nat -> nbytes i size fuel t = nbytes i size fuel' t'.
Proof.
  intros T V K ED tokenizer detokenizer os os' RT t t' Same i size.
  destruct (nbytes_sum T V K ED tokenizer detokenizer os (or_introl RT) i size) as [A A'].
  destruct (nbytes_sum T V K ED tokenizer detokenizer os' (or_introl RT) i size) as [B B']. fold t in A, A'. fold t' in B, B'.
  destruct (ListDec.NoDup_dec Nat.eq_dec [id_self i; id_length i; id_tokenizer i; id_detokenizer i]) as [Nd|Nd].
  - destruct (A Nd) as (r & R & N & HR & E). destruct (B Nd) as (r' & R' & N' & HR' & E'). exists (r + r')%nat. intros fuel fuel' F F'. rewrite E, E' by lia.
    do 2 f_equal. apply sum_z_perm, Permutation_map, NoDup_Permutation; auto. intros o. rewrite HR, HR'. unfold part_of.
    assert (X : forall p, walk p (root t) <> None <-> walk p (root t') <> None).
    { assert (Y : forall ts ts' : list (op T V K), (forall k, getitem tokenizer (fst (run tokenizer detokenizer new_trie ts)) k = getitem tokenizer (fst (run tokenizer detokenizer new_trie ts')) k) ->
        forall p, walk p (root (fst (run tokenizer detokenizer new_trie ts))) <> None -> walk p (root (fst (run tokenizer detokenizer new_trie ts'))) <> None).
      { clear - RT. intros ts ts' Same p Hp. destruct p as [|c p]; [discriminate|].
        destruct (walk (c :: p) (root (fst (run tokenizer detokenizer new_trie ts)))) as [n|] eqn:En; [|congruence].
        destruct (trie_pruned tokenizer detokenizer ts (or_introl RT) (c :: p) n ltac:(discriminate) En) as (us & n' & v & Ew & Ev).
        destruct (run_ok tokenizer detokenizer ts (or_introl RT) new_trie (good_new tokenizer)) as [G _].
        destruct (g_keys _ _ G ((c :: p) ++ us)) as (k & Ek); [unfold look; rewrite Ew; congruence|].
        specialize (Same k). unfold getitem in Same. rewrite <- Ek, Ew, Ev in Same. rewrite walk_app in Same.
        intros F. rewrite F in Same. discriminate. }
      intros p. split; apply Y; intros k; [apply Same|symmetry; apply Same]. }
    split; (intros [I|(p & P & O)]; [auto|right; exists p; split; [apply X, P|exact O]]).
  - exists O. intros fuel fuel' _ _. rewrite A', B' by exact Nd. reflexivity.
Qed.
Print Assumptions nbytes_order.

(** "size of this Trie in bytes": with one object as tokenizer and detokenizer
    (say [tuple]) there is no answer, whatever is in the trie. *)
Theorem nbytes_returns_refuted : exists (i : ids N) (size : nat -> Z), forall (os : list (op N nat (list N))) fuel,
  nbytes i size fuel (fst (run (fun k => k) (fun k => k) new_trie os)) = Err AssertionError.
Proof.
  exists {| id_self := 1; id_length := 2; id_tokenizer := 3; id_detokenizer := 3; id_node := fun _ => 4%nat; id_value := fun _ => 5%nat; id_key := fun _ => 6%nat |}, (fun _ => 8).
  intros os fuel. reflexivity.
Qed.
Print Assumptions nbytes_returns_refuted.

(** [deep_sizeof] (experiments/sizeof.py) takes the word of [nbytes]. *)
Theorem deep_sizeof_of_trie : forall heap x v fuel, SizeofModel.nbytes (heap x) = Some v -> (2 <= fuel)%nat ->
  SizeofModel.deep_sizeof heap fuel x = Ok (Some v).
Proof.
  intros heap x v fuel E F. destruct fuel as [|[|fuel]]; [lia|lia|]. unfold SizeofModel.deep_sizeof. cbn [SizeofModel.size_loop SizeofModel.popitem rev app]. rewrite E. reflexivity.
Qed.
Print Assumptions deep_sizeof_of_trie.

(** Two words set in two orders: five nodes, the token of "a" one object. *)
Definition heavy (ws : list string) : trie str nat := fst (run chars join new_trie (map (fun w => SetItem (w_ w) 7%nat) ws)).
Definition tuple_ids : ids str := {|
  id_self := 1; id_length := 2; id_tokenizer := 3; id_detokenizer := 4;
  id_node := fun p => (100 + 10 * List.length p + match last p [] with [c] => N.to_nat c - 97 | _ => 0 end)%nat;
  id_value := fun p => if eqd p (chars (w_ "ab")) then 5%nat else if eqd p (chars (w_ "aab")) then 5%nat else 6%nat;
  id_key := fun p => match last p [] with [c] => N.to_nat c | _ => 0%nat end |}.
Example nbytes_case :
  nbytes tuple_ids (fun o => Z.of_nat o) 10 (heavy ["ab"; "aab"]) = nbytes tuple_ids (fun o => Z.of_nat o) 10 (heavy ["aab"; "ab"]) /\
  nbytes tuple_ids (fun o => Z.of_nat o) 10 (heavy ["ab"; "aab"]) = Ok (Some (1 + 2 + 3 + 4 + (100 + 110 + 121 + 120 + 131) + (5 + 6) + (97 + 98))) /\
  nbytes tuple_ids (fun o => Z.of_nat o) 4 (heavy ["ab"; "aab"]) = Ok None.
Proof. vm_compute. auto. Qed.
