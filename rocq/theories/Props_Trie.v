(** Theorems about experiments/find_replace_trie.py, [Trie] as a dict:
    properties C38, C39. *)
From Coq Require Import ZArith NArith List Bool Permutation Lia Sorted String.
From Verif Require Import Py ListAux PyDict TrieSpec TrieModel TrieProofs NmdSpec IndexModel Props_Index Ex.
Import ListNotations.
Open Scope string_scope.
Open Scope list_scope.

Section Theorems.
Context {T V K : Type} `{EqDec T}.
Variable tokenizer : K -> list T.
Variable detokenizer : list T -> K.

(** The operations of the model. *)
Definition step (t : trie T V) (o : op T V K) : trie T V * outcome V K :=
  match o with
  | SetItem k v => (setitem tokenizer t k v, Done)
  | SetDefault k v => let (t', x) := setdefault tokenizer t k v in (t', Value x)
  | Pop k => let (t', r) := pop tokenizer detokenizer t k in (t', match r with Ok (k', v) => Item k' v | Err e => Raised e end)
  | Del k => let (t', r) := delitem tokenizer detokenizer t k in (t', match r with Ok _ => Done | Err e => Raised e end)
  | GetItem k => (t, match getitem tokenizer t k with Ok v => Value v | Err e => Raised e end)
  | Get k d => (t, match get tokenizer t k d with Ok v => Value v | Err e => Raised e end)
  | Contains k => (t, Bool (contains tokenizer t k))
  | Items => (t, match items detokenizer t with Ok l => Listed l | Err e => Raised e end)
  | Len => (t, match trie_len detokenizer t with Ok z => Count z | Err e => Raised e end)
  | SortKeys leb asc => (sort_keys leb asc t, Done)
  end.

Fixpoint run (t : trie T V) (os : list (op T V K)) : trie T V * list (outcome V K) :=
  match os with
  | [] => (t, [])
  | o :: os' => let (t1, r) := step t o in let (t2, rs) := run t1 os' in (t2, r :: rs)
  end.

(** What every reachable trie satisfies. *)
Record good (t : trie T V) : Prop := {
  g_wf : wf (root t);
  g_live : live_below (root t);
  g_length : length t = zlen (all_paths (root t));
  g_keys : forall ts, look ts (root t) <> None -> exists k, ts = tokenizer k }.

Lemma good_new : good new_trie.
Proof. constructor; [apply wf_new|constructor|reflexivity|]. intros ts E. cbn [root new_trie] in E. rewrite look_new in E. congruence. Qed.

Lemma count_same (n n' : node T V) : wf n -> wf n' -> (forall ts, look ts n <> None <-> look ts n' <> None) ->
  zlen (all_paths n) = zlen (all_paths n').
Proof.
  intros W W' E. unfold zlen. f_equal. rewrite <- !(map_length fst). apply Permutation_length. apply NoDup_Permutation; try apply all_paths_nodup; auto.
  assert (X : forall (m : node T V) ts, wf m -> (In ts (map fst (all_paths m)) <-> look ts m <> None)).
  { intros m ts Wm. rewrite in_map_iff. split.
    - intros ([ts' v] & <- & I). apply in_all_paths in I; auto. cbn [fst]. congruence.
    - intros L. destruct (look ts m) as [v|] eqn:El; [|congruence]. exists (ts, v). split; auto. apply in_all_paths; auto. }
  intros ts. rewrite !X by auto. apply E.
Qed.

Lemma count_add (n n' : node T V) ts0 : wf n -> wf n' -> look ts0 n = None -> look ts0 n' <> None ->
  (forall ts, ts <> ts0 -> (look ts n <> None <-> look ts n' <> None)) -> zlen (all_paths n') = (zlen (all_paths n) + 1)%Z.
Proof.
  intros W W' E0 E0' E.
  assert (X : forall (m : node T V) ts, wf m -> (In ts (map fst (all_paths m)) <-> look ts m <> None)).
  { intros m ts Wm. rewrite in_map_iff. split.
    - intros ([ts' v] & <- & I). apply in_all_paths in I; auto. cbn [fst]. congruence.
    - intros L. destruct (look ts m) as [v|] eqn:El; [|congruence]. exists (ts, v). split; auto. apply in_all_paths; auto. }
  assert (P : Permutation (map fst (all_paths n')) (ts0 :: map fst (all_paths n))).
  { apply NoDup_Permutation; [apply all_paths_nodup; auto| |].
    - constructor; [|apply all_paths_nodup; auto]. rewrite X by auto. congruence.
    - intros ts. simpl. rewrite !X by auto. destruct (eqd ts ts0) as [->|N]; [tauto|]. rewrite <- (E ts N). intuition congruence. }
  apply Permutation_length in P. cbn [List.length] in P. rewrite !map_length in P. unfold zlen. lia.
Qed.

Lemma good_put t k v : good t ->
  good {| root := put (tokenizer k) v (root t);
          length := match look (tokenizer k) (root t) with None => length t + 1 | Some _ => length t end |}.
Proof.
  intros [W L C S]. constructor; cbn [root length].
  - apply put_wf; auto.
  - apply put_live with (ts := tokenizer k) (v := v) in L. apply live_split in L. apply L.
  - rewrite C. destruct (look (tokenizer k) (root t)) as [x|] eqn:E.
    + apply count_same; auto using put_wf. intros ts. rewrite look_put. destruct (eqd ts (tokenizer k)) as [->|]; [|tauto]. rewrite E. intuition congruence.
    + symmetry. apply (count_add _ _ (tokenizer k)); auto using put_wf.
      * rewrite look_put. destruct (eqd _ _); congruence.
      * intros ts N. rewrite look_put. destruct (eqd ts (tokenizer k)); [congruence|tauto].
  - intros ts. rewrite look_put. destruct (eqd ts (tokenizer k)) as [->|]; eauto.
Qed.

Lemma setitem_length (t : trie T V) k v : length (setitem tokenizer t k v) = match look (tokenizer k) (root t) with None => (length t + 1)%Z | Some _ => length t end.
Proof. unfold setitem, look. cbn [length]. destruct (walk (tokenizer k) (root t)) as [h|]; [|reflexivity]. destruct (value h); reflexivity. Qed.

Lemma good_remove t ts : good t -> look ts (root t) <> None -> good {| root := fst (remove ts (root t)); length := length t - 1 |}.
Proof.
  intros [W L C S] E. constructor; cbn [root length].
  - apply remove_wf; auto.
  - apply remove_live; auto.
  - rewrite C. assert (A : zlen (all_paths (root t)) = (zlen (all_paths (fst (remove ts (root t)))) + 1)%Z); [|lia].
    apply (count_add _ _ ts); auto using remove_wf.
    + rewrite look_remove by auto. destruct (eqd ts ts); congruence.
    + intros us N. rewrite look_remove by auto. destruct (eqd us ts); [congruence|tauto].
  - intros us. rewrite look_remove by auto. destruct (eqd us ts); [congruence|]. auto.
Qed.

Lemma getitem_look (t : trie T V) k : getitem tokenizer t k = match look (tokenizer k) (root t) with Some v => Ok v | None => Err KeyError end.
Proof. unfold getitem, look. destruct (walk (tokenizer k) (root t)) as [h|]; [|reflexivity]. destruct (value h); reflexivity. Qed.

Definition contents (t : trie T V) (ts : list T) : option V := look ts (root t).

Lemma some_key_children t : good t -> (some_key (contents t) <-> children (root t) <> []).
Proof.
  intros G. split.
  - intros (ts & N & L). eapply has_children; eauto.
  - intros N. apply children_has in N; [exact N|apply (g_live t G)].
Qed.

Lemma pop_spec t k : good t ->
  pop tokenizer detokenizer t (Some k) =
  match children (root t), look (tokenizer k) (root t) with
  | _ :: _, Some v => ({| root := fst (remove (tokenizer k) (root t)); length := length t - 1 |}, Ok (k, v))
  | _, _ => (t, Err KeyError)
  end.
Proof.
  intros G. unfold pop, look. destruct (children (root t)); [reflexivity|].
  destruct (walk (tokenizer k) (root t)) as [h|]; [|reflexivity]. destruct (value h); reflexivity.
Qed.

Lemma items_ok t : good t -> items detokenizer t = Ok (map (fun kv => (detokenizer (fst kv), snd kv)) (paths (root t))).
Proof. intros G. unfold items. rewrite items_tokens_ok by apply (g_wf t G). reflexivity. Qed.

Lemma len_spec t : good t -> trie_len detokenizer t =
  match look [] (root t) with None => Ok (zlen (all_paths (root t))) | Some _ => Err AssertionError end.
Proof.
  intros G. unfold trie_len. rewrite items_ok by auto. cbn [bind]. rewrite (g_length t G). unfold zlen. rewrite map_length.
  unfold all_paths, own. rewrite look_nil. destruct (value (root t)); cbn [app List.length].
  - destruct (Z.eqb_spec (Z.of_nat (S (List.length (paths (root t))))) (Z.of_nat (List.length (paths (root t))))); [lia|reflexivity].
  - rewrite Z.eqb_refl. reflexivity.
Qed.

Lemma lists_paths t : good t -> lists_keys (fun ts => ts <> []) (contents t) (paths (root t)).
Proof. intros G. split; [apply paths_nodup, (g_wf t G)|]. intros ts v. apply in_paths, (g_wf t G). Qed.

Lemma lists_all_paths t : good t -> lists_keys (fun _ => True) (contents t) (all_paths (root t)).
Proof. intros G. split; [apply all_paths_nodup, (g_wf t G)|]. intros ts v. rewrite in_all_paths by apply (g_wf t G). tauto. Qed.

Lemma same_refl (m : list T -> option V) : same m m.
Proof. intros ts. reflexivity. Qed.

(** [pop()] on a non-empty trie. *)
Lemma pop_first t : good t -> (forall k, tokenizer (detokenizer (tokenizer k)) = tokenizer k) -> children (root t) <> [] ->
  exists ts v rest, paths (root t) = (ts, v) :: rest /\ ts <> [] /\ look ts (root t) = Some v /\
    pop tokenizer detokenizer t None = ({| root := fst (remove ts (root t)); length := length t - 1 |}, Ok (detokenizer ts, v)).
Proof.
  intros G RT N. pose proof (lists_paths t G) as [ND IN].
  destruct (children_has (root t) (g_live t G) N) as (us & Nus & Lus).
  destruct (look us (root t)) as [w|] eqn:Ew; [|congruence].
  assert (I : In (us, w) (paths (root t))) by (apply IN; auto).
  destruct (paths (root t)) as [|[ts v] rest] eqn:Ep; [destruct I|].
  destruct (proj1 (IN ts v) (or_introl eq_refl)) as [Nts Lts]. exists ts, v, rest. split; auto. split; auto. split; auto.
  unfold pop. destruct (children (root t)) eqn:Ec; [congruence|]. rewrite items_ok by auto. rewrite Ep. cbn [bind map fst snd].
  destruct (g_keys t G ts) as (k & Ek); [unfold contents in Lts; congruence|].
  assert (Et : tokenizer (detokenizer ts) = ts) by (rewrite Ek; apply RT). rewrite Et.
  unfold contents, look in Lts. destruct (walk ts (root t)) as [h|]; [|discriminate]. rewrite Lts. reflexivity.
Qed.

Lemma step_ok t o t' r : good t -> (forall k, tokenizer (detokenizer (tokenizer k)) = tokenizer k) \/ o <> Pop None ->
  step t o = (t', r) -> good t' /\ dict_step tokenizer detokenizer (contents t) o r (contents t').
Proof.
  intros G RT E. destruct o as [k v|k v|k|k|k|k d|k| | |leb asc]; cbn [step] in E.
  - injection E as <- <-. split.
    + pose proof (good_put t k v G) as G'. rewrite <- (setitem_length t k v) in G'. exact G'.
    + constructor. intros us. unfold contents, setitem. cbn [root]. apply look_put.
  - unfold setdefault in E. rewrite getitem_look in E. pose proof (good_put t k v G) as G'.
    destruct (look (tokenizer k) (root t)) as [x|] eqn:L; injection E as <- <-.
    + split; auto. apply d_default_old; [exact L|apply same_refl].
    + split; [exact G'|]. apply d_default_new; [exact L|]. intros us. apply look_put.
  - destruct k as [k|].
    + rewrite pop_spec in E by auto. pose proof (some_key_children t G) as SK.
      destruct (children (root t)) as [|c cs] eqn:Ec.
      { injection E as <- <-. split; auto. apply d_pop_missing; [|apply same_refl]. right. rewrite SK. congruence. }
      destruct (look (tokenizer k) (root t)) as [v|] eqn:L; injection E as <- <-.
      * split; [apply good_remove; auto; congruence|]. apply d_pop; [exact L|apply SK; discriminate|]. intros us. unfold contents. cbn [root].
        apply look_remove; [apply (g_wf t G)|congruence].
      * split; auto. apply d_pop_missing; [left; exact L|apply same_refl].
    + destruct RT as [RT|RT]; [|congruence]. pose proof (some_key_children t G) as SK.
      destruct (children (root t)) as [|c cs] eqn:Ec.
      { unfold pop in E. rewrite Ec in E. injection E as <- <-. split; auto. apply d_pop_empty; [rewrite SK; congruence|apply same_refl]. }
      destruct (pop_first t G RT) as (ts & v & rest & _ & N & L & Ep); [congruence|]. rewrite Ep in E. injection E as <- <-.
      split; [apply good_remove; auto; congruence|]. apply d_pop_first; auto. intros us. unfold contents. cbn [root].
      apply look_remove; [apply (g_wf t G)|congruence].
  - destruct k as [k|]; cbn [delitem] in E.
    + rewrite pop_spec in E by auto. pose proof (some_key_children t G) as SK.
      destruct (children (root t)) as [|c cs] eqn:Ec.
      { injection E as <- <-. split; auto. apply d_del_missing; [|apply same_refl]. right. rewrite SK. congruence. }
      destruct (look (tokenizer k) (root t)) as [v|] eqn:L; injection E as <- <-.
      * split; [apply good_remove; auto; congruence|]. apply d_del; [unfold contents; congruence|apply SK; discriminate|]. intros us. unfold contents. cbn [root].
        apply look_remove; [apply (g_wf t G)|congruence].
      * split; auto. apply d_del_missing; [left; exact L|apply same_refl].
    + injection E as <- <-. split; auto. apply d_del_none, same_refl.
  - rewrite getitem_look in E. destruct (look (tokenizer k) (root t)) as [v|] eqn:L; injection E as <- <-; (split; [auto|]).
    + apply d_getitem; [exact L|apply same_refl].
    + apply d_getitem_missing; [exact L|apply same_refl].
  - unfold get in E. rewrite getitem_look in E. destruct (look (tokenizer k) (root t)) as [v|] eqn:L; injection E as <- <-; (split; [auto|]).
    + apply d_get; [exact L|apply same_refl].
    + apply d_get_missing; [exact L|apply same_refl].
  - injection E as <- <-. split; auto. apply d_contains; [|apply same_refl]. unfold contains, contents, look.
    destruct (walk (tokenizer k) (root t)) as [h|]; [destruct (value h)|]; split; congruence.
  - rewrite items_ok in E by auto. injection E as <- <-. split; auto. apply d_items; [apply lists_paths; auto|apply same_refl].
  - rewrite len_spec in E by auto. destruct (look [] (root t)) eqn:L; injection E as <- <-; (split; [auto|]).
    + apply d_len_fails; [unfold contents; congruence|apply same_refl].
    + apply d_len; [exact L|apply lists_all_paths; auto|apply same_refl].
  - injection E as <- <-. assert (Sm : same (contents t) (contents (sort_keys leb asc t))).
    { intros ts. unfold contents, sort_keys. cbn [root]. apply sort_look, (g_wf t G). }
    split; [|apply d_sort; exact Sm]. destruct G as [W L C S]. constructor; cbn [root length sort_keys].
    + apply sort_wf; auto.
    + apply sort_live_below; auto.
    + rewrite C. apply count_same; auto using sort_wf. intros ts. rewrite sort_look by auto. tauto.
    + intros ts. rewrite sort_look by auto. apply S.
Qed.

Lemma run_ok os : (forall k, tokenizer (detokenizer (tokenizer k)) = tokenizer k) \/ ~ In (Pop None) os ->
  forall t, good t -> good (fst (run t os)) /\ dict_run tokenizer detokenizer (contents t) os (snd (run t os)).
Proof.
  induction os as [|o os IH]; intros RT t G; cbn [run]; [split; [auto|constructor]|].
  destruct (step t o) as [t1 r] eqn:E. destruct (step_ok t o t1 r G) as [G1 D]; auto.
  { destruct RT as [RT|N]; auto. right. intros ->. apply N. simpl; auto. }
  destruct (IH ltac:(destruct RT as [RT|N]; [auto|right; intros I; apply N; simpl; auto]) t1 G1) as [G2 R]. destruct (run t1 os) as [t2 rs]. cbn [fst snd] in *. split; auto.
  econstructor; eauto.
Qed.

(** *** C38 *)

(** The outcomes of every history are those of a dict from token sequences. *)
Theorem trie_is_dict : forall os,
  (forall k, tokenizer (detokenizer (tokenizer k)) = tokenizer k) \/ ~ In (Pop None) os ->
  dict_run tokenizer detokenizer (fun _ => None) os (snd (run new_trie os)).
Proof.
  intros os RT. destruct (run_ok os RT new_trie good_new) as [_ R].
  assert (E : forall m m', same m m' -> dict_run tokenizer detokenizer m' os (snd (run new_trie os)) -> dict_run tokenizer detokenizer m os (snd (run new_trie os))).
  { clear. generalize (snd (run (new_trie (T := T) (V := V)) os)). intros rs m m' Sm R. inversion R; subst; [constructor|].
    econstructor; [|eassumption]. unfold same in Sm.
    assert (Ch : forall ts v m'', changed m' ts v m'' -> changed m ts v m'') by (intros ts v m'' C us; rewrite C; destruct (eqd us ts); auto).
    assert (Sa : forall m'', same m' m'' -> same m m'') by (intros m'' C us; rewrite C; auto).
    assert (Sk : some_key m' <-> some_key m) by (split; intros (ts & N & L); exists ts; split; auto; congruence).
    assert (Li : forall P l, lists_keys P m' l -> lists_keys P m l) by (intros P l [A B]; split; auto; intros ts v; rewrite B, Sm; tauto).
    destruct H0; rewrite ?Sm in *; try (econstructor; eauto; rewrite <- ?Sm, <- ?Sk; eauto; fail).
    all: first [apply d_pop_missing | apply d_pop_empty | apply d_del | apply d_del_missing]; auto; tauto. }
  eapply E; [|exact R]. intros ts. apply look_new.
Qed.

(** *** C39 *)

(** No dead branches: every node except the root leads to a value. *)
Theorem trie_pruned : forall os,
  (forall k, tokenizer (detokenizer (tokenizer k)) = tokenizer k) \/ ~ In (Pop None) os ->
  forall ts n, ts <> [] -> walk ts (root (fst (run new_trie os))) = Some n ->
  exists us n' v, walk (ts ++ us) (root (fst (run new_trie os))) = Some n' /\ value n' = Some v.
Proof.
  intros os RT ts n N W. destruct (run_ok os RT new_trie good_new) as [G _].
  assert (L : live n).
  { revert W N. generalize (root (fst (run new_trie os))), (g_live _ G). clear. induction ts as [|t ts IH]; intros m B W N; [congruence|].
    cbn [walk] in W. destruct (dget t (children m)) as [c|] eqn:E; [|discriminate]. assert (Lc : live c) by (eapply live_child; eauto).
    destruct ts as [|t' ts]; [injection W as <-; exact Lc|]. apply (IH c); auto; [apply live_split in Lc; apply Lc|discriminate]. }
  destruct (live_has n L) as (us & Hus). unfold look in Hus. destruct (walk us n) as [n'|] eqn:E; [|congruence].
  destruct (value n') as [v|] eqn:Ev; [|congruence]. exists us, n', v. rewrite walk_app, W. auto.
Qed.

(** [pop()] takes the first of [items()]. *)
Theorem pop_takes_first_item : forall os, (forall k, tokenizer (detokenizer (tokenizer k)) = tokenizer k) ->
  forall l, items detokenizer (fst (run new_trie os)) = Ok l ->
  snd (pop tokenizer detokenizer (fst (run new_trie os)) None) = match l with [] => Err KeyError | kv :: _ => Ok kv end.
Proof.
  intros os RT l El. destruct (run_ok os (or_introl RT) new_trie good_new) as [G _].
  rewrite items_ok in El by auto. injection El as <-. set (t := fst (run new_trie os)) in *.
  destruct (children (root t)) as [|c cs] eqn:Ec.
  - rewrite paths_unfold, Ec. cbn [paths_of map]. unfold pop. rewrite Ec. reflexivity.
  - destruct (pop_first t G RT) as (ts & v & rest & Ep & _ & _ & E); [congruence|]. rewrite Ep, E. reflexivity.
Qed.

(** Adding a new key and removing it gives back the same trie, down to the
    order of [items]. *)
Theorem pop_undoes_setitem : forall os k v,
  (forall k, tokenizer (detokenizer (tokenizer k)) = tokenizer k) \/ ~ In (Pop None) os ->
  let t := fst (run new_trie os) in
  contains tokenizer t k = false -> tokenizer k <> [] ->
  pop tokenizer detokenizer (setitem tokenizer t k v) (Some k) = (t, Ok (k, v)).
Proof.
  intros os k v RT t C N. destruct (run_ok os RT new_trie good_new) as [G _]. fold t in G.
  assert (L : look (tokenizer k) (root t) = None).
  { unfold contains in C. unfold look. destruct (walk (tokenizer k) (root t)) as [h|]; auto. destruct (value h); [discriminate|auto]. }
  pose proof (good_put t k v G) as G'. rewrite L in G'.
  assert (Es : setitem tokenizer t k v = {| root := put (tokenizer k) v (root t); length := length t + 1 |}).
  { pose proof (setitem_length t k v) as SL. rewrite L in SL. unfold setitem in *. cbn [length] in SL. rewrite SL. reflexivity. }
  rewrite Es. rewrite pop_spec by auto. cbn [root length]. rewrite look_put. destruct (eqd (tokenizer k) (tokenizer k)); [|congruence].
  assert (Nc : children (put (tokenizer k) v (root t)) <> []).
  { destruct (tokenizer k) as [|a l]; [congruence|]. cbn [put children]. apply dset_nonempty. }
  destruct (children (put (tokenizer k) v (root t))); [congruence|]. f_equal.
  destruct (remove_put (tokenizer k) v (root t) L (g_live t G)) as [-> _]. destruct t as [r len]. cbn [root length]. f_equal. lia.
Qed.

End Theorems.
Print Assumptions trie_is_dict.
Print Assumptions trie_pruned.
Print Assumptions pop_takes_first_item.
Print Assumptions pop_undoes_setitem.

(** *** The default tokenizer: one token per character *)

(** experiments/find_replace_trie.py:205-211 and 226-228 *)
Definition chars (s : str) : list str := map (fun c => [c]) s.
Definition join (ts : list str) : str := List.concat ts.

Lemma chars_join s : chars (join (chars s)) = chars s.
Proof. unfold chars, join. induction s as [|c s IH]; cbn; [reflexivity|]. f_equal. exact IH. Qed.

(** experiments/find_replace_trie.py:213-217, [lowercase=True] *)
Definition lower_chars (lower : str -> str) (s : str) : list str := map (fun c => lower [c]) s.

Notation set_ k v := (SetItem (w_ k) (w_ v)).

Definition history1 : list (op str str str) :=
  [set_ "asd" "1"; set_ "as" "2"; SetDefault (w_ "asdf") (w_ "3"); Pop (Some (w_ "asd")); Contains (w_ "asd"); Contains (w_ "as"); Len; Items;
   SetDefault (w_ "as") (w_ "4"); GetItem (w_ "a"); Del (Some (w_ "as")); Pop None; Pop None].

(** [trie_is_dict] *)
Example trie_case :
  (forall k, chars (join (chars k)) = chars k) /\
  snd (run chars join new_trie history1) =
  [Done; Done; Value (w_ "3"); Item (w_ "asd") (w_ "1"); Bool false; Bool true; Count 2; Listed [(w_ "as", w_ "2"); (w_ "asdf", w_ "3")];
   Value (w_ "2"); Raised KeyError; Done; Item (w_ "asdf") (w_ "3"); Raised KeyError].
Proof. split; [apply chars_join|]. vm_compute. reflexivity. Qed.

(** [trie_pruned], [pop_takes_first_item], [pop_undoes_setitem]: after some
    operations, three values are left. *)
Example trie_pruned_case :
  let t := fst (run chars join new_trie (firstn 3 history1)) in
  (exists n, walk (chars (w_ "asd")) (root t) = Some n) /\
  snd (pop chars join t None) = Ok (w_ "as", w_ "2") /\
  contains chars t (w_ "ask") = false /\
  pop chars join (setitem chars t (w_ "ask") (w_ "x")) (Some (w_ "ask")) = (t, Ok (w_ "ask", w_ "x")).
Proof. split; [eexists; vm_compute; reflexivity|]. vm_compute. repeat split. Qed.

(** *** Sorting: C52 *)

Section Sorting.
Context {T V : Type} `{EqDec T}.
Variable leb : T -> T -> bool.
Hypothesis leb_total : forall a b, leb a b = true \/ leb b a = true.
Hypothesis leb_trans : forall a b c, leb a b = true -> leb b c = true -> leb a c = true.
Let le a b := leb a b = true.

Lemma SS_app {A} (R : A -> A -> Prop) l m : StronglySorted R l -> StronglySorted R m -> (forall x y, In x l -> In y m -> R x y) -> StronglySorted R (l ++ m).
Proof.
  induction l as [|a l IH]; intros S1 S2 D; cbn; auto. inversion S1; subst. constructor.
  - apply IH; auto. intros x y I J. apply D; simpl; auto.
  - rewrite Forall_forall in *. intros x I. apply in_app_iff in I. destruct I as [I|I]; auto. apply D; simpl; auto.
Qed.

Lemma SS_under t (l : list (list T * V)) : StronglySorted (lex le) (map fst l) -> StronglySorted (lex le) (map fst (map (under t) l)).
Proof.
  rewrite map_map. unfold under. cbn [fst]. rewrite <- (map_map fst (cons t)). induction (map fst l) as [|a m IH]; intros S1; cbn [map]; [constructor|].
  inversion S1; subst. constructor; auto. rewrite Forall_forall in *. intros x I. apply in_map_iff in I. destruct I as (y & <- & I). apply lex_rest. auto.
Qed.

Lemma sorted_desc_paths (cs : list (T * node T V)) : dwf cs ->
  StronglySorted (fun a b => leb (fst b) (fst a) = true) cs -> Forall (fun tc => StronglySorted (lex le) (map fst (all_paths (snd tc)))) cs ->
  StronglySorted (lex le) (map fst (paths_of cs)).
Proof.
  induction cs as [|[t c] cs IH]; intros D S1 F; cbn [paths_of]; [constructor|]. rewrite map_app.
  inversion S1; subst. inversion F; subst. unfold dwf in D. cbn [dkeys map fst] in D. inversion D; subst. cbn [snd] in *.
  apply SS_app; auto.
  - apply SS_under; auto.
  - intros x y I J. apply in_map_iff in I. destruct I as ([x' v] & <- & I). apply in_paths_of in I. destruct I as (t' & c' & us & I & -> & _).
    apply in_map_iff in J. destruct J as ([y' w] & <- & J). apply in_map_iff in J. destruct J as ([z u] & [= <- <-] & _). cbn [fst].
    apply lex_first.
    + rewrite Forall_forall in H3. apply (H3 (t', c')); auto.
    + intros ->. apply H6. apply in_map_iff. exists (t, c'). auto.
Qed.

Lemma all_paths_sorted (n : node T V) : wf n -> StronglySorted (lex le) (map fst (all_paths (sort_node leb true n))).
Proof.
  induction n as [v cs IH] using node_ind'. intros W. pose proof (sort_wf leb true _ W) as W'. apply wf_split in W. cbn [children] in W. destruct W as [D F].
  unfold all_paths. rewrite map_app. apply SS_app.
  - unfold own. destruct (value _); cbn; repeat constructor.
  - rewrite paths_unfold. apply sorted_desc_paths.
    + apply wf_split in W'. apply W'.
    + rewrite sort_unfold. cbn [children]. unfold sorted_keys. 
      apply (isort_sorted (fun a b : T * node T V => leb (fst b) (fst a))).
      * intros a b. apply leb_total.
      * intros a b c X Y. eapply leb_trans; eauto.
    + rewrite Forall_forall in *. intros [t c] I. eapply Permutation_in in I; [|apply sort_perm]. apply in_map_iff in I.
      destruct I as ([t' c'] & [= <- <-] & I). cbn [snd fst]. exact (IH _ I (F _ I)).
  - intros x y I _. apply in_map_iff in I. destruct I as ([x' w] & <- & I). apply in_own in I. destruct I as [-> _]. apply lex_nil.
Qed.

Lemma sorted_paths (t : trie T V) : wf (root t) -> StronglySorted (lex le) (map fst (paths (root (sort_keys leb true t)))).
Proof.
  intros W. pose proof (all_paths_sorted (root t) W) as A. unfold all_paths in A. rewrite map_app in A. cbn [root sort_keys].
  revert A. generalize (map fst (own (sort_node leb true (root t)))). intros l. induction l as [|a l IH]; intros A; auto. inversion A; auto.
Qed.

(** After [sort_keys()] the items come in lexicographic order of their tokens,
    whatever the history, and they are the same items. *)
Theorem sort_keys_ascending : forall {K} (tokenizer : K -> list T) (detokenizer : list T -> K) (os : list (op T V K)),
  (forall k, tokenizer (detokenizer (tokenizer k)) = tokenizer k) \/ ~ In (Pop None) os ->
  let t := fst (run tokenizer detokenizer new_trie os) in
  exists l l', items detokenizer t = Ok (map (fun kv => (detokenizer (fst kv), snd kv)) l) /\
    items detokenizer (sort_keys leb true t) = Ok (map (fun kv => (detokenizer (fst kv), snd kv)) l') /\
    Permutation l l' /\ StronglySorted (lex le) (map fst l') /\
    forall k, getitem tokenizer (sort_keys leb true t) k = getitem tokenizer t k.
Proof.
  intros K tokenizer detokenizer os RT t. destruct (run_ok tokenizer detokenizer os RT new_trie (good_new tokenizer)) as [G _]. fold t in G.
  assert (G' : good tokenizer (sort_keys leb true t)).
  { destruct (step_ok tokenizer detokenizer t (SortKeys leb true) (sort_keys leb true t) Done G) as [G' _]; auto. right. discriminate. }
  exists (paths (root t)), (paths (root (sort_keys leb true t))).
  split; [eapply items_ok; eauto|]. split; [eapply items_ok; eauto|].
  assert (P : Permutation (paths (root t)) (paths (root (sort_keys leb true t)))).
  { assert (W := g_wf _ _ G). assert (W' := g_wf _ _ G').
    apply NoDup_Permutation; [apply (NoDup_map_inv fst), paths_nodup; auto|apply (NoDup_map_inv fst), paths_nodup; auto|].
    intros [ts v]. rewrite !in_paths by auto. unfold sort_keys. cbn [root]. rewrite sort_look by auto. tauto. }
  split; [exact P|]. split.
  - apply sorted_paths, (g_wf _ _ G).
  - intros k. rewrite !getitem_look. unfold sort_keys. cbn [root]. rewrite sort_look by apply (g_wf _ _ G). reflexivity.
Qed.

End Sorting.
Print Assumptions sort_keys_ascending.

(** *** Slices of a sorted trie: C53 *)

Definition str_ltb (a b : str) : bool := negb (str_leb b a).

Lemma lex_join a b : lex (fun x y => str_leb x y = true) (chars a) (chars b) -> str_leb a b = true.
Proof.
  unfold chars. revert b; induction a as [|x a IH]; intros b L; [reflexivity|]. destruct b as [|y b]; [inversion L|].
  cbn [map] in L. cbn [str_leb]. inversion L; subst.
  - cbn [str_leb] in H2. rewrite andb_true_r in H2. apply orb_true_iff in H2. destruct H2 as [E|E]; [rewrite E; reflexivity|].
    apply N.eqb_eq in E. congruence.
  - rewrite N.eqb_refl, (IH b) by auto. apply orb_true_r.
Qed.

Lemma join_chars s : join (chars s) = s.
Proof. unfold join, chars. induction s as [|c s IH]; cbn; [reflexivity|]. f_equal. exact IH. Qed.

(** [trie[start:stop]] after [sort_keys(case_sensitive=False)], default
    tokenizer: the values of the keys from [start] up to [stop]. *)
Theorem slice_of_sorted : forall (V : Type) (os : list (op str V str)) start stop,
  let t := sort_keys str_leb true (fst (run chars join new_trie os)) in
  exists l, items join t = Ok l /\ StronglySorted (fun a b => str_leb (fst a) (fst b) = true) l /\
    item_slice join str_ltb t start stop = Ok (filter (fun kv => str_leb start (fst kv) && str_ltb (fst kv) stop) l) /\
    getslice join str_ltb t start stop = Ok (map snd (filter (fun kv => str_leb start (fst kv) && str_ltb (fst kv) stop) l)).
Proof.
  intros V os start stop t.
  destruct (run_ok chars join os (or_introl chars_join) new_trie (good_new chars)) as [G _].
  set (t0 := fst (run chars join new_trie os)) in *.
  assert (G' : good chars t).
  { destruct (step_ok chars join t0 (SortKeys str_leb true) t Done G) as [G' _]; auto. right. discriminate. }
  pose proof (sorted_paths str_leb str_leb_total str_leb_trans t0 (g_wf _ _ G)) as S1. fold t in S1.
  set (l := map (fun kv => (join (fst kv), snd kv)) (paths (root t))).
  assert (El : items join t = Ok l) by (eapply items_ok; eauto).
  assert (S2 : StronglySorted (fun a b => str_leb (fst a) (fst b) = true) l).
  { unfold l. assert (Tk : forall kv, In kv (paths (root t)) -> exists s, fst kv = chars s).
    { intros [ts v] I. apply (g_keys _ _ G'). apply in_paths in I; [|apply (g_wf _ _ G')]. cbn [fst]. destruct I as [_ ->]. discriminate. }
    revert S1 Tk. generalize (paths (root t)). clear. induction l as [|[ts v] l IH]; intros S1 Tk; cbn [map] in *; [constructor|].
    inversion S1; subst. constructor; [apply IH; auto; intros kv I; apply Tk; simpl; auto|]. rewrite Forall_forall in *. intros kv I.
    apply in_map_iff in I. destruct I as ([us w] & <- & I). cbn [fst snd].
    destruct (Tk (ts, v)) as (a & Ea); [simpl; auto|]. destruct (Tk (us, w)) as (b & Eb); [simpl; auto|]. cbn [fst] in *. subst ts us.
    rewrite !join_chars. apply lex_join. apply H2. apply in_map_iff. exists (chars b, w). auto. }
  assert (Ei : item_slice join str_ltb t start stop = Ok (filter (fun kv => str_leb start (fst kv) && str_ltb (fst kv) stop) l)).
  { unfold item_slice. rewrite El. cbn [bind]. f_equal. clearbody l. clear - S2.
    assert (X : forall out, (fix go (l : list (str * V)) out := match l with
      | [] => out
      | (k, v) :: l' => if negb (str_ltb k stop) then out else if negb (str_ltb k start) then go l' (out ++ [(k, v)]) else go l' out
      end) l out = out ++ filter (fun kv => str_leb start (fst kv) && str_ltb (fst kv) stop) l); [|apply X].
    induction l as [|[k v] l IH]; intros out; [cbn [filter]; rewrite app_nil_r; reflexivity|]. cbn [filter fst].
    inversion S2; subst. destruct (str_leb stop k) eqn:Es.
    - assert (Ek : str_ltb k stop = false) by (unfold str_ltb; rewrite Es; reflexivity). rewrite Ek. cbn [negb]. rewrite andb_false_r.
      assert (F : filter (fun kv : str * V => str_leb start (fst kv) && str_ltb (fst kv) stop) l = []); [|rewrite F, app_nil_r; reflexivity].
      rewrite Forall_forall in H2. clear - H2 Es. induction l as [|[k' v'] l IH]; cbn [filter fst]; auto.
      assert (str_leb stop k' = true) as E by (eapply str_leb_trans; [exact Es|apply (H2 (k', v')); simpl; auto]).
      assert (Ek : str_ltb k' stop = false) by (unfold str_ltb; rewrite E; reflexivity). rewrite Ek, andb_false_r. apply IH. intros x I. apply H2. simpl; auto.
    - assert (Ek : str_ltb k stop = true) by (unfold str_ltb; rewrite Es; reflexivity). rewrite Ek. cbn [negb]. rewrite andb_true_r.
      unfold str_ltb at 1. rewrite negb_involutive. destruct (str_leb start k); rewrite IH by auto; [rewrite <- app_assoc|]; reflexivity. }
  exists l. split; auto. split; auto. split; auto. unfold getslice. rewrite Ei. reflexivity.
Qed.
Print Assumptions slice_of_sorted.

Definition unsorted : list (op str str str) := [set_ "b" "1"; set_ "ca" "2"; set_ "a" "3"; set_ "c" "4"].

(** [sort_keys_ascending], [slice_of_sorted] *)
Example sorting_case :
  let t := sort_keys str_leb true (fst (run chars join new_trie unsorted)) in
  items join t = Ok [(w_ "a", w_ "3"); (w_ "b", w_ "1"); (w_ "c", w_ "4"); (w_ "ca", w_ "2")] /\
  getslice join str_ltb t (w_ "aa") (w_ "ca") = Ok [w_ "1"; w_ "4"].
Proof. vm_compute. auto. Qed.

(** Without sorting, a slice can miss keys in its range. *)
Theorem slice_of_unsorted_refuted : exists (os : list (op str str str)) start stop l kv,
  items join (fst (run chars join new_trie os)) = Ok l /\ In kv l /\ str_leb start (fst kv) = true /\ str_ltb (fst kv) stop = true /\
  item_slice join str_ltb (fst (run chars join new_trie os)) start stop = Ok [].
Proof.
  exists unsorted, (w_ "b"), (w_ "c"). eexists. exists (w_ "b", w_ "1"). split; [vm_compute; reflexivity|]. split; [simpl; auto|]. vm_compute. auto.
Qed.
Print Assumptions slice_of_unsorted_refuted.

(** experiments/find_replace_trie.py:266-268, the sort key of [sort_keys()] with
    its default [case_sensitive=True]: [(token.casefold(), token)]. *)
Definition casefold_leb (casefold : str -> str) (a b : str) : bool :=
  str_ltb (casefold a) (casefold b) || (str_leb (casefold a) (casefold b) && str_leb a b).

(** [str.casefold] on ASCII. *)
Definition ascii_casefold : str -> str := map (fun c => if ((65 <=? c) && (c <=? 90))%N then (c + 32)%N else c).

(** [sort_keys()] with its default arguments orders by casefold first, so a
    slice, which compares plain strings, can still miss keys. *)
Theorem slice_of_default_sort_refuted : exists (os : list (op str str str)) start stop l kv,
  let t := sort_keys (casefold_leb ascii_casefold) true (fst (run chars join new_trie os)) in
  items join t = Ok l /\ In kv l /\ str_leb start (fst kv) = true /\ str_ltb (fst kv) stop = true /\
  item_slice join str_ltb t start stop = Ok [].
Proof.
  exists [set_ "B" "1"; set_ "a" "2"], (w_ "A"), (w_ "C"). eexists. exists (w_ "B", w_ "1"). split; [vm_compute; reflexivity|]. split; [simpl; auto|]. vm_compute. auto.
Qed.
Print Assumptions slice_of_default_sort_refuted.

(** [sort_keys(ascending=False)] is documented as "z-a", but a key still comes
    before its extensions. *)
Theorem sort_keys_descending_refuted : exists (os : list (op str str str)) l,
  items join (sort_keys str_leb false (fst (run chars join new_trie os))) = Ok l /\
  ~ StronglySorted (fun a b => str_leb b a = true) (map fst l).
Proof.
  exists unsorted. eexists. split; [vm_compute; reflexivity|]. intros X. inversion X; subst. inversion H2; subst. vm_compute in H4. discriminate.
Qed.
Print Assumptions sort_keys_descending_refuted.

(** *** What does not hold *)

(** The empty key: [len] fails its own assertion, and [pop] cannot find it
    although it is there. *)
Theorem empty_key_refuted : exists t : trie str str,
  t = fst (run chars join new_trie [set_ "" "x"]) /\ contains chars t [] = true /\
  trie_len join t = Err AssertionError /\ items join t = Ok [] /\ snd (pop chars join t (Some [])) = Err KeyError.
Proof. eexists. split; [reflexivity|]. vm_compute. repeat split. Qed.
Print Assumptions empty_key_refuted.

(** With [lowercase=True], [pop()] can raise KeyError on a trie with keys: the
    lower case of capital I with dot above is two characters, so the key it
    found is split into two tokens. *)
Theorem lowercase_pop_refuted : exists (lower : str -> str) (t : trie str str) l,
  (forall s, lower (lower s) = lower s) /\
  t = fst (run (lower_chars lower) join new_trie [SetItem [304%N] (w_ "x")]) /\
  items join t = Ok l /\ List.length l = 1%nat /\ snd (pop (lower_chars lower) join t None) = Err KeyError.
Proof.
  pose (lower := flat_map (fun c : N => if (c =? 304)%N then [105; 775]%N else [c])).
  exists lower, (fst (run (lower_chars lower) join new_trie [SetItem [304%N] (w_ "x")])), [([105; 775]%N, w_ "x")].
  split; [|vm_compute; repeat split].
  intros s. unfold lower. induction s as [|c s IH]; cbn [flat_map]; [reflexivity|]. rewrite flat_map_app. cbn [flat_map app] in *.
  assert (Hc : flat_map (fun c : N => if (c =? 304)%N then [105; 775]%N else [c]) (if (c =? 304)%N then [105; 775]%N else [c]) =
    (if (c =? 304)%N then [105; 775]%N else [c])).
  { destruct (N.eqb_spec c 304) as [->|N]; [reflexivity|]. cbn [flat_map app]. destruct (N.eqb_spec c 304); [congruence|reflexivity]. }
  rewrite Hc. f_equal. exact IH.
Qed.
Print Assumptions lowercase_pop_refuted.
