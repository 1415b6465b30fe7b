(** Facts about the tree of nodes of [Trie]. *)
From Coq Require Import ZArith NArith List Bool Permutation Lia Sorted.
From Verif Require Import Py ListAux PyDict TrieModel.
Import ListNotations.

Section Nodes.
Context {T V : Type} `{EqDec T}.
Notation node := (node T V).

Section Ind.
  Variable P : node -> Prop.
  Hypothesis HN : forall v cs, Forall (fun tc => P (snd tc)) cs -> P (Node v cs).
  Fixpoint node_ind' (n : node) : P n :=
    match n with
    | Node v cs => HN v cs ((fix go l : Forall (fun tc => P (snd tc)) l :=
        match l with [] => Forall_nil _ | tc :: l' => Forall_cons tc (node_ind' (snd tc)) (go l') end) cs)
    end.
End Ind.

(** The value stored under a token sequence. *)
Definition look (ts : list T) (n : node) : option V :=
  match walk ts n with Some h => value h | None => None end.

Inductive wf : node -> Prop :=
| wf_node v cs : dwf cs -> Forall (fun tc => wf (snd tc)) cs -> wf (Node v cs).

(** No dead branches below. *)
Inductive live : node -> Prop :=
| live_node v cs : v <> None \/ cs <> [] -> Forall (fun tc => live (snd tc)) cs -> live (Node v cs).

Definition live_below (n : node) : Prop := Forall (fun tc => live (snd tc)) (children n).

Lemma live_split n : live n <-> (value n <> None \/ children n <> []) /\ live_below n.
Proof. split; [intros []; auto|destruct n; intros []; constructor; auto]. Qed.

Lemma wf_split n : wf n <-> dwf (children n) /\ Forall (fun tc => wf (snd tc)) (children n).
Proof. split; [intros []; auto|destruct n; intros []; constructor; auto]. Qed.

Lemma wf_new : wf new_node.
Proof. constructor; constructor. Qed.

Lemma wf_child n t c : wf n -> dget t (children n) = Some c -> wf c.
Proof. intros W E. apply wf_split in W. destruct W as [_ F]. rewrite Forall_forall in F. apply (F (t, c)). apply dget_In; auto. Qed.
Lemma live_child n t c : live_below n -> dget t (children n) = Some c -> live c.
Proof. intros W E. unfold live_below in W. rewrite Forall_forall in W. apply (W (t, c)). apply dget_In; auto. Qed.

Lemma look_nil n : look [] n = value n.
Proof. reflexivity. Qed.
Lemma look_cons t ts n : look (t :: ts) n = match dget t (children n) with Some c => look ts c | None => None end.
Proof. unfold look. cbn [walk]. destruct (dget t (children n)); reflexivity. Qed.
Lemma look_new ts : look ts new_node = None.
Proof. destruct ts; reflexivity. Qed.
Lemma look_childless ts n : value n = None -> children n = [] -> look ts n = None.
Proof. intros E1 E2. destruct ts; [exact E1|]. rewrite look_cons, E2. reflexivity. Qed.

Lemma walk_app ts us (n : node) : walk (ts ++ us) n = match walk ts n with Some h => walk us h | None => None end.
Proof. revert n; induction ts as [|t ts IH]; intros n; cbn [walk app]; auto. destruct (dget t (children n)); auto. Qed.

Lemma Forall_dset {A} (P : A -> Prop) (d : list (T * A)) k v :
  P v -> Forall (fun tc => P (snd tc)) d -> Forall (fun tc => P (snd tc)) (dset k v d).
Proof.
  intros Pv. induction d as [|[a b] d IH]; intros F; cbn [dset]; [repeat constructor; auto|]. inversion F; subst.
  destruct (eqd k a); constructor; auto.
Qed.
Lemma Forall_ddel {A} (P : A -> Prop) (d : list (T * A)) k :
  Forall (fun tc => P (snd tc)) d -> Forall (fun tc => P (snd tc)) (ddel k d).
Proof. induction d as [|[a b] d IH]; intros F; cbn [ddel]; [auto|]. inversion F; subst. destruct (eqd k a); [auto|constructor; auto]. Qed.

(** ** Setting *)

Lemma look_put ts v n us : look us (put ts v n) = if eqd us ts then Some v else look us n.
Proof.
  revert n us; induction ts as [|t ts IH]; intros n us; cbn [put].
  - destruct us as [|u us]; [destruct (eqd [] []); [reflexivity|congruence]|]. rewrite !look_cons. cbn [children].
    destruct (eqd (u :: us) []); [discriminate|reflexivity].
  - destruct us as [|u us].
    + rewrite look_nil. cbn [value]. destruct (eqd [] (t :: ts)); [discriminate|reflexivity].
    + rewrite !look_cons. cbn [children]. destruct (eqd u t) as [->|N].
      * rewrite dget_dset_eq, IH. destruct (eqd us ts) as [->|N].
        { destruct (eqd (t :: ts) (t :: ts)); [reflexivity|congruence]. }
        { destruct (eqd (t :: us) (t :: ts)); [congruence|]. destruct (dget t (children n)); [reflexivity|apply look_new]. }
      * rewrite dget_dset_neq by auto. destruct (eqd (u :: us) (t :: ts)); [congruence|reflexivity].
Qed.

Lemma put_wf ts v n : wf n -> wf (put ts v n).
Proof.
  revert n; induction ts as [|t ts IH]; intros n W; cbn [put].
  - apply wf_split in W. constructor; apply W.
  - pose proof W as W'. apply wf_split in W. destruct W as [D F]. constructor; [apply dset_wf; auto|].
    apply Forall_dset; auto. apply IH. destruct (dget t (children n)) eqn:E; [eapply wf_child; eauto|apply wf_new].
Qed.

Lemma dset_nonempty {A} (d : list (T * A)) k v : dset k v d <> [].
Proof. destruct d as [|[a b] d]; cbn [dset]; [discriminate|]. destruct (eqd k a); discriminate. Qed.

Lemma put_live ts v n : live_below n -> live (put ts v n).
Proof.
  revert n; induction ts as [|t ts IH]; intros n L; cbn [put].
  - constructor; [left; discriminate|exact L].
  - constructor; [right; apply dset_nonempty|]. apply Forall_dset; auto. apply IH.
    destruct (dget t (children n)) eqn:E; [|constructor]. apply (live_child n t n0) in L; auto. apply live_split in L. apply L.
Qed.

(** ** Removing *)

Lemma remove_value ts (n : node) : snd (remove ts n) = true -> value (fst (remove ts n)) = None.
Proof.
  destruct ts as [|t ts]; cbn [remove]; [reflexivity|]. destruct (dget t (children n)) as [c|]; [|discriminate].
  destruct (remove ts c) as [c' r]. destruct (r && _); cbn [fst snd]; [|discriminate].
  destruct (value n) eqn:E; [discriminate|]. auto.
Qed.

Lemma look_remove ts n us : wf n -> look ts n <> None -> look us (fst (remove ts n)) = if eqd us ts then None else look us n.
Proof.
  revert n us; induction ts as [|t ts IH]; intros n us W L; cbn [remove].
  - cbn [fst]. destruct us as [|u us]; [destruct (eqd [] []); [reflexivity|congruence]|].
    rewrite !look_cons. cbn [children]. destruct (eqd (u :: us) []); [discriminate|reflexivity].
  - rewrite look_cons in L. destruct (dget t (children n)) as [c|] eqn:E; [|congruence].
    assert (Wc : wf c) by (eapply wf_child; eauto). assert (Wd : dwf (children n)) by (apply wf_split; auto).
    specialize (IH c). pose proof (remove_value ts c) as RV. destruct (remove ts c) as [c' r]. cbn [fst snd] in *.
    assert (G : look us (Node (value n) (dset t c' (children n))) = if eqd us (t :: ts) then None else look us n).
    { destruct us as [|u us].
      - destruct (eqd [] (t :: ts)); [discriminate|reflexivity].
      - rewrite !look_cons. cbn [children]. destruct (eqd u t) as [->|N].
        + rewrite dget_dset_eq, IH by auto. rewrite E. destruct (eqd us ts), (eqd (t :: us) (t :: ts)); congruence.
        + rewrite dget_dset_neq by auto. destruct (eqd (u :: us) (t :: ts)); [congruence|reflexivity]. }
    destruct (r && _) eqn:B; cbn [fst]; [|exact G]. apply andb_true_iff in B. destruct B as [-> B].
    rewrite <- G. destruct us as [|u us]; [reflexivity|]. rewrite !look_cons. cbn [children]. destruct (eqd u t) as [->|N].
    + rewrite dget_ddel_eq, dget_dset_eq by auto. symmetry. apply look_childless; auto. destruct (children c'); [reflexivity|discriminate].
    + rewrite dget_ddel_neq, dget_dset_neq by auto. reflexivity.
Qed.

Lemma remove_wf ts n : wf n -> wf (fst (remove ts n)).
Proof.
  revert n; induction ts as [|t ts IH]; intros n W; cbn [remove].
  - apply wf_split in W. constructor; apply W.
  - destruct (dget t (children n)) as [c|] eqn:E; [|exact W]. pose proof (wf_child n t c W E) as Wc. specialize (IH c Wc).
    destruct (remove ts c) as [c' r]. apply wf_split in W. destruct W as [D F].
    destruct (r && _); cbn [fst]; constructor.
    + apply ddel_wf; auto.
    + apply Forall_ddel; auto.
    + apply dset_wf; auto.
    + apply Forall_dset; auto.
Qed.

Lemma remove_live ts n : look ts n <> None -> live_below n ->
  live_below (fst (remove ts n)) /\ (snd (remove ts n) = false -> live (fst (remove ts n))).
Proof.
  revert n; induction ts as [|t ts IH]; intros n L B; cbn [remove].
  - split; [exact B|discriminate].
  - rewrite look_cons in L. destruct (dget t (children n)) as [c|] eqn:E; [|congruence].
    assert (Lc : live c) by (eapply live_child; eauto). pose proof Lc as Lc'. apply live_split in Lc'. destruct Lc' as [_ Lb].
    destruct (IH c L Lb) as [IH1 IH2]. destruct (remove ts c) as [c' r]. cbn [fst snd] in *.
    destruct r; cbn [andb].
    + destruct (children c') as [|x l] eqn:Ec; cbn [fst snd].
      * assert (X : live_below (Node (value n) (ddel t (children n)))) by (apply Forall_ddel; exact B). split; [exact X|].
        intros Hv. apply live_split. split; [|exact X]. left. cbn [value]. destruct (value n); [discriminate|discriminate Hv].
      * assert (Lc2 : live c') by (apply live_split; split; [right; rewrite Ec; discriminate|exact IH1]).
        assert (X : live_below (Node (value n) (dset t c' (children n)))) by (apply Forall_dset; auto). split; [exact X|].
        intros _. apply live_split. split; [|exact X]. right. apply dset_nonempty.
    + cbn [fst snd]. assert (X : live_below (Node (value n) (dset t c' (children n)))) by (apply Forall_dset; auto). split; [exact X|].
      intros _. apply live_split. split; [|exact X]. right. apply dset_nonempty.
Qed.

(** ** Setting a new key and removing it again *)

Lemma dset_same {A} (d : list (T * A)) k v : dget k d = Some v -> dset k v d = d.
Proof.
  induction d as [|[a b] d IH]; cbn [dset dget]; [discriminate|]. destruct (eqd k a) as [->|]; [congruence|]. intros E. rewrite IH; auto.
Qed.
Lemma dset_dset {A} (d : list (T * A)) k v w : dset k w (dset k v d) = dset k w d.
Proof.
  induction d as [|[a b] d IH]; cbn [dset].
  - destruct (eqd k k); [reflexivity|congruence].
  - destruct (eqd k a) as [->|N]; cbn [dset]; [destruct (eqd a a); [reflexivity|congruence]|]. destruct (eqd k a); [congruence|]. rewrite IH. reflexivity.
Qed.
Lemma ddel_dset_new {A} (d : list (T * A)) k v : dget k d = None -> ddel k (dset k v d) = d.
Proof.
  induction d as [|[a b] d IH]; cbn [dset dget ddel].
  - destruct (eqd k k); [reflexivity|congruence].
  - destruct (eqd k a) as [->|N]; [discriminate|]. intros E. cbn [ddel]. destruct (eqd k a); [congruence|]. rewrite IH; auto.
Qed.

Lemma node_eta (n : node) : Node (value n) (children n) = n.
Proof. destruct n; reflexivity. Qed.

Lemma remove_put_new ts (v : V) : remove ts (put ts v new_node) = (new_node, true).
Proof.
  induction ts as [|t ts IH]; cbn [put remove]; [reflexivity|]. cbn [children new_node dget dset value].
  destruct (eqd t t); [|congruence]. fold (@new_node T V). rewrite IH. cbn [andb children new_node ddel].
  destruct (eqd t t); [reflexivity|congruence].
Qed.

Lemma remove_put ts v n : look ts n = None -> live_below n ->
  fst (remove ts (put ts v n)) = n /\ (snd (remove ts (put ts v n)) = true -> value n = None).
Proof.
  revert n; induction ts as [|t ts IH]; intros n L B; cbn [put remove].
  - rewrite look_nil in L. cbn [fst snd children]. rewrite <- L at 1. rewrite node_eta. auto.
  - cbn [children value]. rewrite dget_dset_eq. rewrite look_cons in L. destruct (dget t (children n)) as [c|] eqn:E.
    + assert (Lc : live c) by (eapply live_child; eauto). apply live_split in Lc. destruct Lc as [Lc Lb].
      destruct (IH c L Lb) as [I1 I2]. destruct (remove ts (put ts v c)) as [c' r]. cbn [fst snd] in *. subst c'.
      destruct (r && _) eqn:X.
      * exfalso. apply andb_true_iff in X. destruct X as [-> X]. destruct (children c) eqn:Ec; [|discriminate].
        specialize (I2 eq_refl). destruct Lc; congruence.
      * cbn [fst snd]. rewrite dset_dset, dset_same by auto. rewrite node_eta. split; [reflexivity|discriminate].
    + rewrite remove_put_new. cbn [andb children new_node fst snd]. rewrite ddel_dset_new by auto. rewrite node_eta. split; [reflexivity|].
      destruct (value n); [discriminate|reflexivity].
Qed.

(** ** Enumeration *)

Definition own (n : node) : list (list T * V) := match value n with Some v => [([], v)] | None => [] end.
Definition under (t : T) (kv : list T * V) : list T * V := (t :: fst kv, snd kv).

Fixpoint paths (n : node) : list (list T * V) :=
  match n with
  | Node _ cs => (fix go l := match l with [] => [] | (t, c) :: l' => go l' ++ map (under t) (own c ++ paths c) end) cs
  end.
Definition all_paths (n : node) : list (list T * V) := own n ++ paths n.

Fixpoint paths_of (cs : list (T * node)) : list (list T * V) :=
  match cs with [] => [] | (t, c) :: l' => paths_of l' ++ map (under t) (all_paths c) end.
Lemma paths_unfold n : paths n = paths_of (children n).
Proof. destruct n as [v cs]. cbn [paths children]. induction cs as [|[t c] cs IH]; reflexivity || (cbn [paths_of]; rewrite <- IH; reflexivity). Qed.

Lemma in_own ts v n : In (ts, v) (own n) <-> ts = [] /\ value n = Some v.
Proof.
  unfold own. destruct (value n) as [x|]; simpl; split; intros E.
  - destruct E as [[= <- <-]|[]]; auto.
  - destruct E as [-> [= ->]]; auto.
  - destruct E.
  - destruct E; discriminate.
Qed.

Lemma in_paths_of ts v cs : In (ts, v) (paths_of cs) <-> exists t c us, In (t, c) cs /\ ts = t :: us /\ In (us, v) (all_paths c).
Proof.
  induction cs as [|[t c] cs IH]; cbn [paths_of].
  - split; [intros []|intros (? & ? & ? & [] & _)].
  - rewrite in_app_iff, IH, in_map_iff. split.
    + intros [(t' & c' & us & I & R)|([us x] & [= <- <-] & I)].
      * exists t', c', us. simpl; auto.
      * exists t, c, us. simpl; auto.
    + intros (t' & c' & us & [[= -> ->]|I] & -> & R).
      * right. exists (us, v). auto.
      * left. exists t', c', us. auto.
Qed.

Lemma in_all_paths ts v n : wf n -> (In (ts, v) (all_paths n) <-> look ts n = Some v).
Proof.
  revert ts; induction n as [x cs IH] using node_ind'. intros ts W. unfold all_paths. rewrite in_app_iff, paths_unfold, in_own, in_paths_of.
  pose proof W as W'. apply wf_split in W'. destruct W' as [D F]. cbn [children value] in *. rewrite Forall_forall in IH, F. split.
  - intros [[-> E]|(t & c & us & I & -> & E)]; [exact E|]. rewrite look_cons. cbn [children]. rewrite (In_dget t c cs) by auto.
    pose proof (F (t, c) I) as Wc. apply (IH (t, c)); auto.
  - destruct ts as [|t us]; [intros E; left; auto|]. rewrite look_cons. cbn [children]. destruct (dget t cs) as [c|] eqn:E; [|discriminate].
    intros L. right. exists t, c, us. apply dget_In in E. split; auto. split; auto. pose proof (F (t, c) E) as Wc. apply (IH (t, c)); auto.
Qed.

Lemma NoDup_app_intro {A} (l m : list A) : NoDup l -> NoDup m -> (forall x, In x l -> ~ In x m) -> NoDup (l ++ m).
Proof.
  induction l as [|a l IH]; intros N M D; cbn; auto. inversion N; subst. constructor.
  - rewrite in_app_iff. intros [I|I]; [auto|]. apply (D a); simpl; auto.
  - apply IH; auto. intros x I. apply D. simpl; auto.
Qed.

Lemma all_paths_nodup n : wf n -> NoDup (map fst (all_paths n)).
Proof.
  induction n as [x cs IH] using node_ind'. intros W. apply wf_split in W. destruct W as [D F]. cbn [children] in *.
  unfold all_paths. rewrite map_app, paths_unfold. cbn [children].
  assert (G : NoDup (map fst (paths_of cs))).
  { clear x. revert IH F D. induction cs as [|[t c] cs IHc]; intros IH F D; cbn [paths_of]; [constructor|].
    inversion IH; subst. inversion F; subst. unfold dwf in D. cbn [dkeys map fst] in D. inversion D; subst. rewrite map_app.
    apply NoDup_app_intro; auto.
    - rewrite map_map. unfold under. cbn [fst snd] in *. rewrite <- (map_map fst (cons t)). apply FinFun.Injective_map_NoDup; auto. intros a b [= E]. auto.
    - intros ts I J. apply in_map_iff in I. destruct I as ([ts' v] & <- & I). apply in_paths_of in I. destruct I as (t' & c' & us & I & -> & _).
      apply in_map_iff in J. destruct J as ([k w] & E & J). apply in_map_iff in J. destruct J as ([k' w'] & E' & _). unfold under in E'. cbn in *.
      injection E' as <- <-. injection E as <- _. apply H6. apply in_map_iff. exists (t, c'). auto. }
  unfold own. destruct (value (Node x cs)); cbn [map app]; auto. constructor; auto. intros I. apply in_map_iff in I.
  destruct I as ([ts w] & E & I). apply in_paths_of in I. destruct I as (t & c & us & _ & -> & _). discriminate.
Qed.

(** The stack machine. *)
Definition below (path : list T) (kv : list T * V) : list T * V := (path ++ fst kv, snd kv).

Lemma size_unfold (n : node) : size n = S (list_sum (map (fun tc => size (snd tc)) (children n))).
Proof.
  destruct n as [v cs]. cbn [size children]. f_equal. induction cs as [|[t c] cs IH]; reflexivity || (cbn [map]; change (list_sum (?a :: ?l)) with (a + list_sum l)%nat; rewrite <- IH; reflexivity).
Qed.

Definition cost_of (cs : list (T * node)) : nat := 2 * list_sum (map (fun tc => size (snd tc)) cs).

Lemma removelast_snoc {A} (l : list A) x : removelast (l ++ [x]) = l.
Proof. rewrite removelast_app by discriminate. cbn. apply app_nil_r. Qed.

Lemma items_loop_run n : wf n -> forall l r, children n = l ++ r -> forall fuel path stack out,
  items_loop (cost_of l + fuel) path ((n, rev (dkeys l)) :: stack) out =
  items_loop fuel path ((n, []) :: stack) (out ++ map (below path) (paths_of l)).
Proof.
  induction n as [v cs IH] using node_ind'. intros W. apply wf_split in W. destruct W as [D F]. cbn [children] in *.
  induction l as [|[t c] l IHl] using rev_ind; intros r E fuel path stack out.
  - cbn [paths_of map]. rewrite app_nil_r. reflexivity.
  - assert (Ec : dget t cs = Some c).
    { apply In_dget; auto. rewrite E. rewrite !in_app_iff. simpl. auto. }
    assert (Ic : In (t, c) cs) by (apply dget_In; auto).
    unfold dkeys. rewrite map_app, rev_app_distr. cbn [map rev app fst].
    assert (Ez : cost_of (l ++ [(t, c)]) = S (cost_of (children c) + S (cost_of l))).
    { unfold cost_of. rewrite map_app, list_sum_app. cbn [map list_sum fold_right snd]. rewrite (size_unfold c). lia. }
    rewrite Ez. cbn [Nat.add items_loop]. cbn [children]. rewrite Ec.
    rewrite Forall_forall in IH, F.
    assert (Wc : wf c) by apply (F _ Ic).
    rewrite <- Nat.add_assoc.
    pose proof (IH (t, c) Ic Wc (children c) [] ltac:(cbn [snd]; rewrite app_nil_r; reflexivity)) as Hc. cbn [snd] in Hc. rewrite Hc. clear Hc.
    cbn [Nat.add items_loop]. destruct (path ++ [t]) eqn:Ep; [destruct path; discriminate|]. rewrite <- Ep, removelast_snoc.
    change (map fst l) with (dkeys l). rewrite (IHl ((t, c) :: r)) by (rewrite E, <- app_assoc; reflexivity).
    f_equal. 
    assert (Pl : forall l, paths_of (l ++ [(t, c)]) = map (under t) (all_paths c) ++ paths_of l).
    { clear. induction l as [|[a b] l IH]; cbn [app paths_of]; [rewrite app_nil_r; reflexivity|]. rewrite IH, app_assoc. reflexivity. }
    rewrite Pl, map_app, app_assoc. f_equal. unfold all_paths. rewrite !map_app, app_assoc.
    assert (Eo : (match value c with Some v0 => out ++ [(path ++ [t], v0)] | None => out end) = out ++ map (below path) (map (under t) (own c))).
    { unfold own. destruct (value c); cbn [map]; [reflexivity|rewrite app_nil_r; reflexivity]. }
    rewrite Eo. f_equal. rewrite map_map, paths_unfold. apply map_ext. intros [us w]. unfold below, under. cbn [fst snd]. rewrite <- app_assoc. reflexivity.
Qed.

Lemma items_tokens_ok (t : trie T V) : wf (root t) -> items_tokens t = Ok (paths (root t)).
Proof.
  intros W. unfold items_tokens. rewrite size_unfold.
  set (k := list_sum _). assert (Ek : S (2 * S k) = (cost_of (children (root t)) + 3)%nat) by (unfold cost_of; fold k; lia).
  rewrite Ek. rewrite (items_loop_run (root t) W (children (root t)) []) by (rewrite app_nil_r; reflexivity).
  cbn [items_loop]. rewrite paths_unfold. cbn [app]. f_equal. rewrite <- (map_id (paths_of _)) at 2. apply map_ext. intros [ts v]. reflexivity.
Qed.

Lemma in_paths ts v n : wf n -> (In (ts, v) (paths n) <-> ts <> [] /\ look ts n = Some v).
Proof.
  intros W. rewrite <- (in_all_paths ts v n W). unfold all_paths. rewrite in_app_iff, in_own. split.
  - intros I. split; auto. rewrite paths_unfold in I. apply in_paths_of in I. destruct I as (? & ? & ? & _ & -> & _). discriminate.
  - intros [N [[-> _]|I]]; [congruence|auto].
Qed.

Lemma paths_nodup n : wf n -> NoDup (map fst (paths n)).
Proof.
  intros W. apply all_paths_nodup in W. unfold all_paths in W. rewrite map_app in W. revert W. generalize (map fst (own n)). clear.
  intros l. induction l as [|a l IH]; auto. intros W. inversion W; auto.
Qed.

(** With no dead branch, a non-empty tree has an item. *)
Lemma live_has n : live n -> exists ts, look ts n <> None.
Proof.
  induction n as [v cs IH] using node_ind'. intros L. apply live_split in L. cbn [value children] in L. destruct L as [[E|E] B].
  - exists []. exact E.
  - destruct cs as [|[t c] cs]; [congruence|]. inversion IH; subst. unfold live_below in B. cbn [children] in B. inversion B; subst.
    destruct (H2 H4) as (ts & Hts). exists (t :: ts). rewrite look_cons. cbn [children dget]. destruct (eqd t t); [exact Hts|congruence].
Qed.

Lemma children_has n : live_below n -> children n <> [] -> exists ts, ts <> [] /\ look ts n <> None.
Proof.
  intros B E. destruct (children n) as [|[t c] cs] eqn:Ec; [congruence|]. unfold live_below in B. rewrite Ec in B. inversion B; subst.
  destruct (live_has c H2) as (ts & Hts). exists (t :: ts). split; [discriminate|]. rewrite look_cons, Ec. cbn [dget]. destruct (eqd t t); [exact Hts|congruence].
Qed.

Lemma has_children n ts : ts <> [] -> look ts n <> None -> children n <> [].
Proof. intros N L E. destruct ts; [congruence|]. rewrite look_cons, E in L. auto. Qed.

End Nodes.

(** ** Sorting *)
Section SortKeys.
Context {T V : Type} `{EqDec T}.
Notation node := (node T V).
Variable (leb : T -> T -> bool) (asc : bool).

Definition sorted_child (tc : T * node) : T * node := (fst tc, sort_node leb asc (snd tc)).

Lemma sort_unfold (n : node) : sort_node leb asc n = Node (value n) (sorted_keys leb asc (map sorted_child (children n))).
Proof. destruct n; reflexivity. Qed.

Lemma sort_perm (n : node) : Permutation (children (sort_node leb asc n)) (map sorted_child (children n)).
Proof. rewrite sort_unfold. cbn [children]. apply isort_perm. Qed.

Lemma dkeys_sorted_child cs : dkeys (map sorted_child cs) = dkeys cs.
Proof. unfold dkeys. rewrite map_map. reflexivity. Qed.

Lemma dwf_perm {A} (d e : list (T * A)) : Permutation d e -> dwf d -> dwf e.
Proof. unfold dwf, dkeys. intros P W. eapply Permutation_NoDup; [|exact W]. apply Permutation_map; auto. Qed.

Lemma dget_perm {A} (d e : list (T * A)) k : Permutation d e -> dwf d -> dget k d = dget k e.
Proof.
  intros P W. destruct (dget k d) as [v|] eqn:E.
  - symmetry. apply In_dget; [eapply dwf_perm; eauto|]. eapply Permutation_in; [exact P|]. apply dget_In; auto.
  - symmetry. apply dget_None. apply dget_None in E. intros I. apply E. unfold dkeys in *. eapply Permutation_in; [|exact I].
    symmetry. apply Permutation_map; auto.
Qed.

Lemma dget_sorted_child k cs : dget k (map sorted_child cs) = option_map (sort_node leb asc) (dget k cs).
Proof. induction cs as [|[t c] cs IH]; cbn [map dget sorted_child fst snd]; auto. destruct (eqd k t); auto. Qed.

Lemma sort_wf (n : node) : wf n -> wf (sort_node leb asc n).
Proof.
  induction n as [v cs IH] using node_ind'. intros W. apply wf_split in W. cbn [children] in W. destruct W as [D F]. apply wf_split. split.
  - eapply dwf_perm; [symmetry; apply sort_perm|]. unfold dwf. rewrite dkeys_sorted_child. exact D.
  - rewrite Forall_forall in *. intros [t c] I. eapply Permutation_in in I; [|apply sort_perm]. apply in_map_iff in I.
    destruct I as ([t' c'] & [= <- <-] & I). cbn [snd fst]. specialize (IH _ I (F _ I)). exact IH.
Qed.

Lemma sort_look (n : node) ts : wf n -> look ts (sort_node leb asc n) = look ts n.
Proof.
  revert n; induction ts as [|t ts IH]; intros n W; [rewrite sort_unfold; reflexivity|].
  rewrite !look_cons. rewrite (dget_perm _ _ t (sort_perm n)).
  - rewrite dget_sorted_child. destruct (dget t (children n)) as [c|] eqn:E; cbn [option_map]; auto. apply IH. eapply wf_child; eauto.
  - apply sort_wf in W. apply wf_split in W. apply W.
Qed.

Lemma sort_live (n : node) : live n -> live (sort_node leb asc n).
Proof.
  induction n as [v cs IH] using node_ind'. intros L. apply live_split in L. cbn [children value] in L. destruct L as [E B]. unfold live_below in B. cbn [children] in B.
  apply live_split. split.
  - rewrite sort_unfold. cbn [value children]. destruct E as [E|E]; [auto|]. right. intros X. apply E.
    pose proof (sort_perm (Node v cs)) as P. rewrite sort_unfold in P. cbn [children] in P. rewrite X in P. apply Permutation_nil in P.
    destruct cs; [reflexivity|discriminate].
  - unfold live_below. rewrite Forall_forall in *. intros [t c] I. eapply Permutation_in in I; [|apply sort_perm]. apply in_map_iff in I.
    destruct I as ([t' c'] & [= <- <-] & I). cbn [snd fst]. exact (IH _ I (B _ I)).
Qed.
Lemma sort_live_below (n : node) : live_below n -> live_below (sort_node leb asc n).
Proof.
  unfold live_below. rewrite !Forall_forall. intros B [t c] I. eapply Permutation_in in I; [|apply sort_perm]. apply in_map_iff in I.
  destruct I as ([t' c'] & [= <- <-] & I). cbn [snd fst]. apply sort_live. exact (B _ I).
Qed.

End SortKeys.
