(** Property C132: [DAWGNode.__eq__] and [DAWGNode.clone] of experiments/dawg.py. *)
From Coq Require Import ZArith NArith List Bool Permutation Lia Sorted String.
From Verif Require Import Num Py ListAux PyDict NmdSpec IndexModel IndexLoops Props_Index DawgModel DawgRepr DawgProofs DawgFinal DawgAsk DawgQuery DawgLate OrigProofs Ex Props_Dawg Props_DawgStep.
Import ListNotations.
Local Open Scope list_scope.
Local Open Scope nat_scope.

(** ** Model *)

(** experiments/dawg.py:55-56, [__eq__]; [__hash__] (lines 52-53) is a function
    of the same text, so equal nodes have equal hashes. *)
Definition node_eq (repr : N -> str) (ident : nat -> nat) (h : heap) (i j : nat) : result bool :=
  a <- get_node h i ;; b <- get_node h j ;;
  Ok (if list_eq_dec N.eq_dec (node_str repr ident a) (node_str repr ident b) then true else false).

(** experiments/dawg.py:74-83, [clone]: the heap with the new node, and the new
    node.  Setting the items of a dict one by one in an empty dict (lines 80-81)
    gives the same items in the same order. *)
Definition clone (h : heap) (i : nat) : result (heap * nat) :=
  nd <- get_node h i ;;
  match leaf_count nd, final_edges nd with
  | None, None => Ok (h ++ [{| terminal := terminal nd; edges := edges nd; leaf_count := None; final_edges := None |}], List.length h)
  | _, _ => Err AssertionError
  end.

(** ** Proofs *)

Lemma nodup_map_inj {A B} (f : A -> B) l a b : NoDup (map f l) -> In a l -> In b l -> f a = f b -> a = b.
Proof.
  induction l as [|x l IH]; intros H Ha Hb E; [destruct Ha|]. cbn [map] in H. inversion H as [|? ? H1 H2]; subst.
  destruct Ha as [<-|Ha], Hb as [<-|Hb]; auto; exfalso; apply H1; [rewrite E|rewrite <- E]; apply in_map; assumption.
Qed.

(** A list that is what follows [u] in itself has no longest word. *)
Lemma no_loop u ws n : u <> [] -> ws <> [] -> continuations u ws = ws -> (forall w, In w ws -> List.length w < n) -> False.
Proof.
  intros Hu Hw E Hn. assert (X : forall k, exists w, In w ws /\ k <= List.length w).
  { induction k as [|k (w & H1 & H2)]; [destruct ws as [|w ws]; [congruence|]; exists w; split; [left; reflexivity|lia]|].
    exists (u ++ w). rewrite <- E in H1. apply in_continuations in H1. split; [exact H1|]. unfold str in *. rewrite app_length. destruct u; [congruence|]. cbn. lia. }
  destruct (X n) as (w & H1 & H2). specialize (Hn w H1). unfold str in *. lia.
Qed.

Lemma node_iter_more limit : forall h x i l, node_iter limit h i = Ok l -> node_iter limit (h ++ [x]) i = Ok l.
Proof.
  induction limit as [|n IH]; intros h x i l; cbn [node_iter]; [discriminate|]. unfold get_node. destruct (nth_error h i) as [nd|] eqn:E; [|discriminate].
  rewrite nth_error_app1 by (apply nth_error_Some; congruence). rewrite E. cbn [bind]. intros H.
  match type of H with bind ?m _ = _ => destruct m as [rs|] eqn:M; [|discriminate] end. cbn [bind] in H. 
  match goal with |- bind ?m _ = _ => replace m with (Ok (A := list (list str)) rs) end; [exact H|]. symmetry. clear E H.
  revert rs M. induction (sorted_edges nd) as [|e es IHe]; intros rs M; [exact M|]. cbn [mapM] in *. destruct (node_iter n h (snd e)) as [le|] eqn:Ee; [|discriminate].
  rewrite (IH _ x _ _ Ee). cbn [bind] in *. match type of M with bind ?m _ = _ => destruct m as [rs'|] eqn:M'; [|discriminate] end.
  rewrite (IHe _ eq_refl). exact M.
Qed.

Lemma sorted_same (a : list str) : forall b, StronglySorted slt a -> StronglySorted slt b -> (forall s, In s a <-> In s b) -> a = b.
Proof.
  induction a as [|x a IH]; intros [|y b] Ha Hb H; [reflexivity|destruct (proj2 (H y) (or_introl eq_refl))|destruct (proj1 (H x) (or_introl eq_refl))|].
  inversion Ha as [|? ? Ha1 Ha2]; inversion Hb as [|? ? Hb1 Hb2]; subst. rewrite Forall_forall in Ha2, Hb2.
  assert (E : x = y).
  { destruct (proj1 (H x) (or_introl eq_refl)) as [|Hx]; [congruence|]. destruct (proj2 (H y) (or_introl eq_refl)) as [|Hy]; [congruence|].
    exfalso. apply (slt_irrefl x). eapply slt_trans; [apply Ha2, Hy|apply Hb2, Hx]. }
  subst y. f_equal. apply IH; auto. intros s. split; intros Hin.
  - destruct (proj1 (H s) (or_intror Hin)) as [<-|]; auto. exfalso. apply (slt_irrefl x), Ha2, Hin.
  - destruct (proj2 (H s) (or_intror Hin)) as [<-|]; auto. exfalso. apply (slt_irrefl x), Hb2, Hin.
Qed.

Section Node.
Context {D : Type}.
Variables (printable : N -> bool) (ident : nat -> nat).
Hypothesis ident_inj : forall i j, ident i = ident j -> i = j.
Notation finalize := (finalize (D := D) (py_repr printable) ident).
Notation run calls := (run_inserts (py_repr printable) ident calls dawg_init).
Notation node_eq := (node_eq (py_repr printable) ident).

(** In a finalized graph, with any history of insertions, the nodes reached by
    two texts are equal (==) exactly if they are one object, and exactly if the
    same endings follow both texts. *)
Theorem dawg_nodes_equal : forall (calls : list (str * D)) limit g p q n m i j, short limit calls -> finalize limit (run calls) = Ok g ->
  let ws := map fst (accepted calls) in
  follow (nodes g) (0, root g) p = Ok ((n, i), true) -> follow (nodes g) (0, root g) q = Ok ((m, j), true) ->
  exists b, node_eq (nodes g) i j = Ok b /\ (b = true <-> i = j) /\ (i = j <-> forall s, In (p ++ s) ws <-> In (q ++ s) ws).
Proof.
  intros calls limit g p q n m i j [Hp Hs] Ef ws HF HG. destruct (run_spec printable ident ident_inj calls) as (addr & Hb & HU & HD).
  assert (Hs' : forall w, In w ws -> List.length w < limit).
  { intros w Hw. apply in_map_iff in Hw. destruct Hw as ((w' & v) & E & H). cbn in E. subst. eapply Hs; eauto. }
  destruct (finalize_spec _ ident (repr_free printable) ident_inj _ addr _ _ limit Hb Hs' Hp) as (g' & L & E & HR & _ & Dg).
  rewrite Ef in E. injection E as <-. pose proof (r_sound _ _ _ HR) as RS. pose proof (r_done _ _ _ HR) as RD. pose proof (r_root _ _ _ HR) as RR. fold ws in HR, RR.
  assert (X : forall p n i, follow (nodes g) (0, root g) p = Ok ((n, i), true) -> In i (root g :: map snd (minimized g)) /\ L i = continuations p ws).
  { clear p q n m i j HF HG. intros p n i HF. destruct (walk_spec _ _ _ RS RD p 0 (root g) (or_introl eq_refl)) as [W1 W2]. rewrite RR in W1, W2.
    pose proof (follow_walk (nodes g) p (0, root g)) as FW. rewrite HF in FW. destruct (continuations p ws) as [|v l] eqn:Ec.
    - destruct p as [|d p].
      + cbn [follow] in HF. injection HF as _ <-. rewrite continuations_nil in Ec. split; [left; reflexivity|]. rewrite RR. exact Ec.
      + rewrite W2 in FW by (discriminate || reflexivity). discriminate.
    - destruct W1 as (j & J1 & J2 & J3); [discriminate|]. rewrite J2 in FW. injection FW as _ <-. auto. }
  destruct (X _ _ _ HF) as [Xi Li]. destruct (X _ _ _ HG) as [Xj Lj].
  assert (Hroot : forall k, In k (map snd (minimized g)) -> L k <> ws).
  { intros k Hk C. assert (Hst : In (L k) (map L (map snd (minimized g)))) by (apply in_map; exact Hk). apply (r_states _ _ _ HR) in Hst.
    destruct Hst as (u & U1 & U2 & U3). rewrite C in U2, U3. eapply (no_loop u ws limit); eauto. }
  assert (HI : L i = L j -> i = j).
  { intros EL. destruct Xi as [<-|Xi], Xj as [<-|Xj]; auto.
    - exfalso. apply (Hroot j Xj). congruence.
    - exfalso. apply (Hroot i Xi). congruence.
    - apply (nodup_map_inj L (map snd (minimized g))); auto. apply (r_unique _ _ _ HR). }
  destruct (RS i Xi) as (a & A1 & A2 & A3 & _). destruct (RS j Xj) as (b & B1 & B2 & B3 & _).
  unfold Props_DawgNode.node_eq, get_node. rewrite A1, B1. cbn [bind]. eexists. split; [reflexivity|].
  split.
  - destruct (list_eq_dec N.eq_dec (node_str (py_repr printable) ident a) (node_str (py_repr printable) ident b)) as [Es|Es]; (split; [|intros C]).
    + intros _. apply HI. apply (node_str_inj _ ident (repr_free printable) ident_inj) in Es. destruct Es as [E1 E2].
      rewrite !sorted_edges_asc in E2 by auto. rewrite <- A2, <- B2. unfold node_lang. rewrite E1, E2. reflexivity.
    + reflexivity.
    + discriminate.
    + exfalso. subst j. congruence.
  - split.
    + intros <- s. rewrite <- !in_continuations, <- Li, <- Lj. reflexivity.
    + intros H. apply HI. rewrite Li, Lj.
      apply sorted_same; [apply continuations_sorted; exact (r_sorted _ _ _ HR)|apply continuations_sorted; exact (r_sorted _ _ _ HR)|].
      intros s. rewrite !in_continuations. apply H.
Qed.

Lemma clone_copies (h : heap) i nd limit : nth_error h i = Some nd -> leaf_count nd = None -> final_edges nd = None ->
  exists h' k, clone h i = Ok (h', k) /\ k <> i /\ node_eq h' i k = Ok true /\ (forall l, node_iter limit h i = Ok l -> node_iter limit h' k = Ok l) /\
  (forall j, j < List.length h -> nth_error h' j = nth_error h j).
Proof.
  intros Hi H1 H2. assert (Hl : i < List.length h) by (apply nth_error_Some; congruence).
  unfold clone, get_node. rewrite Hi. cbn [bind]. rewrite H1, H2. do 2 eexists. split; [reflexivity|]. split; [lia|].
  assert (Hk : forall x, nth_error (h ++ [x]) (List.length h) = Some x) by (intros x; rewrite nth_error_app2, Nat.sub_diag by lia; reflexivity).
  split; [|split].
  - unfold Props_DawgNode.node_eq, get_node. rewrite nth_error_app1 by exact Hl. rewrite Hi, Hk. cbn [bind]. unfold node_str, sorted_edges. cbn [terminal edges].
    match goal with |- Ok (if ?d then _ else _) = _ => destruct d; [reflexivity|congruence] end.
  - intros l HI. match goal with |- node_iter _ (h ++ [?x]) _ = _ => apply (node_iter_more limit h x) in HI; revert HI; generalize (eq_refl x); generalize x at 1 3 end.
    intros x Ex HI. destruct limit as [|limit]; [discriminate|]. cbn [node_iter] in *. unfold get_node in *. rewrite Hk. rewrite nth_error_app1, Hi in HI by exact Hl.
    cbn [bind] in *. subst x. exact HI.
  - intros j Hj. apply nth_error_app1. exact Hj.
Qed.

(** Nothing but [finalize] fills in the last two fields of a node. *)
Definition fresh (h : heap) : Prop := Forall (fun nd => leaf_count nd = None /\ final_edges nd = None) h.

Lemma fresh_get h i nd : fresh h -> nth_error h i = Some nd -> leaf_count nd = None /\ final_edges nd = None.
Proof. unfold fresh. rewrite Forall_forall. intros F E. apply F. eapply nth_error_In. exact E. Qed.
Lemma fresh_set h i nd : fresh h -> leaf_count nd = None /\ final_edges nd = None -> fresh (set_node h i nd).
Proof. intros F H. apply Forall_list_set; [exact F|exact H]. Qed.

Lemma insert_fresh (g : dawg D) w v g' : fresh (nodes g) -> insert (py_repr printable) ident g w v = Ok g' -> fresh (nodes g').
Proof.
  intros F. unfold insert, insert_body. destruct (str_leb w (previous g)); [discriminate|].
  destruct (minimize_unchecked _ _ g _) as [g1|] eqn:E1; [|discriminate]. cbn [bind].
  assert (F1 : fresh (nodes g1)).
  { unfold minimize_unchecked in E1. revert E1. apply (foldM_inv (fun g : dawg D => fresh (nodes g))); [exact F|]. intros ga x gb _ Fa. unfold minimize_one, get_node.
    destruct (unchecked ga) as [|[[parent letter] child] rest]; [discriminate|]. destruct (nth_error (nodes ga) child) as [nd|] eqn:En; [|discriminate]. cbn [bind].
    destruct (dget _ (minimized ga)) as [same|]; [|intros E; injection E as <-; exact Fa]. destruct (nth_error (nodes ga) parent) as [pn|] eqn:Ep; [|discriminate]. cbn [bind].
    intros E; injection E as <-. cbn [nodes]. apply fresh_set; [exact Fa|]. cbn [leaf_count final_edges]. eapply fresh_get; eauto. }
  match goal with |- bind ?m _ = _ -> _ => destruct m as [[[h unch] i]|] eqn:E2; [|discriminate] end. cbn [bind].
  assert (F2 : fresh h).
  { revert E2. match goal with |- foldM _ _ ?s = _ -> _ => intros E2; assert (X : fresh (fst (fst (h, unch, i)))); [|exact X]; revert E2;
      apply (foldM_inv (fun st : heap * list (nat * N * nat) * nat => fresh (fst (fst st)))) end; [exact F1|].
    clear F F1. intros [[ha ua] ia] c [[hb ub] ib] _ F. unfold add_letter, get_node. destruct (nth_error ha ia) as [nd|] eqn:En; [|discriminate]. cbn [bind].
    intros E; injection E as <- <- <-. cbn [fst]. apply Forall_app. split; [|constructor; [split; reflexivity|constructor]].
    apply fresh_set; [exact F|]. cbn [leaf_count final_edges]. eapply fresh_get; eauto. }
  unfold get_node. destruct (nth_error h i) as [nd|] eqn:En; [|discriminate]. cbn [bind]. intros E; injection E as <-. cbn [nodes].
  apply fresh_set; [exact F2|]. cbn [leaf_count final_edges]. eapply fresh_get; eauto.
Qed.

Lemma run_fresh (calls : list (str * D)) : fresh (nodes (run calls)).
Proof.
  unfold run_inserts. assert (X : forall g : dawg D, fresh (nodes g) -> fresh (nodes (fold_left (fun g c => match insert (py_repr printable) ident g (fst c) (snd c) with Ok g' => g' | Err _ => g end) calls g))).
  { induction calls as [|c calls IH]; intros g F; [exact F|]. cbn [fold_left]. apply IH. destruct (insert _ _ g (fst c) (snd c)) eqn:E; [|exact F]. eapply insert_fresh; eauto. }
  apply X. constructor; [split; reflexivity|constructor].
Qed.

(** [clone] of any node of a graph that is not finalized gives another node that
    is equal to it and iterates the same words, and changes no node.  No node of
    a finalized graph can be cloned. *)
Theorem dawg_clone : forall (calls : list (str * D)) i limit, let h := nodes (run calls) in i < List.length h ->
  exists h' k, clone h i = Ok (h', k) /\ k <> i /\ node_eq h' i k = Ok true /\ (forall l, node_iter limit h i = Ok l -> node_iter limit h' k = Ok l) /\
  (forall j, j < List.length h -> nth_error h' j = nth_error h j).
Proof.
  intros calls i limit h Hi. destruct (nth_error h i) as [nd|] eqn:E; [|apply nth_error_None in E; lia].
  destruct (fresh_get h i nd (run_fresh calls) E) as [H1 H2]. eapply clone_copies; eauto.
Qed.

Theorem dawg_clone_finalized : forall (calls : list (str * D)) limit g p n i, short limit calls -> finalize limit (run calls) = Ok g ->
  follow (nodes g) (0, root g) p = Ok ((n, i), true) -> clone (nodes g) i = Err AssertionError.
Proof.
  intros calls limit g p n i [Hp Hs] Ef HF. destruct (run_spec printable ident ident_inj calls) as (addr & Hb & HU & HD).
  assert (Hs' : forall w, In w (map fst (accepted calls)) -> List.length w < limit).
  { intros w Hw. apply in_map_iff in Hw. destruct Hw as ((w' & v) & E & H). cbn in E. subst. eapply Hs; eauto. }
  destruct (finalize_spec _ ident (repr_free printable) ident_inj _ addr _ _ limit Hb Hs' Hp) as (g' & L & E & HR & _ & Dg).
  rewrite Ef in E. injection E as <-. pose proof (r_sound _ _ _ HR) as RS. pose proof (r_done _ _ _ HR) as RD.
  assert (Xi : In i (root g :: map snd (minimized g))).
  { destruct (walk_spec _ _ _ RS RD p 0 (root g) (or_introl eq_refl)) as [W1 W2]. pose proof (follow_walk (nodes g) p (0, root g)) as FW. rewrite HF in FW.
    destruct (continuations p (L (root g))) as [|v l] eqn:Ec.
    - destruct p as [|d p]; [cbn [follow] in HF; injection HF as _ <-; left; reflexivity|]. rewrite W2 in FW by (discriminate || reflexivity). discriminate.
    - destruct W1 as (j & J1 & J2 & J3); [discriminate|]. rewrite J2 in FW. injection FW as _ <-. auto. }
  destruct (RD i Xi) as (nd & D1 & D2 & D3). unfold clone, get_node. rewrite D1. cbn [bind]. rewrite D2. reflexivity.
Qed.
End Node.
Print Assumptions dawg_nodes_equal.
Print Assumptions dawg_clone.
Print Assumptions dawg_clone_finalized.

(** Before [finalize] nodes from which the same words can be read need not be
    equal. *)
Theorem dawg_nodes_equal_early_refuted : exists (calls : list (str * nat)) limit i j l,
  let pr := py_repr (fun _ => true) in let g := run_inserts pr (fun i => i) calls dawg_init in
  short limit calls /\ node_iter limit (nodes g) i = Ok l /\ node_iter limit (nodes g) j = Ok l /\ l <> [] /\ node_eq pr (fun i => i) (nodes g) i j = Ok false.
Proof.
  exists [(w_ "abc", 1); (w_ "dbc", 2)], 10, 1, 4. eexists. cbv zeta.
  split; [split; [lia|]; vm_compute; intros w v H; repeat (destruct H as [H|H]; [injection H as <- <-; cbn; lia|]); destruct H|].
  split; [vm_compute; reflexivity|]. split; [vm_compute; reflexivity|]. split; [discriminate|]. vm_compute. reflexivity.
Qed.
Print Assumptions dawg_nodes_equal_early_refuted.

(** *** Cases *)

Example dawg_node_case :
  short 5 some_calls /\
  (let g0 := run_inserts pr (fun i => i) some_calls dawg_init in
   match clone (nodes g0) 1 with
   | Ok (h', k) => node_iter 5 (nodes g0) 1 = Ok [w_ "ap"; w_ "aps"; w_ "op"; w_ "ops"] /\ node_eq pr (fun i => i) h' 1 k = Ok true /\ node_eq pr (fun i => i) h' 2 k = Ok false
   | Err _ => False
   end) /\
  match finalize pr (fun i => i) 5 (run_inserts pr (fun i => i) some_calls dawg_init) with
  | Ok g => match follow (nodes g) (0, root g) (w_ "ta"), follow (nodes g) (0, root g) (w_ "to"), follow (nodes g) (0, root g) (w_ "za") with
            | Ok ((_, i), true), Ok ((_, j), true), Ok ((_, k), true) =>
                node_eq pr (fun i => i) (nodes g) i j = Ok true /\ i = j /\ node_eq pr (fun i => i) (nodes g) i k = Ok false /\ clone (nodes g) i = Err AssertionError
            | _, _, _ => False
            end
  | Err _ => False
  end.
Proof.
  pose proof dawg_case as H. destruct H as (_ & H & _). split; [exact H|]. split; vm_compute; repeat split.
Qed.
