(** Theorems about experiments/dawg.py: properties C68 to C72.

    In all of them [printable] is any classification of characters (it decides
    how [repr] writes a character) and [ident] any injective numbering of the
    nodes; [limit] is the recursion limit, and words are shorter than it. *)
From Coq Require Import ZArith NArith List Bool Permutation Lia Sorted String.
From Verif Require Import Num Py ListAux PyDict NmdSpec IndexModel IndexLoops Props_Index DawgModel DawgRepr DawgProofs DawgFinal DawgAsk DawgQuery DawgLate Ex.
Import ListNotations.
Local Open Scope string_scope.
Local Open Scope list_scope.

Section Dawg.
Context {D : Type}.
Variables (printable : N -> bool) (ident : nat -> nat).
Hypothesis ident_inj : forall i j, ident i = ident j -> i = j.
Notation insert := (insert (D := D) (py_repr printable) ident).
Notation finalize := (finalize (D := D) (py_repr printable) ident).
Notation run calls := (run_inserts (py_repr printable) ident calls dawg_init).

(** *** C68: which insertions are accepted *)

(** After any calls of [insert], refused ones included, a call returns exactly
    if its word is not empty and greater than all words accepted so far;
    otherwise it raises an AssertionError.  The words accepted are those of
    [accepted]: ascending, and [len()] is their number. *)
Theorem dawg_insert : forall (calls : list (str * D)) (w : str) (v : D),
  (w <> [] /\ (forall x, In x (map fst (accepted calls)) -> str_leb w x = false) -> exists g, insert (run calls) w v = Ok g) /\
  (w = [] \/ (exists x, In x (map fst (accepted calls)) /\ str_leb w x = true) -> insert (run calls) w v = Err AssertionError) /\
  List.length (data (run calls)) = List.length (accepted calls) /\
  StronglySorted (fun a b => str_leb b a = false) (map fst (accepted calls)).
Proof.
  intros calls w v. destruct (run_spec printable ident ident_inj calls) as (addr & Hb & HU & HD). repeat split.
  - intros H. apply (previous_greatest printable ident _ _ _ _ w Hb) in H.
    destruct (insert_spec _ ident (repr_free printable) ident_inj _ addr _ w v Hb HU H) as (g' & _ & E & _). eauto.
  - intros H. unfold DawgModel.insert. destruct (str_leb w (previous (run calls))) eqn:E; [reflexivity|]. exfalso.
    apply (previous_greatest printable ident _ _ _ _ w Hb) in E. destruct E as [E1 E2]. destruct H as [H|(x & Hx & H)]; [contradiction|].
    specialize (E2 x Hx). unfold slt in E2. congruence.
  - rewrite HD. apply map_length.
  - apply (b_sorted _ _ _ _ _ _ Hb).
Qed.

(** *** C69: the answers of a finalized graph *)

Definition short (limit : nat) (calls : list (str * D)) : Prop := 0 < limit /\ forall w v, In (w, v) (accepted calls) -> List.length w < limit.

Theorem dawg_answers : forall (calls : list (str * D)) limit, short limit calls ->
  exists g, finalize limit (run calls) = Ok g /\ finalize limit g = Ok g /\
  (forall k w v, nth_error (accepted calls) k = Some (w, v) ->
     index g w = Ok (Z.of_nat k) /\ lookup g w = Ok (Some v) /\ contains g w = Ok true /\ get_index limit g (Z.of_nat k) = Ok (Some w)) /\
  (forall w, ~ In w (map fst (accepted calls)) -> index g w = Ok (-1)%Z /\ lookup g w = Ok None /\ contains g w = Ok false) /\
  iter limit g = Ok (map fst (accepted calls)) /\ items limit g = Ok (accepted calls) /\ data g = map snd (accepted calls).
Proof.
  intros calls limit [Hp Hs]. destruct (run_spec printable ident ident_inj calls) as (addr & Hb & HU & HD).
  assert (Hs' : forall w, In w (map fst (accepted calls)) -> List.length w < limit).
  { intros w Hw. apply in_map_iff in Hw. destruct Hw as ((w' & v) & E & H). cbn in E. subst. eapply Hs; eauto. }
  destruct (finalize_spec _ ident (repr_free printable) ident_inj _ addr _ _ limit Hb Hs' Hp) as (g & L & E & HR & _ & Dg).
  exists g. split; [exact E|]. split; [|split; [|split; [|split; [|split]]]].
  - unfold DawgModel.finalize, minimize_unchecked. rewrite (r_unchecked _ _ _ HR). cbn [List.length Nat.sub repeat foldM bind].
    destruct (r_done _ _ _ HR (root g) (or_introl eq_refl)) as (nd & D1 & D2 & _). destruct limit as [|limit]; [lia|]. cbn [finalize_node].
    unfold get_node. rewrite D1. cbn [bind]. rewrite D2. cbn [bind]. destruct g; cbn in *. pose proof (r_unchecked _ _ _ HR) as U. cbn in U. subst. reflexivity.
  - intros k w v Hk. assert (Hw : nth_error (map fst (accepted calls)) k = Some w) by (rewrite nth_error_map, Hk; reflexivity).
    assert (Hv : nth_error (data g) k = Some v) by (rewrite Dg, HD, nth_error_map, Hk; reflexivity).
    assert (Hlt : k < List.length (accepted calls)) by (apply nth_error_Some; congruence).
    pose proof (index_found g L _ HR w k Hw) as Ei. split; [exact Ei|]. unfold lookup, contains. rewrite Ei. cbn [bind].
    destruct (Z.leb_spec 0 (Z.of_nat k)); [|lia]. split; [|split; [reflexivity|]].
    + rewrite (py_get_nat (data g) k v) by (apply nth_error_Some; congruence). cbn [bind]. rewrite (nth_error_nth _ _ v Hv). reflexivity.
    + unfold get_index. assert (Hl : List.length (data g) = List.length (accepted calls)) by (rewrite Dg, HD; apply map_length). unfold zlen. rewrite Hl.
      destruct (Z.ltb_spec (Z.of_nat k) (Z.of_nat (List.length (accepted calls)))); [|lia]. rewrite (getitem_ready g L _ HR limit k Hs' Hp); [rewrite Hw; reflexivity|rewrite map_length; exact Hlt].
  - intros w Hw. pose proof (index_missing g L _ HR w Hw) as Ei. unfold lookup, contains. rewrite Ei. auto.
  - apply (iter_ready g L _ HR limit Hs' Hp).
  - unfold items. rewrite (iter_ready g L _ HR limit Hs' Hp). cbn [bind]. rewrite Dg, HD. f_equal. clear. induction (accepted calls) as [|[w v] l IH]; [reflexivity|]. cbn [map combine fst snd]. congruence.
  - congruence.
Qed.

(** Iterating needs no [finalize]; everything else does. *)
Theorem dawg_before_finalize : forall (calls : list (str * D)) limit, short limit calls ->
  iter limit (run calls) = Ok (map fst (accepted calls)) /\ items limit (run calls) = Ok (accepted calls) /\
  (forall w, w <> [] -> index (run calls) w = Err TypeError /\ lookup (run calls) w = Err TypeError /\ contains (run calls) w = Err TypeError) /\
  (forall k, (0 <= k < zlen (accepted calls))%Z -> get_index limit (run calls) k = Err TypeError).
Proof.
  intros calls limit [Hp Hs]. destruct (run_spec printable ident ident_inj calls) as (addr & Hb & HU & HD). set (g := run calls) in *.
  assert (Hit : iter limit g = Ok (map fst (accepted calls))).
  { unfold iter. rewrite (node_iter_spec _ _ _ (built_sound _ _ _ _ _ _ Hb) limit (root g)).
    - unfold Lg. rewrite (b_root _ _ _ _ _ _ Hb), continuations_nil. reflexivity.
    - apply in_app_iff. left. unfold path. apply in_app_iff. right. left. reflexivity.
    - destruct limit; [lia|]. apply Nat.lt_succ_r, depth_le. intros w Hw. unfold Lg in Hw. rewrite (b_root _ _ _ _ _ _ Hb), continuations_nil in Hw.
      apply in_map_iff in Hw. destruct Hw as ((w' & v) & E & H). cbn in E. subst w'. apply Hs in H. lia. }
  assert (Hroot : exists nd, nth_error (nodes g) (root g) = Some nd /\ final_edges nd = None /\ terminal nd = 0).
  { assert (X : exists nd, node_ok (nodes g) addr (map fst (accepted calls)) (root g) nd).
    { destruct (b_top _ _ _ _ _ _ Hb) as (tn & Ht & _). pose proof (b_stack _ _ _ _ _ _ Hb) as HS.
      destruct (unchecked g) as [|x rest] eqn:Eu; [exists tn; exact Ht|]. clear Ht Eu HU. revert x HS. induction rest as [|y rest IH]; intros [[a l] b] HS.
      - cbn [stack_ok top] in HS. destruct HS as (-> & _ & (nd & _ & H & _) & _). exists nd. exact H.
      - cbn [stack_ok] in HS. destruct HS as (_ & _ & _ & HS). apply (IH y). exact HS. }
    destruct X as (nd & N1 & N2 & _ & _ & N3 & N4). exists nd. split; auto. split; auto.
    destruct (Nat.eq_dec (terminal nd) 0) as [|Ne]; auto. exfalso. apply in_node_lang_nil with (L := Lg addr (map fst (accepted calls))) in Ne.
    rewrite N2 in Ne. unfold Lg in Ne. rewrite (b_root _ _ _ _ _ _ Hb), continuations_nil in Ne. exact (accepted_nonempty calls Ne). }
  destruct Hroot as (nd & N1 & N2 & N3).
  split; [exact Hit|]. split; [|split].
  - unfold items. rewrite Hit. cbn [bind]. rewrite HD. f_equal. clear. induction (accepted calls) as [|[w v] l IH]; [reflexivity|]. cbn [map combine fst snd]. congruence.
  - intros [|c w] Hw; [congruence|]. assert (Ei : index g (c :: w) = Err TypeError).
    { unfold index. cbn [walk]. unfold step, get_node. cbn [snd]. rewrite N1. cbn [bind]. rewrite N2. reflexivity. }
    unfold lookup, contains. rewrite Ei. auto.
  - intros k Hk. unfold get_index. assert (Hl : zlen (data g) = zlen (accepted calls)) by (unfold zlen; rewrite HD, map_length; reflexivity). rewrite Hl.
    destruct (Z.ltb_spec k (zlen (accepted calls))); [|lia]. destruct limit as [|limit]; [lia|]. cbn [node_getitem]. unfold get_node. rewrite N1. cbn [bind].
    rewrite N3, N2. destruct (Z.eqb_spec (k - Z.of_nat 0) (-1)); [lia|reflexivity].
Qed.

(** *** C70: positions out of range *)

(** [get_index] raises an AssertionError from [len()] on.  A negative position
    does not count from the end: -1 gives the empty string, which is in no
    graph, and anything below raises a TypeError (for a graph without words it
    gives [None]). *)
Theorem dawg_get_index_range : forall (calls : list (str * D)) limit g k, short limit calls -> finalize limit (run calls) = Ok g ->
  ((zlen (accepted calls) <= k)%Z -> get_index limit g k = Err AssertionError) /\
  (k = (-1)%Z -> get_index limit g k = Ok (Some [])) /\
  ((k < -1)%Z -> get_index limit g k = match accepted calls with [] => Ok None | _ => Err TypeError end).
Proof.
  intros calls limit g k [Hp Hs] Ef. destruct (run_spec printable ident ident_inj calls) as (addr & Hb & HU & HD).
  assert (Hs' : forall w, In w (map fst (accepted calls)) -> List.length w < limit).
  { intros w Hw. apply in_map_iff in Hw. destruct Hw as ((w' & v) & E & H). cbn in E. subst. eapply Hs; eauto. }
  destruct (finalize_spec _ ident (repr_free printable) ident_inj _ addr _ _ limit Hb Hs' Hp) as (g' & L & E & HR & _ & Dg).
  rewrite Ef in E. injection E as <-. unfold get_index.
  assert (Hl : zlen (data g) = zlen (accepted calls)) by (unfold zlen; rewrite Dg, HD, map_length; reflexivity). rewrite Hl.
  split; [|split].
  - intros H. destruct (Z.ltb_spec k (zlen (accepted calls))); [lia|reflexivity].
  - intros ->. destruct (Z.ltb_spec (-1) (zlen (accepted calls))); [|unfold zlen in *; lia]. apply (getitem_minus_one g L _ HR limit Hp). apply accepted_nonempty.
  - intros H. destruct (Z.ltb_spec k (zlen (accepted calls))); [|unfold zlen in *; lia].
    rewrite (getitem_below g L _ HR limit k Hs' Hp (accepted_nonempty calls) H). destruct (accepted calls); reflexivity.
Qed.

(** *** C71: the graph is minimal *)

(** [count_nodes] is the number of different sets of continuations of
    non-empty prefixes of the words, and [count_edges] the number of letters
    these sets begin with, summed up.  Any deterministic automaton for the
    same words has at least [count_nodes() + 1] states, and the graph is such
    an automaton with that many. *)
Theorem dawg_minimal : forall (calls : list (str * D)) limit g, short limit calls -> finalize limit (run calls) = Ok g ->
  let ws := map fst (accepted calls) in
  (exists ls : list (list str), NoDup ls /\ (forall l, In l ls <-> exists u, u <> [] /\ l = continuations u ws /\ l <> []) /\
     count_nodes g = List.length ls /\ count_edges g = Ok (sum_nat (map (fun l => List.length (letters l)) ls))) /\
  (ws <> [] -> forall S (delta : S -> N -> option S) (accepting : S -> bool) (start : S) (Q : list S),
     (forall w, In w ws <-> exists q, drive delta start w = Some q /\ accepting q = true) ->
     (forall w q, drive delta start w = Some q -> In q Q) -> count_nodes g + 1 <= List.length Q) /\
  (exists (delta : nat -> N -> option nat) (accepting : nat -> bool) (start : nat) (Q : list nat),
     (forall w, In w ws <-> exists q, drive delta start w = Some q /\ accepting q = true) /\
     (forall w q, drive delta start w = Some q -> In q Q) /\ List.length Q = count_nodes g + 1).
Proof.
  intros calls limit g [Hp Hs] Ef ws. destruct (run_spec printable ident ident_inj calls) as (addr & Hb & HU & HD).
  assert (Hs' : forall w, In w ws -> List.length w < limit).
  { intros w Hw. apply in_map_iff in Hw. destruct Hw as ((w' & v) & E & H). cbn in E. subst. eapply Hs; eauto. }
  destruct (finalize_spec _ ident (repr_free printable) ident_inj _ addr _ _ limit Hb Hs' Hp) as (g' & L & E & HR & _ & Dg).
  rewrite Ef in E. injection E as <-. split; [|split].
  - exists (map L (map snd (minimized g))). split; [apply (r_unique _ _ _ HR)|]. split; [apply (r_states _ _ _ HR)|].
    split; [unfold count_nodes; rewrite !map_length; reflexivity|apply (count_edges_ready g L _ HR)].
  - intros Hne. apply (minimal g L _ HR Hne).
  - destruct (graph_automaton g L _ HR) as (G1 & G2 & G3). do 3 eexists. exists (root g :: map snd (minimized g)). split; [exact G1|]. split; [exact G2|exact G3].
Qed.

(** *** C72: after [finalize] *)

Inductive op := Insert (w : str) (v : D) | Finalize.

(** A call that raises an AssertionError changes nothing. *)
Definition do_op (limit : nat) (g : dawg D) (o : op) : result (dawg D) :=
  match o with
  | Insert w v => match insert g w v with Err AssertionError => Ok g | r => r end
  | Finalize => finalize limit g
  end.

(** After [finalize], nothing that is done to the graph, a second [finalize]
    included, has any effect on what is found: words inserted later are
    accepted and never found. *)
Theorem dawg_frozen : forall (calls : list (str * D)) limit g (ops : list op), short limit calls -> finalize limit (run calls) = Ok g ->
  exists g', foldM (do_op limit) ops g = Ok g' /\ forall w, index g' w = index g w /\ lookup g' w = lookup g w /\ contains g' w = contains g w.
Proof.
  intros calls limit g ops [Hp Hs] Ef. destruct (run_spec printable ident ident_inj calls) as (addr & Hb & HU & HD).
  assert (Hs' : forall w, In w (map fst (accepted calls)) -> List.length w < limit).
  { intros w Hw. apply in_map_iff in Hw. destruct Hw as ((w' & v) & E & H). cbn in E. subst. eapply Hs; eauto. }
  destruct (finalize_spec _ ident (repr_free printable) ident_inj _ addr _ _ limit Hb Hs' Hp) as (g' & L & E & HR & _ & Dg).
  rewrite Ef in E. injection E as <-.
  assert (G : forall ops g1, late g g1 -> exists g2, foldM (do_op limit) ops g1 = Ok g2 /\ late g g2).
  { clear ops. induction ops as [|o ops IH]; intros g1 H1; [exists g1; auto|]. cbn [foldM].
    assert (X : exists g2, do_op limit g1 o = Ok g2 /\ late g g2).
    { destruct o as [w v|]; cbn [do_op].
      - pose proof (late_insert (py_repr printable) ident g L _ HR g1 w v H1) as Hi. destruct (insert g1 w v) as [g2|e] eqn:Ei; [eauto|].
        destruct Hi as [-> _]. eauto.
      - destruct (late_finalize (py_repr printable) ident g L _ HR g1 limit H1 Hp) as (g2 & E2 & L2 & _). eauto. }
    destruct X as (g2 & E2 & L2). rewrite E2. cbn [bind]. apply IH. exact L2. }
  destruct (G ops g (late_init g L _ HR)) as (g' & E & Hl). exists g'. split; [exact E|]. intros w.
  pose proof (late_index g L _ HR g' w Hl) as Ei. split; [exact Ei|]. unfold lookup, contains. rewrite Ei. split; [|reflexivity].
  destruct (in_dec (list_eq_dec N.eq_dec) w (map fst (accepted calls))) as [Hw|Hw]; [|rewrite (index_missing g L _ HR w Hw); reflexivity].
  apply In_nth_error in Hw. destruct Hw as (k & Hk). rewrite (index_found g L _ HR w k Hk). cbn [bind]. destruct (0 <=? Z.of_nat k)%Z; [|reflexivity].
  assert (Hlt : k < List.length (data g)). { rewrite Dg, HD, map_length. assert (Hn : k < List.length (map fst (accepted calls))) by (refine (proj1 (nth_error_Some _ _) _); intros Hc; pose proof (eq_trans (eq_sym Hk) Hc); discriminate). rewrite map_length in Hn. exact Hn. }
  destruct (l_data _ _ Hl) as (more & ->). destruct (data g) as [|d ds] eqn:Ed; [cbn in Hlt; lia|].
  rewrite (py_get_nat (d :: ds) k d) by auto. rewrite (py_get_nat ((d :: ds) ++ more) k d) by (rewrite app_length; lia). rewrite app_nth1 by auto. reflexivity.
Qed.

End Dawg.
Print Assumptions dawg_insert.
Print Assumptions dawg_answers.
Print Assumptions dawg_before_finalize.
Print Assumptions dawg_get_index_range.
Print Assumptions dawg_minimal.
Print Assumptions dawg_frozen.

(** A word inserted after [finalize] is not even listed as such: it can lose
    the prefix it shares with the word before it. *)
Theorem dawg_insert_after_finalize_refuted : exists (calls : list (str * nat)) (w : str) limit g g' l,
  finalize (py_repr (fun _ => true)) (fun i => i) limit (run_inserts (py_repr (fun _ => true)) (fun i => i) calls dawg_init) = Ok g /\
  insert (py_repr (fun _ => true)) (fun i => i) g w 0 = Ok g' /\
  iter limit g' = Ok l /\ List.length l = List.length (data g') /\ ~ In w l.
Proof.
  exists [(w_ "car", 1)], (w_ "cat"), 10. do 3 eexists. split; [vm_compute; reflexivity|]. split; [vm_compute; reflexivity|]. split; [vm_compute; reflexivity|].
  split; [reflexivity|]. vm_compute. intros [H|[H|[]]]; discriminate.
Qed.
Print Assumptions dawg_insert_after_finalize_refuted.

(** [count_edges] leaves out the edges of the root. *)
Theorem dawg_count_edges_refuted : exists (calls : list (str * nat)) limit g e,
  finalize (py_repr (fun _ => true)) (fun i => i) limit (run_inserts (py_repr (fun _ => true)) (fun i => i) calls dawg_init) = Ok g /\
  count_edges g = Ok e /\ e <> sum_nat (map (fun nd => List.length (edges nd)) (map (fun i => nth i (nodes g) new_node) (root g :: map snd (minimized g)))).
Proof.
  exists [(w_ "a", 1); (w_ "b", 2)], 10. do 2 eexists. split; [vm_compute; reflexivity|]. split; [vm_compute; reflexivity|]. vm_compute. discriminate.
Qed.
Print Assumptions dawg_count_edges_refuted.

(** *** Cases *)

Definition pr := py_repr (fun c => (32 <=? c)%N && negb (c =? 127)%N).
Definition some_calls : list (str * nat) :=
  [(w_ "tap", 1); (w_ "", 2); (w_ "taps", 3); (w_ "tap", 4); (w_ "top", 5); (w_ "tops", 6); (w_ "'q", 7); (w_ "zap", 8)].

Example dawg_case :
  accepted some_calls = [(w_ "tap", 1); (w_ "taps", 3); (w_ "top", 5); (w_ "tops", 6); (w_ "zap", 8)] /\
  short 5 some_calls /\
  match finalize pr (fun i => i) 5 (run_inserts pr (fun i => i) some_calls dawg_init) with
  | Ok g => index g (w_ "top") = Ok 2%Z /\ lookup g (w_ "tops") = Ok (Some 6) /\ index g (w_ "to") = Ok (-1)%Z /\ count_nodes g = 6 /\ count_edges g = Ok 6 /\
            get_index 5 g 4 = Ok (Some (w_ "zap")) /\ get_index 5 g (-1) = Ok (Some [])
  | Err _ => False
  end.
Proof.
  split; [vm_compute; reflexivity|]. split; [|vm_compute; repeat split; reflexivity]. split; [lia|]. vm_compute.
  intros w v H. repeat (destruct H as [H|H]; [injection H as <- <-; cbn; lia|]). destruct H.
Qed.

(** [repr] as in Python. *)
Example py_repr_case : pr 39 = w_ """'""" /\ pr 92 = w_ "'\\'" /\ pr 10 = w_ "'\n'" /\ pr 7 = w_ "'\x07'" /\ pr 97 = w_ "'a'" /\
  py_repr (fun _ => false) 8364 = w_ "'\u20ac'" /\ py_repr (fun _ => false) 128512 = w_ "'\U0001f600'".
Proof. vm_compute. repeat split; reflexivity. Qed.
