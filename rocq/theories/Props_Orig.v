(** Theorems about experiments/dawg-orig.py: properties C102 to C105.

    In all of them [hash] is any function (the hash of a string), [ident] any
    injective numbering of the nodes, and [limit] the recursion limit; words
    are shorter than it. *)
From Coq Require Import ZArith NArith List Bool Permutation Lia Sorted String.
From Verif Require Import Num Py ListAux PyDict NmdSpec IndexModel IndexLoops IndexTop Props_Index DawgModel DawgRepr DawgProofs DawgFinal DawgAsk DawgQuery DawgLate Props_Dawg Ex.
From Verif Require Import OrigModel OrigProofs OrigFinish.
Import ListNotations.
Local Open Scope string_scope.
Local Open Scope list_scope.

(** The other program, with any classification of characters. *)
Local Notation repr := (py_repr (fun _ => true)).

Section Orig.
Context {D : Type}.
Variables (hash : str -> Z) (ident : nat -> nat).
Hypothesis ident_inj : forall i j, ident i = ident j -> i = j.
Notation insert := (oinsert (D := D) hash ident).
Notation finish := (finish (D := D) hash ident).
Notation run calls := (orun hash ident calls odawg_init).
Notation other calls := (run_inserts repr ident calls dawg_init).

Lemma run_same (calls : list (str * D)) : rel hash repr ident (run calls) (other calls).
Proof.
  induction calls as [|c calls IH] using rev_ind; [apply init_same; exact ident_inj|]. unfold orun, run_inserts in *. rewrite !fold_left_app. cbn [fold_left].
  destruct (run_spec (fun _ => true) ident ident_inj calls) as (addr & Hb & HU & HD). unfold run_inserts in Hb, HU, HD. set (g := fold_left _ calls dawg_init) in *. set (o := fold_left _ calls odawg_init) in *.
  destruct (str_leb (fst c) (previous g)) eqn:El.
  - unfold oinsert, DawgModel.insert. rewrite (rel_previous _ _ _ _ _ IH), El. exact IH.
  - destruct (insert_spec repr ident (repr_free (fun _ => true)) ident_inj g addr _ (fst c) (snd c) Hb HU El) as (g' & _ & Ei & _).
    destruct (insert_same hash repr ident (repr_free (fun _ => true)) ident_inj o g (fst c) (snd c) g' IH (built_fine _ _ _ _ _ _ Hb) Ei) as (o' & Eo & R').
    rewrite Ei, Eo. exact R'.
Qed.

(** *** C102: which insertions are accepted *)

(** After any calls of [insert], refused ones included, a call returns exactly
    if its word is not empty and greater than all words accepted so far;
    otherwise it raises an Exception.  One piece of data is kept for each
    accepted word, in order. *)
Theorem orig_insert : forall (calls : list (str * D)) (w : str) (v : D),
  (w <> [] /\ (forall x, In x (map fst (accepted calls)) -> str_leb w x = false) -> exists g, insert (run calls) w v = Ok g) /\
  (w = [] \/ (exists x, In x (map fst (accepted calls)) /\ str_leb w x = true) -> insert (run calls) w v = Err Exception) /\
  odata (run calls) = map snd (accepted calls).
Proof.
  intros calls w v. destruct (run_spec (fun _ => true) ident ident_inj calls) as (addr & Hb & HU & HD). pose proof (run_same calls) as R. split; [|split].
  - intros H. apply (previous_greatest (fun _ => true) ident _ _ _ _ w Hb) in H.
    destruct (insert_spec _ ident (repr_free (fun _ => true)) ident_inj _ addr _ w v Hb HU H) as (g' & _ & E & _).
    destruct (insert_same hash repr ident (repr_free (fun _ => true)) ident_inj _ _ w v g' R (built_fine _ _ _ _ _ _ Hb) E) as (o' & Eo & _). eauto.
  - intros H. unfold oinsert. rewrite (rel_previous _ _ _ _ _ R). destruct (str_leb w (previous (other calls))) eqn:E; [reflexivity|]. exfalso.
    apply (previous_greatest (fun _ => true) ident _ _ _ _ w Hb) in E. destruct E as [E1 E2]. destruct H as [H|(x & Hx & H)]; [contradiction|].
    specialize (E2 x Hx). unfold slt in E2. congruence.
  - rewrite (rel_data _ _ _ _ _ R). exact HD.
Qed.

(** *** C103: the answers *)

Lemma finished (calls : list (str * D)) limit : short limit calls ->
  exists o g L, finish limit (run calls) = Ok o /\ stands hash repr ident o g /\ ready g L (map fst (accepted calls)) /\ data g = map snd (accepted calls).
Proof.
  intros [Hp Hs]. destruct (run_spec (fun _ => true) ident ident_inj calls) as (addr & Hb & HU & HD).
  assert (Hs' : forall w, In w (map fst (accepted calls)) -> List.length w < limit).
  { intros w Hw. apply in_map_iff in Hw. destruct Hw as ((w' & v) & E & H). cbn in E. subst. eapply Hs; eauto. }
  destruct (finish_spec hash repr ident (repr_free (fun _ => true)) ident_inj _ _ addr _ _ limit (run_same calls) Hb Hs' Hp) as (o & g & L & E & S & HR & _ & Dg).
  exists o, g, L. split; [exact E|]. split; [exact S|]. split; [exact HR|]. rewrite Dg. exact HD.
Qed.

(** After [finish], [lookup] returns the data inserted with the word, and
    [None] for any other; a second [finish] changes nothing. *)
Theorem orig_answers : forall (calls : list (str * D)) limit, short limit calls ->
  exists g, finish limit (run calls) = Ok g /\ finish limit g = Ok g /\
  (forall w v, In (w, v) (accepted calls) -> olookup g w = Ok (Some v)) /\
  (forall w, ~ In w (map fst (accepted calls)) -> olookup g w = Ok None).
Proof.
  intros calls limit Hs. destruct (finished calls limit Hs) as (o & g & L & E & S & HR & Dg). exists o. split; [exact E|]. split; [|split].
  - apply (finish_again hash repr ident o g L _ limit S HR (accepted_nonempty calls)). apply Hs.
  - intros w v Hw. rewrite (lookup_same hash repr ident o g L _ w S HR). apply In_nth_error in Hw. destruct Hw as (k & Hk).
    assert (Hw : nth_error (map fst (accepted calls)) k = Some w) by (rewrite nth_error_map, Hk; reflexivity).
    assert (Hv : nth_error (data g) k = Some v) by (rewrite Dg, nth_error_map, Hk; reflexivity).
    unfold lookup. rewrite (index_found g L _ HR w k Hw). cbn [bind]. destruct (Z.leb_spec 0 (Z.of_nat k)); [|lia].
    rewrite (py_get_nat (data g) k v) by (apply nth_error_Some; congruence). cbn [bind]. rewrite (nth_error_nth _ _ v Hv). reflexivity.
  - intros w Hw. rewrite (lookup_same hash repr ident o g L _ w S HR). unfold lookup. rewrite (index_missing g L _ HR w Hw). reflexivity.
Qed.

(** The number of proper prefixes of a word among others. *)
Definition prefixes_in (w : str) (ws : list str) : nat :=
  List.length (filter (fun k => if in_dec (list_eq_dec N.eq_dec) (firstn k w) ws then true else false) (seq 0 (List.length w))).

Lemma prefixes_in_nil ws : prefixes_in [] ws = 0.
Proof. reflexivity. Qed.

Lemma prefixes_in_cons c w (b : bool) ws vs : (In [] ws <-> b = true) -> (forall x, In (c :: x) ws <-> In x vs) -> prefixes_in (c :: w) ws = (if b then 1 else 0) + prefixes_in w vs.
Proof.
  intros Hb Hx. unfold prefixes_in. cbn [List.length seq filter]. rewrite <- seq_shift.
  assert (G : forall l, List.length (filter (fun k => if in_dec (list_eq_dec N.eq_dec) (firstn k (c :: w)) ws then true else false) (map S l)) =
                        List.length (filter (fun k => if in_dec (list_eq_dec N.eq_dec) (firstn k w) vs then true else false) l)).
  { induction l as [|k l IH]; [reflexivity|]. cbn [map filter firstn]. destruct (in_dec _ (c :: firstn k w) ws) as [H|H], (in_dec _ (firstn k w) vs) as [H'|H']; cbn [List.length].
    - rewrite IH. reflexivity.
    - destruct H'. apply Hx, H.
    - destruct H. apply Hx, H'.
    - exact IH. }
  cbn [firstn]. destruct (in_dec _ [] ws) as [H|H].
  - apply Hb in H. rewrite H. cbn [List.length]. rewrite G. reflexivity.
  - destruct b; [destruct H; apply Hb; reflexivity|]. rewrite G. reflexivity.
Qed.

Lemma lookup_loop_zero h i here c t : forall es s, asc (map fst es) -> In (c, t) es -> (forall e, In e es -> exists nd, nth_error h (snd e) = Some nd /\ count nd = 0) ->
  olookup_loop h i here es s c = Ok (if final here then s + 1 else s, t).
Proof.
  induction es as [|[l u] es IH]; intros s Ha Ht He; [destruct Ht|]. cbn [olookup_loop]. cbn [map fst] in Ha. inversion Ha as [|? ? Ha' Hl]; subst. destruct (N.eqb_spec l c) as [->|Ne].
  - destruct Ht as [Ht|Ht]; [injection Ht as ->; reflexivity|]. exfalso. rewrite Forall_forall in Hl. specialize (Hl c). cbn in Hl. apply (N.lt_irrefl c), Hl. apply in_map_iff. exists (c, t). auto.
  - destruct (He (l, u) (or_introl eq_refl)) as (nd & N1 & N2). cbn [snd] in N1. unfold get_onode. rewrite N1. cbn [bind]. rewrite N2, Nat.add_0_r.
    apply IH; [exact Ha'|destruct Ht as [Ht|Ht]; [congruence|exact Ht]|intros e H; apply He; right; exact H].
Qed.

Lemma lookup_early (o : odawg D) R L : sound (map conv (onodes o)) R L -> Forall (fun nd => count nd = 0) (onodes o) -> forall w i s, In i R ->
  olookup_from o i s w = (if in_dec (list_eq_dec N.eq_dec) w (L i) then v <- py_get (odata o) (Z.of_nat (s + prefixes_in w (L i))) ;; Ok (Some v) else Ok None).
Proof.
  intros HS HC. induction w as [|c w IH]; intros i s Hi; destruct (HS i Hi) as (nd & N1 & N2 & N3 & N4 & N5);
    rewrite nth_error_map in N1; destruct (nth_error (onodes o) i) as [x|] eqn:Ex; [|discriminate| |discriminate]; injection N1 as <-; cbn [olookup_from]; unfold get_onode at 1; rewrite Ex; cbn [bind].
  - rewrite prefixes_in_nil, Nat.add_0_r. rewrite <- N2. pose proof (in_node_lang_nil L (conv x)) as Hn. cbn [conv terminal] in Hn.
    destruct (in_dec _ [] (node_lang L (conv x))) as [H|H].
    + apply Hn in H. destruct (final x); [reflexivity|congruence].
    + destruct (final x); [destruct H; apply Hn; discriminate|reflexivity].
  - cbn [conv edges] in N3, N5. rewrite (isort_edges_asc _ N3).
    destruct (dmem c (oedges x)) eqn:Em.
    + apply dmem_true, in_map_iff in Em. destruct Em as ([c' t] & Ec & Et). cbn in Ec. subst c'. destruct (N5 _ Et) as [Rt _]. cbn [snd] in Rt.
      rewrite (lookup_loop_zero (onodes o) i x c t (oedges x) s N3 Et).
      2:{ intros e He. destruct (N5 e He) as [Re _]. destruct (HS _ Re) as (y & Y1 & _). rewrite nth_error_map in Y1. destruct (nth_error (onodes o) (snd e)) as [z|] eqn:Ez; [|discriminate]. exists z. split; auto. rewrite Forall_forall in HC. apply HC. eapply nth_error_In; eauto. }
      cbn [bind fst snd]. rewrite IH by exact Rt.
      assert (Hx : forall v, In (c :: v) (L i) <-> In v (L t)).
      { intros v. rewrite <- N2, in_node_lang_cons. cbn [conv edges]. split; [|intros H; exists t; auto]. intros (t' & Ht' & Hv). assert (t' = t); [|subst; exact Hv].
        pose proof (asc_nodup _ N3) as Nd. clear - Nd Et Ht'. induction (oedges x) as [|[a b] es IHe]; [destruct Et|]. cbn [map fst] in Nd. inversion Nd as [|? ? Na Nd']; subst.
        destruct Et as [Et|Et], Ht' as [Ht'|Ht']; auto; try congruence.
        - injection Et as -> ->. destruct Na. apply in_map_iff. exists (c, t'). auto.
        - injection Ht' as -> ->. destruct Na. apply in_map_iff. exists (c, t). auto. }
      rewrite (prefixes_in_cons c w (final x) (L i) (L t)); [|rewrite <- N2, in_node_lang_nil; cbn [conv terminal]; destruct (final x); split; congruence|exact Hx].
      destruct (in_dec _ w (L t)) as [H|H], (in_dec _ (c :: w) (L i)) as [H'|H']; try (exfalso; apply Hx in H'; contradiction); try (exfalso; apply H', Hx, H); auto.
      replace ((if final x then s + 1 else s) + prefixes_in w (L t)) with (s + ((if final x then 1 else 0) + prefixes_in w (L t))) by (destruct (final x); lia). reflexivity.
    + destruct (in_dec _ (c :: w) (L i)) as [H|H]; [|reflexivity]. exfalso. rewrite <- N2, in_node_lang_cons in H. destruct H as (t & Ht & _). apply dmem_false in Em. apply Em. apply in_map_iff. exists (c, t). auto.
Qed.

(** Before [finish] all counts are 0: [lookup] already tells the words from
    other strings, but the data it returns for a word is that of the word at
    the position given by the number of its proper prefixes that are words. *)
Theorem orig_before_finish : forall (calls : list (str * D)) w,
  (In w (map fst (accepted calls)) -> exists v, nth_error (map snd (accepted calls)) (prefixes_in w (map fst (accepted calls))) = Some v /\ olookup (run calls) w = Ok (Some v)) /\
  (~ In w (map fst (accepted calls)) -> olookup (run calls) w = Ok None).
Proof.
  intros calls w. destruct (run_spec (fun _ => true) ident ident_inj calls) as (addr & Hb & HU & HD). pose proof (run_same calls) as R. set (g := other calls) in *. set (o := run calls) in *. set (ws := map fst (accepted calls)) in *.
  assert (HS : sound (map conv (onodes o)) (path (root g) (unchecked g) ++ map snd (minimized g)) (Lg addr ws)) by (rewrite <- (rel_nodes _ _ _ _ _ R); apply (built_sound repr ident g addr ws _ Hb)).
  assert (Hi : In (root g) (path (root g) (unchecked g) ++ map snd (minimized g))) by (apply in_app_iff; left; unfold path; apply in_app_iff; right; left; reflexivity).
  assert (EL : Lg addr ws (root g) = ws) by (unfold Lg; rewrite (b_root _ _ _ _ _ _ Hb), continuations_nil; reflexivity).
  unfold olookup. rewrite (rel_root _ _ _ _ _ R), (lookup_early o _ _ HS (rel_count _ _ _ _ _ R) w (root g) 0 Hi), EL. cbn [Nat.add].
  assert (Ed : odata o = map snd (accepted calls)) by (rewrite (rel_data _ _ _ _ _ R); exact HD). rewrite Ed.
  match goal with |- context [in_dec ?e w ?l] => destruct (in_dec e w l) as [H|H] end; split; intros Hw; try contradiction; [|reflexivity].
  assert (Hlt : prefixes_in w ws < List.length (map snd (accepted calls))).
  { rewrite map_length, <- (map_length fst). fold ws. unfold prefixes_in. rewrite <- (map_length (fun k => firstn k w)).
    apply Nat.lt_le_trans with (List.length (w :: map (fun k => firstn k w) (filter (fun k => if in_dec (list_eq_dec N.eq_dec) (firstn k w) ws then true else false) (seq 0 (List.length w))))); [cbn [List.length]; apply Nat.lt_succ_diag_r|].
    apply NoDup_incl_length.
    - constructor.
      + intros C. apply in_map_iff in C. destruct C as (k & E & Hk). apply filter_In in Hk. destruct Hk as [Hk _]. apply in_seq in Hk. apply (f_equal (@List.length N)) in E. rewrite firstn_length in E. unfold str in *. lia.
      + apply NoDup_map_inj; [|apply NoDup_filter, seq_NoDup]. intros a b Ha Hb' E. apply filter_In in Ha, Hb'. destruct Ha as [Ha _], Hb' as [Hb' _]. apply in_seq in Ha, Hb'. apply (f_equal (@List.length N)) in E. rewrite !firstn_length in E. unfold str in *. lia.
    - intros x [<-|Hx]; [exact H|]. apply in_map_iff in Hx. destruct Hx as (k & <- & Hk). apply filter_In in Hk. destruct Hk as [_ Hk]. destruct (in_dec _ (firstn k w) ws); [assumption|discriminate]. }
  destruct (nth_error (map snd (accepted calls)) (prefixes_in w ws)) as [v|] eqn:En; [|apply nth_error_None in En; lia].
  exists v. split; [reflexivity|]. rewrite (py_get_nat (map snd (accepted calls)) _ v Hlt). cbn [bind]. rewrite (nth_error_nth _ _ v En). reflexivity.
Qed.

(** *** C104: the graph is minimal *)

Theorem orig_minimal : forall (calls : list (str * D)) limit g, short limit calls -> finish limit (run calls) = Ok g ->
  let ws := map fst (accepted calls) in
  (exists ls : list (list str), NoDup ls /\ (forall l, In l ls <-> exists u, u <> [] /\ l = continuations u ws /\ l <> []) /\
     node_count g = List.length ls /\ edge_count g = Ok (sum_nat (map (fun l => List.length (letters l)) ls))) /\
  (ws <> [] -> forall S (delta : S -> N -> option S) (accepting : S -> bool) (start : S) (Q : list S),
     (forall w, In w ws <-> exists q, drive delta start w = Some q /\ accepting q = true) ->
     (forall w q, drive delta start w = Some q -> In q Q) -> node_count g + 1 <= List.length Q) /\
  (exists (delta : nat -> N -> option nat) (accepting : nat -> bool) (start : nat) (Q : list nat),
     (forall w, In w ws <-> exists q, drive delta start w = Some q /\ accepting q = true) /\
     (forall w q, drive delta start w = Some q -> In q Q) /\ List.length Q = node_count g + 1).
Proof.
  intros calls limit o Hs Ef ws. destruct (finished calls limit Hs) as (o' & g & L & E & S & HR & Dg). rewrite Ef in E. injection E as <-.
  rewrite (node_count_same hash repr ident o g S), (edge_count_same hash repr ident o g L _ S HR). split; [|split].
  - exists (map L (map snd (minimized g))). split; [apply (r_unique _ _ _ HR)|]. split; [apply (r_states _ _ _ HR)|].
    split; [unfold count_nodes; rewrite !map_length; reflexivity|apply (count_edges_ready g L _ HR)].
  - intros Hne. apply (minimal g L _ HR Hne).
  - destruct (graph_automaton g L _ HR) as (G1 & G2 & G3). do 3 eexists. exists (root g :: map snd (minimized g)). split; [exact G1|]. split; [exact G2|exact G3].
Qed.
End Orig.
Print Assumptions orig_insert.
Print Assumptions orig_answers.
Print Assumptions orig_before_finish.
Print Assumptions orig_minimal.

(** *** C105: the script *)

(** The words of a file are never empty, [split()] sees to that. *)
Theorem orig_script : forall (hash : str -> Z) (ident : nat -> nat) limit (words queries : list str), (forall i j, ident i = ident j -> i = j) ->
  0 < limit -> (forall w, In w words -> w <> [] /\ List.length w < limit) ->
  (NoDup words -> script hash ident limit words queries = Ok (map (fun q => if in_dec (list_eq_dec N.eq_dec) q words then Some (rev q) else None) queries)) /\
  (~ NoDup words -> script hash ident limit words queries = Err Exception).
Proof.
  intros hash ident limit words queries Hid Hp Hw. pose (calls := (fun l => map (fun w : str => ((w, rev w) : str * str)) l) : list str -> list (str * str)).
  assert (G : forall l, (forall w, In w l -> w <> []) -> StronglySorted (fun a b => str_leb a b = true) l ->
    (NoDup l -> foldM (fun g w => oinsert (D := str) hash ident g w (rev w)) l odawg_init = Ok (orun hash ident (calls l) odawg_init) /\ accepted (calls l) = calls l) /\
    (~ NoDup l -> foldM (fun g w => oinsert (D := str) hash ident g w (rev w)) l odawg_init = Err Exception)).
  { induction l as [|x l IH] using rev_ind; intros Hn Hs; [split; [intros _; split; reflexivity|intros C; destruct C; constructor]|].
    assert (Hs1 : StronglySorted (fun a b => str_leb a b = true) l /\ forall y, In y l -> str_leb y x = true).
    { clear - Hs. induction l as [|a l IHl]; [split; [constructor|intros y []]|]. cbn [app] in Hs. inversion Hs as [|? ? Hs' Ha]; subst. destruct (IHl Hs') as [I1 I2]. rewrite Forall_forall in Ha. split.
      - constructor; auto. apply Forall_forall. intros y Hy. apply Ha, in_app_iff. left. exact Hy.
      - intros y [<-|Hy]; [apply Ha, in_app_iff; right; left; reflexivity|auto]. }
    destruct Hs1 as [Hs1 Hx]. destruct (IH (fun w H => Hn w (in_or_app _ _ _ (or_introl H))) Hs1) as [I1 I2]. rewrite foldM_app.
    destruct (orig_insert (D := str) hash ident Hid (calls l) x (rev x)) as (O1 & O2 & _).
    assert (Ec : calls (l ++ [x]) = calls l ++ [(x, rev x)]) by apply map_app.
    assert (Ek : map fst (calls l) = l) by (unfold calls; rewrite map_map; apply map_id).
    split.
    - intros Nd. assert (Nl : NoDup l /\ ~ In x l). { apply NoDup_remove in Nd. rewrite app_nil_r in Nd. exact Nd. } destruct Nl as [Nl Nx]. destruct (I1 Nl) as [E1 E2]. rewrite E1. cbn [bind foldM].
      rewrite E2 in O1. rewrite Ek in O1. assert (Hlt : forall y, In y l -> str_leb x y = false).
      { intros y Hy. destruct (str_leb x y) eqn:E; [|reflexivity]. exfalso. apply Nx. replace x with y; [exact Hy|]. apply str_leb_antisym; auto. }
      assert (Hxn : x <> []) by (apply Hn, in_app_iff; right; left; reflexivity).
      destruct O1 as (g & Eg); [split; auto|]. rewrite Eg. cbn [bind]. rewrite Ec. split.
      + unfold orun. rewrite fold_left_app. cbn [fold_left fst snd]. unfold orun in Eg. rewrite Eg. reflexivity.
      + rewrite accepted_snoc, E2. cbn [fst]. rewrite Ek. replace (acceptable l x) with true; [reflexivity|]. symmetry. apply acceptable_iff. auto.
    - intros Nd. destruct (ListDec.NoDup_dec (list_eq_dec N.eq_dec) l) as [Nl|Nl]; [|rewrite (I2 Nl); reflexivity].
      destruct (I1 Nl) as [E1 E2]. rewrite E1. cbn [bind foldM]. rewrite O2; [reflexivity|]. right. exists x. rewrite E2, Ek. split; [|destruct (str_leb_total x x); assumption].
      destruct (in_dec (list_eq_dec N.eq_dec) x l) as [H|H]; [exact H|]. destruct Nd. apply (Permutation_NoDup (l := x :: l)); [apply Permutation_cons_append|constructor; auto]. }
  pose proof (isort_perm str_leb words) as Pm. set (ss := isort str_leb words) in *.
  assert (Hss : forall w, In w ss <-> In w words) by (intros w; split; apply Permutation_in; [exact Pm|apply Permutation_sym; exact Pm]).
  destruct (G ss) as [G1 G2]; [intros w H; apply Hw, Hss, H|apply isort_sorted; [apply str_leb_total|apply str_leb_trans]|].
  unfold script. fold ss. split.
  - intros Nd. destruct (G1 (Permutation_NoDup (Permutation_sym Pm) Nd)) as [E1 E2]. rewrite E1. cbn [bind].
    destruct (orig_answers (D := str) hash ident Hid (calls ss) limit) as (g & Ef & _ & A1 & A2).
    { split; [exact Hp|]. intros w v H. rewrite E2 in H. apply in_map_iff in H. destruct H as (w' & E & H). injection E as <- _. apply Hw, Hss, H. }
    rewrite Ef. cbn [bind]. rewrite (mapM_Ok_in _ (fun q => if in_dec (list_eq_dec N.eq_dec) q words then Some (rev q) else None)); [reflexivity|].
    intros q _. destruct (in_dec (list_eq_dec N.eq_dec) q words) as [H|H].
    + apply A1. rewrite E2. apply in_map_iff. exists q. split; [reflexivity|apply Hss, H].
    + apply A2. rewrite E2. unfold calls. rewrite map_map, map_id. intros C. apply H, Hss, C.
  - intros Nd. rewrite G2; [reflexivity|]. intros C. apply Nd. apply (Permutation_NoDup Pm C).
Qed.
Print Assumptions orig_script.

(** *** What goes wrong *)

(** Without [finish] the data of another word is returned. *)
Theorem orig_lookup_before_finish_refuted : exists (calls : list (str * nat)) w v v',
  In (w, v) (accepted calls) /\ v <> v' /\ olookup (orun (fun _ => 0%Z) (fun i => i) calls odawg_init) w = Ok (Some v').
Proof. exists [(w_ "a", 1); (w_ "b", 2)], (w_ "b"), 2, 1. split; [vm_compute; auto|]. split; [discriminate|]. vm_compute. reflexivity. Qed.
Print Assumptions orig_lookup_before_finish_refuted.

(** A word can be inserted after [finish] and is not found then, not even
    after another [finish]; words that were never inserted are found. *)
Theorem orig_insert_after_finish_refuted : exists (calls : list (str * nat)) limit w v x g g' g'',
  finish (fun _ => 0%Z) (fun i => i) limit (orun (fun _ => 0%Z) (fun i => i) calls odawg_init) = Ok g /\
  oinsert (fun _ => 0%Z) (fun i => i) g w v = Ok g' /\ finish (fun _ => 0%Z) (fun i => i) limit g' = Ok g'' /\
  olookup g'' w = Ok None /\ x <> w /\ ~ In x (map fst calls) /\ olookup g'' x = Ok (Some v).
Proof.
  exists [(w_ "bar", 1)], 10, (w_ "bat"), 2, (w_ "t"). do 3 eexists. split; [vm_compute; reflexivity|]. split; [vm_compute; reflexivity|]. split; [vm_compute; reflexivity|].
  split; [vm_compute; reflexivity|]. split; [discriminate|]. split; [|vm_compute; reflexivity]. vm_compute. intros [C|[]]. discriminate.
Qed.
Print Assumptions orig_insert_after_finish_refuted.

(** *** Cases *)

(** All strings with the same hash, and a numbering with gaps. *)
Example orig_case :
  accepted some_calls = [(w_ "tap", 1); (w_ "taps", 3); (w_ "top", 5); (w_ "tops", 6); (w_ "zap", 8)] /\ short 5 some_calls /\
  match finish (fun _ => 0%Z) (fun i => 3 * i + 7) 5 (orun (fun _ => 0%Z) (fun i => 3 * i + 7) some_calls odawg_init) with
  | Ok g => olookup g (w_ "top") = Ok (Some 5) /\ olookup g (w_ "zap") = Ok (Some 8) /\ olookup g (w_ "to") = Ok None /\ node_count g = 6 /\ edge_count g = Ok 6
  | Err _ => False
  end.
Proof.
  split; [vm_compute; reflexivity|]. split; [|vm_compute; repeat split; reflexivity]. split; [lia|]. vm_compute.
  intros w v H. repeat (destruct H as [H|H]; [injection H as <- <-; cbn; lia|]). destruct H.
Qed.

Example orig_script_case :
  script (fun _ => 0%Z) (fun i => i) 9 [w_ "zap"; w_ "tap"; w_ "taps"] [w_ "taps"; w_ "ta"; w_ "zap"] = Ok [Some (w_ "spat"); None; Some (w_ "paz")] /\
  script (fun _ => 0%Z) (fun i => i) 9 [w_ "zap"; w_ "tap"; w_ "zap"] [] = Err Exception.
Proof. vm_compute. split; reflexivity. Qed.

Example orig_before_case :
  let calls := [(w_ "a", 1); (w_ "ab", 2); (w_ "abc", 3); (w_ "b", 4)] in
  accepted calls = calls /\ prefixes_in (w_ "abc") (map fst calls) = 2 /\ prefixes_in (w_ "b") (map fst calls) = 0 /\
  olookup (orun (fun _ => 0%Z) (fun i => i) calls odawg_init) (w_ "b") = Ok (Some 1).
Proof. vm_compute. repeat split; reflexivity. Qed.
