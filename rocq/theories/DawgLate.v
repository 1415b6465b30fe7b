(** Proofs about experiments/dawg.py (model: DawgModel.v): all insertions in
    a row, minimality, and insertions after [finalize]. *)
From Coq Require Import ZArith NArith List Bool Permutation Lia Sorted.
From Verif Require Import Num Py ListAux PyDict NmdSpec IndexModel IndexLoops IndexTop Props_Index DawgModel DawgRepr DawgProofs DawgFinal DawgAsk DawgQuery.
Import ListNotations.

(** ** Sequences of insertions *)

(** The accepted calls: those with a word that is not empty and greater than
    all words accepted before. *)
Definition acceptable (ws : list str) (w : str) : bool :=
  negb (str_leb w []) && forallb (fun x => negb (str_leb w x)) ws.
Definition accepted {D} (calls : list (str * D)) : list (str * D) :=
  fold_left (fun acc c => if acceptable (map fst acc) (fst c) then acc ++ [c] else acc) calls [].

Lemma accepted_snoc {D} (calls : list (str * D)) c :
  accepted (calls ++ [c]) = if acceptable (map fst (accepted calls)) (fst c) then accepted calls ++ [c] else accepted calls.
Proof. unfold accepted. rewrite fold_left_app. reflexivity. Qed.

Lemma acceptable_iff ws w : acceptable ws w = true <-> w <> [] /\ forall x, In x ws -> slt x w.
Proof.
  unfold acceptable. rewrite andb_true_iff, forallb_forall. split.
  - intros [H1 H2]. split; [intros ->; discriminate|]. intros x Hx. specialize (H2 x Hx). unfold slt. destruct (str_leb w x); [discriminate|reflexivity].
  - intros [H1 H2]. split; [destruct w; [congruence|reflexivity]|]. intros x Hx. rewrite (H2 x Hx). reflexivity.
Qed.

Lemma accepted_nonempty {D} (calls : list (str * D)) : ~ In [] (map fst (accepted calls)).
Proof.
  induction calls as [|c calls IH] using rev_ind; [intros []|]. rewrite accepted_snoc.
  destruct (acceptable _ (fst c)) eqn:E; auto. apply acceptable_iff in E. rewrite map_app, in_app_iff. intros [C|[C|[]]]; tauto.
Qed.

Section Run.
Context {D : Type}.
Variables (printable : N -> bool) (ident : nat -> nat).
Hypothesis ident_inj : forall i j, ident i = ident j -> i = j.
Notation repr := (py_repr printable).

Lemma previous_greatest (g : dawg D) addr ws B w : built repr ident g addr ws B ->
  (str_leb w (previous g) = false <-> w <> [] /\ forall x, In x ws -> slt x w).
Proof.
  intros Hb. change (str_leb w (previous g) = false) with (slt (previous g) w).
  destruct (b_last _ _ _ _ _ _ Hb) as [[E1 E2]|(ws' & E)].
  - rewrite E1, E2, slt_nil_l. split; [|tauto]. intros H. split; auto. intros x [].
  - pose proof (b_sorted _ _ _ _ _ _ Hb) as Hs. split.
    + intros H. split; [intros ->; destruct (slt_nil_r _ H)|]. intros x Hx. rewrite E in Hx, Hs. apply in_app_iff in Hx. destruct Hx as [Hx|[<-|[]]]; auto.
      eapply slt_trans; [|exact H]. clear - Hs Hx. induction ws' as [|a ws' IH]; [destruct Hx|]. cbn [app] in Hs. inversion Hs; subst.
      destruct Hx as [->|Hx]; auto. rewrite Forall_forall in H2. apply H2, in_app_iff. right. left. reflexivity.
    + intros [_ H]. apply H. rewrite E. apply in_app_iff. right. left. reflexivity.
Qed.

Lemma run_spec (calls : list (str * D)) : let g := run_inserts repr ident calls dawg_init in
  exists addr, built repr ident g addr (map fst (accepted calls)) (later (previous g)) /\ length (unchecked g) = length (previous g) /\
    data g = map snd (accepted calls).
Proof.
  induction calls as [|c calls IH] using rev_ind.
  - exists [[]]. destruct (init_spec (D := D) repr ident ident_inj) as [I1 I2]. split; [exact I1|split; [exact I2|reflexivity]].
  - cbv zeta in *. destruct IH as (addr & Hb & HU & HD). unfold run_inserts in *. rewrite fold_left_app. cbn [fold_left].
    set (g := fold_left _ calls dawg_init) in *. rewrite accepted_snoc.
    destruct (acceptable (map fst (accepted calls)) (fst c)) eqn:E.
    + apply acceptable_iff in E. apply (previous_greatest g addr _ _ (fst c) Hb) in E.
      destruct (insert_spec repr ident (repr_free printable) ident_inj g addr _ (fst c) (snd c) Hb HU E) as (g' & addr' & Ei & Hb' & HU' & HP & HD').
      rewrite Ei. exists addr'. rewrite !map_app. cbn [map]. rewrite HP. split; auto. split; auto. rewrite HD', HD. reflexivity.
    + assert (Ei : insert repr ident g (fst c) (snd c) = Err AssertionError).
      { unfold insert. destruct (str_leb (fst c) (previous g)) eqn:El; [reflexivity|]. exfalso. apply (previous_greatest g addr _ _ (fst c) Hb) in El.
        apply acceptable_iff in El. congruence. }
      rewrite Ei. exists addr. auto.
Qed.

(** ** Minimality *)

Lemma continuations_sorted u ws : StronglySorted slt ws -> StronglySorted slt (continuations u ws).
Proof.
  induction 1 as [|w ws Hs IH Hw]; [constructor|]. change (w :: ws) with ([w] ++ ws). rewrite continuations_app. unfold continuations at 1. cbn [flat_map].
  destruct (strip u w) as [v|] eqn:E; cbn [app]; auto. constructor; auto. apply strip_some in E. apply Forall_forall. intros x Hx.
  apply in_continuations in Hx. rewrite Forall_forall in Hw. specialize (Hw _ Hx). rewrite E in Hw. apply slt_app in Hw. exact Hw.
Qed.

Lemma sorted_same_set l m : StronglySorted slt l -> StronglySorted slt m -> (forall x, In x l <-> In x m) -> l = m.
Proof.
  intros Hl. revert m. induction Hl as [|a l Hs IH Ha]; intros m Hm E.
  - destruct m as [|b m]; auto. exfalso. apply (proj2 (E b)). left. reflexivity.
  - destruct Hm as [|b m Hm Hb]; [exfalso; apply (proj1 (E a)); left; reflexivity|]. rewrite Forall_forall in Ha, Hb.
    assert (a = b).
    { destruct (proj1 (E a) (or_introl eq_refl)) as [->|X]; auto. destruct (proj2 (E b) (or_introl eq_refl)) as [->|Y]; auto.
      exfalso. apply (slt_irrefl a). eapply slt_trans; [apply Ha, Y|apply Hb, X]. }
    subst b. f_equal. apply IH; auto. intros x. split; intros Hx.
    + destruct (proj1 (E x) (or_intror Hx)) as [<-|]; auto. exfalso. apply (slt_irrefl a). auto.
    + destruct (proj2 (E x) (or_intror Hx)) as [<-|]; auto. exfalso. apply (slt_irrefl a). auto.
Qed.

End Run.

(** A deterministic automaton. *)
Fixpoint drive {S} (delta : S -> N -> option S) (q : S) (w : str) : option S :=
  match w with [] => Some q | c :: w => match delta q c with Some q => drive delta q w | None => None end end.

Lemma drive_app {S} (delta : S -> N -> option S) u v q :
  drive delta q (u ++ v) = match drive delta q u with Some q' => drive delta q' v | None => None end.
Proof. revert q. induction u as [|c u IH]; intros q; [reflexivity|]. cbn [app drive]. destruct (delta q c); auto. Qed.

Section Minimal.
Context {D : Type}.

Lemma minimal (g : dawg D) L ws : ready g L ws -> ws <> [] ->
  forall S (delta : S -> N -> option S) (accepting : S -> bool) (start : S) (Q : list S),
  (forall w, In w ws <-> exists q, drive delta start w = Some q /\ accepting q = true) ->
  (forall w q, drive delta start w = Some q -> In q Q) ->
  count_nodes g + 1 <= length Q.
Proof.
  intros HR Hne S delta accepting start Q Hacc HQ.
  set (ls := ws :: map L (map snd (minimized g))).
  assert (Hlen : length ls = count_nodes g + 1) by (unfold ls, count_nodes; cbn [length]; rewrite !map_length; lia).
  assert (Hls : forall l, In l ls -> exists u, l = continuations u ws /\ l <> []).
  { intros l [<-|Hl]; [exists []; rewrite continuations_nil; auto|]. apply (r_states _ _ _ HR) in Hl. destruct Hl as (u & _ & E & N). eauto. }
  assert (Hnd : NoDup ls).
  { constructor; [|apply (r_unique _ _ _ HR)]. intros C. apply (r_states _ _ _ HR) in C. destruct C as (u & Hu & E & _).
    assert (X : forall n w, In w ws -> exists w', In w' ws /\ n <= length w').
    { induction n as [|n IH]; intros w Hw; [exists w; split; [auto|lia]|]. destruct (IH w Hw) as (w' & Hw' & Hn). rewrite E in Hw'.
      exists (u ++ w'). split; [apply in_continuations; exact Hw'|]. rewrite app_length. destruct u; [congruence|cbn [length]; lia]. }
    destruct ws as [|w ws'] eqn:Ew; [congruence|]. rewrite <- Ew in *.
    destruct (X (Datatypes.S (list_max (map (@length N) ws))) w) as (w' & Hw' & Hn); [rewrite Ew; left; reflexivity|].
    pose proof (proj1 (list_max_le (map (@length N) ws) _) (le_n _)) as F. rewrite Forall_forall in F. specialize (F _ (in_map (@length N) _ _ Hw')). lia. }
  pose (rel := fun (l : list str) (q : S) => StronglySorted slt l /\ forall v, In v l <-> exists q', drive delta q v = Some q' /\ accepting q' = true).
  assert (Hrel : forall l, In l ls -> exists q, In q Q /\ rel l q).
  { intros l Hl. destruct (Hls l Hl) as (u & -> & Ne). destruct (continuations u ws) as [|v l'] eqn:Ec; [congruence|]. rewrite <- Ec in *.
    assert (Hv : In (u ++ v) ws) by (apply in_continuations; rewrite Ec; left; reflexivity).
    apply Hacc in Hv. destruct Hv as (q & Dq & _). rewrite drive_app in Dq. destruct (drive delta start u) as [qu|] eqn:Eu; [|discriminate].
    exists qu. split; [eapply HQ; eauto|]. split; [apply continuations_sorted, (r_sorted _ _ _ HR)|].
    intros x. rewrite in_continuations, Hacc, drive_app, Eu. reflexivity. }
  assert (G : forall l, NoDup l -> (forall x, In x l -> exists q, In q Q /\ rel x q) -> exists qs, length qs = length l /\ NoDup qs /\ incl qs Q /\ (forall q, In q qs -> exists x, In x l /\ rel x q)).
  { induction 1 as [|x l Hx Hn IH]; intros Hq; [exists []; repeat split; [constructor|intros q []|intros q []]|].
    destruct IH as (qs & Q1 & Q2 & Q3 & Q4); [intros y Hy; apply Hq; right; exact Hy|]. destruct (Hq x (or_introl eq_refl)) as (q & Hq1 & Hq2).
    exists (q :: qs). split; [cbn [length]; congruence|]. split; [|split].
    - constructor; auto. intros C. destruct (Q4 q C) as (y & Hy & Ry). apply Hx. assert (y = x); [|subst; exact Hy].
      destruct Ry as [Ry1 Ry2], Hq2 as [Rx1 Rx2]. apply sorted_same_set; auto. intros v. rewrite Ry2, Rx2. reflexivity.
    - intros y [<-|Hy]; auto.
    - intros y [<-|Hy]; [exists x; split; [left; reflexivity|exact Hq2]|]. destruct (Q4 y Hy) as (z & Hz & Rz). exists z. split; [right; exact Hz|exact Rz]. }
  destruct (G ls Hnd Hrel) as (qs & Q1 & Q2 & Q3 & _). rewrite <- Hlen, <- Q1. apply NoDup_incl_length; auto.
Qed.

(** The graph is itself such an automaton. *)
Definition graph_delta (h : heap) (i : nat) (c : N) : option nat :=
  match nth_error h i with Some nd => dget c (edges nd) | None => None end.
Definition graph_accepting (h : heap) (i : nat) : bool :=
  match nth_error h i with Some nd => negb (Nat.eqb (terminal nd) 0) | None => false end.

Lemma graph_automaton (g : dawg D) L ws : ready g L ws ->
  let Q := root g :: map snd (minimized g) in
  (forall w, In w ws <-> exists q, drive (graph_delta (nodes g)) (root g) w = Some q /\ graph_accepting (nodes g) q = true) /\
  (forall w q, drive (graph_delta (nodes g)) (root g) w = Some q -> In q Q) /\ length Q = count_nodes g + 1.
Proof.
  intros HR Q. pose proof (r_sound _ _ _ HR) as HS.
  assert (Hd : forall i nd c, sound_node (nodes g) Q L i nd -> graph_delta (nodes g) i c = dget c (edges nd)).
  { intros i nd c (H1 & _). unfold graph_delta. rewrite H1. reflexivity. }
  assert (Hwf : forall i nd, sound_node (nodes g) Q L i nd -> dwf (edges nd)).
  { intros i nd (_ & _ & H3 & _). unfold dwf, dkeys. apply asc_nodup. exact H3. }
  assert (G : forall w i, In i Q -> (In w (L i) <-> exists q, drive (graph_delta (nodes g)) i w = Some q /\ graph_accepting (nodes g) q = true) /\
     (forall q, drive (graph_delta (nodes g)) i w = Some q -> In q Q)).
  { induction w as [|c w IH]; intros i Hi; destruct (HS i Hi) as (nd & Hnd); pose proof Hnd as (H1 & H2 & H3 & H4 & H5).
    - split; [|intros q [= <-]; exact Hi]. rewrite <- H2, in_node_lang_nil. cbn [drive]. unfold graph_accepting. split.
      + intros H. exists i. split; auto. rewrite H1. destruct (Nat.eqb_spec (terminal nd) 0); [contradiction|reflexivity].
      + intros (q & [= <-] & H). rewrite H1 in H. destruct (Nat.eqb_spec (terminal nd) 0); [discriminate|auto].
    - cbn [drive]. rewrite (Hd i nd c Hnd). rewrite <- H2, in_node_lang_cons.
      destruct (dget c (edges nd)) as [t|] eqn:Et.
      + assert (Ht := dget_In _ _ _ Et). destruct (H5 _ Ht) as [HtR _]. cbn [snd] in HtR. destruct (IH t HtR) as [I1 I2]. split; [|exact I2].
        rewrite <- I1. split; [|intros H; exists t; auto]. intros (t' & Ht' & Hw). apply (In_dget _ _ _ (Hwf i nd Hnd)) in Ht'. assert (t' = t) by congruence. subst t'. exact Hw.
      + split; [|discriminate]. split; [|intros (q & C & _); discriminate]. intros (t' & Ht' & Hw). apply (In_dget _ _ _ (Hwf i nd Hnd)) in Ht'. congruence. }
  split; [|split].
  - intros w. destruct (G w (root g) (or_introl eq_refl)) as [G1 _]. rewrite (r_root _ _ _ HR) in G1. exact G1.
  - intros w q. apply (G w (root g) (or_introl eq_refl)).
  - unfold Q, count_nodes. cbn [length]. rewrite map_length. lia.
Qed.
End Minimal.

(** ** After [finalize] *)

Section Late.
Context {D : Type}.
Variables (repr : N -> str) (ident : nat -> nat).
Variables (g0 : dawg D) (L : nat -> list str) (ws : list str).
Hypothesis HR : ready g0 L ws.

Definition root_same (h : heap) : Prop := exists nd nd0, nth_error h (root g0) = Some nd /\ nth_error (nodes g0) (root g0) = Some nd0 /\
  final_edges nd = final_edges nd0 /\ terminal nd = terminal nd0 /\ leaf_count nd = leaf_count nd0.

Definition free (i : nat) : Prop := i = root g0 \/ length (nodes g0) <= i.

Record frozen (h : heap) : Prop := {
  z_len : length (nodes g0) <= length h;
  z_old : forall j, In j (map snd (minimized g0)) -> nth_error h j = nth_error (nodes g0) j;
  z_root : root_same h
}.

Record late (g : dawg D) : Prop := {
  l_root : root g = root g0;
  l_frozen : frozen (nodes g);
  l_unch : forall a l b, In (a, l, b) (unchecked g) -> free a /\ a < length (nodes g) /\ length (nodes g0) <= b < length (nodes g);
  l_data : exists more, data g = data g0 ++ more
}.

Lemma old_range j : In j (root g0 :: map snd (minimized g0)) -> j < length (nodes g0).
Proof. intros H. destruct (r_sound _ _ _ HR j H) as (nd & E & _). apply nth_error_Some. congruence. Qed.

Lemma frozen_set h i nd nd' : frozen h -> nth_error h i = Some nd -> free i -> terminal nd' = terminal nd \/ length (nodes g0) <= i ->
  leaf_count nd' = leaf_count nd -> final_edges nd' = final_edges nd -> frozen (set_node h i nd').
Proof.
  intros [Z1 Z2 (rn & rn0 & R1 & R2 & R3 & R4 & R5)] E Fi Ht Hl Hf. split.
  - unfold set_node. rewrite list_set_length. exact Z1.
  - intros j Hj. rewrite (set_other _ _ _ _ j E); auto. intros ->. destruct Fi as [->|Fi]; [exact (r_root_min _ _ _ HR Hj)|].
    pose proof (old_range i (or_intror Hj)). lia.
  - pose proof (old_range (root g0) (or_introl eq_refl)) as Hr. destruct (Nat.eq_dec i (root g0)) as [->|Ni].
    + exists nd', rn0. rewrite (set_same _ _ _ _ E). assert (rn = nd) by congruence. subst rn. destruct Ht as [Ht|Ht]; [|lia]. repeat split; auto; congruence.
    + exists rn, rn0. rewrite (set_other _ _ _ _ _ E) by auto. auto.
Qed.

Lemma frozen_grow h nd : frozen h -> frozen (h ++ [nd]).
Proof.
  intros [Z1 Z2 (rn & rn0 & R1 & R2 & R)]. split.
  - rewrite app_length. lia.
  - intros j Hj. rewrite nth_error_app1; auto. pose proof (old_range j (or_intror Hj)). lia.
  - exists rn, rn0. rewrite nth_error_app1; [auto|]. apply nth_error_Some. congruence.
Qed.

Lemma late_minimize_one g : late g -> unchecked g <> [] -> exists g', minimize_one repr ident g = Ok g' /\ late g' /\ unchecked g' = tl (unchecked g) /\ previous g' = previous g /\ data g' = data g.
Proof.
  intros [H1 H2 H3 H4] Ne. unfold minimize_one. destruct (unchecked g) as [|[[a l] c] rest] eqn:E; [congruence|].
  destruct (H3 a l c (or_introl eq_refl)) as (Fa & La & Lc). unfold get_node.
  destruct (nth_error (nodes g) c) as [nd|] eqn:Ec; [|apply nth_error_None in Ec; lia]. cbn [bind].
  destruct (nth_error (nodes g) a) as [p|] eqn:Ea; [|apply nth_error_None in Ea; lia].
  destruct (dget (node_str repr ident nd) (minimized g)) as [same|].
  - cbn [bind]. eexists. split; [reflexivity|]. split; [|auto]. split; cbn [root nodes unchecked data]; auto.
    + eapply frozen_set; eauto.
    + intros a' l' b' Hin. unfold set_node. rewrite list_set_length. apply (H3 a' l' b'). right. exact Hin.
  - eexists. split; [reflexivity|]. split; [|auto]. split; cbn [root nodes unchecked data]; auto.
    intros a' l' b' Hin. apply (H3 a' l' b'). right. exact Hin.
Qed.

Lemma late_minimize n : forall g, late g -> n <= length (unchecked g) ->
  exists g', foldM (fun g _ => minimize_one repr ident g) (repeat tt n) g = Ok g' /\ late g' /\ previous g' = previous g /\ data g' = data g.
Proof.
  induction n as [|n IH]; intros g Hl Hn; [exists g; auto|]. destruct (late_minimize_one g Hl) as (g1 & E1 & L1 & U1 & P1 & D1).
  { intros C. rewrite C in Hn. cbn in Hn. lia. }
  destruct (IH g1 L1) as (g2 & E2 & L2 & P2 & D2). { rewrite U1. destruct (unchecked g); cbn in *; lia. }
  exists g2. cbn [repeat foldM]. rewrite E1. cbn [bind]. split; auto. split; auto. split; congruence.
Qed.

Lemma late_letters r : forall h unch i, frozen h -> free i -> i < length h ->
  (forall a l b, In (a, l, b) unch -> free a /\ a < length h /\ length (nodes g0) <= b < length h) ->
  exists h' unch' i', foldM add_letter r (h, unch, i) = Ok (h', unch', i') /\ frozen h' /\ i' < length h' /\ (r <> [] -> length (nodes g0) <= i') /\
   (forall a l b, In (a, l, b) unch' -> free a /\ a < length h' /\ length (nodes g0) <= b < length h').
Proof.
  induction r as [|y r IH]; intros h unch i Z Fi Li U; [exists h, unch, i; repeat (split; auto); congruence|].
  cbn [foldM]. unfold add_letter at 1, get_node. destruct (nth_error h i) as [nd|] eqn:Ei; [|apply nth_error_None in Ei; lia]. cbn [bind].
  match goal with |- context [set_node h i ?x] => set (nd' := x) end.
  assert (Ll : length (set_node h i nd') = length h) by (unfold set_node; apply list_set_length).
  assert (Z' : frozen (set_node h i nd' ++ [new_node])). { apply frozen_grow. eapply frozen_set; eauto. }
  assert (Lz := z_len _ Z).
  destruct (IH (set_node h i nd' ++ [new_node]) ((i, y, length h) :: unch) (length h)) as (h' & unch' & i' & E & Z2 & L2 & N2 & U2); auto.
  - right. exact Lz.
  - rewrite app_length, Ll. cbn. lia.
  - intros a l b [H|H]; rewrite app_length, Ll; cbn [length].
    + injection H as <- <- <-. split; auto. lia.
    + destruct (U a l b H) as (U1 & U2 & U3). split; auto. lia.
  - exists h', unch', i'. split; [exact E|]. split; auto. split; auto. split; auto. intros _.
    destruct r as [|y' r]; [cbn [foldM] in E; injection E as _ _ <-; exact Lz|apply N2; discriminate].
Qed.

Lemma late_insert g w v : late g -> match insert repr ident g w v with
  | Ok g' => late g'
  | Err e => e = AssertionError /\ str_leb w (previous g) = true
  end.
Proof.
  intros Hl. unfold insert. destruct (str_leb w (previous g)) eqn:El; [auto|]. unfold insert_body.
  unfold minimize_unchecked. destruct (late_minimize (length (unchecked g) - common_prefix_len w (previous g)) g Hl) as (g1 & E1 & [H1 H2 H3 H4] & P1 & D1); [lia|].
  rewrite E1. cbn [bind].
  assert (Hr : root g0 < length (nodes g1)). { pose proof (old_range (root g0) (or_introl eq_refl)). pose proof (z_len _ H2). lia. }
  destruct (late_letters (skipn (common_prefix_len w (previous g)) w) (nodes g1) (unchecked g1) (match unchecked g1 with (_, _, child) :: _ => child | [] => root g1 end))
    as (h' & unch' & i' & E2 & Z2 & L2 & N2 & U2); auto.
  { destruct (unchecked g1) as [|[[a l] c] rest] eqn:Eu; [left; exact H1|]. right. apply (H3 a l c (or_introl eq_refl)). }
  { destruct (unchecked g1) as [|[[a l] c] rest] eqn:Eu; [rewrite H1; exact Hr|]. apply (H3 a l c (or_introl eq_refl)). }
  match goal with |- context [foldM add_letter ?r ?s] => change (foldM add_letter r s) with (foldM add_letter (skipn (common_prefix_len w (previous g)) w) (nodes g1, unchecked g1, match unchecked g1 with (_, _, child) :: _ => child | [] => root g1 end)) end.
  rewrite E2. cbn [bind]. unfold get_node. destruct (nth_error h' i') as [nd|] eqn:En; [|apply nth_error_None in En; lia]. cbn [bind].
  assert (Ni : length (nodes g0) <= i').
  { apply N2. destruct (common_prefix w (previous g) El) as (p & s & y & r & Ep & Ew & Lp & _). rewrite <- Lp. rewrite Ew at 1. rewrite skipn_app, skipn_all, Nat.sub_diag. discriminate. }
  split; cbn [root nodes unchecked data]; auto.
  - eapply frozen_set; eauto. right. exact Ni.
  - intros a l b Hin. unfold set_node. rewrite list_set_length. apply (U2 a l b Hin).
  - destruct H4 as (more & ->). exists (more ++ [v]). rewrite app_assoc. reflexivity.
Qed.

Lemma late_finalize g limit : late g -> 0 < limit -> exists g', finalize repr ident limit g = Ok g' /\ late g' /\ data g' = data g.
Proof.
  intros Hl Hp. unfold finalize, minimize_unchecked. destruct (late_minimize (length (unchecked g) - 0) g Hl) as (g1 & E1 & L1 & P1 & D1); [lia|].
  rewrite E1. cbn [bind]. destruct (z_root _ (l_frozen _ L1)) as (nd & nd0 & R1 & R2 & R3 & R4 & R5).
  destruct (r_done _ _ _ HR (root g0) (or_introl eq_refl)) as (nd' & D2 & D3 & _). assert (nd' = nd0) by congruence. subst nd'.
  destruct limit as [|limit]; [lia|]. cbn [finalize_node]. unfold get_node. rewrite (l_root _ L1), R1. cbn [bind]. rewrite R5, D3. cbn [bind].
  eexists. split; [reflexivity|]. split; [|exact D1]. destruct L1 as [H1 H2 H3 H4]. split; cbn [root nodes unchecked data]; auto.
Qed.

Lemma late_init : late g0.
Proof.
  destruct (r_sound _ _ _ HR (root g0) (or_introl eq_refl)) as (nd & E & _). split; auto.
  - split; auto. exists nd, nd. auto.
  - rewrite (r_unchecked _ _ _ HR). intros a l b [].
  - exists []. rewrite app_nil_r. reflexivity.
Qed.

Lemma late_walk h w : frozen h -> forall s i, In i (root g0 :: map snd (minimized g0)) ->
  walk h (s, i) w = walk (nodes g0) (s, i) w /\
  (forall s' j, walk (nodes g0) (s, i) w = Ok (Some (s', j)) -> In j (root g0 :: map snd (minimized g0))).
Proof.
  intros Z. set (R := root g0 :: map snd (minimized g0)).
  assert (Hn : forall i, In i R -> exists nd nd0, nth_error h i = Some nd /\ nth_error (nodes g0) i = Some nd0 /\ final_edges nd = final_edges nd0 /\ terminal nd = terminal nd0 /\ leaf_count nd = leaf_count nd0).
  { intros i [<-|Hi]; [apply (z_root _ Z)|]. destruct (r_sound _ _ _ HR i (or_intror Hi)) as (nd & E & _). exists nd, nd. rewrite (z_old _ Z i Hi). auto. }
  induction w as [|c w IH]; intros s i Hi; [split; [reflexivity|intros s' j [= <- <-]; exact Hi]|].
  cbn [walk]. destruct (Hn i Hi) as (nd & nd0 & N1 & N2 & N3 & N4 & N5). unfold step, get_node. cbn [fst snd]. rewrite N1, N2. cbn [bind]. rewrite N3.
  destruct (r_done _ _ _ HR i Hi) as (nd' & D1 & _ & D3). assert (nd' = nd0) by congruence. subst nd'. rewrite D3.
  assert (Hes : forall e, In e (edges nd0) -> In (snd e) R) by (intros e He; right; eapply (r_into _ _ _ HR i nd0 e); eauto).
  assert (G : forall es s, (forall e, In e es -> In (snd e) R) -> step_loop h nd es s c = step_loop (nodes g0) nd0 es s c /\
    (forall s' t, step_loop (nodes g0) nd0 es s c = Ok (Some (s', t)) -> In t R)).
  { induction es as [|[d t] es IHes]; intros s1 He; [split; [reflexivity|discriminate]|]. cbn [step_loop].
    destruct (N.eqb c d); [rewrite N4; split; [reflexivity|]; intros s' t' [= <- <-]; apply (He (d, t)); left; reflexivity|].
    destruct (Hn t) as (cn & cn0 & C1 & C2 & C3 & C4 & C5); [apply (He (d, t)); left; reflexivity|]. unfold get_node. rewrite C1, C2. cbn [bind]. rewrite C5.
    destruct (leaf_count cn0); [|split; [reflexivity|discriminate]]. apply IHes. intros e H. apply He. right. exact H. }
  destruct (G (edges nd0) s Hes) as [G1 G2]. rewrite G1. destruct (step_loop (nodes g0) nd0 (edges nd0) s c) as [[[s' t]|]|e]; cbn [bind]; [|split; [reflexivity|discriminate]|split; [reflexivity|discriminate]].
  apply IH. apply (G2 s' t eq_refl).
Qed.

Lemma late_index g w : late g -> index g w = index g0 w.
Proof.
  intros [H1 H2 H3 H4]. unfold index. rewrite H1. destruct (late_walk (nodes g) w H2 0 (root g0) (or_introl eq_refl)) as [W1 W2]. rewrite W1.
  destruct (walk (nodes g0) (0, root g0) w) as [[[s j]|]|e]; cbn [bind]; auto. specialize (W2 s j eq_refl).
  destruct W2 as [<-|Hj].
  - destruct (z_root _ H2) as (nd & nd0 & R1 & R2 & R3 & R4 & R5). unfold get_node. rewrite R1, R2. cbn [bind]. rewrite R4. reflexivity.
  - unfold get_node. rewrite (z_old _ H2 j Hj). reflexivity.
Qed.
End Late.
