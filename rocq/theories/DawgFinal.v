(** Proofs about experiments/dawg.py (model: DawgModel.v): finalizing the
    graph and asking it. *)
From Coq Require Import ZArith NArith List Bool Permutation Lia Sorted.
From Verif Require Import Num Py ListAux PyDict NmdSpec IndexModel IndexLoops IndexTop Props_Index DawgModel DawgProofs.
Import ListNotations.

(** ** Counting *)

Definition cnt (w : str) (l : list str) : nat := length (filter (fun x => negb (str_leb w x)) l).

Lemma cnt_app w l m : cnt w (l ++ m) = cnt w l + cnt w m.
Proof. unfold cnt. rewrite filter_app, app_length. reflexivity. Qed.

Lemma cnt_cons_map c w d l : cnt (c :: w) (map (cons d) l) = if (d <? c)%N then length l else if (d =? c)%N then cnt w l else 0.
Proof.
  unfold cnt, str. induction l as [|x l IH]; cbn [map filter]; [destruct (d <? c)%N, (d =? c)%N; reflexivity|].
  change (str_leb (c :: w) (d :: x)) with ((c <? d)%N || ((c =? d)%N && str_leb w x)). destruct (N.ltb_spec d c) as [H|H].
  - destruct (N.ltb_spec c d) as [H'|H']; [lia|]. destruct (N.eqb_spec c d); [lia|]. cbn [orb andb negb length]. rewrite IH. reflexivity.
  - destruct (N.eqb_spec d c) as [->|E].
    + rewrite N.ltb_irrefl, N.eqb_refl. cbn [orb andb]. destruct (str_leb w x); cbn [negb length]; rewrite IH; reflexivity.
    + destruct (N.ltb_spec c d) as [H'|H']; [|lia]. cbn [orb negb]. exact IH.
Qed.

Lemma sorted_cnt ws k w : StronglySorted slt ws -> nth_error ws k = Some w -> cnt w ws = k.
Proof.
  intros H. revert k. induction H as [|a ws Hs IH Ha]; intros k E; [destruct k; discriminate|]. unfold cnt in *. cbn [filter].
  destruct k as [|k].
  - injection E as ->. destruct (str_leb w w) eqn:C; [|destruct (slt_irrefl w C)]. cbn [negb].
    clear IH. induction ws as [|x ws IH]; [reflexivity|]. inversion Ha; subst. inversion Hs; subst. cbn [filter].
    assert (C' : str_leb w x = true). { unfold slt in H1. destruct (str_leb_total w x); congruence. }
    rewrite C'. cbn [negb]. auto.
  - cbn [nth_error] in E. rewrite Forall_forall in Ha. specialize (Ha w (nth_error_In _ _ E)). unfold slt in Ha. rewrite Ha. cbn [negb length].
    rewrite (IH _ E). reflexivity.
Qed.

(** ** Graphs and their languages *)

Definition sound_node (h : heap) (R : list nat) (L : nat -> list str) (i : nat) (nd : node) : Prop :=
  nth_error h i = Some nd /\ node_lang L nd = L i /\ asc (map fst (edges nd)) /\ terminal nd <= 1 /\
  (forall e, In e (edges nd) -> In (snd e) R /\ L (snd e) <> []).

Definition sound h R L : Prop := forall i, In i R -> exists nd, sound_node h R L i nd.

Definition depth (L : nat -> list str) (i : nat) : nat := list_max (map (@length N) (L i)).

Lemma depth_le L i n : depth L i <= n <-> forall w, In w (L i) -> length w <= n.
Proof.
  unfold depth. rewrite list_max_le, Forall_forall. split.
  - intros H w Hw. apply H, in_map, Hw.
  - intros H k Hk. apply in_map_iff in Hk. destruct Hk as (w & <- & Hw). auto.
Qed.
Lemma depth_in L i w : In w (L i) -> length w <= depth L i.
Proof. apply depth_le. lia. Qed.

Lemma depth_child h R L i nd e : sound_node h R L i nd -> In e (edges nd) -> depth L (snd e) < depth L i.
Proof.
  intros (_ & H2 & _ & _ & H5) He. destruct (H5 e He) as [_ Ne].
  assert (X : forall v, In v (L (snd e)) -> S (length v) <= depth L i).
  { intros v Hv. change (length (fst e :: v) <= depth L i). apply depth_in. rewrite <- H2. apply in_node_lang_cons.
    exists (snd e). split; auto. destruct e; auto. }
  destruct (L (snd e)) as [|v l] eqn:E; [congruence|].
  pose proof (X v (or_introl eq_refl)) as Y. assert (Z : depth L (snd e) <= depth L i - 1); [|lia].
  apply depth_le. intros w Hw. rewrite E in Hw. specialize (X w Hw). lia.
Qed.

(** [__iter__] *)
Lemma node_iter_spec h R L : sound h R L -> forall n i, In i R -> depth L i < n -> node_iter n h i = Ok (L i).
Proof.
  intros HS. induction n as [|n IH]; intros i Hi Hd; [lia|]. destruct (HS i Hi) as (nd & Hnd). pose proof Hnd as (H1 & H2 & H3 & H4 & H5).
  cbn [node_iter]. unfold get_node. rewrite H1. cbn [bind]. rewrite (sorted_edges_asc nd H3).
  rewrite (mapM_Ok_in _ (fun e => map (cons (fst e)) (L (snd e)))).
  - cbn [bind]. rewrite <- H2. unfold node_lang. rewrite flat_map_concat_map. reflexivity.
  - intros e He. pose proof (depth_child _ _ _ _ _ _ Hnd He). rewrite IH by (try apply H5; auto; lia). reflexivity.
Qed.

(** ** Following the letters of a word *)

Lemma continuations_map_cons c u d l : continuations (c :: u) (map (cons d) l) = if N.eqb c d then continuations u l else [].
Proof.
  unfold continuations, str in *. induction l as [|x l IH]; cbn [map flat_map]; [destruct (N.eqb c d); reflexivity|].
  change (strip (c :: u) (d :: x)) with (if N.eqb c d then strip u x else None). destruct (N.eqb c d); [rewrite IH; reflexivity|exact IH].
Qed.

Lemma continuations_edges c u (L : nat -> list str) es : asc (map fst es) ->
  (forall t, In (c, t) es -> continuations (c :: u) (flat_map (fun e => map (cons (fst e)) (L (snd e))) es) = continuations u (L t)) /\
  (~ In c (map fst es) -> continuations (c :: u) (flat_map (fun e => map (cons (fst e)) (L (snd e))) es) = []).
Proof.
  induction es as [|[d t'] es IH]; intros Ha; [split; [intros t []|reflexivity]|]. cbn [map fst] in Ha. inversion Ha; subst. destruct (IH H1) as [IH1 IH2].
  cbn [flat_map fst snd map]. rewrite continuations_app, continuations_map_cons. rewrite Forall_forall in H2. destruct (N.eqb_spec c d) as [->|Ne].
  - assert (X : ~ In d (map fst es)) by (intros C; apply H2 in C; lia). rewrite (IH2 X), app_nil_r. split.
    + intros t [E|C]; [injection E as ->; reflexivity|]. exfalso. apply X, in_map_iff. exists (d, t). auto.
    + intros C. exfalso. apply C. left. reflexivity.
  - cbn [app]. split.
    + intros t [E|C]; [congruence|auto].
    + intros C. apply IH2. intros C'. apply C. right. exact C'.
Qed.

Lemma continuations_node c u L nd : asc (map fst (edges nd)) ->
  (forall t, In (c, t) (edges nd) -> continuations (c :: u) (node_lang L nd) = continuations u (L t)) /\
  (~ In c (map fst (edges nd)) -> continuations (c :: u) (node_lang L nd) = []).
Proof.
  intros Ha. unfold node_lang. destruct (terminal nd =? 0); exact (continuations_edges c u L (edges nd) Ha).
Qed.

Inductive reach (h : heap) : nat -> str -> nat -> Prop :=
| reach_here i : reach h i [] i
| reach_step i nd c t u j : nth_error h i = Some nd -> In (c, t) (edges nd) -> reach h t u j -> reach h i (c :: u) j.

Lemma reach_exists h R L : sound h R L -> forall u i, In i R -> continuations u (L i) <> [] ->
  exists j, reach h i u j /\ In j R /\ L j = continuations u (L i).
Proof.
  intros HS. induction u as [|c u IH]; intros i Hi Ne.
  - exists i. rewrite continuations_nil. split; [constructor|auto].
  - destruct (HS i Hi) as (nd & H1 & H2 & H3 & H4 & H5). rewrite <- H2 in Ne |- *.
    destruct (continuations_node c u L nd H3) as [C1 C2].
    destruct (in_dec N.eq_dec c (map fst (edges nd))) as [Hc|Hc]; [|rewrite (C2 Hc) in Ne; congruence].
    apply in_map_iff in Hc. destruct Hc as ((c' & t) & E & Ht). cbn in E. subst c'. rewrite (C1 t Ht) in *.
    destruct (IH t) as (j & J1 & J2 & J3); auto; [apply (H5 _ Ht)|]. exists j. split; [econstructor; eauto|auto].
Qed.

(** ** [finalize] *)

Definition sum_nat (l : list nat) : nat := fold_right Nat.add 0 l.

Lemma node_lang_length L nd : length (node_lang L nd) = (if terminal nd =? 0 then 0 else 1) + sum_nat (map (fun e => length (L (snd e))) (edges nd)).
Proof.
  unfold node_lang. rewrite app_length. f_equal; [destruct (terminal nd =? 0); reflexivity|].
  induction (edges nd) as [|e es IH]; [reflexivity|]. cbn [flat_map map sum_nat fold_right]. rewrite app_length, map_length, IH. reflexivity.
Qed.

Definition done (L : nat -> list str) (h : heap) (i : nat) : Prop :=
  exists nd, nth_error h i = Some nd /\ leaf_count nd = Some (length (L i)) /\ final_edges nd = Some (edges nd).
Definition clean (h : heap) (i : nat) : Prop := exists nd, nth_error h i = Some nd /\ leaf_count nd = None /\ final_edges nd = None.

Section Finalize.
Variables (h0 : heap) (R : list nat) (L : nat -> list str).
Hypothesis HS : sound h0 R L.

Definition shape (h : heap) : Prop := length h = length h0 /\
  forall i nd, nth_error h i = Some nd -> exists nd0, nth_error h0 i = Some nd0 /\ terminal nd = terminal nd0 /\ edges nd = edges nd0.

Lemma shape_set h i nd nd' : shape h -> nth_error h i = Some nd -> terminal nd' = terminal nd -> edges nd' = edges nd -> shape (set_node h i nd').
Proof.
  intros [S1 S2] E T Es. assert (Hi : i < length h) by (apply nth_error_Some; congruence). unfold set_node. split; [rewrite list_set_length; auto|].
  intros j ndj. rewrite nth_error_list_set by auto. destruct (Nat.eq_dec j i) as [->|]; [|apply S2]. intros [= <-].
  destruct (S2 i nd E) as (nd0 & ? & ? & ?). exists nd0. repeat split; congruence.
Qed.

Lemma set_same h i nd nd' : nth_error h i = Some nd -> nth_error (set_node h i nd') i = Some nd'.
Proof. intros E. unfold set_node. rewrite nth_error_list_set by (apply nth_error_Some; congruence). destruct (Nat.eq_dec i i); congruence. Qed.
Lemma set_other h i nd nd' j : nth_error h i = Some nd -> j <> i -> nth_error (set_node h i nd') j = nth_error h j.
Proof. intros E N. unfold set_node. rewrite nth_error_list_set by (apply nth_error_Some; congruence). destruct (Nat.eq_dec j i); congruence. Qed.

Lemma shape_sound h : shape h -> sound h R L.
Proof.
  intros [S1 S2] i Hi. destruct (HS i Hi) as (nd0 & H1 & H2 & H3 & H4 & H5).
  destruct (nth_error h i) as [nd|] eqn:E.
  - destruct (S2 i nd E) as (nd0' & E0 & T & Ed). assert (nd0' = nd0) by congruence. subst nd0'. exists nd. unfold sound_node, node_lang in *. rewrite T, Ed. auto.
  - apply nth_error_None in E. assert (X : nth_error h0 i <> None) by congruence. apply nth_error_Some in X. lia.
Qed.

Definition closed (h : heap) : Prop := forall i nd e, In i R -> nth_error h i = Some nd -> done L h i -> In e (edges nd) -> done L h (snd e).

(** What a call leaves as it was. *)
Definition after (h h' : heap) (i : nat) : Prop :=
  shape h' /\ closed h' /\
  (forall j, In j R -> clean h j \/ done L h j -> clean h' j \/ done L h' j) /\
  (forall j, In j R -> done L h j -> done L h' j) /\
  (forall j, In j R -> depth L i < depth L j -> nth_error h' j = nth_error h j).

Lemma finalize_node_spec : forall limit h i, In i R -> depth L i < limit -> shape h -> closed h ->
  (forall j, In j R -> depth L j <= depth L i -> clean h j \/ done L h j) ->
  exists h', finalize_node limit h i = Ok h' /\ done L h' i /\ after h h' i.
Proof.
  induction limit as [|limit IH]; intros h i Hi Hd Sh Cl St; [lia|].
  destruct (shape_sound h Sh i Hi) as (nd & Hnd). pose proof Hnd as (H1 & H2 & H3 & H4 & H5).
  cbn [finalize_node]. unfold get_node at 1. rewrite H1. cbn [bind].
  destruct (leaf_count nd) as [k|] eqn:Ek.
  { exists h. split; [reflexivity|]. split.
    - destruct (St i Hi (le_n _)) as [(nd' & E & C & _)|Dn]; [congruence|exact Dn].
    - repeat split; auto; apply Sh. }
  set (nd1 := {| terminal := terminal nd; edges := edges nd; leaf_count := Some (if terminal nd =? 0 then 0 else 1); final_edges := final_edges nd |}).
  rewrite (sorted_edges_asc nd H3).
  assert (Nd : ~ done L h i) by (intros (nd' & E & C & _); congruence).
  (* the loop *)
  match goal with |- context [foldM ?f _ _] => set (step_f := f) end.
  assert (Loop : forall es h1 acc fe, (forall e, In e es -> In e (edges nd)) -> shape h1 -> closed h1 -> ~ done L h1 i ->
    nth_error h1 i = Some {| terminal := terminal nd; edges := edges nd; leaf_count := Some acc; final_edges := fe |} -> fe <> Some (edges nd) ->
    (forall j, In j R -> depth L j < depth L i -> clean h1 j \/ done L h1 j) ->
    exists h2, foldM step_f es h1 = Ok h2 /\ shape h2 /\ closed h2 /\
      nth_error h2 i = Some {| terminal := terminal nd; edges := edges nd; leaf_count := Some (acc + sum_nat (map (fun e => length (L (snd e))) es)); final_edges := fe |} /\
      (forall e, In e es -> done L h2 (snd e)) /\
      (forall j, In j R -> j <> i -> clean h1 j \/ done L h1 j -> clean h2 j \/ done L h2 j) /\
      (forall j, In j R -> done L h1 j -> done L h2 j) /\
      (forall j, In j R -> depth L i < depth L j -> nth_error h2 j = nth_error h1 j)).
  { induction es as [|e es IHes]; intros h1 acc fe Hes Sh1 Cl1 Nd1 E1 Hfe St1.
    - exists h1. cbn [foldM map sum_nat fold_right]. rewrite Nat.add_0_r. repeat (split; auto). intros e [].
    - assert (He : In e (edges nd)) by (apply Hes; left; reflexivity). destruct (H5 e He) as [HeR HeN].
      pose proof (depth_child _ _ _ _ _ _ Hnd He) as Hlt. assert (Hne : snd e <> i) by (intros C; rewrite C in Hlt; lia).
      destruct (IH h1 (snd e) HeR) as (h2 & F2 & D2 & Sh2 & Cl2 & St2 & Dn2 & Fr2); auto; try lia.
      { intros j Hj Hjd. apply St1; auto. lia. }
      assert (E2 : nth_error h2 i = Some {| terminal := terminal nd; edges := edges nd; leaf_count := Some acc; final_edges := fe |}).
      { rewrite Fr2; auto. }
      destruct D2 as (cn & Cn1 & Cn2 & Cn3).
      set (h3 := set_node h2 i {| terminal := terminal nd; edges := edges nd; leaf_count := Some (acc + length (L (snd e))); final_edges := fe |}).
      assert (Ef : foldM step_f (e :: es) h1 = foldM step_f es h3).
      { cbn [foldM]. unfold step_f at 1. rewrite F2. cbn [bind]. unfold get_node. rewrite Cn1. cbn [bind]. rewrite E2. cbn [bind leaf_count]. rewrite Cn2. reflexivity. }
      rewrite Ef.
      assert (O3 : forall j, j <> i -> nth_error h3 j = nth_error h2 j) by (intros j Hj; eapply set_other; eauto).
      assert (S3 : nth_error h3 i = Some {| terminal := terminal nd; edges := edges nd; leaf_count := Some (acc + length (L (snd e))); final_edges := fe |}) by (eapply set_same; eauto).
      assert (N3 : ~ done L h3 i). { intros (x & X1 & _ & X3). rewrite S3 in X1. injection X1 as <-. cbn in X3. congruence. }
      assert (N2 : ~ done L h2 i). { intros (x & X1 & _ & X3). rewrite E2 in X1. injection X1 as <-. cbn in X3. congruence. }
      assert (D3 : forall j, j <> i -> (done L h3 j <-> done L h2 j)) by (intros j Hj; unfold done; rewrite O3 by auto; reflexivity).
      assert (C3 : forall j, j <> i -> (clean h3 j <-> clean h2 j)) by (intros j Hj; unfold clean; rewrite O3 by auto; reflexivity).
      destruct (IHes h3 (acc + length (L (snd e))) fe) as (h4 & F4 & Sh4 & Cl4 & E4 & De4 & St4 & Dn4 & Fr4); auto.
      + intros e' He'. apply Hes. right. exact He'.
      + eapply shape_set; eauto.
      + intros j x e' Hj Ej Dj He'. destruct (Nat.eq_dec j i) as [->|Nj]; [contradiction|]. rewrite O3 in Ej by auto. apply D3 in Dj; auto.
        pose proof (Cl2 j x e' Hj Ej Dj He') as De'. apply D3; auto. intros C. apply N2. rewrite <- C. exact De'.
      + intros j Hj Hjd. assert (Nj : j <> i) by (intros ->; lia). rewrite C3, D3 by auto. apply St2; auto.
      + exists h4. split; [exact F4|]. split; [exact Sh4|]. split; [exact Cl4|]. split; [|split; [|split; [|split]]].
        * rewrite E4. cbn [map sum_nat fold_right]. unfold sum_nat. do 3 f_equal. lia.
        * intros e' [<-|He']; [|auto]. apply Dn4; auto. apply D3; auto. exists cn. auto.
        * intros j Hj Nj Sj. apply St4; auto. rewrite C3, D3 by auto. apply St2; auto.
        * intros j Hj Dj. apply Dn4; auto. assert (Nj : j <> i) by (intros ->; contradiction). apply D3; auto.
        * intros j Hj Hjd. rewrite Fr4 by auto. rewrite O3 by (intros ->; lia). apply Fr2; auto. lia. }
  assert (HN1 : nth_error (set_node h i nd1) i = Some nd1) by (eapply set_same; eauto).
  assert (O1 : forall j, j <> i -> nth_error (set_node h i nd1) j = nth_error h j) by (intros j Hj; eapply set_other; eauto).
  assert (Fe : final_edges nd = None).
  { destruct (St i Hi (le_n _)) as [(nd' & E & C & C')|Dn]; [congruence|contradiction]. }
  assert (D1 : forall j, j <> i -> (done L (set_node h i nd1) j <-> done L h j)) by (intros j Hj; unfold done; rewrite O1 by auto; reflexivity).
  assert (C1 : forall j, j <> i -> (clean (set_node h i nd1) j <-> clean h j)) by (intros j Hj; unfold clean; rewrite O1 by auto; reflexivity).
  assert (N1 : ~ done L (set_node h i nd1) i).
  { intros (x & X1 & _ & X3). rewrite HN1 in X1. injection X1 as <-. cbn in X3. congruence. }
  destruct (Loop (edges nd) (set_node h i nd1) (if terminal nd =? 0 then 0 else 1) (final_edges nd)) as (h2 & F2 & Sh2 & Cl2 & E2 & De2 & St2 & Dn2 & Fr2); auto.
  { eapply shape_set; eauto. }
  { intros j x e' Hj Ej Dj He'. destruct (Nat.eq_dec j i) as [->|Nj]; [contradiction|]. rewrite O1 in Ej by auto. apply D1 in Dj; auto.
    pose proof (Cl j x e' Hj Ej Dj He') as De'. apply D1; auto. intros C. apply Nd. rewrite <- C. exact De'. }
  { congruence. }
  { intros j Hj Hjd. assert (Nj : j <> i) by (intros ->; lia). rewrite C1, D1 by auto. apply St; auto. lia. }
  rewrite F2. cbn [bind]. unfold get_node. rewrite E2. cbn [bind terminal edges leaf_count].
  rewrite <- node_lang_length, H2. unfold sorted_edges. cbn [edges]. rewrite (isort_asc _ H3).
  set (nd3 := {| terminal := terminal nd; edges := edges nd; leaf_count := Some (length (L i)); final_edges := Some (edges nd) |}).
  exists (set_node h2 i nd3). split; [reflexivity|].
  assert (HN3 : nth_error (set_node h2 i nd3) i = Some nd3) by (eapply set_same; eauto).
  assert (O3 : forall j, j <> i -> nth_error (set_node h2 i nd3) j = nth_error h2 j) by (intros j Hj; eapply set_other; eauto).
  assert (D3 : forall j, j <> i -> (done L (set_node h2 i nd3) j <-> done L h2 j)) by (intros j Hj; unfold done; rewrite O3 by auto; reflexivity).
  assert (C3 : forall j, j <> i -> (clean (set_node h2 i nd3) j <-> clean h2 j)) by (intros j Hj; unfold clean; rewrite O3 by auto; reflexivity).
  assert (Di : done L (set_node h2 i nd3) i) by (exists nd3; auto).
  assert (Dall : forall j, done L h2 j -> done L (set_node h2 i nd3) j) by (intros j Dj; destruct (Nat.eq_dec j i) as [->|Nj]; [exact Di|apply D3; auto]).
  split; [exact Di|]. split; [|split; [|split; [|split]]].
  - eapply shape_set; eauto.
  - intros j x e' Hj Ej Dj He'. destruct (Nat.eq_dec j i) as [->|Nj].
    + rewrite HN3 in Ej. injection Ej as <-. apply Dall, De2, He'.
    + rewrite O3 in Ej by auto. apply D3 in Dj; auto. apply Dall. eapply Cl2; eauto.
  - intros j Hj Sj. destruct (Nat.eq_dec j i) as [->|Nj]; [right; exact Di|]. rewrite C3, D3 by auto. apply St2; auto. rewrite C1, D1 by auto. exact Sj.
  - intros j Hj Dj. apply Dall, Dn2; auto. assert (Nj : j <> i) by (intros ->; contradiction). apply D1; auto.
  - intros j Hj Hjd. assert (Nj : j <> i) by (intros ->; lia). rewrite O3 by auto. rewrite Fr2 by auto. apply O1; auto.
Qed.
End Finalize.
