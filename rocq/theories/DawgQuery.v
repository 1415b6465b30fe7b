(** Proofs about experiments/dawg.py (model: DawgModel.v): what a finalized
    graph answers. *)
From Coq Require Import ZArith NArith List Bool Permutation Lia Sorted.
From Verif Require Import Num Py ListAux PyDict NmdSpec IndexModel IndexLoops IndexTop Props_Index DawgModel DawgProofs DawgFinal DawgAsk.
Import ListNotations.

Section Query.
Variables (h : heap) (R : list nat) (L : nat -> list str).
Hypothesis HS : sound h R L.
Hypothesis HD : forall i, In i R -> done L h i.

Definition before (c : N) (es : list (N * nat)) : nat := sum_nat (map (fun e => length (L (snd e))) (filter (fun e => (fst e <? c)%N) es)).

Lemma before_cons c d t es : before c ((d, t) :: es) = (if (d <? c)%N then length (L t) else 0) + before c es.
Proof. unfold before. cbn [filter fst]. destruct (d <? c)%N; reflexivity. Qed.

Lemma before_none c es : Forall (fun x => (c <= x)%N) (map fst es) -> before c es = 0.
Proof.
  unfold before. induction es as [|e es IH]; intros F; [reflexivity|]. cbn [map] in F. inversion F; subst. cbn [filter].
  destruct (N.ltb_spec (fst e) c); [lia|auto].
Qed.

Lemma step_loop_spec nd c es : asc (map fst es) -> (forall e, In e es -> In (snd e) R) -> forall s,
  (forall t, In (c, t) es -> step_loop h nd es s c = Ok (Some (s + before c es + terminal nd, t))) /\
  (~ In c (map fst es) -> step_loop h nd es s c = Ok None).
Proof.
  induction es as [|[d t'] es IH]; intros Ha Hes s; [split; [intros t []|reflexivity]|]. cbn [map fst] in Ha. inversion Ha; subst.
  cbn [step_loop]. destruct (N.eqb_spec c d) as [->|Ne].
  - split; [|intros C; exfalso; apply C; left; reflexivity]. intros t Ht.
    assert (t = t'). { destruct Ht as [E|Ht]; [congruence|]. exfalso. rewrite Forall_forall in H2. pose proof (H2 d (in_map fst _ _ Ht)). lia. } subst t'.
    rewrite before_none, Nat.add_0_r; [reflexivity|]. cbn [map fst]. constructor; [lia|]. eapply Forall_impl; [|exact H2]. cbn. intros; lia.
  - destruct (HD t') as (cn & C1 & C2 & C3); [apply (Hes (d, t')); left; reflexivity|]. unfold get_node. rewrite C1. cbn [bind]. rewrite C2.
    destruct (IH H1) with (s := s + length (L t')) as [I1 I2]; [intros e He; apply Hes; right; auto|]. split.
    + intros t [E|Ht]; [congruence|]. rewrite (I1 t Ht), before_cons.
      assert (Hd : (d < c)%N). { rewrite Forall_forall in H2. exact (H2 c (in_map fst _ _ Ht)). }
      destruct (N.ltb_spec d c); [|lia]. do 3 f_equal. lia.
    + intros C. apply I2. intros C'. apply C. right. exact C'.
Qed.

Lemma cnt_edges c w es : asc (map fst es) -> forall t, In (c, t) es ->
  cnt (c :: w) (flat_map (fun e => map (cons (fst e)) (L (snd e))) es) = before c es + cnt w (L t).
Proof.
  induction es as [|[d t'] es IH]; intros Ha t Ht; [destruct Ht|]. cbn [map fst] in Ha. inversion Ha; subst.
  assert (Hnone : forall es', Forall (N.lt c) (map fst es') -> cnt (c :: w) (flat_map (fun e => map (cons (fst e)) (L (snd e))) es') = 0).
  { induction es' as [|e es' IH']; intros F; [reflexivity|]. cbn [map] in F. inversion F as [|? ? F1 F2]; subst. cbn [flat_map]. rewrite cnt_app, cnt_cons_map, (IH' F2).
    destruct (N.ltb_spec (fst e) c); [lia|]. destruct (N.eqb_spec (fst e) c); [lia|reflexivity]. }
  cbn [flat_map fst snd]. rewrite cnt_app, cnt_cons_map, before_cons. destruct Ht as [E|Ht].
  - injection E as -> ->. rewrite N.ltb_irrefl, N.eqb_refl, (Hnone es H2), Nat.add_0_r, before_none; [reflexivity|].
    eapply Forall_impl; [|exact H2]. cbn. intros; lia.
  - assert (Hd : (d < c)%N). { rewrite Forall_forall in H2. exact (H2 c (in_map fst _ _ Ht)). }
    destruct (N.ltb_spec d c); [|lia]. rewrite (IH H1 t Ht). unfold str in *. lia.
Qed.

Lemma cnt_node i nd c w t : sound_node h R L i nd -> In (c, t) (edges nd) -> cnt (c :: w) (L i) = terminal nd + before c (edges nd) + cnt w (L t).
Proof.
  intros (_ & H2 & H3 & H4 & _) He. rewrite <- H2. unfold node_lang. rewrite cnt_app, (cnt_edges c w (edges nd) H3 t He).
  destruct (Nat.eqb_spec (terminal nd) 0) as [E|E]; [rewrite E; reflexivity|]. assert (E1 : terminal nd = 1) by lia. rewrite E1. reflexivity.
Qed.

Lemma cnt_nil l : cnt [] l = 0.
Proof. unfold cnt. induction l as [|x l IH]; [reflexivity|]. cbn [filter str_leb negb]. exact IH. Qed.

Lemma walk_spec w : forall s i, In i R ->
  (continuations w (L i) <> [] -> exists j, In j R /\ walk h (s, i) w = Ok (Some (s + cnt w (L i), j)) /\ L j = continuations w (L i)) /\
  (w <> [] -> continuations w (L i) = [] -> walk h (s, i) w = Ok None).
Proof.
  induction w as [|c w IH]; intros s i Hi.
  - split; [|congruence]. intros _. exists i. rewrite cnt_nil, Nat.add_0_r, continuations_nil. auto.
  - destruct (HS i Hi) as (nd & Hnd). pose proof Hnd as (H1 & H2 & H3 & H4 & H5). destruct (HD i Hi) as (nd' & D1 & D2 & D3).
    assert (nd' = nd) by congruence. subst nd'.
    assert (Ew : walk h (s, i) (c :: w) = bind (step_loop h nd (edges nd) s c) (fun r => match r with None => Ok None | Some p => walk h p w end)).
    { cbn [walk]. unfold step, get_node. cbn [fst snd]. rewrite H1. cbn [bind]. rewrite D3. reflexivity. }
    rewrite Ew. destruct (step_loop_spec nd c (edges nd) H3 (fun e He => proj1 (H5 e He)) s) as [S1 S2].
    destruct (continuations_node c w L nd H3) as [C1 C2]. rewrite H2 in C1, C2.
    destruct (in_dec N.eq_dec c (map fst (edges nd))) as [Hc|Hc].
    + apply in_map_iff in Hc. destruct Hc as ((c' & t) & E & Ht). cbn in E. subst c'.
      rewrite (S1 t Ht), (C1 t Ht). cbn [bind]. destruct (H5 _ Ht) as [HtR HtN]. cbn [snd] in *.
      destruct (IH (s + before c (edges nd) + terminal nd) t HtR) as [I1 I2]. split.
      * intros Ne. destruct (I1 Ne) as (j & J1 & J2 & J3). exists j. split; auto. split; auto. rewrite J2, (cnt_node i nd c w t Hnd Ht). do 3 f_equal. lia.
      * intros _ E. destruct w as [|c' w]; [rewrite continuations_nil in E; congruence|]. apply I2; auto. discriminate.
    + rewrite (S2 Hc), (C2 Hc). cbn [bind]. split; [congruence|auto].
Qed.

(** [__getitem__] *)
Lemma getitem_loop_spec getitem es : (forall e, In e es -> In (snd e) R) ->
  (forall e j, In e es -> j < length (L (snd e)) -> getitem (snd e) (Z.of_nat j) = Ok (nth_error (L (snd e)) j)) ->
  forall j, j < length (flat_map (fun e => map (cons (fst e)) (L (snd e))) es) ->
  getitem_loop getitem h es (Z.of_nat j) = Ok (nth_error (flat_map (fun e => map (cons (fst e)) (L (snd e))) es) j).
Proof.
  unfold str in *. induction es as [|[d t] es IH]; intros Hes Hg j Hj; [cbn in Hj; lia|]. cbn [getitem_loop].
  destruct (HD t) as (cn & C1 & C2 & C3); [apply (Hes (d, t)); left; reflexivity|]. unfold get_node. rewrite C1. cbn [bind]. rewrite C2.
  unfold str in *. cbn [flat_map fst snd] in *. rewrite app_length, map_length in Hj. destruct (Z.ltb_spec (Z.of_nat j) (Z.of_nat (length (L t)))) as [Hlt|Hge].
  - pose proof (Hg (d, t) j (or_introl eq_refl)) as G. cbn [snd] in G. rewrite G by lia. cbn [bind]. rewrite nth_error_app1 by (rewrite map_length; lia).
    rewrite nth_error_map. unfold str in *. destruct (nth_error (L t) j) eqn:E; [reflexivity|]. apply nth_error_None in E. lia.
  - rewrite nth_error_app2 by (rewrite map_length; lia). rewrite map_length.
    replace (Z.of_nat j - Z.of_nat (length (L t)))%Z with (Z.of_nat (j - length (L t))) by lia. apply IH; try lia.
    + intros e He. apply Hes. right. exact He.
    + intros e j' He. apply Hg. right. exact He.
Qed.

Lemma node_getitem_spec : forall limit i j, In i R -> depth L i < limit -> j < length (L i) -> node_getitem limit h i (Z.of_nat j) = Ok (nth_error (L i) j).
Proof.
  induction limit as [|limit IH]; intros i j Hi Hd Hj; [lia|].
  destruct (HS i Hi) as (nd & Hnd). pose proof Hnd as (H1 & H2 & H3 & H4 & H5). destruct (HD i Hi) as (nd' & D1 & D2 & D3).
  assert (nd' = nd) by congruence. subst nd'. cbn [node_getitem]. unfold get_node. rewrite H1. cbn [bind]. rewrite D3.
  assert (Hrec : forall j', j' < length (flat_map (fun e => map (cons (fst e)) (L (snd e))) (edges nd)) ->
     getitem_loop (node_getitem limit h) h (edges nd) (Z.of_nat j') = Ok (nth_error (flat_map (fun e => map (cons (fst e)) (L (snd e))) (edges nd)) j')).
  { apply getitem_loop_spec; [intros e He; apply (H5 e He)|]. intros e j' He Hj'. pose proof (depth_child _ _ _ _ _ _ Hnd He). apply IH; auto; [apply (H5 e He)|lia]. }
  rewrite <- H2 in *. unfold node_lang in *. destruct (Nat.eqb_spec (terminal nd) 0) as [E|E].
  - rewrite E. cbn [app] in *. destruct (Z.eqb_spec (Z.of_nat j - Z.of_nat 0) (-1)); [lia|]. replace (Z.of_nat j - Z.of_nat 0)%Z with (Z.of_nat j) by lia. auto.
  - assert (E1 : terminal nd = 1) by lia. rewrite E1. cbn [app length] in Hj. destruct j as [|j]; [reflexivity|].
    destruct (Z.eqb_spec (Z.of_nat (S j) - Z.of_nat 1) (-1)); [lia|]. replace (Z.of_nat (S j) - Z.of_nat 1)%Z with (Z.of_nat j) by lia.
    cbn [app nth_error]. apply Hrec. unfold str in *. lia.
Qed.

(** Negative positions. *)
Lemma node_getitem_negative : forall limit i k, In i R -> depth L i < limit -> (k < -1)%Z ->
  node_getitem limit h i k = match nth_error h i with Some nd => match edges nd with [] => Ok None | _ => Err TypeError end | None => Ok None end.
Proof.
  induction limit as [|limit IH]; intros i k Hi Hd Hk; [lia|].
  destruct (HS i Hi) as (nd & Hnd). pose proof Hnd as (H1 & H2 & H3 & H4 & H5). destruct (HD i Hi) as (nd' & D1 & D2 & D3).
  assert (nd' = nd) by congruence. subst nd'. cbn [node_getitem]. unfold get_node. rewrite H1. cbn [bind]. rewrite D3.
  destruct (Z.eqb_spec (k - Z.of_nat (terminal nd)) (-1)); [lia|].
  destruct (edges nd) as [|[d t] es] eqn:Ee; [reflexivity|]. cbn [getitem_loop].
  assert (He : In (d, t) (edges nd)) by (rewrite Ee; left; reflexivity). rewrite <- Ee in H5. destruct (H5 _ He) as [HtR _]. cbn [snd] in HtR.
  destruct (HD t HtR) as (cn & C1 & C2 & C3). unfold get_node. rewrite C1. cbn [bind]. rewrite C2.
  destruct (Z.ltb_spec (k - Z.of_nat (terminal nd)) (Z.of_nat (length (L t)))); [|lia].
  pose proof (depth_child _ _ _ _ _ _ Hnd He). cbn [snd] in *. rewrite IH by (auto; lia). rewrite C1. destruct (edges cn); reflexivity.
Qed.
End Query.

Section Ready.
Context {D : Type}.
Variables (g : dawg D) (L : nat -> list str) (ws : list str).
Hypothesis HR : ready g L ws.

Lemma index_found w k : nth_error ws k = Some w -> index g w = Ok (Z.of_nat k).
Proof.
  intros E. destruct HR as [r_sound r_done r_root r_sorted _ _ _ _ _ _].
  destruct (walk_spec _ _ _ r_sound r_done w 0 (root g) (or_introl eq_refl)) as [W _].
  assert (Hin : In [] (continuations w (L (root g)))). { apply in_continuations. rewrite app_nil_r, r_root. eapply nth_error_In; eauto. }
  destruct W as (j & J1 & J2 & J3); [intros C; rewrite C in Hin; destruct Hin|].
  unfold index. rewrite J2. cbn [bind]. destruct (r_sound j J1) as (nd & N1 & N2 & _). unfold get_node. rewrite N1. cbn [bind].
  rewrite <- J3, <- N2 in Hin. apply in_node_lang_nil in Hin. destruct (Nat.eqb_spec (terminal nd) 0); [contradiction|].
  rewrite r_root. cbn [Nat.add]. rewrite (sorted_cnt ws k w r_sorted E). reflexivity.
Qed.

Lemma index_missing w : ~ In w ws -> index g w = Ok (-1)%Z.
Proof.
  intros E. destruct HR as [r_sound r_done r_root r_sorted _ _ _ _ _ _].
  destruct (walk_spec _ _ _ r_sound r_done w 0 (root g) (or_introl eq_refl)) as [W1 W2]. unfold index.
  assert (Hnone : forall j, In j (root g :: map snd (minimized g)) -> L j = continuations w (L (root g)) ->
    (nd <- get_node (nodes g) j ;; Ok (if Nat.eqb (terminal nd) 0 then (-1)%Z else Z.of_nat (0 + cnt w (L (root g))))) = Ok (-1)%Z).
  { intros j Hj Ej. destruct (r_sound j Hj) as (nd & N1 & N2 & _). unfold get_node. rewrite N1. cbn [bind].
    destruct (Nat.eqb_spec (terminal nd) 0) as [|Ht]; [reflexivity|]. exfalso. apply in_node_lang_nil with (L := L) in Ht.
    rewrite N2, Ej in Ht. apply in_continuations in Ht. rewrite app_nil_r, r_root in Ht. contradiction. }
  destruct w as [|c w].
  - cbn [walk bind]. pose proof (Hnone (root g) (or_introl eq_refl)) as X. rewrite continuations_nil, cnt_nil in X. cbn [Nat.add] in X. apply X. reflexivity.
  - destruct (continuations (c :: w) (L (root g))) as [|x l] eqn:Ec.
    + rewrite W2; [reflexivity|discriminate|reflexivity].
    + destruct W1 as (j & J1 & J2 & J3); [discriminate|]. rewrite J2. cbn [bind]. apply Hnone; auto.
Qed.

Lemma iter_ready limit : (forall w, In w ws -> length w < limit) -> 0 < limit -> iter limit g = Ok ws.
Proof.
  intros Hl Hp. unfold iter. rewrite (node_iter_spec _ _ _ (r_sound _ _ _ HR) limit (root g)); [rewrite (r_root _ _ _ HR); reflexivity|left; reflexivity|].
  destruct limit; [lia|]. apply Nat.lt_succ_r, depth_le. intros w Hw. rewrite (r_root _ _ _ HR) in Hw. apply Hl in Hw. lia.
Qed.

Lemma depth_root limit : (forall w, In w ws -> length w < limit) -> 0 < limit -> depth L (root g) < limit.
Proof.
  intros Hl Hp. destruct limit; [lia|]. apply Nat.lt_succ_r, depth_le. intros w Hw. rewrite (r_root _ _ _ HR) in Hw. apply Hl in Hw. lia.
Qed.

Lemma getitem_ready limit k : (forall w, In w ws -> length w < limit) -> 0 < limit -> k < length ws ->
  node_getitem limit (nodes g) (root g) (Z.of_nat k) = Ok (nth_error ws k).
Proof.
  intros Hl Hp Hk. rewrite (node_getitem_spec _ _ _ (r_sound _ _ _ HR) (r_done _ _ _ HR)); [rewrite (r_root _ _ _ HR); reflexivity|left; reflexivity|apply depth_root; auto|].
  rewrite (r_root _ _ _ HR). exact Hk.
Qed.

Lemma root_terminal : ~ In [] ws -> exists nd, nth_error (nodes g) (root g) = Some nd /\ terminal nd = 0 /\ (edges nd = [] <-> ws = []).
Proof.
  intros H. destruct (r_sound _ _ _ HR (root g) (or_introl eq_refl)) as (nd & H1 & H2 & H3 & H4 & H5). exists nd. split; auto.
  assert (Ht : terminal nd = 0). { destruct (Nat.eq_dec (terminal nd) 0) as [|Ne]; auto. exfalso. apply in_node_lang_nil with (L := L) in Ne. rewrite H2, (r_root _ _ _ HR) in Ne. contradiction. }
  split; auto. rewrite <- (r_root _ _ _ HR), <- H2. unfold node_lang. rewrite Ht. cbn [Nat.eqb app]. split; [intros ->; reflexivity|].
  destruct (edges nd) as [|e es]; auto. intros C. exfalso. cbn [flat_map] in C. apply app_eq_nil in C. destruct C as [C _]. apply map_eq_nil in C.
  destruct (H5 e (or_introl eq_refl)) as [_ X]. contradiction.
Qed.

Lemma getitem_minus_one limit : 0 < limit -> ~ In [] ws -> node_getitem limit (nodes g) (root g) (-1) = Ok (Some []).
Proof.
  intros Hp H. destruct (root_terminal H) as (nd & H1 & H2 & _). destruct limit; [lia|]. cbn [node_getitem]. unfold get_node. rewrite H1. cbn [bind]. rewrite H2. reflexivity.
Qed.

Lemma getitem_below limit k : (forall w, In w ws -> length w < limit) -> 0 < limit -> ~ In [] ws -> (k < -1)%Z ->
  node_getitem limit (nodes g) (root g) k = match ws with [] => Ok None | _ => Err TypeError end.
Proof.
  intros Hl Hp H Hk. destruct (root_terminal H) as (nd & H1 & H2 & H3).
  rewrite (node_getitem_negative _ _ _ (r_sound _ _ _ HR) (r_done _ _ _ HR)); [|left; reflexivity|apply depth_root; auto|exact Hk].
  rewrite H1. destruct (edges nd), ws; auto; [discriminate (proj1 H3 eq_refl)|discriminate (proj2 H3 eq_refl)].
Qed.

(** The letters a language starts with. *)
Definition letters (l : list str) : list N := nodup N.eq_dec (flat_map (fun w => match w with c :: _ => [c] | [] => [] end) l).

Lemma asc_nodup l : asc l -> NoDup l.
Proof. induction 1 as [|a l Hs IH Ha]; constructor; auto. intros C. rewrite Forall_forall in Ha. apply Ha in C. lia. Qed.

Lemma edges_letters h R i nd : sound_node h R L i nd -> length (edges nd) = length (letters (L i)).
Proof.
  intros Hnd. rewrite <- (map_length fst). apply Permutation_length, NoDup_Permutation; [apply asc_nodup; apply Hnd|apply NoDup_nodup|].
  intros c. unfold letters. rewrite nodup_In, in_flat_map. split.
  - intros Hc. apply in_map_iff in Hc. destruct Hc as ((c' & t) & E & Ht). cbn in E. subst c'.
    destruct (edge_label _ _ _ _ _ _ _ Hnd Ht) as (v & Hv). exists (c :: v). split; auto. left. reflexivity.
  - intros (w & Hw & Hc). destruct w as [|c' v]; [destruct Hc|]. destruct Hc as [->|[]].
    destruct (lang_label _ _ _ _ _ c Hnd (ex_intro _ v Hw)) as (t & Ht). apply in_map_iff. exists (c, t). auto.
Qed.

Lemma count_edges_ready : count_edges g = Ok (sum_nat (map (fun l => length (letters l)) (map L (map snd (minimized g))))).
Proof.
  unfold count_edges. assert (Hin : incl (map snd (minimized g)) (root g :: map snd (minimized g))) by (intros x Hx; right; exact Hx).
  assert (G : forall l acc, incl l (root g :: map snd (minimized g)) ->
    foldM (fun count i => nd <- get_node (nodes g) i ;; match final_edges nd with Some es => Ok (count + length es) | None => Err TypeError end) l acc =
    Ok (acc + sum_nat (map (fun l => length (letters l)) (map L l)))).
  { induction l as [|i l IH]; intros acc Hl; [cbn [foldM map sum_nat fold_right]; rewrite Nat.add_0_r; reflexivity|].
    assert (Hi : In i (root g :: map snd (minimized g))) by (apply Hl; left; reflexivity).
    destruct (r_sound _ _ _ HR i Hi) as (nd & Hnd). destruct (r_done _ _ _ HR i Hi) as (nd' & D1 & D2 & D3).
    assert (nd' = nd) by (destruct Hnd as [E _]; congruence). subst nd'.
    cbn [foldM]. unfold get_node at 1. rewrite D1. cbn [bind]. rewrite D3. cbn [bind]. rewrite IH by (intros x Hx; apply Hl; right; exact Hx).
    cbn [map sum_nat fold_right]. unfold sum_nat. rewrite (edges_letters _ _ _ _ Hnd). f_equal. lia. }
  apply (G _ 0 Hin).
Qed.
End Ready.
