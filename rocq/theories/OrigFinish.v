(** Proofs about experiments/dawg-orig.py (model: OrigModel.v): [finish] and
    asking the graph. *)
From Coq Require Import ZArith NArith List Bool Permutation Lia Sorted.
From Verif Require Import Num Py ListAux PyDict NmdSpec IndexModel IndexLoops IndexTop Props_Index DawgModel DawgRepr DawgProofs DawgFinal DawgAsk DawgQuery DawgLate.
From Verif Require Import OrigModel OrigProofs.
Import ListNotations.

(** ** [finalize] of dawg.py only writes counts and lists of edges *)

Definition same_shape (h h' : heap) : Prop :=
  Forall2 (fun a b => terminal a = terminal b /\ edges a = edges b) h h'.

Lemma same_shape_refl h : same_shape h h.
Proof. induction h; constructor; auto. Qed.
Lemma same_shape_trans a b c : same_shape a b -> same_shape b c -> same_shape a c.
Proof.
  intros H. revert c. induction H as [|x y a b [H1 H2] H IH]; intros c Hc; inversion Hc as [|y' z b' c' [G1 G2] Hc']; subst; constructor; auto.
  - split; congruence.
  - apply IH. exact Hc'.
Qed.
Lemma same_shape_set h i nd nd' : nth_error h i = Some nd -> terminal nd' = terminal nd -> edges nd' = edges nd -> same_shape h (set_node h i nd').
Proof.
  unfold set_node. revert i. induction h as [|a h IH]; intros [|i] E T D; try discriminate; cbn [nth_error list_set] in *.
  - injection E as ->. constructor; [auto|apply same_shape_refl].
  - constructor; [auto|]. apply IH; auto.
Qed.

Lemma finalize_node_shape limit : forall h i h', finalize_node limit h i = Ok h' -> same_shape h h'.
Proof.
  induction limit as [|limit IH]; intros h i h' E; [discriminate|]. cbn [finalize_node] in E. unfold get_node at 1 in E.
  destruct (nth_error h i) as [nd|] eqn:En; cbn [bind] in E; [|discriminate]. destruct (leaf_count nd) as [n|]; [injection E as <-; apply same_shape_refl|].
  match type of E with context [foldM ?F (sorted_edges nd) ?H0] => set (h1 := H0) in *; destruct (foldM F (sorted_edges nd) h1) as [h2|] eqn:E2; [|discriminate] end.
  cbn [bind] in E. assert (S1 : same_shape h h1) by (eapply same_shape_set; [exact En|reflexivity|reflexivity]).
  assert (S2 : same_shape h1 h2).
  { clear E S1. revert E2. generalize h1. generalize (sorted_edges nd). clear - IH. intros es. induction es as [|e es IHe]; intros h1 E; cbn [foldM] in E; [injection E as <-; apply same_shape_refl|].
    match type of E with bind ?X _ = _ => destruct X as [h3|] eqn:E3; [|discriminate] end. cbn [bind] in E. apply IHe in E. eapply same_shape_trans; [|exact E].
    destruct (finalize_node limit h1 (snd e)) as [h4|] eqn:E4; [|discriminate]. cbn [bind] in E3. apply IH in E4. eapply same_shape_trans; [exact E4|].
    unfold get_node in E3. destruct (nth_error h4 (snd e)) as [c|]; [|discriminate]. cbn [bind] in E3. destruct (nth_error h4 i) as [s|] eqn:Es; [|discriminate]. cbn [bind] in E3.
    destruct (leaf_count s), (leaf_count c); try discriminate. injection E3 as <-. eapply same_shape_set; [exact Es|reflexivity|reflexivity]. }
  unfold get_node in E. destruct (nth_error h2 i) as [s|] eqn:Es; [|discriminate]. cbn [bind] in E. injection E as <-.
  eapply same_shape_trans; [exact S1|]. eapply same_shape_trans; [exact S2|]. eapply same_shape_set; [exact Es|reflexivity|reflexivity].
Qed.

Lemma same_shape_nth h h' i nd : same_shape h h' -> nth_error h i = Some nd -> exists nd', nth_error h' i = Some nd' /\ terminal nd = terminal nd' /\ edges nd = edges nd'.
Proof.
  intros S. revert i. induction S as [|a b h h' H S IH]; intros [|i] E; try discriminate; cbn [nth_error] in *; [injection E as ->; eauto|apply IH; exact E].
Qed.
Lemma same_shape_sym h h' : same_shape h h' -> same_shape h' h.
Proof. induction 1 as [|a b h h' [H1 H2] S IH]; constructor; auto. Qed.

Lemma same_shape_sound h h' R L : same_shape h h' -> sound h R L -> sound h' R L.
Proof.
  intros S H i Hi. destruct (H i Hi) as (nd & H1 & H2 & H3 & H4 & H5). destruct (same_shape_nth _ _ _ _ S H1) as (nd' & E & T & D).
  exists nd'. unfold sound_node, node_lang in *. rewrite <- T, <- D. auto.
Qed.

(** ** [numReachable] *)

Section Count.
Variables (h0 : oheap) (R : list nat) (L : nat -> list str).
Hypothesis HS : sound (map conv h0) R L.

Definition counted (h : oheap) (i : nat) : Prop := exists nd, nth_error h i = Some nd /\ count nd = length (L i).
Definition kept (h : oheap) : Prop := map conv h = map conv h0.
Definition partly (h : oheap) : Prop := forall i nd, In i R -> nth_error h i = Some nd ->
  count nd = 0 \/ count nd = length (L i) /\ forall e, In e (oedges nd) -> counted h (snd e).

Lemma num_reachable_spec : forall limit h i, In i R -> depth L i < limit -> kept h -> partly h ->
  exists h', num_reachable limit h i = Ok (h', length (L i)) /\ kept h' /\ partly h' /\ counted h' i /\ (forall j, counted h j -> counted h' j).
Proof.
  induction limit as [|limit IH]; intros h i Hi Hd K P; [lia|].
  destruct (HS i Hi) as (cnd & Hnd). pose proof Hnd as (H1 & H2 & H3 & H4 & H5). rewrite <- K, nth_error_map in H1.
  destruct (nth_error h i) as [nd|] eqn:En; [|discriminate]. cbn [option_map] in H1. injection H1 as <-.
  cbn [num_reachable]. unfold get_onode at 1. rewrite En. cbn [bind]. destruct (Nat.eqb_spec (count nd) 0) as [Z0|Z0]; cbn [negb].
  2:{ destruct (P i nd Hi En) as [C|[C _]]; [congruence|]. exists h. rewrite C. split; [reflexivity|]. split; auto. split; auto. split; [exists nd; auto|auto]. }
  assert (G : forall es h n, (forall e, In e es -> In e (oedges nd)) -> kept h -> partly h ->
    exists h', foldM (fun st e => r <- num_reachable limit (fst st) (snd e) ;; Ok (fst r, snd st + snd r)) es (h, n) = Ok (h', n + sum_nat (map (fun e : N * nat => length (L (snd e))) es)) /\
      kept h' /\ partly h' /\ (forall e, In e es -> counted h' (snd e)) /\ (forall j, counted h j -> counted h' j)).
  { clear Z0 K P En h. induction es as [|e es IHe]; intros h n Hes K P.
    - exists h. cbn [foldM map sum_nat fold_right]. rewrite Nat.add_0_r. split; [reflexivity|]. split; auto. split; auto. split; [intros e []|auto].
    - destruct (H5 e (Hes e (or_introl eq_refl))) as [Re _]. pose proof (depth_child _ _ _ _ _ _ Hnd (Hes e (or_introl eq_refl))) as De.
      destruct (IH h (snd e) Re ltac:(lia) K P) as (h1 & E1 & K1 & P1 & C1 & M1). destruct (IHe h1 (n + length (L (snd e)))) as (h2 & E2 & K2 & P2 & C2 & M2); auto.
      { intros x Hx. apply Hes. right. exact Hx. }
      exists h2. cbn [foldM fst snd]. rewrite E1. cbn [bind fst snd]. rewrite E2. cbn [map sum_nat fold_right]. split; [f_equal; f_equal; unfold sum_nat; lia|]. split; auto. split; auto. split.
      + intros x [<-|Hx]; [apply M2; exact C1|apply C2; exact Hx].
      + intros j Hj. auto. }
  destruct (G (oedges nd) h (if final nd then 1 else 0)) as (h1 & E1 & K1 & P1 & C1 & M1); auto. rewrite E1. cbn [bind fst snd].
  assert (Hl : (if final nd then 1 else 0) + sum_nat (map (fun e : N * nat => length (L (snd e))) (oedges nd)) = length (L i)).
  { rewrite <- H2, node_lang_length. cbn [conv terminal edges]. destruct (final nd); reflexivity. }
  rewrite Hl. assert (X : exists s, nth_error h1 i = Some s /\ conv s = conv nd).
  { assert (X : nth_error (map conv h1) i = nth_error (map conv h) i) by (unfold kept in *; congruence). rewrite !nth_error_map, En in X. destruct (nth_error h1 i) as [s|]; [|discriminate]. exists s. split; auto. cbn in X. congruence. }
  destruct X as (s & Es & Cs). unfold get_onode. rewrite Es. cbn [bind]. set (s' := {| final := _; oedges := _; count := _ |}).
  assert (Li : i < length h1) by (apply nth_error_Some; congruence).
  assert (Set_ : forall j, nth_error (set_onode h1 i s') j = if Nat.eq_dec j i then Some s' else nth_error h1 j) by (intros j; apply nth_error_list_set; exact Li).
  assert (Mono : forall j, counted h1 j -> counted (set_onode h1 i s') j).
  { intros j (x & X1 & X2). unfold counted. rewrite Set_. destruct (Nat.eq_dec j i) as [->|]; [exists s'; auto|exists x; auto]. }
  assert (Oe : oedges s = oedges nd) by (apply (f_equal edges) in Cs; exact Cs).
  exists (set_onode h1 i s'). split; [reflexivity|]. split; [|split; [|split]].
  - unfold kept, set_onode. rewrite <- list_set_map, K1. unfold kept in K1. rewrite <- K1. apply nth_error_ext. intros j.
    rewrite nth_error_list_set by (rewrite map_length; exact Li). destruct (Nat.eq_dec j i) as [->|]; auto. rewrite nth_error_map, Es. reflexivity.
  - intros j x Hj Ex. rewrite Set_ in Ex. destruct (Nat.eq_dec j i) as [->|].
    + injection Ex as <-. right. split; [reflexivity|]. cbn [s' oedges]. rewrite Oe. intros e He. apply Mono, C1, He.
    + destruct (P1 j x Hj Ex) as [C|[C Ce]]; [left; exact C|right]. split; auto.
  - exists s'. rewrite Set_. destruct (Nat.eq_dec i i); [auto|congruence].
  - auto.
Qed.
End Count.

(** ** The finished graph *)

(** As a finalized graph of dawg.py. *)
Definition fconv (nd : onode) : node :=
  {| terminal := if final nd then 1 else 0; edges := oedges nd; leaf_count := Some (count nd); final_edges := Some (oedges nd) |}.

Lemma fconv_shape h : same_shape (map conv h) (map fconv h).
Proof. induction h; constructor; auto. Qed.

Section Finish.
Context {D : Type}.
Variables (hash : str -> Z) (repr : N -> str) (ident : nat -> nat).
Hypothesis repr_free : forall a b s t, repr a ++ s = repr b ++ t -> a = b /\ s = t.
Hypothesis ident_inj : forall i j, ident i = ident j -> i = j.

(** Standing for a finished graph. *)
Record stands (o : odawg D) (g : dawg D) : Prop := {
  st_previous : oprevious o = previous g;
  st_nodes : nodes g = map fconv (onodes o);
  st_root : oroot o = root g;
  st_unchecked : ounchecked o = unchecked g;
  st_minimized : Forall2 (same_entry hash repr ident) (ominimized o) (minimized g);
  st_data : odata o = data g
}.

Lemma reach_counted h R L i u j : sound (map conv h) R L -> partly R L h -> reach (map conv h) i u j -> In i R -> counted L h i -> L i <> [] -> counted L h j.
Proof.
  intros HS P. remember (map conv h) as ch eqn:Ech. intros Hr. induction Hr as [i|i nd c t u j E He Hr IH]; intros Hi Hc Hl; [exact Hc|].
  subst ch. rewrite nth_error_map in E. destruct Hc as (x & X1 & X2). rewrite X1 in E. injection E as <-.
  destruct (HS i Hi) as (nd & N1 & _ & _ & _ & N5). rewrite nth_error_map, X1 in N1. injection N1 as <-. destruct (N5 (c, t) He) as [Rt Lt].
  apply IH; auto. destruct (P i x Hi X1) as [C|[_ C]]; [|apply (C (c, t) He)]. rewrite X2 in C. destruct (L i); [congruence|discriminate].
Qed.

Lemma reach_into h i u j : reach h i u j -> u <> [] -> forall (M : list nat), In i M \/ (forall nd e, nth_error h i = Some nd -> In e (edges nd) -> In (snd e) M) ->
  (forall k nd e, In k M -> nth_error h k = Some nd -> In e (edges nd) -> In (snd e) M) -> In j M.
Proof.
  induction 1 as [i|i nd c t u j E He Hr IH]; intros Hu M Hi HM; [congruence|].
  assert (Ht : In t M) by (destruct Hi as [Hi|Hi]; [apply (HM i nd (c, t)); auto|apply (Hi nd (c, t)); auto]).
  destruct Hr as [|i' nd' c' t' u' j' E' He' Hr']; [exact Ht|]. apply IH; auto. discriminate.
Qed.

Lemma nodup_map_eq {A B} (f : A -> B) l : NoDup (map f l) -> forall x y, In x l -> In y l -> f x = f y -> x = y.
Proof.
  induction l as [|a l IH]; intros H x y Hx Hy E; [destruct Hx|]. cbn [map] in H. inversion H as [|? ? Ha Hl]; subst. destruct Hx as [<-|Hx], Hy as [<-|Hy]; auto.
  - destruct Ha. rewrite E. apply in_map, Hy.
  - destruct Ha. rewrite <- E. apply in_map, Hx.
Qed.

Lemma finish_spec (o : odawg D) (g : dawg D) addr ws B limit : rel hash repr ident o g -> built repr ident g addr ws B ->
  (forall w, In w ws -> length w < limit) -> 0 < limit ->
  exists o' g' L, finish hash ident limit o = Ok o' /\ stands o' g' /\ ready g' L ws /\ previous g' = previous g /\ data g' = data g.
Proof.
  intros HR Hb Hlim Hpos. destruct (finalize_spec repr ident repr_free ident_inj g addr ws B limit Hb Hlim Hpos) as (gf & L & Ef & Rf & Pf & Df).
  unfold finalize in Ef. destruct (minimize_unchecked repr ident g 0) as [g1|] eqn:E1; [|discriminate]. cbn [bind] in Ef.
  destruct (finalize_node limit (nodes g1) (root g1)) as [hf|] eqn:En; [|discriminate]. cbn [bind] in Ef. injection Ef as <-. cbn [previous data] in Pf, Df.
  destruct (minimize_same hash repr ident repr_free ident_inj o g 0 g1 HR (built_fine repr ident g addr ws B Hb) E1) as (o1 & O1 & R1 & F1).
  pose proof (finalize_node_shape _ _ _ _ En) as Sh. destruct Rf as [r1 r2 r3 r4 r5 r6 r7 r8 r9 r10]. cbn [nodes root minimized unchecked previous] in *.
  set (M := map snd (minimized g1)) in *. set (R := root g1 :: M) in *.
  assert (HS : sound (map conv (onodes o1)) R L). { rewrite <- (rel_nodes _ _ _ _ _ R1). eapply same_shape_sound; [apply same_shape_sym; exact Sh|exact r1]. }
  assert (P0 : partly R L (onodes o1)). { intros i nd _ E. left. pose proof (rel_count _ _ _ _ _ R1) as C. rewrite Forall_forall in C. apply C. eapply nth_error_In. exact E. }
  assert (Hd : depth L (root g1) < limit). { destruct limit as [|l]; [lia|]. apply Nat.lt_succ_r, depth_le. intros w Hw. rewrite r3 in Hw. apply Hlim in Hw. lia. }
  destruct (num_reachable_spec (onodes o1) R L HS limit (onodes o1) (root g1) (or_introl eq_refl) Hd eq_refl P0) as (h' & E' & K' & P' & C' & _).
  assert (All : forall i, In i R -> counted L h' i).
  { intros i [<-|Hi]; [exact C'|]. pose proof (in_map L _ _ Hi) as Hl. apply r7 in Hl. destruct Hl as (u & U1 & U2 & U3). rewrite <- K' in HS.
    rewrite U2 in U3. rewrite <- r3 in U3. destruct (reach_exists _ _ _ HS u (root g1) (or_introl eq_refl) U3) as (j & J1 & J2 & J3).
    assert (Hj : In j M).
    { assert (Into : forall k nd e, In k R -> nth_error (map conv h') k = Some nd -> In e (edges nd) -> In (snd e) M).
      { intros k nd e Hk Ek He. rewrite K', <- (rel_nodes _ _ _ _ _ R1) in Ek. destruct (same_shape_nth _ _ _ _ Sh Ek) as (nd' & S1 & _ & S3). apply (r8 k nd' e); auto. rewrite <- S3. exact He. }
      apply (reach_into _ _ _ _ J1 U1).
      - right. intros nd e. apply Into. left. reflexivity.
      - intros k nd e Hk. apply Into. right. exact Hk. }
    assert (j = i). { apply (nodup_map_eq L M r6); auto. rewrite J3, r3. symmetry. exact U2. } subst j.
    apply (reach_counted _ _ _ _ _ _ HS P' J1 (or_introl eq_refl) C'). intros C. apply U3. rewrite C. clear. induction u as [|c u IH]; reflexivity. }
  unfold finish. rewrite O1. cbn [bind]. rewrite (rel_root _ _ _ _ _ R1), E'. cbn [bind fst].
  eexists. exists {| previous := previous g1; nodes := map fconv h'; root := root g1; unchecked := unchecked g1; minimized := minimized g1; data := data g1 |}, L.
  split; [reflexivity|]. split; [|split; [|split; [exact Pf|exact Df]]].
  - split; cbn [oprevious previous onodes nodes oroot root ounchecked unchecked ominimized minimized odata data]; try reflexivity; apply R1.
  - assert (S2 : same_shape (nodes g1) (map fconv h')) by (rewrite (rel_nodes _ _ _ _ _ R1), <- K'; apply fconv_shape).
    split; cbn [nodes root unchecked minimized previous]; auto; fold M; fold R.
    + eapply same_shape_sound; [exact S2|]. eapply same_shape_sound; [apply same_shape_sym; exact Sh|exact r1].
    + intros i Hi. destruct (All i Hi) as (nd & N1 & N2). exists (fconv nd). rewrite nth_error_map, N1. cbn [option_map fconv leaf_count final_edges edges]. rewrite N2. auto.
    + intros i nd e Hi E He. destruct (same_shape_nth _ _ _ _ (same_shape_sym _ _ S2) E) as (nd1 & X1 & _ & X3). destruct (same_shape_nth _ _ _ _ Sh X1) as (nd2 & Y1 & _ & Y3).
      apply (r8 i nd2 e); auto. congruence.
Qed.

(** ** Asking *)

Lemma loop_same h i here es c : forall s, In c (map fst es) ->
  step_loop (map fconv h) (fconv here) es s c = (r <- olookup_loop h i here es s c ;; Ok (Some r)).
Proof.
  induction es as [|[l t] es IH]; intros s Hc; [destruct Hc|]. cbn [step_loop olookup_loop]. rewrite N.eqb_sym. destruct (N.eqb_spec l c) as [->|Ne].
  - cbn [bind fconv terminal]. destruct (final here); [reflexivity|]. rewrite Nat.add_0_r. reflexivity.
  - unfold get_node, get_onode. rewrite nth_error_map. destruct (nth_error h t) as [nd|]; [|reflexivity]. cbn [option_map bind fconv leaf_count].
    apply IH. destruct Hc as [Hc|Hc]; [cbn in Hc; congruence|exact Hc].
Qed.

Lemma loop_none h here es c : (forall e, In e es -> nth_error h (snd e) <> None) -> forall s, ~ In c (map fst es) -> step_loop (map fconv h) (fconv here) es s c = Ok None.
Proof.
  intros He. induction es as [|[l t] es IH]; intros s Hc; [reflexivity|]. cbn [step_loop]. destruct (N.eqb_spec c l) as [->|Ne]; [destruct Hc; left; reflexivity|].
  unfold get_node. rewrite nth_error_map. pose proof (He (l, t) (or_introl eq_refl)) as Ht. cbn [snd] in Ht. destruct (nth_error h t) as [nd|]; [|congruence]. cbn [option_map bind fconv leaf_count].
  apply IH; [intros e H; apply He; right; exact H|]. intros C. apply Hc. right. exact C.
Qed.

Lemma loop_target h i here es c : forall s k j, olookup_loop h i here es s c = Ok (k, j) -> In c (map fst es) -> In (c, j) es.
Proof.
  induction es as [|[l t] es IH]; intros s k j E Hc; [destruct Hc|]. cbn [olookup_loop] in E. destruct (N.eqb_spec l c) as [->|Ne]; [injection E as _ <-; left; reflexivity|].
  unfold get_onode in E. destruct (nth_error h t) as [nd|]; [|discriminate]. cbn [bind] in E. right. apply (IH _ _ _ E). destruct Hc as [Hc|Hc]; [cbn in Hc; congruence|exact Hc].
Qed.

Lemma isort_edges_asc (es : list (N * nat)) : asc (map fst es) -> isort (fun a b => N.leb (fst a) (fst b)) es = es.
Proof. intros H. apply (sorted_edges_asc {| terminal := 0; edges := es; leaf_count := None; final_edges := None |} H). Qed.

Lemma lookup_from_same (o : odawg D) (g : dawg D) L ws : stands o g -> ready g L ws -> forall w i s, In i (root g :: map snd (minimized g)) ->
  olookup_from o i s w = (z <- (r <- walk (nodes g) (s, i) w ;;
                                match r with None => Ok (-1)%Z | Some (k, j) => nd <- get_node (nodes g) j ;; Ok (if Nat.eqb (terminal nd) 0 then (-1)%Z else Z.of_nat k) end) ;;
                          if (0 <=? z)%Z then v <- py_get (data g) z ;; Ok (Some v) else Ok None).
Proof.
  intros S HR. pose proof (r_sound _ _ _ HR) as HS. rewrite (st_nodes _ _ S) in *. induction w as [|c w IH]; intros i s Hi; destruct (HS i Hi) as (nd & N1 & _ & N3 & _ & N5);
    rewrite nth_error_map in N1; destruct (nth_error (onodes o) i) as [x|] eqn:Ex; [|discriminate| |discriminate]; injection N1 as <-.
  - cbn [olookup_from walk bind]. unfold get_onode, get_node. rewrite nth_error_map, Ex. cbn [option_map bind fconv terminal]. rewrite (st_data _ _ S). destruct (final x); cbn [Nat.eqb].
    + destruct (Z.leb_spec 0 (Z.of_nat s)); [reflexivity|lia].
    + reflexivity.
  - cbn [olookup_from walk]. unfold get_onode at 1, step, get_node at 1. cbn [fst snd]. rewrite nth_error_map, Ex. cbn [option_map bind fconv final_edges]. cbn [fconv edges] in N3, N5. rewrite (isort_edges_asc _ N3).
    destruct (dmem c (oedges x)) eqn:Em.
    + apply dmem_true in Em. fold (fconv x). rewrite (loop_same (onodes o) i x (oedges x) c s Em). destruct (olookup_loop (onodes o) i x (oedges x) s c) as [[k j]|] eqn:El; cbn [bind fst snd]; [|reflexivity].
      apply IH. apply (loop_target _ _ _ _ _ _ _ _ El) in Em. apply (N5 _ Em).
    + apply dmem_false in Em. fold (fconv x). rewrite (loop_none (onodes o) x (oedges x) c); [reflexivity| |exact Em]. intros e He. destruct (N5 e He) as [Re _]. destruct (HS _ Re) as (y & Y1 & _). rewrite nth_error_map in Y1. destruct (nth_error (onodes o) (snd e)); [discriminate|discriminate].
Qed.

Lemma lookup_same (o : odawg D) (g : dawg D) L ws w : stands o g -> ready g L ws -> olookup o w = lookup g w.
Proof. intros S HR. unfold olookup. rewrite (st_root _ _ S). rewrite (lookup_from_same o g L ws S HR w (root g) 0 (or_introl eq_refl)). reflexivity. Qed.

Lemma node_count_same (o : odawg D) (g : dawg D) : stands o g -> node_count o = count_nodes g.
Proof. intros S. unfold node_count, count_nodes. pose proof (st_minimized _ _ S) as E. induction E; cbn [length]; congruence. Qed.

Lemma edge_count_same (o : odawg D) (g : dawg D) L ws : stands o g -> ready g L ws -> edge_count o = count_edges g.
Proof.
  intros S HR. pose proof (r_sound _ _ _ HR) as HS. unfold edge_count, count_edges. rewrite (st_nodes _ _ S) in *.
  assert (Hin : forall i, In i (map snd (minimized g)) -> nth_error (onodes o) i <> None).
  { intros i Hi. destruct (HS i (or_intror Hi)) as (nd & N1 & _). rewrite nth_error_map in N1. destruct (nth_error (onodes o) i); discriminate. }
  clear HS HR. pose proof (st_minimized _ _ S) as SM. revert SM Hin. generalize (minimized g) (ominimized o) 0. intros mn omn n SM. revert n.
  induction SM as [|e kv omn mn (E1 & E2 & _) SM IH]; intros n Hin; [reflexivity|]. cbn [foldM map]. rewrite E2. unfold get_onode at 1, get_node at 1. rewrite nth_error_map.
  pose proof (Hin (snd kv) (or_introl eq_refl)) as Hk. destruct (nth_error (onodes o) (snd kv)) as [nd|]; [|congruence]. cbn [option_map bind fconv final_edges]. apply IH. intros i Hi. apply Hin. right. exact Hi.
Qed.

(** A second [finish] changes nothing. *)
Lemma finish_again (o : odawg D) (g : dawg D) L ws limit : stands o g -> ready g L ws -> ~ In [] ws -> 0 < limit -> finish hash ident limit o = Ok o.
Proof.
  intros S HR Hne Hp. unfold finish, ominimize. rewrite (st_unchecked _ _ S), (r_unchecked _ _ _ HR). cbn [length Nat.sub repeat foldM bind].
  destruct (r_done _ _ _ HR (root g) (or_introl eq_refl)) as (nd & D1 & D2 & _). rewrite (st_nodes _ _ S), nth_error_map in D1. destruct limit as [|limit]; [lia|].
  cbn [num_reachable]. unfold get_onode at 1. rewrite (st_root _ _ S). destruct (nth_error (onodes o) (root g)) as [x|] eqn:Ex; [|discriminate]. injection D1 as <-. cbn [fconv leaf_count] in D2. injection D2 as D2.
  cbn [bind]. destruct (Nat.eqb_spec (count x) 0) as [E0|E0]; cbn [negb].
  - destruct (root_terminal g L ws HR Hne) as (nd & T1 & T2 & T3). rewrite (st_nodes _ _ S), nth_error_map, Ex in T1. injection T1 as <-. cbn [fconv terminal edges] in *.
    rewrite D2, (r_root _ _ _ HR) in E0. assert (Ew : ws = []) by (destruct ws; [reflexivity|discriminate]). apply T3 in Ew. rewrite Ew. cbn [foldM bind fst snd]. unfold get_onode. rewrite Ex. cbn [bind fst].
    destruct (final x) eqn:Ef; [discriminate|]. f_equal. destruct o as [op on orr ou om od]. cbn in *. pose proof (st_root _ _ S) as SR. pose proof (st_unchecked _ _ S) as SU. rewrite (r_unchecked _ _ _ HR) in SU. cbn in SR, SU. subst orr ou. f_equal.
    apply nth_error_ext. intros j. unfold set_onode. rewrite nth_error_list_set by (apply nth_error_Some; congruence). destruct (Nat.eq_dec j (root g)) as [->|]; [|reflexivity].
    rewrite Ex. destruct x as [xf xe xc]; cbn in *. rewrite (r_root _ _ _ HR) in D2. assert (Ew2 : ws = []) by (apply T3; exact Ew). rewrite Ew2 in D2. cbn in D2. subst. congruence.
  - cbn [bind fst]. destruct o; cbn in *. pose proof (st_root _ _ S) as SR. pose proof (st_unchecked _ _ S) as SU. rewrite (r_unchecked _ _ _ HR) in SU. cbn in SR, SU. subst. reflexivity.
Qed.
End Finish.
