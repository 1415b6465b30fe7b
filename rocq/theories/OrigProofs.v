(** Proofs about experiments/dawg-orig.py (model: OrigModel.v): building the
    graph goes step by step like in experiments/dawg.py. *)
From Coq Require Import ZArith NArith List Bool Permutation Lia Sorted.
From Verif Require Import Num Py ListAux PyDict NmdSpec IndexModel IndexLoops DawgModel DawgRepr DawgProofs DawgFinal DawgAsk DawgLate.
From Verif Require Import OrigModel.
Import ListNotations.

(** ** The string of a node determines it *)

Section Str.
Variable ident : nat -> nat.
Hypothesis ident_inj : forall i j, ident i = ident j -> i = j.
Notation edges_text := (flat_map (fun e : N * nat => 95%N :: fst e :: 95%N :: decimal (ident (snd e)))).

Lemma decimal_digits n : Forall (fun c => (48 <= c < 58)%N) (decimal n).
Proof. apply uint_chars_digit. Qed.

Lemma decimal_inj m n : decimal m = decimal n -> m = n.
Proof. intros E. apply (f_equal (fun s => s ++ [95%N])) in E. apply decimal_split in E; [apply E|lia|lia]. Qed.

Lemma edges_text_inj es : forall es', edges_text es = edges_text es' -> es = es'.
Proof.
  induction es as [|[l t] es IH]; intros [|[l' t'] es'] E; cbn [flat_map fst snd app] in E; try discriminate; auto.
  injection E as <- E. assert (X : t = t' /\ edges_text es = edges_text es').
  { destruct es as [|[l1 t1] es], es' as [|[l2 t2] es']; cbn [flat_map fst snd app] in E |- *.
    - rewrite !app_nil_r in E. apply decimal_inj, ident_inj in E. auto.
    - exfalso. rewrite app_nil_r in E. pose proof (decimal_digits (ident t)) as F. rewrite E in F. apply Forall_app in F. destruct F as [_ F]. inversion F; subst. lia.
    - exfalso. rewrite app_nil_r in E. pose proof (decimal_digits (ident t')) as F. rewrite <- E in F. apply Forall_app in F. destruct F as [_ F]. inversion F; subst. lia.
    - apply decimal_split in E; [|lia|lia]. destruct E as (E1 & _ & E2). apply ident_inj in E1. split; [exact E1|]. f_equal. exact E2. }
  destruct X as [-> X]. f_equal. apply IH. exact X.
Qed.

Lemma onode_str_inj a b : onode_str ident a = onode_str ident b -> final a = final b /\ oedges a = oedges b.
Proof.
  unfold onode_str. intros E. injection E as E1 E2. split; [destruct (final a), (final b); congruence|]. apply edges_text_inj. exact E2.
Qed.
End Str.

(** ** The corresponding node of dawg.py *)

Definition conv (nd : onode) : node :=
  {| terminal := if final nd then 1 else 0; edges := oedges nd; leaf_count := None; final_edges := None |}.

Lemma conv_same a b : terminal (conv a) = terminal (conv b) -> edges (conv a) = edges (conv b) -> final a = final b /\ oedges a = oedges b.
Proof. cbn. intros H1 H2. split; auto. destruct (final a), (final b); congruence. Qed.

Lemma list_set_map {A B} (g : A -> B) l i v : list_set (map g l) i (g v) = map g (list_set l i v).
Proof. revert i. induction l as [|a l IH]; intros [|i]; cbn; auto. rewrite IH. reflexivity. Qed.

Section Build.
Context {D : Type}.
Variables (hash : str -> Z) (repr : N -> str) (ident : nat -> nat).
Hypothesis repr_free : forall a b s t, repr a ++ s = repr b ++ t -> a = b /\ s = t.
Hypothesis ident_inj : forall i j, ident i = ident j -> i = j.
Notation nstr := (node_str repr ident).
Notation ostr := (onode_str ident).

(** An entry of [minimizedNodes] and the one of the other program. *)
Definition same_entry (e : Z * nat * nat) (kv : str * nat) : Prop :=
  snd e = snd kv /\ snd (fst e) = snd kv /\
  exists nd, asc (map fst (oedges nd)) /\ fst kv = nstr (conv nd) /\ fst (fst e) = hash (ostr nd).

Record rel (o : odawg D) (g : dawg D) : Prop := {
  rel_previous : oprevious o = previous g;
  rel_nodes : nodes g = map conv (onodes o);
  rel_count : Forall (fun nd => count nd = 0) (onodes o);
  rel_root : oroot o = root g;
  rel_unchecked : ounchecked o = unchecked g;
  rel_minimized : Forall2 same_entry (ominimized o) (minimized g);
  rel_data : odata o = data g
}.

(** What is needed of the graph. *)
Record fine (g : dawg D) : Prop := {
  f_min : forall k m, In (k, m) (minimized g) -> exists nd, nth_error (nodes g) m = Some nd /\ k = nstr nd /\ asc (map fst (edges nd));
  f_path : forall i, In i (path (root g) (unchecked g)) -> exists nd, nth_error (nodes g) i = Some nd /\ asc (map fst (edges nd));
  f_edge : forall p l c, In (p, l, c) (unchecked g) -> exists nd, nth_error (nodes g) p = Some nd /\ In l (map fst (edges nd));
  f_nodup : NoDup (path (root g) (unchecked g) ++ map snd (minimized g));
  f_parents : map (fun e => fst (fst e)) (unchecked g) = tl (path (root g) (unchecked g))
}.

Lemma stack_edge h addr ws M root unch : stack_ok h addr ws M root unch ->
  forall p l c, In (p, l, c) unch -> exists nd, node_ok h addr ws p nd /\ In l (map fst (edges nd)).
Proof.
  induction unch as [|[[a l] b] rest IH]; cbn [stack_ok]; [intros _ p l c []|]. intros (_ & _ & (nd & E & K1 & K2 & _) & S) p l' c [H|H]; [|eauto].
  injection H as <- <- <-. exists nd. split; auto. rewrite K2, map_app. apply in_app_iff. right. left. reflexivity.
Qed.

Lemma built_fine (g : dawg D) addr ws B : built repr ident g addr ws B -> fine g.
Proof.
  intros Hb. pose proof (b_stack _ _ _ _ _ _ Hb) as HS. split.
  - intros k m Hm. destruct (b_min _ _ _ _ _ _ Hb k m Hm) as (nd & (K1 & _ & K3 & _) & K & _). eauto.
  - intros i Hi. destruct (b_top _ _ _ _ _ _ Hb) as (tn & (T1 & _ & T3 & _) & _). pose proof (stack_parents _ _ _ _ _ _ HS) as HP.
    unfold path in *. destruct (unchecked g) as [|[[a l] b] rest] eqn:Eu.
    + destruct Hi as [<-|[]]. eauto.
    + destruct Hi as [<-|Hi]; [cbn [top] in T1; eauto|]. cbn [map snd app tl] in HP. rewrite <- HP in Hi.
      assert (X : exists e, In e ((a, l, b) :: rest) /\ fst (fst e) = i).
      { apply in_map_iff with (f := fun e : nat * N * nat => fst (fst e)) (l := (a, l, b) :: rest) in Hi. destruct Hi as (e & E & H). eauto. }
      destruct X as ([[p l'] c] & He & <-). destruct (stack_edge _ _ _ _ _ _ HS p l' c He) as (nd & (K1 & _ & K3 & _) & _). cbn [fst]. eauto.
  - intros p l c H. destruct (stack_edge _ _ _ _ _ _ HS p l c H) as (nd & (K1 & _) & K). eauto.
  - apply (b_nodup _ _ _ _ _ _ Hb).
  - apply (stack_parents _ _ _ _ _ _ HS).
Qed.

Lemma nth_conv o g i nd : rel o g -> nth_error (nodes g) i = Some nd -> exists ond, nth_error (onodes o) i = Some ond /\ conv ond = nd.
Proof.
  intros R E. rewrite (rel_nodes _ _ R), nth_error_map in E. destruct (nth_error (onodes o) i) as [ond|]; [|discriminate]. injection E as <-. eauto.
Qed.

Lemma text_same a b : asc (map fst (oedges a)) -> asc (map fst (oedges b)) -> (nstr (conv a) = nstr (conv b) <-> ostr a = ostr b).
Proof.
  intros Ha Hb. split.
  - intros E. apply (node_str_inj repr ident repr_free ident_inj) in E. destruct E as [E1 E2]. rewrite !sorted_edges_asc in E2 by auto.
    destruct (conv_same a b E1 E2) as [F1 F2]. unfold onode_str. rewrite F1, F2. reflexivity.
  - intros E. apply (onode_str_inj ident ident_inj) in E. destruct E as [E1 E2]. unfold conv. rewrite E1, E2. reflexivity.
Qed.

Lemma find_same o g child cd : rel o g -> fine g -> nth_error (onodes o) child = Some cd -> asc (map fst (oedges cd)) ->
  find_node hash ident (onodes o) child cd (ominimized o) = Ok (dget (nstr (conv cd)) (minimized g)).
Proof.
  intros R F Hc Ha. pose proof (rel_minimized _ _ R) as RM. pose proof (f_min _ F) as FM.
  revert RM FM. generalize (minimized g) (ominimized o). intros mn omn RM. induction RM as [|[[hs key] value] [k m] omn mn (E1 & E2 & ond & Ao & Ek & Eh) RM IH]; intros FM; [reflexivity|].
  cbn [fst snd] in *. subst key value. specialize (IH (fun k' m' H => FM k' m' (or_intror H))).
  destruct (FM k m (or_introl eq_refl)) as (nd & N1 & N2 & N3). destruct (nth_conv _ _ _ _ R N1) as (kd & K1 & K2). subst nd. cbn [conv edges] in N3.
  assert (Eo : ostr ond = ostr kd) by (apply text_same; auto; congruence).
  cbn [find_node dget]. unfold get_onode. rewrite K1. cbn [bind]. destruct (eqd (nstr (conv cd)) k) as [E|E].
  - assert (Et : ostr kd = ostr cd) by (apply text_same; auto; congruence). rewrite Eh, Eo, Et, Z.eqb_refl.
    destruct (Nat.eqb m child); [reflexivity|]. destruct (eqd (ostr cd) (ostr cd)); [reflexivity|congruence].
  - assert (Et : ostr kd <> ostr cd) by (intros C; apply E; rewrite N2; symmetry; apply text_same; auto). destruct (Z.eqb hs (hash (ostr cd))); [|exact IH].
    destruct (Nat.eqb_spec m child) as [->|]; [exfalso; apply Et; congruence|]. destruct (eqd (ostr kd) (ostr cd)); [congruence|exact IH].
Qed.

Lemma Forall_list_set {A} (P : A -> Prop) l i v : Forall P l -> P v -> Forall P (list_set l i v).
Proof. intros F Pv. revert i. induction F as [|a l Pa F IH]; intros [|i]; cbn; constructor; auto. Qed.

Lemma dset_keys_same (l : N) (v : nat) (d : dict N nat) : In l (map fst d) -> map fst (dset l v d) = map fst d.
Proof.
  induction d as [|[k u] d IH]; intros H; [destruct H|]. cbn [dset]. destruct (eqd l k) as [->|Nk]; cbn [map fst]; [reflexivity|]. f_equal. apply IH. destruct H as [H|H]; [cbn in H; congruence|exact H].
Qed.

(** One step of [_minimize] *)
Lemma minimize_one_same o g g' : rel o g -> fine g -> minimize_one repr ident g = Ok g' -> exists o', ominimize_one hash ident o = Ok o' /\ rel o' g' /\ fine g'.
Proof.
  intros R F E. unfold minimize_one in E. unfold ominimize_one. rewrite (rel_unchecked _ _ R). destruct (unchecked g) as [|[[parent letter] child] rest] eqn:Eu; [discriminate|].
  pose proof (f_path _ F child) as Pc. rewrite Eu in Pc. destruct Pc as (nd & N1 & N2); [left; reflexivity|]. destruct (nth_conv _ _ _ _ R N1) as (cd & C1 & <-).
  unfold get_node in E. rewrite N1 in E. unfold get_onode. rewrite C1. cbn [bind] in *. rewrite (find_same o g child cd R F C1 N2). cbn [bind].
  pose proof (f_parents _ F) as FP. pose proof (f_nodup _ F) as FN. rewrite Eu in FP, FN. cbn [map fst path snd app tl] in FP, FN.
  assert (FP' : map (fun e : nat * N * nat => fst (fst e)) rest = tl (path (root g) rest)).
  { unfold path in *. destruct rest as [|[[a1 l1] b1] rest]; [reflexivity|]. cbn [map snd app tl] in *. injection FP as _ FP. exact FP. }
  destruct (dget (nstr (conv cd)) (minimized g)) as [same|] eqn:Eg.
  - pose proof (f_edge _ F parent letter child) as Fe. rewrite Eu in Fe. destruct Fe as (pn & P1 & P2); [left; reflexivity|]. destruct (nth_conv _ _ _ _ R P1) as (op & O1 & <-).
    rewrite P1 in E. rewrite O1. cbn [bind] in *. injection E as <-. eexists. split; [reflexivity|].
    set (pn' := {| terminal := _; edges := _; leaf_count := _; final_edges := _ |}). set (op' := {| final := _; oedges := _; count := _ |}).
    assert (Cp : conv op' = pn') by reflexivity. assert (Lp : parent < length (nodes g)) by (apply nth_error_Some; congruence).
    assert (Kp : map fst (edges pn') = map fst (oedges op)) by (cbn [pn' edges conv]; apply dset_keys_same; exact P2).
    assert (Hpath : In parent (path (root g) rest)).
    { unfold path in *. destruct rest as [|[[a1 l1] b1] rest]; cbn [map snd app tl] in *; assert (FP1 := f_equal (hd 0) FP); cbn [hd] in FP1; left; congruence. }
    assert (Set_ : forall j, nth_error (set_node (nodes g) parent pn') j = if Nat.eq_dec j parent then Some pn' else nth_error (nodes g) j) by (intros j; apply nth_error_list_set; exact Lp).
    split; split; cbn [oprevious previous onodes nodes oroot root ounchecked unchecked ominimized minimized odata data]; try apply R; auto.
    + unfold set_node, set_onode. rewrite (rel_nodes _ _ R), <- Cp. apply list_set_map.
    + apply Forall_list_set; [apply R|]. cbn [op' count]. pose proof (rel_count _ _ R) as C. rewrite Forall_forall in C. apply C. eapply nth_error_In. exact O1.
    + intros k m Hm. rewrite Set_. destruct (Nat.eq_dec m parent) as [->|]; [|apply (f_min _ F); exact Hm]. exfalso.
      inversion FN as [|? ? _ FN']; subst. apply (NoDup_app_disj _ _ FN' parent); [exact Hpath|]. apply in_map_iff. exists (k, parent). auto.
    + intros i Hi. rewrite Set_. destruct (Nat.eq_dec i parent) as [->|].
      * exists pn'. split; [reflexivity|]. rewrite Kp. pose proof (f_path _ F parent) as Fp. rewrite Eu in Fp. destruct Fp as (x & X1 & X2); [right; exact Hpath|]. rewrite P1 in X1. injection X1 as <-. exact X2.
      * apply (f_path _ F). rewrite Eu. right. exact Hi.
    + intros p l c H. rewrite Set_. assert (He : In (p, l, c) (unchecked g)) by (rewrite Eu; right; exact H). destruct (Nat.eq_dec p parent) as [->|]; [|apply (f_edge _ F p l c He)].
      exists pn'. split; [reflexivity|]. rewrite Kp. destruct (f_edge _ F parent l c He) as (x & X1 & X2). rewrite P1 in X1. injection X1 as <-. exact X2.
    + inversion FN; auto.
  - injection E as <-. eexists. split; [reflexivity|].
    assert (Nm : ~ In (nstr (conv cd)) (map fst (minimized g))). { apply dmem_false. unfold dmem. unfold str in *. rewrite Eg. reflexivity. }
    rewrite (dset_app (nstr (conv cd)) child (minimized g)) by (apply dmem_false; exact Nm).
    split; split; cbn [oprevious previous onodes nodes oroot root ounchecked unchecked ominimized minimized odata data]; try apply R; auto.
    + apply Forall2_app; [apply R|]. constructor; [|constructor]. split; [reflexivity|]. split; [reflexivity|]. exists cd. auto.
    + intros k m Hm. apply in_app_iff in Hm. destruct Hm as [Hm|[Hm|[]]]; [apply (f_min _ F); exact Hm|]. injection Hm as <- <-. exists (conv cd). auto.
    + intros i Hi. apply (f_path _ F). rewrite Eu. right. exact Hi.
    + intros p l c H. apply (f_edge _ F p l c). rewrite Eu. right. exact H.
    + rewrite map_app. cbn [map snd]. eapply Permutation_NoDup; [|exact FN]. rewrite app_assoc. apply Permutation_cons_append.
Qed.

Lemma minimize_same o g k g' : rel o g -> fine g -> minimize_unchecked repr ident g k = Ok g' -> exists o', ominimize hash ident o k = Ok o' /\ rel o' g' /\ fine g'.
Proof.
  unfold minimize_unchecked, ominimize. intros R. rewrite (rel_unchecked _ _ R). generalize (length (unchecked g) - k). intros n.
  revert o g R. induction n as [|n IH]; intros o g R F E; cbn [repeat foldM] in *.
  - injection E as <-. exists o. auto.
  - destruct (minimize_one repr ident g) as [g1|] eqn:E1; [|discriminate]. cbn [bind] in E. destruct (minimize_one_same o g g1 R F E1) as (o1 & O1 & R1 & F1).
    rewrite O1. cbn [bind]. apply IH with (g := g1); auto.
Qed.

Lemma add_letters_same w : forall oh unch i h' u' i', Forall (fun nd => count nd = 0) oh ->
  foldM add_letter w (map conv oh, unch, i) = Ok (h', u', i') -> exists oh', foldM oadd_letter w (oh, unch, i) = Ok (oh', u', i') /\ h' = map conv oh' /\ Forall (fun nd => count nd = 0) oh'.
Proof.
  induction w as [|c w IH]; intros oh unch i h' u' i' C E; cbn [foldM] in *.
  - injection E as <- <- <-. exists oh. auto.
  - unfold add_letter at 1 in E. unfold oadd_letter at 1. unfold get_node in E. unfold get_onode. rewrite nth_error_map in E. destruct (nth_error oh i) as [nd|] eqn:En; cbn [option_map bind] in *; [|discriminate].
    rewrite map_length in E. match type of E with context [set_node (map conv oh) i ?x] => change x with (conv {| final := final nd; oedges := dset c (length oh) (oedges nd); count := count nd |}) in E end.
    unfold set_node in E. rewrite list_set_map in E. change [new_node] with (map conv [new_onode]) in E. rewrite <- map_app in E. apply IH in E; [exact E|].
    apply Forall_app. split; [|constructor; [reflexivity|constructor]]. apply Forall_list_set; auto. cbn [count]. rewrite Forall_forall in C. apply C. eapply nth_error_In. exact En.
Qed.

Lemma insert_same o g w v g' : rel o g -> fine g -> insert repr ident g w v = Ok g' -> exists o', oinsert hash ident o w v = Ok o' /\ rel o' g'.
Proof.
  intros R F E. unfold insert in E. unfold oinsert. rewrite (rel_previous _ _ R). destruct (str_leb w (previous g)); [discriminate|].
  unfold insert_body in E. set (k := common_prefix_len w (previous g)) in *. destruct (minimize_unchecked repr ident g k) as [g1|] eqn:E1; [|discriminate]. cbn [bind] in E.
  destruct (minimize_same o g k g1 R F E1) as (o1 & O1 & R1 & F1). rewrite O1. cbn [bind]. rewrite (rel_unchecked _ _ R1), (rel_root _ _ R1).
  set (start := match unchecked g1 with [] => _ | _ => _ end) in *. destruct (foldM add_letter _ _) as [[[h u] i]|] eqn:Ea; [|discriminate]. cbn [bind] in E.
  rewrite (rel_nodes _ _ R1) in Ea. apply add_letters_same in Ea; [|apply R1]. destruct Ea as (oh & Eo & -> & Co). unfold oheap, str in *. rewrite Eo. cbn [bind].
  unfold get_node in E. unfold get_onode. rewrite nth_error_map in E. destruct (nth_error oh i) as [nd|] eqn:En; cbn [option_map bind] in *; [|discriminate]. injection E as <-.
  eexists. split; [reflexivity|]. split; cbn [oprevious previous onodes nodes oroot root ounchecked unchecked ominimized minimized odata data]; try apply R1; auto.
  - unfold set_node, set_onode. rewrite <- list_set_map. reflexivity.
  - apply Forall_list_set; auto. cbn [count]. rewrite Forall_forall in Co. apply Co. eapply nth_error_In. exact En.
  - rewrite (rel_data _ _ R1). reflexivity.
Qed.

Lemma init_same : rel odawg_init dawg_init.
Proof. split; cbn; auto; constructor; auto. Qed.
End Build.
