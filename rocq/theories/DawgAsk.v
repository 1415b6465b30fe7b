(** Proofs about experiments/dawg.py (model: DawgModel.v): the finalized graph
    and its answers. *)
From Coq Require Import ZArith NArith List Bool Permutation Lia Sorted.
From Verif Require Import Num Py ListAux PyDict NmdSpec IndexModel IndexLoops IndexTop Props_Index DawgModel DawgProofs DawgFinal.
Import ListNotations.

(** ** The graph under construction *)

Section Build.
Context {D : Type}.
Variables (repr : N -> str) (ident : nat -> nat).
Hypothesis repr_free : forall a b s t, repr a ++ s = repr b ++ t -> a = b /\ s = t.
Hypothesis ident_inj : forall i j, ident i = ident j -> i = j.

Lemma stack_prefixes h addr ws M root unch : stack_ok h addr ws M root unch ->
  forall b, In b (path root unch) -> exists s, A addr (top root unch) = A addr b ++ s.
Proof.
  induction unch as [|[[a l] c] rest IH]; intros HS b Hb.
  - destruct Hb as [<-|[]]. exists []. rewrite app_nil_r. reflexivity.
  - cbn [stack_ok] in HS. destruct HS as (Ea & Ec & _ & St). destruct Hb as [<-|Hb].
    + exists []. rewrite app_nil_r. reflexivity.
    + destruct (IH St b Hb) as (s & Es). exists (s ++ [l]). cbn [top]. rewrite Ec, Ea, Es, app_assoc. reflexivity.
Qed.

Lemma built_prefix (g : dawg D) addr ws B b : built repr ident g addr ws B -> In b (path (root g) (unchecked g)) -> exists s, previous g = A addr b ++ s.
Proof.
  intros Hb Hi. destruct (stack_prefixes _ _ _ _ _ _ (b_stack _ _ _ _ _ _ Hb) b Hi) as (s & Es).
  destruct (b_prefix _ _ _ _ _ _ Hb) as (s' & Es'). exists (s ++ s'). rewrite Es', Es, app_assoc. reflexivity.
Qed.

Lemma built_sound (g : dawg D) addr ws B : built repr ident g addr ws B ->
  sound (nodes g) (path (root g) (unchecked g) ++ map snd (minimized g)) (Lg addr ws).
Proof.
  intros Hb. pose proof (b_min _ _ _ _ _ _ Hb) as HM.
  assert (HMne : forall m, In m (map snd (minimized g)) -> Lg addr ws m <> []).
  { intros m Hm. apply in_map_iff in Hm. destruct Hm as ((key & m') & E & Hm). cbn in E. subst m'. destruct (HM key m Hm) as (nd & _ & _ & _ & _ & H & _). exact H. }
  assert (Hpne : forall b, In b (path (root g) (unchecked g)) -> A addr b <> [] -> Lg addr ws b <> []).
  { intros b Hi Ne C. destruct (built_prefix _ _ _ _ _ Hb Hi) as (s & Es).
    destruct (b_last _ _ _ _ _ _ Hb) as [[_ E]|(ws' & E)].
    - rewrite E in Es. destruct (A addr b); [congruence|discriminate].
    - assert (X : In s (Lg addr ws b)); [|rewrite C in X; destruct X]. apply in_continuations. rewrite <- Es, E. apply in_app_iff. right. left. reflexivity. }
  intros i Hi. apply in_app_iff in Hi. destruct Hi as [Hi|Hi].
  - pose proof (b_stack _ _ _ _ _ _ Hb) as HS. destruct (b_top _ _ _ _ _ _ Hb) as (tn & (T1 & T2 & T3 & T4 & T4' & T5) & T6).
    assert (G : forall rest pre, unchecked g = pre ++ rest -> stack_ok (nodes g) addr ws (map snd (minimized g)) (root g) rest ->
      forall j, In j (map (fun e => fst (fst e)) rest) -> exists nd, sound_node (nodes g) (path (root g) (unchecked g) ++ map snd (minimized g)) (Lg addr ws) j nd).
    { induction rest as [|[[a l] b] rest IH]; intros pre E St j Hj; [destruct Hj|]. cbn [stack_ok] in St.
      destruct St as (Ea & Eb & (nd & es & (K1 & K2 & K3 & K4 & K4' & K5) & K6 & K7) & St).
      destruct Hj as [<-|Hj]; [|apply (IH (pre ++ [(a, l, b)])); auto; rewrite E, <- app_assoc; reflexivity].
      cbn [fst]. exists nd. split; [exact K1|]. split; [exact K2|]. split; [exact K3|]. split; [exact K5|].
      intros e He. rewrite K6 in He. apply in_app_iff in He. destruct He as [He|[<-|[]]].
      - specialize (K7 e He). split; [apply in_app_iff; auto|apply HMne; auto].
      - cbn [snd]. assert (Hbp : In b (path (root g) (unchecked g))).
        { unfold path. rewrite E, map_app. apply in_app_iff. left. apply in_app_iff. right. left. reflexivity. }
        split; [apply in_app_iff; left; exact Hbp|]. apply Hpne; auto. rewrite Eb. destruct (A addr a); discriminate. }
    destruct (Nat.eq_dec i (top (root g) (unchecked g))) as [->|Ni].
    + exists tn. split; [exact T1|]. split; [exact T2|]. split; [exact T3|]. split; [exact T5|]. intros e He. specialize (T6 e He).
      split; [apply in_app_iff; auto|apply HMne; auto].
    + apply (G (unchecked g) []); auto. rewrite (stack_parents _ _ _ _ _ _ HS).
      unfold path in *. destruct (unchecked g) as [|[[a l] b] rest]; [cbn [top] in Ni; destruct Hi as [<-|[]]; congruence|]. cbn [map snd app tl] in *.
      destruct Hi as [<-|Hi]; [cbn [top] in Ni; congruence|exact Hi].
  - pose proof Hi as Him. apply in_map_iff in Hi. destruct Hi as ((key & m') & E & Hm). cbn in E. subst m'.
    destruct (HM key i Hm) as (nd & (K1 & K2 & K3 & K4 & K4' & K5) & _ & K6 & _). exists nd. split; [exact K1|]. split; [exact K2|]. split; [exact K3|]. split; [exact K5|].
    intros e He. specialize (K6 e He). split; [apply in_app_iff; auto|apply HMne; auto].
Qed.

(** ** No two minimized nodes have the same language *)

Lemma asc_ext (es es' : list (N * nat)) : asc (map fst es) -> asc (map fst es') -> (forall e, In e es <-> In e es') -> es = es'.
Proof.
  revert es'. induction es as [|e es IH]; intros [|e' es'] H H' E; auto.
  - exfalso. apply (proj2 (E e')). left. reflexivity.
  - exfalso. apply (proj1 (E e)). left. reflexivity.
  - cbn [map] in H, H'. inversion H; subst. inversion H'; subst. rewrite Forall_forall in *.
    assert (Ee : e = e').
    { destruct (proj1 (E e) (or_introl eq_refl)) as [->|X]; auto. destruct (proj2 (E e') (or_introl eq_refl)) as [->|Y]; auto.
      pose proof (H5 (fst e) (in_map fst _ _ X)). pose proof (H3 (fst e') (in_map fst _ _ Y)). lia. }
    subst e'. f_equal. apply IH; auto. intros x. split; intros Hx.
    + destruct (proj1 (E x) (or_intror Hx)) as [->|]; auto. exfalso. pose proof (H3 (fst x) (in_map fst _ _ Hx)). lia.
    + destruct (proj2 (E x) (or_intror Hx)) as [->|]; auto. exfalso. pose proof (H5 (fst x) (in_map fst _ _ Hx)). lia.
Qed.

Lemma lang_edge h R L i nd c t : sound_node h R L i nd -> In (c, t) (edges nd) -> continuations [c] (L i) = L t.
Proof.
  intros (_ & H2 & H3 & _) He. rewrite <- H2. destruct (continuations_node c [] L nd H3) as [C _]. rewrite (C t He). apply continuations_nil.
Qed.

Lemma lang_label h R L i nd c : sound_node h R L i nd -> (exists v, In (c :: v) (L i)) -> exists t, In (c, t) (edges nd).
Proof. intros (_ & H2 & _) (v & Hv). rewrite <- H2 in Hv. apply in_node_lang_cons in Hv. destruct Hv as (t & Ht & _). eauto. Qed.

Lemma edge_label h R L i nd c t : sound_node h R L i nd -> In (c, t) (edges nd) -> exists v, In (c :: v) (L i).
Proof.
  intros (_ & H2 & _ & _ & H5) He. destruct (H5 _ He) as [_ Ne]. cbn [snd] in Ne. destruct (L t) as [|v l] eqn:E; [congruence|].
  exists v. rewrite <- H2. apply in_node_lang_cons. exists t. split; auto. rewrite E. left. reflexivity.
Qed.

Lemma minimized_unique (g : dawg D) addr ws B : built repr ident g addr ws B ->
  forall m m', In m (map snd (minimized g)) -> In m' (map snd (minimized g)) -> Lg addr ws m = Lg addr ws m' -> m = m'.
Proof.
  intros Hb. pose proof (b_min _ _ _ _ _ _ Hb) as HM. set (L := Lg addr ws) in *.
  assert (HN : forall m, In m (map snd (minimized g)) -> exists nd, sound_node (nodes g) (map snd (minimized g)) L m nd /\ In (node_str repr ident nd, m) (minimized g)).
  { intros m Hm. apply in_map_iff in Hm. destruct Hm as ((key & m') & E & Hm). cbn in E. subst m'.
    destruct (HM key m Hm) as (nd & (K1 & K2 & K3 & K4 & K4' & K5) & -> & K6 & _). exists nd. split; [|exact Hm].
    split; [exact K1|]. split; [exact K2|]. split; [exact K3|]. split; [exact K5|]. intros e He. specialize (K6 e He). split; [exact K6|].
    apply in_map_iff in K6. destruct K6 as ((key' & m') & E & Hm'). cbn in E. rewrite E in Hm'. destruct (HM key' (snd e) Hm') as (? & _ & _ & _ & _ & X & _). exact X. }
  assert (G : forall n m m', depth L m <= n -> In m (map snd (minimized g)) -> In m' (map snd (minimized g)) -> L m = L m' -> m = m').
  { induction n as [|n IH]; intros m m' Hd Hm Hm' E.
    all: destruct (HN m Hm) as (nd & Hn & Hk); destruct (HN m' Hm') as (nd' & Hn' & Hk').
    all: assert (Et : terminal nd = terminal nd').
    1,3: pose proof Hn as (_ & A2 & _ & A4 & _); pose proof Hn' as (_ & B2 & _ & B4 & _);
      pose proof (in_node_lang_nil L nd) as X; pose proof (in_node_lang_nil L nd') as Y; rewrite A2 in X; rewrite B2 in Y; rewrite E in X;
      destruct (Nat.eq_dec (terminal nd) 0), (Nat.eq_dec (terminal nd') 0); try lia; exfalso; tauto.
    all: assert (Ee : edges nd = edges nd').
    1: { destruct (edges nd) as [|e es] eqn:Ee.
         - destruct (edges nd') as [|[c t] es'] eqn:Ee'; auto. exfalso.
           assert (Hc : In (c, t) (edges nd')) by (rewrite Ee'; left; reflexivity).
           pose proof (edge_label _ _ _ _ _ _ _ Hn' Hc) as Hv. rewrite <- E in Hv. destruct (lang_label _ _ _ _ _ _ Hn Hv) as (t' & Ht'). rewrite Ee in Ht'. destruct Ht'.
         - exfalso. assert (He : In e (edges nd)) by (rewrite Ee; left; reflexivity). pose proof (depth_child _ _ _ _ _ _ Hn He). lia. }
    2: { apply asc_ext; [apply Hn|apply Hn'|]. intros [c t]. split; intros He.
         - pose proof (edge_label _ _ _ _ _ _ _ Hn He) as Hv. rewrite E in Hv. destruct (lang_label _ _ _ _ _ _ Hn' Hv) as (t' & Ht').
           assert (t = t'); [|subst; exact Ht']. pose proof (depth_child _ _ _ _ _ _ Hn He). cbn [snd] in *.
           pose proof Hn as (_ & _ & _ & _ & A5). pose proof Hn' as (_ & _ & _ & _ & B5).
           apply IH; [lia|apply (A5 _ He)|apply (B5 _ Ht')|]. rewrite <- (lang_edge _ _ _ _ _ _ _ Hn He), <- (lang_edge _ _ _ _ _ _ _ Hn' Ht'), E. reflexivity.
         - pose proof (edge_label _ _ _ _ _ _ _ Hn' He) as Hv. rewrite <- E in Hv. destruct (lang_label _ _ _ _ _ _ Hn Hv) as (t' & Ht').
           assert (t' = t); [|subst; exact Ht']. pose proof (depth_child _ _ _ _ _ _ Hn Ht'). cbn [snd] in *.
           pose proof Hn as (_ & _ & _ & _ & A5). pose proof Hn' as (_ & _ & _ & _ & B5).
           apply IH; [lia|apply (A5 _ Ht')|apply (B5 _ He)|]. rewrite <- (lang_edge _ _ _ _ _ _ _ Hn Ht'), <- (lang_edge _ _ _ _ _ _ _ Hn' He), E. reflexivity. }
    all: assert (Es : node_str repr ident nd = node_str repr ident nd') by (unfold node_str, sorted_edges; rewrite Et, Ee; reflexivity).
    all: rewrite Es in Hk; apply In_dget in Hk; [|apply (b_wf _ _ _ _ _ _ Hb)]; apply In_dget in Hk'; [|apply (b_wf _ _ _ _ _ _ Hb)]; congruence. }
  intros m m' Hm Hm' E. eapply G; eauto.
Qed.

(** ** [finalize] *)

(** A finalized graph for the words [ws]; [L i] is the language of node [i]. *)
Record ready (g : dawg D) (L : nat -> list str) (ws : list str) : Prop := {
  r_sound : sound (nodes g) (root g :: map snd (minimized g)) L;
  r_done : forall i, In i (root g :: map snd (minimized g)) -> done L (nodes g) i;
  r_root : L (root g) = ws;
  r_sorted : StronglySorted slt ws;
  r_unchecked : unchecked g = [];
  r_unique : NoDup (map L (map snd (minimized g)));
  r_states : forall l, In l (map L (map snd (minimized g))) <-> exists u, u <> [] /\ l = continuations u ws /\ l <> [];
  r_into : forall i nd e, In i (root g :: map snd (minimized g)) -> nth_error (nodes g) i = Some nd -> In e (edges nd) -> In (snd e) (map snd (minimized g));
  r_root_min : ~ In (root g) (map snd (minimized g));
  r_last : ws = [] /\ previous g = [] \/ exists ws', ws = ws' ++ [previous g]
}.

Lemma reach_done h R L i u j : sound h R L -> closed R L h -> In i R -> done L h i -> reach h i u j -> done L h j /\ In j R.
Proof.
  intros HS HC Hi Hd Hr. revert Hi Hd. induction Hr as [i|i nd c t u j E He Hr IH]; intros Hi Hd; auto.
  apply IH.
  - destruct (HS i Hi) as (nd' & H1 & _ & _ & _ & H5). assert (nd' = nd) by congruence. subst. apply (H5 _ He).
  - apply (HC i nd (c, t)); auto.
Qed.

Lemma finalize_spec (g : dawg D) addr ws B limit : built repr ident g addr ws B -> (forall w, In w ws -> length w < limit) -> 0 < limit ->
  exists g' L, finalize repr ident limit g = Ok g' /\ ready g' L ws /\ previous g' = previous g /\ data g' = data g.
Proof.
  intros Hb0 Hlim Hpos. assert (Hb : built repr ident g addr ws (fun _ => False)).
  { destruct Hb0. split; auto. intros key m Hm. destruct (b_min key m Hm) as (nd & H1 & H2 & H3 & H4 & H5 & H6). exists nd. repeat (split; auto). intros w []. }
  clear Hb0 B.
  destruct (minimize_spec repr ident repr_free ident_inj g addr ws (fun _ => False) 0 Hb) as (g1 & E1 & Hb1 & U1 & R1 & P1 & D1 & T1).
  { lia. } { intros u w _ _ _ []. }
  unfold finalize. rewrite E1. cbn [bind]. apply length_zero_iff_nil in U1.
  set (L := Lg addr ws). set (M := map snd (minimized g1)).
  assert (HS : sound (nodes g1) (root g1 :: M) L).
  { pose proof (built_sound _ _ _ _ Hb1) as HS. rewrite U1 in HS. exact HS. }
  assert (Hroot : L (root g1) = ws). { unfold L, Lg. rewrite (b_root _ _ _ _ _ _ Hb1). apply continuations_nil. }
  assert (Hclean : forall j, In j (root g1 :: M) -> clean (nodes g1) j).
  { intros j [<-|Hj].
    - destruct (b_top _ _ _ _ _ _ Hb1) as (nd & (K1 & _ & _ & K4 & K5 & _) & _). rewrite U1 in K1. exists nd. auto.
    - apply in_map_iff in Hj. destruct Hj as ((key & m) & E & Hm). cbn in E. subst m.
      destruct (b_min _ _ _ _ _ _ Hb1 key j Hm) as (nd & (K1 & _ & _ & K4 & K5 & _) & _). exists nd. auto. }
  assert (Hnd : forall j, In j (root g1 :: M) -> ~ done L (nodes g1) j).
  { intros j Hj (nd & A1 & A2 & _). destruct (Hclean j Hj) as (nd' & B1 & B2 & _). congruence. }
  destruct (finalize_node_spec (nodes g1) (root g1 :: M) L HS limit (nodes g1) (root g1)) as (h' & F & Dr & Sh & Cl & _ & _ & _).
  { left. reflexivity. }
  { destruct limit; [lia|]. apply Nat.lt_succ_r. apply depth_le. intros w Hw. rewrite Hroot in Hw. apply Hlim in Hw. lia. }
  { split; auto. intros i nd E. exists nd. auto. }
  { intros i nd e Hi _ C. exfalso. exact (Hnd i Hi C). }
  { intros j Hj _. left. auto. }
  rewrite F. cbn [bind]. eexists. exists L. split; [reflexivity|]. split; [|cbn; auto].
  pose proof (shape_sound (nodes g1) (root g1 :: M) L HS h' Sh) as HS'.
  assert (Hstates : forall u, continuations u ws <> [] -> exists j, reach h' (root g1) u j /\ In j (root g1 :: M) /\ L j = continuations u ws).
  { intros u Hu. destruct (reach_exists h' (root g1 :: M) L HS' u (root g1)) as (j & J1 & J2 & J3); [left; auto|rewrite Hroot; auto|]. exists j. rewrite Hroot in J3. auto. }
  assert (HrM : ~ In (root g1) M).
  { intros C. pose proof (b_nodup _ _ _ _ _ _ Hb1) as X. rewrite U1 in X. cbn [path map app] in X. apply NoDup_cons_iff in X. exact (proj1 X C). }
  assert (Hinto1 : forall i nd e, In i (root g1 :: M) -> nth_error (nodes g1) i = Some nd -> In e (edges nd) -> In (snd e) M).
  { intros i nd e Hi En He. destruct Hi as [<-|Hi].
    - destruct (b_top _ _ _ _ _ _ Hb1) as (nd' & (K1 & _) & K6). rewrite U1 in K1. cbn [top] in K1. assert (nd' = nd) by congruence. subst nd'. apply K6, He.
    - apply in_map_iff in Hi. destruct Hi as ((key & m) & E & Hm). cbn in E. subst m.
      destruct (b_min _ _ _ _ _ _ Hb1 key i Hm) as (nd' & (K1 & _) & _ & K6 & _). assert (nd' = nd) by congruence. subst nd'. apply K6, He. }
  assert (Hinto : forall i nd e, In i (root g1 :: M) -> nth_error h' i = Some nd -> In e (edges nd) -> In (snd e) M).
  { intros i nd e Hi En He. destruct (proj2 Sh i nd En) as (nd0 & E0 & _ & Ed). rewrite Ed in He. eapply Hinto1; eauto. }
  assert (HreachM : forall u j, u <> [] -> reach h' (root g1) u j -> In j M).
  { assert (X : forall i u j, reach h' i u j -> In i (root g1 :: M) -> u <> [] -> In j M).
    { intros i u j Hr. induction Hr as [i|i nd c t u j E He Hr IH]; intros Hi Hu; [congruence|].
      pose proof (Hinto i nd (c, t) Hi E He) as Ht. cbn [snd] in Ht. destruct u as [|c' u].
      - inversion Hr as [x Ex X|]. congruence.
      - apply IH; [right; exact Ht|discriminate]. }
    intros u j Hu Hr. apply (X (root g1) u j Hr); [left; reflexivity|exact Hu]. }
  assert (Hall : forall m, In m M -> done L h' m).
  { intros m Hm. assert (Hm' := Hm). apply in_map_iff in Hm'. destruct Hm' as ((key & m') & E & Hin). cbn in E. subst m'.
    destruct (b_min _ _ _ _ _ _ Hb1 key m Hin) as (nd & _ & _ & _ & N1 & N2 & _).
    destruct (Hstates (A addr m) N2) as (j & J1 & J2 & J3).
    assert (Hj : In j M) by (apply (HreachM (A addr m) j); auto).
    assert (j = m) by (apply (minimized_unique _ _ _ _ Hb1); auto). subst j.
    exact (proj1 (reach_done h' (root g1 :: M) L (root g1) (A addr m) m HS' Cl (or_introl eq_refl) Dr J1)). }
  split; cbn [nodes root unchecked minimized previous]; auto.
  - intros i [<-|Hi]; auto.
  - apply (b_sorted _ _ _ _ _ _ Hb1).
  - fold M. pose proof (b_nodup _ _ _ _ _ _ Hb1) as X. rewrite U1 in X. cbn [path map app] in X. apply NoDup_cons_iff in X. destruct X as [_ X2].
    assert (Y : forall l, NoDup l -> incl l M -> NoDup (map L l)).
    { induction 1 as [|m l Hm Hn IH]; intros Hin; cbn [map]; constructor.
      - intros C. apply in_map_iff in C. destruct C as (m' & E & Hm'). apply Hm. assert (m' = m); [|subst m'; auto].
        apply (minimized_unique _ _ _ _ Hb1); [apply Hin; right; auto|apply Hin; left; auto|exact E].
      - apply IH. intros x Hx. apply Hin. right. exact Hx. }
    apply Y; [exact X2|apply incl_refl].
  - fold M. intros l. rewrite in_map_iff. split.
    + intros (m & <- & Hm). apply in_map_iff in Hm. destruct Hm as ((key & m') & E & Hin). cbn in E. subst m'.
      destruct (b_min _ _ _ _ _ _ Hb1 key m Hin) as (nd & _ & _ & _ & N1 & N2 & _). exists (A addr m). auto.
    + intros (u & Hu & -> & Ne). destruct (Hstates u Ne) as (j & J1 & J2 & J3). exists j. split; auto. eapply HreachM; eauto.
  - apply (b_last _ _ _ _ _ _ Hb1).
Qed.
End Build.
