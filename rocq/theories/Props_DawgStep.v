(** Property C131: [DAWG.step] of experiments/dawg.py, with the list it changes. *)
From Coq Require Import ZArith NArith List Bool Permutation Lia Sorted String.
From Verif Require Import Num Py ListAux PyDict NmdSpec IndexModel IndexLoops Props_Index DawgModel DawgRepr DawgProofs DawgFinal DawgAsk DawgQuery DawgLate Ex Props_Dawg.
Import ListNotations.
Local Open Scope list_scope.
Local Open Scope nat_scope.

(** ** Model *)

(** experiments/dawg.py:184-192, the loop of [step] with its effect: the list
    [partial_path] after the call, and whether the call returned it ([true]) or
    None ([false]).  [here] is the node [partial_path[1]]. *)
Fixpoint cell_loop (h : heap) (here : node) (i : nat) (es : list (N * nat)) (skipped : nat) (c : N) : result ((nat * nat) * bool) :=
  match es with
  | [] => Ok ((skipped, i), false)
  | (label, child) :: es =>
      if N.eqb c label then Ok ((skipped + terminal here, child), true) else
      nd <- get_node h child ;;
      match leaf_count nd with
      | Some k => cell_loop h here i es (skipped + k) c
      | None => Err TypeError
      end
  end.

(** experiments/dawg.py:182-192. *)
Definition step_cell (h : heap) (cell : nat * nat) (c : N) : result ((nat * nat) * bool) :=
  here <- get_node h (snd cell) ;;
  match final_edges here with
  | None => Err TypeError
  | Some es => cell_loop h here (snd cell) es (fst cell) c
  end.

(** A caller that steps through a text with one list, and stops when told
    None (as experiments/dawg.py:168-171 does). *)
Fixpoint follow (h : heap) (cell : nat * nat) (p : str) : result ((nat * nat) * bool) :=
  match p with
  | [] => Ok (cell, true)
  | c :: p => r <- step_cell h cell c ;;
              if snd r then follow h (fst r) p else Ok r
  end.

(** What the texts are measured against. *)
Definition starts (p w : str) : bool := if list_eq_dec N.eq_dec (firstn (List.length p) w) p then true else false.

(** ** Proofs *)

Lemma cell_loop_step h here i es : forall s c,
  step_loop h here es s c = match cell_loop h here i es s c with Ok (cell, true) => Ok (Some cell) | Ok (_, false) => Ok None | Err e => Err e end.
Proof.
  induction es as [|[l t] es IH]; intros s c; [reflexivity|]. cbn [step_loop cell_loop]. destruct (N.eqb c l); [reflexivity|].
  destruct (get_node h t) as [nd|]; [|reflexivity]. cbn [bind]. destruct (leaf_count nd); [apply IH|reflexivity].
Qed.

Lemma step_cell_step h cell c :
  step h cell c = match step_cell h cell c with Ok (cell, true) => Ok (Some cell) | Ok (_, false) => Ok None | Err e => Err e end.
Proof.
  unfold step, step_cell. destruct (get_node h (snd cell)) as [nd|]; [|reflexivity]. cbn [bind]. destruct (final_edges nd); [apply cell_loop_step|reflexivity].
Qed.

Lemma follow_walk h p : forall cell,
  walk h cell p = match follow h cell p with Ok (cell, true) => Ok (Some cell) | Ok (_, false) => Ok None | Err e => Err e end.
Proof.
  induction p as [|c p IH]; intros cell; [reflexivity|]. cbn [walk follow]. rewrite step_cell_step.
  destruct (step_cell h cell c) as [[cell' [|]]|]; cbn [bind fst snd]; auto.
Qed.

Lemma starts_app p v : starts p (p ++ v) = true.
Proof. unfold starts. rewrite firstn_app, Nat.sub_diag, firstn_O, app_nil_r, firstn_all. destruct (list_eq_dec N.eq_dec p p); congruence. Qed.

Lemma starts_iff p w : starts p w = true <-> exists v, w = p ++ v.
Proof.
  split; [|intros (v & ->); apply starts_app]. unfold starts. destruct (list_eq_dec N.eq_dec (firstn (List.length p) w) p) as [E|]; [|discriminate].
  intros _. exists (skipn (List.length p) w). rewrite <- E at 1. symmetry. apply firstn_skipn.
Qed.

Lemma map_continuations p ws : map (app p) (continuations p ws) = filter (starts p) ws.
Proof.
  unfold continuations, str in *. induction ws as [|w ws IH]; [reflexivity|]. cbn [flat_map filter]. rewrite map_app, IH. destruct (strip p w) as [v|] eqn:E.
  - apply strip_some in E. subst w. rewrite starts_app. reflexivity.
  - destruct (starts p w) eqn:S; [|reflexivity]. apply starts_iff in S. destruct S as (v & ->). rewrite strip_app in E. discriminate.
Qed.

Lemma str_leb_starts p : forall w, starts p w = true -> str_leb p w = true.
Proof. intros w S. apply starts_iff in S. destruct S as (v & ->). induction p as [|c p IH]; [destruct v; reflexivity|]. cbn [app str_leb]. rewrite N.ltb_irrefl, N.eqb_refl. exact IH. Qed.

(** Between [p] and a word that begins with [p] there are only such words. *)
Lemma between_starts p : forall w v, str_leb p w = true -> slt w (p ++ v) -> starts p w = true.
Proof.
  induction p as [|c p IH]; intros w v H1 H2; [apply starts_iff; exists w; reflexivity|]. destruct w as [|d w]; [discriminate|].
  cbn [app] in H2. apply slt_cons in H2. cbn [str_leb] in H1. destruct (N.ltb_spec c d); [destruct H2 as [|[-> _]]; lia|]. cbn [orb] in H1.
  destruct (N.eqb_spec c d) as [->|]; [|destruct H2 as [|[-> _]]; try discriminate; congruence]. destruct H2 as [|[_ H2]]; [lia|].
  specialize (IH w v H1 H2). apply starts_iff in IH. destruct IH as (v' & ->). apply starts_iff. exists v'. reflexivity.
Qed.

(** In an ascending list come first the smaller words, then those that begin with [p]. *)
Lemma sorted_blocks p ws : StronglySorted slt ws -> exists r, ws = filter (fun w => negb (str_leb p w)) ws ++ filter (starts p) ws ++ r.
Proof.
  induction 1 as [|w ws Hs [r IH] Ha]; [exists []; reflexivity|]. rewrite Forall_forall in Ha. cbn [filter]. destruct (str_leb p w) eqn:E; cbn [negb].
  - assert (E1 : filter (fun w => negb (str_leb p w)) ws = []).
    { destruct (filter _ ws) as [|x l] eqn:Ef; [reflexivity|]. exfalso. assert (Hx : In x (filter (fun w => negb (str_leb p w)) ws)) by (rewrite Ef; left; reflexivity).
      apply filter_In in Hx. destruct Hx as [Hx N]. specialize (Ha x Hx). unfold slt in Ha.
      assert (W : str_leb w x = true) by (destruct (str_leb_total w x); congruence). rewrite (str_leb_trans _ _ _ E W) in N. discriminate. }
    rewrite E1 in *. cbn [app] in *. destruct (starts p w) eqn:S.
    + exists r. cbn [app]. f_equal. exact IH.
    + exists (w :: ws). replace (filter (starts p) ws) with (@nil str); [reflexivity|]. symmetry. destruct (filter (starts p) ws) as [|x l] eqn:Ef; [reflexivity|]. exfalso.
      assert (Hx : In x (filter (starts p) ws)) by (rewrite Ef; left; reflexivity). apply filter_In in Hx. destruct Hx as [Hx N].
      apply starts_iff in N. destruct N as (v & ->). rewrite (between_starts p w v E (Ha _ Hx)) in S. discriminate.
  - assert (S : starts p w = false) by (destruct (starts p w) eqn:S; [apply str_leb_starts in S; congruence|reflexivity]). rewrite S. exists r. cbn [app]. f_equal. exact IH.
Qed.

Section Step.
Context {D : Type}.
Variables (printable : N -> bool) (ident : nat -> nat).
Hypothesis ident_inj : forall i j, ident i = ident j -> i = j.
Notation finalize := (finalize (D := D) (py_repr printable) ident).
Notation run calls := (run_inserts (py_repr printable) ident calls dawg_init).

Lemma cell_loop_failed h R L here i es c : (forall i, In i R -> done L h i) -> (forall e, In e es -> In (snd e) R) -> ~ In c (map fst es) -> forall s,
  cell_loop h here i es s c = Ok ((s + sum_nat (map (fun e => List.length (L (snd e))) es), i), false).
Proof.
  intros HD. induction es as [|[l t] es IH]; intros He Hc s; cbn [cell_loop map sum_nat fold_right snd]; [rewrite Nat.add_0_r; reflexivity|].
  cbn [map fst In] in Hc. destruct (N.eqb_spec c l) as [->|]; [tauto|]. destruct (HD t) as (nd & C1 & C2 & _); [apply (He (l, t)); left; reflexivity|].
  unfold get_node. rewrite C1. cbn [bind]. rewrite C2, IH; [|intros e H; apply He; right; exact H|tauto]. do 3 f_equal.
  unfold sum_nat. lia.
Qed.

(** Stepping through a text [p] from the root of a finalized graph, with any
    history of insertions.  If a word begins with [p], no step returns None;
    then the counter is the number of words smaller than [p], and iterating the
    node gives what follows [p] in the words that begin with it, in order.
    Otherwise a step returns None. *)
Theorem dawg_step_prefix : forall (calls : list (str * D)) limit g p, short limit calls -> finalize limit (run calls) = Ok g ->
  let ws := map fst (accepted calls) in
  (p = [] \/ (exists w, In w ws /\ starts p w = true) -> exists n i rest, follow (nodes g) (0, root g) p = Ok ((n, i), true) /\
     n = List.length (filter (fun w => negb (str_leb p w)) ws) /\
     node_iter limit (nodes g) i = Ok rest /\ map (app p) rest = filter (starts p) ws) /\
  (p <> [] -> (forall w, In w ws -> starts p w = false) -> exists cell, follow (nodes g) (0, root g) p = Ok (cell, false)).
Proof.
  intros calls limit g p [Hp Hs] Ef ws. destruct (run_spec printable ident ident_inj calls) as (addr & Hb & HU & HD).
  assert (Hs' : forall w, In w ws -> List.length w < limit).
  { intros w Hw. apply in_map_iff in Hw. destruct Hw as ((w' & v) & E & H). cbn in E. subst. eapply Hs; eauto. }
  destruct (finalize_spec _ ident (repr_free printable) ident_inj _ addr _ _ limit Hb Hs' Hp) as (g' & L & E & HR & _ & Dg).
  rewrite Ef in E. injection E as <-. pose proof (r_sound _ _ _ HR) as RS. pose proof (r_done _ _ _ HR) as RD. pose proof (r_root _ _ _ HR) as RR.
  destruct (walk_spec _ _ _ RS RD p 0 (root g) (or_introl eq_refl)) as [W1 W2]. rewrite RR in W1, W2. fold ws in W1, W2.
  pose proof (follow_walk (nodes g) p (0, root g)) as FW. split.
  - intros Hpre. assert (X : exists j, In j (root g :: map snd (minimized g)) /\ walk (nodes g) (0, root g) p = Ok (Some (0 + cnt p ws, j)) /\ L j = continuations p ws).
    { destruct Hpre as [->|(w & Hw & S)].
      - exists (root g). rewrite cnt_nil, continuations_nil. repeat split; [left; reflexivity|exact RR].
      - apply W1. apply starts_iff in S. destruct S as (v & ->). intros C. apply in_continuations in Hw. rewrite C in Hw. destruct Hw. }
    destruct X as (j & J1 & J2 & J3). exists (cnt p ws), j, (continuations p ws). rewrite J2 in FW.
    destruct (follow (nodes g) (0, root g) p) as [[cell [|]]|]; try discriminate. injection FW as <-. split; [reflexivity|]. split; [reflexivity|]. split; [|apply map_continuations].
    rewrite (node_iter_spec _ _ _ RS limit j J1); [rewrite J3; reflexivity|]. destruct limit as [|limit']; [lia|].
    apply Nat.lt_succ_r, depth_le. intros w Hw. rewrite J3 in Hw. apply in_continuations in Hw. apply Hs' in Hw. rewrite app_length in Hw. unfold str in *. lia.
  - intros Hne Hno. rewrite W2 in FW; [|exact Hne|].
    + destruct (follow (nodes g) (0, root g) p) as [[cell [|]]|]; try discriminate. exists cell. reflexivity.
    + destruct (continuations p ws) as [|v l] eqn:Ec; [reflexivity|]. exfalso. assert (C : In v (continuations p ws)) by (rewrite Ec; left; reflexivity).
      apply in_continuations in C. specialize (Hno _ C). rewrite starts_app in Hno. discriminate.
Qed.

(** A step that returns None leaves the node of the list but not its counter:
    the words that begin with [p] and go on are added to it. *)
Theorem dawg_step_none : forall (calls : list (str * D)) limit g p c n i, short limit calls -> finalize limit (run calls) = Ok g ->
  let ws := map fst (accepted calls) in
  follow (nodes g) (0, root g) p = Ok ((n, i), true) -> (forall w, In w ws -> starts (p ++ [c]) w = false) ->
  step_cell (nodes g) (n, i) c = Ok ((n + List.length (filter (fun w => starts p w && negb (List.length w =? List.length p)%nat) ws), i), false).
Proof.
  intros calls limit g p c n i [Hp Hs] Ef ws HF Hno. destruct (run_spec printable ident ident_inj calls) as (addr & Hb & HU & HD).
  assert (Hs' : forall w, In w ws -> List.length w < limit).
  { intros w Hw. apply in_map_iff in Hw. destruct Hw as ((w' & v) & E & H). cbn in E. subst. eapply Hs; eauto. }
  destruct (finalize_spec _ ident (repr_free printable) ident_inj _ addr _ _ limit Hb Hs' Hp) as (g' & L & E & HR & _ & Dg).
  rewrite Ef in E. injection E as <-. pose proof (r_sound _ _ _ HR) as RS. pose proof (r_done _ _ _ HR) as RD. pose proof (r_root _ _ _ HR) as RR.
  destruct (walk_spec _ _ _ RS RD p 0 (root g) (or_introl eq_refl)) as [W1 W2]. rewrite RR in W1, W2. fold ws in W1, W2.
  pose proof (follow_walk (nodes g) p (0, root g)) as FW. rewrite HF in FW.
  assert (X : In i (root g :: map snd (minimized g)) /\ L i = continuations p ws).
  { destruct (continuations p ws) as [|v l] eqn:Ec.
    - destruct p as [|d p].
      + cbn [follow] in HF. injection HF as _ <-. rewrite continuations_nil in Ec. split; [left; reflexivity|]. rewrite RR. exact Ec.
      + rewrite W2 in FW by (discriminate || reflexivity). discriminate.
    - destruct W1 as (j & J1 & J2 & J3); [discriminate|]. rewrite J2 in FW. injection FW as _ <-. auto. }
  destruct X as [Xi XL]. destruct (RS i Xi) as (nd & Hnd). pose proof Hnd as (H1 & H2 & H3 & H4 & H5). destruct (RD i Xi) as (nd' & D1 & D2 & D3).
  assert (nd' = nd) by congruence. subst nd'. unfold step_cell, get_node. cbn [fst snd]. rewrite H1. cbn [bind]. rewrite D3.
  assert (Hc : ~ In c (map fst (edges nd))).
  { intros Hc. apply in_map_iff in Hc. destruct Hc as ((c' & t) & E & Ht). cbn in E. subst c'. destruct (H5 _ Ht) as [_ Ne]. cbn [snd] in Ne.
    destruct (L t) as [|v l] eqn:El; [contradiction|]. assert (C : In (c :: v) (L i)).
    { rewrite <- H2. unfold node_lang. apply in_app_iff. right. apply in_flat_map. exists (c, t). split; auto. cbn [fst snd]. apply in_map. rewrite El. left. reflexivity. }
    rewrite XL in C. apply in_continuations in C. specialize (Hno _ C). change (c :: v) with ([c] ++ v) in Hno. rewrite app_assoc, starts_app in Hno. discriminate. }
  rewrite (cell_loop_failed _ _ L nd i (edges nd) c RD (fun e He => proj1 (H5 e He)) Hc). do 4 f_equal.
  assert (Hsum : sum_nat (map (fun e => List.length (L (snd e))) (edges nd)) = List.length (filter (fun v : str => negb (List.length v =? 0)) (L i))).
  { rewrite <- H2. unfold node_lang. rewrite filter_app, app_length. replace (List.length (filter _ (if terminal nd =? 0 then [] else [[]]))) with 0 by (destruct (terminal nd =? 0); reflexivity).
    clear. cbn [Nat.add]. induction (edges nd) as [|e es IH]; [reflexivity|]. cbn [map sum_nat fold_right flat_map]. rewrite filter_app, app_length. f_equal; [|exact IH].
    induction (L (snd e)) as [|v l IHl]; [reflexivity|]. cbn [map filter List.length Nat.eqb negb]. congruence. }
  rewrite Hsum, XL. rewrite <- (map_length (app p)). f_equal.
  transitivity (filter (fun w => negb (List.length w =? List.length p)) (map (app p) (continuations p ws))).
  - generalize (continuations p ws). intros l. induction l as [|v l IH]; [reflexivity|]. cbn [map filter]. unfold str in *. rewrite app_length.
    destruct (Nat.eqb_spec (List.length v) 0), (Nat.eqb_spec (List.length p + List.length v) (List.length p)); try lia; cbn [negb map]; congruence.
  - rewrite map_continuations. clear. induction ws as [|w ws IH]; [reflexivity|]. cbn [filter]. destruct (starts p w); cbn [filter andb]; [|exact IH].
    destruct (negb (List.length w =? List.length p)); [f_equal|]; exact IH.
Qed.

(** So the words that begin with [p] stand side by side, from the position the
    counter tells: [get_index] gives them one after the other. *)
Theorem dawg_step_positions : forall (calls : list (str * D)) limit g p n i rest, short limit calls -> finalize limit (run calls) = Ok g ->
  follow (nodes g) (0, root g) p = Ok ((n, i), true) -> node_iter limit (nodes g) i = Ok rest ->
  (forall j s, nth_error rest j = Some s -> get_index limit g (Z.of_nat (n + j)) = Ok (Some (p ++ s)) /\ index g (p ++ s) = Ok (Z.of_nat (n + j))) /\
  (forall w, In w (map fst (accepted calls)) -> starts p w = true -> exists j s, nth_error rest j = Some s /\ w = p ++ s).
Proof.
  intros calls limit g p n i rest Hs Ef HF HI. destruct (dawg_step_prefix calls limit g p Hs Ef) as [P1 P2]. set (ws := map fst (accepted calls)) in *.
  assert (X : n = List.length (filter (fun w => negb (str_leb p w)) ws) /\ map (app p) rest = filter (starts p) ws).
  { destruct P1 as (n' & i' & rest' & F & En & R & M).
    - destruct p as [|c p]; [left; reflexivity|]. right. destruct (existsb (starts (c :: p)) ws) eqn:E; [apply existsb_exists in E; exact E|]. exfalso.
      destruct P2 as (cell & F); [discriminate| |congruence]. intros w Hw. destruct (starts (c :: p) w) eqn:S; [|reflexivity].
      assert (existsb (starts (c :: p)) ws = true) by (apply existsb_exists; exists w; auto). congruence.
    - rewrite HF in F. injection F as <- <-. rewrite HI in R. injection R as <-. auto. }
  destruct X as [En Er]. destruct (run_spec printable ident ident_inj calls) as (addr & Hb & _). pose proof (b_sorted _ _ _ _ _ _ Hb) as Srt.
  destruct (sorted_blocks p ws Srt) as (r & Ews). destruct (dawg_answers printable ident ident_inj calls limit Hs) as (g' & E & _ & HA & _).
  rewrite Ef in E. injection E as <-. split.
  - intros j s Hj. assert (Hn : nth_error ws (n + j) = Some (p ++ s)).
    { rewrite Ews, nth_error_app2 by (rewrite <- En; lia). rewrite <- En. replace (n + j - n) with j by lia.
      assert (Hm : nth_error (filter (starts p) ws) j = Some (p ++ s)) by (rewrite <- Er; apply map_nth_error; exact Hj).
      rewrite nth_error_app1; [exact Hm|]. apply nth_error_Some. congruence. }
    unfold ws in Hn. rewrite nth_error_map in Hn. destruct (nth_error (accepted calls) (n + j)) as [[w v]|] eqn:Ea; [|discriminate]. cbn in Hn. injection Hn as ->.
    destruct (HA _ _ _ Ea) as (A1 & _ & _ & A4). auto.
  - intros w Hw S. assert (Hf : In w (map (app p) rest)) by (rewrite Er; apply filter_In; auto). apply in_map_iff in Hf. destruct Hf as (s & <- & Hin).
    apply In_nth_error in Hin. destruct Hin as (j & Hj). eauto.
Qed.

(** The attribute [final_leaf_count] of the node reached is the number of words
    that begin with [p], and [is_terminal_node] tells whether [p] is one. *)
Theorem dawg_step_count : forall (calls : list (str * D)) limit g p n i nd, short limit calls -> finalize limit (run calls) = Ok g ->
  let ws := map fst (accepted calls) in
  follow (nodes g) (0, root g) p = Ok ((n, i), true) -> get_node (nodes g) i = Ok nd ->
  leaf_count nd = Some (List.length (filter (starts p) ws)) /\ (terminal nd = 1 <-> In p ws) /\ (terminal nd = 0 <-> ~ In p ws).
Proof.
  intros calls limit g p n i nd [Hp Hs] Ef ws HF HN. destruct (run_spec printable ident ident_inj calls) as (addr & Hb & HU & HD).
  assert (Hs' : forall w, In w ws -> List.length w < limit).
  { intros w Hw. apply in_map_iff in Hw. destruct Hw as ((w' & v) & E & H). cbn in E. subst. eapply Hs; eauto. }
  destruct (finalize_spec _ ident (repr_free printable) ident_inj _ addr _ _ limit Hb Hs' Hp) as (g' & L & E & HR & _ & Dg).
  rewrite Ef in E. injection E as <-. pose proof (r_sound _ _ _ HR) as RS. pose proof (r_done _ _ _ HR) as RD. pose proof (r_root _ _ _ HR) as RR. fold ws in RR.
  destruct (walk_spec _ _ _ RS RD p 0 (root g) (or_introl eq_refl)) as [W1 W2]. rewrite RR in W1, W2.
  pose proof (follow_walk (nodes g) p (0, root g)) as FW. rewrite HF in FW.
  assert (X : In i (root g :: map snd (minimized g)) /\ L i = continuations p ws).
  { destruct (continuations p ws) as [|v l] eqn:Ec.
    - destruct p as [|d p].
      + cbn [follow] in HF. injection HF as _ <-. rewrite continuations_nil in Ec. split; [left; reflexivity|]. rewrite RR. exact Ec.
      + rewrite W2 in FW by (discriminate || reflexivity). discriminate.
    - destruct W1 as (j & J1 & J2 & J3); [discriminate|]. rewrite J2 in FW. injection FW as _ <-. auto. }
  destruct X as [Xi XL]. destruct (RS i Xi) as (nd0 & H1 & H2 & _ & H4 & _). destruct (RD i Xi) as (nd1 & D1 & D2 & _).
  unfold get_node in HN. rewrite D1 in HN. injection HN as ->. assert (nd0 = nd) by congruence. subst nd0.
  assert (T : terminal nd <> 0 <-> In p ws).
  { transitivity (In [] (node_lang L nd)); [split; [apply in_node_lang_nil|]|rewrite H2, XL, in_continuations, app_nil_r; reflexivity].
    intros I. apply in_node_lang_nil in I. exact I. }
  split; [|split].
  - rewrite D2, XL, <- map_continuations, map_length. reflexivity.
  - rewrite <- T. lia.
  - rewrite <- T. lia.
Qed.
End Step.
Print Assumptions dawg_step_prefix.
Print Assumptions dawg_step_none.
Print Assumptions dawg_step_positions.
Print Assumptions dawg_step_count.

(** So after a step that returned None the list is spoilt: a later step that
    finds its character no longer gives the number of smaller words. *)
Theorem dawg_step_again_refuted : exists (calls : list (str * nat)) limit g c d cell n i,
  let pr := py_repr (fun _ => true) in let ws := map fst (accepted calls) in
  short limit calls /\ finalize pr (fun i => i) limit (run_inserts pr (fun i => i) calls dawg_init) = Ok g /\
  step_cell (nodes g) (0, root g) c = Ok (cell, false) /\ step_cell (nodes g) cell d = Ok ((n, i), true) /\
  n <> List.length (filter (fun w => negb (str_leb [d] w)) ws).
Proof.
  exists [(w_ "a", 1); (w_ "b", 2)], 10. eexists. exists 99%N, 98%N. do 3 eexists. cbv zeta. split; [split; [lia|]; vm_compute; intros w v H; repeat (destruct H as [H|H]; [injection H as <- <-; cbn; lia|]); destruct H|].
  split; [vm_compute; reflexivity|]. split; [vm_compute; reflexivity|]. split; [vm_compute; reflexivity|]. vm_compute. discriminate.
Qed.
Print Assumptions dawg_step_again_refuted.

(** *** Cases *)

Example dawg_step_case :
  short 5 some_calls /\
  match finalize pr (fun i => i) 5 (run_inserts pr (fun i => i) some_calls dawg_init) with
  | Ok g => match follow (nodes g) (0, root g) (w_ "to") with
            | Ok ((n, i), b) => n = 2 /\ b = true /\ node_iter 5 (nodes g) i = Ok [w_ "p"; w_ "ps"] /\ get_index 5 g 3 = Ok (Some (w_ "tops")) /\ step_cell (nodes g) (n, i) 120 = Ok ((4, i), false)
            | Err _ => False
            end
  | Err _ => False
  end.
Proof.
  pose proof dawg_case as H. destruct H as (_ & H & _). split; [exact H|]. vm_compute. repeat split.
Qed.
