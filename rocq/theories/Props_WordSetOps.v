(** Property C113: the operators that [WordSet] inherits from
    [collections.abc.MutableSet]. *)
From Coq Require Import ZArith NArith List Bool Lia String.
From Verif Require Import Num Py ListAux PyDict Float64 EmdSpec EmdModel EmdProofs EmdFloatProofs NmdSpec NmdModel IndexModel WordSetSpec WordSetModel WordSetProofs Ex Props_Index Props_WordSet WordSetOpsModel.
Import ListNotations.
Open Scope string_scope.
Open Scope list_scope.

(** ** Comparisons *)
Section Compare.
Variable rnd : Qcanon.Qc -> Qcanon.Qc.
Variable casefold : str -> str.
Variables (b : bool) (nz : nz_arg) (sz sz' : sizes_arg) (cs cs' : list command) (st st' : wordset).
Hypothesis H : ws_reached rnd casefold b nz sz cs st.
Hypothesis H' : ws_reached rnd casefold b nz sz' cs' st'.
Notation within a c := (forall v, ws_contains casefold a v = Ok true -> ws_contains casefold c v = Ok true).

(** [>=], [<], [>] and [!=] are superset, proper subset, proper superset and
    difference of the sets of words. *)
Theorem wordset_ge_iff : exists r, ws_ge casefold st st' = Ok r /\ (r = true <-> within st' st).
Proof. exact (wordset_le_iff _ _ _ _ _ _ _ _ _ _ H' H). Qed.

Lemma equal_lengths : within st st' -> (ws_len st' <= ws_len st)%nat -> within st' st.
Proof.
  intros W L. destruct (wordset_eq_iff _ _ _ _ _ _ _ _ _ _ H H') as (r & E & Hr).
  destruct (wordset_le_iff _ _ _ _ _ _ _ _ _ _ H H') as (r1 & E1 & Hr1). apply Hr1 in W. subst r1.
  unfold ws_eq in E. assert (L' : (ws_len st <= ws_len st')%nat).
  { unfold ws_le in E1. destruct (Nat.ltb_spec (ws_len st') (ws_len st)); [discriminate|assumption]. }
  replace (ws_len st =? ws_len st')%nat with true in E by (symmetry; apply Nat.eqb_eq; lia). rewrite E1 in E. injection E as <-.
  intros v. apply Hr. reflexivity.
Qed.

Lemma within_lengths : within st st' -> (ws_len st <= ws_len st')%nat.
Proof.
  intros W. destruct (wordset_le_iff _ _ _ _ _ _ _ _ _ _ H H') as (r1 & E1 & Hr1). apply Hr1 in W. subst r1.
  unfold ws_le in E1. destruct (Nat.ltb_spec (ws_len st') (ws_len st)); [discriminate|assumption].
Qed.

Theorem wordset_lt_iff : exists r, ws_lt casefold st st' = Ok r /\
  (r = true <-> within st st' /\ exists v, ws_contains casefold st' v = Ok true /\ ws_contains casefold st v <> Ok true).
Proof.
  unfold ws_lt. destruct (wordset_le_iff _ _ _ _ _ _ _ _ _ _ H H') as (r & E & Hr).
  destruct (Nat.ltb_spec (ws_len st) (ws_len st')) as [L|L].
  - exists r. split; [exact E|]. rewrite Hr. split; [|tauto]. intros W. split; [exact W|].
    destruct (wordset_le_iff _ _ _ _ _ _ _ _ _ _ H' H) as (r2 & E2 & Hr2).
    destruct (reached_contains _ _ _ _ _ _ _ H) as (_ & Ln & Ct). destruct (reached_contains _ _ _ _ _ _ _ H') as (I' & Ln' & Ct').
    assert (G : forall l : list str, incl l (ws_iter st') -> all_in casefold st l = Ok false ->
      exists v, ws_contains casefold st' v = Ok true /\ ws_contains casefold st v <> Ok true).
    { pose proof (contents_norm _ _ _ _ _ _ _ H') as N. induction l as [|w l IH]; intros Sub E0; [discriminate|]. cbn [all_in] in E0.
      assert (Iw : In w (ws_iter st')) by (apply Sub; left; reflexivity). rewrite I' in Iw. apply in_map_iff in Iw. destruct Iw as ([u w'] & <- & Iw). cbn [snd] in *.
      destruct (N u w' Iw) as (Nw & _). destruct (ws_contains casefold st (PStr w')) as [c|e] eqn:Ec; cbn [bind] in E0; [|discriminate]. destruct c.
      - apply IH; [intros x J; apply Sub; right; exact J|exact E0].
      - exists (PStr w'). split; [|congruence]. rewrite Ct'. cbn [contains_spec]. rewrite Nw. f_equal. apply holds_in, in_map_iff. exists (u, w'). auto. }
    destruct r2; [exfalso|].
    + assert (W' : within st' st) by (apply Hr2; reflexivity). unfold ws_le in E2. destruct (Nat.ltb_spec (ws_len st) (ws_len st')); [discriminate|lia].
    + assert (B : exists r3, all_in casefold st (ws_iter st') = Ok r3 /\ (r3 = true <-> within st' st)).
      { destruct (all_in_spec casefold b (normalizer_of nz) (contents casefold b nz cs) st (ws_iter st') Ct) as (r3 & E3 & Hr3).
        { intros w Iw. rewrite I' in Iw. apply in_map_iff in Iw. destruct Iw as ([u w'] & <- & Iw). exists u. apply (contents_norm _ _ _ _ _ _ _ H' u w' Iw). }
        exists r3. split; [exact E3|]. rewrite Hr3. split.
        - intros Q v Hv. rewrite Ct' in Hv. rewrite Ct. destruct v as [w| | | |]; cbn [contains_spec] in *; try discriminate.
          destruct (normal_form casefold b (normalizer_of nz) w) as [u|] eqn:Nw; [|discriminate]. f_equal.
          assert (Hu : holds (contents casefold b nz cs') u = true) by congruence. apply holds_in, in_map_iff in Hu. destruct Hu as ([x w'] & <- & Iw). cbn [fst] in *.
          apply (Q w' x); [rewrite I'; apply in_map_iff; exists (x, w'); auto|apply (contents_norm _ _ _ _ _ _ _ H' x w' Iw)].
        - intros Q. exfalso. pose proof (proj2 Hr2 Q). discriminate. }
      destruct B as (r3 & E3 & Hr3). destruct r3; [exfalso; pose proof (proj2 Hr2 (proj1 Hr3 eq_refl)); discriminate|].
      apply (G (ws_iter st')); [apply incl_refl|exact E3].
  - exists false. split; [reflexivity|]. split; [discriminate|]. intros [W (v & A & B)]. exfalso. apply B. apply (equal_lengths W L). exact A.
Qed.

Theorem wordset_ne_iff : exists r, ws_ne casefold st st' = Ok r /\
  (r = true <-> ~ forall v, ws_contains casefold st v = Ok true <-> ws_contains casefold st' v = Ok true).
Proof.
  destruct (wordset_eq_iff _ _ _ _ _ _ _ _ _ _ H H') as (r & E & Hr). unfold ws_ne. rewrite E. cbn [bind]. exists (negb r). split; [reflexivity|].
  rewrite <- Hr. destruct r; cbn [negb]; split; congruence.
Qed.
End Compare.

Theorem wordset_gt_iff : forall rnd casefold b nz sz sz' cs cs' st st',
  ws_reached rnd casefold b nz sz cs st -> ws_reached rnd casefold b nz sz' cs' st' ->
  exists r, ws_gt casefold st st' = Ok r /\
    (r = true <-> (forall v, ws_contains casefold st' v = Ok true -> ws_contains casefold st v = Ok true) /\
      exists v, ws_contains casefold st v = Ok true /\ ws_contains casefold st' v <> Ok true).
Proof.
  intros rnd casefold b nz sz sz' cs cs' st st' H H'. destruct (wordset_lt_iff _ _ _ _ _ _ _ _ _ _ H' H) as (r & E & Hr).
  exists r. split; [|exact Hr]. rewrite <- E. unfold ws_gt, ws_lt, ws_ge, ws_le.
  destruct (Nat.ltb_spec (ws_len st') (ws_len st)); [|reflexivity]. destruct (Nat.ltb_spec (ws_len st) (ws_len st')); [lia|reflexivity].
Qed.

(** ** [^=] *)
Lemma one_call rnd casefold b nz sz cs st o c : ws_reached rnd casefold b nz sz cs st -> fair o ->
  ws_reached rnd casefold b nz sz (cs ++ [c]) (fst (ws_call rnd casefold o st c)) /\
  snd (ws_call rnd casefold o st c) = snd (command_spec (normal_form casefold b (normalizer_of nz)) (contents casefold b nz cs) c) /\
  contents casefold b nz (cs ++ [c]) = fst (command_spec (normal_form casefold b (normalizer_of nz)) (contents casefold b nz cs) c).
Proof.
  intros H F. assert (Fc : Forall (fun c : order * command => fair (fst c)) [(o, c)]) by (constructor; [exact F|constructor]).
  pose proof (reached_run _ _ _ _ _ _ _ [(o, c)] H Fc) as R. pose proof (reached_answers _ _ _ _ _ _ _ [(o, c)] H Fc) as A.
  cbn [ws_run map snd fst spec_run] in R, A. destruct (ws_call rnd casefold o st c) as [s r]. cbn [fst snd] in *.
  split; [exact R|]. unfold contents at 2. rewrite spec_run_app. fold (contents casefold b nz cs). cbn [spec_run fst].
  destruct (command_spec _ _ c) as [m1 r1]. cbn [fst snd] in *. split; congruence.
Qed.

Lemma holds_add (m : members) (u w x : str) : holds m u = false ->
  holds (m ++ [(u, w)]) x = xorb (holds m x) (if eqd u x then true else false).
Proof.
  intros Eh. assert (E : holds (m ++ [(u, w)]) x = holds m x || holds [(u, w)] x) by apply existsb_app. rewrite E, holds_cons. cbn [holds existsb].
  rewrite orb_false_r. destruct (eqd u x) as [<-|]; [rewrite Eh; reflexivity|]. rewrite orb_false_r, xorb_false_r. reflexivity.
Qed.

Lemma toggles rnd casefold b nz sz o : fair o -> forall l : members, NoDup (map fst l) ->
  (forall u w, In (u, w) l -> normal_form casefold b (normalizer_of nz) w = Some u /\ u <> [] /\ w <> []) ->
  forall cs st, ws_reached rnd casefold b nz sz cs st ->
  exists st2 cs2, toggle_all rnd casefold o st (map PStr (map snd l)) = (st2, Ok ANone) /\ ws_reached rnd casefold b nz sz cs2 st2 /\
    forall u, holds (contents casefold b nz cs2) u = xorb (holds (contents casefold b nz cs) u) (holds l u).
Proof.
  intros Fo. induction l as [|[u w] l IH]; intros Nd Hl cs st H; cbn [map snd toggle_all].
  - exists st, cs. split; [reflexivity|]. split; [exact H|]. intros u. cbn. rewrite xorb_false_r. reflexivity.
  - destruct (Hl u w (or_introl eq_refl)) as (Nw & Hu & Hw). inversion Nd as [|? ? Nu Nd']; subst. cbn [fst] in *.
    destruct (reached_contains _ _ _ _ _ _ _ H) as (_ & _ & Ct). rewrite Ct. cbn [contains_spec]. rewrite Nw.
    set (m := contents casefold b nz cs) in *.
    assert (Step : exists c st1, (if holds m u then ws_discard casefold o st (PStr w) else ws_add rnd casefold o st (PStr w)) = (st1, Ok ANone) /\
      ws_reached rnd casefold b nz sz (cs ++ [c]) st1 /\ forall x, holds (contents casefold b nz (cs ++ [c])) x = xorb (holds m x) (if eqd u x then true else false)).
    { destruct (holds m u) eqn:Eh.
      - destruct (one_call _ _ _ _ _ _ _ o (CDiscard (PStr w)) H Fo) as (R & A & C). fold m in A, C. cbn [ws_call command_spec] in *. rewrite Nw in *. cbn [fst snd] in *.
        exists (CDiscard (PStr w)), (fst (ws_discard casefold o st (PStr w))). split; [rewrite <- A; destruct (ws_discard casefold o st (PStr w)); reflexivity|]. split; [exact R|].
        intros x. rewrite C, without_holds. destruct (eqd u x) as [<-|]; [rewrite Eh; reflexivity|rewrite xorb_false_r; reflexivity].
      - destruct (one_call _ _ _ _ _ _ _ o (CAdd (PStr w)) H Fo) as (R & A & C). fold m in A, C. cbn [ws_call command_spec] in *. destruct w as [|c0 w]; [congruence|]. rewrite Nw in *.
        destruct u as [|cu u]; [congruence|]. rewrite Eh in *. cbn [fst snd] in *.
        exists (CAdd (PStr (c0 :: w))), (fst (ws_add rnd casefold o st (PStr (c0 :: w)))). split; [rewrite <- A; destruct (ws_add rnd casefold o st (PStr (c0 :: w))); reflexivity|]. split; [exact R|].
        intros x. rewrite C. apply holds_add. exact Eh. }
    destruct Step as (c & st1 & E1 & R1 & H1). rewrite E1.
    destruct (IH Nd' (fun x y I => Hl x y (or_intror I)) _ _ R1) as (st2 & cs2 & E2 & R2 & H2).
    exists st2, cs2. split; [exact E2|]. split; [exact R2|]. intros x. rewrite H2, H1. setoid_rewrite holds_cons.
    destruct (eqd u x) as [<-|]; cbn [orb]; [|rewrite xorb_false_r; reflexivity].
    assert (Hn : holds l u = false) by (destruct (holds l u) eqn:Eh; [apply holds_in in Eh; contradiction|reflexivity]).
    rewrite Hn. rewrite xorb_false_r. reflexivity.
Qed.

(** [s ^= other] for another set with the same flag and normalizer is the
    symmetric difference. *)
Theorem wordset_ixor : forall rnd casefold b nz sz sz' cs cs' st st' o,
  ws_reached rnd casefold b nz sz cs st -> ws_reached rnd casefold b nz sz' cs' st' -> fair o ->
  exists st2 cs2, ws_ixor rnd casefold o st (OWords st') = (st2, Ok ANone) /\ ws_reached rnd casefold b nz sz cs2 st2 /\
    forall v, ws_contains casefold st2 v = Ok true <->
      (ws_contains casefold st v = Ok true /\ ws_contains casefold st' v <> Ok true) \/
      (ws_contains casefold st v <> Ok true /\ ws_contains casefold st' v = Ok true).
Proof.
  intros rnd casefold b nz sz sz' cs cs' st st' o H H' Fo.
  destruct (reached_contains _ _ _ _ _ _ _ H) as (_ & _ & Ct). destruct (reached_contains _ _ _ _ _ _ _ H') as (I & _ & Ct').
  cbn [ws_ixor values_of]. rewrite I.
  destruct (toggles rnd casefold b nz sz o Fo (contents casefold b nz cs')) with (cs := cs) (st := st) as (st2 & cs2 & E & R & Hx).
  - apply (contents_nodup _ _ _ _ _ _ _ H').
  - intros u w Iw. destruct (contents_norm _ _ _ _ _ _ _ H' u w Iw) as (A & B & _). split; [exact A|]. split; [exact B|]. intros ->. apply (contents_nonempty casefold b nz cs' u). exact Iw.
  - exact H.
  - exists st2, cs2. split; [exact E|]. split; [exact R|]. destruct (reached_contains _ _ _ _ _ _ _ R) as (_ & _ & Ct2).
    intros v. rewrite Ct2, Ct, Ct'. destruct v as [w| | | |]; cbn [contains_spec]; try (split; [discriminate|intros [[? ?]|[? ?]]; discriminate]).
    destruct (normal_form casefold b (normalizer_of nz) w) as [u|]; [|split; [discriminate|intros [[? ?]|[? ?]]; discriminate]].
    rewrite Hx. destruct (holds (contents casefold b nz cs) u), (holds (contents casefold b nz cs') u); cbn [xorb];
      split; try discriminate; try (intros [[? ?]|[? ?]]; congruence); intros _; [left|right]; split; congruence.
Qed.

(** With a plain [set] a word under two spellings is toggled twice: it is in the
    right operand and not in the left one, and not in the result. *)
Theorem wordset_ixor_set_refuted : exists st l u,
  ws_reached exact lower false ZNone (SIter [Some 2%Z]) [] st /\ NoDup l /\ In u l /\ ws_contains lower st u = Ok false /\
  ws_contains lower (fst (ws_ixor exact lower ord0 st (OSet l))) u = Ok false /\ snd (ws_ixor exact lower ord0 st (OSet l)) = Ok ANone.
Proof.
  exists (ws_fresh false [2%Z]), [PStr (w_ "Fig"); PStr (w_ "fig")], (PStr (w_ "fig")). split; [|split; [|split; [right; left; reflexivity|split; [reflexivity|split; reflexivity]]]].
  - exists (ws_fresh false [2%Z]), []. repeat split. constructor.
  - constructor; [intros [E|[]]; discriminate|]. constructor; [intros []|constructor].
Qed.

(** ** The operators that build a new set *)

(** [a & x], [a | x], [a - x], [a ^ x] should be the intersection, union, ...;
    each raises a TypeError, for every operand. *)
Theorem wordset_new_set_refuted : forall st x,
  ws_and st x = Err TypeError /\ ws_or st x = Err TypeError /\ ws_sub st x = Err TypeError /\ ws_xor st x = Err TypeError.
Proof. intros st [| | | |]; repeat split. Qed.

(** So do [&=], and [^=] with an iterable that is not a set; the set stays as it
    is. *)
Theorem wordset_iand_refuted : forall casefold o st x, ws_iand casefold o st x = (st, Err TypeError).
Proof. intros casefold o st [| | | |]; reflexivity. Qed.
Theorem wordset_ixor_iterable_refuted : forall rnd casefold o st l, ws_ixor rnd casefold o st (OIter l) = (st, Err TypeError).
Proof. reflexivity. Qed.

(** ** A set with itself *)
Theorem wordset_with_itself : forall rnd casefold b nz sz cs st o, ws_reached rnd casefold b nz sz cs st -> fair o ->
  ws_ior_any rnd casefold o st OSelf = (st, Ok ANone) /\
  (forall v, fst (ws_isub_any casefold o st OSelf) = fst (ws_ixor rnd casefold o st OSelf) /\
    ws_contains casefold (fst (ws_ixor rnd casefold o st OSelf)) v <> Ok true) /\
  ws_len (fst (ws_ixor rnd casefold o st OSelf)) = 0%nat.
Proof.
  intros rnd casefold b nz sz cs st o H Fo. split; [|split; [|reflexivity]].
  - cbn [ws_ior_any values_of]. destruct (reached_contains _ _ _ _ _ _ _ H) as (I & _ & Ct). rewrite I.
    pose proof (contents_norm _ _ _ _ _ _ _ H) as N.
    assert (Ne : forall u, ~ In (u, []) (contents casefold b nz cs)) by (intros u; apply contents_nonempty).
    set (m := contents casefold b nz cs) in *.
    assert (G : forall l : members, incl l m -> ws_ior rnd casefold o st (map PStr (map snd l)) = (st, Ok ANone)); [|apply G, incl_refl].
    induction l as [|[u w] l IH]; intros Sub; [reflexivity|]. cbn [map snd ws_ior]. assert (Iw : In (u, w) m) by (apply Sub; left; reflexivity).
    destruct (N u w Iw) as (Nw & Hu & _).
    assert (C : ws_contains casefold st (PStr w) = Ok true).
    { rewrite Ct. cbn [contains_spec]. rewrite Nw. f_equal. apply holds_in, in_map_iff. exists (u, w). auto. }
    assert (A : ws_add rnd casefold o st (PStr w) = (st, Ok ANone)).
    { pose proof (one_call _ _ _ _ _ _ _ o (CAdd (PStr w)) H Fo) as (_ & A & _). cbn [ws_call command_spec] in A. fold m in A.
      destruct w as [|c w]; [destruct (Ne u Iw)|]. rewrite Nw in A. destruct u as [|cu u]; [congruence|]. cbn [snd] in A.
      revert A C. cbn [ws_add ws_contains List.length Nat.eqb]. destruct (normalize_word casefold st (c :: w)) as [x|e]; cbn [bind]; [|discriminate].
      destruct (Nat.eqb (List.length x) 0); [discriminate|]. intros A C. injection C as ->. reflexivity. }
    rewrite A. apply IH. intros e J. apply Sub. right. exact J.
  - intros v. split; [reflexivity|]. destruct (one_call _ _ _ _ _ _ _ o CClear H Fo) as (R & _ & C). cbn [ws_call command_spec fst] in R, C.
    destruct (reached_contains _ _ _ _ _ _ _ R) as (_ & _ & Ct). cbn [ws_ixor fst]. rewrite Ct, C. destruct v as [w| | | |]; cbn [contains_spec]; try discriminate.
    destruct (normal_form casefold b (normalizer_of nz) w); discriminate.
Qed.

(** ** Updates that fail midway *)

(** If [s |= it] raises, the values before the offending one were added, the
    offending one and those after it were not. *)
Theorem wordset_ior_failed : forall rnd casefold b nz sz cs st o it st2 e, ws_reached rnd casefold b nz sz cs st -> fair o ->
  ws_ior rnd casefold o st it = (st2, Err e) ->
  exists before v after, it = before ++ v :: after /\ ws_ior rnd casefold o st before = (st2, Ok ANone) /\ ws_add rnd casefold o st2 v = (st2, Err e).
Proof.
  intros rnd casefold b nz sz cs st o it. revert cs st. induction it as [|v it IH]; intros cs st st2 e H Fo E; [discriminate|]. cbn [ws_ior] in E.
  destruct (ws_add rnd casefold o st v) as [s1 [x|e1]] eqn:Ea.
  - destruct (one_call _ _ _ _ _ _ _ o (CAdd v) H Fo) as (R & _ & _). cbn [ws_call] in R. rewrite Ea in R. cbn [fst] in R.
    destruct (IH _ _ _ _ R Fo E) as (before & v' & after & -> & E1 & E2). exists (v :: before), v', after. split; [reflexivity|]. split; [|exact E2].
    cbn [ws_ior]. rewrite Ea. exact E1.
  - injection E as <- <-. exists [], v, it. split; [reflexivity|].
    assert (s1 = st); [|subst s1; split; [reflexivity|exact Ea]].
    revert Ea. unfold ws_add. destruct v as [w| | | |]; try (intros Ea; injection Ea; congruence).
    destruct (Nat.eqb (List.length w) 0); [intros Ea; injection Ea; congruence|]. destruct (normalize_word casefold st w) as [u|]; [|intros Ea; injection Ea; congruence].
    destruct (Nat.eqb (List.length u) 0); [intros Ea; injection Ea; congruence|]. destruct (dmem u (to_id st)); intros Ea; discriminate.
Qed.

(** ** Cases *)
Example ops_case :
  let a := ws_built false [2]%Z ["Apple"; "fig"] in let c := ws_built false [3]%Z ["FIG"; "pear"; "quince"] in
  ws_iter (fst (ws_ixor exact lower ord0 a (OWords c))) = map w_ ["Apple"; "pear"; "quince"] /\
  ws_lt lower (ws_built false [2]%Z ["Fig"]) c = Ok true /\ ws_gt lower c (ws_built false [2]%Z ["Fig"]) = Ok true /\
  ws_lt lower a c = Ok false /\ ws_ge lower c c = Ok true /\ ws_gt lower c c = Ok false /\ ws_ne lower a c = Ok true /\
  ws_iter (fst (ws_ior exact lower ord0 a [PStr (w_ "kiwi"); PStr []; PStr (w_ "lime")])) = map w_ ["Apple"; "fig"; "kiwi"] /\
  snd (ws_ior exact lower ord0 a [PStr (w_ "kiwi"); PStr []; PStr (w_ "lime")]) = Err ValueError.
Proof. vm_compute. repeat split. Qed.

Print Assumptions wordset_ge_iff.
Print Assumptions wordset_lt_iff.
Print Assumptions wordset_gt_iff.
Print Assumptions wordset_ne_iff.
Print Assumptions wordset_ixor.
Print Assumptions wordset_ixor_set_refuted.
Print Assumptions wordset_new_set_refuted.
Print Assumptions wordset_iand_refuted.
Print Assumptions wordset_ixor_iterable_refuted.
Print Assumptions wordset_with_itself.
Print Assumptions wordset_ior_failed.
