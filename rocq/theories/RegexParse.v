(** Wrapping, spaces, and reading the result back. *)
From Coq Require Import ZArith NArith List Bool String Lia.
From Verif Require Import Py PyDict Ex.
From Verif Require Import RegexSpec RegexModel RegexTree RegexPasses.
Import ListNotations.
Open Scope string_scope.
Open Scope list_scope.
Open Scope N_scope.

(** ** Wrapping *)
Lemma shows_not_open ps u : shows ps = u ++ [40; 63; 58] -> False.
Proof.
  intros E. apply (f_equal (@rev N)) in E. rewrite rev_app_distr in E. cbn [rev app] in E.
  destruct ps as [|p ps] using rev_ind; [discriminate|]. clear IHps. unfold RegexTree.shows in E. rewrite flat_map_app, rev_app_distr in E. cbn [flat_map] in E.
  rewrite app_nil_r in E. destruct (showp_cases p) as [(c & Ep & _)|(c & _ & Ep & _)]; rewrite Ep in E; cbn [rev app] in E; [|discriminate].
  injection E as _ E. destruct ps as [|p2 ps] using rev_ind; [discriminate|]. clear IHps. rewrite flat_map_app, rev_app_distr in E. cbn [flat_map] in E.
  rewrite app_nil_r in E. destruct (showp_cases p2) as [(c2 & Ep2 & Pc & _)|(c2 & _ & Ep2 & _)]; rewrite Ep2 in E; cbn [rev app] in E; [|discriminate].
  injection E as -> _. apply plain_not_syntax in Pc. apply Pc. cbn. tauto.
Qed.

Lemma last_neq {A} (u v : list A) x y : u ++ [x] = v ++ [y] -> x = y.
Proof. intros E. apply app_inj_tail in E. apply E. Qed.

Lemma show_not_open s u : show s = u ++ [40; 63; 58] -> False.
Proof.
  destruct s as [ps t]. rewrite show_seq. intros E.
  assert (X : forall w q v c, c <> 58 -> (w ++ [c] ++ quest q) = v ++ [40; 63; 58] -> False).
  { intros w q v c N E'. destruct q; cbn [quest] in E'.
    - change (v ++ [40; 63; 58]) with (v ++ ([40; 63] ++ [58])) in E'. rewrite !app_assoc in E'. apply last_neq in E'. discriminate.
    - change (v ++ [40; 63; 58]) with (v ++ ([40; 63] ++ [58])) in E'. rewrite !app_assoc, app_nil_r in E'. apply last_neq in E'. congruence. }
  destruct t as [|alts q|ks q|p q].
  - rewrite app_nil_r in E. eapply shows_not_open; eauto.
  - change (showt (G alts q)) with (([40; 63; 58] ++ bars (map show alts)) ++ [41] ++ quest q) in E. rewrite app_assoc in E. eapply X; [|exact E]. discriminate.
  - change (showt (K ks q)) with (([91] ++ shows ks) ++ [93] ++ quest q) in E. rewrite app_assoc in E. eapply X; [|exact E]. discriminate.
  - change (showt (P p q)) with (showp p ++ quest q) in E. destruct q; cbn [quest] in E.
    + change (u ++ [40; 63; 58]) with (u ++ ([40; 63] ++ [58])) in E. rewrite !app_assoc in E. apply last_neq in E. discriminate.
    + apply (shows_not_open (ps ++ [p]) u). unfold RegexTree.shows. rewrite flat_map_app. cbn [flat_map]. rewrite <- E. reflexivity.
Qed.

Definition opening (boundary : bool) : str := if boundary then [40; 63; 58; 92; 98] else [40; 63; 58].
Definition closing (boundary : bool) : str := if boundary then [92; 98; 41] else [41].

Lemma wrapped_show bd s : wrapped bd (show s) = Ok (opening bd ++ show s ++ closing bd).
Proof.
  unfold wrapped, eqs. destruct (list_eq_dec N.eq_dec (skipn 3 (show s)) (w_ "(?:")) as [E|_].
  - exfalso. apply (show_not_open s (firstn 3 (show s))). rewrite <- (firstn_skipn 3 (show s)) at 1. rewrite E. reflexivity.
  - destruct bd; reflexivity.
Qed.

(** ** Spaces *)
Section Spaces.
Variable X : str.
Notation rep := (replace_from [92; 32] X 0).
Definition no_space (s : str) : Prop := match s with c :: _ => c <> 32 | [] => True end.

Lemma rep_char c s : c <> 92 -> rep (c :: s) = c :: rep s.
Proof. intros N. cbn [replace_from starts]. destruct (92 =? c) eqn:E; [apply N.eqb_eq in E; congruence|reflexivity]. Qed.

Lemma rep_esc c s : c <> 32 -> no_space s -> rep (92 :: c :: s) = 92 :: c :: rep s.
Proof.
  intros N Ns. assert (E : (32 =? c) = false) by (apply N.eqb_neq; congruence).
  change (rep (92 :: c :: s)) with (if (92 =? 92) && ((32 =? c) && true) then X ++ replace_from [92; 32] X 1 (c :: s) else 92 :: rep (c :: s)).
  rewrite E. cbn [andb]. change (92 =? 92) with true. cbn [andb]. f_equal. destruct (N.eq_dec c 92) as [->|Nc]; [|apply rep_char; auto].
  cbn [replace_from starts]. destruct s as [|d s]; [reflexivity|]. cbn [no_space] in Ns.
  assert (Ed : (32 =? d) = false) by (apply N.eqb_neq; congruence). rewrite Ed. reflexivity.
Qed.

Lemma rep_space s : rep (92 :: 32 :: s) = X ++ rep s.
Proof. reflexivity. Qed.

Lemma plain_not_space c : plain c -> c <> 32.
Proof. intros H E. subst c. destruct H as [H|H]; discriminate H. Qed.

Lemma rep_showp p s : no_space s -> rep (showp p ++ s) = RegexTree.showp X p ++ rep s.
Proof.
  intros Ns. destruct (showp_cases p) as [(c & Ep & Pc & N & _)|(c & Ep' & Ep & Ic)].
  - assert (E : RegexTree.showp X p = [c]).
    { destruct p as [d|]; [|injection Ep as <-; reflexivity]. cbn [RegexTree.showp] in *. destruct (d =? 32); [discriminate Ep|exact Ep]. }
    rewrite Ep, E. cbn [app]. apply rep_char; auto.
  - subst p. rewrite Ep. destruct (N.eq_dec c 32) as [Ec|Nc]; [rewrite Ec; apply rep_space|].
    assert (E : RegexTree.showp X (PChar c) = [92; c]).
    { cbn [RegexTree.showp] in *. apply N.eqb_neq in Nc. rewrite Nc in *. exact Ep. }
    rewrite E. cbn [app]. apply rep_esc; auto.
Qed.

Lemma no_space_showp p s : no_space (showp p ++ s).
Proof. destruct (showp_cases p) as [(c & -> & Pc & _)|(c & _ & -> & _)]; cbn; [apply plain_not_space; auto|discriminate]. Qed.

Lemma no_space_shows ps s : no_space s -> no_space (shows ps ++ s).
Proof. destruct ps as [|p ps]; [auto|]. intros _. unfold RegexTree.shows. cbn [flat_map]. rewrite <- app_assoc. apply no_space_showp. Qed.

Lemma rep_shows ps s : no_space s -> rep (shows ps ++ s) = RegexTree.shows X ps ++ rep s.
Proof.
  intros Ns. induction ps as [|p ps IH]; [reflexivity|]. unfold RegexTree.shows in *. cbn [flat_map]. rewrite <- !app_assoc.
  rewrite rep_showp by (apply no_space_shows; auto). rewrite IH. reflexivity.
Qed.

Lemma rep_raw w s : ~ In 92 w -> rep (w ++ s) = w ++ rep s.
Proof.
  induction w as [|c w IH]; [reflexivity|]. intros N. cbn [app]. rewrite rep_char by (intros ->; apply N; left; reflexivity).
  rewrite IH; [reflexivity|]. intros I. apply N. right. exact I.
Qed.

Lemma no_space_show s r : no_space r -> no_space (show s ++ r).
Proof.
  intros Nr. destruct s as [ps t]. rewrite show_seq, <- app_assoc. apply no_space_shows. destruct t as [|alts q|ks q|p q]; try (cbn; discriminate); auto.
  change (showt (P p q)) with (showp p ++ quest q). rewrite <- app_assoc. apply no_space_showp.
Qed.

Lemma rep_quest q s : rep (quest q ++ s) = quest q ++ rep s.
Proof. apply rep_raw. destruct q; cbn; intuition discriminate. Qed.

Lemma rep_show s : forall r, no_space r -> rep (show s ++ r) = RegexTree.show X s ++ rep r.
Proof.
  induction s as [ps t IH] using seq_ind'. intros r Nr. rewrite !show_seq, <- !app_assoc.
  assert (Nq : forall q, no_space (quest q ++ r)) by (intros [|]; [discriminate|exact Nr]).
  destruct t as [|alts q|ks q|p q].
  - apply rep_shows. exact Nr.
  - rewrite rep_shows by discriminate. f_equal.
    change (showt (G alts q)) with ([40; 63; 58] ++ bars (map show alts) ++ [41] ++ quest q).
    change (RegexTree.showt X (G alts q)) with ([40; 63; 58] ++ bars (map (RegexTree.show X) alts) ++ [41] ++ quest q).
    rewrite <- !app_assoc. rewrite rep_raw by (cbn; intuition discriminate). f_equal.
    transitivity (bars (map (RegexTree.show X) alts) ++ rep ([41] ++ quest q ++ r)).
    2:{ f_equal. rewrite rep_raw by (cbn; intuition discriminate). rewrite rep_quest. reflexivity. }
    assert (N4 : no_space ([41] ++ quest q ++ r)) by discriminate. set (r' := [41] ++ quest q ++ r) in *. clearbody r'.
    assert (L : forall l, Forall (fun s => forall r, no_space r -> rep (show s ++ r) = RegexTree.show X s ++ rep r) l ->
      rep (flat_map (fun b => 124 :: b) (map show l) ++ r') = flat_map (fun b => 124 :: b) (map (RegexTree.show X) l) ++ rep r'
      /\ no_space (flat_map (fun b => 124 :: b) (map show l) ++ r')).
    { induction 1 as [|a l Ea _ [IHl N']]; [split; auto|]. cbn [map flat_map]. split; [|discriminate]. cbn [app]. rewrite <- app_assoc.
      rewrite rep_char by discriminate. rewrite Ea by exact N'. rewrite IHl, <- app_assoc. reflexivity. }
    destruct alts as [|a alts]; [reflexivity|]. inversion IH as [|? ? Ea IH']; subst. destruct (L alts IH') as [L1 L2]. cbn [map bars]. rewrite <- !app_assoc.
    rewrite Ea by exact L2. rewrite L1. reflexivity.
  - rewrite rep_shows by discriminate. f_equal.
    change (showt (K ks q)) with ([91] ++ shows ks ++ [93] ++ quest q). change (RegexTree.showt X (K ks q)) with ([91] ++ RegexTree.shows X ks ++ [93] ++ quest q).
    rewrite <- !app_assoc. rewrite rep_raw by (cbn; intuition discriminate). f_equal. rewrite rep_shows by discriminate. f_equal.
    rewrite rep_raw by (cbn; intuition discriminate). rewrite rep_quest. reflexivity.
  - change (showt (P p q)) with (showp p ++ quest q). change (RegexTree.showt X (P p q)) with (RegexTree.showp X p ++ quest q). rewrite <- !app_assoc.
    rewrite rep_shows by apply no_space_showp. f_equal. rewrite rep_showp by apply Nq. rewrite rep_quest. reflexivity.
Qed.

Lemma replace_show bd s : replace (w_ "\ ") X (opening bd ++ show s ++ closing bd) = opening bd ++ RegexTree.show X s ++ closing bd.
Proof.
  unfold replace. change (replace_from (w_ "\ ") X 0) with (replace_from [92; 32] X 0). destruct bd; cbn [opening closing].
  - change ([40; 63; 58; 92; 98] ++ show s ++ [92; 98; 41]) with ([40; 63; 58] ++ 92 :: 98 :: (show s ++ [92; 98; 41])).
    rewrite (rep_raw [40; 63; 58]) by (cbn; intuition discriminate). rewrite rep_esc; [|discriminate|apply no_space_show; discriminate].
    rewrite rep_show by (cbn; discriminate). reflexivity.
  - rewrite (rep_raw [40; 63; 58]) by (cbn; intuition discriminate). rewrite rep_show by (cbn; discriminate). reflexivity.
Qed.
End Spaces.

(** ** Reading *)
Section Reading.
Variables is_space is_word : N -> bool.
Variable fs : bool.
Notation X := (if fs then w_ "\s" else w_ " ").
Notation parse := (parse is_space).

(** The characters that a part of the tree stands for, outside and in a set. *)
Definition den (p : prim) : N -> bool :=
  match p with PChar c => if fs && (c =? 32) then is_space else N.eqb c | PDot => fun c => negb (c =? 10) end.
Definition den_set (p : prim) : N -> bool :=
  match p with PChar c => if fs && (c =? 32) then is_space else N.eqb c | PDot => N.eqb 46 end.

Lemma special_facts c : In c special -> letter_or_digit c = false.
Proof. intros Ic. unfold special in Ic. cbn in Ic. decompose [or] Ic; subst; try contradiction; reflexivity. Qed.

Lemma not_special c : existsb (N.eqb c) special = false -> forall d, In d special -> (c =? d) = false.
Proof.
  intros E d I. apply N.eqb_neq. intros ->. assert (Y : existsb (N.eqb d) special = true) by (apply existsb_exists; exists d; split; [auto|apply N.eqb_refl]). congruence.
Qed.

Lemma parse_showp p st al it can s : parse st al it can None (RegexTree.showp X p ++ s) = parse st al (Chr (den p) :: it) true None s.
Proof.
  destruct p as [c|]; [|reflexivity]. cbn [RegexTree.showp den]. destruct (N.eqb_spec c 32) as [->|Nc].
  - destruct fs; reflexivity.
  - rewrite andb_false_r. unfold esc. destruct (existsb (N.eqb c) special) eqn:E.
    + cbn [app RegexSpec.parse]. change (92 =? 40) with false. change (92 =? 41) with false. change (92 =? 124) with false. change (92 =? 63) with false.
      change (92 =? 43) with false. change (92 =? 91) with false. change (92 =? 46) with false. change (92 =? 92) with true. cbv iota.
      apply existsb_exists in E. destruct E as (x & I & Ex). apply N.eqb_eq in Ex. subst x. unfold escape. rewrite (special_facts c I).
      assert (E1 : (c =? 115) = false /\ (c =? 98) = false).
      { unfold special in I. cbn in I. decompose [or] I; subst; try contradiction; split; reflexivity. }
      destruct E1 as [-> ->]. reflexivity.
    + pose proof (not_special c E) as Ns. cbn [app RegexSpec.parse]. rewrite !Ns by (cbn; tauto). unfold unknown. cbn [existsb]. rewrite !Ns by (cbn; tauto). reflexivity.
Qed.

Lemma parse_set p st al it can ks s : parse st al it can (Some ks) (RegexTree.showp X p ++ s) = parse st al it can (Some (ks ++ [den_set p])) s.
Proof.
  destruct p as [c|]; [|reflexivity]. cbn [RegexTree.showp den_set]. destruct (N.eqb_spec c 32) as [->|Nc].
  - destruct fs; reflexivity.
  - rewrite andb_false_r. unfold esc. destruct (existsb (N.eqb c) special) eqn:E.
    + cbn [app RegexSpec.parse]. change (92 =? 93) with false. change (92 =? 92) with true. cbv iota.
      apply existsb_exists in E. destruct E as (x & I & Ex). apply N.eqb_eq in Ex. subst x. unfold set_escape. rewrite (special_facts c I).
      assert (E1 : (c =? 115) = false). { unfold special in I. cbn in I. decompose [or] I; subst; try contradiction; reflexivity. }
      rewrite E1. reflexivity.
    + pose proof (not_special c E) as Ns. cbn [app RegexSpec.parse]. rewrite !Ns by (cbn; tauto). unfold unknown_in_set. cbn [existsb]. rewrite !Ns by (cbn; tauto). reflexivity.
Qed.

Definition maybe (q : bool) (r : rx) : rx := if q then Opt r else r.
Definition set_rx (ks : list prim) : rx := Chr (fun x => existsb (fun p => p x) (map den_set ks)).

Fixpoint rxs (s : seq) : list rx :=
  match s with
  | Seq ps t => map (fun p => Chr (den p)) ps ++
      match t with
      | Nil => []
      | G alts q => [maybe q (alternate (map (fun a => cat (rxs a)) alts))]
      | K ks q => [maybe q (set_rx ks)]
      | P p q => [maybe q (Chr (den p))]
      end
  end.

Lemma parse_shows ps st al it can s : exists can', parse st al it can None (RegexTree.shows X ps ++ s) = parse st al (rev (map (fun p => Chr (den p)) ps) ++ it) can' None s.
Proof.
  revert it can. induction ps as [|p ps IH]; intros it can; [exists can; reflexivity|]. unfold RegexTree.shows. cbn [flat_map]. rewrite <- app_assoc, parse_showp.
  destruct (IH (Chr (den p) :: it) true) as [can' E]. exists can'. unfold RegexTree.shows in E. rewrite E. cbn [map rev]. rewrite <- app_assoc. reflexivity.
Qed.

Lemma parse_quest q st al r it s : exists can', parse st al (r :: it) true None (quest q ++ s) = parse st al (maybe q r :: it) can' None s.
Proof. destruct q; [exists false|exists true]; reflexivity. Qed.

Lemma parse_set_all ks st al it can ks0 s : ks0 ++ ks <> [] ->
  parse st al it can (Some (map den_set ks0)) (RegexTree.shows X ks ++ [93] ++ s) = parse st al (set_rx (ks0 ++ ks) :: it) true None s.
Proof.
  revert ks0. induction ks as [|k ks IH]; intros ks0 N.
  - rewrite app_nil_r in *. cbn [RegexTree.shows flat_map app RegexSpec.parse]. change (93 =? 93) with true. cbv iota.
    destruct ks0 as [|k0 ks0]; [congruence|]. reflexivity.
  - unfold RegexTree.shows. cbn [flat_map]. rewrite <- app_assoc, parse_set.
    replace (map den_set ks0 ++ [den_set k]) with (map den_set (ks0 ++ [k])) by apply map_app.
    unfold RegexTree.shows in IH. rewrite IH; [|intros E; apply app_eq_nil in E; destruct E as [E _]; apply app_eq_nil in E; destruct E; discriminate].
    rewrite <- app_assoc. reflexivity.
Qed.

Lemma parse_show s : ok s -> forall st al it can r, exists can', parse st al it can None (RegexTree.show X s ++ r) = parse st al (rev (rxs s) ++ it) can' None r.
Proof.
  induction s as [ps t IH] using seq_ind'. intros O st al it can r. rewrite show_seq, <- app_assoc. cbn [rxs].
  destruct (parse_shows ps st al it can (RegexTree.showt X t ++ r)) as [can1 ->]. rewrite rev_app_distr, <- app_assoc.
  set (it1 := rev (map (fun p => Chr (den p)) ps) ++ it). clearbody it1.
  inversion O as [?|? ks q Nk|? p q|? alts q Na Fa]; subst.
  - exists can1. reflexivity.
  - change (RegexTree.showt X (K ks q)) with ([91] ++ RegexTree.shows X ks ++ [93] ++ quest q). rewrite <- !app_assoc.
    change (parse st al it1 can1 None ([91] ++ RegexTree.shows X ks ++ [93] ++ quest q ++ r)) with (parse st al it1 false (Some (map den_set [])) (RegexTree.shows X ks ++ [93] ++ quest q ++ r)).
    rewrite parse_set_all by exact Nk. apply parse_quest.
  - change (RegexTree.showt X (P p q)) with (RegexTree.showp X p ++ quest q). rewrite <- !app_assoc. rewrite parse_showp. apply parse_quest.
  - change (RegexTree.showt X (G alts q)) with ([40; 63; 58] ++ bars (map (RegexTree.show X) alts) ++ [41] ++ quest q). rewrite <- !app_assoc.
    change (parse st al it1 can1 None ([40; 63; 58] ++ bars (map (RegexTree.show X) alts) ++ [41] ++ quest q ++ r))
      with (parse ((al, it1) :: st) [] [] false None (bars (map (RegexTree.show X) alts) ++ [41] ++ quest q ++ r)).
    assert (L : forall l, Forall (fun s => ok s -> forall st al it can r, exists can', parse st al it can None (RegexTree.show X s ++ r) = parse st al (rev (rxs s) ++ it) can' None r) l ->
       Forall ok l -> forall st' al' it' can', exists can'',
       parse st' al' it' can' None (flat_map (fun b => 124 :: b) (map (RegexTree.show X) l) ++ [41] ++ quest q ++ r) =
       match l with
       | [] => parse st' al' it' can'' None ([41] ++ quest q ++ r)
       | _ => parse st' (rev (map (fun a => cat (rxs a)) (removelast l)) ++ cat (rev it') :: al') (rev (rxs (last l (Seq [] Nil)))) can'' None ([41] ++ quest q ++ r)
       end).
    { induction l as [|a l IHl]; intros F1 F2 st' al' it' can'; [exists can'; reflexivity|]. cbn [map flat_map app]. rewrite <- app_assoc.
      inversion F1 as [|? ? Ea F1']; subst. inversion F2 as [|? ? Oa F2']; subst.
      match goal with |- context [parse st' al' it' can' None (124 :: ?z)] => change (parse st' al' it' can' None (124 :: z)) with (parse st' (cat (rev it') :: al') [] false None z) end.
      destruct (Ea Oa st' (cat (rev it') :: al') [] false (flat_map (fun b => 124 :: b) (map (RegexTree.show X) l) ++ [41] ++ quest q ++ r)) as [c1 E1].
      cbn [app] in E1. rewrite E1. rewrite app_nil_r.
      destruct (IHl F1' F2' st' (cat (rev it') :: al') (rev (rxs a)) c1) as [c2 E2]. cbn [app] in E2. rewrite E2. destruct l as [|a2 l].
      - exists c2. reflexivity.
      - exists c2. cbn [removelast last map]. rewrite rev_involutive. cbn [rev]. rewrite <- app_assoc. reflexivity. }
    destruct alts as [|a alts]; [congruence|]. inversion IH as [|? ? Ea IH']; subst. inversion Fa as [|? ? [Hh Oa] Fa']; subst.
    assert (Fo : Forall ok alts) by (eapply Forall_impl; [|exact Fa']; cbn; tauto).
    cbn [map bars]. rewrite <- app_assoc.
    destruct (Ea Oa ((al, it1) :: st) [] [] false (flat_map (fun b => 124 :: b) (map (RegexTree.show X) alts) ++ [41] ++ quest q ++ r)) as [c1 E1].
    rewrite E1, app_nil_r. destruct (L alts IH' Fo ((al, it1) :: st) [] (rev (rxs a)) c1) as [c2 E2]. rewrite E2.
    assert (Cl : forall al' it' c, parse ((al, it1) :: st) al' it' c None ([41] ++ quest q ++ r) = parse st al (close al' it' :: it1) true None (quest q ++ r)) by reflexivity.
    assert (Goal0 : forall x, x = alternate (map (fun a => cat (rxs a)) (a :: alts)) -> exists can', parse st al (x :: it1) true None (quest q ++ r) = parse st al (rev [maybe q (alternate (cat (rxs a) :: map (fun a => cat (rxs a)) alts))] ++ it1) can' None r).
    { intros x ->. apply parse_quest. }
    destruct alts as [|a2 alts].
    + rewrite Cl. apply Goal0. unfold close. cbn [rev app map]. rewrite rev_involutive. reflexivity.
    + rewrite Cl. apply Goal0. unfold close. rewrite !rev_involutive. cbn [rev]. rewrite rev_app_distr, rev_involutive. cbn [rev app].
      cbn [map]. f_equal. f_equal.
      change (cat (rxs a2) :: map (fun a => cat (rxs a)) alts) with (map (fun a => cat (rxs a)) (a2 :: alts)).
      rewrite (app_removelast_last (Seq [] Nil) (l := a2 :: alts)) at 3 by discriminate. rewrite map_app. reflexivity.
Qed.

Definition whole (bd : bool) (s : seq) : rx :=
  Cat (cat (if bd then Edge :: rxs s ++ [Edge] else rxs s)) Empty.

Lemma compile_show bd s : ok s -> compile is_space (opening bd ++ RegexTree.show X s ++ closing bd) = Some (whole bd s).
Proof.
  intros O. unfold compile. destruct bd; cbn [opening closing whole].
  - change (parse [] [] [] false None ([40; 63; 58; 92; 98] ++ RegexTree.show X s ++ [92; 98; 41])) with (parse [([], [])] [] [Edge] false None (RegexTree.show X s ++ [92; 98; 41])).
    destruct (parse_show s O [([], [])] [] [Edge] false [92; 98; 41]) as [c ->].
    change (parse [([], [])] [] (rev (rxs s) ++ [Edge]) c None [92; 98; 41]) with (Some (close [] [close [] (Edge :: rev (rxs s) ++ [Edge])])).
    unfold close. cbn [rev app alternate cat fold_right]. rewrite rev_app_distr, rev_involutive. reflexivity.
  - change (parse [] [] [] false None ([40; 63; 58] ++ RegexTree.show X s ++ [41])) with (parse [([], [])] [] [] false None (RegexTree.show X s ++ [41])).
    destruct (parse_show s O [([], [])] [] [] false [41]) as [c ->].
    change (parse [([], [])] [] (rev (rxs s) ++ []) c None [41]) with (Some (close [] [close [] (rev (rxs s) ++ [])])).
    unfold close. rewrite app_nil_r. cbn [rev app alternate cat fold_right]. rewrite rev_involutive. reflexivity.
Qed.
End Reading.
