(** The rewriting rules of [to_regex], as changes of the tree. *)
From Coq Require Import ZArith NArith List Bool String Lia.
From Verif Require Import Py PyDict Ex.
From Verif Require Import RegexSpec RegexModel RegexTree.
Import ListNotations.
Open Scope string_scope.
Open Scope list_scope.
Open Scope N_scope.

Definition heads (s : seq) : list prim := let (ps, _) := s in ps.

Inductive ok : seq -> Prop :=
| ok_nil ps : ok (Seq ps Nil)
| ok_K ps ks q : ks <> [] -> ok (Seq ps (K ks q))
| ok_P ps p q : ok (Seq ps (P p q))
| ok_G ps alts q : alts <> [] -> Forall (fun a => heads a <> [] /\ ok a) alts -> ok (Seq ps (G alts q)).

Definition is_nl (p : prim) : bool := match p with PChar c => c =? 10 | PDot => false end.
Definition is_bs (p : prim) : bool := match p with PChar c => c =? 92 | PDot => false end.
Definition after_bs (b : str) : bool := match b with x :: _ => x =? 92 | [] => false end.
Definition ends_bs (ps : list prim) : bool := match rev ps with p :: _ => is_bs p | [] => false end.

Notation showp := (showp (w_ "\ ")).
Notation shows := (shows (w_ "\ ")).
Notation show := (show (w_ "\ ")).
Notation showt := (showt (w_ "\ ")).

Definition plain (c : N) : Prop := existsb (N.eqb c) special = false \/ c = 46.

Lemma showp_cases p : (exists c, showp p = [c] /\ plain c /\ c <> 92 /\ is_nl p = false /\ is_bs p = false)
  \/ (exists c, p = PChar c /\ showp p = [92; c] /\ In c special).
Proof.
  destruct p as [c|].
  - rewrite showp_esc. unfold esc. destruct (existsb (N.eqb c) special) eqn:E.
    + right. exists c. split; auto. split; auto. apply existsb_exists in E. destruct E as (x & I & Ex). apply N.eqb_eq in Ex. subst x. exact I.
    + left. exists c. split; auto. split; [left; auto|]. cbn [is_nl is_bs].
      assert (X : forall d, In d special -> (c =? d) = false).
      { intros d I. apply N.eqb_neq. intros ->. assert (Y : existsb (N.eqb d) special = true) by (apply existsb_exists; exists d; split; [auto|apply N.eqb_refl]). congruence. }
      split; [apply N.eqb_neq, X; cbn; tauto|]. split; apply X; cbn; tauto.
  - left. exists 46. cbn. repeat split; try discriminate. right; reflexivity.
Qed.

(** What a character of a key never starts with. *)
Definition syntax (c : N) : Prop := In c [40; 41; 63; 91; 93; 124].

Lemma plain_not_syntax c : plain c -> ~ syntax c.
Proof.
  intros P Sy. assert (X : existsb (N.eqb c) special = true /\ c <> 46).
  { unfold syntax in Sy. cbn [In] in Sy. decompose [or] Sy; subst; try contradiction; split; (reflexivity || discriminate). }
  destruct P as [P| ->]; [destruct X; congruence|destruct X; congruence].
Qed.

Lemma showp_head p : exists c r, showp p = c :: r /\ ~ syntax c.
Proof.
  destruct (showp_cases p) as [(c & -> & Pc & _)|(c & _ & -> & _)].
  - exists c, []. split; auto. apply plain_not_syntax; auto.
  - exists 92, [c]. split; auto. unfold syntax. cbn. intuition discriminate.
Qed.

Lemma showp_last p : exists c r, rev (showp p) = c :: r /\ (c =? 92) = is_bs p.
Proof.
  destruct (showp_cases p) as [(c & -> & _ & N & _ & B)|(c & -> & -> & _)].
  - exists c, []. split; auto. rewrite B. apply N.eqb_neq; auto.
  - exists c, [92]. split; reflexivity.
Qed.

Lemma after_bs_shows ps b : (ps = [] -> after_bs b = false) -> after_bs (rev (shows ps) ++ b) = ends_bs ps.
Proof.
  intros E. unfold ends_bs. destruct ps as [|p ps] using rev_ind; [exact (E eq_refl)|]. rewrite rev_app_distr. cbn [rev app].
  unfold RegexTree.shows. rewrite flat_map_app, rev_app_distr. cbn [flat_map]. rewrite app_nil_r.
  destruct (showp_last p) as (c & r & -> & Ec). cbn [app after_bs]. exact Ec.
Qed.

(** ** Matching *)
Section Matching.
Variable is_word : N -> bool.
Notation ways := (ways is_word).
Notation first_match := (first_match is_word).
Notation re_sub_from := (re_sub_from is_word).

Lemma ways_lit l b s : ways (cat (map (fun c => Chr (N.eqb c)) l)) (b, s) = if starts l s then [(rev l ++ b, skipn (List.length l) s)] else [].
Proof.
  revert b s. induction l as [|c l IH]; intros b s; [reflexivity|]. cbn [map cat fold_right RegexSpec.ways starts snd fst].
  destruct s as [|d s]; [reflexivity|]. destruct (c =? d) eqn:E; [|reflexivity]. cbn [flat_map andb]. rewrite app_nil_r.
  change (fold_right Cat Empty (map (fun c => Chr (N.eqb c)) l)) with (cat (map (fun c => Chr (N.eqb c)) l)). rewrite IH.
  destruct (starts l s); [|reflexivity]. cbn [rev List.length skipn]. apply N.eqb_eq in E. subst d. rewrite <- app_assoc. reflexivity.
Qed.

Lemma ways_after l b s : ways (Cat (NotAfter 92) (cat (map (fun c => Chr (N.eqb c)) l))) (b, s)
  = if after_bs b then [] else if starts l s then [(rev l ++ b, skipn (List.length l) s)] else [].
Proof.
  change (ways (Cat (NotAfter 92) (cat (map (fun c => Chr (N.eqb c)) l))) (b, s)) with
    (flat_map (ways (cat (map (fun c => Chr (N.eqb c)) l))) (ways (NotAfter 92) (b, s))).
  destruct b as [|x b]; cbn [RegexSpec.ways fst after_bs].
  - cbn [flat_map]. rewrite app_nil_r. apply ways_lit.
  - destruct (x =? 92); [reflexivity|]. cbn [flat_map]. rewrite app_nil_r. apply ways_lit.
Qed.

Lemma ways_C p b s : ways C (b, showp p ++ s) = if is_nl p then [] else [(rev (showp p) ++ b, s)].
Proof.
  destruct (showp_cases p) as [(c & -> & _ & N & -> & _)|(c & -> & -> & I)].
  - cbn [app]. assert (E1 : (92 =? c) = false) by (apply N.eqb_neq; congruence). assert (E2 : (c =? 92) = false) by (apply N.eqb_neq; congruence).
    unfold C. cbn [RegexSpec.ways]. change (lit "\") with (Cat (Chr (N.eqb 92)) Empty). cbn [RegexSpec.ways snd]. rewrite E1. cbn [flat_map app].
    unfold none_of. cbn [RegexSpec.ways snd fst]. change (w_ "\") with [92]. cbn [existsb]. rewrite E2. reflexivity.
  - unfold special in I. cbn in I. decompose [or] I; subst; try contradiction; reflexivity.
Qed.

Lemma iterate_fuel step (z : place) n m : (List.length (snd z) < n)%nat -> (List.length (snd z) < m)%nat -> iterate step n z = iterate step m z.
Proof.
  unfold place, str in *. revert z m. induction n as [|n IH]; intros z m Hn Hm; [lia|]. destruct m as [|m]; [lia|]. cbn [iterate]. unfold place, str in *.
  apply flat_map_ext. intros z'. destruct (List.length (snd z') <? List.length (snd z))%nat eqn:E; [|reflexivity].
  apply Nat.ltb_lt in E. rewrite (IH z' m) by lia. reflexivity.
Qed.

Lemma star_stop r (z : place) : ways r z = [] -> ways (star r) z = [z].
Proof. intros E. unfold star. cbn [RegexSpec.ways iterate]. rewrite E. reflexivity. Qed.

Lemma star_step r (z z1 : place) : ways r z = [z1] -> (List.length (snd z1) < List.length (snd z))%nat -> ways (star r) z = ways (star r) z1 ++ [z].
Proof.
  intros E L. unfold star. cbn [RegexSpec.ways].
  assert (X : iterate (ways r) (S (List.length (snd z))) z = iterate (ways r) (S (List.length (snd z1))) z1 ++ [z1]).
  { change (iterate (ways r) (S (List.length (snd z))) z) with
      (flat_map (fun z' : place => (if (List.length (snd z') <? List.length (snd z))%nat then iterate (ways r) (List.length (snd z)) z' else []) ++ [z']) (ways r z)).
    rewrite E. cbn [flat_map]. apply Nat.ltb_lt in L as L'. rewrite L', app_nil_r. f_equal. apply iterate_fuel; lia. }
  rewrite X. reflexivity.
Qed.

(** ** One step of [re.sub] *)
Variable pt : pattern.
Variable repl : str -> result str.

Lemma sub_none b c s : first_match pt (b, c :: s) = None ->
  re_sub_from pt repl 0 b (c :: s) = (rest <- re_sub_from pt repl 0 (c :: b) s ;; Ok (c :: rest)).
Proof. intros E. cbn [RegexModel.re_sub_from]. unfold place, str in *. rewrite E. reflexivity. Qed.

Lemma sub_skip w b s : re_sub_from pt repl (List.length w) b (w ++ s) = re_sub_from pt repl 0 (rev w ++ b) s.
Proof.
  revert b. induction w as [|c w IH]; intros b; [reflexivity|]. cbn [List.length app RegexModel.re_sub_from rev]. rewrite IH, <- app_assoc. reflexivity.
Qed.

Lemma sub_hit w b s g r : w <> [] -> first_match pt (b, w ++ s) = Some (g, List.length w) -> repl g = Ok r ->
  re_sub_from pt repl 0 b (w ++ s) = (rest <- re_sub_from pt repl 0 (rev w ++ b) s ;; Ok (r ++ rest)).
Proof.
  intros N E Er. destruct w as [|c w]; [congruence|]. cbn [app RegexModel.re_sub_from] in *. unfold place, str in *. rewrite E, Er. cbn [bind List.length].
  replace (S (List.length w) - 1)%nat with (List.length w) by lia. rewrite sub_skip. cbn [rev]. rewrite <- app_assoc. reflexivity.
Qed.

(** Passing over a piece of text that is replaced by [v]. *)
Definition turns (w v : str) (b s : str) : Prop :=
  re_sub_from pt repl 0 b (w ++ s) = (rest <- re_sub_from pt repl 0 (rev w ++ b) s ;; Ok (v ++ rest)).

Lemma turns_nil b s : turns [] [] b s.
Proof. unfold turns. cbn [app rev]. destruct (re_sub_from pt repl 0 b s); reflexivity. Qed.

Lemma turns_app w1 v1 w2 v2 b s : turns w1 v1 b (w2 ++ s) -> turns w2 v2 (rev w1 ++ b) s -> turns (w1 ++ w2) (v1 ++ v2) b s.
Proof.
  unfold turns. intros E1 E2. rewrite <- app_assoc, E1, E2, rev_app_distr, <- app_assoc.
  destruct (re_sub_from pt repl 0 (rev w2 ++ rev w1 ++ b) s); cbn [bind]; rewrite <- ?app_assoc; reflexivity.
Qed.

Lemma turns_char c b s : first_match pt (b, c :: s) = None -> turns [c] [c] b s.
Proof. intros E. unfold turns. cbn [app rev]. apply sub_none. exact E. Qed.

(** ** Over the whole tree *)
Definition hit : Type := option (bool -> tail).
Variable hitG : list prim -> list seq -> hit.
Variable hitK : list prim -> list prim -> hit.

Definition bar_all (alts : list seq) : str := bars (map show alts).

(** The rest of a text after a character: not [?:]. *)
Definition follows (s : str) : Prop := starts [63; 58] s = false.
Definition after_seq (s : str) : Prop := match s with [] => True | c :: _ => c = 124 \/ c = 41 end.

Hypothesis Hskip : forall b c s, c <> 40 -> c <> 91 -> first_match pt (b, c :: s) = None.
Hypothesis Hesc : forall b c s, follows s -> first_match pt (92 :: b, c :: s) = None.
Hypothesis HG : forall ps alts b s, ok (Seq ps (G alts false)) -> after_bs b = ends_bs ps ->
  let w := [40; 63; 58] ++ bar_all alts ++ [41] in
  match hitG ps alts with
  | Some f => exists g, first_match pt (b, w ++ s) = Some (g, List.length w) /\ exists r, repl g = Ok r /\ forall q, showt (f q) = r ++ quest q
  | None => first_match pt (b, w ++ s) = None
  end.
Hypothesis HK : forall ps ks b s, ks <> [] -> after_bs b = ends_bs ps ->
  let w := [91] ++ shows ks ++ [93] in
  match hitK ps ks with
  | Some f => exists g, first_match pt (b, w ++ s) = Some (g, List.length w) /\ exists r, repl g = Ok r /\ forall q, showt (f q) = r ++ quest q
  | None => first_match pt (b, w ++ s) = None
  end.

Fixpoint pass (s : seq) : seq :=
  match s with
  | Seq ps t => Seq ps
      match t with
      | G alts q => match hitG ps alts with Some f => f q | None => G (map pass alts) q end
      | K ks q => match hitK ps ks with Some f => f q | None => K ks q end
      | _ => t
      end
  end.

Lemma follows_cons c s : c <> 63 -> follows (c :: s).
Proof. intros N. unfold follows. cbn [starts]. destruct (63 =? c) eqn:E; [apply N.eqb_eq in E; congruence|reflexivity]. Qed.

Lemma follows_showp p s : follows (showp p ++ s).
Proof. destruct (showp_head p) as (c & r & -> & N). apply follows_cons. intros ->. apply N. cbn. tauto. Qed.

Lemma after_follows s : after_seq s -> follows s.
Proof. destruct s as [|c s]; [reflexivity|]. cbn. intros [->| ->]; apply follows_cons; discriminate. Qed.

Lemma follows_shows ps s : follows s -> follows (shows ps ++ s).
Proof. destruct ps as [|p ps]; [auto|]. intros _. unfold RegexTree.shows. cbn [flat_map]. rewrite <- app_assoc. apply follows_showp. Qed.

Lemma turns_showp p b s : follows s -> turns (showp p) (showp p) b s.
Proof.
  intros F. destruct (showp_cases p) as [(c & -> & Pc & _)|(c & _ & -> & _)].
  - apply turns_char. apply plain_not_syntax in Pc. apply Hskip; intros ->; apply Pc; cbn; tauto.
  - change [92; c] with ([92] ++ [c]) at 1 2. apply turns_app; apply turns_char; [apply Hskip; discriminate|]. apply Hesc. exact F.
Qed.

Lemma turns_shows ps b s : follows s -> turns (shows ps) (shows ps) b s.
Proof.
  intros F. revert b. induction ps as [|p ps IH]; intros b; [apply turns_nil|]. unfold RegexTree.shows. cbn [flat_map].
  apply turns_app; [|apply IH]. apply turns_showp. apply follows_shows. exact F.
Qed.

Lemma turns_raw w b s : ~ In 40 w -> ~ In 91 w -> turns w w b s.
Proof.
  revert b. induction w as [|c w IH]; intros b N1 N2; [apply turns_nil|]. change (c :: w) with ([c] ++ w). apply turns_app.
  - apply turns_char. apply Hskip; intros ->; [apply N1|apply N2]; left; reflexivity.
  - apply IH; intros I; [apply N1|apply N2]; right; exact I.
Qed.

Lemma turns_quest q b s : turns (quest q) (quest q) b s.
Proof. apply turns_raw; destruct q; cbn; intuition discriminate. Qed.

Lemma turns_hit w v b s g : w <> [] -> first_match pt (b, w ++ s) = Some (g, List.length w) -> repl g = Ok v -> turns w v b s.
Proof. intros. unfold turns. eapply sub_hit; eauto. Qed.

Lemma turns_open b s : first_match pt (b, 40 :: 63 :: 58 :: s) = None -> turns [40; 63; 58] [40; 63; 58] b s.
Proof.
  intros E. change [40; 63; 58] with ([40] ++ [63; 58]) at 1 2. apply turns_app; [apply turns_char; exact E|].
  apply turns_raw; cbn; intuition discriminate.
Qed.

Lemma pass_turns s : ok s -> forall b rest, after_seq rest -> (heads s = [] -> after_bs b = false) -> turns (show s) (show (pass s)) b rest.
Proof.
  induction s as [ps t IH] using seq_ind'. intros O b rest A Eb. cbn [heads] in Eb. cbn [pass]. rewrite !show_seq.
  apply turns_app.
  { apply turns_shows. destruct t as [|alts q|ks q|p q].
    - cbn. apply after_follows. exact A.
    - apply follows_cons. discriminate.
    - apply follows_cons. discriminate.
    - unfold RegexTree.showt. cbn [RegexTree.show RegexTree.shows flat_map app]. rewrite <- app_assoc. apply follows_showp. }
  pose proof (after_bs_shows ps b Eb) as Ab. set (b' := rev (shows ps) ++ b) in *. clearbody b'. clear Eb b.
  destruct t as [|alts q|ks q|p q].
  - apply turns_nil.
  - specialize (fun s => HG ps alts b' s).
    assert (O' : ok (Seq ps (G alts false))) by (inversion O; subst; constructor; auto).
    assert (Es : showt (G alts q) = ([40; 63; 58] ++ bar_all alts ++ [41]) ++ quest q).
    { change (showt (G alts q)) with ([40; 63; 58] ++ bar_all alts ++ [41] ++ quest q). rewrite <- !app_assoc. reflexivity. }
    destruct (hitG ps alts) as [f|] eqn:Eh.
    + destruct (HG (quest q ++ rest) O' Ab) as (g & Em & r & Er & Ef). cbv zeta in *. rewrite Eh in Em || idtac.
      rewrite Es, Ef. apply turns_app; [|apply turns_quest]. eapply turns_hit; [discriminate|exact Em|exact Er].
    + specialize (HG (quest q ++ rest) O' Ab). cbv zeta in HG.
      assert (Es' : showt (G (map pass alts) q) = [40; 63; 58] ++ bars (map show (map pass alts)) ++ [41] ++ quest q) by reflexivity.
      rewrite Es', Es, <- !app_assoc. apply turns_app; [apply turns_open|].
      { rewrite <- !app_assoc in HG. rewrite <- !app_assoc. exact HG. }
      inversion O as [| | |ps' alts' q' Na Fa]; subst. set (b2 := rev [40; 63; 58] ++ b'). clearbody b2.
      apply turns_app.
      * (* the alternatives *)
        assert (R : forall b s, turns [41] [41] b s) by (intros; apply turns_raw; cbn; intuition discriminate).
        unfold bar_all. destruct alts as [|a alts]; [congruence|]. cbn [map bars].
        assert (L : forall l, Forall (fun a => heads a <> [] /\ ok a) l -> Forall (fun s => ok s -> forall b rest, after_seq rest -> (heads s = [] -> after_bs b = false) -> turns (show s) (show (pass s)) b rest) l ->
          forall b s, after_seq s -> turns (flat_map (fun b => 124 :: b) (map show l)) (flat_map (fun b => 124 :: b) (map show (map pass l))) b s).
        { induction l as [|a' l IHl]; intros F1 F2 b s As; [apply turns_nil|]. cbn [map flat_map].
          change (124 :: show a') with ([124] ++ show a'). change (124 :: show (pass a')) with ([124] ++ show (pass a')).
          inversion F1 as [|? ? [Nh Oa] F1']; subst. inversion F2 as [|? ? Ta F2']; subst. rewrite <- !app_assoc.
          apply turns_app; [apply turns_raw; cbn; intuition discriminate|]. apply turns_app; [|apply IHl; auto].
          apply Ta; [auto| |congruence]. destruct l as [|a2 l]; [exact As|]. cbn. left; reflexivity. }
        inversion Fa as [|? ? [Nh Oa] Fa']; subst. inversion IH as [|? ? Ta IH']; subst.
        apply turns_app; [|apply L; auto; cbn; auto]. apply Ta; [auto| |congruence]. destruct alts; cbn; auto.
      * apply turns_app; [apply turns_raw; cbn; intuition discriminate|apply turns_quest].
  - inversion O as [|ps' ks' q' Nk| |]; subst.
    assert (Es : showt (K ks q) = ([91] ++ shows ks ++ [93]) ++ quest q).
    { change (showt (K ks q)) with ([91] ++ shows ks ++ [93] ++ quest q). rewrite <- !app_assoc. reflexivity. }
    specialize (HK ps ks b' (quest q ++ rest) Nk Ab). cbv zeta in HK. destruct (hitK ps ks) as [f|].
    + destruct HK as (g & Em & r & Er & Ef). rewrite Es, Ef. apply turns_app; [|apply turns_quest]. eapply turns_hit; [discriminate|exact Em|exact Er].
    + rewrite Es, <- !app_assoc. apply turns_app; [apply turns_char; rewrite <- !app_assoc in HK; rewrite <- !app_assoc; exact HK|].
      apply turns_app; [apply turns_shows; apply follows_cons; discriminate|].
      apply turns_app; [apply turns_raw; cbn; intuition discriminate|apply turns_quest].
  - unfold RegexTree.showt. cbn [RegexTree.show RegexTree.shows flat_map app]. apply turns_app; [|apply turns_quest].
    apply turns_showp. destruct q; [|apply after_follows; exact A]. unfold follows. cbn [quest app starts]. 
    destruct rest as [|c rest]; [reflexivity|]. destruct A as [->| ->]; reflexivity.
Qed.

Lemma pass_ok s : (forall ps alts f q, hitG ps alts = Some f -> ok (Seq ps (G alts q)) -> ok (Seq ps (f q))) ->
  (forall ps ks f q, hitK ps ks = Some f -> ok (Seq ps (K ks q)) -> ok (Seq ps (f q))) -> ok s -> ok (pass s).
Proof.
  intros H1 H2. induction s as [ps t IH] using seq_ind'. intros O. cbn [pass]. destruct t as [|alts q|ks q|p q]; auto.
  - destruct (hitG ps alts) as [f|] eqn:E; [eauto|]. inversion O as [| | |ps' alts' q' Na Fa]; subst. constructor.
    + destruct alts; [congruence|discriminate].
    + apply Forall_map. clear E O H1 H2 Na. induction alts as [|a l IHl]; [constructor|]. inversion Fa as [|? ? [Nh Oa] Fa']; subst. inversion IH; subst.
      constructor; auto. split; auto. destruct a. exact Nh.
  - destruct (hitK ps ks) as [f|] eqn:E; eauto.
Qed.

Lemma pass_re_sub s : ok s -> re_sub is_word pt repl (show s) = Ok (show (pass s)).
Proof.
  intros O. pose proof (pass_turns s O [] [] I (fun _ => eq_refl)) as T. unfold turns in T. rewrite !app_nil_r in T.
  unfold re_sub. rewrite T. cbn. rewrite app_nil_r. reflexivity.
Qed.
End Matching.
