(** The five rules, one by one. *)
From Coq Require Import ZArith NArith List Bool String Lia.
From Verif Require Import Py PyDict Ex.
From Verif Require Import RegexSpec RegexModel RegexTree RegexPasses.
Import ListNotations.
Open Scope string_scope.
Open Scope list_scope.
Open Scope N_scope.


Definition simple (a : seq) : option prim :=
  match a with Seq [p] Nil => if is_nl p then None else Some p | _ => None end.
Fixpoint simples (alts : list seq) : option (list prim) :=
  match alts with
  | [] => Some []
  | a :: l => match simple a, simples l with Some p, Some ps => Some (p :: ps) | _, _ => None end
  end.

Lemma simple_show a p : simple a = Some p -> a = Seq [p] Nil /\ show a = showp p /\ is_nl p = false.
Proof.
  destruct a as [[|p' [|p2 ps]] [| | |]]; cbn [simple]; try discriminate. destruct (is_nl p') eqn:E; [discriminate|]. intros [= <-].
  split; auto. split; auto. rewrite show_seq. unfold RegexTree.shows. cbn [flat_map]. rewrite app_nil_r. apply app_nil_r.
Qed.

Lemma simples_show l ks : simples l = Some ks -> map show l = map showp ks /\ l = map (fun p => Seq [p] Nil) ks /\ Forall (fun p => is_nl p = false) ks.
Proof.
  revert ks. induction l as [|a l IH]; intros ks; cbn [simples]; [intros [= <-]; repeat split; constructor|].
  destruct (simple a) as [p|] eqn:Ea; [|discriminate]. destruct (simples l) as [ps|] eqn:El; [|discriminate]. intros [= <-].
  destruct (IH _ eq_refl) as (E1 & E2 & F). destruct (simple_show a p Ea) as (E3 & E4 & E5). cbn [map]. rewrite E1, <- E2, E4, <- E3. repeat split; auto.
Qed.

Section Rules.
Variable is_word : N -> bool.
Notation ways := (ways is_word).
Notation first_match := (first_match is_word).
Notation bar := (Cat (lit "|") C).

Lemma lit_eq s : lit s = cat (map (fun c => Chr (N.eqb c)) (w_ s)).
Proof. reflexivity. Qed.

Lemma ways_bar p b s : ways bar (b, 124 :: showp p ++ s) = if is_nl p then [] else [(rev (showp p) ++ 124 :: b, s)].
Proof.
  change (ways bar (b, 124 :: showp p ++ s)) with (flat_map (ways C) (ways (lit "|") (b, 124 :: showp p ++ s))).
  rewrite lit_eq, ways_lit. change (w_ "|") with [124]. change (starts [124] (124 :: showp p ++ s)) with true. cbv iota.
  cbn [rev List.length skipn]. change ([] ++ [124]) with [124]. cbn [app]. 
  change (flat_map (ways C) [(124 :: b, showp p ++ s)]) with (ways C (124 :: b, showp p ++ s) ++ []). rewrite app_nil_r. apply ways_C.
Qed.

Lemma ways_bar_none b c s : c <> 124 -> ways bar (b, c :: s) = [].
Proof.
  intros N. change (ways bar (b, c :: s)) with (flat_map (ways C) (ways (lit "|") (b, c :: s))).
  rewrite lit_eq, ways_lit. change (w_ "|") with [124]. cbn [starts]. destruct (124 =? c) eqn:E; [apply N.eqb_eq in E; congruence|reflexivity].
Qed.

(** What comes after the first character of an alternative that is not simple. *)
Lemma not_simple p ps t rest : simple (Seq (p :: ps) t) = None -> is_nl p = false ->
  exists c s, shows ps ++ showt t ++ rest = c :: s /\ c <> 124 /\ c <> 41 /\ c <> 93.
Proof.
  intros E N. assert (X : forall (p' : prim) s, exists c s', showp p' ++ s = c :: s' /\ c <> 124 /\ c <> 41 /\ c <> 93).
  { intros p' s. destruct (showp_head p') as (c & r & -> & Nc). exists c. eexists. split; [reflexivity|].
    repeat split; intros ->; apply Nc; cbn; tauto. }
  destruct ps as [|p2 ps].
  - destruct t as [|alts q|ks q|p' q]; [cbn [simple] in E; rewrite N in E; discriminate|..].
    + eexists _, _. split; [reflexivity|]. repeat split; discriminate.
    + eexists _, _. split; [reflexivity|]. repeat split; discriminate.
    + unfold RegexTree.showt. cbn [RegexTree.show RegexTree.shows flat_map app]. rewrite <- app_assoc. apply X.
  - unfold RegexTree.shows. cbn [flat_map]. rewrite <- app_assoc. apply X.
Qed.

Lemma bars_star {A} (F : place -> list A) : (forall b s, match s with c :: _ => c <> 41 | [] => True end -> F (b, s) = []) ->
  forall alts, Forall (fun a => heads a <> []) alts -> forall b rest,
  flat_map F (ways (star bar) (b, flat_map (fun w => 124 :: w) (map show alts) ++ 41 :: rest))
  = match simples alts with Some ks => F (rev (flat_map (fun w => 124 :: w) (map showp ks)) ++ b, 41 :: rest) | None => [] end.
Proof.
  intros HF. induction alts as [|a alts IH]; intros Ha b rest.
  - cbn [map flat_map app simples rev]. rewrite star_stop by (apply ways_bar_none; discriminate). cbn [flat_map]. apply app_nil_r.
  - inversion Ha as [|? ? Hh Ha']; subst. destruct a as [[|p ps] t]; [cbn in Hh; congruence|]. cbn [map flat_map simples].
    rewrite show_seq. unfold RegexTree.shows at 1. cbn [flat_map]. rewrite <- !app_assoc. cbn [app]. rewrite <- !app_assoc.
    change (flat_map showp ps) with (shows ps).
    pose proof (ways_bar p b (shows ps ++ showt t ++ flat_map (fun w => 124 :: w) (map show alts) ++ 41 :: rest)) as W.
    destruct (is_nl p) eqn:En.
    + rewrite star_stop by exact W. cbn [flat_map]. rewrite HF by discriminate.
      assert (Es : simple (Seq (p :: ps) t) = None) by (destruct ps, t; cbn [simple]; rewrite ?En; reflexivity). rewrite Es. reflexivity.
    + rewrite (star_step _ _ _ _ W). 2:{ cbn [snd List.length]. unfold str in *. rewrite (app_length (showp p)). lia. }
      rewrite flat_map_app. cbn [flat_map]. rewrite (HF b (124 :: _)) by discriminate. cbn [app]. rewrite app_nil_r.
      destruct (simple (Seq (p :: ps) t)) as [p'|] eqn:Es.
      * apply simple_show in Es. destruct Es as ([= <- -> ->] & _ & _). cbn [RegexTree.shows flat_map app]. change (showt Nil) with (@nil N). cbn [app].
        rewrite IH by auto. destruct (simples alts) as [ks|]; [|reflexivity]. cbn [map flat_map]. f_equal. f_equal.
        cbn [app rev]. rewrite !rev_app_distr. cbn [rev]. rewrite <- !app_assoc. reflexivity.
      * destruct (not_simple p ps t (flat_map (fun w => 124 :: w) (map show alts) ++ 41 :: rest) Es En) as (c & s & E & N1 & N2 & _).
        rewrite E. rewrite star_stop by (apply ways_bar_none; exact N1). cbn [flat_map]. rewrite HF by exact N2. reflexivity.
Qed.

(** ** [char_group] *)
Lemma group_showp p out : foldM char_group_step (showp p) (out, false, false, O) = Ok (out ++ showp p, true, false, O).
Proof.
  destruct (showp_cases p) as [(c & -> & Pc & N & _)|(c & _ & -> & Ic)].
  - cbn [foldM char_group_step]. assert (E1 : (c =? 92) = false) by (apply N.eqb_neq; auto).
    assert (E2 : (c =? 124) = false). { apply N.eqb_neq. intros ->. apply plain_not_syntax in Pc. apply Pc. cbn. tauto. }
    rewrite E1, E2. reflexivity.
  - cbn [foldM char_group_step]. change (92 =? 92) with true. cbv iota. cbn [guard bind].
    assert (E : existsb (N.eqb c) (w_ "1234567890") = false). { unfold special in Ic. cbn in Ic. decompose [or] Ic; subst; try contradiction; reflexivity. }
    cbn [foldM char_group_step guard bind]. rewrite E. cbn [bind]. rewrite <- app_assoc. reflexivity.
Qed.

Lemma group_bars ks out : foldM char_group_step (flat_map (fun w => 124 :: w) (map showp ks)) (out, true, false, O) = Ok (out ++ shows ks, true, false, O).
Proof.
  revert out. induction ks as [|p ks IH]; intros out; [cbn; rewrite app_nil_r; reflexivity|]. cbn [map flat_map].
  change ((124 :: showp p) ++ flat_map (fun w => 124 :: w) (map showp ks)) with ([124] ++ (showp p ++ flat_map (fun w => 124 :: w) (map showp ks))).
  rewrite foldM_app. change (foldM char_group_step [124] (out, true, false, O)) with (@Ok (str * bool * bool * nat) (out, false, false, O)).
  cbn [bind]. rewrite foldM_app, group_showp. cbn [bind]. rewrite IH. unfold RegexTree.shows. cbn [flat_map]. rewrite <- app_assoc. reflexivity.
Qed.

Lemma char_group_bars ks : ks <> [] -> char_group (bars (map showp ks)) = Ok ([91] ++ shows ks ++ [93]).
Proof.
  intros N. destruct ks as [|p ks]; [congruence|]. unfold char_group. cbn [map bars]. rewrite foldM_app, group_showp. cbn [bind].
  rewrite group_bars. cbn [bind guard negb]. unfold RegexTree.shows. cbn [flat_map]. change (w_ "[") with [91]. change (w_ "]") with [93].
  rewrite <- !app_assoc. reflexivity.
Qed.

(** ** The beginnings of the patterns *)
Lemma first_match_lit (pt : pattern) l b s : p_before pt = Cat (NotAfter 92) (cat (map (fun c => Chr (N.eqb c)) l)) ->
  after_bs b = true \/ starts l s = false -> first_match pt (b, s) = None.
Proof.
  intros E H. unfold RegexModel.first_match. rewrite E, ways_after. destruct H as [->| ->]; [reflexivity|]. destruct (after_bs b); reflexivity.
Qed.

Lemma starts_cons_false a l c s : c <> a -> starts (a :: l) (c :: s) = false.
Proof. intros N. cbn [starts]. destruct (a =? c) eqn:E; [apply N.eqb_eq in E; congruence|reflexivity]. Qed.

(** ** Rule 1 *)
Definition hitG1 (ps : list prim) (alts : list seq) : hit :=
  if ends_bs ps then None else match simples alts with Some ks => Some (K ks) | None => None end.
Definition no_hit {A} (ps : list prim) (x : A) : hit := None.

Lemma rule1_G ps alts b s : ok (Seq ps (G alts false)) -> after_bs b = ends_bs ps ->
  let w := [40; 63; 58] ++ bar_all alts ++ [41] in
  match hitG1 ps alts with
  | Some f => exists g, first_match pattern1 (b, w ++ s) = Some (g, List.length w) /\ exists r, char_group g = Ok r /\ forall q, showt (f q) = r ++ quest q
  | None => first_match pattern1 (b, w ++ s) = None
  end.
Proof.
  intros O Ab w. unfold hitG1. rewrite <- Ab. destruct (after_bs b) eqn:Eb.
  { apply (first_match_lit _ (w_ "(?:")); [reflexivity|left; exact Eb]. }
  inversion O as [| | |ps' alts' q' Na Fa]; subst. destruct alts as [|a alts]; [congruence|].
  unfold RegexModel.first_match.
  change (p_before pattern1) with (Cat (NotAfter 92) (cat (map (fun c => Chr (N.eqb c)) (w_ "(?:")))).
  rewrite ways_after, Eb. change (starts (w_ "(?:") (w ++ s)) with true. cbv iota.
  change (skipn (List.length (w_ "(?:")) (w ++ s)) with ((bar_all (a :: alts) ++ [41]) ++ s). change (rev (w_ "(?:")) with [58; 63; 40].
  cbn [flat_map]. rewrite app_nil_r. cbn [snd fst].
  change (p_group pattern1) with (Cat C (star bar)). change (p_after pattern1) with (lit ")").
  set (z1 := ([58; 63; 40] ++ b, (bar_all (a :: alts) ++ [41]) ++ s)).
  change (ways (Cat C (star bar)) z1) with (flat_map (ways (star bar)) (ways C z1)).
  inversion Fa as [|? ? [Hh Oa] Fa']; subst. destruct a as [[|p ps1] t]; [cbn in Hh; congruence|]. clear Hh.
  assert (Ez : z1 = ([58; 63; 40] ++ b, showp p ++ (shows ps1 ++ showt t ++ flat_map (fun w => 124 :: w) (map show alts) ++ 41 :: s))).
  { unfold z1, bar_all. cbn [map bars]. rewrite show_seq. unfold RegexTree.shows at 1. cbn [flat_map]. rewrite <- !app_assoc. reflexivity. }
  assert (EC : ways C z1 = if is_nl p then [] else [(rev (showp p) ++ [58; 63; 40] ++ b, shows ps1 ++ showt t ++ flat_map (fun w => 124 :: w) (map show alts) ++ 41 :: s)]).
  { rewrite Ez. apply ways_C. }
  rewrite EC. clear EC. destruct (is_nl p) eqn:En.
  { assert (Es : simple (Seq (p :: ps1) t) = None) by (destruct ps1, t; cbn [simple]; rewrite ?En; reflexivity). cbn [simples]. rewrite Es. reflexivity. }
  cbn [flat_map]. rewrite app_nil_r.
  set (F := fun z2 : place => map (fun z3 : place => (firstn (List.length (snd z1) - List.length (snd z2)) (snd z1), (List.length (w ++ s) - List.length (snd z3))%nat)) (ways (lit ")") z2)).
  assert (HF : forall b s, match s with c :: _ => c <> 41 | [] => True end -> F (b, s) = []).
  { intros b0 s0 N. unfold F. rewrite lit_eq, ways_lit. change (w_ ")") with [41]. destruct s0 as [|c s0]; [reflexivity|].
    rewrite starts_cons_false by exact N. reflexivity. }
  match goal with |- context [flat_map ?F0 (ways (star bar) ?z)] => change (flat_map F0 (ways (star bar) z)) with (flat_map F (ways (star bar) z)) end.
  destruct (simple (Seq (p :: ps1) t)) as [p'|] eqn:Es.
  2:{ destruct (not_simple p ps1 t (flat_map (fun w => 124 :: w) (map show alts) ++ 41 :: s) Es En) as (c & s' & E & N1 & N2 & _).
      cbn [simples]. rewrite Es. rewrite E. rewrite star_stop by (apply ways_bar_none; exact N1). cbn [flat_map]. rewrite HF by exact N2. reflexivity. }
  pose proof Es as Es0. apply simple_show in Es. destruct Es as ([= <- -> ->] & _ & _). cbn [RegexTree.shows flat_map app]. change (showt Nil) with (@nil N). cbn [app].
  rewrite (bars_star F HF). 2:{ eapply Forall_impl; [|exact Fa']. cbn. tauto. }
  cbn [simples]. rewrite Es0. destruct (simples alts) as [ks|] eqn:Eks; [|reflexivity].
  destruct (simples_show _ _ Eks) as (Em & _ & _).
  unfold F. rewrite lit_eq, ways_lit. change (starts (w_ ")") (41 :: s)) with true. cbv iota. cbn [map hd_error snd].
  change (skipn (List.length (w_ ")")) (41 :: s)) with s.
  assert (Ez1 : snd z1 = bars (map showp (p :: ks)) ++ 41 :: s).
  { rewrite Ez. cbn [snd RegexTree.shows flat_map app]. change (showt Nil) with (@nil N). cbn [app map bars]. rewrite Em, <- app_assoc. reflexivity. }
  assert (Ebar : bar_all (Seq [p] Nil :: alts) = bars (map showp (p :: ks))).
  { unfold bar_all. cbn [map bars]. rewrite Em. f_equal. rewrite show_seq. unfold RegexTree.shows. cbn [flat_map]. rewrite app_nil_r. apply app_nil_r. }
  eexists. split.
  { f_equal. f_equal. unfold w. rewrite app_length. lia. }
  exists ([91] ++ shows (p :: ks) ++ [93]). split.
  - rewrite Ez1. rewrite app_length. cbn [List.length].
    match goal with |- context [firstn ?n _] => replace n with (List.length (bars (map showp (p :: ks))) + 0)%nat by lia end.
    rewrite firstn_app_2. cbn [firstn]. rewrite app_nil_r. apply char_group_bars. discriminate.
  - intros q. change (showt (K (p :: ks) q)) with ([91] ++ shows (p :: ks) ++ [93] ++ quest q). rewrite <- !app_assoc. reflexivity.
Qed.

Definition pass1 : seq -> seq := pass hitG1 no_hit.

Lemma rule1 s : ok s -> re_sub is_word pattern1 char_group (show s) = Ok (show (pass1 s)).
Proof.
  apply pass_re_sub.
  - intros b c s0 N1 N2. apply (first_match_lit _ (w_ "(?:")); [reflexivity|right; apply starts_cons_false; auto].
  - intros b c s0 _. apply (first_match_lit _ (w_ "(?:")); [reflexivity|left; reflexivity].
  - apply rule1_G.
  - intros ps ks b s0 _ _. apply (first_match_lit _ (w_ "(?:")); [reflexivity|right; reflexivity].
Qed.

(** ** Rules 2 and 3 do nothing: no group starts with a set. *)
Lemma bar_all_head alts : alts <> [] -> Forall (fun a => heads a <> [] /\ ok a) alts -> forall s, exists c r, bar_all alts ++ s = c :: r /\ c <> 91.
Proof.
  intros N F s. destruct alts as [|a alts]; [congruence|]. inversion F as [|? ? [Hh _] _]; subst. destruct a as [[|p ps] t]; [cbn in Hh; congruence|].
  unfold bar_all. cbn [map bars]. rewrite show_seq. unfold RegexTree.shows. cbn [flat_map]. destruct (showp_head p) as (c & r & -> & Nc).
  exists c. eexists. split; [reflexivity|]. intros ->. apply Nc. cbn. tauto.
Qed.

Lemma rule23 pt s : p_before pt = Cat (NotAfter 92) (lit "(?:") -> (exists r, p_group pt = Cat (lit "[") r) -> ok s ->
  re_sub is_word pt Ok (show s) = Ok (show (pass no_hit no_hit s)).
Proof.
  intros E [r Eg]. apply pass_re_sub.
  - intros b c s0 N1 N2. apply (first_match_lit _ (w_ "(?:")); [exact E|right; apply starts_cons_false; auto].
  - intros b c s0 _. apply (first_match_lit _ (w_ "(?:")); [exact E|left; reflexivity].
  - intros ps alts b s0 O Ab w. cbn [no_hit]. inversion O as [| | |ps' alts' q' Na Fa]; subst.
    unfold RegexModel.first_match. rewrite E, lit_eq, ways_after. destruct (after_bs b); [reflexivity|].
    change (starts (w_ "(?:") (w ++ s0)) with true. cbv iota. cbn [flat_map]. rewrite app_nil_r. cbn [snd].
    change (skipn (List.length (w_ "(?:")) (w ++ s0)) with ((bar_all alts ++ [41]) ++ s0). rewrite Eg.
    set (z := (rev (w_ "(?:") ++ b, (bar_all alts ++ [41]) ++ s0)). change (ways (Cat (lit "[") r) z) with (flat_map (ways r) (ways (lit "[") z)).
    unfold z. rewrite lit_eq, ways_lit. rewrite <- app_assoc. destruct (bar_all_head alts Na Fa ([41] ++ s0)) as (c & r0 & -> & Nc).
    change (w_ "[") with [91]. rewrite starts_cons_false by exact Nc. reflexivity.
  - intros ps ks b s0 _ _. apply (first_match_lit _ (w_ "(?:")); [exact E|right; reflexivity].
Qed.

Lemma pass_nothing s : pass no_hit no_hit s = s.
Proof.
  induction s as [ps t IH] using seq_ind'. cbn [pass no_hit]. f_equal. destruct t as [|alts q| |]; auto. f_equal.
  induction IH as [|a l Ea _ IHl]; [reflexivity|]. cbn [map]. rewrite Ea, IHl. reflexivity.
Qed.

(** ** Rule 4 *)
Definition hitK4 (ps ks : list prim) : hit :=
  match ks with [p] => if ends_bs ps || is_nl p then None else Some (P p) | _ => None end.

Lemma rule4_K ps ks b s : ks <> [] -> after_bs b = ends_bs ps ->
  let w := [91] ++ shows ks ++ [93] in
  match hitK4 ps ks with
  | Some f => exists g, first_match pattern4 (b, w ++ s) = Some (g, List.length w) /\ exists r, Ok g = Ok r /\ forall q, showt (f q) = r ++ quest q
  | None => first_match pattern4 (b, w ++ s) = None
  end.
Proof.
  intros N Ab w. destruct ks as [|p ks]; [congruence|]. unfold hitK4. rewrite <- Ab. destruct (after_bs b) eqn:Eb.
  { cbn [orb]. destruct ks; (apply (first_match_lit _ (w_ "[")); [reflexivity|left; exact Eb]). }
  unfold RegexModel.first_match. change (p_before pattern4) with (Cat (NotAfter 92) (cat (map (fun c => Chr (N.eqb c)) (w_ "[")))).
  rewrite ways_after, Eb. change (starts (w_ "[") (w ++ s)) with true. cbv iota.
  change (skipn (List.length (w_ "[")) (w ++ s)) with ((shows (p :: ks) ++ [93]) ++ s). change (rev (w_ "[")) with [91].
  cbn [flat_map]. rewrite app_nil_r. cbn [snd]. change (p_group pattern4) with C. change (p_after pattern4) with (lit "]").
  assert (Es : (shows (p :: ks) ++ [93]) ++ s = showp p ++ shows ks ++ [93] ++ s). { unfold RegexTree.shows. cbn [flat_map]. rewrite <- !app_assoc. reflexivity. }
  rewrite Es, ways_C. cbn [orb]. destruct (is_nl p); [destruct ks; reflexivity|]. cbn [flat_map]. rewrite app_nil_r. cbn [snd].
  rewrite lit_eq, ways_lit. change (w_ "]") with [93]. destruct ks as [|p2 ks].
  - unfold RegexTree.shows. cbn [flat_map app]. change (starts [93] (93 :: s)) with true. cbv iota. cbn [map hd_error snd skipn List.length].
    eexists. split; [f_equal; f_equal; unfold w, RegexTree.shows; cbn [flat_map]; rewrite ?app_length; cbn [List.length app]; rewrite ?app_length; cbn [List.length]; lia|].
    eexists. split; [reflexivity|]. intros q. unfold RegexTree.showt. cbn [RegexTree.show RegexTree.shows flat_map app]. f_equal.
    rewrite app_length. cbn [List.length]. match goal with |- context [firstn ?n _] => replace n with (List.length (showp p) + 0)%nat by lia end.
    rewrite firstn_app_2. cbn [firstn]. rewrite app_nil_r. reflexivity.
  - unfold RegexTree.shows. cbn [flat_map]. rewrite <- !app_assoc. destruct (showp_head p2) as (c & r & -> & Nc). cbn [app].
    rewrite starts_cons_false; [reflexivity|]. intros ->. apply Nc. cbn. tauto.
Qed.

Definition pass4 : seq -> seq := pass no_hit hitK4.

Lemma rule4 s : ok s -> re_sub is_word pattern4 Ok (show s) = Ok (show (pass4 s)).
Proof.
  apply pass_re_sub.
  - intros b c s0 N1 N2. apply (first_match_lit _ (w_ "[")); [reflexivity|right; apply starts_cons_false; auto].
  - intros b c s0 _. apply (first_match_lit _ (w_ "[")); [reflexivity|left; reflexivity].
  - intros ps alts b s0 _ _. apply (first_match_lit _ (w_ "[")); [reflexivity|right; reflexivity].
  - apply rule4_K.
Qed.

(** ** Rule 5 *)
Definition hitG5 (ps : list prim) (alts : list seq) : hit :=
  match alts with [a] => match simple a with Some p => Some (P p) | None => None end | _ => None end.

Lemma first_match5 b s : starts [40; 63; 58] s = false -> first_match pattern5 (b, s) = None.
Proof. intros E. unfold RegexModel.first_match. change (p_before pattern5) with (lit "(?:"). rewrite lit_eq, ways_lit. change (w_ "(?:") with [40; 63; 58]. rewrite E. reflexivity. Qed.

Lemma rule5_G ps alts b s : ok (Seq ps (G alts false)) -> after_bs b = ends_bs ps ->
  let w := [40; 63; 58] ++ bar_all alts ++ [41] in
  match hitG5 ps alts with
  | Some f => exists g, first_match pattern5 (b, w ++ s) = Some (g, List.length w) /\ exists r, Ok g = Ok r /\ forall q, showt (f q) = r ++ quest q
  | None => first_match pattern5 (b, w ++ s) = None
  end.
Proof.
  intros O _ w. inversion O as [| | |ps' alts' q' Na Fa]; subst. destruct alts as [|a alts]; [congruence|].
  inversion Fa as [|? ? [Hh Oa] Fa']; subst. destruct a as [[|p ps1] t]; [cbn in Hh; congruence|].
  unfold RegexModel.first_match. change (p_before pattern5) with (lit "(?:"). rewrite lit_eq, ways_lit.
  change (starts (w_ "(?:") (w ++ s)) with true. cbv iota. cbn [flat_map]. rewrite app_nil_r. cbn [snd].
  change (skipn (List.length (w_ "(?:")) (w ++ s)) with ((bar_all (Seq (p :: ps1) t :: alts) ++ [41]) ++ s).
  assert (Es : (bar_all (Seq (p :: ps1) t :: alts) ++ [41]) ++ s = showp p ++ (shows ps1 ++ showt t ++ flat_map (fun w => 124 :: w) (map show alts) ++ 41 :: s)).
  { unfold bar_all. cbn [map bars]. rewrite show_seq. unfold RegexTree.shows at 1. cbn [flat_map]. rewrite <- !app_assoc. reflexivity. }
  rewrite Es. change (p_group pattern5) with C. change (p_after pattern5) with (lit ")"). rewrite ways_C. unfold hitG5.
  destruct (is_nl p) eqn:En.
  { assert (Es' : simple (Seq (p :: ps1) t) = None) by (destruct ps1, t; cbn [simple]; rewrite ?En; reflexivity). rewrite Es'. destruct alts; reflexivity. }
  cbn [flat_map]. rewrite app_nil_r. cbn [snd]. rewrite lit_eq, ways_lit. change (w_ ")") with [41].
  destruct (simple (Seq (p :: ps1) t)) as [p'|] eqn:E.
  - apply simple_show in E. destruct E as ([= <- -> ->] & _ & _). cbn [RegexTree.shows flat_map app]. change (showt Nil) with (@nil N). cbn [app].
    destruct alts as [|a2 alts].
    + cbn [map flat_map app]. change (starts [41] (41 :: s)) with true. cbv iota. cbn [map hd_error snd skipn List.length].
      eexists. split.
      { f_equal. f_equal. unfold w, bar_all. cbn [map bars flat_map]. rewrite app_nil_r. change (show (Seq [p] Nil)) with ((showp p ++ []) ++ []).
        rewrite !app_nil_r. rewrite !app_length. cbn [List.length]. lia. }
      eexists. split; [reflexivity|]. intros q. unfold RegexTree.showt. cbn [RegexTree.show RegexTree.shows flat_map app]. f_equal.
      rewrite app_length. cbn [List.length]. match goal with |- context [firstn ?n _] => replace n with (List.length (showp p) + 0)%nat by lia end.
      rewrite firstn_app_2. cbn [firstn]. rewrite app_nil_r. reflexivity.
    + reflexivity.
  - destruct (not_simple p ps1 t (flat_map (fun w => 124 :: w) (map show alts) ++ 41 :: s) E En) as (c & s' & Ec & _ & N2 & _).
    rewrite Ec, starts_cons_false by exact N2. destruct alts; reflexivity.
Qed.

Definition pass5 : seq -> seq := pass hitG5 no_hit.

Lemma rule5 s : ok s -> re_sub is_word pattern5 Ok (show s) = Ok (show (pass5 s)).
Proof.
  apply pass_re_sub.
  - intros b c s0 N1 N2. apply first_match5. apply starts_cons_false; auto.
  - intros b c s0 F. apply first_match5. unfold follows in F. change (starts [40; 63; 58] (c :: s0)) with ((40 =? c) && starts [63; 58] s0). rewrite F. apply andb_false_r.
  - apply rule5_G.
  - intros ps ks b s0 _ _. apply first_match5. reflexivity.
Qed.

(** ** All together *)
Definition simpler (s : seq) : seq := pass5 (pass4 (pass1 s)).

Lemma pass1_ok s : ok s -> ok (pass1 s).
Proof.
  apply pass_ok; [|discriminate]. intros ps alts f q E O. unfold hitG1 in E. destruct (ends_bs ps); [discriminate|].
  destruct (simples alts) as [ks|] eqn:Es; [|discriminate]. injection E as <-. constructor. intros ->.
  inversion O as [| | |? ? ? Na _]; subst. destruct alts as [|a alts]; [congruence|]. cbn [simples] in Es.
  destruct (simple a); [|discriminate]. destruct (simples alts); discriminate.
Qed.

Lemma pass4_ok s : ok s -> ok (pass4 s).
Proof.
  apply pass_ok; [discriminate|]. intros ps ks f q E _. unfold hitK4 in E. destruct ks as [|p [|]]; try discriminate.
  destruct (ends_bs ps || is_nl p); [discriminate|]. injection E as <-. constructor.
Qed.

Lemma pass5_ok s : ok s -> ok (pass5 s).
Proof.
  apply pass_ok; [|discriminate]. intros ps alts f q E _. unfold hitG5 in E. destruct alts as [|a [|]]; try discriminate.
  destruct (simple a); [|discriminate]. injection E as <-. constructor.
Qed.

Lemma simplified_show s : ok s -> simplified is_word (show s) = Ok (show (simpler s)).
Proof.
  intros O. unfold simplified. rewrite rule1 by auto. cbn [bind]. pose proof (pass1_ok s O) as O1.
  rewrite rule23; [|reflexivity|eexists; reflexivity|auto]. cbn [bind]. rewrite pass_nothing.
  rewrite rule23; [|reflexivity|eexists; reflexivity|auto]. cbn [bind]. rewrite pass_nothing.
  rewrite rule4 by auto. cbn [bind]. apply rule5. apply pass4_ok. auto.
Qed.
End Rules.
