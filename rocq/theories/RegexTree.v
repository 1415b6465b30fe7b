(** The shape of the expressions that [to_regex] writes, and the proof that
    its loop over the trie writes one. *)
From Coq Require Import ZArith NArith List Bool String Lia.
From Verif Require Import Py PyDict TrieModel TrieProofs Ex.
From Verif Require Import RegexSpec RegexModel.
Import ListNotations.
Open Scope string_scope.
Open Scope list_scope.
Open Scope N_scope.

(** A character of a key, or the dot that stands for U+FFFD. *)
Inductive prim := PChar (c : N) | PDot.

(** Characters followed by nothing, by a group, by a set or by one optional
    character. *)
Inductive seq := Seq (ps : list prim) (t : tail)
with tail := Nil | G (alts : list seq) (q : bool) | K (ps : list prim) (q : bool) | P (p : prim) (q : bool).

Section Ind.
  Variable Q : seq -> Prop.
  Hypothesis H : forall ps t, match t with G alts _ => Forall Q alts | _ => True end -> Q (Seq ps t).
  Fixpoint seq_ind' (s : seq) : Q s :=
    match s with
    | Seq ps t => H ps t (match t with
        | G alts _ => (fix go l : Forall Q l := match l with [] => Forall_nil _ | a :: l' => Forall_cons a (seq_ind' a) (go l') end) alts
        | _ => I end)
    end.
End Ind.

Definition esc (c : N) : str := if existsb (N.eqb c) special then [92; c] else [c].
Definition quest (q : bool) : str := if q then [63] else [].
Definition bars (l : list str) : str := match l with [] => [] | a :: l' => a ++ flat_map (fun b => 124 :: b) l' end.

Section Show.
(** How a space is written. *)
Variable sp : str.
Definition showp (p : prim) : str := match p with PChar c => if c =? 32 then sp else esc c | PDot => [46] end.
Definition shows (ps : list prim) : str := flat_map showp ps.

Fixpoint show (s : seq) : str :=
  match s with
  | Seq ps t => shows ps ++
      match t with
      | Nil => []
      | G alts q => [40; 63; 58] ++ bars (map show alts) ++ [41] ++ quest q
      | K ks q => [91] ++ shows ks ++ [93] ++ quest q
      | P p q => showp p ++ quest q
      end
  end.
Definition showt (t : tail) : str := show (Seq [] t).
Lemma show_seq ps t : show (Seq ps t) = shows ps ++ showt t.
Proof. reflexivity. Qed.
End Show.

(** ** Tokens *)
Section Tokens.
Variable is_space : N -> bool.

Definition primc (fs fa : bool) (c : N) : prim :=
  let c := if fs && is_space c then 32 else c in if fa && (c =? 0xfffd) then PDot else PChar c.
Definition prims (fs fa : bool) (tk : str) : list prim := map (primc fs fa) tk.

Definition good_token (tk : str) : Prop := (exists c, tk = [c]) \/ (tk <> [] /\ ~ In 92 tk).

Lemma esc_eq s : re_escape s = flat_map esc s.
Proof. reflexivity. Qed.

Lemma replace_none old new s : old <> [] -> has old s = false -> replace old new s = s.
Proof.
  intros N. unfold replace. induction s as [|c s IH]; [reflexivity|].
  cbn [has replace_from]. intros E. apply orb_false_iff in E. destruct E as [E1 E2]. rewrite E1, IH; auto.
Qed.

(** The quotes are never after a backslash. *)
Definition quote (q : N) : Prop := q <> 92 /\ existsb (N.eqb q) special = false.

Lemma quotes_quote : Forall (fun q => quote (fst q)) quotes.
Proof. repeat constructor; cbn; try discriminate. Qed.

Lemma quote_not_escaped q tk : quote q -> good_token tk -> has [92; q] (re_escape tk) = false.
Proof.
  intros [Q1 Q2] G. rewrite esc_eq.
  assert (B : forall s, ~ In 92 s -> forall rest, has [92; q] (flat_map esc s ++ rest) = has [92; q] rest).
  { clear G tk. induction s as [|c s IH]; [reflexivity|]. intros N rest. cbn [flat_map]. rewrite <- app_assoc.
    assert (Nc : c <> 92) by (intros ->; apply N; left; reflexivity). assert (Ns : ~ In 92 s) by (intros I; apply N; right; exact I).
    unfold esc at 1. destruct (existsb (N.eqb c) special) eqn:E; cbn [app has starts].
    - assert (Eq : q =? c = false) by (apply N.eqb_neq; intros ->; congruence).
      assert (Ec : 92 =? c = false) by (apply N.eqb_neq; congruence). rewrite Eq, Ec. cbn [andb orb]. rewrite ?andb_false_r. cbn. auto.
    - assert (Ec : 92 =? c = false) by (apply N.eqb_neq; congruence). rewrite Ec. cbn. auto. }
  destruct G as [[c ->]|[_ N]].
  - cbn [flat_map]. rewrite app_nil_r. unfold esc. destruct (existsb (N.eqb c) special) eqn:E.
    + cbn [has starts]. assert (Eq : q =? c = false) by (apply N.eqb_neq; intros ->; congruence). rewrite Eq, !andb_false_r. reflexivity.
    + cbn [has starts]. rewrite andb_false_r. reflexivity.
  - rewrite <- (app_nil_r (flat_map esc tk)). rewrite B by auto. reflexivity.
Qed.

Lemma fuzzy_quotes_nothing tk : good_token tk ->
  fold_left (fun key q => replace [92; fst q] ([91; 92; fst q; snd q; 93]) key) quotes (re_escape tk) = re_escape tk.
Proof.
  intros G. pose proof quotes_quote as Q. induction Q as [|q l Hq _ IH]; [reflexivity|]. cbn [fold_left].
  rewrite replace_none; [exact IH|discriminate|]. apply quote_not_escaped; auto.
Qed.

Lemma special_fffd : existsb (N.eqb 0xfffd) special = false.
Proof. reflexivity. Qed.

Lemma replace_fffd s : replace [0xfffd] (w_ ".") (flat_map esc s) = flat_map (fun c => if c =? 0xfffd then [46] else esc c) s.
Proof.
  unfold replace. induction s as [|c s IH]; [reflexivity|]. cbn [flat_map]. destruct (N.eqb_spec c 0xfffd) as [->|Nc].
  - unfold esc at 1. rewrite special_fffd. cbn [app]. cbn [replace_from starts]. rewrite N.eqb_refl. cbn [andb List.length Nat.sub].
    rewrite IH. reflexivity.
  - assert (Ec : 0xfffd =? c = false) by (apply N.eqb_neq; congruence). unfold esc at 1 3.
    destruct (existsb (N.eqb c) special); cbn [app replace_from starts]; rewrite ?Ec; cbn [andb]; rewrite IH; reflexivity.
Qed.

Lemma esc_space : esc 32 = w_ "\ ".
Proof. reflexivity. Qed.

Lemma showp_esc c : showp (w_ "\ ") (PChar c) = esc c.
Proof. cbn [showp]. destruct (N.eqb_spec c 32) as [->|]; reflexivity. Qed.

Lemma good_token_spaces fs tk : good_token tk -> good_token (if fs : bool then map (fun c => if is_space c then 32 else c) tk else tk).
Proof.
  destruct fs; [|auto]. intros [[c ->]|[N B]].
  - left. eexists. reflexivity.
  - right. split; [destruct tk; [congruence|discriminate]|]. intros I. apply in_map_iff in I. destruct I as (c & E & I).
    destruct (is_space c); [discriminate|]. subst c. auto.
Qed.

Lemma token_shows fq fs fa tk : good_token tk -> regex_token is_space fq fs fa tk = shows (w_ "\ ") (prims fs fa tk).
Proof.
  intros G. unfold regex_token. apply (good_token_spaces fs) in G.
  set (tk' := if fs then map (fun c => if is_space c then 32 else c) tk else tk) in *.
  replace (if fq then fold_left (fun key q => replace [92; fst q] [91; 92; fst q; snd q; 93] key) quotes (re_escape tk') else re_escape tk')
    with (re_escape tk') by (destruct fq; [rewrite fuzzy_quotes_nothing by auto|]; reflexivity).
  assert (E : prims fs fa tk = map (fun c => if fa && (c =? 0xfffd) then PDot else PChar c) tk').
  { unfold prims, tk'. destruct fs; [rewrite map_map|]; apply map_ext; intros c; unfold primc; cbn [andb]; reflexivity. }
  rewrite E, esc_eq. clearbody tk'. clear. unfold shows. rewrite (flat_map_concat_map (showp (w_ "\ "))), map_map, <- flat_map_concat_map.
  destruct fa; [rewrite replace_fffd|]; apply flat_map_ext; intros c; cbn [andb].
  - destruct (c =? 0xfffd); [reflexivity|]. rewrite showp_esc. reflexivity.
  - rewrite showp_esc. reflexivity.
Qed.
End Tokens.

(** ** The loop *)
Section Loop.
Context {V : Type}.
Variable token : str -> str.
Variable prims_of : str -> list prim.

Definition add (ps : list prim) (s : seq) : seq := let (ps', t) := s in Seq (ps ++ ps') t.
Definition terminal (v : option V) : bool := match v with Some _ => true | None => false end.

Fixpoint build (n : node str V) : seq :=
  match n with
  | Node v cs =>
      let alts := map (fun kc => add (prims_of (fst kc)) (build (snd kc))) cs in
      match v, alts with
      | _, [] => Seq [] Nil
      | None, [a] => a
      | _, _ => Seq [] (G (rev alts) (terminal v))
      end
  end.

Definition glue_step (acc x : list str) : list str := (match acc with [] => acc | _ => acc ++ [w_ "|"] end) ++ x.
Definition glue (l : list (list str)) : list str := fold_left glue_step l [].

Definition finish (n : node str V) (current : list str) : list str :=
  match current with
  | [] => []
  | _ => match value n with
         | Some _ => [w_ "(?:"] ++ current ++ [w_ ")?"]
         | None => if negb (List.length (children n) =? 1)%nat then [w_ "(?:"] ++ current ++ [w_ ")"] else current
         end
  end.

Fixpoint els (n : node str V) : list str :=
  match n with
  | Node v cs => finish n (glue (rev (map (fun kc => token (fst kc) :: els (snd kc)) cs)))
  end.
Definition sub (kc : str * node str V) : list str := token (fst kc) :: els (snd kc).
Lemma els_unfold n : els n = finish n (glue (map sub (rev (children n)))).
Proof. destruct n as [v cs]. cbn [children]. rewrite map_rev. reflexivity. Qed.

Lemma glue_snoc l x : glue (l ++ [x]) = (match glue l with [] => [] | g => g ++ [w_ "|"] end) ++ x.
Proof.
  unfold glue at 1. rewrite fold_left_app. cbn [fold_left]. change (fold_left glue_step l []) with (glue l). unfold glue_step.
  destruct (glue l); reflexivity.
Qed.

Definition cost (cs : list (str * node str V)) : nat := (2 * list_sum (map (fun tc => size (snd tc)) cs))%nat.

Lemma sum_rev (m : list (str * node str V)) : list_sum (map (fun tc => size (snd tc)) (rev m)) = list_sum (map (fun tc => size (snd tc)) m).
Proof.
  rewrite map_rev. induction (map (fun tc => size (snd tc)) m) as [|a x IHx]; [reflexivity|]. cbn [rev]. rewrite list_sum_app, IHx.
  unfold list_sum. cbn [fold_right]. lia.
Qed.

Lemma parts_loop_run n : wf n -> forall l r, rev (children n) = l ++ r -> forall fuel last ps stack,
  parts_loop token (S (cost r) + fuel) (glue (map sub l) :: last :: ps) ((n, map fst r) :: stack)
  = parts_loop token fuel ((last ++ els n) :: ps) stack.
Proof.
  induction n as [v cs IH] using node_ind'. intros W l r. revert l. induction r as [|[k c] r IHr]; intros l E fuel last ps stack.
  - rewrite app_nil_r in E. cbn [map]. rewrite els_unfold, E. set (cur := glue (map sub l)). cbn [Nat.add parts_loop].
    unfold cost. cbn [map list_sum Nat.mul Nat.add]. unfold finish. destruct cur as [|x cur']; [rewrite app_nil_r; reflexivity|]. reflexivity.
  - assert (I : In (k, c) cs). { apply in_rev. change cs with (children (Node v cs)). rewrite E. apply in_or_app. right. left. reflexivity. }
    assert (D : dget k cs = Some c). { apply wf_split in W. apply In_dget; [apply W|exact I]. }
    assert (Wc : wf c) by (eapply wf_child; [exact W|exact D]).
    rewrite Forall_forall in IH. specialize (IH (k, c) I). cbn [snd] in IH.
    replace (S (cost ((k, c) :: r)) + fuel)%nat with (S (S (cost (rev (children c))) + (S (cost r) + fuel)))%nat.
    2:{ unfold cost. cbn [map list_sum snd]. rewrite (size_unfold c).
                rewrite sum_rev. unfold list_sum. cbn [fold_right]. lia. }
    set (fl := (S (cost (rev (children c))) + (S (cost r) + fuel))%nat).
    cbn [map fst]. cbn [parts_loop children]. rewrite D.
    assert (E' : rev (dkeys (children c)) = map fst (rev (children c))). { unfold dkeys. rewrite map_rev. reflexivity. }
    rewrite E'. unfold fl. change (@nil str) with (glue (map sub [])) at 1.
    rewrite (IH Wc [] (rev (children c)) eq_refl).
    rewrite <- app_assoc. cbn [app].
    assert (Eg : (match glue (map sub l) with [] => glue (map sub l) | _ :: _ => glue (map sub l) ++ [w_ "|"] end ++ token k :: els c) = glue (map sub (l ++ [(k, c)]))).
    { rewrite map_app. cbn [map]. rewrite glue_snoc. change (sub (k, c)) with (token k :: els c). destruct (glue (map sub l)); reflexivity. }
    rewrite Eg. apply IHr. rewrite E, <- app_assoc. reflexivity.
Qed.

Lemma raw_pattern_els t : wf (root t) -> raw_pattern token t = Ok (List.concat (els (root t))).
Proof.
  intros W. unfold raw_pattern.
  replace (2 * size (root t) + 1)%nat with (S (cost (rev (children (root t)))) + 2)%nat.
  2:{ unfold cost. rewrite (size_unfold (root t)).
            rewrite sum_rev. lia. }
  assert (E' : rev (dkeys (children (root t))) = map fst (rev (children (root t)))). { unfold dkeys. rewrite map_rev. reflexivity. }
  rewrite E'. pose proof (parts_loop_run (root t) W [] (rev (children (root t))) eq_refl 2%nat [] [] []) as H. cbn [map glue fold_left] in H.
  rewrite H. reflexivity.
Qed.

(** What is written is the tree. *)
Variable shows_token : forall k, good_token k -> token k = shows (w_ "\ ") (prims_of k).
Inductive good_tokens : node str V -> Prop :=
| good_node v cs : Forall (fun kc => good_token (fst kc) /\ good_tokens (snd kc)) cs -> good_tokens (Node v cs).

Lemma show_add sp ps s : show sp (add ps s) = shows sp ps ++ show sp s.
Proof. destruct s as [ps' t]. cbn [add]. rewrite !show_seq. unfold shows. rewrite flat_map_app, <- app_assoc. reflexivity. Qed.

Lemma glue_nil l : Forall (fun x : list str => x <> []) l -> glue l = [] -> l = [].
Proof.
  intros F. destruct l as [|x l] using rev_ind; [reflexivity|]. rewrite glue_snoc. intros E. apply app_eq_nil in E. destruct E as [_ E].
  apply Forall_app in F. destruct F as [_ F]. apply Forall_inv in F. congruence.
Qed.

Lemma concat_glue l : Forall (fun x : list str => x <> []) l -> List.concat (glue l) = bars (map (@List.concat N) l).
Proof.
  induction l as [|x l IH] using rev_ind; [reflexivity|]. intros F. apply Forall_app in F. destruct F as [F Fx]. apply Forall_inv in Fx.
  rewrite glue_snoc, concat_app. rewrite map_app. cbn [map]. destruct (glue l) as [|g gs] eqn:Eg.
  - apply glue_nil in Eg; auto. subst l. cbn. rewrite app_nil_r. reflexivity.
  - rewrite concat_app, IH by auto. destruct l as [|y l]; [discriminate|]. cbn [map app bars]. rewrite flat_map_app. cbn [flat_map List.concat].
    rewrite !app_nil_r, <- !app_assoc. reflexivity.
Qed.

Lemma els_build n : good_tokens n -> List.concat (els n) = show (w_ "\ ") (build n).
Proof.
  induction n as [v cs IH] using node_ind'. intros Gt. inversion Gt as [v' cs' F]; subst.
  rewrite els_unfold. cbn [children]. set (subs := map sub (rev cs)).
  assert (Ns : Forall (fun x => x <> []) subs). { unfold subs. apply Forall_map. apply Forall_forall. intros kc _. discriminate. }
  set (alts := map (fun kc => add (prims_of (fst kc)) (build (snd kc))) cs).
  assert (Es : map (@List.concat N) subs = map (show (w_ "\ ")) (rev alts)).
  { unfold subs, alts. rewrite <- map_rev, !map_map. apply map_ext_in. intros [k c] I. apply in_rev in I. cbn [fst snd].
    rewrite Forall_forall in IH, F. destruct (F _ I) as [Gk Gc]. specialize (IH _ I Gc). cbn [fst snd] in *.
    rewrite show_add, <- shows_token, <- IH by auto. reflexivity. }
  pose proof (concat_glue subs Ns) as Eg. rewrite Es in Eg. pose proof (glue_nil subs Ns) as En.
  assert (El : List.length subs = List.length cs) by (unfold subs; rewrite map_length, rev_length; reflexivity).
  assert (Ea : List.length alts = List.length cs) by (unfold alts; rewrite map_length; reflexivity).
  cbn [build]. fold alts. unfold finish. destruct (glue subs) as [|g gs] eqn:E.
  - rewrite (En eq_refl) in El. destruct alts as [|a al]; [|cbn in Ea; cbn in El; lia]. destruct v; reflexivity.
  - assert (Nn : alts <> []). { intros Z. rewrite Z in Ea. destruct subs; [discriminate E|]. cbn in Ea, El. lia. }
    cbn [value children]. destruct v as [v|].
    + rewrite !concat_app, Eg. destruct alts as [|a al] eqn:Ealts; [congruence|]. rewrite <- Ealts.
      change (show (w_ "\ ") (Seq [] (G (rev alts) (terminal (Some v))))) with ([40;63;58] ++ bars (map (show (w_ "\ ")) (rev alts)) ++ [41] ++ [63]). reflexivity.
    + destruct alts as [|a [|b al]] eqn:Ealts; [congruence| |].
      * cbn [List.length] in Ea. rewrite <- Ea. cbn [Nat.eqb negb]. rewrite Eg. cbn. apply app_nil_r.
      * cbn [List.length] in Ea. rewrite <- Ea. cbn [Nat.eqb negb]. rewrite !concat_app, Eg.
        rewrite <- Ealts.
        change (show (w_ "\ ") (Seq [] (G (rev alts) (terminal None)))) with ([40;63;58] ++ bars (map (show (w_ "\ ")) (rev alts)) ++ [41] ++ []). reflexivity.
Qed.
End Loop.
