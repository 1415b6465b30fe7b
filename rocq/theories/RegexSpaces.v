(** Runs of [\s] in the expression. *)
From Coq Require Import ZArith NArith List Bool String Lia.
From Verif Require Import Py PyDict TrieModel TrieProofs Ex.
From Verif Require Import RegexSpec RegexModel RegexTree RegexPasses RegexSimplify RegexParse RegexLang RegexOrder.
Import ListNotations.
Open Scope string_scope.
Open Scope list_scope.
Open Scope N_scope.

(** ** The loop ends *)
Lemma starts_length old s : starts old s = true -> (List.length old <= List.length s)%nat.
Proof.
  revert s. induction old as [|a old IH]; intros s E; [cbn; lia|]. destruct s as [|b s]; [discriminate|]. cbn [starts] in E. apply andb_prop in E. destruct E as [_ E].
  apply IH in E. cbn. lia.
Qed.

Lemma replace_le old new s : (List.length new <= List.length old)%nat -> old <> [] ->
  forall k, (k <= List.length s)%nat -> (List.length (replace_from old new k s) + k <= List.length s)%nat.
Proof.
  intros H N. induction s as [|c s IH]; intros k Hk; [cbn in *; lia|]. destruct k as [|k].
  - cbn [replace_from]. destruct (starts old (c :: s)) eqn:E.
    + rewrite app_length. apply starts_length in E. specialize (IH (List.length old - 1)%nat). cbn [List.length] in *.
      destruct old; [congruence|]. cbn [List.length] in *. lia.
    + cbn [List.length]. specialize (IH O). lia.
  - cbn [replace_from]. specialize (IH k). cbn [List.length] in *. lia.
Qed.

Lemma replace_shorter old new s : (List.length new < List.length old)%nat -> has old s = true -> (List.length (replace old new s) < List.length s)%nat.
Proof.
  intros H. assert (N : old <> []) by (destruct old; [cbn in H; lia|discriminate]). unfold replace. induction s as [|c s IH]; intros E.
  - cbn [has] in E. destruct old; [congruence|discriminate].
  - cbn [replace_from]. cbn [has] in E. destruct (starts old (c :: s)) eqn:Es.
    + rewrite app_length. apply starts_length in Es. pose proof (replace_le old new s ltac:(lia) N (List.length old - 1)%nat). cbn [List.length] in *. lia.
    + cbn [orb] in E. cbn [List.length]. specialize (IH E). lia.
Qed.

Lemma spaces_loop_ends fuel s : (List.length s < fuel)%nat -> exists s', spaces_loop fuel s = Ok s'.
Proof.
  revert s. induction fuel as [|fuel IH]; intros s H; [lia|]. cbn [spaces_loop]. destruct (has (w_ "\s\s") s) eqn:E; [|eauto].
  apply IH. destruct (has (w_ "\s\s+") s) eqn:E2.
  - pose proof (replace_shorter (w_ "\s\s+") (w_ "\s+") s ltac:(cbn; lia) E2). lia.
  - pose proof (replace_shorter (w_ "\s\s") (w_ "\s+") s ltac:(cbn; lia) E). lia.
Qed.

(** ** No space is left *)
Lemma has_space s : ~ In 32 s -> has (w_ " ") s = false.
Proof.
  induction s as [|c s IH]; intros N; [reflexivity|]. change (has (w_ " ") (c :: s)) with ((32 =? c) && true || has (w_ " ") s).
  assert (E : (32 =? c) = false) by (apply N.eqb_neq; intros <-; apply N; left; reflexivity). rewrite E. cbn. apply IH. intros I. apply N. right. exact I.
Qed.

Lemma quest_32 q : ~ In 32 (quest q).
Proof. destruct q; cbn; intuition discriminate. Qed.

Lemma showp_32 p : ~ In 32 (RegexTree.showp (w_ "\s") p).
Proof.
  destruct p as [c|]; cbn [RegexTree.showp]; [|cbn; intuition discriminate]. destruct (N.eqb_spec c 32) as [->|N]; [cbn; intuition discriminate|].
  unfold esc. destruct (existsb _ _); cbn; intuition (subst; try discriminate; congruence).
Qed.
Lemma shows_32 ps : ~ In 32 (RegexTree.shows (w_ "\s") ps).
Proof. intros I. apply in_flat_map in I. destruct I as (p & _ & I). exact (showp_32 p I). Qed.

Lemma show_32 s : ~ In 32 (RegexTree.show (w_ "\s") s).
Proof.
  induction s as [ps t IH] using seq_ind'. cbn [RegexTree.show]. rewrite in_app_iff. intros [I|I]; [exact (shows_32 _ I)|].
  destruct t as [|alts q|ks q|p q].
  - exact I.
  - rewrite !in_app_iff in I. destruct I as [I|[I|[I|I]]]; [cbn in I; intuition discriminate| |cbn in I; intuition discriminate|exact (quest_32 q I)].
    assert (X : forall l, Forall (fun s => ~ In 32 (RegexTree.show (w_ "\s") s)) l -> ~ In 32 (flat_map (fun b => 124 :: b) (map (RegexTree.show (w_ "\s")) l))).
    { intros l F J. apply in_flat_map in J. destruct J as (b & Jb & J). apply in_map_iff in Jb. destruct Jb as (a & <- & Ja). rewrite Forall_forall in F.
      destruct J as [J|J]; [discriminate|]. exact (F a Ja J). }
    destruct alts as [|a alts]; [exact I|]. cbn [map bars] in I. inversion IH as [|? ? Ha Hal]; subst. apply in_app_iff in I. destruct I as [I|I]; [exact (Ha I)|exact (X _ Hal I)].
  - rewrite !in_app_iff in I. destruct I as [I|[I|[I|I]]]; [cbn in I; intuition discriminate|exact (shows_32 _ I)|cbn in I; intuition discriminate|exact (quest_32 q I)].
  - apply in_app_iff in I. destruct I as [I|I]; [exact (showp_32 p I)|exact (quest_32 q I)].
Qed.

(** ** No runs *)
Definition sp (p : prim) : bool := match p with PChar c => c =? 32 | PDot => false end.

Fixpoint adj (m : list bool) : bool := match m with a :: ((b :: _) as m') => a && b || adj m' | _ => false end.

(** One of the backslash, the [s] and the space does not occur. *)
Section Absent.
Variable absent : N.
Hypothesis absent_one : In absent [92; 115; 32].

Inductive spells : list bool -> str -> Prop :=
| sp_nil : spells [] []
| sp_space m s : absent <> 32 -> spells m s -> spells (true :: m) (92 :: 115 :: s)
| sp_esc c m s : c <> 115 -> (c = 92 -> absent <> 92) -> spells m s -> spells (false :: m) (92 :: c :: s)
| sp_raw c m s : c <> 92 -> (c = 115 -> absent <> 115) -> spells m s -> spells (false :: m) (c :: s).

Lemma adj_cons a b m : adj (a :: b :: m) = a && b || adj (b :: m).
Proof. reflexivity. Qed.
Lemma adj_tail a m : adj (a :: m) = false -> adj m = false.
Proof. destruct m as [|b m]; [reflexivity|]. rewrite adj_cons. intros E. apply orb_false_iff in E. apply E. Qed.

(** After a backslash no [s\s] follows. *)
Lemma spells_after m s : spells m s -> absent <> 92 -> starts [115; 92; 115] s = false.
Proof.
  intros H Na. destruct H as [|m s A H|c m s N1 N2 H|c m s N1 N2 H]; [reflexivity|reflexivity|reflexivity|]. cbn [starts].
  destruct (N.eqb_spec 115 c) as [<-|N]; [|reflexivity]. cbn [andb].
  assert (A : absent = 32). { specialize (N2 eq_refl). cbn in absent_one. intuition congruence. }
  destruct H as [|m s A' H|c m s N3 N4 H|c m s N3 N4 H]; [reflexivity|congruence| |].
  - assert (E : (115 =? c) = false) by (apply N.eqb_neq; congruence). rewrite E. reflexivity.
  - assert (E : (92 =? c) = false) by (apply N.eqb_neq; congruence). rewrite E. reflexivity.
Qed.

Lemma spells_clean m s : spells m s -> adj m = false -> has (w_ "\s\s") s = false.
Proof.
  intros H. induction H as [|m s Na H IH|c m s N1 N2 H IH|c m s N1 N2 H IH]; intros A; [reflexivity| | |].
  - specialize (IH (adj_tail _ _ A)). change (w_ "\s\s") with [92; 115; 92; 115] in *. cbn [has]. rewrite IH. cbn [starts]. change (92 =? 92) with true. change (115 =? 115) with true. change (92 =? 115) with false. cbn [andb orb].
    rewrite orb_false_r. destruct H as [|m s Na' H|c m s N1 N2 H|c m s N1 N2 H]; [reflexivity| | |].
    + rewrite adj_cons in A. discriminate.
    + assert (E : (115 =? c) = false) by (apply N.eqb_neq; congruence). rewrite E. reflexivity.
    + assert (E : (92 =? c) = false) by (apply N.eqb_neq; congruence). rewrite E. reflexivity.
  - specialize (IH (adj_tail _ _ A)). change (w_ "\s\s") with [92; 115; 92; 115] in *. cbn [has]. rewrite IH. rewrite orb_false_r.
    assert (E : (115 =? c) = false) by (apply N.eqb_neq; congruence). cbn [starts]. rewrite E. change (92 =? 92) with true. cbn [andb orb].
    destruct (N.eqb_spec 92 c) as [<-|N]; [|reflexivity]. cbn [andb orb]. apply (spells_after m s H (N2 eq_refl)).
  - specialize (IH (adj_tail _ _ A)). change (w_ "\s\s") with [92; 115; 92; 115] in *. cbn [has]. rewrite IH. cbn [starts].
    assert (E2 : (92 =? c) = false) by (apply N.eqb_neq; congruence). rewrite E2. reflexivity.
Qed.

Lemma spells_app m1 s1 m2 s2 : spells m1 s1 -> spells m2 s2 -> spells (m1 ++ m2) (s1 ++ s2).
Proof. intros H1 H2. induction H1; cbn [app]; [exact H2|constructor; auto|constructor; auto|constructor; auto]. Qed.

Definition lacks (p : prim) : Prop := p <> PChar absent.

Lemma special_not_115 c : existsb (N.eqb c) special = true -> c <> 115.
Proof. intros E ->. discriminate. Qed.

Lemma spells_p p : lacks p -> spells [sp p] (RegexTree.showp (w_ "\s") p).
Proof.
  intros N. destruct p as [c|]; cbn [RegexTree.showp sp]; [|apply sp_raw; [discriminate|discriminate|constructor]].
  assert (Nc : c <> absent) by (intros ->; apply N; reflexivity). destruct (N.eqb_spec c 32) as [->|E]; [apply sp_space; [congruence|constructor]|].
  unfold esc. destruct (existsb (N.eqb c) special) eqn:Es; [apply sp_esc; [apply special_not_115; exact Es|congruence|constructor]|].
  apply sp_raw; [intros ->; discriminate|congruence|constructor].
Qed.

Lemma spells_ps ps : Forall lacks ps -> spells (map sp ps) (RegexTree.shows (w_ "\s") ps).
Proof.
  intros F. induction F as [|p ps N F IH]; [constructor|]. unfold RegexTree.shows. cbn [map flat_map]. apply (spells_app [sp p]); [apply spells_p; exact N|exact IH].
Qed.

Lemma adj_false m1 m2 : adj m1 = false -> adj m2 = false -> adj (m1 ++ false :: m2) = false.
Proof.
  intros A1 A2. induction m1 as [|a m1 IH]; [cbn [app]; destruct m2; [reflexivity|exact A2]|]. specialize (IH (adj_tail _ _ A1)).
  destruct m1 as [|b m1].
  - cbn [app] in *. rewrite adj_cons, andb_false_r. exact IH.
  - cbn [app] in *. change (adj (a :: b :: m1 ++ false :: m2)) with (a && b || adj (b :: m1 ++ false :: m2)). rewrite IH.
    rewrite adj_cons in A1. apply orb_false_iff in A1. destruct A1 as [-> _]. reflexivity.
Qed.
Lemma adj_end m : adj m = false -> adj (m ++ [false]) = false.
Proof. intros A. apply (adj_false m []); [exact A|reflexivity]. Qed.

(** A tree whose expression has no [\s\s]. *)
Definition lone (ps : list prim) : Prop := adj (map sp ps) = false.

Inductive tidy : seq -> Prop :=
| tidy_nil ps : Forall lacks ps -> lone ps -> tidy (Seq ps Nil)
| tidy_K ps ks q : Forall lacks (ps ++ ks) -> lone ps -> lone ks -> (forall k, In k ks -> lone (ps ++ [k])) -> tidy (Seq ps (K ks q))
| tidy_P ps p q : Forall lacks (ps ++ [p]) -> lone (ps ++ [p]) -> tidy (Seq ps (P p q))
| tidy_G ps alts q : Forall lacks ps -> lone ps -> (forall a, In a alts -> tidy a /\ lone (ps ++ heads a)) -> tidy (Seq ps (G alts q)).

Lemma spells_quest q : exists m, spells m (quest q) /\ (m = [] \/ m = [false]).
Proof. destruct q; [exists [false]|exists []]; split; auto; cbn [quest]; repeat (apply sp_raw; [discriminate|discriminate|]); constructor. Qed.

Lemma spells_show s : tidy s -> exists m, spells m (RegexTree.show (w_ "\s") s) /\ adj m = false.
Proof.
  induction s as [ps t IH] using seq_ind'. intros T. inversion T as [? N A|? ks q N A Ak B|? p q N A|? alts q N A B]; subst; cbn [RegexTree.show].
  - exists (map sp ps ++ []). split; [apply spells_app; [apply spells_ps; exact N|constructor]|]. rewrite app_nil_r. exact A.
  - destruct (spells_quest q) as (mq & Hq & Eq). apply Forall_app in N. destruct N as [N1 N2].
    exists (map sp ps ++ [false] ++ map sp ks ++ [false] ++ mq). split.
    + apply spells_app; [apply spells_ps; exact N1|]. apply spells_app; [repeat (apply sp_raw; [discriminate|discriminate|]); constructor|].
      apply spells_app; [apply spells_ps; exact N2|]. apply spells_app; [repeat (apply sp_raw; [discriminate|discriminate|]); constructor|exact Hq].
    + cbn [app]. apply adj_false; [exact A|]. apply adj_false; [exact Ak|]. destruct Eq as [->| ->]; reflexivity.
  - destruct (spells_quest q) as (mq & Hq & Eq). apply Forall_app in N. destruct N as [N1 N2]. apply Forall_inv in N2.
    exists (map sp ps ++ [sp p] ++ mq). split.
    + apply spells_app; [apply spells_ps; exact N1|]. apply spells_app; [apply spells_p; exact N2|exact Hq].
    + unfold lone in A. rewrite map_app in A. cbn [map] in A. destruct Eq as [->| ->]; [exact A|]. rewrite app_assoc. apply adj_end. exact A.
  - destruct (spells_quest q) as (mq & Hq & Eq).
    assert (X : exists mb, spells mb (bars (map (RegexTree.show (w_ "\s")) alts)) /\ adj mb = false).
    { rewrite Forall_forall in IH. assert (Y : forall a, In a alts -> exists m, spells m (RegexTree.show (w_ "\s") a) /\ adj m = false) by (intros a I; apply IH; [exact I|apply B; exact I]).
      clear -Y. assert (Z : forall l, (forall a, In a l -> In a alts) -> exists m, spells m (flat_map (fun b => 124 :: b) (map (RegexTree.show (w_ "\s")) l)) /\ adj (false :: m) = false /\ (m = [] \/ exists m', m = false :: m')).
      { induction l as [|a l IHl]; intros Sub; [exists []; repeat split; [constructor|left; reflexivity]|].
        destruct (Y a (Sub a (or_introl eq_refl))) as (ma & Ha & Aa). destruct IHl as (ml & Hl & Al & El); [intros; apply Sub; right; auto|].
        exists (false :: ma ++ ml). split; [|split].
        - cbn [map flat_map app]. apply sp_raw; [discriminate|discriminate|]. apply spells_app; auto.
        - rewrite adj_cons. apply (adj_false []); [reflexivity|]. destruct El as [->|(m' & ->)]; [rewrite app_nil_r; exact Aa|]. apply adj_false; [exact Aa|]. apply adj_tail in Al. apply adj_tail in Al. exact Al.
        - right. eauto. }
      destruct alts as [|a l]; [exists []; split; [constructor|reflexivity]|]. destruct (Y a (or_introl eq_refl)) as (ma & Ha & Aa).
      destruct (Z l (fun b I => or_intror I)) as (ml & Hl & Al & El). exists (ma ++ ml). cbn [map bars]. split; [apply spells_app; auto|].
      destruct El as [->|(m' & ->)]; [rewrite app_nil_r; exact Aa|]. apply adj_false; [exact Aa|]. apply adj_tail in Al. apply adj_tail in Al. exact Al. }
    destruct X as (mb & Hb & Ab). exists (map sp ps ++ [false; false; false] ++ mb ++ [false] ++ mq). split.
    + apply spells_app; [apply spells_ps; exact N|]. apply spells_app; [repeat (apply sp_raw; [discriminate|discriminate|]); constructor|].
      apply spells_app; [exact Hb|]. apply spells_app; [repeat (apply sp_raw; [discriminate|discriminate|]); constructor|exact Hq].
    + cbn [app]. apply adj_false; [exact A|]. apply (adj_false []); [reflexivity|]. apply (adj_false []); [reflexivity|].
      apply adj_false; [exact Ab|]. destruct Eq as [->| ->]; reflexivity.
Qed.

Lemma tidy_clean bd s : tidy s -> has (w_ "\s\s") (opening bd ++ RegexTree.show (w_ "\s") s ++ closing bd) = false.
Proof.
  intros T. destruct (spells_show s T) as (m & H & A).
  assert (Ho : exists mo, spells (mo ++ [false]) (opening bd) /\ adj mo = false).
  { destruct bd; cbn [opening].
    - exists [false; false; false]. split; [|reflexivity]. cbn. repeat (apply sp_raw; [discriminate|discriminate|]). apply sp_esc; [discriminate|discriminate|constructor].
    - exists [false; false]. split; [|reflexivity]. cbn. repeat (apply sp_raw; [discriminate|discriminate|]). constructor. }
  assert (Hc : exists mc, spells (false :: mc) (closing bd) /\ adj mc = false).
  { destruct bd; cbn [closing].
    - exists [false]. split; [|reflexivity]. cbn. apply sp_esc; [discriminate|discriminate|]. apply sp_raw; [discriminate|discriminate|constructor].
    - exists []. split; [|reflexivity]. cbn. apply sp_raw; [discriminate|discriminate|constructor]. }
  destruct Ho as (mo & Ho & Ao). destruct Hc as (mc & Hc & Ac).
  eapply spells_clean; [apply spells_app; [exact Ho|apply spells_app; [exact H|exact Hc]]|].
  rewrite <- app_assoc. cbn [app]. apply adj_false; [exact Ao|]. apply adj_false; [exact A|exact Ac].
Qed.

(** ** The rules keep a tree tidy *)
Section Rules.
Variable is_space : N -> bool.
Hypothesis space_is_space : is_space 32 = true.
Notation apart := (apart is_space true).

Lemma off_spaces p q : off is_space true p q -> sp p = true -> sp q = true -> False.
Proof.
  intros O Ep Eq. destruct p as [c|]; [|discriminate]. destruct q as [d|]; [|discriminate]. cbn [sp] in *. apply N.eqb_eq in Ep, Eq. subst.
  apply (O 32); cbn [den]; cbn; exact space_is_space.
Qed.

Lemma one_space ks : ForallOrdPairs (off_seq is_space true) (map (fun p => Seq [p] Nil) ks) -> lone ks.
Proof.
  intros F. unfold lone. induction ks as [|p ks IH]; [reflexivity|]. cbn [map] in F. inversion F as [|? ? F1 F2]; subst. specialize (IH F2).
  destruct ks as [|p2 ks]; [reflexivity|]. cbn [map] in *. rewrite adj_cons, IH, orb_false_r. cbn [map] in F1. apply Forall_inv in F1.
  destruct (sp p) eqn:E1; [|reflexivity]. destruct (sp p2) eqn:E2; [|reflexivity]. exfalso. eapply off_spaces; [|exact E1|exact E2]. apply F1; reflexivity.
Qed.

Lemma pass_tidy hitG hitK s :
  (forall ps alts f q, hitG ps alts = Some f -> apart (Seq ps (G alts q)) -> tidy (Seq ps (G alts q)) -> tidy (Seq ps (f q))) ->
  (forall ps ks f q, hitK ps ks = Some f -> tidy (Seq ps (K ks q)) -> tidy (Seq ps (f q))) ->
  apart s -> tidy s -> tidy (pass hitG hitK s).
Proof.
  intros HG HK. induction s as [ps t IH] using seq_ind'. intros A T. cbn [pass]. destruct t as [|alts q|ks q|p q]; try exact T.
  - destruct (hitG ps alts) eqn:E; [eauto|]. inversion T as [| | |? ? ? N Lo B]; subst. inversion A as [| | |? ? ? Fo Aa]; subst. rewrite Forall_forall in IH.
    constructor; auto. intros a I. apply in_map_iff in I. destruct I as (a' & <- & I). rewrite pass_heads. destruct (B a' I). split; auto.
  - destruct (hitK ps ks) eqn:E; [eauto|exact T].
Qed.

Lemma simpler_tidy s : apart s -> tidy s -> tidy (simpler s).
Proof.
  intros A T. unfold simpler.
  assert (A1 : apart (pass1 s)).
  { apply pass_apart; [|discriminate|exact A]. intros ps alts f q E. unfold hitG1 in E. destruct (ends_bs ps); [discriminate|]. destruct (simples alts); [|discriminate]. injection E as <-. constructor. }
  assert (A4 : apart (pass4 (pass1 s))).
  { apply pass_apart; [discriminate| |exact A1]. intros ps ks f q E. unfold hitK4 in E. destruct ks as [|p [|]]; try discriminate. destruct (ends_bs ps || is_nl p); [discriminate|]. injection E as <-. constructor. }
  apply pass_tidy; [|discriminate|exact A4|].
  { intros ps alts f q E Ag Tg. unfold hitG5 in E. destruct alts as [|a [|]]; try discriminate. destruct (simple a) as [p|] eqn:Es; [|discriminate]. injection E as <-.
    apply simple_show in Es. destruct Es as (-> & _ & _). inversion Tg as [| | |? ? ? N Lo B]; subst. destruct (B _ (or_introl eq_refl)) as [Ta La]. cbn [heads] in La.
    inversion Ta as [? N' _| | |]; subst. constructor; [apply Forall_app; auto|exact La]. }
  apply pass_tidy; [discriminate| |exact A1|].
  { intros ps ks f q E Tg. unfold hitK4 in E. destruct ks as [|p [|]]; try discriminate. destruct (ends_bs ps || is_nl p); [discriminate|]. injection E as <-.
    inversion Tg as [|? ? ? N Lo Lk B| |]; subst. constructor; [exact N|]. apply B. left. reflexivity. }
  apply pass_tidy; [|discriminate|exact A|exact T].
  intros ps alts f q E Ag Tg. unfold hitG1 in E. destruct (ends_bs ps); [discriminate|]. destruct (simples alts) as [ks|] eqn:Es; [|discriminate]. injection E as <-.
  destruct (simples_show _ _ Es) as (_ & -> & _). inversion Tg as [| | |? ? ? N Lo B]; subst. inversion Ag as [| | |? ? ? Fo Aa]; subst.
  assert (Bk : forall k, In k ks -> lacks k /\ lone (ps ++ [k])).
  { intros k I. destruct (B (Seq [k] Nil) (in_map (fun p => Seq [p] Nil) _ _ I)) as [Tk Lk]. inversion Tk as [? N' _| | |]; subst. apply Forall_inv in N'. split; auto. }
  constructor.
  - apply Forall_app. split; [exact N|]. apply Forall_forall. intros k I. apply Bk. exact I.
  - exact Lo.
  - apply one_space. exact Fo.
  - intros k I. apply Bk. exact I.
Qed.
End Rules.

(** ** The tree of a trie is tidy *)
Section Trie.
Context {V : Type}.
Variable prims_of : str -> list prim.
Notation build := (@build V prims_of).
Notation flat := (flat_map prims_of).

Lemma build_heads (n : node str V) : wf n -> live n -> exists ts rest, look ts n <> None /\ flat ts = heads (build n) ++ rest.
Proof.
  induction n as [v cs IH] using node_ind'. intros W Lv.
  assert (X : heads (build (Node v cs)) = [] -> exists ts rest, look ts (Node v cs) <> None /\ flat ts = heads (build (Node v cs)) ++ rest).
  { intros E. destruct (live_has _ Lv) as (ts & H). exists ts, (flat ts). rewrite E. auto. }
  cbn [RegexTree.build] in *. destruct cs as [|[k c] [|kc2 cs]]; cbn [map] in *; destruct v as [v|]; try (apply X; reflexivity).
  clear X. cbn [fst snd].
  assert (D : dget k [(k, c)] = Some c). { apply wf_split in W. apply In_dget; [apply W|left; reflexivity]. }
  assert (Wc : wf c) by (eapply wf_child; [exact W|exact D]).
  assert (Lc : live c). { apply live_split in Lv. eapply live_child; [apply (proj2 Lv)|exact D]. }
  apply Forall_inv in IH. destruct (IH Wc Lc) as (ts & rest & Hl & E). cbn [snd] in *. exists (k :: ts), rest. split.
  - rewrite look_cons. cbn [children]. rewrite D. exact Hl.
  - destruct (build c) as [ps t]. cbn [add heads flat_map] in *. rewrite E, app_assoc. reflexivity.
Qed.

Lemma adj_app_l m1 m2 : adj (m1 ++ m2) = false -> adj m1 = false.
Proof.
  induction m1 as [|a m1 IH]; [reflexivity|]. intros A. specialize (IH (adj_tail _ _ A)). destruct m1 as [|b m1]; [reflexivity|].
  cbn [app] in *. rewrite adj_cons in *. apply orb_false_iff in A. destruct A as [-> _]. exact IH.
Qed.
Lemma adj_app_r m1 m2 : adj (m1 ++ m2) = false -> adj m2 = false.
Proof. induction m1 as [|a m1 IH]; [auto|]. intros A. apply IH. eapply adj_tail. exact A. Qed.
Lemma lone_l a b : lone (a ++ b) -> lone a.
Proof. unfold lone. rewrite map_app. apply adj_app_l. Qed.
Lemma lone_r a b : lone (a ++ b) -> lone b.
Proof. unfold lone. rewrite map_app. apply adj_app_r. Qed.

Lemma build_tidy (n : node str V) : wf n -> live n -> forall ps, Forall lacks ps ->
  (forall ts, look ts n <> None -> Forall lacks (flat ts) /\ lone (ps ++ flat ts)) -> tidy (add ps (build n)).
Proof.
  induction n as [v cs IH] using node_ind'. intros W Lv ps N H.
  set (alts := map (fun kc => add (prims_of (fst kc)) (build (snd kc))) cs).
  assert (Lp : lone ps). { destruct (live_has _ Lv) as (ts & Hl). eapply lone_l. apply (H ts Hl). }
  assert (Ha : forall a, In a alts -> tidy a /\ lone (ps ++ heads a)).
  { intros a I. apply in_map_iff in I. destruct I as ([k c] & <- & I). cbn [fst snd].
    assert (D : dget k cs = Some c). { apply wf_split in W. apply In_dget; [apply W|exact I]. }
    assert (Wc : wf c) by (eapply wf_child; [exact W|exact D]).
    assert (Lc : live c). { apply live_split in Lv. eapply live_child; [apply (proj2 Lv)|exact D]. }
    assert (Hc : forall ts, look ts c <> None -> Forall lacks (prims_of k) /\ Forall lacks (flat ts) /\ lone (ps ++ prims_of k ++ flat ts)).
    { intros ts Hl. assert (Hl' : look (k :: ts) (Node v cs) <> None) by (rewrite look_cons; cbn [children]; rewrite D; exact Hl).
      destruct (H _ Hl') as [H1 H2]. cbn [flat_map] in H1, H2. apply Forall_app in H1. tauto. }
    destruct (live_has c Lc) as (ts0 & Hl0).
    split.
    - rewrite Forall_forall in IH. specialize (IH (k, c) I Wc Lc (prims_of k)). cbn [snd] in IH. apply IH; [apply (Hc ts0 Hl0)|].
      intros ts Hl. split; [apply (Hc ts Hl)|]. eapply lone_r. apply (Hc ts Hl).
    - destruct (build_heads c Wc Lc) as (ts & rest & Hl & E). destruct (Hc ts Hl) as (_ & _ & Lo). rewrite E in Lo.
      destruct (build c) as [ps' t]. cbn [add heads] in *. rewrite !app_assoc in Lo. apply lone_l in Lo. rewrite <- app_assoc in Lo. exact Lo. }
  cbn [RegexTree.build]. fold alts.
  assert (HGq : forall q, tidy (add ps (Seq [] (G (rev alts) q)))).
  { intros q. cbn [add]. rewrite app_nil_r. constructor; auto. intros a I. apply Ha. apply in_rev. exact I. }
  assert (Hn : tidy (add ps (Seq [] Nil))) by (cbn [add]; rewrite app_nil_r; constructor; auto).
  destruct alts as [|a [|a2 al]] eqn:Ea; destruct v as [v|]; try apply HGq; try exact Hn.
  (* one child, no value *)
  subst alts. destruct cs as [|[k c] [|]]; try discriminate. injection Ea as <-. cbn [fst snd].
  assert (D : dget k [(k, c)] = Some c). { apply wf_split in W. apply In_dget; [apply W|left; reflexivity]. }
  assert (Wc : wf c) by (eapply wf_child; [exact W|exact D]).
  assert (Lc : live c). { apply live_split in Lv. eapply live_child; [apply (proj2 Lv)|exact D]. }
  assert (Hc : forall ts, look ts c <> None -> Forall lacks (prims_of k) /\ Forall lacks (flat ts) /\ lone (ps ++ prims_of k ++ flat ts)).
  { intros ts Hl. assert (Hl' : look (k :: ts) (Node None [(k, c)]) <> None) by (rewrite look_cons; cbn [children]; rewrite D; exact Hl).
    destruct (H _ Hl') as [H1 H2]. cbn [flat_map] in H1, H2. apply Forall_app in H1. tauto. }
  destruct (live_has c Lc) as (ts0 & Hl0). apply Forall_inv in IH. cbn [snd] in IH.
  assert (E : add ps (add (prims_of k) (build c)) = add (ps ++ prims_of k) (build c)) by (destruct (build c); cbn [add]; rewrite app_assoc; reflexivity).
  rewrite E. apply IH; auto.
  - apply Forall_app. split; [exact N|apply (Hc ts0 Hl0)].
  - intros ts Hl. destruct (Hc ts Hl) as (H1 & H2 & H3). split; [exact H2|]. rewrite <- app_assoc. exact H3.
Qed.
End Trie.
End Absent.
