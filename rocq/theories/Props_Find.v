(** Theorems about scanning with experiments/find_replace_trie.py, [Trie]:
    properties C40, C41. *)
From Coq Require Import ZArith NArith List Bool Permutation Lia Sorted String.
From Verif Require Import Py ListAux PyDict TrieSpec TrieModel TrieProofs TrieScan TrieFind TrieLongest NmdSpec IndexModel Props_Index Props_Trie Ex.
Import ListNotations.
Open Scope string_scope.
Open Scope list_scope.

(** ** The specification determines the answer *)
Section Unique.
Context {T V : Type}.
Variable m : list T -> option V.

Lemma app_prefix {A} (a b c d : list A) : a ++ b = c ++ d -> List.length a = List.length c -> a = c /\ b = d.
Proof.
  revert c. induction a as [|x a IH]; intros [|y c] E L; cbn in *; try discriminate; auto.
  injection E as <- E. destruct (IH c E) as [-> ->]; auto.
Qed.

Lemma longest_unique k rest v k' rest' v' : longest_key m k rest v -> longest_key m k' rest' v' -> k ++ rest = k' ++ rest' -> k = k' /\ rest = rest' /\ v = v'.
Proof.
  intros (N & M & L) (N' & M' & L') E.
  assert (X : List.length k = List.length k').
  { destruct (Nat.lt_trichotomy (List.length k) (List.length k')) as [X|[X|X]]; auto; exfalso.
    - rewrite (L k' rest') in M'; [discriminate|auto|auto].
    - rewrite (L' k rest) in M; [discriminate|auto|auto]. }
  destruct (app_prefix k rest k' rest' E X) as [-> ->]. repeat split. congruence.
Qed.

Lemma longest_not_none k rest v l : longest_key m k rest v -> k ++ rest = l -> no_key m l -> False.
Proof. intros (N & M & _) E X. rewrite (X k rest E N) in M. discriminate. Qed.

Lemma empty_longest k rest v : longest_key m k rest v -> k ++ rest = [] -> False.
Proof. intros (N & _) E. apply app_eq_nil in E. tauto. Qed.

(** A text is rewritten in one way only. *)
Theorem rewritten_unique : forall vt l o1 o2, rewritten m vt l o1 -> rewritten m vt l o2 -> o1 = o2.
Proof.
  intros vt l o1 o2 R. revert o2. induction R as [|k rest v out Lk R IH|x rest out N R IH]; intros o2 R2.
  - inversion R2 as [|k rest v out Lk R' E|]; subst; auto. destruct Lk as (Nk & _). apply app_eq_nil in E. destruct E. congruence.
  - inversion R2 as [E|k' rest' v' out' Lk' R' E|x rest' out' N' R' E]; subst.
    + destruct Lk as (Nk & _). symmetry in E. apply app_eq_nil in E. destruct E. congruence.
    + destruct (longest_unique _ _ _ _ _ _ Lk Lk' (eq_sym E)) as (-> & -> & ->). f_equal. auto.
    + exfalso. match goal with L : longest_key m ?k ?r _, N0 : no_key m _ |- _ => eapply (longest_not_none k r); [exact L| |exact N0]; congruence end.
  - inversion R2 as [E|k' rest' v' out' Lk' R' E|x' rest' out' N' R' E]; subst.
    + exfalso. match goal with L : longest_key m ?k ?r _, N0 : no_key m _ |- _ => eapply (longest_not_none k r); [exact L| |exact N0]; congruence end.
    + f_equal. auto.
Qed.

Theorem scanned_unique : forall pos l ms1 ms2, scanned m pos l ms1 -> scanned m pos l ms2 -> ms1 = ms2.
Proof.
  intros pos l ms1 ms2 R. revert ms2. induction R as [|pos k rest v ms Lk R IH|pos x rest ms N R IH]; intros ms2 R2.
  - inversion R2; subst; auto. exfalso. eapply empty_longest; eauto.
  - inversion R2; subst.
    + exfalso. eapply empty_longest; eauto.
    + match goal with L : longest_key m ?k' ?r' _, E : ?k' ++ ?r' = k ++ rest |- _ => destruct (longest_unique _ _ _ _ _ _ Lk L (eq_sym E)) as (-> & -> & ->) end. f_equal. auto.
    + exfalso. eapply longest_not_none; [exact Lk| |eassumption]. congruence.
  - inversion R2; subst.
    + exfalso. eapply longest_not_none; [eassumption| |exact N]. congruence.
    + auto.
Qed.

(** A text in which no key occurs is copied. *)
Lemma rewritten_none vt l : (forall s e k, ~ occurs m l s e k) -> rewritten m vt l l.
Proof.
  induction l as [|x l IH]; intros N; constructor.
  - intros k rest E Nk. destruct (m k) eqn:Ek; auto. exfalso. apply (N 0 (List.length k) k). split; [destruct k; [congruence|cbn; lia]|].
    split; [exists [], rest; auto|congruence].
  - apply IH. intros s e k (L & (a & b & E & La & Le) & Mk). apply (N (S s) (S e) k). split; [lia|]. split; [|exact Mk]. exists (x :: a), b. subst. cbn. auto.
Qed.

(** The leftmost-longest matches are occurrences, ascending and disjoint; none
    of them could be longer, and an occurrence that is missing starts inside one. *)
Lemma scanned_facts pos l ms : scanned m pos l ms ->
  StronglySorted (fun a b => snd (fst a) <= fst (fst b)) ms /\
  (forall s e k, In (s, e, k) ms -> pos <= s /\ occurs m l (s - pos) (e - pos) k) /\
  (forall s e k e' k', In (s, e, k) ms -> occurs m l (s - pos) (e' - pos) k' -> pos <= e' -> e' <= e) /\
  (forall s e k, occurs m l s e k -> exists s' e' k', In (s', e', k') ms /\ s' <= pos + s < e').
Proof.
  induction 1 as [pos|pos k rest v ms Lk R (S1 & S2 & S3 & S4)|pos x rest ms N R (S1 & S2 & S3 & S4)].
  - split; [constructor|]. split; [intros s e k []|]. split; [intros s e k e' k' []|]. intros s e k (L & (a & b & E & La & Le) & Mk).
    symmetry in E. apply app_eq_nil in E. destruct E as [-> E]. apply app_eq_nil in E. destruct E as [-> _]. cbn in *. lia.
  - destruct Lk as (Nk & Mk & Lk). assert (Lp : 0 < List.length k) by (destruct k; [congruence|cbn; lia]).
    assert (Down : forall s e k0, List.length k <= s -> occurs m (k ++ rest) s e k0 -> occurs m rest (s - List.length k) (e - List.length k) k0).
    { intros s e k0 Ls (L & (a & b & E & La & Le) & M0). split; [lia|]. split; [|exact M0].
      assert (Ea : exists a', a = k ++ a' /\ rest = a' ++ k0 ++ b).
      { exists (skipn (List.length k) a). rewrite <- (firstn_skipn (List.length k) a) in E. rewrite <- app_assoc in E.
        destruct (app_prefix _ _ _ _ E) as [E1 E2]; [rewrite firstn_length; lia|]. split; [|exact E2]. rewrite E1 at 1. rewrite firstn_skipn. reflexivity. }
      destruct Ea as (a' & -> & ->). exists a', b. rewrite app_length in La. repeat split; lia. }
    split; [|split; [|split]].
    + constructor; auto. apply Forall_forall. intros [[s e] k0] I. cbn. apply S2 in I. lia.
    + intros s e k0 [E|I].
      * injection E as <- <- <-. split; [lia|]. replace (pos - pos) with 0 by lia. replace (pos + List.length k - pos) with (List.length k) by lia.
        split; [lia|]. split; [exists [], rest; auto|congruence].
      * apply S2 in I. destruct I as [Ls (L & (a & b & -> & La & Le) & M0)]. split; [lia|]. split; [lia|]. split; [|exact M0].
        exists (k ++ a), b. rewrite app_length, <- app_assoc. repeat split; lia.
    + intros s e k0 e' k' [E|I] Oc Le'.
      * injection E as <- <- <-. replace (pos - pos) with 0 in Oc by lia. destruct Oc as (L & (a & b & E & La & Le) & M0).
        destruct a; [|discriminate]. cbn in E, Le. destruct (Nat.le_gt_cases (List.length k') (List.length k)); [lia|]. exfalso. apply M0. eapply Lk; eauto.
      * pose proof (S2 s e k0 I) as [Ls _]. apply Down in Oc; [|lia].
        replace (s - pos - List.length k) with (s - (pos + List.length k)) in Oc by lia. replace (e' - pos - List.length k) with (e' - (pos + List.length k)) in Oc by lia.
        apply (S3 s e k0 e' k' I Oc). destruct Oc as (L & _). lia.
    + intros s e k0 Oc. destruct (Nat.le_gt_cases (List.length k) s) as [Ls|Ls].
      * apply Down in Oc; auto. destruct (S4 _ _ _ Oc) as (s' & e' & k' & I & R'). exists s', e', k'. split; [right; exact I|lia].
      * exists pos, (pos + List.length k), k. split; [left; reflexivity|lia].
  - assert (Down : forall s e k0, occurs m (x :: rest) (S s) (S e) k0 -> occurs m rest s e k0).
    { intros s e k0 (L & (a & b & E & La & Le) & M0). split; [lia|]. split; [|exact M0]. destruct a as [|y a]; [discriminate|]. injection E as <- E. exists a, b. cbn in La. repeat split; auto; lia. }
    split; [exact S1|]. split; [|split].
    + intros s e k I. apply S2 in I. destruct I as [Ls (L & (a & b & -> & La & Le) & M0)]. split; [lia|]. split; [lia|]. split; [|exact M0].
      exists (x :: a), b. cbn. repeat split; lia.
    + intros s e k e' k' I Oc Le'. pose proof (S2 s e k I) as [Ls _].
      assert (Le2 : S pos <= e') by (destruct Oc; lia).
      replace (s - pos) with (S (s - S pos)) in Oc by lia. replace (e' - pos) with (S (e' - S pos)) in Oc by lia. apply Down in Oc. eapply S3; eauto.
    + intros s e k Oc. destruct s as [|s].
      * exfalso. destruct Oc as (L & (a & b & E & La & Le) & M0). destruct a; [|discriminate]. apply M0. eapply (N k b); [symmetry; exact E|]. intros ->. cbn in Le. lia.
      * destruct e as [|e]; [destruct Oc; lia|]. apply Down in Oc. destruct (S4 _ _ _ Oc) as (s' & e' & k' & I & R'). exists s', e', k'. split; [exact I|lia].
Qed.
End Unique.
Print Assumptions rewritten_unique.
Print Assumptions scanned_unique.

Section Theorems.
Context {T V K : Type} `{EqDec T}.
Variable tokenizer : K -> list T.
Variable detokenizer : list T -> K.

(** [m] is the dict from token lists that the trie answers from. *)
Definition answers (t : trie T V) (m : list T -> option V) : Prop :=
  (forall k, getitem tokenizer t k = match m (tokenizer k) with Some v => Ok v | None => Err KeyError end) /\
  (forall ts, m ts <> None -> exists k, ts = tokenizer k).

(** A trie reached by a history of operations. *)
Definition reached (t : trie T V) : Prop := exists os : list (op T V K),
  ((forall k, tokenizer (detokenizer (tokenizer k)) = tokenizer k) \/ ~ In (Pop None) os) /\ t = fst (run tokenizer detokenizer new_trie os).

Lemma reached_good t : reached t -> good tokenizer t.
Proof. intros (os & RT & ->). apply run_ok; auto. apply good_new. Qed.

Lemma answers_look t m : reached t -> answers t m -> forall ts, m ts = look ts (root t).
Proof.
  intros Rt [A1 A2] ts. pose proof (g_keys tokenizer t (reached_good t Rt) ts) as G.
  assert (D : (exists k, ts = tokenizer k) \/ (m ts = None /\ look ts (root t) = None)).
  { destruct (m ts) eqn:E1; [left; apply A2; congruence|]. destruct (look ts (root t)) eqn:E2; [left; apply G; congruence|auto]. }
  destruct D as [(k & ->)|[-> ->]]; [|reflexivity]. specialize (A1 k). rewrite getitem_look in A1.
  destruct (m (tokenizer k)), (look (tokenizer k) (root t)); congruence.
Qed.

Lemma longest_ext (m m' : list T -> option V) k rest v : (forall ts, m ts = m' ts) -> longest_key m k rest v -> longest_key m' k rest v.
Proof. intros E (A & B & C). split; auto. split; [congruence|]. intros k' r' X Y. rewrite <- E. eauto. Qed.
Lemma no_key_ext (m m' : list T -> option V) l : (forall ts, m ts = m' ts) -> no_key m l -> no_key m' l.
Proof. intros E A k rest X Y. rewrite <- E. eauto. Qed.
Lemma rewritten_ext (m m' : list T -> option V) vt l o : (forall ts, m ts = m' ts) -> rewritten m vt l o -> rewritten m' vt l o.
Proof. intros E. induction 1; constructor; eauto using longest_ext, no_key_ext. Qed.
Lemma scanned_ext (m m' : list T -> option V) p l o : (forall ts, m ts = m' ts) -> scanned m p l o -> scanned m' p l o.
Proof. intros E. induction 1; econstructor; eauto using longest_ext, no_key_ext. Qed.
Lemma occurs_ext (m m' : list T -> option V) l s e k : (forall ts, m ts = m' ts) -> occurs m l s e k <-> occurs m' l s e k.
Proof. intros E. unfold occurs. rewrite E. tauto. Qed.

(** C40 [translate] replaces the longest key at each position, left to right;
    here for any way of splitting the values into tokens. *)
Theorem translate_leftmost_longest : forall (value_tokens : V -> list T) t m, reached t -> answers t m ->
  forall text, exists out, translate tokenizer detokenizer value_tokens t text = Ok (detokenizer out) /\ rewritten m value_tokens (tokenizer text) out.
Proof.
  intros vt t m Rt At text. destruct (translate_tokens_ok (root t) vt t (tokenizer text) eq_refl) as (out & E & R).
  exists out. unfold translate. rewrite E. split; [reflexivity|]. eapply rewritten_ext; [|exact R]. intros ts. symmetry. apply answers_look; auto.
Qed.

Theorem translate_without_key : forall (value_tokens : V -> list T) t m, reached t -> answers t m ->
  forall text, (forall s e k, ~ occurs m (tokenizer text) s e k) -> translate tokenizer detokenizer value_tokens t text = Ok (detokenizer (tokenizer text)).
Proof.
  intros vt t m Rt At text N. destruct (translate_leftmost_longest vt t m Rt At text) as (out & E & R). rewrite E.
  rewrite (rewritten_unique m vt _ _ _ R (rewritten_none m vt _ N)). reflexivity.
Qed.

(** C41 [finditer()] yields the leftmost-longest matches. *)
Theorem finditer_leftmost_longest : forall t m, reached t -> answers t m -> forall text, exists ms,
  finditer tokenizer detokenizer t text false = Ok (map (fun x => (fst x, detokenizer (snd x))) ms) /\
  scanned m 0 (tokenizer text) ms.
Proof.
  intros t m Rt At text. destruct (finditer_ok detokenizer (root t) tokenizer t text eq_refl) as (ms & E & R). exists ms. split; [exact E|].
  eapply scanned_ext; [|exact R]. intros ts. symmetry. apply answers_look; auto.
Qed.

(** ... that is: disjoint occurrences in ascending order, each the longest at its
    start, and every other occurrence starts inside one of them. *)
Theorem finditer_disjoint : forall t m, reached t -> answers t m -> forall text, exists ms,
  finditer tokenizer detokenizer t text false = Ok (map (fun x => (fst x, detokenizer (snd x))) ms) /\
  StronglySorted (fun a b => snd (fst a) <= fst (fst b)) ms /\
  (forall s e k, In (s, e, k) ms -> occurs m (tokenizer text) s e k) /\
  (forall s e k e' k', In (s, e, k) ms -> occurs m (tokenizer text) s e' k' -> e' <= e) /\
  (forall s e k, occurs m (tokenizer text) s e k -> exists s' e' k', In (s', e', k') ms /\ s' <= s < e').
Proof.
  intros t m Rt At text. destruct (finditer_leftmost_longest t m Rt At text) as (ms & E & R). exists ms. split; [exact E|].
  destruct (scanned_facts m _ _ _ R) as (S1 & S2 & S3 & S4). split; [exact S1|]. split; [|split].
  - intros s e k I. destruct (S2 s e k I) as [_ Oc]. rewrite !Nat.sub_0_r in Oc. exact Oc.
  - intros s e k e' k' I Oc. apply (S3 s e k e' k' I); [rewrite !Nat.sub_0_r; exact Oc|lia].
  - intros s e k Oc. destruct (S4 s e k Oc) as (s' & e' & k' & I & L). exists s', e', k'. auto.
Qed.

(** [finditer(allow_overlapping=True)] yields every occurrence once, by end
    and then by start. *)
Theorem finditer_overlapping : forall t m, reached t -> answers t m -> forall text, exists ms,
  finditer tokenizer detokenizer t text true = Ok (map (fun x => (fst x, detokenizer (snd x))) ms) /\
  (forall s e k, In (s, e, k) ms <-> occurs m (tokenizer text) s e k) /\ NoDup (map fst ms) /\
  StronglySorted (fun a b => snd (fst a) < snd (fst b) \/ (snd (fst a) = snd (fst b) /\ fst (fst a) < fst (fst b))) ms.
Proof.
  intros t m Rt At text. destruct (finditer_overlapping_ok detokenizer (root t) tokenizer t text eq_refl) as (ms & E & So & I). exists ms.
  split; [exact E|]. split; [|split; [|exact So]].
  - intros s e k. rewrite I. apply occurs_ext. intros ts. symmetry. apply answers_look; auto.
  - clear -So. induction So as [|a l S IH F]; cbn; constructor; auto. intros X. apply in_map_iff in X. destruct X as (b & Eb & Ib).
    rewrite Forall_forall in F. specialize (F b Ib). unfold by_end in F. rewrite Eb in F. lia.
Qed.

(** [search] finds a match exactly if a key occurs, in both modes: the leftmost
    one, or the one that ends first. *)
Theorem search_finds : forall t m, reached t -> answers t m -> forall text ov, exists r,
  search tokenizer detokenizer t text ov = Ok r /\
  match r with
  | None => forall s e k, ~ occurs m (tokenizer text) s e k
  | Some (s, e, txt) => exists k, txt = detokenizer k /\ occurs m (tokenizer text) s e k /\
      forall s' e' k', occurs m (tokenizer text) s' e' k' ->
        if ov : bool then e < e' \/ (e = e' /\ s <= s') else s < s' \/ (s = s' /\ e' <= e)
  end.
Proof.
  intros t m Rt At text ov. unfold search. destruct ov.
  - destruct (finditer_overlapping t m Rt At text) as (ms & E & I & ND & So). rewrite E. cbn [bind]. eexists. split; [reflexivity|].
    destruct ms as [|[[s e] k] ms]; cbn.
    + intros s e k Oc. apply I in Oc. exact Oc.
    + exists k. split; [reflexivity|]. split; [apply I; left; reflexivity|]. intros s' e' k' Oc. apply I in Oc. inversion So as [|? ? _ F]; subst.
      destruct Oc as [X|X]; [injection X as <- <- _; auto|]. rewrite Forall_forall in F. specialize (F _ X). cbn in F. lia.
  - destruct (finditer_disjoint t m Rt At text) as (ms & E & So & O1 & O2 & O3). rewrite E. cbn [bind]. eexists. split; [reflexivity|].
    destruct ms as [|[[s e] k] ms]; cbn.
    + intros s e k Oc. destruct (O3 s e k Oc) as (? & ? & ? & [] & _).
    + exists k. split; [reflexivity|]. split; [apply O1; left; reflexivity|]. intros s' e' k' Oc.
      assert (Ls : s <= s').
      { destruct (O3 s' e' k' Oc) as (s0 & e0 & k0 & [X|X] & L0); [injection X as <- <- <-; lia|]. inversion So as [|? ? _ F]; subst. rewrite Forall_forall in F.
        specialize (F _ X). cbn in F. destruct (O1 s e k (or_introl eq_refl)) as (L & _). lia. }
      destruct (Nat.eq_dec s s') as [<-|]; [|left; lia]. right. split; auto. eapply O2; eauto. left. reflexivity.
Qed.
(** C54 [findall_longest] selects disjoint occurrences that cover as much of the
    text as any disjoint occurrences can. *)
Lemma weight_covered {A} (l : list (nat * nat * A)) : weight l = covered_length l.
Proof. unfold weight, covered_length. induction l as [|a l IH]; cbn; [reflexivity|]. rewrite IH. reflexivity. Qed.

Lemma incl_map_inv {A B} (f : A -> B) l c : incl c (map f l) -> exists c0, incl c0 l /\ map f c0 = c.
Proof.
  induction c as [|b c IH]; intros I; [exists []; split; [intros ? []|reflexivity]|].
  destruct IH as (c0 & I0 & E0); [intros y Iy; apply I; right; exact Iy|]. assert (Ib : In b (map f l)) by (apply I; left; reflexivity).
  apply in_map_iff in Ib. destruct Ib as (a & Ea & Ia). exists (a :: c0). split; [intros y [<-|Iy]; auto|]. cbn. congruence.
Qed.

Lemma chain_as_match (d : list T -> K) (l : list (nat * nat * list T)) : chain (map (as_match d) l) <-> disjoint l.
Proof.
  unfold chain, disjoint. induction l as [|a l IH]; cbn; [split; constructor|]. split; intros S; inversion S as [|? ? S' F]; subst; constructor; try tauto.
  - rewrite Forall_map in F. exact F.
  - rewrite Forall_map. exact F.
Qed.

Lemma weight_as_match (d : list T -> K) (l : list (nat * nat * list T)) : weight (map (as_match d) l) = covered_length l.
Proof. unfold weight, covered_length. induction l as [|a l IH]; cbn; [reflexivity|]. rewrite IH. reflexivity. Qed.

Theorem findall_longest_optimal : forall t m, reached t -> answers t m -> forall text, exists sel,
  findall_longest tokenizer detokenizer t text = Ok (map (fun x => detokenizer (snd x)) sel) /\
  disjoint sel /\ (forall s e k, In (s, e, k) sel -> occurs m (tokenizer text) s e k) /\
  forall other, disjoint other -> (forall s e k, In (s, e, k) other -> occurs m (tokenizer text) s e k) ->
    covered_length other <= covered_length sel.
Proof.
  intros t m Rt At text. destruct (finditer_overlapping t m Rt At text) as (ms & E & I & _).
  change (map (fun x : nat * nat * list T => (fst x, detokenizer (snd x))) ms) with (map (as_match detokenizer) ms) in E.
  destruct (clusters_ok (map (as_match detokenizer) ms)) as (out & cluster & ce & rest & E1 & E2 & Hv).
  { intros x Ix. apply in_map_iff in Ix. destruct Ix as ([[s e] k] & <- & Ix). apply I in Ix. cbn. destruct Ix as [L _]. exact L. }
  destruct Hv as (C & Ic & Best). destruct (incl_map_inv _ _ _ Ic) as (sel & Is & Es). exists sel.
  unfold findall_longest, longest_matches. rewrite E. cbn [bind]. unfold match_ in *. rewrite E1. cbn [bind]. rewrite E2. cbn [bind].
  split; [rewrite <- Es, map_map; reflexivity|]. rewrite <- Es in C, Best. split; [apply chain_as_match in C; exact C|]. split.
  - intros s e k J. apply I, Is, J.
  - intros other Do Io. rewrite <- !(weight_as_match detokenizer). apply Best; [apply chain_as_match; exact Do|].
    intros x Ix. apply in_map_iff in Ix. destruct Ix as ([[s e] k] & <- & Ix). apply in_map, I, Io, Ix.
Qed.
End Theorems.
Print Assumptions findall_longest_optimal.
Print Assumptions translate_leftmost_longest.
Print Assumptions translate_without_key.
Print Assumptions finditer_leftmost_longest.
Print Assumptions finditer_disjoint.
Print Assumptions finditer_overlapping.
Print Assumptions search_finds.

(** *** Cases *)

(** Every reachable trie answers from a dict. *)
Lemma reached_answers {T V K} `{EqDec T} (tokenizer : K -> list T) (detokenizer : list T -> K) (t : trie T V) :
  reached tokenizer detokenizer t -> answers tokenizer t (fun ts => look ts (root t)).
Proof. intros R. split; [intros k; apply getitem_look|]. apply (g_keys tokenizer t). eapply reached_good; eauto. Qed.

Definition birds : list (op str str str) := [SetItem (w_ "so") (w_ "1"); SetItem (w_ "soar") (w_ "2"); SetItem (w_ "oar") (w_ "3"); SetItem (w_ "rs") (w_ "so"); SetItem (w_ "soared") (w_ "4")].
Definition bird_trie : trie str str := fst (run chars join new_trie birds).

Example find_case : reached chars join bird_trie /\
  (exists m, answers chars bird_trie m /\ m (chars (w_ "soar")) = Some (w_ "2") /\ m (chars (w_ "soa")) = None) /\
  translate chars join chars bird_trie (w_ "soars oars, soare sosoared") = Ok (w_ "2s 3s, 2e 14") /\
  finditer chars join bird_trie (w_ "soars oars") false = Ok [(0, 4, w_ "soar"); (6, 9, w_ "oar")] /\
  finditer chars join bird_trie (w_ "soars") true = Ok [(0, 2, w_ "so"); (0, 4, w_ "soar"); (1, 4, w_ "oar"); (3, 5, w_ "rs")] /\
  search chars join bird_trie (w_ "a soars") false = Ok (Some (2, 6, w_ "soar")) /\
  search chars join bird_trie (w_ "a soars") true = Ok (Some (2, 4, w_ "so")) /\
  search chars join bird_trie (w_ "a s") true = Ok None.
Proof.
  assert (R : reached chars join bird_trie) by (exists birds; split; [left; apply chars_join|reflexivity]).
  split; [exact R|]. split; [exists (fun ts => look ts (root bird_trie)); split; [apply (reached_answers chars join); exact R|vm_compute; auto]|].
  vm_compute. repeat split.
Qed.

(** [translate_without_key] *)
Example translate_without_key_case : forall s e k, ~ occurs (fun ts => look ts (root bird_trie)) (chars (w_ "sa")) s e k.
Proof.
  intros s e k (L & (a & b & E & La & Le) & M). vm_compute in E.
  destruct a as [|x [|y [|z a]]], k as [|x' [|y' [|z' k]]]; cbn in E, Le, La; try lia; try discriminate; injection E; intros; subst; try discriminate; apply M; reflexivity.
Qed.

(** [findall_longest_optimal]: the leftmost-longest match covers less. *)
Definition pieces : list (op str str str) := [SetItem (w_ "abc") (w_ "1"); SetItem (w_ "ab") (w_ "2"); SetItem (w_ "cde") (w_ "3"); SetItem (w_ "d") (w_ "4")].
Definition piece_trie : trie str str := fst (run chars join new_trie pieces).
Example findall_longest_case : reached chars join piece_trie /\
  findall chars join piece_trie (w_ "abcde xabcxd") false = Ok [w_ "abc"; w_ "d"; w_ "abc"; w_ "d"] /\
  findall_longest chars join piece_trie (w_ "abcde xabcxd") = Ok [w_ "ab"; w_ "cde"; w_ "abc"; w_ "d"].
Proof. split; [exists pieces; split; [left; apply chars_join|reflexivity]|]. vm_compute. auto. Qed.
