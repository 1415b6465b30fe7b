(** The order in which the ways to match are found, and scanning a text. *)
From Coq Require Import ZArith NArith List Bool String Lia Sorted.
From Verif Require Import Py PyDict TrieModel TrieProofs Ex.
From Verif Require Import RegexSpec RegexModel RegexTree RegexPasses RegexSimplify RegexParse RegexLang.
Import ListNotations.
Open Scope string_scope.
Open Scope list_scope.
Open Scope N_scope.

(** ** Leftmost-longest scanning for a relation between the text before, the
    match and the text after *)
Inductive found (M : str -> str -> str -> Prop) : str -> str -> list (nat * nat * str) -> Prop :=
| found_end b : found M b [] []
| found_match b w r l : w <> [] -> M b w r ->
    (forall w' r', w' ++ r' = w ++ r -> (List.length w < List.length w')%nat -> ~ M b w' r') ->
    found M (b ++ w) r l ->
    found M b (w ++ r) ((List.length b, (List.length b + List.length w)%nat, w) :: l)
| found_skip b c r l : (forall w r', w ++ r' = c :: r -> w <> [] -> ~ M b w r') -> found M (b ++ [c]) r l -> found M b (c :: r) l.

Section Order.
Variables is_space is_word : N -> bool.
Variable fs : bool.
Notation ways := (ways is_word).
Notation den := (den is_space fs).
Notation rxs := (rxs is_space fs).
Notation L := (L is_space fs).
Notation Lt := (Lt is_space fs).

Definition ahead (a b : place) : Prop := (List.length (snd a) < List.length (snd b))%nat.
Definition in_order (l : list place) : Prop := StronglySorted ahead l.

Definition off (p q : prim) : Prop := forall c, den p c = true -> den q c = true -> False.
Definition off_seq (a b : seq) : Prop := forall p q, hd_error (heads a) = Some p -> hd_error (heads b) = Some q -> off p q.

Inductive apart : seq -> Prop :=
| apart_nil ps : apart (Seq ps Nil)
| apart_K ps ks q : apart (Seq ps (K ks q))
| apart_P ps p q : apart (Seq ps (P p q))
| apart_G ps alts q : ForallOrdPairs off_seq alts -> (forall a, In a alts -> apart a) -> apart (Seq ps (G alts q)).

Lemma L_head s w : heads s <> [] -> L s w -> exists p c w', hd_error (heads s) = Some p /\ w = c :: w' /\ den p c = true.
Proof.
  intros N H. destruct s as [ps t]. cbn [heads] in *. inversion H as [? ? u v F Ht]; subst. destruct F as [|p c ps u E F]; [congruence|].
  exists p, c, (u ++ v). auto.
Qed.

Lemma in_order_one z : in_order [z].
Proof. repeat constructor. Qed.

Lemma prims_short ps z : (List.length (ways (cat (map (fun p => Chr (den p)) ps)) z) <= 1)%nat.
Proof.
  revert z. induction ps as [|p ps IH]; intros z; [cbn; lia|]. cbn [map].
  change (ways (cat (Chr (den p) :: map (fun p => Chr (den p)) ps)) z) with (flat_map (ways (cat (map (fun p => Chr (den p)) ps))) (ways (Chr (den p)) z)).
  cbn [RegexSpec.ways]. destruct (snd z) as [|c s]; [cbn; lia|]. destruct (den p c); [|cbn; lia]. cbn [flat_map]. rewrite app_nil_r. apply IH.
Qed.

Lemma flat_map_short (f : place -> list place) l : (List.length l <= 1)%nat -> (forall z, in_order (f z)) -> in_order (flat_map f l).
Proof. intros H Hf. destruct l as [|z [|y l]]; [constructor| |cbn in H; lia]. cbn [flat_map]. rewrite app_nil_r. apply Hf. Qed.

Lemma in_order_snoc l z : in_order l -> (forall y, In y l -> ahead y z) -> in_order (l ++ [z]).
Proof.
  intros O H. induction O as [|y l O IH F]; [apply in_order_one|]. cbn [app]. constructor.
  - apply IH. intros x I. apply H. right. exact I.
  - apply Forall_app. split; [exact F|]. constructor; [|constructor]. apply H. left. reflexivity.
Qed.

Lemma in_order_maybe q r z : in_order (ways r z) -> (forall y, In y (ways r z) -> ahead y z) -> in_order (ways (maybe q r) z).
Proof. intros O H. destruct q; cbn [maybe RegexSpec.ways]; [apply in_order_snoc; auto|exact O]. Qed.

Lemma in_order_chr p z : in_order (ways (Chr p) z) /\ forall y, In y (ways (Chr p) z) -> ahead y z.
Proof.
  cbn [RegexSpec.ways]. destruct z as [b x]. cbn [snd fst]. destruct x as [|c x]; [split; [constructor|contradiction]|].
  destruct (p c); [|split; [constructor|contradiction]]. split; [apply in_order_one|]. intros y [<-|[]]. unfold ahead. cbn. lia.
Qed.

Lemma in_order_show s : ok s -> apart s -> forall z, in_order (ways (cat (rxs s)) z).
Proof.
  induction s as [ps t IH] using seq_ind'. intros O A z. cbn [RegexParse.rxs]. rewrite ways_cat_app. apply flat_map_short; [apply prims_short|]. clear z. intros z.
  destruct t as [|alts q|ks q|p q]; [apply in_order_one| | |].
  - rewrite ways_cat1. inversion O as [| | |? ? ? Na Fa]; subst. inversion A as [| | |? ? ? Fo Aa]; subst. clear O A.
    assert (X : forall al, (forall a, In a al -> In a alts) -> ForallOrdPairs off_seq al -> in_order (ways (alternate (map (fun a => cat (rxs a)) al)) z) /\
              (al <> [] -> forall y, In y (ways (alternate (map (fun a => cat (rxs a)) al)) z) ->
               ahead y z /\ exists a p c x, In a al /\ hd_error (heads a) = Some p /\ snd z = c :: x /\ den p c = true)).
    { intros al. induction al as [|a al IHa]; intros Sub Fp; [split; [apply in_order_one|congruence]|].
      inversion Fp as [|? ? F1 F2]; subst. specialize (IHa (fun b I => Sub b (or_intror I)) F2).
      assert (Ia : In a alts) by (apply Sub; left; reflexivity). rewrite Forall_forall in Fa, IH. destruct (Fa a Ia) as [Ha Oa].
      assert (Y : forall y, In y (ways (cat (rxs a)) z) -> ahead y z /\ exists p c x, hd_error (heads a) = Some p /\ snd z = c :: x /\ den p c = true).
      { intros y I. destruct z as [b x]. apply (reads_show is_space is_word fs a Oa) in I. destruct I as (w & r & -> & H & ->).
        destruct (L_head a w Ha H) as (p & c & w' & E & -> & Ed). split; [unfold ahead; cbn [snd]; rewrite app_length; cbn; lia|].
        exists p, c, (w' ++ r). auto. }
      destruct al as [|a2 al].
      { cbn [map alternate]. split; [apply IH; auto|]. intros _ y I. destruct (Y y I) as (Ah & p & c & x & E1 & E2 & E3). split; auto. exists a, p, c, x. repeat split; auto. left; auto. }
      change (ways (alternate (map (fun a => cat (rxs a)) (a :: a2 :: al))) z) with (ways (cat (rxs a)) z ++ ways (alternate (map (fun a => cat (rxs a)) (a2 :: al))) z).
      destruct IHa as [I1 I2]. specialize (I2 ltac:(discriminate)). split.
      - destruct (ways (alternate (map (fun a => cat (rxs a)) (a2 :: al))) z) as [|y l] eqn:E; [rewrite app_nil_r; apply IH; auto|].
        destruct (ways (cat (rxs a)) z) as [|y' l'] eqn:E'; [exact I1|]. exfalso.
        destruct (I2 y (or_introl eq_refl)) as (_ & a' & p & c & x & Ia' & Hp & Ez & Ed).
        destruct (Y y' (or_introl eq_refl)) as (_ & p' & c' & x' & Hp' & Ez' & Ed'). rewrite Ez in Ez'. injection Ez' as <- <-.
        rewrite Forall_forall in F1. exact (F1 a' Ia' p' p Hp' Hp c Ed' Ed).
      - intros _ y I. apply in_app_iff in I. destruct I as [I|I].
        + destruct (Y y I) as (Ah & p & c & x & E1 & E2 & E3). split; auto. exists a, p, c, x. repeat split; auto. left; auto.
        + destruct (I2 y I) as (Ah & a' & p & c & x & Ia' & E). split; auto. exists a', p, c, x. split; [right; auto|exact E]. }
    destruct (X alts (fun a I => I) Fo) as [X1 X2]. apply in_order_maybe; [exact X1|]. intros y I. apply (X2 Na y I).
  - rewrite ways_cat1. apply in_order_maybe; apply in_order_chr.
  - rewrite ways_cat1. apply in_order_maybe; apply in_order_chr.
Qed.

(** The rules keep alternatives apart. *)
Lemma pass_heads hitG hitK s : heads (pass hitG hitK s) = heads s.
Proof. destruct s as [ps t]. reflexivity. Qed.

Lemma FOP_map {A} (R : A -> A -> Prop) (f : A -> A) l : (forall a b, R a b -> R (f a) (f b)) -> ForallOrdPairs R l -> ForallOrdPairs R (map f l).
Proof.
  intros H F. induction F as [|a l F1 F IH]; [constructor|]. cbn [map]. constructor; [|exact IH]. apply Forall_map. eapply Forall_impl; [|exact F1]. intros b. apply H.
Qed.

Lemma pass_apart hitG hitK s :
  (forall ps alts f q, hitG ps alts = Some f -> apart (Seq ps (f q))) ->
  (forall ps ks f q, hitK ps ks = Some f -> apart (Seq ps (f q))) ->
  apart s -> apart (pass hitG hitK s).
Proof.
  intros HG HK. induction s as [ps t IH] using seq_ind'. intros A. cbn [pass]. inversion A as [| | |? alts q Fo Aa]; subst; try constructor.
  - destruct (hitK ps ks) eqn:E; [eauto|constructor].
  - destruct (hitG ps alts) eqn:E; [eauto|]. constructor.
    + apply FOP_map; [|exact Fo]. intros a b H. unfold off_seq. rewrite !pass_heads. exact H.
    + intros a I. apply in_map_iff in I. destruct I as (a' & <- & I). rewrite Forall_forall in IH. apply IH; auto.
Qed.

Lemma simpler_apart s : apart s -> apart (simpler s).
Proof.
  intros A. unfold simpler, pass5, pass4, pass1. repeat apply pass_apart; try discriminate; auto.
  - intros ps alts f q E. unfold hitG5 in E. destruct alts as [|a [|]]; try discriminate. destruct (simple a); [|discriminate]. injection E as <-. constructor.
  - intros ps ks f q E. unfold hitK4 in E. destruct ks as [|p [|]]; try discriminate. destruct (ends_bs ps || is_nl p); [discriminate|]. injection E as <-. constructor.
  - intros ps alts f q E. unfold hitG1 in E. destruct (ends_bs ps); [discriminate|]. destruct (simples alts); [|discriminate]. injection E as <-. constructor.
Qed.

(** ... and they are apart in the trie when different tokens are *)
Section Trie.
Context {V : Type}.
Variable prims_of : str -> list prim.
Variable prims_nonempty : forall k, k <> [] -> prims_of k <> [].
Notation build := (@build V prims_of).

Definition off_tokens (k k' : str) : Prop := forall p q, hd_error (prims_of k) = Some p -> hd_error (prims_of k') = Some q -> off p q.

Lemma FOP_rev {A} (R : A -> A -> Prop) l : (forall a b, R a b -> R b a) -> ForallOrdPairs R l -> ForallOrdPairs R (rev l).
Proof.
  intros S F. induction F as [|a l F1 F IH]; [constructor|]. cbn [rev].
  assert (X : forall m, ForallOrdPairs R m -> Forall (R a) m -> ForallOrdPairs R (m ++ [a])).
  { intros m Fm. induction Fm as [|b m Fb Fm IHm]; intros Ra; [repeat constructor|]. inversion Ra; subst. cbn [app]. constructor; [|auto].
    apply Forall_app. split; [exact Fb|]. constructor; [|constructor]. apply S. assumption. }
  apply X; [exact IH|]. apply Forall_rev. exact F1.
Qed.

Lemma off_sym a b : off_seq a b -> off_seq b a.
Proof. intros H p q Hp Hq c E1 E2. exact (H q p Hq Hp c E2 E1). Qed.

Lemma build_apart (n : node str V) : wf n -> live n -> full_tokens n ->
  (forall ts ts' k k', look ts n <> None -> look ts' n <> None -> In k ts -> In k' ts' -> k <> k' -> off_tokens k k') -> apart (build n).
Proof.
  induction n as [v cs IH] using node_ind'. intros W Lv Fn HQ.
  inversion Fn as [? ? Fc]; subst.
  set (alts := map (fun kc => add (prims_of (fst kc)) (build (snd kc))) cs).
  assert (D : forall k c, In (k, c) cs -> dget k cs = Some c). { intros k c I. apply wf_split in W. apply In_dget; [apply W|exact I]. }
  assert (Lc : forall k c, In (k, c) cs -> live c). { intros k c I. apply live_split in Lv. eapply live_child; [apply (proj2 Lv)|exact (D k c I)]. }
  assert (Hk : forall k c, In (k, c) cs -> exists ts, look (k :: ts) (Node v cs) <> None).
  { intros k c I. destruct (live_has c (Lc k c I)) as (ts & Hl). exists ts. rewrite look_cons. cbn [children]. rewrite (D k c I). exact Hl. }
  assert (Ha : forall a, In a alts -> apart a).
  { intros a I. apply in_map_iff in I. destruct I as ([k c] & <- & I). cbn [fst snd].
    assert (Wc : wf c) by (eapply wf_child; [exact W|exact (D k c I)]).
    rewrite Forall_forall in IH, Fc. specialize (IH (k, c) I Wc (Lc k c I) (proj2 (Fc _ I))). cbn [snd] in IH.
    assert (A : apart (build c)).
    { apply IH. intros ts ts' k1 k2 Hl Hl' I1 I2. apply (HQ (k :: ts) (k :: ts')); try (right; assumption); rewrite look_cons; cbn [children]; rewrite (D k c I); assumption. }
    destruct A; cbn [add]; constructor; auto. }
  assert (Ho : ForallOrdPairs off_seq alts).
  { assert (Nd : NoDup (map fst cs)) by (apply wf_split in W; apply W). clear Ha. subst alts.
    assert (Sub : forall kc, In kc cs -> In kc cs) by auto. revert Sub Nd.
    enough (Z : forall l, (forall kc, In kc l -> In kc cs) -> NoDup (map fst l) -> ForallOrdPairs off_seq (map (fun kc => add (prims_of (fst kc)) (build (snd kc))) l)) by apply Z.
    intros l. induction l as [|[k c] l IHl]; intros Sub Nd; [constructor|]. cbn [map fst snd]. inversion Nd as [|? ? Nk Nd']; subst. constructor; [|apply IHl; auto; intros; apply Sub; right; auto].
    apply Forall_map. apply Forall_forall. intros [k' c'] I'. cbn [fst snd].
    assert (Ic : In (k, c) cs) by (apply Sub; left; reflexivity). assert (Ic' : In (k', c') cs) by (apply Sub; right; exact I').
    destruct (Hk k c Ic) as (ts & Hl). destruct (Hk k' c' Ic') as (ts' & Hl').
    assert (Nkk : k <> k'). { intros ->. apply Nk. apply in_map_iff. exists (k', c'). auto. }
    specialize (HQ (k :: ts) (k' :: ts') k k' Hl Hl' (or_introl eq_refl) (or_introl eq_refl) Nkk).
    rewrite Forall_forall in Fc. destruct (Fc _ Ic) as [N1 _]. destruct (Fc _ Ic') as [N2 _]. cbn [fst] in N1, N2. apply prims_nonempty in N1, N2.
    intros p q Hp Hq. apply HQ.
    - destruct (build c). cbn [add heads] in Hp. destruct (prims_of k); [congruence|]. exact Hp.
    - destruct (build c'). cbn [add heads] in Hq. destruct (prims_of k'); [congruence|]. exact Hq. }
  cbn [RegexTree.build]. fold alts.
  assert (HGq : forall q, apart (Seq [] (G (rev alts) q))).
  { intros q. constructor; [apply FOP_rev; [exact off_sym|exact Ho]|]. intros a I. apply Ha. apply in_rev. exact I. }
  destruct alts as [|a [|a2 al]] eqn:Ea; destruct v as [v|]; try apply HGq; try (constructor; constructor).
  apply Ha. left. reflexivity.
Qed.
End Trie.

(** ** Scanning *)
Definition seen (r : rx) (b w after : str) : Prop := can_match is_word r b w after.

Lemma hd_in_order l z : in_order l -> hd_error l = Some z -> forall y, In y l -> y = z \/ ahead z y.
Proof.
  intros O E y I. destruct O as [|x l O F]; [discriminate|]. injection E as ->. destruct I as [<-|I]; [left; reflexivity|right]. rewrite Forall_forall in F. apply F; exact I.
Qed.

Lemma hd_in {A} (l : list A) z : hd_error l = Some z -> In z l.
Proof. destruct l; [discriminate|]. intros E. injection E as ->. left. reflexivity. Qed.
Lemma hd_none {A} (l : list A) : hd_error l = None -> l = [].
Proof. destruct l; [reflexivity|discriminate]. Qed.

Lemma find_found r : (forall z, in_order (ways r z)) ->
  (forall b x z, In z (ways r (b, x)) -> exists w after, x = w ++ after /\ w <> [] /\ z = (rev w ++ b, after)) ->
  forall s skip pos b, (skip <= List.length s)%nat -> pos = List.length b ->
  found (can_match is_word r) (b ++ firstn skip s) (skipn skip s) (find_from is_word r skip pos (rev b) s).
Proof.
  intros O R s. induction s as [|c s IH]; intros skip pos b Hs Hp.
  - rewrite firstn_nil, skipn_nil, app_nil_r. constructor.
  - cbn [find_from].
    assert (Step : forall k l, (k <= List.length s)%nat -> find_from is_word r k (S pos) (c :: rev b) s = l -> found (can_match is_word r) (b ++ c :: firstn k s) (skipn k s) l).
    { intros k l Hk <-. specialize (IH k (S pos) (b ++ [c]) Hk). rewrite app_length in IH. cbn in IH. specialize (IH ltac:(lia)).
      rewrite rev_app_distr, <- app_assoc in IH. exact IH. }
    destruct skip as [|k]; [|apply Step; [cbn in Hs; lia|reflexivity]]. cbn [firstn skipn]. rewrite app_nil_r.
    unfold first_way. match goal with |- context [hd_error ?x] => destruct (hd_error x) as [[b' rest]|] eqn:E end.
    + assert (I : In (b', rest) (ways r (rev b, c :: s))) by (apply hd_in; exact E).
      destruct (R _ _ _ I) as (w & after & Ex & Nw & Ez). injection Ez as -> ->.
      assert (El : (List.length (c :: s) - List.length after = List.length w)%nat) by (rewrite Ex, app_length; unfold str; lia).
      unfold str in *. rewrite El. destruct w as [|c0 w]; [congruence|]. injection Ex as <- ->. cbn [List.length].
      rewrite firstn_cons, firstn_app, Nat.sub_diag, firstn_all, firstn_O, app_nil_r.
      change (c :: w ++ after) with ((c :: w) ++ after).
      replace pos with (List.length b) at 1 2 by lia. change (S (List.length w)) with (List.length (c :: w)). apply found_match; [discriminate|exact I| |].
      * intros w' r' Ew Hl M. unfold can_match in M. rewrite Ew in M. apply (hd_in_order _ _ (O _) E) in M. destruct M as [M|M].
        -- injection M as M1 M2. apply (f_equal (@List.length N)) in Ew. rewrite !app_length in Ew. subst r'. cbn in *. lia.
        -- unfold ahead in M. cbn [snd] in M. apply (f_equal (@List.length N)) in Ew. rewrite !app_length in Ew. cbn in *. lia.
      * specialize (Step (List.length w) _ ltac:(rewrite app_length; lia) eq_refl).
        rewrite firstn_app, Nat.sub_diag, firstn_all, firstn_O, app_nil_r, skipn_app, Nat.sub_diag, skipn_all, skipn_O in Step. exact Step.
    + apply found_skip; [|exact (Step 0%nat _ ltac:(lia) eq_refl)].
      intros w r' Ew Nw M. unfold can_match in M. unfold str in *. rewrite Ew in M. apply hd_none in E. unfold place, str in *. rewrite E in M. exact M.
Qed.

Lemma finditer_found r : (forall z, in_order (ways r z)) ->
  (forall b x z, In z (ways r (b, x)) -> exists w after, x = w ++ after /\ w <> [] /\ z = (rev w ++ b, after)) ->
  forall text, found (can_match is_word r) [] text (finditer is_word r text).
Proof. intros O R text. exact (find_found r O R text 0%nat 0%nat [] (Nat.le_0_l _) eq_refl). Qed.
End Order.
