(** Properties C108, C109: slices of tries, order of the items, [fromkeys],
    [Match]. *)
From Coq Require Import ZArith NArith List Bool Permutation Lia Sorted String.
From Verif Require Import Py ListAux PyDict TrieSpec TrieModel TrieProofs NmdSpec IndexModel Props_Index Props_Trie Props_Find Ex.
From Verif Require Import TrieSliceModel TrieSliceProofs.
Import ListNotations.
Open Scope string_scope.
Open Scope list_scope.

(** *** Steps *)

(** [l[::k]]: the element at place [i] is the one at place [i * k] of [l]. *)
Lemma every_from {A} (k : nat) (l : list A) : (0 < k)%nat -> forall a i,
  nth_error (map snd (filter (fun iv => Nat.eqb (Nat.modulo (fst iv) k) 0) (combine (seq a (List.length l)) l))) i =
  nth_error l (match Nat.modulo a k with O => 0 | r => k - r end + i * k)%nat.
Proof.
  intros K. induction l as [|x l IH]; intros a i.
  - cbn. destruct i; [destruct (match _ with O => _ | _ => _ end); reflexivity|]. destruct (_ + _)%nat; reflexivity.
  - cbn [List.length seq combine filter fst]. pose proof (Nat.mod_upper_bound a k ltac:(lia)) as B.
    assert (Sm : Nat.modulo (S a) k = if Nat.eqb (S (Nat.modulo a k)) k then 0%nat else S (Nat.modulo a k)).
    { rewrite (Nat.div_mod a k) at 1 by lia. replace (S (k * (a / k) + a mod k))%nat with (S (a mod k) + (a / k) * k)%nat by lia.
      rewrite Nat.mod_add by lia. destruct (Nat.eqb_spec (S (a mod k)) k) as [->|N]; [apply Nat.mod_same; lia|apply Nat.mod_small; lia]. }
    destruct (Nat.eqb_spec (Nat.modulo a k) 0) as [E|E].
    + rewrite E in *. cbn [map snd]. destruct i as [|i]; [reflexivity|]. cbn [nth_error]. rewrite IH, Sm.
      assert (R : (0 + S i * k)%nat = S (k - 1 + i * k)) by lia. rewrite R. cbn [nth_error]. f_equal.
      destruct (Nat.eqb_spec 1 k) as [<-|N]; lia.
    + rewrite IH, Sm. destruct (Nat.modulo a k) as [|r] eqn:Em; [congruence|].
      assert (R : (k - S r + i * k)%nat = S (k - S (S r) + i * k)) by lia. rewrite R. cbn [nth_error]. f_equal.
      destruct (Nat.eqb_spec (S (S r)) k) as [<-|N]; [lia|reflexivity].
Qed.

Theorem stride_nth {A} (l : list A) p i :
  (exists r, stride (Some (Zpos p)) l = Ok r /\ nth_error r i = nth_error l (i * Pos.to_nat p)) /\
  (exists r, stride (Some (Zneg p)) l = Ok r /\ nth_error r i = nth_error (rev l) (i * Pos.to_nat p)).
Proof.
  split; (eexists; split; [reflexivity|]); unfold every; rewrite every_from by lia; rewrite Nat.mod_0_l by lia; f_equal.
Qed.

Lemma stride_incl {A} step (l r : list A) : stride step l = Ok r -> incl r l.
Proof.
  assert (X : forall k (m : list A), incl (every k m) m).
  { intros k m x I. unfold every in I. apply in_map_iff in I. destruct I as ([i y] & <- & I). apply filter_In in I. destruct I as [I _].
    apply in_combine_r in I. exact I. }
  destruct step as [[|p|p]|]; cbn [stride]; intros E; try discriminate; injection E as <-.
  - apply X.
  - intros x I. apply X in I. apply in_rev. exact I.
  - intros x I; exact I.
Qed.

Lemma stride_nodup {A B} (f : A -> B) step (l r : list A) : stride step l = Ok r -> NoDup (map f l) -> NoDup (map f r).
Proof.
  assert (X : forall k (m : list A), NoDup (map f m) -> NoDup (map f (every k m))).
  { intros k m. unfold every. generalize (fun iv : nat * A => Nat.eqb (Nat.modulo (fst iv) k) 0). generalize 0%nat.
    induction m as [|x m IH]; intros a g N; [constructor|]. cbn [map] in N. apply NoDup_cons_iff in N. destruct N as [N1 N2].
    cbn [List.length seq combine filter]. destruct (g (a, x)); cbn [map snd]; [|apply IH; exact N2]. constructor; [|apply IH; exact N2].
    intros I. apply N1. apply in_map_iff in I. destruct I as (y & E & I). rewrite <- E. apply in_map.
    apply in_map_iff in I. destruct I as ([j z] & <- & I). apply filter_In in I. destruct I as [I _]. apply in_combine_r in I. exact I. }
  destruct step as [[|p|p]|]; cbn [stride]; intros E N; try discriminate; injection E as <-; [apply X; exact N| |exact N].
  apply X. rewrite map_rev. apply NoDup_rev. exact N.
Qed.

Section General.
Context {T V K : Type} `{EqDec T}.
Variable tokenizer : K -> list T.
Variable detokenizer : list T -> K.
Let show (kv : list T * V) : K * V := (detokenizer (fst kv), snd kv).

(** *** C108 *)

(** [pop(key)] leaves the other items in their order. *)
Theorem pop_keeps_order : forall t k v t',
  reached tokenizer detokenizer t -> tokenizer k <> [] ->
  pop tokenizer detokenizer t (Some k) = (t', Ok (k, v)) ->
  exists l1 l2, items detokenizer t = Ok (map show (l1 ++ (tokenizer k, v) :: l2)) /\
    items detokenizer t' = Ok (map show (l1 ++ l2)).
Proof.
  intros t k v t' R N E. pose proof (reached_good _ _ t R) as G. rewrite pop_spec in E by exact G.
  destruct (children (root t)) as [|c cs]; [discriminate|]. destruct (look (tokenizer k) (root t)) as [w|] eqn:L; [|discriminate].
  injection E as <- ->. assert (L' : look (tokenizer k) (root t) <> None) by congruence.
  pose proof (good_remove tokenizer detokenizer t _ G L') as G'. pose proof (lists_paths tokenizer t G) as [ND IN].
  assert (I : In (tokenizer k, v) (paths (root t))) by (apply IN; split; assumption).
  apply in_split in I. destruct I as (l1 & l2 & El). exists l1, l2. split.
  - rewrite (items_ok tokenizer detokenizer t G), El. reflexivity.
  - rewrite (items_ok tokenizer detokenizer _ G'). cbn [root]. f_equal. f_equal.
    rewrite remove_paths_below by (auto; apply G). rewrite El in *. rewrite map_app in ND. cbn [map fst] in ND.
    apply NoDup_remove_2 in ND. rewrite filter_app. cbn [filter]. unfold other at 2. cbn [fst].
    destruct (eqd (tokenizer k) (tokenizer k)) as [_|]; [|congruence].
    rewrite <- map_app in ND. f_equal; apply filter_true; intros x I; unfold other;
      (destruct (eqd (fst x) (tokenizer k)) as [e|]; [|reflexivity]); exfalso; apply ND; rewrite <- e; apply in_map, in_or_app; tauto.
Qed.

Definition among (ts : list T) (s : list (list T * V)) : bool := if in_dec eqd ts (map fst s) then true else false.

(** popping some of the items *)
Lemma pop_all_ok : (forall k, tokenizer (detokenizer (tokenizer k)) = tokenizer k) ->
  forall s t, good tokenizer t -> NoDup (map fst s) -> incl s (paths (root t)) ->
  exists t', pop_all tokenizer detokenizer t (map show s) = (t', Ok tt) /\ good tokenizer t' /\
    paths (root t') = filter (fun kv => negb (among (fst kv) s)) (paths (root t)) /\
    length t' = (length t - zlen s)%Z /\
    forall ts, look ts (root t') = if among ts s then None else look ts (root t).
Proof.
  intros RT. induction s as [|[ts v] s IH]; intros t G ND I.
  - exists t. split; [reflexivity|]. split; [exact G|]. split; [|split; [unfold zlen; cbn; lia|intros us; reflexivity]].
    symmetry. apply filter_true. intros x _. reflexivity.
  - cbn [map fst] in ND. apply NoDup_cons_iff in ND. destruct ND as [Nts ND].
    assert (J : In (ts, v) (paths (root t))) by (apply I; left; reflexivity).
    apply in_paths in J; [|apply G]. destruct J as [Ne L].
    assert (L' : look ts (root t) <> None) by congruence.
    destruct (g_keys _ _ G ts L') as [k Ek].
    assert (Et : tokenizer (detokenizer ts) = ts) by (rewrite Ek; apply RT).
    cbn [map pop_all show fst snd]. unfold show at 1. cbn [fst snd]. rewrite pop_spec, Et, L by exact G.
    destruct (children (root t)) as [|c cs] eqn:Ec; [exfalso; apply (has_children (root t) ts Ne L'); exact Ec|].
    pose proof (good_remove tokenizer detokenizer t ts G L') as G1. set (t1 := {| root := fst (remove ts (root t)); length := length t - 1 |}) in *.
    assert (P1 : paths (root t1) = filter (other ts) (paths (root t))) by (apply remove_paths_below; [apply G|apply G|exact L']).
    assert (I1 : incl s (paths (root t1))).
    { intros x Ix. rewrite P1. apply filter_In. split; [apply I; right; exact Ix|]. unfold other. destruct (eqd (fst x) ts) as [e|]; [|reflexivity].
      exfalso. apply Nts. rewrite <- e. apply in_map. exact Ix. }
    destruct (IH t1 G1 ND I1) as (t' & E' & G' & P' & Len & Lk). exists t'. split; [exact E'|]. split; [exact G'|].
    assert (Am : forall us, among us ((ts, v) :: s) = if eqd us ts then true else among us s).
    { intros us. unfold among. cbn [map fst]. destruct (in_dec eqd us (ts :: map fst s)) as [A|A]; destruct (eqd us ts) as [->|B]; try reflexivity.
      - destruct A as [A|A]; [congruence|]. destruct (in_dec eqd us (map fst s)); [reflexivity|contradiction].
      - exfalso. apply A. left. reflexivity.
      - destruct (in_dec eqd us (map fst s)) as [A'|]; [|reflexivity]. exfalso. apply A. right. exact A'. }
    split; [|split].
    + rewrite P', P1. clear - Am. induction (paths (root t)) as [|x l IHl]; [reflexivity|]. cbn [filter]. rewrite Am.
      assert (Ox : other ts x = if eqd (fst x) ts then false else true) by reflexivity. rewrite Ox.
      destruct (eqd (fst x) ts); cbn [negb]; [exact IHl|]. cbn [filter]. destruct (negb (among (fst x) s)); [f_equal|]; exact IHl.
    + rewrite Len. unfold t1, zlen. cbn [length List.length]. lia.
    + intros us. rewrite Lk, Am. unfold t1. cbn [root]. rewrite look_remove by (auto; apply G).
      destruct (eqd us ts); destruct (among us s); reflexivity.
Qed.

Variable ltb_key : K -> K -> bool.

Lemma slice_loop_incl start stop (l : list (K * V)) : forall out r, slice_loop ltb_key start stop l out = Ok r -> exists m, r = out ++ m /\ exists b : list bool, m = map snd (filter fst (combine b l)).
Proof.
  induction l as [|[k v] l IH]; intros out r E; cbn [slice_loop] in E.
  - injection E as <-. exists []. rewrite app_nil_r. split; [reflexivity|]. exists []. reflexivity.
  - destruct stop as [b|]; [|discriminate]. destruct (negb (ltb_key k b)).
    + injection E as <-. exists []. rewrite app_nil_r. split; [reflexivity|]. exists []. reflexivity.
    + destruct start as [a|]; [|discriminate]. destruct (negb (ltb_key k a)); destruct (IH _ _ E) as (m & -> & bs & ->).
      * exists ((k, v) :: map snd (filter fst (combine bs l))). split; [rewrite <- app_assoc; reflexivity|]. exists (true :: bs). reflexivity.
      * exists (map snd (filter fst (combine bs l))). split; [reflexivity|]. exists (false :: bs). reflexivity.
Qed.

Lemma combine_map {A B C} (f : B -> C) (b : list A) (l : list B) : combine b (map f l) = map (fun p => (fst p, f (snd p))) (combine b l).
Proof. revert l; induction b as [|x b IH]; intros [|y l]; cbn; [reflexivity..|]. rewrite IH. reflexivity. Qed.

Lemma stride_map {A B} (f : A -> B) step (l : list A) : stride step (map f l) = match stride step l with Ok r => Ok (map f r) | Err e => Err e end.
Proof.
  assert (X : forall k m, every k (map f m) = map f (every k m)).
  { intros k m. unfold every. rewrite map_length, combine_map. generalize (combine (seq 0 (List.length m)) m). clear.
    induction l as [|[i x] l IH]; [reflexivity|]. cbn [map filter fst]. destruct (Nat.eqb (Nat.modulo i k) 0); cbn [map snd]; [f_equal|]; exact IH. }
  destruct step as [[|p|p]|]; cbn [stride]; [reflexivity|rewrite X; reflexivity|rewrite <- map_rev, X; reflexivity|reflexivity].
Qed.

(** [del trie[start:stop:step]] removes exactly the items that
    [trie[start:stop:step]] selects, sorted or not, and nothing else changes. *)
Theorem delslice_removes_slice : forall t start stop step s,
  reached tokenizer detokenizer t -> (forall k, tokenizer (detokenizer (tokenizer k)) = tokenizer k) ->
  item_slice_step detokenizer ltb_key t start stop step = Ok s ->
  exists t', delslice tokenizer detokenizer ltb_key t start stop step = (t', Ok tt) /\
    (forall k, getitem tokenizer t' k = if in_dec eqd (tokenizer k) (map (fun kv => tokenizer (fst kv)) s) then Err KeyError else getitem tokenizer t k) /\
    length t' = (length t - zlen s)%Z /\
    exists l, items detokenizer t = Ok (map show l) /\ (forall ts v, In (ts, v) l -> tokenizer (detokenizer ts) = ts) /\
      items detokenizer t' = Ok (map show (filter (fun kv => if in_dec eqd (fst kv) (map (fun kv => tokenizer (fst kv)) s) then false else true) l)).
Proof.
  intros t start stop step s R RT E. pose proof (reached_good _ _ t R) as G. unfold delslice. rewrite E.
  unfold item_slice_step in E. rewrite (items_ok tokenizer detokenizer t G) in E. cbn [bind] in E. fold show in E.
  destruct (slice_loop ltb_key start stop (map show (paths (root t))) []) as [out|] eqn:Es; [|discriminate]. cbn [bind] in E.
  destruct (slice_loop_incl _ _ _ _ _ Es) as (m & -> & bs & ->). cbn [app] in E.
  rewrite combine_map in E.
  assert (X : forall l : list (bool * (list T * V)), map snd (filter fst (map (fun p => (fst p, show (snd p))) l)) = map show (map snd (filter fst l))).
  { clear. induction l as [|[b x] l IH]; [reflexivity|]. cbn [map filter fst snd]. destruct b; cbn [map snd]; [f_equal|]; exact IH. }
  rewrite X, stride_map in E. destruct (stride step (map snd (filter fst (combine bs (paths (root t)))))) as [s0|] eqn:S0; [|discriminate].
  injection E as <-.
  assert (I0 : incl s0 (paths (root t))).
  { intros x I. apply (stride_incl _ _ _ S0) in I. apply in_map_iff in I. destruct I as ([b y] & <- & I). apply filter_In in I. destruct I as [I _].
    apply in_combine_r in I. exact I. }
  assert (N0 : NoDup (map fst s0)).
  { eapply stride_nodup; [exact S0|]. pose proof (paths_nodup (root t) (g_wf _ _ G)) as ND. clear - ND. revert bs ND.
    induction (paths (root t)) as [|x l IH]; intros bs ND; [destruct bs; constructor|]. destruct bs as [|b bs]; [constructor|].
    cbn [map] in ND. apply NoDup_cons_iff in ND. destruct ND as [N1 N2]. cbn [combine filter fst]. destruct b; cbn [map snd]; [|apply IH; exact N2].
    constructor; [|apply IH; exact N2]. intros I. apply N1. apply in_map_iff in I. destruct I as (y & Ey & I). rewrite <- Ey. apply in_map.
    apply in_map_iff in I. destruct I as ([b z] & <- & I). apply filter_In in I. destruct I as [I _]. apply in_combine_r in I. exact I. }
  destruct (pop_all_ok RT s0 t G N0 I0) as (t' & E' & G' & P' & Len & Lk). exists t'. split; [exact E'|].
  assert (Tk : map (fun kv => tokenizer (fst kv)) (map show s0) = map fst s0).
  { rewrite map_map. apply map_ext_in. intros [ts v] I. unfold show. cbn [fst]. apply I0 in I. apply in_paths in I; [|apply G].
    destruct (g_keys _ _ G ts) as [k ->]; [destruct I; congruence|]. apply RT. }
  rewrite Tk. split; [|split].
  - intros k. rewrite !getitem_look, Lk. unfold among. destruct (in_dec eqd (tokenizer k) (map fst s0)); reflexivity.
  - rewrite Len. unfold zlen. rewrite map_length. reflexivity.
  - exists (paths (root t)). split; [apply (items_ok tokenizer detokenizer t G)|]. split.
    { intros ts v I. apply in_paths in I; [|apply G]. destruct (g_keys _ _ G ts) as [k ->]; [destruct I; congruence|]. apply RT. }
    rewrite (items_ok tokenizer detokenizer t' G'). f_equal. f_equal.
    rewrite P'. apply filter_ext. intros x. unfold among. destruct (in_dec eqd (fst x) (map fst s0)); reflexivity.
Qed.

(** If the slice cannot be made, nothing is deleted. *)
Theorem delslice_fails : forall (t : trie T V) start stop step e,
  item_slice_step detokenizer ltb_key t start stop step = Err e ->
  delslice tokenizer detokenizer ltb_key t start stop step = (t, Err e).
Proof. intros t start stop step e E. unfold delslice. rewrite E. reflexivity. Qed.

(** Slices without both ends: [trie[a:]] and [trie[:]] raise a TypeError unless
    there are no items; [trie[:b]] does unless the first item is not below [b],
    and then the slice is empty. *)
Theorem open_slices : forall (t : trie T V) start stop step l,
  items detokenizer t = Ok l -> start = None \/ stop = None -> step <> Some 0%Z ->
  getslice_step detokenizer ltb_key t start stop step =
  match l, stop with
  | [], _ => Ok []
  | _ :: _, None => Err TypeError
  | (k, _) :: _, Some b => if ltb_key k b then Err TypeError else Ok []
  end.
Proof.
  intros t start stop step l E O Z. unfold getslice_step, item_slice_step. rewrite E. cbn [bind].
  assert (S : stride step (@nil (K * V)) = Ok []) by (destruct step as [[| |]|]; [congruence|reflexivity..]).
  destruct l as [|[k v] l]; cbn [slice_loop bind]; [rewrite S; reflexivity|]. destruct stop as [b|]; [|reflexivity].
  destruct O as [->|]; [|discriminate]. destruct (ltb_key k b); cbn [negb bind]; [reflexivity|]. rewrite S. reflexivity.
Qed.

(** *** C109 *)

(** [fromkeys]: the trie has the keys given and no others, each with the
    default; with [sort] the items come in ascending order. *)
Lemma update_keys (keys : list K) (d : V) : forall t, good tokenizer t ->
  good tokenizer (update tokenizer t (map (fun key => (key, d)) keys)) /\
  forall ts, look ts (root (update tokenizer t (map (fun key => (key, d)) keys))) =
    if in_dec eqd ts (map tokenizer keys) then Some d else look ts (root t).
Proof.
  unfold update. induction keys as [|k keys IH]; intros t G; cbn [map fold_left fst snd]; [split; [exact G|reflexivity]|].
  destruct (step_ok tokenizer detokenizer t (SetItem k d) (setitem tokenizer t k d) Done G) as [G' _]; [right; discriminate|reflexivity|].
  destruct (IH _ G') as [G2 L]. split; [exact G2|]. intros ts. rewrite L. unfold setitem at 1. cbn [root]. rewrite look_put.
  destruct (in_dec eqd ts (map tokenizer keys)) as [A|A]; destruct (in_dec eqd ts (tokenizer k :: map tokenizer keys)) as [B|B];
    destruct (eqd ts (tokenizer k)) as [->|C]; try reflexivity; exfalso; simpl in *; intuition congruence.
Qed.

Theorem fromkeys_contents : forall leb keys (default : V) sort,
  let t := fromkeys_sorted tokenizer leb keys default sort in
  (forall k, getitem tokenizer t k = if in_dec eqd (tokenizer k) (map tokenizer keys) then Ok default else Err KeyError) /\
  length t = zlen (nodup eqd (map tokenizer keys)) /\
  exists l, items detokenizer t = Ok (map show l) /\ NoDup (map fst l) /\
    (forall ts v, In (ts, v) l <-> ts <> [] /\ In ts (map tokenizer keys) /\ v = default) /\
    ((forall a b, leb a b = true \/ leb b a = true) -> (forall a b c, leb a b = true -> leb b c = true -> leb a c = true) ->
     sort = true -> StronglySorted (lex (fun a b => leb a b = true)) (map fst l)).
Proof.
  intros leb keys default sort t.
  destruct (update_keys keys default new_trie (good_new tokenizer)) as [G0 L0]. cbn [root new_trie] in L0.
  assert (L0' : forall ts, look ts (root (update tokenizer new_trie (map (fun key => (key, default)) keys))) =
    if in_dec eqd ts (map tokenizer keys) then Some default else None) by (intros ts; rewrite L0, look_new; reflexivity).
  clear L0.
  assert (GL : good tokenizer t /\ forall ts, look ts (root t) = if in_dec eqd ts (map tokenizer keys) then Some default else None).
  { unfold t, fromkeys_sorted. destruct sort; [|split; assumption].
    revert G0 L0'. generalize (update tokenizer new_trie (map (fun key => (key, default)) keys)). intros t0 G0 L0'.
    destruct (step_ok tokenizer detokenizer t0 (SortKeys leb true) (sort_keys leb true t0) Done G0) as [G' _]; [right; discriminate|reflexivity|]. split; [exact G'|].
    intros ts. unfold sort_keys. cbn [root]. rewrite sort_look by apply G0. apply L0'. }
  destruct GL as [G L]. split; [|split].
  - intros k. rewrite getitem_look, L. destruct (in_dec eqd (tokenizer k) (map tokenizer keys)); reflexivity.
  - rewrite (g_length _ _ G). unfold zlen. f_equal. rewrite <- (map_length fst). apply Permutation_length.
    apply NoDup_Permutation; [apply all_paths_nodup, G|apply NoDup_nodup|]. intros ts. rewrite nodup_In, in_map_iff. split.
    + intros ([us v] & <- & I). apply in_all_paths in I; [|apply G]. cbn [fst]. rewrite L in I. destruct (in_dec eqd us (map tokenizer keys)); [assumption|discriminate].
    + intros I. exists (ts, default). split; [reflexivity|]. apply in_all_paths; [apply G|]. rewrite L. destruct (in_dec eqd ts (map tokenizer keys)); [reflexivity|contradiction].
  - exists (paths (root t)). split; [apply (items_ok tokenizer detokenizer t G)|]. split; [apply paths_nodup, G|]. split.
    + intros ts v. rewrite in_paths by apply G. rewrite L. destruct (in_dec eqd ts (map tokenizer keys)) as [I|I]; split.
      * intros [A B]. injection B as <-. auto.
      * intros (A & _ & ->). auto.
      * intros [_ B]. discriminate.
      * intros (_ & A & _). contradiction.
    + intros Tot Tr ->. unfold t, fromkeys_sorted. apply sorted_paths; [exact Tot|exact Tr|apply G0].
Qed.

(** What [finditer] yields, seen through the methods of [Match]: start, end,
    span, length and text agree with each other and with the tokens of the
    text; there is no group but 0. *)
Theorem match_methods : forall (t : trie T V) m text ov ms x, reached tokenizer detokenizer t -> answers tokenizer t m ->
  finditer tokenizer detokenizer t text ov = Ok ms -> In x ms ->
  exists a k b, tokenizer text = a ++ k ++ b /\ k <> [] /\ m k <> None /\
    match_start_of x 0 = Ok (List.length a) /\ match_end_of x 0 = Ok (List.length a + List.length k)%nat /\
    match_span x 0 = Ok (List.length a, List.length a + List.length k)%nat /\
    match_dunder_len x = Ok (zlen k) /\
    match_group x 0 = Ok (detokenizer k) /\ match_getitem x 0 = Ok (detokenizer k) /\ match_str x = detokenizer k /\
    forall i, i <> 0%Z -> match_getitem x i = Err IndexError /\ match_group x i = Err IndexError /\ match_start_of x i = Err IndexError /\
      match_end_of x i = Err IndexError /\ match_span x i = Err IndexError.
Proof.
  intros t m text ov ms x R A E I.
  assert (O : exists s e k, x = (s, e, detokenizer k) /\ occurs m (tokenizer text) s e k).
  { destruct ov.
    - destruct (finditer_overlapping _ _ t m R A text) as (ms' & E' & I' & _). rewrite E' in E. injection E as <-.
      apply in_map_iff in I. destruct I as ([[s e] k] & <- & I). exists s, e, k. split; [reflexivity|]. apply I', I.
    - destruct (finditer_disjoint _ _ t m R A text) as (ms' & E' & _ & I' & _). rewrite E' in E. injection E as <-.
      apply in_map_iff in I. destruct I as ([[s e] k] & <- & I). exists s, e, k. split; [reflexivity|]. apply I', I. }
  destruct O as (s & e & k & -> & Lt & (a & b & Ht & Ha & He) & Mk). exists a, k, b.
  split; [exact Ht|]. split; [intros ->; cbn in *; lia|]. split; [exact Mk|]. subst s e.
  split; [reflexivity|]. split; [reflexivity|]. split; [reflexivity|]. split; [|split; [reflexivity|split; [reflexivity|split; [reflexivity|]]]].
  - unfold match_dunder_len, zlen. cbn [fst snd]. replace (Z.of_nat (List.length a + List.length k) - Z.of_nat (List.length a))%Z with (Z.of_nat (List.length k)) by lia.
    destruct (Z.ltb_spec (Z.of_nat (List.length k)) 0); [lia|reflexivity].
  - intros i Ni. unfold match_group, match_getitem, match_start_of, match_end_of, match_span.
    destruct (Z.eqb_spec i 0); [contradiction|]. cbn [negb]. auto.
Qed.

End General.

(** *** Slices with steps of a sorted trie, default tokenizer *)

Lemma slice_loop_same (V : Type) a b (l : list (str * V)) : forall out,
  slice_loop str_ltb (Some a) (Some b) l out = Ok ((fix go (l : list (str * V)) out := match l with
      | [] => out
      | (k, v) :: l' => if negb (str_ltb k b) then out else if negb (str_ltb k a) then go l' (out ++ [(k, v)]) else go l' out
      end) l out).
Proof.
  induction l as [|[k v] l IH]; intros out; [reflexivity|]. cbn [slice_loop].
  destruct (negb (str_ltb k b)); [reflexivity|]. destruct (negb (str_ltb k a)); apply IH.
Qed.

Definition in_range (start stop : str) {V} (kv : str * V) : bool := str_leb start (fst kv) && str_ltb (fst kv) stop.

Theorem slice_step_of_sorted : forall (V : Type) (os : list (op str V str)) start stop step,
  let t := sort_keys str_leb true (fst (run chars join new_trie os)) in
  exists l, items join t = Ok l /\ StronglySorted (fun a b => str_leb (fst a) (fst b) = true) l /\
    item_slice_step join str_ltb t (Some start) (Some stop) step = stride step (filter (in_range start stop) l) /\
    getslice_step join str_ltb t (Some start) (Some stop) step = stride step (map snd (filter (in_range start stop) l)).
Proof.
  intros V os start stop step t. destruct (slice_of_sorted V os start stop) as (l & El & S & Es & _). fold t in El, Es.
  exists l. split; [exact El|]. split; [exact S|].
  assert (E : item_slice_step join str_ltb t (Some start) (Some stop) step = stride step (filter (in_range start stop) l)).
  { unfold item_slice_step, item_slice in *. rewrite El in *. cbn [bind] in *. rewrite slice_loop_same. cbn [bind]. injection Es as ->. reflexivity. }
  split; [exact E|]. unfold getslice_step. rewrite E, stride_map. destruct (stride step (filter (in_range start stop) l)); reflexivity.
Qed.

(** [del trie[start:stop]] on a sorted trie: the non-empty keys in the range are
    gone, all others are as before, and the trie is still sorted. *)
Theorem delslice_of_sorted : forall (V : Type) (os : list (op str V str)) start stop,
  let t := sort_keys str_leb true (fst (run chars join new_trie os)) in
  exists t' l, delslice chars join str_ltb t (Some start) (Some stop) None = (t', Ok tt) /\
    items join t = Ok l /\ items join t' = Ok (filter (fun kv => negb (in_range start stop kv)) l) /\
    StronglySorted (fun a b => str_leb (fst a) (fst b) = true) (filter (fun kv => negb (in_range start stop kv)) l) /\
    forall k, getitem chars t' k = if negb (match k with [] => true | _ => false end) && str_leb start k && str_ltb k stop then Err KeyError else getitem chars t k.
Proof.
  intros V os start stop t. destruct (slice_step_of_sorted V os start stop None) as (l & El & S & Es & _). fold t in El, Es. cbn [stride] in Es.
  assert (R : reached chars join t).
  { exists (os ++ [SortKeys str_leb true]). split; [left; apply chars_join|]. unfold t.
    assert (X : forall os (t0 : trie str V), fst (run chars join t0 (os ++ [SortKeys str_leb true])) = sort_keys str_leb true (fst (run chars join t0 os))).
    { clear. induction os as [|o os IH]; intros t0; [reflexivity|]. cbn [app run]. destruct (step chars join t0 o) as [t1 r].
      specialize (IH t1). destruct (run chars join t1 (os ++ [SortKeys str_leb true])). destruct (run chars join t1 os). exact IH. }
    symmetry. apply X. }
  clearbody t.
  destruct (delslice_removes_slice chars join str_ltb t _ _ _ _ R chars_join Es) as (t' & Ed & Gi & _ & l0 & E0 & Rt & E1).
  exists t', l. split; [exact Ed|]. split; [exact El|].
  rewrite El in E0. injection E0 as E0. pose proof (reached_good _ _ t R) as G.
  assert (Il : forall k v, In (k, v) l <-> k <> [] /\ getitem chars t k = Ok v).
  { intros k v. rewrite (items_ok chars join t G) in El. injection El as <-. rewrite in_map_iff, getitem_look. split.
    - intros ([ts w] & E & I). cbn [fst snd] in E. injection E as <- <-. apply in_paths in I; [|apply G]. destruct I as [N L].
      destruct (g_keys _ _ G ts) as [q ->]; [congruence|]. rewrite join_chars, L. split; [intros ->; apply N; reflexivity|reflexivity].
    - intros [N E]. exists (chars k, v). cbn [fst snd]. rewrite join_chars. split; [reflexivity|]. apply in_paths; [apply G|]. split.
      + intros C. apply N. destruct k; [reflexivity|discriminate].
      + destruct (look (chars k) (root t)); [injection E as ->; reflexivity|discriminate]. }
  assert (Inj : forall a b, chars a = chars b -> a = b) by (intros a b E; rewrite <- (join_chars a), E; apply join_chars).
  assert (Dec : forall k, In (chars k) (map (fun kv => chars (fst kv)) (filter (in_range start stop) l)) <->
    In k (map fst l) /\ str_leb start k = true /\ str_ltb k stop = true).
  { intros k. rewrite in_map_iff. split.
    - intros ([q v] & E & I). cbn [fst] in E. apply Inj in E. subst q. apply filter_In in I. destruct I as [I B]. unfold in_range in B. cbn [fst] in B.
      apply andb_true_iff in B. split; [apply (in_map fst) in I; exact I|exact B].
    - intros [I B]. apply in_map_iff in I. destruct I as ([q v] & E & I). cbn [fst] in E. subst q. exists (k, v). split; [reflexivity|].
      apply filter_In. split; [exact I|]. unfold in_range. cbn [fst]. apply andb_true_iff. exact B. }
  split; [|split].
  - rewrite E1. f_equal.
    assert (F : forall kv, In kv l0 -> In (join (fst kv)) (map fst l)).
    { intros kv I. rewrite E0, map_map. apply (in_map (fun x => join (fst x))) in I. exact I. }
    assert (Y : forall m, incl m l0 ->
      map (fun kv : list str * V => (join (fst kv), snd kv)) (filter (fun kv => if in_dec eqd (fst kv) (map (fun kv => chars (fst kv)) (filter (in_range start stop) l)) then false else true) m) =
      filter (fun kv => negb (in_range start stop kv)) (map (fun kv => (join (fst kv), snd kv)) m)).
    { induction m as [|[ts v] m IH]; intros I; [reflexivity|]. assert (Im : In (ts, v) l0) by (apply I; left; reflexivity).
      specialize (IH (fun x J => I x (or_intror J))). pose proof (Rt ts v Im) as E. pose proof (F _ Im) as Fk. cbn [map filter fst snd] in *.
      assert (Ir : in_range start stop (join ts, v) = str_leb start (join ts) && str_ltb (join ts) stop) by reflexivity. rewrite Ir.
      destruct (in_dec eqd ts _) as [A|A].
      - rewrite <- E in A. apply Dec in A. destruct A as (_ & -> & ->). cbn [andb negb]. exact IH.
      - destruct (str_leb start (join ts) && str_ltb (join ts) stop) eqn:B; cbn [negb map fst snd]; [|f_equal; exact IH].
        exfalso. apply A. rewrite <- E. apply Dec. apply andb_true_iff in B. split; [exact Fk|exact B]. }
    rewrite (Y l0 (fun x I => I)), <- E0. reflexivity.
  - clear - S. induction S as [|x l S IH F]; [constructor|]. cbn [filter]. destruct (negb (in_range start stop x)); [|exact IH].
    constructor; [exact IH|]. rewrite Forall_forall in *. intros y I. apply filter_In in I. apply F, I.
  - intros k. rewrite Gi. destruct (in_dec eqd (chars k) _) as [A|A].
    + apply Dec in A. destruct A as (I & -> & ->). apply in_map_iff in I. destruct I as ([q v] & E & I). cbn [fst] in E. subst q. apply Il in I.
      destruct k; [destruct I; congruence|]. reflexivity.
    + destruct (negb match k with [] => true | _ => false end && str_leb start k && str_ltb k stop) eqn:B; [|reflexivity].
      apply andb_true_iff in B. destruct B as [B1 B3]. apply andb_true_iff in B1. destruct B1 as [B1 B2].
      rewrite getitem_look. destruct (look (chars k) (root t)) as [v|] eqn:L; [|reflexivity]. exfalso. apply A. apply Dec. split; [|split; assumption].
      apply (in_map fst l (k, v)). apply Il. split; [intros ->; discriminate|]. rewrite getitem_look, L. reflexivity.
Qed.

(** *** Cases *)

Notation set_ k v := (SetItem (w_ k) (w_ v)).
Definition letters : list (op str str str) :=
  [set_ "d" "4"; set_ "b" "2"; set_ "ba" "5"; set_ "a" "1"; set_ "e" "6"; set_ "c" "3"; set_ "" "0"].

Example slice_case :
  let t := sort_keys str_leb true (fst (run chars join new_trie letters)) in
  getslice_step join str_ltb t (Some (w_ "b")) (Some (w_ "e")) (Some 2%Z) = Ok [w_ "2"; w_ "3"] /\
  getslice_step join str_ltb t (Some (w_ "b")) (Some (w_ "e")) (Some (-1)%Z) = Ok [w_ "4"; w_ "3"; w_ "5"; w_ "2"] /\
  getslice_step join str_ltb t (Some (w_ "b")) (Some (w_ "e")) (Some 0%Z) = Err ValueError /\
  getslice_step join str_ltb t None None None = Err TypeError /\
  getslice_step join str_ltb t None (Some (w_ "a")) None = Ok [] /\
  getslice_step join str_ltb t None (Some (w_ "b")) None = Err TypeError.
Proof. vm_compute. repeat split. Qed.

Example delslice_case :
  let t := sort_keys str_leb true (fst (run chars join new_trie letters)) in
  let t' := fst (delslice chars join str_ltb t (Some []) (Some (w_ "d")) (Some 2%Z)) in
  items join t' = Ok [(w_ "b", w_ "2"); (w_ "c", w_ "3"); (w_ "d", w_ "4"); (w_ "e", w_ "6")] /\
  getitem chars t' [] = Ok (w_ "0") /\ getitem chars t' (w_ "ba") = Err KeyError.
Proof. vm_compute. repeat split. Qed.

Example pop_case :
  let t := fst (run chars join new_trie letters) in
  exists t', pop chars join t (Some (w_ "b")) = (t', Ok (w_ "b", w_ "2")) /\ chars (w_ "b") <> [] /\
  items join t = Ok [(w_ "c", w_ "3"); (w_ "e", w_ "6"); (w_ "a", w_ "1"); (w_ "b", w_ "2"); (w_ "ba", w_ "5"); (w_ "d", w_ "4")].
Proof. eexists. split; [vm_compute; reflexivity|]. split; [discriminate|]. vm_compute. reflexivity. Qed.

Example fromkeys_case :
  items join (fromkeys_sorted (lower_chars ascii_casefold) (casefold_leb ascii_casefold) [w_ "to"; w_ "Be"; w_ "TO"; w_ "or"] (w_ "-") true) =
  Ok [(w_ "be", w_ "-"); (w_ "or", w_ "-"); (w_ "to", w_ "-")].
Proof. vm_compute. reflexivity. Qed.

Example match_case :
  let t := fst (run chars join new_trie letters) in
  exists ms x, finditer chars join t (w_ "xba") false = Ok ms /\ In x ms /\ match_span x 0 = Ok (1, 3)%nat /\ match_dunder_len x = Ok 2%Z /\ match_group x 0 = Ok (w_ "ba").
Proof. eexists. eexists. split; [vm_compute; reflexivity|]. split; [left; reflexivity|]. vm_compute. repeat split. Qed.

(** What a reader of "slice" may expect and does not hold: [trie[:]] does not
    give all values. *)
Theorem whole_slice_refuted : exists (os : list (op str str str)) l,
  items join (sort_keys str_leb true (fst (run chars join new_trie os))) = Ok l /\ l <> [] /\
  getslice_step join str_ltb (sort_keys str_leb true (fst (run chars join new_trie os))) None None None <> Ok (map snd l).
Proof. exists letters. eexists. split; [vm_compute; reflexivity|]. split; discriminate. Qed.

Print Assumptions stride_nth.
Print Assumptions pop_keeps_order.
Print Assumptions delslice_removes_slice.
Print Assumptions delslice_fails.
Print Assumptions open_slices.
Print Assumptions slice_step_of_sorted.
Print Assumptions delslice_of_sorted.
Print Assumptions fromkeys_contents.
Print Assumptions match_methods.
Print Assumptions whole_slice_refuted.
