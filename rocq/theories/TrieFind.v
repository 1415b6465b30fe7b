(** [translate] and [finditer] against the scanning specification. *)
From Coq Require Import ZArith NArith List Bool Permutation Lia Sorted.
From Verif Require Import Py ListAux PyDict TrieSpec TrieModel TrieProofs TrieScan.
Import ListNotations.

Section Spec.
Context {T V : Type} `{EqDec T}.
Variable r : node T V.
Notation m := (fun ts => look ts r).

Lemma combine_app {A B} (a a' : list A) (b b' : list B) : List.length a = List.length b -> combine (a ++ a') (b ++ b') = combine a b ++ combine a' b'.
Proof. revert b. induction a as [|x a IH]; intros [|y b] E; cbn in *; try discriminate; [reflexivity|]. f_equal. apply IH. congruence. Qed.

Lemma skipn_cons {A} p (l : list A) : p < List.length l -> exists x, skipn p l = x :: skipn (S p) l.
Proof.
  revert l. induction p as [|p IH]; intros [|a l] L; cbn in *; try lia; [eauto|]. apply IH. lia.
Qed.

Lemma skipn_pre {A} p (pre rest : list A) : p <= List.length pre -> skipn p pre ++ rest = skipn p (pre ++ rest).
Proof. intros L. rewrite skipn_app. replace (p - List.length pre) with 0 by lia. reflexivity. Qed.

Lemma prefix_seg {A} p (text k rest' : list A) : p <= List.length text -> k ++ rest' = skipn p text -> k = seg p (p + List.length k) text /\ p + List.length k <= List.length text.
Proof.
  intros L E. assert (Ln : List.length k + List.length rest' = List.length text - p) by (rewrite <- app_length, E, skipn_length; reflexivity).
  split; [|lia]. unfold seg. rewrite <- E. replace (p + List.length k - p) with (List.length k + 0) by lia. rewrite firstn_app_2. cbn. rewrite app_nil_r. reflexivity.
Qed.

Lemma no_key_at text p : p <= List.length text -> (forall e, p < e <= List.length text -> key_at r text p e = None) -> no_key m (skipn p text).
Proof.
  intros L N k rest' E Nk. destruct (prefix_seg p text k rest' L E) as [Ek Lk]. cbv beta. rewrite Ek. apply N. destruct k; [congruence|]. cbn in *. lia.
Qed.

Lemma longest_at text s e v : s < e <= List.length text -> key_at r text s e = Some v ->
  (forall e', e < e' <= List.length text -> key_at r text s e' = None) -> longest_key m (seg s e text) (skipn e text) v.
Proof.
  intros R K N. split; [|split].
  - intros X. apply (f_equal (@List.length T)) in X. rewrite seg_length in X by lia. cbn in X. lia.
  - exact K.
  - intros k' rest' E L. rewrite seg_skipn in E by lia. destruct (prefix_seg s text k' rest') as [Ek Lk]; [lia|auto|].
    rewrite seg_length in L by lia. rewrite Ek. apply N. lia.
Qed.

Lemma rw_range vt text p q o : p <= q <= List.length text ->
  (forall s e, p <= s < q -> s < e <= List.length text -> key_at r text s e = None) ->
  rewritten m vt (skipn q text) o -> rewritten m vt (skipn p text) (seg p q text ++ o).
Proof.
  intros R N X. remember (q - p) as d eqn:Ed. revert p R N Ed. induction d as [|d IH]; intros p R N Ed.
  - replace p with q by lia. unfold seg. rewrite Nat.sub_diag. exact X.
  - destruct (skipn_cons p text) as (x & Ex); [lia|].
    assert (E : seg p q text = x :: seg (S p) q text). { unfold seg. rewrite Ex. replace (q - p) with (S (q - S p)) by lia. reflexivity. }
    rewrite E, Ex. cbn [app]. apply rw_copy.
    + rewrite <- Ex. apply no_key_at; [lia|]. intros e Re. apply N; lia.
    + apply IH; [lia| |lia]. intros s e Rs Re. apply N; lia.
Qed.

Lemma rw_at vt text s e v o : s < e <= List.length text -> key_at r text s e = Some v ->
  (forall e', e < e' <= List.length text -> key_at r text s e' = None) ->
  rewritten m vt (skipn e text) o -> rewritten m vt (skipn s text) (vt v ++ o).
Proof. intros R K N X. rewrite <- (seg_skipn s e) by lia. apply rw_key; auto. apply longest_at; auto. Qed.

Lemma sc_range text p q ms : p <= q <= List.length text ->
  (forall s e, p <= s < q -> s < e <= List.length text -> key_at r text s e = None) ->
  scanned m q (skipn q text) ms -> scanned m p (skipn p text) ms.
Proof.
  intros R N X. remember (q - p) as d eqn:Ed. revert p R N Ed. induction d as [|d IH]; intros p R N Ed.
  - replace p with q by lia. exact X.
  - destruct (skipn_cons p text) as (x & Ex); [lia|]. rewrite Ex. apply sc_skip.
    + rewrite <- Ex. apply no_key_at; [lia|]. intros e Re. apply N; lia.
    + apply IH; [lia| |lia]. intros s e Rs Re. apply N; lia.
Qed.

Lemma sc_at text s e v ms : s < e <= List.length text -> key_at r text s e = Some v ->
  (forall e', e < e' <= List.length text -> key_at r text s e' = None) ->
  scanned m e (skipn e text) ms -> scanned m s (skipn s text) ((s, e, seg s e text) :: ms).
Proof.
  intros R K N X. pose proof (longest_at text s e v R K N) as L.
  assert (E : s + List.length (seg s e text) = e) by (rewrite seg_length by lia; lia).
  rewrite <- (seg_skipn s e) by lia. pose proof (sc_key m s (seg s e text) (skipn e text) v ms L) as Y. rewrite E in Y. exact (Y X).
Qed.

(** ** The buffer *)
Definition buf (p : nat) (l : list T) : list (nat * T) := combine (seq p (List.length l)) l.

Lemma take_buf q p l : q <= p + List.length l -> take_before q (buf p l) = (firstn (q - p) l, buf (Nat.max p q) (skipn (q - p) l)).
Proof.
  revert p. induction l as [|x l IH]; intros p L; cbn in L.
  - rewrite firstn_nil, skipn_nil. reflexivity.
  - unfold buf. cbn [List.length seq combine take_before]. fold (buf (S p) l). destruct (Nat.ltb_spec p q) as [Lq|Lq].
    + rewrite IH by lia. replace (q - p) with (S (q - S p)) by lia. cbn [firstn skipn]. replace (Nat.max (S p) q) with (Nat.max p q) by lia. reflexivity.
    + replace (q - p) with 0 by lia. cbn [firstn skipn]. replace (Nat.max p q) with p by lia. reflexivity.
Qed.

Lemma take_pre q p pre : p <= List.length pre -> q <= List.length pre ->
  take_before q (buf p (skipn p pre)) = (seg p q pre, buf (Nat.max p q) (skipn (Nat.max p q) pre)).
Proof.
  intros Lp Lq. rewrite take_buf by (rewrite skipn_length; lia). unfold seg. rewrite skipn_skipn. do 2 f_equal.
  f_equal. lia.
Qed.

Lemma buf_snoc p pre x : p <= List.length pre -> buf p (skipn p pre) ++ [(List.length pre, x)] = buf p (skipn p (pre ++ [x])).
Proof.
  intros L. rewrite skipn_snoc by auto. unfold buf. rewrite app_length. cbn [List.length]. rewrite Nat.add_1_r, seq_S.
  rewrite skipn_length. replace (p + (List.length pre - p)) with (List.length pre) by lia.
  rewrite combine_app by (rewrite seq_length, skipn_length; reflexivity). reflexivity.
Qed.

Lemma buf_tokens p l : map snd (buf p l) = l.
Proof. unfold buf. revert p. induction l as [|x l IH]; intros p; cbn; [reflexivity|]. f_equal. apply IH. Qed.
End Spec.

(** ** translate *)
Section Translate.
Context {T V : Type} `{EqDec T}.
Variables (r : node T V) (vt : V -> list T).
Notation m := (fun ts => look ts r).

Notation svw := (sview (fun a : node T V => a)).
Notation mvw := (mview (C := V)).

(** Everything before [p] is decided and already in [out]. *)
Record tinv (pre : list T) (p : nat) (buffer : list (nat * T)) (matches : list (nat * (nat * V))) (spans : list (nat * node T V)) (out : list T) : Prop := {
  ti_m : inv_m r pre p (mvw matches);
  ti_s : inv_s r pre p (svw spans) (mvw matches);
  ti_ws : dwf spans;
  ti_wm : dwf matches;
  ti_buf : buffer = buf p (skipn p pre);
  ti_val : forall s e v, dget s matches = Some (e, v) -> key_at r pre s e = Some v;
  ti_out : forall rest o, rewritten m vt (skipn p (pre ++ rest)) o -> rewritten m vt (pre ++ rest) (out ++ o) }.

Lemma dget_ddel {A} (k k' : nat) (d : list (nat * A)) : dwf d -> dget k (ddel k' d) = if Nat.eq_dec k k' then None else dget k d.
Proof. intros W. destruct (Nat.eq_dec k k') as [->|N]; [apply dget_ddel_eq; auto|apply dget_ddel_neq; auto]. Qed.

Lemma ddel_length {A} (k : nat) (d : list (nat * A)) : dwf d -> In k (dkeys d) -> S (List.length (ddel k d)) = List.length d.
Proof.
  unfold dwf, dkeys. induction d as [|[a b] d IH]; cbn; [intros _ []|]. intros W I. inversion W; subst. destruct (eqd k a) as [->|N]; [reflexivity|].
  cbn. f_equal. apply IH; auto. destruct I; [congruence|auto].
Qed.

Lemma emit_ok pre spans fs index : fs <= List.length pre -> index <= List.length pre -> fs <= index -> (forall s, svw spans s <> None -> fs <= s) ->
  forall fuel p buffer matches out, List.length matches < fuel -> tinv pre p buffer matches spans out ->
  exists p' buffer' matches' out', emit_matches vt fuel fs index buffer matches out = Ok (buffer', matches', out') /\
    tinv pre p' buffer' matches' spans out' /\ (forall s, mvw matches' s <> None -> fs <= s).
Proof.
  intros Lf Li Lfi Hfs fuel. induction fuel as [|fuel IH]; intros p buffer matches out Lm I; [lia|]. cbn [emit_matches].
  destruct (Nat.ltb_spec (min_key matches index) fs) as [Lt|Ge].
  - assert (Nm : matches <> []). { intros ->. cbn in Lt. lia. }
    set (k := min_key matches index) in *. assert (Ik : In k (dkeys matches)) by (apply min_key_in; auto).
    destruct (dget k matches) as [[e v]|] eqn:Ek; [|apply dget_None in Ek; contradiction].
    destruct I as [IM IS Ws Wm Eb Iv Io].
    assert (Em : mvw matches k = Some e) by (unfold mview; rewrite Ek; reflexivity).
    destruct (im_range _ _ _ _ IM k e Em) as [R1 R2]. pose proof (im_p _ _ _ _ IM) as Lp.
    assert (Hm : forall s, mvw matches s <> None -> k <= s).
    { intros s N. apply min_key_le. unfold mview in N. destruct (dget s matches) eqn:Es; [|cbn in N; congruence]. eapply dget_Some_key; eauto. }
    destruct (core_emit r pre p (svw spans) (mvw matches) k e IM IS Em) as (C1 & C2 & C3 & C4); [intros s N; specialize (Hfs s N); lia|exact Hm|].
    rewrite Eb. rewrite take_pre by lia. replace (Nat.max p k) with k by lia. rewrite take_pre by lia. replace (Nat.max k e) with e by lia.
    assert (Ev : forall s, (if Nat.eq_dec s k then None else mvw matches s) = mvw (ddel k matches) s).
    { intros s. unfold mview. rewrite dget_ddel by auto. destruct (Nat.eq_dec s k); reflexivity. }
    apply (IH e).
    + pose proof (ddel_length k matches Wm Ik). lia.
    + constructor.
      * eapply inv_m_ext; [exact Ev|exact C3].
      * eapply inv_s_ext; [reflexivity|exact Ev|exact C4].
      * exact Ws.
      * apply ddel_wf, Wm.
      * reflexivity.
      * intros s e0 v0 E. rewrite dget_ddel in E by auto. destruct (Nat.eq_dec s k); [discriminate|]. eapply Iv; eauto.
      * intros rest o X. rewrite <- !app_assoc. apply Io.
        rewrite <- (seg_app_l p k pre rest) by lia. apply (rw_range r vt (pre ++ rest) p k).
        -- rewrite app_length. lia.
        -- intros s e' Rs Re. apply C1; lia.
        -- apply (rw_at r vt (pre ++ rest) k e v).
           ++ rewrite app_length. lia.
           ++ rewrite key_at_app by lia. eapply Iv; eauto.
           ++ intros e' Re. apply C2. lia.
           ++ exact X.
  - exists p, buffer, matches, out. split; [reflexivity|]. split; [exact I|]. intros s N.
    unfold mview in N. destruct (dget s matches) eqn:Es; [|cbn in N; congruence]. apply dget_Some_key in Es. pose proof (min_key_le matches index s Es). lia.
Qed.

Definition tadv (x : T) (h : node T V) : option (node T V) := dget x (children h).
Definition tfin (i : nat) (h : node T V) : option (nat * V) := option_map (pair (S i)) (value h).

Lemma span_step_gstep i x l : forall st, fold_left (span_step i x) l st = fold_left (gstep (tadv x) (tfin i) (fun s => inside s i) (fun s => inside s i)) l st.
Proof.
  induction l as [|[s h] l IH]; intros st; [reflexivity|]. cbn [fold_left]. rewrite IH. f_equal. destruct st as [[[a b] c] d].
  cbn [span_step gstep]. unfold tadv, tfin. destruct (dget x (children h)) as [h'|]; [|reflexivity]. destruct (value h'); reflexivity.
Qed.

Lemma seg_snoc_full {A} s (pre : list A) x : seg s (S (List.length pre)) (pre ++ [x]) = skipn s (pre ++ [x]).
Proof. rewrite <- seg_full. f_equal. rewrite app_length. cbn. lia. Qed.

Lemma step_ok pre p x buffer matches spans out : tinv pre p buffer matches spans out ->
  exists p' buffer' matches' spans' out', translate_step vt r (buffer, matches, spans, out) (List.length pre, x) = Ok (buffer', matches', spans', out') /\
    tinv (pre ++ [x]) p' buffer' matches' spans' out'.
Proof.
  intros [IM IS Ws Wm Eb Iv Io]. unfold translate_step. set (n := List.length pre).
  destruct (fold_left (span_step n x) (dset n r spans) (dset n r spans, matches, [], [])) as [[[spans1 matches1] mr] sr] eqn:Ef.
  rewrite span_step_gstep in Ef.
  assert (Wn : dwf (dset n r spans)) by (apply dset_wf; auto).
  destruct (gfold _ _ _ _ _ _ _ _ _ _ _ _ _ Wn Wn Wm Ef) as (W1 & W2 & _ & _ & G3 & G4).
  assert (Sub : forall s, In s mr -> In s sr).
  { intros s I. apply G3 in I. apply G4. destruct I as [[]|I]. right. left. exact I. }
  destruct (gstep_core r (fun a => a) tadv tfin r) with (pre := pre) (p := p) (spans := spans) (matches := matches) (x := x)
    (g := fun s => inside s n) (spans1 := spans1) (matches1 := matches1) (mr := mr) (sr := sr)
    (spans2 := remove_keys sr spans1) (matches2 := remove_keys mr matches1) as (A1 & A2 & A3 & A4); auto.
  - intros y a. unfold tadv, advance. destruct (dget y (children a)); reflexivity.
  - intros i a. unfold tfin. destruct (value a); cbn; split; congruence.
  - intros i a b. unfold tfin. destruct (value a); [|discriminate]. cbn. intros X. injection X as <-. reflexivity.
  - intros s s' I. unfold inside in I. apply in_seq in I. lia.
  - intros s I. apply remove_keys_in; auto. destruct I; auto.
  - intros s N1 N2. apply remove_keys_notin; auto.
  - intros s I. apply remove_keys_in; auto.
  - intros s N1. apply remove_keys_notin; auto.
  - fold n in A3, A4. set (spans2 := remove_keys sr spans1) in *. set (matches2 := remove_keys mr matches1) in *.
    assert (Ln : List.length (pre ++ [x]) = S n) by (rewrite app_length; cbn; unfold n; lia).
    pose proof (im_p _ _ _ _ IM) as Lp. fold n in Lp.
    assert (Val : forall s e v, dget s matches2 = Some (e, v) -> key_at r (pre ++ [x]) s e = Some v).
    { intros s e v E. destruct (A4 s (e, v) E) as [X|(a & a' & X & Y & Z)].
      - rewrite key_at_app; [eapply Iv; eauto| |]; destruct (im_range _ _ _ _ IM s e) as [? ?]; try (unfold mview; rewrite X; reflexivity); lia.
      - unfold tfin in Z. destruct (value a') as [v'|] eqn:Ev; [|discriminate]. cbn in Z. injection Z as <- <-.
        unfold key_at, look. unfold n. rewrite seg_snoc_full.
        assert (Wk : walk (skipn s pre) r = Some a).
        { destruct (Nat.eq_dec s n) as [->|N]; [rewrite dget_dset_eq in X; injection X as <-; unfold n; rewrite skipn_all; reflexivity|].
          rewrite dget_dset_neq in X by auto. apply (is_walk _ _ _ _ _ IS). unfold sview. rewrite X. reflexivity. }
        assert (Ls : s <= n). { destruct (Nat.eq_dec s n) as [->|N]; [auto|]. rewrite dget_dset_neq in X by auto. destruct (is_range _ _ _ _ _ IS s a); [unfold sview; rewrite X; reflexivity|]. unfold n. lia. }
        rewrite skipn_snoc, walk_app, Wk by auto. cbn [walk]. unfold tadv in Y. rewrite Y. exact Ev. }
    assert (I1 : tinv (pre ++ [x]) p (buffer ++ [(n, x)]) matches2 spans2 out).
    { constructor; auto.
      - apply remove_keys_wf, W1.
      - apply remove_keys_wf, W2.
      - rewrite Eb. unfold n. apply buf_snoc. exact Lp.
      - intros rest o X. rewrite <- app_assoc in *. apply Io. exact X. }
    assert (Kr : forall k, In k (dkeys spans2) -> k <= n).
    { intros k I. destruct (dget k spans2) as [h|] eqn:Eh; [|apply dget_None in Eh; contradiction].
      destruct (is_range _ _ _ _ _ A2 k h); [unfold sview; rewrite Eh; reflexivity|]. lia. }
    assert (Lf : min_key spans2 n <= n). { destruct spans2 as [|s0 sp] eqn:Es; [cbn; auto|]. rewrite <- Es in *. apply Kr, min_key_in. rewrite Es. discriminate. }
    assert (Hf : forall s, svw spans2 s <> None -> min_key spans2 n <= s).
    { intros s N. apply min_key_le. unfold sview in N. destruct (dget s spans2) eqn:Es; [|cbn in N; congruence]. eapply dget_Some_key; eauto. }
    destruct (emit_ok (pre ++ [x]) spans2 (min_key spans2 n) n) with (fuel := S (List.length matches2)) (p := p) (buffer := buffer ++ [(n, x)])
      (matches := matches2) (out := out) as (p' & buffer' & matches' & out' & E & I2 & Hm); auto; try lia.
    rewrite E. cbn [bind]. destruct I2 as [IM' IS' Ws' Wm' Eb' Iv' Io']. pose proof (im_p _ _ _ _ IM') as Lp'. rewrite Eb'.
    rewrite take_pre by lia.
    exists (Nat.max p' (min_key spans2 n)), (buf (Nat.max p' (min_key spans2 n)) (skipn (Nat.max p' (min_key spans2 n)) (pre ++ [x]))), matches', spans2, (out' ++ seg p' (min_key spans2 n) (pre ++ [x])).
    split; [reflexivity|].
    destruct (core_skip r (pre ++ [x]) p' (svw spans2) (mvw matches') (Nat.max p' (min_key spans2 n)) IM' IS') as (C1 & C2 & C3).
    + lia.
    + intros s N. specialize (Hf s N). destruct (svw spans2 s) as [h|] eqn:Es; [|congruence]. destruct (is_range _ _ _ _ _ IS' s h Es). lia.
    + intros s N. specialize (Hm s N). destruct (mvw matches' s) as [e|] eqn:Es; [|congruence]. destruct (im_range _ _ _ _ IM' s e Es). lia.
    + constructor; auto.
      intros rest o X. rewrite <- (app_assoc out'). apply Io'.
      assert (Es : seg p' (min_key spans2 n) (pre ++ [x]) = seg p' (Nat.max p' (min_key spans2 n)) ((pre ++ [x]) ++ rest)).
      { rewrite (seg_app_l _ _ (pre ++ [x]) rest) by lia. unfold seg. f_equal. lia. }
      rewrite Es. apply (rw_range r vt); auto.
      * rewrite app_length. lia.
      * intros s e Rs Re. apply C1; lia.
Qed.

Lemma loop_ok text : forall pre p st, (let '(buffer, matches, spans, out) := st in tinv pre p buffer matches spans out) ->
  exists p' buffer matches spans out, foldM (translate_step vt r) (combine (seq (List.length pre) (List.length text)) text) st = Ok (buffer, matches, spans, out) /\
    tinv (pre ++ text) p' buffer matches spans out.
Proof.
  induction text as [|x text IH]; intros pre p [[[buffer matches] spans] out] I.
  - cbn. exists p, buffer, matches, spans, out. rewrite app_nil_r. auto.
  - destruct (step_ok pre p x buffer matches spans out I) as (p' & b' & m' & s' & o' & E & I'). cbn [List.length seq combine foldM]. rewrite E. cbn [bind].
    destruct (IH (pre ++ [x]) p' (b', m', s', o') I') as (p'' & b & m0 & s & o & E' & I''). rewrite app_length, Nat.add_1_r in E'. cbn [List.length] in E'.
    exists p'', b, m0, s, o. split; [exact E'|]. rewrite <- app_assoc in I''. exact I''.
Qed.

(** After the last token. *)
Lemma end_ok text : forall matches p out, inv_m r text p (mvw matches) -> dwf matches -> StronglySorted (fun a b => fst a <= fst b) matches ->
  (forall s e v, dget s matches = Some (e, v) -> key_at r text s e = Some v) ->
  (forall o, rewritten m vt (skipn p text) o -> rewritten m vt text (out ++ o)) ->
  rewritten m vt text (translate_end vt matches (buf p (skipn p text)) out).
Proof.
  induction matches as [|[k [e v]] matches IH]; intros p out IM Wm So Iv Io; cbn [translate_end]; pose proof (im_p _ _ _ _ IM) as Lp.
  - rewrite buf_tokens. apply Io. pose proof (core_end_skip r text p _ IM (fun s => eq_refl)) as N.
    pose proof (rw_range r vt text p (List.length text) []) as X. rewrite seg_full, app_nil_r, skipn_all in X. apply X; [lia|exact N|constructor].
  - assert (Ek : dget k ((k, (e, v)) :: matches) = Some (e, v)). { cbn. destruct (eqd k k); [reflexivity|congruence]. }
    assert (Em : mvw ((k, (e, v)) :: matches) k = Some e) by (unfold mview; rewrite Ek; reflexivity).
    destruct (im_range _ _ _ _ IM k e Em) as [R1 R2]. inversion So as [|? ? So' Fa]; subst. inversion Wm as [|? ? N0 Wm']; subst.
    destruct (core_end r text p _ k e IM Em) as (C1 & C2 & C3).
    { intros s N. unfold mview in N. destruct (dget s ((k, (e, v)) :: matches)) as [y|] eqn:Es; [|cbn in N; congruence].
      apply dget_In in Es. destruct Es as [X|X]; [injection X as -> _; auto|]. rewrite Forall_forall in Fa. apply (Fa _ X). }
    rewrite take_pre by lia. replace (Nat.max p k) with k by lia. rewrite take_pre by lia. replace (Nat.max k e) with e by lia.
    apply IH; auto.
    + eapply inv_m_ext; [|exact C3]. intros s. unfold mview. cbn [dget]. destruct (Nat.eq_dec s k) as [->|N]; [|destruct (eqd s k); [congruence|reflexivity]].
      assert (X : dget k matches = None) by (apply dget_None; exact N0). rewrite X. reflexivity.
    + intros s e0 v0 E. apply Iv. cbn [dget]. destruct (eqd s k) as [->|]; [|exact E]. apply dget_Some_key in E. contradiction.
    + intros o X. rewrite <- !app_assoc. apply Io. apply (rw_range r vt text p k); [lia| |].
      * intros s e' Rs Re. apply C1; lia.
      * apply (rw_at r vt text k e v); auto; try lia.
Qed.

Lemma nat_leb_total {A} (a b : nat * A) : (fst a <=? fst b) = true \/ (fst b <=? fst a) = true.
Proof. rewrite !Nat.leb_le. lia. Qed.

Lemma sorted_matches {A} (d : list (nat * A)) : StronglySorted (fun a b => fst a <= fst b) (isort (fun a b => fst a <=? fst b) d).
Proof.
  assert (X : StronglySorted (fun a b : nat * A => (fst a <=? fst b) = true) (isort (fun a b => fst a <=? fst b) d)).
  { apply isort_sorted; [intros; apply nat_leb_total|intros a b c; rewrite !Nat.leb_le; lia]. }
  clear -X. induction X as [|a l X IH F]; constructor; auto. eapply Forall_impl; [|exact F]. intros b. cbv beta. apply Nat.leb_le.
Qed.

Lemma translate_tokens_ok (t : trie T V) text : root t = r -> exists out, translate_tokens vt t text = Ok out /\ rewritten m vt text out.
Proof.
  intros Er. unfold translate_tokens. rewrite Er. destruct (loop_ok text [] 0 ([], [], [], [])) as (p & buffer & matches & spans & out & E & I).
  - constructor; try constructor; cbn; try lia; try discriminate; try reflexivity.
    intros rest o X. exact X.
  - cbn [List.length app] in E, I. rewrite E. cbn [bind]. eexists. split; [reflexivity|]. destruct I as [IM IS Ws Wm Eb Iv Io]. rewrite Eb.
    pose proof (isort_perm (fun a b : nat * (nat * V) => fst a <=? fst b) matches) as P. apply Permutation_sym in P.
    assert (G : forall s, dget s matches = dget s (isort (fun a b : nat * (nat * V) => fst a <=? fst b) matches)) by (intros s; apply dget_perm; auto).
    apply end_ok.
    + eapply inv_m_ext; [|exact IM]. intros s. unfold mview. rewrite G. reflexivity.
    + eapply dwf_perm; eauto.
    + apply sorted_matches.
    + intros s e v X. apply Iv. rewrite G. exact X.
    + intros o X. specialize (Io [] o). rewrite app_nil_r in Io. apply Io, X.
Qed.
End Translate.

(** ** finditer *)
Section Find.
Context {T V K : Type} `{EqDec T}.
Variables (detokenizer : list T -> K) (r : node T V).
Notation m := (fun ts => look ts r).
Notation span := (node T V * list T)%type.
Notation svw := (sview (fst : span -> node T V)).
Notation mvw := (mview (C := list T)).

(** The [Match] of a span of tokens. *)
Definition as_match (x : nat * nat * list T) : nat * nat * K := (fst x, detokenizer (snd x)).

Definition fadv (x : T) (a : span) : option span := option_map (fun h => (h, snd a ++ [x])) (dget x (children (fst a))).
Definition ffin (i : nat) (a : span) : option (nat * list T) := option_map (fun _ => (S i, snd a)) (value (fst a)).

Lemma find_step_gstep (ov : bool) i x l : forall st,
  fold_left (find_step ov i x) l st = fold_left (gstep (fadv x) (ffin i) (fun s => if ov then [] else inside s i) (fun _ => [])) l st.
Proof.
  induction l as [|[s [h q]] l IH]; intros st; [reflexivity|]. cbn [fold_left]. rewrite IH. f_equal. destruct st as [[[a b] c] d].
  cbn [find_step gstep]. unfold fadv, ffin. cbn [fst snd]. destruct (dget x (children h)) as [h'|]; [|reflexivity]. cbn [option_map fst snd].
  destruct (value h'); cbn [option_map]; [|reflexivity]. rewrite app_nil_r. destruct ov; [rewrite app_nil_r|]; reflexivity.
Qed.

Lemma fadv_proj x a : option_map fst (fadv x a) = advance x (fst a).
Proof. unfold fadv, advance. destruct (dget x (children (fst a))); reflexivity. Qed.
Lemma ffin_value i a : ffin i a = None <-> value (fst a) = None.
Proof. unfold ffin. destruct (value (fst a)); cbn; split; congruence. Qed.
Lemma ffin_end i a b : ffin i a = Some b -> fst b = S i.
Proof. unfold ffin. destruct (value (fst a)); [|discriminate]. cbn. intros X. injection X as <-. reflexivity. Qed.

Record finv (pre : list T) (p : nat) (matches : list (nat * (nat * list T))) (spans : list (nat * span)) (out : list (nat * nat * list T)) : Prop := {
  fi_m : inv_m r pre p (mvw matches);
  fi_s : inv_s r pre p (svw spans) (mvw matches);
  fi_ws : dwf spans;
  fi_wm : dwf matches;
  fi_seq : forall s h q, dget s spans = Some (h, q) -> q = skipn s pre;
  fi_val : forall s e q, dget s matches = Some (e, q) -> q = seg s e pre;
  fi_out : forall rest ms, scanned m p (skipn p (pre ++ rest)) ms -> scanned m 0 (pre ++ rest) (out ++ ms) }.

Lemma key_value pre s e : key_at r pre s e <> None -> exists v, key_at r pre s e = Some v.
Proof. destruct (key_at r pre s e) as [v|]; [eauto|congruence]. Qed.

Lemma yield_ok pre spans fs : (forall s, svw spans s <> None -> fs <= s) ->
  forall fuel p matches out, List.length matches < fuel -> finv pre p matches spans out ->
  exists p' matches' out', yield_matches detokenizer fuel false fs matches (map as_match out) = Ok (matches', map as_match out') /\
    finv pre p' matches' spans out'.
Proof.
  intros Hfs fuel. induction fuel as [|fuel IH]; intros p matches out Lm I; [lia|]. cbn [yield_matches].
  destruct matches as [|mm ms] eqn:Emm; [exists p, [], out; auto|]. rewrite <- Emm in *. assert (Nm : matches <> []) by (rewrite Emm; discriminate). clear Emm mm ms.
  set (k := min_key matches 0) in *. assert (Ik : In k (dkeys matches)) by (apply min_key_in; auto).
  destruct (Nat.ltb_spec k fs) as [Lt|Ge]; cbn [orb]; [|exists p, matches, out; auto].
  destruct (dget k matches) as [[e q]|] eqn:Ek; [|apply dget_None in Ek; contradiction].
  destruct I as [IM IS Ws Wm Iq Iv Io].
  assert (Em : mvw matches k = Some e) by (unfold mview; rewrite Ek; reflexivity).
  destruct (im_range _ _ _ _ IM k e Em) as [R1 R2]. pose proof (im_p _ _ _ _ IM) as Lp.
  assert (Hm : forall s, mvw matches s <> None -> k <= s).
  { intros s N. apply min_key_le. unfold mview in N. destruct (dget s matches) eqn:Es; [|cbn in N; congruence]. eapply dget_Some_key; eauto. }
  destruct (core_emit r pre p (svw spans) (mvw matches) k e IM IS Em) as (C1 & C2 & C3 & C4); [intros s N; specialize (Hfs s N); lia|exact Hm|].
  assert (Ev : forall s, (if Nat.eq_dec s k then None else mvw matches s) = mvw (ddel k matches) s).
  { intros s. unfold mview. rewrite dget_ddel by auto. destruct (Nat.eq_dec s k); reflexivity. }
  assert (Eq : q = seg k e pre) by (eapply Iv; eauto).
  destruct (IH e (ddel k matches) (out ++ [(k, e, q)])) as (p' & m' & o' & E & I').
  - pose proof (ddel_length k matches Wm Ik). lia.
  - constructor; auto.
    + eapply inv_m_ext; [exact Ev|exact C3].
    + eapply inv_s_ext; [reflexivity|exact Ev|exact C4].
    + apply ddel_wf, Wm.
    + intros s e0 v0 E. rewrite dget_ddel in E by auto. destruct (Nat.eq_dec s k); [discriminate|]. eapply Iv; eauto.
    + intros rest ms X. rewrite <- app_assoc. cbn [app]. apply Io. apply (sc_range r (pre ++ rest) p k).
      * rewrite app_length. lia.
      * intros s e' Rs Re. apply C1; lia.
      * destruct (key_value pre k e (im_key _ _ _ _ IM k e Em)) as (v & Kv). rewrite Eq. rewrite <- (seg_app_l k e pre rest) by lia.
        apply (sc_at r (pre ++ rest) k e v).
        -- rewrite app_length. lia.
        -- rewrite key_at_app by lia. exact Kv.
        -- intros e' Re. apply C2. lia.
        -- exact X.
  - exists p', m', o'. split; [|exact I']. rewrite <- E. rewrite map_app. reflexivity.
Qed.

Lemma find_step_ok pre p x matches spans out : finv pre p matches spans out ->
  exists p' matches' spans' out', finditer_step detokenizer false r (matches, spans, map as_match out) (List.length pre, x) = Ok (matches', spans', map as_match out') /\
    finv (pre ++ [x]) p' matches' spans' out'.
Proof.
  intros [IM IS Ws Wm Iq Iv Io]. unfold finditer_step, match_. set (n := List.length pre).
  destruct (fold_left (find_step false n x) (dset n (r, []) spans) (dset n (r, []) spans, matches, [], [])) as [[[spans1 matches1] mr] sr] eqn:Ef.
  rewrite find_step_gstep in Ef.
  assert (Wn : dwf (dset n (r, []) spans)) by (apply dset_wf; auto).
  destruct (gfold _ _ _ _ _ _ _ _ _ _ _ _ _ Wn Wn Wm Ef) as (W1 & W2 & _ & _ & G3 & G4).
  destruct (gstep_core r fst fadv ffin (r, [])) with (pre := pre) (p := p) (spans := spans) (matches := matches) (x := x)
    (g := fun _ : nat => @nil nat) (spans1 := spans1) (matches1 := matches1) (mr := mr) (sr := sr)
    (spans2 := remove_keys sr (remove_keys mr spans1)) (matches2 := remove_keys mr matches1) as (A1 & A2 & A3 & A4); auto.
  - apply fadv_proj.
  - apply ffin_value.
  - apply ffin_end.
  - intros s s' [].
  - intros s s' [].
  - intros s [I|I]; [|apply remove_keys_in; auto using remove_keys_wf]. destruct (in_dec Nat.eq_dec s sr) as [J|J]; [apply remove_keys_in; auto using remove_keys_wf|].
    rewrite remove_keys_notin by auto. apply remove_keys_in; auto.
  - intros s N1 N2. rewrite !remove_keys_notin; auto.
  - intros s I. apply remove_keys_in; auto.
  - intros s N1. apply remove_keys_notin; auto.
  - fold n in A3, A4. set (spans2 := remove_keys sr (remove_keys mr spans1)) in *. set (matches2 := remove_keys mr matches1) in *.
    assert (Qs : forall s a, dget s (dset n (r, []) spans) = Some a -> s <= n /\ snd a = skipn s pre).
    { intros s [h q] X. destruct (Nat.eq_dec s n) as [->|N]; [rewrite dget_dset_eq in X; injection X as <- <-; unfold n; rewrite skipn_all; auto|].
      rewrite dget_dset_neq in X by auto. split; [|eapply Iq; eauto]. destruct (is_range _ _ _ _ _ IS s h); [unfold sview; rewrite X; reflexivity|]. unfold n. lia. }
    assert (Qa : forall s a a', dget s (dset n (r, []) spans) = Some a -> fadv x a = Some a' -> snd a' = skipn s (pre ++ [x])).
    { intros s a a' X Y. destruct (Qs s a X) as [Ls Eq]. unfold fadv in Y. destruct (dget x (children (fst a))); [|discriminate]. injection Y as <-. cbn [snd].
      rewrite Eq, skipn_snoc by auto. reflexivity. }
    assert (I1 : finv (pre ++ [x]) p matches2 spans2 out).
    { constructor; auto.
      - apply remove_keys_wf, remove_keys_wf, W1.
      - apply remove_keys_wf, W2.
      - intros s h q E. destruct (A3 s (h, q) E) as (a & X & Y). apply (Qa s a (h, q) X Y).
      - intros s e q E. destruct (A4 s (e, q) E) as [X|(a & a' & X & Y & Z)].
        + rewrite seg_app_l; [eapply Iv; eauto| |]; destruct (im_range _ _ _ _ IM s e) as [? ?]; try (unfold mview; rewrite X; reflexivity); lia.
        + pose proof (Qa s a a' X Y) as Q. unfold ffin in Z. destruct (value (fst a')); [|discriminate]. cbn in Z. injection Z as <- <-. unfold n. rewrite seg_snoc_full. exact Q.
      - intros rest o X. rewrite <- app_assoc in *. apply Io. exact X. }
    assert (Hf : forall s, svw spans2 s <> None -> min_key spans2 n <= s).
    { intros s N. apply min_key_le. unfold sview in N. destruct (dget s spans2) eqn:Es; [|cbn in N; congruence]. eapply dget_Some_key; eauto. }
    destruct (yield_ok (pre ++ [x]) spans2 (min_key spans2 n) Hf) with (fuel := S (List.length matches2)) (p := p)
      (matches := matches2) (out := out) as (p' & matches' & out' & E & I2); auto.
    rewrite E. cbn [bind]. exists p', matches', spans2, out'. split; [reflexivity|exact I2].
Qed.

Lemma find_loop_ok text : forall pre p matches spans out, finv pre p matches spans out ->
  exists p' matches' spans' out', foldM (finditer_step detokenizer false r) (combine (seq (List.length pre) (List.length text)) text) (matches, spans, map as_match out)
      = Ok (matches', spans', map as_match out') /\ finv (pre ++ text) p' matches' spans' out'.
Proof.
  induction text as [|x text IH]; intros pre p matches spans out I.
  - cbn. exists p, matches, spans, out. rewrite app_nil_r. auto.
  - destruct (find_step_ok pre p x matches spans out I) as (p' & m' & s' & o' & E & I'). cbn [List.length seq combine foldM]. rewrite E. cbn [bind].
    destruct (IH (pre ++ [x]) p' m' s' o' I') as (p'' & m0 & s & o & E' & I''). rewrite app_length, Nat.add_1_r in E'.
    exists p'', m0, s, o. split; [exact E'|]. rewrite <- app_assoc in I''. exact I''.
Qed.

Lemma find_end_ok text : forall matches p out, inv_m r text p (mvw matches) -> dwf matches -> StronglySorted (fun a b => fst a <= fst b) matches ->
  (forall s e q, dget s matches = Some (e, q) -> q = seg s e text) ->
  (forall ms, scanned m p (skipn p text) ms -> scanned m 0 text (out ++ ms)) ->
  scanned m 0 text (out ++ map (fun x => (fst x, fst (snd x), snd (snd x))) matches).
Proof.
  induction matches as [|[k [e q]] matches IH]; intros p out IM Wm So Iv Io; cbn [map fst snd]; pose proof (im_p _ _ _ _ IM) as Lp.
  - apply Io. pose proof (core_end_skip r text p _ IM (fun s => eq_refl)) as N.
    apply (sc_range r text p (List.length text)); [lia|exact N|]. rewrite skipn_all. constructor.
  - assert (Ek : dget k ((k, (e, q)) :: matches) = Some (e, q)). { cbn. destruct (eqd k k); [reflexivity|congruence]. }
    assert (Em : mvw ((k, (e, q)) :: matches) k = Some e) by (unfold mview; rewrite Ek; reflexivity).
    destruct (im_range _ _ _ _ IM k e Em) as [R1 R2]. inversion So as [|? ? So' Fa]; subst. inversion Wm as [|? ? N0 Wm']; subst.
    destruct (core_end r text p _ k e IM Em) as (C1 & C2 & C3).
    { intros s N. unfold mview in N. destruct (dget s ((k, (e, q)) :: matches)) as [y|] eqn:Es; [|cbn in N; congruence].
      apply dget_In in Es. destruct Es as [X|X]; [injection X as -> _; auto|]. rewrite Forall_forall in Fa. apply (Fa _ X). }
    replace (out ++ (k, e, q) :: map (fun x => (fst x, fst (snd x), snd (snd x))) matches)
      with ((out ++ [(k, e, q)]) ++ map (fun x : nat * (nat * list T) => (fst x, fst (snd x), snd (snd x))) matches) by (rewrite <- app_assoc; reflexivity).
    apply (IH e); auto.
    + eapply inv_m_ext; [|exact C3]. intros s. unfold mview. cbn [dget]. destruct (Nat.eq_dec s k) as [->|N]; [|destruct (eqd s k); [congruence|reflexivity]].
      assert (X : dget k matches = None) by (apply dget_None; exact N0). rewrite X. reflexivity.
    + intros s e0 v0 E. apply Iv. cbn [dget]. destruct (eqd s k) as [->|]; [|exact E]. apply dget_Some_key in E. contradiction.
    + intros ms X. rewrite <- app_assoc. cbn [app]. apply Io. apply (sc_range r text p k); [lia| |].
      * intros s e' Rs Re. apply C1; lia.
      * destruct (key_value text k e (im_key _ _ _ _ IM k e Em)) as (v & Kv). rewrite (Iv k e q Ek). apply (sc_at r text k e v); auto; try lia.
Qed.

Variable tokenizer : K -> list T.

Lemma finditer_ok (t : trie T V) input : root t = r ->
  exists ms, finditer tokenizer detokenizer t input false = Ok (map as_match ms) /\ scanned m 0 (tokenizer input) ms.
Proof.
  intros Er. unfold finditer, match_. rewrite Er. destruct (find_loop_ok (tokenizer input) [] 0 [] [] []) as (p & matches & spans & out & E & I).
  - constructor; try constructor; cbn; try lia; try discriminate; try reflexivity.
    intros rest ms X. exact X.
  - cbn [List.length app map] in E, I. unfold match_ in *. rewrite E. cbn [bind]. destruct I as [IM IS Ws Wm Iq Iv Io].
    set (so := isort (fun a b : nat * (nat * list T) => fst a <=? fst b) matches).
    exists (out ++ map (fun x => (fst x, fst (snd x), snd (snd x))) so). split; [rewrite map_app, map_map; reflexivity|].
    pose proof (isort_perm (fun a b : nat * (nat * list T) => fst a <=? fst b) matches) as P. apply Permutation_sym in P. fold so in P.
    assert (G : forall s, dget s matches = dget s so) by (intros s; apply dget_perm; auto).
    apply (find_end_ok (tokenizer input) so p).
    + eapply inv_m_ext; [|exact IM]. intros s. unfold mview. rewrite G. reflexivity.
    + eapply dwf_perm; eauto.
    + apply sorted_matches.
    + intros s e v X. apply Iv. rewrite G. exact X.
    + intros o X. specialize (Io [] o). rewrite app_nil_r in Io. apply Io, X.
Qed.

(** *** Overlapping *)

Definition by_end (a b : nat * nat * list T) : Prop := snd (fst a) < snd (fst b) \/ (snd (fst a) = snd (fst b) /\ fst (fst a) < fst (fst b)).

Lemma yield_all fs : forall fuel (matches : list (nat * (nat * list T))) out, dwf matches -> List.length matches < fuel ->
  exists d, yield_matches detokenizer fuel true fs matches (map as_match out) = Ok ([], map as_match (out ++ map (fun x => (fst x, fst (snd x), snd (snd x))) d)) /\
    Permutation d matches /\ StronglySorted (fun a b => fst a < fst b) d.
Proof.
  induction fuel as [|fuel IH]; intros matches out Wm L; [lia|]. cbn [yield_matches].
  destruct matches as [|mm ms] eqn:Emm; [exists []; rewrite app_nil_r; repeat constructor|]. rewrite <- Emm in *. assert (Nm : matches <> []) by (rewrite Emm; discriminate). clear Emm mm ms.
  set (k := min_key matches 0) in *. assert (Ik : In k (dkeys matches)) by (apply min_key_in; auto). rewrite orb_true_r.
  destruct (dget k matches) as [[e q]|] eqn:Ek; [|apply dget_None in Ek; contradiction].
  destruct (IH (ddel k matches) (out ++ [(k, e, q)])) as (d & E & P & So); [apply ddel_wf, Wm|pose proof (ddel_length k matches Wm Ik); lia|].
  assert (Pm : Permutation ((k, (e, q)) :: ddel k matches) matches).
  { apply NoDup_Permutation.
    - constructor; [|eapply NoDup_map_inv; apply (ddel_wf k matches Wm)]. intros I. apply (in_map fst) in I. apply (in_dkeys_ddel k k matches Wm) in I. tauto.
    - eapply NoDup_map_inv. exact Wm.
    - intros [s y]. split.
      + intros [X|X]; [injection X as <- <-; apply dget_In; auto|]. apply (In_dget _ _ _ (ddel_wf k matches Wm)) in X. apply dget_In.
        rewrite dget_ddel in X by auto. destruct (Nat.eq_dec s k); [discriminate|auto].
      + intros X. apply (In_dget _ _ _ Wm) in X. destruct (Nat.eq_dec s k) as [->|N]; [left; congruence|right]. apply dget_In. rewrite dget_ddel_neq by auto. exact X. }
  exists ((k, (e, q)) :: d). split; [|split].
  - rewrite map_app in E. cbn [map as_match fst snd] in E. unfold as_match at 2 in E. cbn [fst snd] in E. etransitivity; [exact E|]. cbn [map fst snd]. rewrite <- app_assoc. reflexivity.
  - rewrite P. exact Pm.
  - constructor; auto. apply Forall_forall. intros [s y] I. cbn [fst]. apply (Permutation_in _ P) in I.
    apply (in_map fst) in I. apply (in_dkeys_ddel s k matches Wm) in I. destruct I as [N I]. pose proof (min_key_le matches 0 s I). unfold k in *. lia.
Qed.

Record oinv (pre : list T) (spans : list (nat * span)) (out : list (nat * nat * list T)) : Prop := {
  oi_ws : dwf spans;
  oi_spans : forall s h q, dget s spans = Some (h, q) <-> s < List.length pre /\ walk (skipn s pre) r = Some h /\ q = skipn s pre;
  oi_out : forall s e q, In (s, e, q) out <-> s < e <= List.length pre /\ key_at r pre s e <> None /\ q = seg s e pre;
  oi_sorted : StronglySorted by_end out }.

Lemma sorted_app {A} (R : A -> A -> Prop) a b : StronglySorted R a -> StronglySorted R b -> (forall x y, In x a -> In y b -> R x y) -> StronglySorted R (a ++ b).
Proof.
  induction 1 as [|x a Sa IH F]; intros Sb X; [exact Sb|]. cbn. constructor; [apply IH; auto; intros; apply X; simpl; auto|].
  rewrite Forall_app. split; [exact F|]. apply Forall_forall. intros y I. apply X; simpl; auto.
Qed.

Lemma overlap_step_ok pre x spans out : oinv pre spans out ->
  exists spans' out', finditer_step detokenizer true r ([], spans, map as_match out) (List.length pre, x) = Ok ([], spans', map as_match out') /\
    oinv (pre ++ [x]) spans' out'.
Proof.
  intros [Ws Is Io So]. unfold finditer_step, match_. set (n := List.length pre).
  destruct (fold_left (find_step true n x) (dset n (r, []) spans) (dset n (r, []) spans, [], [], [])) as [[[spans1 matches1] mr] sr] eqn:Ef.
  rewrite find_step_gstep in Ef.
  assert (Wn : dwf (dset n (r, []) spans)) by (apply dset_wf; auto).
  assert (W0 : dwf (@nil (nat * (nat * list T)))) by constructor.
  destruct (gfold _ _ _ _ _ _ _ _ _ _ _ _ _ Wn Wn W0 Ef) as (W1 & W2 & G1 & G2 & G3 & G4). clear Ef.
  assert (Mr : mr = []). { destruct mr as [|k mr]; auto. destruct (proj1 (G3 k)) as [[]|(? & ? & ? & ? & _ & _ & _ & [])]. left. reflexivity. }
  subst mr. cbn [remove_keys fold_left].
  assert (Sr : forall s, In s sr <-> exists a, dget s (dset n (r, []) spans) = Some a /\ fadv x a = None).
  { intros s. rewrite G4. split; [intros [[]|[(? & ? & ? & ? & _ & _ & _ & [])|I]]; exact I|auto]. }
  assert (Sn : forall s h q, dget s (dset n (r, []) spans) = Some (h, q) <-> s <= n /\ walk (skipn s pre) r = Some h /\ q = skipn s pre).
  { intros s h q. destruct (Nat.eq_dec s n) as [->|N].
    - rewrite dget_dset_eq. unfold n. rewrite skipn_all. split; [intros X; injection X as <- <-; auto|intros (_ & X & ->); cbn in X; congruence].
    - rewrite dget_dset_neq by auto. rewrite Is. fold n. intuition lia. }
  assert (Wx : forall s, s <= n -> walk (skipn s (pre ++ [x])) r = match walk (skipn s pre) r with Some h => dget x (children h) | None => None end).
  { intros s L. rewrite skipn_snoc by auto. rewrite walk_app. destruct (walk (skipn s pre) r); [|reflexivity]. cbn [walk]. destruct (dget x (children _)); reflexivity. }
  assert (Ln : List.length (pre ++ [x]) = S n) by (rewrite app_length; cbn; unfold n; lia).
  destruct (yield_all (min_key (remove_keys sr spans1) n) (S (List.length matches1)) matches1 out W2) as (d & E & P & Sd); [lia|].
  rewrite E. cbn [bind]. eexists. eexists. split; [reflexivity|].
  assert (D : forall s e q, In (s, (e, q)) d <-> s <= n /\ e = S n /\ q = skipn s (pre ++ [x]) /\ key_at r (pre ++ [x]) s (S n) <> None).
  { intros s e q. assert (Pd : In (s, (e, q)) d <-> dget s matches1 = Some (e, q)).
    { split; intros I; [apply In_dget; auto; eapply Permutation_in; eauto|]. apply dget_In in I. eapply Permutation_in; [apply Permutation_sym; exact P|exact I]. }
    rewrite Pd, G2. unfold key_at, look. replace (seg s (S n) (pre ++ [x])) with (skipn s (pre ++ [x])) by (unfold n; symmetry; apply seg_snoc_full). cbn [dget]. split.
    - destruct (dget s (dset n (r, []) spans)) as [[h q0]|] eqn:Es; [|discriminate]. apply Sn in Es. destruct Es as (Ls & Wk & ->).
      rewrite Wx, Wk by auto. unfold fadv. cbn [fst snd]. destruct (dget x (children h)) as [h'|]; [|discriminate]. cbn [option_map]. unfold ffin. cbn [fst snd].
      destruct (value h') as [v|]; [|discriminate]. cbn [option_map]. intros X. injection X as <- <-. rewrite skipn_snoc by auto. repeat split; auto. discriminate.
    - intros (Ls & -> & -> & Kn). rewrite Wx in Kn by auto. destruct (walk (skipn s pre) r) as [h|] eqn:Wk; [|congruence].
      assert (Es : dget s (dset n (r, []) spans) = Some (h, skipn s pre)) by (apply Sn; auto). rewrite Es. unfold fadv. cbn [fst snd].
      destruct (dget x (children h)) as [h'|]; [|congruence]. cbn [option_map]. unfold ffin. cbn [fst snd]. destruct (value h') as [v|]; [|congruence]. cbn [option_map].
      rewrite skipn_snoc by auto. reflexivity. }
  constructor.
  - apply remove_keys_wf, W1.
  - intros s h q. rewrite Ln. destruct (in_dec Nat.eq_dec s sr) as [I|I].
    + rewrite remove_keys_in by auto. split; [discriminate|]. intros (Ls & Wk & _). exfalso. apply Sr in I. destruct I as ([h0 q0] & E0 & E1). apply Sn in E0.
      destruct E0 as (L0 & Wk0 & _). rewrite Wx, Wk0 in Wk by lia. unfold fadv in E1. cbn [fst] in E1. rewrite Wk in E1. discriminate.
    + rewrite remove_keys_notin by auto. rewrite G1. destruct (dget s (dset n (r, []) spans)) as [[h0 q0]|] eqn:Es.
      * pose proof Es as Es'. apply Sn in Es'. destruct Es' as (L0 & Wk0 & ->). rewrite Wx, Wk0 by lia. unfold fadv. cbn [fst snd].
        destruct (dget x (children h0)) as [h'|] eqn:Ec; cbn [option_map].
        -- rewrite skipn_snoc by auto. split; [intros X; injection X as <- <-; repeat split; auto; lia|intros (_ & X & ->); congruence].
        -- exfalso. apply I, Sr. exists (h0, skipn s pre). split; auto. unfold fadv. cbn [fst]. rewrite Ec. reflexivity.
      * split; [discriminate|]. intros (Ls & Wk & _). exfalso. rewrite Wx in Wk by lia. destruct (walk (skipn s pre) r) as [h0|] eqn:Wk0; [|discriminate].
        assert (X : dget s (dset n (r, []) spans) = Some (h0, skipn s pre)) by (apply Sn; repeat split; auto; lia). congruence.
  - intros s e q. rewrite in_app_iff, Io, in_map_iff, Ln. fold n. split.
    + intros [(R & Kn & ->)|([s0 [e0 q0]] & X & I)].
      * rewrite key_at_app by (fold n; lia). rewrite seg_app_l by (fold n; lia). repeat split; auto; lia.
      * cbn [fst snd] in X. injection X as <- <- <-. apply D in I. destruct I as (L & -> & -> & Kn). repeat split; auto; try lia. unfold n. rewrite seg_snoc_full. reflexivity.
    + intros (R & Kn & ->). destruct (Nat.eq_dec e (S n)) as [->|N].
      * right. exists (s, (S n, skipn s (pre ++ [x]))). cbn [fst snd]. split; [unfold n; rewrite seg_snoc_full; reflexivity|]. apply D. repeat split; auto; lia.
      * left. rewrite key_at_app in Kn by (fold n; lia). rewrite seg_app_l by (fold n; lia). repeat split; auto; lia.
  - apply sorted_app; auto.
    + clear - Sd D. assert (De : forall a, In a d -> fst (snd a) = S n) by (intros [s [e q]] I; apply D in I; tauto). clear D.
      induction Sd as [|a d Sd IH F]; [constructor|]. cbn [map]. constructor; [apply IH; intros; apply De; simpl; auto|].
      apply Forall_forall. intros y I. apply in_map_iff in I. destruct I as (b & <- & I). rewrite Forall_forall in F. specialize (F b I). right. cbn [fst snd].
      rewrite (De a), (De b) by (simpl; auto). auto.
    + intros [[s e] q] y I J. apply Io in I. apply in_map_iff in J. destruct J as ([s0 [e0 q0]] & <- & J). apply D in J. left. cbn [fst snd]. fold n in I. lia.
Qed.

Lemma overlap_loop_ok text : forall pre spans out, oinv pre spans out ->
  exists spans' out', foldM (finditer_step detokenizer true r) (combine (seq (List.length pre) (List.length text)) text) ([], spans, map as_match out)
      = Ok ([], spans', map as_match out') /\ oinv (pre ++ text) spans' out'.
Proof.
  induction text as [|x text IH]; intros pre spans out I.
  - cbn. exists spans, out. rewrite app_nil_r. auto.
  - destruct (overlap_step_ok pre x spans out I) as (s' & o' & E & I'). cbn [List.length seq combine foldM]. rewrite E. cbn [bind].
    destruct (IH (pre ++ [x]) s' o' I') as (s & o & E' & I''). rewrite app_length, Nat.add_1_r in E'.
    exists s, o. split; [exact E'|]. rewrite <- app_assoc in I''. exact I''.
Qed.

Lemma occurs_seg text s e k : occurs m text s e k <-> s < e <= List.length text /\ key_at r text s e <> None /\ k = seg s e text.
Proof.
  unfold occurs, key_at. split.
  - intros (L & (a & b & -> & La & Le) & Nk).
    assert (E : seg s e (a ++ k ++ b) = k).
    { unfold seg. rewrite <- La, skipn_app, skipn_all, Nat.sub_diag. cbn [skipn app]. rewrite La. replace (e - s) with (List.length k + 0) by lia.
      rewrite firstn_app_2. cbn. apply app_nil_r. }
    rewrite E. split; [|auto]. rewrite !app_length. lia.
  - intros (R & Kn & ->). split; [lia|]. split; [|exact Kn]. exists (firstn s text), (skipn e text). split; [|split].
    + rewrite seg_skipn by lia. symmetry. apply firstn_skipn.
    + rewrite firstn_length. lia.
    + rewrite seg_length by lia. lia.
Qed.

Lemma finditer_overlapping_ok (t : trie T V) input : root t = r ->
  exists ms, finditer tokenizer detokenizer t input true = Ok (map as_match ms) /\ StronglySorted by_end ms /\
    forall s e k, In (s, e, k) ms <-> occurs m (tokenizer input) s e k.
Proof.
  intros Er. unfold finditer, match_. rewrite Er. destruct (overlap_loop_ok (tokenizer input) [] [] []) as (spans & out & E & I).
  - constructor; try constructor; cbn; try discriminate; try tauto; try lia.
  - cbn [List.length app map] in E, I. unfold match_ in *. rewrite E. cbn [bind]. destruct I as [Ws Is Io So].
    exists out. split; [cbn; rewrite app_nil_r; reflexivity|]. split; [exact So|]. intros s e k. rewrite Io. symmetry. apply occurs_seg.
Qed.
End Find.
