(** Theorems about nmd/nmd_index.py ([WordList] = [ApproxWordListV6], and
    [ApproxWordListV5]): properties C19 - C29.

    In every statement [rnd] is a rounding ([exact] for real arithmetic),
    [casefold] any idempotent function, [mean] an average, and each call
    iterates over its sets in any order. *)
From Coq Require Import ZArith NArith QArith Qcanon List Bool Permutation Lia Sorted String.
From Verif Require Import Num Py ListAux PyDict Float64 EmdSpec EmdModel EmdProofs EmdFloatProofs
  NmdSpec NmdModel NmdProofs NmdFloatProofs IndexSpec IndexModel IndexProofs IndexLoops IndexLookupProofs IndexResult IndexTop
  IndexScore IndexFacts Ex Props_Nmd.
Import ListNotations.
Open Scope string_scope.
Open Scope list_scope.
Open Scope Qc_scope.

(** *** Concrete word lists *)

Definition ord0 : order := {| o_str := fun l => l; o_int := fun l => l |}.
Definition ord1 : order := {| o_str := @rev str; o_int := @rev Z |}.
Lemma ord0_fair : fair ord0. Proof. split; intros; apply Permutation_refl. Qed.
Lemma ord1_fair : fair ord1. Proof. split; intros; apply Permutation_sym, Permutation_rev. Qed.

(** ASCII case folding *)
Definition lower (w : str) : str := map (fun c => if (65 <=? c)%N && (c <=? 90)%N then (c + 32)%N else c) w.
Lemma lower_idem w : lower (lower w) = lower w.
Proof.
  unfold lower. rewrite map_map. apply map_ext. intros c.
  destruct (N.leb_spec 65 c), (N.leb_spec c 90); cbn [andb]; try (destruct (N.leb_spec 65 (c + 32)), (N.leb_spec (c + 32) 90); cbn [andb]; lia);
    destruct (N.leb_spec 65 c), (N.leb_spec c 90); cbn [andb]; lia.
Qed.

(** [WordList(n, filter_n=fn)], and the same with words added. *)
Definition fresh (n : list Z) (fn : Z) : wordlist :=
  match wl_init (NIter n) (PBool false) fn with Ok st => st | Err _ =>
    {| n_list := []; case_insensitive := true; filter_n := 0; word_indices := []; word_list := []; word_lens := [];
       word_num_grams := []; ngram_filter := []; ngram_counts := []; ngram_positions := [] |} end.
Definition built (n : list Z) (fn : Z) (words : list string) : wordlist :=
  run exact lower (fresh n fn) (map (fun s => (ord0, PStr (w_ s))) words).
Definition lookup_ex (st : wordlist) (q : string) (k : Z) (nz : bool) : result (list (str * (Qc * Qc))) :=
  lookup exact lower (mean1 exact) ord0 st (PStr (w_ q)) (PInt k) nz.
Definition lists (r : result (list (str * (Qc * Qc)))) (l : list (string * (Qc * Qc))) : bool :=
  match r with
  | Ok r => (List.length r =? List.length l)%nat &&
      forallb (fun ab => (if list_eq_dec N.eq_dec (fst (fst ab)) (w_ (fst (snd ab))) then true else false) &&
        qeqb (fst (snd (fst ab))) (fst (snd (snd ab))) && qeqb (snd (snd (fst ab))) (snd (snd (snd ab)))) (combine r l)
  | Err _ => false
  end.

Lemma run_reachable rnd casefold calls : forall st, reachable rnd casefold st -> Forall (fun c => fair (fst c)) calls ->
  reachable rnd casefold (run rnd casefold st calls).
Proof.
  induction calls as [|[o v] calls IH]; intros st H F; [exact H|]. inversion F; subst. unfold run. cbn [fold_left fst snd].
  apply IH; auto. apply reach_add; auto.
Qed.

Lemma built_reachable n fn words st0 : wl_init (NIter n) (PBool false) fn = Ok st0 -> reachable exact lower (built n fn words).
Proof.
  intros E. unfold built. apply run_reachable.
  - unfold fresh. rewrite E. econstructor; eauto.
  - apply Forall_forall. intros c Hc. apply in_map_iff in Hc. destruct Hc as (s & <- & _). apply ord0_fair.
Qed.

(** *** C19: vocabulary *)

Lemma str_leb_total a b : str_leb a b = true \/ str_leb b a = true.
Proof.
  revert b. induction a as [|x a IH]; intros [|y b]; simpl; auto.
  destruct (N.ltb_spec x y), (N.ltb_spec y x), (N.eqb_spec x y), (N.eqb_spec y x); simpl; auto; try lia.
Qed.
Lemma str_leb_trans a b c : str_leb a b = true -> str_leb b c = true -> str_leb a c = true.
Proof.
  revert b c. induction a as [|x a IH]; intros [|y b] [|z c]; simpl; auto; try discriminate.
  destruct (N.ltb_spec x y), (N.ltb_spec y z), (N.ltb_spec x z), (N.eqb_spec x y), (N.eqb_spec y z), (N.eqb_spec x z);
    simpl; eauto; try lia; try discriminate.
Qed.
Lemma str_leb_antisym a b : str_leb a b = true -> str_leb b a = true -> a = b.
Proof.
  revert b. induction a as [|x a IH]; intros [|y b]; simpl; auto; try discriminate.
  destruct (N.ltb_spec x y), (N.ltb_spec y x), (N.eqb_spec x y), (N.eqb_spec y x); simpl; try lia; try discriminate.
  intros. subst. f_equal. auto.
Qed.

(** The words that may enter the list: non-empty strings whose folded form is
    free of markers. *)
Definition enters (fold : str -> str) (v : pyval) (u : str) : Prop :=
  exists w, v = PStr w /\ w <> [] /\ u = fold w /\ u <> [] /\ clean u.

Lemma run_words rnd casefold : rnd 0 = 0 -> (forall w, casefold (casefold w) = casefold w) -> forall calls st,
  inv rnd casefold st -> Forall (fun c => fair (fst c)) calls -> forall u,
  In u (word_list (run rnd casefold st calls)) <->
  In u (word_list st) \/ exists c, In c calls /\ enters (fun w => if case_insensitive st then casefold w else w) (snd c) u.
Proof.
  intros R0 CI. induction calls as [|[o v] calls IH]; intros st I F u.
  - split; auto. intros [|(c & [] & _)]; auto.
  - inversion F; subst. cbn [fst] in *. unfold run. cbn [fold_left fst snd].
    destruct (add_word_spec rnd casefold R0 CI o st v I H1) as (I' & _ & C' & _ & W' & _).
    change (fold_left _ calls ?s) with (run rnd casefold s calls). rewrite IH, W', C', in_app_iff by auto.
    assert (A : In u (added casefold st v) -> enters (fun w => if case_insensitive st then casefold w else w) v u).
    { unfold added. destruct v as [w| | | |]; try (intros []). unfold fold_case.
      destruct w as [|c w]; [intros []|]. set (x := if case_insensitive st then casefold (c :: w) else c :: w). cbv zeta.
      destruct x as [|cx x0] eqn:Ex; [intros []|]. destruct (in_dec eqd _ _); [intros []|]. destruct (clean_dec _) as [D|]; [|intros []].
      intros [<-|[]]. exists (c :: w). unfold x in Ex. rewrite Ex. split; auto. split; [discriminate|]. split; auto. split; [discriminate|]. auto. }
    assert (B : enters (fun w => if case_insensitive st then casefold w else w) v u -> In u (word_list st) \/ In u (added casefold st v)).
    { intros (w & -> & Hw & E & Hu & D). unfold added, fold_case. destruct w as [|c w]; [congruence|]. cbv zeta. rewrite <- E.
      destruct u as [|cu u0] eqn:Eu; [congruence|]. rewrite <- Eu in *. destruct (in_dec eqd u (word_list st)); auto.
      destruct (clean_dec u); [right; left; auto|contradiction]. }
    split.
    + intros [[H|H]|(c & Hc & Hu)]; auto.
      * right. exists (o, v). split; [left; auto|]. apply A. auto.
      * right. exists c. split; [right; auto|auto].
    + intros [H|(c & [<-|Hc] & Hu)].
      * left. left. exact H.
      * left. apply B. exact Hu.
      * right. exists c. auto.
Qed.

(** The constructor: sizes, flag and filter size are as asked for. *)
Definition asked (n : n_arg) (zs : list Z) : Prop := match n with NInt z => zs = [z] | NIter l => zs = l | NOther => False end.

Theorem wordlist_init : forall n c fn,
  ((exists st, wl_init n c fn = Ok st) <->
     exists zs k, asked n zs /\ Forall (fun z => (0 < z)%Z) zs /\ as_int c = Some k) /\
  (forall st, wl_init n c fn = Ok st -> exists zs, asked n zs /\ StronglySorted Z.lt (n_list st) /\
     (forall z, In z (n_list st) <-> In z zs) /\ (case_insensitive st = true <-> as_int c = Some 0%Z) /\ filter_n st = fn /\ vocabulary st = []) /\
  (forall e, wl_init n c fn = Err e ->
     (e = AssertionError /\ exists zs z, asked n zs /\ In z zs /\ (z <= 0)%Z) \/
     (e = TypeError /\ (n = NOther \/ as_int c = None))).
Proof.
  intros n c fn. unfold wl_init.
  set (sizes := match n with NInt z => if (0 <? z)%Z then Ok [z] else Err AssertionError
        | NIter l => let l := isort Z.leb (nodup eqd l) in if forallb (fun z => 0 <? z)%Z l then Ok l else Err AssertionError
        | NOther => Err TypeError end).
  assert (Sz : match sizes with
    | Ok nl => exists zs, asked n zs /\ Forall (fun z => (0 < z)%Z) zs /\ StronglySorted Z.lt nl /\ forall z, In z nl <-> In z zs
    | Err e => (e = AssertionError /\ exists zs z, asked n zs /\ In z zs /\ (z <= 0)%Z) \/ (e = TypeError /\ n = NOther)
    end).
  { unfold sizes. destruct n as [z|l|]; cbn [asked].
    - destruct (Z.ltb_spec 0 z) as [L|L].
      + exists [z]. split; auto. split; auto. split; [repeat constructor|]. tauto.
      + left. split; auto. exists [z], z. simpl; auto.
    - cbv zeta. assert (P : forall z, In z (isort Z.leb (nodup eqd l)) <-> In z l).
      { intros z. rewrite <- (nodup_In eqd l). split; apply Permutation_in; [apply isort_perm|symmetry; apply isort_perm]. }
      destruct (forallb _ _) eqn:E.
      + rewrite forallb_forall in E. exists l. split; auto. split.
        { apply Forall_forall. intros z I. apply P, E in I. apply Z.ltb_lt. exact I. }
        split; auto.
        assert (Ss : StronglySorted (fun a b => (a <=? b)%Z = true) (isort Z.leb (nodup eqd l))).
        { apply isort_sorted; [intros a b; rewrite !Z.leb_le; lia|intros a b d; rewrite !Z.leb_le; lia]. }
        assert (Nd : NoDup (isort Z.leb (nodup eqd l))).
        { eapply Permutation_NoDup; [symmetry; apply isort_perm|apply NoDup_nodup]. }
        revert Ss Nd. generalize (isort Z.leb (nodup eqd l)). clear. intros l. induction 1 as [|a l Hs IH Ha]; intros N; [constructor|].
        inversion N; subst. constructor; auto. rewrite Forall_forall in *. intros b Hb. specialize (Ha b Hb). apply Z.leb_le in Ha.
        assert (a <> b) by (intros ->; contradiction). lia.
      + left. split; auto. assert (exists z, In z (isort Z.leb (nodup eqd l)) /\ (0 <? z)%Z = false) as (z & I & Hz).
        { revert E. generalize (isort Z.leb (nodup eqd l)). clear. induction l as [|z l IH]; simpl; [discriminate|].
          destruct (0 <? z)%Z eqn:E; [|eauto]. intros H. destruct (IH H) as (y & I & Hy). eauto. }
        exists l, z. split; auto. split; [apply P; auto|]. apply Z.ltb_ge in Hz. exact Hz.
    - right. auto. }
  destruct sizes as [nl|e] eqn:Es; cbn [bind].
  - destruct Sz as (zs & A & F & Ss & In_). destruct (as_int c) as [k|] eqn:Ec.
    + split; [split; [intros _; exists zs, k; auto|eauto]|]. split; [|discriminate]. intros st [= <-].
      exists zs. repeat split; auto; try apply In_; cbn [case_insensitive n_list]; intros H; try apply In_; auto.
      * apply Z.eqb_eq in H. congruence.
      * apply Z.eqb_eq. congruence.
    + split; [split; [intros [st E]; discriminate|intros (zs' & k & _ & _ & E); discriminate]|]. split; [discriminate|].
      intros e [= <-]. auto.
  - split.
    + split; [intros [st E]; discriminate|]. intros (zs & k & A & F & _). destruct Sz as [(_ & zs' & z & A' & I & Hz)|[_ ->]]; [|destruct A].
      assert (zs = zs') by (destruct n; cbn [asked] in *; congruence || contradiction). subst zs'. rewrite Forall_forall in F. specialize (F z I). lia.
    + split; [discriminate|]. intros e' [= <-]. destruct Sz as [Sz|[-> ->]]; auto.
Qed.
Print Assumptions wordlist_init.

Example ex_wl_init : match wl_init (NIter [4; 2; 4]%Z) (PBool false) 3 with
  | Ok st => n_list st = [2; 4]%Z /\ case_insensitive st = true | Err _ => False end /\
  wl_init (NInt 0) (PBool false) 3 = Err AssertionError /\ wl_init (NInt 2) PNone 3 = Err TypeError.
Proof. repeat split. Qed.

Theorem wordlist_vocabulary : forall rnd casefold, lawful rnd -> (forall w, casefold (casefold w) = casefold w) ->
  forall n c fn st0, wl_init n c fn = Ok st0 -> forall calls, Forall (fun c => fair (fst c)) calls ->
  let V := vocabulary (run rnd casefold st0 calls) in
  NoDup V /\ StronglySorted (fun a b => str_leb a b = true) V /\
  forall u, In u V <-> exists c, In c calls /\ enters (fun w => if case_insensitive st0 then casefold w else w) (snd c) u.
Proof.
  intros rnd casefold L CI n c fn st0 E calls F V.
  destruct (init_inv rnd casefold n c fn st0 E) as (I & W0 & _).
  destruct (run_inv rnd casefold (rnd_0 rnd L) CI calls st0 I F) as (J & _).
  split; [|split].
  - eapply Permutation_NoDup; [symmetry; apply isort_perm|]. apply (inv_words _ _ _ J).
  - apply isort_sorted; [apply str_leb_total|apply str_leb_trans].
  - intros u. unfold V. rewrite vocabulary_in, run_words; auto; [|apply (rnd_0 rnd L)]. rewrite W0. split; [intros [[]|H]; auto|auto].
Qed.
Print Assumptions wordlist_vocabulary.

(** It does not depend on the order or repetition of the calls. *)
Theorem wordlist_vocabulary_order : forall rnd casefold, lawful rnd -> (forall w, casefold (casefold w) = casefold w) ->
  forall n c fn st0, wl_init n c fn = Ok st0 -> forall calls calls',
  Forall (fun c => fair (fst c)) calls -> Forall (fun c => fair (fst c)) calls' ->
  (forall v, In v (map snd calls) <-> In v (map snd calls')) ->
  vocabulary (run rnd casefold st0 calls) = vocabulary (run rnd casefold st0 calls').
Proof.
  intros rnd casefold L CI n c fn st0 E calls calls' F F' S.
  destruct (wordlist_vocabulary rnd casefold L CI n c fn st0 E calls F) as (N1 & S1 & H1).
  destruct (wordlist_vocabulary rnd casefold L CI n c fn st0 E calls' F') as (N2 & S2 & H2).
  assert (X : forall cs cs', (forall v, In v (map snd cs) -> In v (map snd cs')) -> forall u,
     (exists c : order * pyval, In c cs /\ enters (fun w => if case_insensitive st0 then casefold w else w) (snd c) u) ->
     (exists c : order * pyval, In c cs' /\ enters (fun w => if case_insensitive st0 then casefold w else w) (snd c) u)).
  { intros cs cs' H u (x & Hx & Hu). assert (In (snd x) (map snd cs')) as Hy by (apply H, in_map; auto).
    apply in_map_iff in Hy. destruct Hy as (y & Ey & Hy). exists y. rewrite Ey. auto. }
  eapply (sorted_perm_unique str_leb); eauto.
  - intros a b. apply str_leb_antisym.
  - apply NoDup_Permutation; auto. intros u. rewrite H1, H2. split; apply X; intros v; apply S.
Qed.
Print Assumptions wordlist_vocabulary_order.

Example ex_vocabulary : vocabulary (built [2%Z; 4%Z] 0 ["dog"; "Cat"; ""; "cat"; "ant"]) = [w_ "ant"; w_ "cat"; w_ "dog"].
Proof. vm_compute. reflexivity. Qed.

(** *** C20: rejected calls *)

(** A call that raises leaves the object as it was, and so does adding a word
    that is already there. *)
Theorem add_word_rejected_no_effect : forall rnd casefold, lawful rnd -> (forall w, casefold (casefold w) = casefold w) ->
  forall st o v, reachable rnd casefold st -> fair o ->
  (forall e, snd (add_word rnd casefold o st v) = Err e -> fst (add_word rnd casefold o st v) = st) /\
  (forall w, v = PStr w -> In (if case_insensitive st then casefold w else w) (vocabulary st) -> fst (add_word rnd casefold o st v) = st) /\
  ((exists e, snd (add_word rnd casefold o st v) = Err e) <->
   ~ exists w, v = PStr w /\ w <> [] /\
       (In (if case_insensitive st then casefold w else w) (vocabulary st) \/
        clean (if case_insensitive st then casefold w else w) /\ (if case_insensitive st then casefold w else w) <> [])).
Proof.
  intros rnd casefold L CI st o v R F.
  pose proof (reachable_inv rnd casefold st (rnd_0 rnd L) CI R) as I.
  destruct (add_word_spec rnd casefold (rnd_0 rnd L) CI o st v I F) as (_ & _ & _ & _ & _ & N & K).
  assert (K' : is_ok (snd (add_word rnd casefold o st v)) = true <-> exists w, v = PStr w /\ w <> [] /\
       (In (if case_insensitive st then casefold w else w) (vocabulary st) \/
        clean (if case_insensitive st then casefold w else w) /\ (if case_insensitive st then casefold w else w) <> [])).
  { rewrite K. unfold fold_case. split; intros (w & H1 & H2 & H3); exists w; rewrite vocabulary_in in *; auto. }
  clear K. split; [|split].
  - intros e E. apply N. rewrite E in K'. unfold added. destruct v as [w| | | |]; auto. cbv zeta. unfold fold_case.
    destruct w as [|c w]; auto. set (x := if case_insensitive st then casefold (c :: w) else c :: w) in *.
    destruct x as [|cx x0] eqn:Ex; auto. rewrite <- Ex in *. destruct (in_dec eqd x (word_list st)); auto.
    destruct (clean_dec x) as [D|]; auto. exfalso. assert (is_ok (Err e : result unit) = true); [|discriminate].
    apply K'. exists (c :: w). split; auto. split; [discriminate|]. right. fold x. rewrite Ex. rewrite Ex in D. split; auto. discriminate.
  - intros w -> Hw. apply N. unfold added, fold_case. destruct w; auto. cbv zeta. rewrite vocabulary_in in Hw.
    set (x := if case_insensitive st then casefold (n :: w) else n :: w) in *. destruct x as [|cx x0] eqn:Ex; auto. rewrite <- Ex in *.
    destruct (in_dec eqd x (word_list st)); [auto|contradiction].
  - rewrite <- K'. destruct (snd (add_word rnd casefold o st v)); simpl; split; try congruence; try (intros [e E]; discriminate); eauto.
Qed.
Print Assumptions add_word_rejected_no_effect.

Example ex_rejected : snd (add_word exact lower ord0 (built [2%Z] 2 ["cat"]) (PStr [99%N; 3%N])) = Err AssertionError /\
  snd (add_word exact lower ord0 (built [2%Z] 2 ["cat"]) (PStr (w_ "CAT"))) = Ok tt /\
  snd (add_word exact lower ord0 (built [2%Z] 2 ["cat"]) (PInt 5)) = Err TypeError.
Proof. vm_compute. auto. Qed.

(** *** C21: scores *)

(** For sizes of at least 2, [similarity] is the mean of what
    [ngram_movers_distance(query, word, n, invert=True, normalize=...)]
    returns. *)
Theorem lookup_scores_public : forall rnd casefold mean, lawful rnd -> (forall w, casefold (casefold w) = casefold w) ->
  forall st o word top_k normalize q k R, reachable rnd casefold st -> fair o -> asks casefold st word top_k q k ->
  Forall (fun n => 2 <= n)%Z (n_list st) ->
  lookup rnd casefold mean o st word top_k normalize = Ok R ->
  forall w s t, In (w, (s, t)) R ->
  (exists vs, mapM (fun n => ngram_movers_distance rnd (PStr q) (PStr w) (PInt n) true normalize) (n_list st) = Ok vs /\ s = mean vs) /\
  ngram_movers_distance rnd (PStr q) (PStr w) (PInt 2) true normalize = Ok t.
Proof.
  intros rnd casefold mean L CI st o word top_k nz q k R Re F A G H w s t Hw.
  pose proof (reachable_inv rnd casefold st (rnd_0 rnd L) CI Re) as I. destruct (asks_clean _ _ _ _ _ _ A) as [Cq _].
  destruct (lookup_shape rnd casefold mean L st I o word top_k nz q k F A R H) as (Ix & -> & _ & _ & HI & _).
  apply in_map_iff in Hw. destruct Hw as (i & E & Hi). destruct (HI i Hi) as [[Hl _] [v Hv]].
  unfold entry_of in E. assert (E1 : wd st i = w) by congruence. assert (E2 : s = sc rnd mean st q nz i) by congruence.
  assert (E3 : t = s2 rnd st q nz i) by congruence. clear E. subst w s t. split.
  - exists v. split; [|apply sc_val; auto]. rewrite <- Hv. apply mapM_ext_in. intros n Hn. symmetry.
    rewrite Forall_forall in G. apply score1_nmd; auto. apply (words_clean rnd casefold st I), wd_in; auto.
  - apply (s2_val rnd casefold L st I q nz i Cq Hl).
Qed.
Print Assumptions lookup_scores_public.

(** The general form, with [similarity] covering size 1 as well. *)
Theorem lookup_scores : forall rnd casefold mean, lawful rnd -> (forall w, casefold (casefold w) = casefold w) ->
  forall st o word top_k normalize q k R, reachable rnd casefold st -> fair o -> asks casefold st word top_k q k ->
  lookup rnd casefold mean o st word top_k normalize = Ok R ->
  forall w s t, In (w, (s, t)) R ->
  similarity rnd mean (n_list st) q w normalize = Ok s /\
  ngram_movers_distance rnd (PStr q) (PStr w) (PInt 2) true normalize = Ok t /\
  In w (vocabulary st) /\ candidate (n_list st) (filter_n st) q w.
Proof.
  intros rnd casefold mean L CI st o word top_k nz q k R Re F A H w s t Hw.
  pose proof (reachable_inv rnd casefold st (rnd_0 rnd L) CI Re) as I. destruct (asks_clean _ _ _ _ _ _ A) as [Cq _].
  destruct (lookup_shape rnd casefold mean L st I o word top_k nz q k F A R H) as (Ix & -> & _ & _ & HI & _).
  apply in_map_iff in Hw. destruct Hw as (i & E & Hi). destruct (HI i Hi) as [[Hl Hc] [v Hv]].
  unfold entry_of in E. assert (E1 : wd st i = w) by congruence. assert (E2 : s = sc rnd mean st q nz i) by congruence.
  assert (E3 : t = s2 rnd st q nz i) by congruence. clear E. subst w s t. split; [|split; [|split]].
  - rewrite (similarity_vec rnd casefold mean st I q i nz Cq Hl), Hv. cbn [bind]. f_equal. symmetry. apply sc_val; auto.
  - apply (s2_val rnd casefold L st I q nz i Cq Hl).
  - apply vocabulary_in, wd_in. auto.
  - auto.
Qed.
Print Assumptions lookup_scores.

Example ex_scores : lists (lookup_ex (built [2%Z; 3%Z] 0 ["banana"; "bandana"; "cabana"]) "banana" 2 true)
   [("banana", (1, 1)); ("bandana", (f 956 1365, f 83 105))] = true.
Proof. vm_compute. reflexivity. Qed.

Lemma NoDup_map_inj {A B} (g : A -> B) l : (forall a b, In a l -> In b l -> g a = g b -> a = b) -> NoDup l -> NoDup (map g l).
Proof.
  intros H N. induction N as [|a l Ha N IH]; simpl; constructor.
  - intros C. apply in_map_iff in C. destruct C as (b & E & Hb). apply Ha. rewrite <- (H b a); auto; [right; auto|left; auto].
  - apply IH. intros; apply H; auto; right; auto.
Qed.

(** *** C22: pruning is lossless *)

(** Numbers behave: real arithmetic, or floats without normalization and
    words that are not astronomically long. *)
Definition dependable (rnd : Qc -> Qc) (normalize : bool) (st : wordlist) (q : str) : Prop :=
  rnd = exact \/ (normalize = false /\ forall w, In w (vocabulary st) -> (zlen q + zlen w + 4 <= 2 ^ 53)%Z).

Lemma weight_le q n w : (0 < n)%Z -> (Z.of_nat (weight q n w) <= zlen q + zlen w + 4)%Z.
Proof.
  intros Hn. unfold weight. pose proof (grams_size n q Hn). pose proof (grams_size n w Hn).
  unfold size, zlen in *. destruct (1 <? n)%Z eqn:E; [apply Z.ltb_lt in E|]; lia.
Qed.

Lemma dependable_tight rnd casefold st q nz : lawful rnd -> inv rnd casefold st -> dependable rnd nz st q ->
  tight rnd st q nz /\ (nz = false \/ rnd = exact).
Proof.
  intros L I [->|[-> H]]; [split; auto; eapply tight_exact; eauto|]. split; auto.
  eapply tight_plain; eauto. apply lawful_measured; auto. intros n w Hn Hw. unfold small.
  etransitivity; [apply weight_le; eapply NL_pos; eauto|]. apply H, vocabulary_in; auto.
Qed.

Theorem lookup_lossless : forall rnd casefold mean, lawful rnd -> averaging mean -> (forall w, casefold (casefold w) = casefold w) ->
  forall st o word top_k normalize q k R, reachable rnd casefold st -> fair o -> asks casefold st word top_k q k ->
  dependable rnd normalize st q ->
  lookup rnd casefold mean o st word top_k normalize = Ok R ->
  (* a candidate left out scores no more than any word returned *)
  (forall w x, In w (vocabulary st) -> candidate (n_list st) (filter_n st) q w -> ~ In w (map fst R) ->
     similarity rnd mean (n_list st) q w normalize = Ok x -> forall u s t, In (u, (s, t)) R -> x <= s) /\
  (* fewer than [top_k] words are returned only if there are fewer candidates *)
  (exists C, NoDup C /\ (forall w, In w C <-> In w (vocabulary st) /\ candidate (n_list st) (filter_n st) q w) /\
     List.length R = Nat.min (Z.to_nat k) (List.length C)).
Proof.
  intros rnd casefold mean L M CI st o word top_k nz q k R Re F A D H.
  pose proof (reachable_inv rnd casefold st (rnd_0 rnd L) CI Re) as I. destruct (asks_clean _ _ _ _ _ _ A) as [Cq _].
  destruct (dependable_tight rnd casefold st q nz L I D) as [T NE].
  destruct (lookup_complete rnd casefold mean L st I o word top_k nz q k F A R M T NE H) as (Ix & cs & -> & Nc & Hc & Ln & Ni & Hi & LL).
  split.
  - intros w x Hw Cw Nw Hx u s t Hu. rewrite vocabulary_in in Hw. destruct (in_wd st w Hw) as (j & Hj & <-).
    apply in_map_iff in Hu. destruct Hu as (r & E & Hr). unfold entry_of in E.
    assert (E2 : s = sc rnd mean st q nz r) by congruence. rewrite E2.
    rewrite (similarity_vec rnd casefold mean st I q j nz Cq Hj) in Hx. apply bind_ok in Hx. destruct Hx as (v & Hv & Ex).
    assert (x = mean v) as -> by congruence. apply (LL r j v Hr); [split; auto| |exact Hv].
    intros C. apply Nw. apply in_map_iff. exists (entry_of rnd mean st q nz j). split; auto. apply in_map; auto.
  - exists (map (wd st) cs). split; [|split].
    + apply NoDup_map_inj; auto. intros a b Ha Hb E. apply Hc in Ha, Hb.
      destruct Ha, Hb. eapply wd_inj; eauto.
    + intros w. rewrite in_map_iff, vocabulary_in. split.
      * intros (i & <- & Hi'). apply Hc in Hi'. destruct Hi'. split; auto. apply wd_in; auto.
      * intros [Hw Cw]. destruct (in_wd st w Hw) as (i & Hi' & <-). exists i. split; auto. apply Hc. split; auto.
    + rewrite !map_length. auto.
Qed.
Print Assumptions lookup_lossless.

Example ex_lossless : lists (lookup_ex (built [2%Z] 2 ["abcd"; "bcda"; "abxx"; "zzab"; "q"]) "abc" 2 false)
   [("abcd", (f 23 4, f 23 4)); ("abxx", (f 47 12, f 47 12))] = true.
Proof. vm_compute. reflexivity. Qed.

(** *** C23: shape of the result *)
Theorem lookup_result_shape : forall rnd casefold mean, lawful rnd -> (forall w, casefold (casefold w) = casefold w) ->
  forall st o word top_k normalize q k R, reachable rnd casefold st -> fair o -> asks casefold st word top_k q k ->
  lookup rnd casefold mean o st word top_k normalize = Ok R ->
  (Z.of_nat (List.length R) <= k)%Z /\ NoDup (map fst R) /\ (forall w, In w (map fst R) -> In w (vocabulary st)) /\
  StronglySorted (fun a b => fst (snd b) < fst (snd a) \/ (fst (snd b) = fst (snd a) /\ snd (snd b) <= snd (snd a))) R.
Proof.
  intros rnd casefold mean L CI st o word top_k nz q k R Re F A H.
  pose proof (reachable_inv rnd casefold st (rnd_0 rnd L) CI Re) as I. destruct (asks_clean _ _ _ _ _ _ A) as [Cq Hk].
  destruct (lookup_shape rnd casefold mean L st I o word top_k nz q k F A R H) as (Ix & -> & Ni & Ln & HI & S).
  split; [rewrite map_length; lia|]. split; [|split].
  - rewrite map_map. apply NoDup_map_inj; auto. intros a b Ha Hb E. cbn in E.
    apply HI in Ha, Hb. destruct Ha as [[Ha _] _], Hb as [[Hb _] _]. eapply wd_inj; eauto.
  - intros w Hw. rewrite map_map in Hw. apply in_map_iff in Hw. destruct Hw as (i & <- & Hi). apply HI in Hi.
    apply vocabulary_in, wd_in. apply Hi.
  - clear - S. induction S as [|i l S IH Fa]; simpl; constructor; auto. apply Forall_map.
    eapply Forall_impl; [|exact Fa]. intros j Hj. apply pair_leb_iff in Hj. exact Hj.
Qed.
Print Assumptions lookup_result_shape.

Example ex_shape : lists (lookup_ex (built [2%Z] 0 ["aaaa"; "aa"; "b"]) "aa" 2 false) [("aaaa", (qz 6, qz 6)); ("aa", (qz 6, qz 6))] = true.
Proof. vm_compute. reflexivity. Qed.

(** *** C24: candidates *)

(** Asking for everything returns exactly the candidates. *)
Theorem lookup_all_candidates : forall rnd casefold mean, lawful rnd -> averaging mean -> (forall w, casefold (casefold w) = casefold w) ->
  forall st o word top_k normalize q k R, reachable rnd casefold st -> fair o -> asks casefold st word top_k q k ->
  dependable rnd normalize st q -> (Z.of_nat (List.length (vocabulary st)) <= k)%Z ->
  lookup rnd casefold mean o st word top_k normalize = Ok R ->
  forall w, In w (map fst R) <-> In w (vocabulary st) /\ candidate (n_list st) (filter_n st) q w.
Proof.
  intros rnd casefold mean L M CI st o word top_k nz q k R Re F A D Hk H w.
  destruct (lookup_lossless rnd casefold mean L M CI st o word top_k nz q k R Re F A D H) as [_ (C & Nc & Hc & Ln)].
  destruct (lookup_result_shape rnd casefold mean L CI st o word top_k nz q k R Re F A H) as (_ & Nr & Vr & _).
  assert (Inc : incl (map fst R) C).
  { intros u Hu. apply Hc. split; auto. apply in_map_iff in Hu. destruct Hu as ([u' [s t]] & E & Hu). cbn [fst] in E. subst u'.
    eapply lookup_scores; eauto. }
  assert (LC : (List.length C <= List.length (vocabulary st))%nat) by (apply NoDup_incl_length; auto; intros u Hu; apply Hc; auto).
  rewrite <- Hc. split; [apply Inc|].
  apply (NoDup_length_incl Nr (l' := C)); auto. rewrite map_length. lia.
Qed.
Print Assumptions lookup_all_candidates.

(** Every candidate has a positive score. *)
Lemma score_positive : forall nz q n w x, (0 < n)%Z -> shares n q w -> score1 exact nz q n w = Ok x -> 0 < x.
Proof.
  intros nz q n w x Hn S H. apply (common_pos exact) in S; auto.
  destruct (simf_pinched exact lawful_exact q n w (exact_faithful _)) as (s & Hs & H1 & H2). unfold score1 in H. rewrite Hs in H. cbn [bind] in H.
  assert (P : 0 < s) by (eapply Qclt_le_trans; [apply (qn_pos _ S)|exact H1]).
  destruct nz; [|assert (x = s) as -> by congruence; auto].
  destruct (common_size exact q n w Hn S) as [S1 S2]. destruct (Z.eqb_spec (size n q + size n w) 0); [lia|].
  assert (x = s / qz (size n q + size n w)) as -> by (unfold exact in H; congruence).
  assert (D : 0 < qz (size n q + size n w)) by (rewrite <- qz_0'; apply (proj1 (qz_lt _ _)); lia).
  apply Qcnot_le_lt. intros C. assert (Z0 : s / qz (size n q + size n w) = 0 / qz (size n q + size n w)).
  { rewrite qdiv_0. apply Qcle_antisym; auto. apply qdiv_nonneg; auto. apply Qclt_le_weak; auto. }
  apply qdiv_inj in Z0; auto. subst s. clear - P. qclra.
Qed.

Theorem lookup_positive_scores : forall casefold mean, strict_averaging mean -> (forall w, casefold (casefold w) = casefold w) ->
  forall st q normalize w x, reachable exact casefold st -> clean q ->
  In w (vocabulary st) -> (exists n, In n (n_list st) /\ shares n q w) ->
  small (List.length (n_list st)) ->
  similarity exact mean (n_list st) q w normalize = Ok x -> 0 < x.
Proof.
  intros casefold mean M CI st q nz w x Re Cq Hw (n & Hn & S) Sm H.
  pose proof (reachable_inv exact casefold st eq_refl CI Re) as I. rewrite vocabulary_in in Hw. destruct (in_wd st w Hw) as (i & Hi & <-).
  rewrite (similarity_vec exact casefold mean st I q i nz Cq Hi) in H. apply bind_ok in H. destruct H as (v & Hv & E).
  assert (x = mean v) as -> by congruence. pose proof (mapM_inv _ _ _ Hv) as B. cbn beta in B.
  assert (Ln : List.length v = List.length (n_list st)) by (clear - B; induction B; simpl; auto).
  destruct (n_list st) as [|m nl] eqn:En; [destruct Hn|]. rewrite <- En in *.
  assert (Z0 : mean (repeat 0 (List.length v)) = 0).
  { rewrite Ln, En. simpl List.length. apply (mean_zero _ (strict_avg _ M)). rewrite En in Sm. exact Sm. }
  rewrite <- Z0. apply (mean_strict _ M).
  - clear. induction (List.length v); simpl; constructor; auto. apply Qcle_refl.
  - assert (Hv0 : nonneg v).
    { eapply Forall2_right; [|exact B]. cbn beta. intros n' y Hn' Hy. eapply (score1_nonneg exact lawful_exact); eauto; [|apply exact_faithful].
      eapply NL_pos; eauto. }
    clear - Hv0. induction Hv0; simpl; constructor; auto.
  - intros C. assert (P : exists y, In y v /\ 0 < y).
    { clear C Z0. revert v Hv B Ln E. rewrite En in Hn. intros v Hv B _ _. rewrite <- En in Hn. clear Hv En Sm.
      revert v B Hn. assert (Pos : Forall (fun n => 0 < n)%Z (n_list st)) by apply (inv_n _ _ _ I). revert Pos.
      induction (n_list st) as [|a l IH]; intros Pos v B Hn; [destruct Hn|]. inversion B; subst. inversion Pos; subst.
      destruct Hn as [->|Hn].
      - exists y. split; [left; auto|]. eapply score_positive; eauto.
      - destruct (IH H4 _ H3 Hn) as (z & Hz & Pz). exists z. split; [right|]; auto. }
    destruct P as (y & Hy & Py). rewrite <- C in Hy. apply repeat_spec in Hy. subst y. clear - Py. qclra.
Qed.
Print Assumptions lookup_positive_scores.

(** A word that shares no n-gram scores zero, so it is rightly not offered. *)
Theorem lookup_noncandidates_zero : forall rnd casefold, lawful rnd -> (forall w, casefold (casefold w) = casefold w) ->
  forall st q w normalize n, reachable rnd casefold st -> clean q -> In w (vocabulary st) -> In n (n_list st) ->
  (zlen q + zlen w + 4 <= 2 ^ 53)%Z ->
  ~ shares n q w -> pair_score rnd q w normalize n = Ok 0 \/ pair_score rnd q w normalize n = Err ZeroDivisionError.
Proof.
  intros rnd casefold L CI st q w nz n Re Cq Hw Hn Sm S.
  pose proof (reachable_inv rnd casefold st (rnd_0 rnd L) CI Re) as I. rewrite vocabulary_in in Hw.
  pose proof (NL_pos _ _ _ I n Hn) as Pn.
  rewrite (pair_score1 rnd casefold st I q w nz n Cq (words_clean rnd casefold st I w Hw) Hn).
  assert (E : common rnd q n w = 0%nat). { destruct (common rnd q n w) eqn:E; auto. exfalso. apply S, (common_pos rnd); auto. lia. }
  unfold score1. rewrite (simf_zero rnd L q n w); auto.
  - cbn [bind]. destruct nz; auto. destruct (Z.eqb_spec (size n q + size n w) 0); auto. left. rewrite qdiv_0, (rnd_0 rnd L). reflexivity.
  - apply lawful_faithful; auto. unfold small. pose proof (weight_le q n w Pn). lia.
Qed.
Print Assumptions lookup_noncandidates_zero.

(** "cxa" shares 1-grams but no 2-gram with "acb": the filter removes it. *)
Example ex_filter : lists (lookup_ex (built [1%Z] 0 ["cxa"; "acx"]) "acb" 9 false) [("acx", (qz 4, qz 4)); ("cxa", (f 5 2, 0))] = true /\
  lists (lookup_ex (built [1%Z] 2 ["cxa"; "acx"]) "acb" 9 false) [("acx", (qz 4, qz 4))] = true.
Proof. vm_compute. auto. Qed.

(** *** C25: the query itself *)

Lemma sim_loop_self' rnd (L : lawful rnd) T loc2 its : (forall m, (m <= T)%nat -> rnd (qn m) = qn m) ->
  (forall g l, In (g, l) its -> dget g loc2 = Some l) -> forall K,
  (K + list_sum (map (fun it => 2 * List.length (snd it))%nat its) <= T)%nat ->
  foldM (sim_step rnd loc2) its (qn K) = Ok (qn (K + list_sum (map (fun it : str * list Qc => 2 * List.length (snd it))%nat its))).
Proof.
  intros FI. induction its as [|[g l] its IH]; intros H K S.
  - simpl. rewrite Nat.add_0_r. reflexivity.
  - cbn [foldM]. unfold sim_step at 1. rewrite (H g l) by (left; auto).
    assert (emd_1d_dp rnd l l = Ok 0) as -> by (apply dp_float_zero_iff; auto).
    cbn [bind map list_sum fold_right snd] in *. change (fold_right Nat.add 0%nat) with list_sum in *.
    assert (qz (zlen l + zlen l) = qn (2 * List.length l)) as -> by (unfold qn, zlen; f_equal; lia).
    rewrite <- qn_add, (FI (K + 2 * List.length l)%nat) by lia.
    replace (qn (K + 2 * List.length l) - 0) with (qn (K + 2 * List.length l)) by (clear; qclra).
    rewrite FI by lia. rewrite IH; [f_equal; f_equal; lia| |lia]. intros. apply H. right; auto.
Qed.

Lemma items_total rnd q n : list_sum (map (fun it : str * list Qc => 2 * List.length (snd it))%nat (items rnd q n)) = (2 * List.length (get_n_grams q n))%nat.
Proof.
  apply qn_inj. rewrite qn_list_sum, map_map.
  rewrite (qsum_map_ext _ (fun it => qn (count_occ eqd (get_n_grams q n) (fst it)) + qn (count_occ eqd (get_n_grams q n) (fst it)))).
  - rewrite qsum_map_add, <- (map_map fst (fun g => qn (count_occ eqd (get_n_grams q n) g))).
    rewrite list_sum_count.
    + rewrite <- qn_add. f_equal. lia.
    + apply group_wf.
    + intros g Hg. apply (proj2 (group_keys _ _)). rewrite gocc_keys. auto.
  - intros [g l] Hl. cbn [fst snd]. apply group_item in Hl. destruct Hl as [-> _].
    rewrite select_length, gocc_keys, <- qn_add. f_equal. lia.
Qed.

Lemma simf_self rnd q n : lawful rnd -> faithful_upto rnd (weight q n q) ->
  simf rnd q n q = Ok (qn (2 * List.length (get_n_grams q n))).
Proof.
  intros L Fu. unfold simf. rewrite <- qn_0. rewrite (sim_loop_self' rnd L (weight q n q)).
  - rewrite items_total. reflexivity.
  - apply (fu_int _ _ Fu).
  - intros g l H. apply In_dget; auto. apply group_wf.
  - rewrite items_total. unfold weight. lia.
Qed.

(** Without normalization no word scores higher than the query itself. *)
Theorem lookup_self_maximal : forall rnd casefold mean, lawful rnd -> averaging mean -> (forall w, casefold (casefold w) = casefold w) ->
  forall st q w x y, reachable rnd casefold st -> In q (vocabulary st) -> In w (vocabulary st) ->
  (rnd = exact \/ forall w, In w (vocabulary st) -> (zlen q + zlen w + 4 <= 2 ^ 53)%Z) ->
  similarity rnd mean (n_list st) q q false = Ok x -> similarity rnd mean (n_list st) q w false = Ok y -> y <= x.
Proof.
  intros rnd casefold mean L M CI st q w x y Re Hq Hw D Hx Hy.
  pose proof (reachable_inv rnd casefold st (rnd_0 rnd L) CI Re) as I. rewrite vocabulary_in in Hq, Hw.
  assert (Fu : forall n w, In n (n_list st) -> In w (word_list st) -> faithful_upto rnd (weight q n w)).
  { intros n u Hn Hu. destruct D as [->|D]; [apply exact_faithful|]. apply lawful_faithful; auto. unfold small.
    etransitivity; [apply weight_le; eapply NL_pos; eauto|]. apply D, vocabulary_in; auto. }
  assert (Cq : clean q) by (eapply words_clean; eauto). assert (Cw : clean w) by (eapply words_clean; eauto).
  unfold similarity in *.
  rewrite (mapM_ext_in _ (fun n => score1 rnd false q n q)) in Hx by (intros; eapply pair_score1; eauto).
  rewrite (mapM_ext_in _ (fun n => score1 rnd false q n w)) in Hy by (intros; eapply pair_score1; eauto).
  apply bind_ok in Hx, Hy. destruct Hx as (vx & Hvx & Ex), Hy as (vy & Hvy & Ey).
  assert (x = mean vx) as -> by congruence. assert (y = mean vy) as -> by congruence.
  pose proof (mapM_inv _ _ _ Hvx) as Bx. pose proof (mapM_inv _ _ _ Hvy) as By. cbn beta in Bx, By.
  apply (mean_mono _ M).
  - eapply Forall2_right; [|exact By]. intros n b Hn Hb. apply (score1_nonneg rnd L false q n w b); auto. eapply NL_pos; eauto.
  - eapply Forall2_join; [|exact By|exact Bx]. intros n b a Hn Hb Ha.
    apply (score1_plain rnd L) in Hb; auto. unfold score1 in Ha. rewrite simf_self in Ha by auto. cbn [bind] in Ha.
    assert (a = qn (2 * List.length (get_n_grams q n))) as -> by congruence.
    eapply Qcle_trans; [apply Hb|]. apply qn_le. destruct (common_le rnd q n w). lia.
Qed.
Print Assumptions lookup_self_maximal.

(** With normalization, and n-grams no longer than the (padded) query, the
    query scores 1 and every other word less. *)
Definition proper (nl : list Z) (q : str) : Prop := nl <> [] /\ Forall (fun n => 2 <= n <= zlen q + 2)%Z nl.

Lemma score1_self rnd q n : lawful rnd -> faithful_upto rnd (weight q n q) -> (2 <= n <= zlen q + 2)%Z -> score1 rnd true q n q = Ok 1.
Proof.
  intros L Fu Hn. unfold score1. rewrite simf_self by auto. cbn [bind].
  assert (G : Z.of_nat (List.length (get_n_grams q n)) = size n q /\ (0 < size n q)%Z).
  { pose proof (get_n_grams_length q n) as G. unfold size in *. destruct (Z.ltb_spec 1 n); [|lia].
    change (Z.of_nat (List.length (get_n_grams q n))) with (zlen (get_n_grams q n)). lia. }
  assert (E : (size n q + size n q)%Z = Z.of_nat (2 * List.length (get_n_grams q n))) by lia.
  rewrite E. assert (P : (0 < 2 * List.length (get_n_grams q n))%nat) by lia.
  destruct (Z.eqb_spec (Z.of_nat (2 * List.length (get_n_grams q n))) 0); [lia|].
  fold (qn (2 * List.length (get_n_grams q n))). rewrite qdiv_self by (apply qn_pos; auto). rewrite (rnd_1 rnd L). reflexivity.
Qed.

Lemma score1_other q n w x : clean q -> clean w -> w <> q -> (2 <= n <= zlen q + 2)%Z -> score1 exact true q n w = Ok x -> x < 1.
Proof.
  intros Cq Cw N Hn H. destruct (Z.le_gt_cases n (zlen w + 2)) as [Hw|Hw].
  - rewrite score1_nmd in H by (auto; lia). assert (En : n = Z.of_nat (Z.to_nat n)) by lia. set (m := Z.to_nat n) in *. clearbody m. subst n.
    assert (Aq : adequate m q) by (split; auto; unfold zlen in *; lia). assert (Aw : adequate m w) by (split; auto; unfold zlen in *; lia).
    assert (B : exists d, call q w m false true = Ok d). { rewrite call_norm by auto. eexists; reflexivity. }
    destruct B as [d Hd]. assert (d + x = 1) by (apply (nmd_normalized_complement q w m d x Cq Cw); auto; lia).
    pose proof (nmd_normalized_range q w m false d Aq Aw Hd) as [D0 _].
    apply Qcnot_le_lt. intros C. assert (d = 0) by (clear - H0 D0 C; qclra). subst d. apply N. symmetry.
    eapply (nmd_zero_implies_equal q w m true); eauto.
  - assert (E : common exact q n w = 0%nat).
    { destruct (common_le exact q n w) as [_ Hc]. pose proof (grams_size n w ltac:(lia)) as G. unfold size in G. destruct (1 <? n)%Z eqn:Y; [|apply Z.ltb_ge in Y]; lia. }
    unfold score1 in H. rewrite (simf_zero exact lawful_exact q n w (exact_faithful _) E) in H. cbn [bind] in H.
    destruct (_ =? 0)%Z; [discriminate|]. rewrite qdiv_0 in H. unfold exact in H. assert (x = 0) as -> by congruence. clear. qclra.
Qed.

Theorem lookup_self_unique_best : forall casefold mean, strict_averaging mean -> (forall w, casefold (casefold w) = casefold w) ->
  forall st q, reachable exact casefold st -> In q (vocabulary st) -> proper (n_list st) q -> small (List.length (n_list st)) ->
  similarity exact mean (n_list st) q q true = Ok 1 /\
  forall w x, In w (vocabulary st) -> w <> q -> similarity exact mean (n_list st) q w true = Ok x -> x < 1.
Proof.
  intros casefold mean M CI st q Re Hq [N0 Pr] Sm. rewrite Forall_forall in Pr.
  pose proof (reachable_inv exact casefold st eq_refl CI Re) as I. rewrite vocabulary_in in Hq.
  assert (Cq : clean q) by (eapply words_clean; eauto).
  assert (M1 : mean (repeat 1 (List.length (n_list st))) = 1).
  { destruct (n_list st) as [|a l]; [congruence|]. apply (mean_one _ (strict_avg _ M)). exact Sm. }
  split.
  - unfold similarity. rewrite (mapM_ext_in _ (fun n => score1 exact true q n q)) by (intros; eapply pair_score1; eauto).
    rewrite (mapM_Ok_in _ (fun _ => 1)). 2:{ intros n Hn. apply score1_self; auto using lawful_exact. apply exact_faithful. }
    cbn [bind]. f_equal. etransitivity; [|exact M1]. f_equal. clear. induction (n_list st); simpl; congruence.
  - intros w x Hw N H. rewrite vocabulary_in in Hw. assert (Cw : clean w) by (eapply words_clean; eauto).
    unfold similarity in H. rewrite (mapM_ext_in _ (fun n => score1 exact true q n w)) in H by (intros; eapply pair_score1; eauto).
    apply bind_ok in H. destruct H as (v & Hv & E). assert (x = mean v) as -> by congruence.
    pose proof (mapM_inv _ _ _ Hv) as B. cbn beta in B.
    assert (Ln : List.length v = List.length (n_list st)) by (clear - B; induction B; simpl; auto).
    assert (Lt : mean v < mean (repeat 1 (List.length v))); [|rewrite Ln, M1 in Lt; exact Lt]. apply (mean_strict _ M).
    + eapply Forall2_right; [|exact B]. intros n y Hn Hy. apply (score1_nonneg exact lawful_exact true q n w y); auto; [eapply NL_pos; eauto|apply exact_faithful].
    + assert (U : Forall (fun y => y <= 1) v).
      { eapply Forall2_right; [|exact B]. intros n y Hn Hy. apply (score1_unit exact lawful_exact q n w y); auto; [eapply NL_pos; eauto|apply exact_faithful]. }
      clear - U. induction U; simpl; constructor; auto.
    + intros C. destruct (n_list st) as [|a l] eqn:En; [congruence|]. inversion B as [|? b ? v' Hb Hv' E1 E2]; subst v.
      assert (Hlt : b < 1). { apply (score1_other q a w b); auto. apply Pr. left; auto. }
      simpl in C. assert (Eb : b = 1) by congruence. clear - Hlt Eb. rewrite Eb in Hlt. qclra.
Qed.
Print Assumptions lookup_self_unique_best.

(** ... and it comes first. *)
Lemma shares_self n q : (2 <= n <= zlen q + 2)%Z \/ (n = 1%Z /\ q <> []) -> shares n q q.
Proof.
  intros H. destruct H as [H|[-> H]].
  - exists (firstn (Z.to_nat n) (padded q)). assert (has_gram n q (firstn (Z.to_nat n) (padded q))); [|auto].
    unfold has_gram. destruct (Z.ltb_spec 1 n); [|lia]. split.
    + exists [], (skipn (Z.to_nat n) (padded q)). simpl. symmetry. apply firstn_skipn.
    + unfold zlen. rewrite firstn_length, padded_length. unfold zlen in H. lia.
  - destruct q as [|c q]; [congruence|]. exists [c]. assert (has_gram 1 (c :: q) [c]); [|auto]. exists c. split; auto. left; auto.
Qed.

Theorem lookup_self_first : forall casefold mean, strict_averaging mean -> (forall w, casefold (casefold w) = casefold w) ->
  forall st o word top_k q k R, reachable exact casefold st -> fair o -> asks casefold st word top_k q k ->
  In q (vocabulary st) -> proper (n_list st) q -> small (List.length (n_list st)) ->
  (filter_n st = 0 \/ 1 <= filter_n st <= zlen q + 2)%Z ->
  lookup exact casefold mean o st word top_k true = Ok R ->
  exists rest, R = (q, (1, 1)) :: rest /\ forall w s t, In (w, (s, t)) rest -> w <> q /\ s < 1.
Proof.
  intros casefold mean M CI st o word top_k q k R Re F A Hq Pr Sm Fi H.
  destruct (lookup_self_unique_best casefold mean M CI st q Re Hq Pr Sm) as [S1 S2].
  destruct (lookup_lossless exact casefold mean lawful_exact (strict_avg _ M) CI st o word top_k true q k R Re F A (or_introl eq_refl) H) as [LL (C & Nc & Hc & Ln)].
  destruct (lookup_result_shape exact casefold mean lawful_exact CI st o word top_k true q k R Re F A H) as (_ & Nr & Vr & So).
  destruct (asks_clean _ _ _ _ _ _ A) as [Cq Hk].
  pose proof (reachable_inv exact casefold st eq_refl CI Re) as I.
  assert (Q0 : q <> []) by (eapply words_nonempty; [exact I|]; rewrite vocabulary_in in Hq; auto).
  assert (Cand : candidate (n_list st) (filter_n st) q q).
  { destruct Pr as [N0 Pr]. rewrite Forall_forall in Pr. split.
    - destruct (n_list st) as [|a l]; [congruence|]. exists a. split; [left; auto|]. apply shares_self. left. apply Pr. left; auto.
    - destruct Fi as [Fi|Fi]; auto. right. apply shares_self.
      destruct (Z.eq_dec (filter_n st) 1); [right; split; auto|left; lia]. }
  assert (Inq : In q C) by (apply Hc; split; auto).
  assert (PC : (0 < List.length C)%nat) by (destruct C; [destruct Inq|simpl; lia]).
  assert (Sc : forall w s t, In (w, (s, t)) R -> (w = q -> s = 1 /\ t = 1) /\ (w <> q -> s < 1)).
  { intros w s t Hw. destruct (lookup_scores exact casefold mean lawful_exact CI st o word top_k true q k R Re F A H w s t Hw) as (E1 & E2 & E3 & _).
    split.
    - intros ->. split; [congruence|]. rewrite <- score1_nmd in E2 by (auto; lia).
      rewrite score1_self in E2; [congruence|apply lawful_exact|apply exact_faithful|]. unfold zlen. destruct q; [congruence|]. cbn [List.length]. lia.
    - intros N. eapply S2; eauto. }
  destruct R as [|[w [s t]] R]; [simpl in Ln; lia|].
  destruct (Sc w s t (or_introl eq_refl)) as [Sq So1].
  assert (Ew : w = q).
  { destruct (list_eq_dec N.eq_dec w q) as [|N]; auto. exfalso. pose proof (So1 N) as Hs.
    destruct (in_dec (list_eq_dec N.eq_dec) q (map fst ((w, (s, t)) :: R))) as [Hi|Hi].
    - apply in_map_iff in Hi. destruct Hi as ([q' [s' t']] & E & Hi). cbn [fst] in E. subst q'.
      destruct (Sc q s' t' Hi) as [Sq' _]. destruct (Sq' eq_refl) as [-> ->].
      destruct Hi as [E|Hi]; [congruence|]. inversion So as [|? ? So' Fa]; subst. rewrite Forall_forall in Fa. specialize (Fa _ Hi). cbn [fst snd] in Fa.
      clear - Fa Hs. destruct Fa as [Fa|[Fa _]]; [qclra|]. rewrite <- Fa in Hs. qclra.
    - pose proof (LL q 1 Hq Cand Hi S1 w s t (or_introl eq_refl)) as C1. clear - C1 Hs. qclra. }
  subst w. destruct (Sq eq_refl) as [-> ->]. exists R. split; auto.
  intros w s t Hw. inversion Nr; subst. assert (w <> q) by (intros ->; apply H2; apply in_map_iff; exists (q, (s, t)); auto).
  split; auto. apply (Sc w s t); auto. right; auto.
Qed.
Print Assumptions lookup_self_first.

Example ex_self_first : lists (lookup_ex (built [2%Z] 2 ["aaaa"; "aa"]) "aa" 2 true) [("aa", (1, 1)); ("aaaa", (f 3 4, f 3 4))] = true /\
  proper [2%Z] (w_ "aa").
Proof. split; [vm_compute; reflexivity|]. split; [discriminate|]. repeat constructor; vm_compute; discriminate. Qed.

(** Without normalization another word may tie and displace the query. *)
Theorem lookup_self_first_unnormalized_refuted : exists st R, reachable exact lower st /\ In (w_ "aa") (vocabulary st) /\
  lookup exact lower (mean1 exact) ord0 st (PStr (w_ "aa")) (PInt 1) false = Ok R /\ ~ In (w_ "aa") (map fst R).
Proof.
  exists (built [2%Z] 0 ["aaaa"; "aa"]). eexists. split; [eapply built_reachable; vm_compute; reflexivity|].
  split; [vm_compute; auto|]. split; [vm_compute; reflexivity|]. vm_compute. intros [E|[]]. discriminate.
Qed.
Print Assumptions lookup_self_first_unnormalized_refuted.

(** *** C26: when lookup raises *)

(** Arguments that are not acceptable. *)
Theorem lookup_bad_arguments : forall rnd casefold mean st o word top_k normalize,
  (~ exists q k, asks casefold st word top_k q k) ->
  exists e, lookup rnd casefold mean o st word top_k normalize = Err e /\
    (e = TypeError <-> (forall w, word <> PStr w) \/ (exists w, word = PStr w /\ w <> [] /\ as_int top_k = None)) /\
    (e = ValueError <-> word = PStr [] \/ (exists w k, word = PStr w /\ w <> [] /\ as_int top_k = Some k /\ (k <= 0)%Z)) /\
    (e = AssertionError <-> exists w k, word = PStr w /\ w <> [] /\ as_int top_k = Some k /\ (0 < k)%Z /\
       ~ clean (if case_insensitive st then casefold w else w)).
Proof.
  intros rnd casefold mean st o word top_k nz N. unfold lookup, lookup_checks.
  destruct word as [w| | | |];
    try (eexists; split; [reflexivity|]; split; [split; auto; intros _; left; intros w; discriminate|];
         split; split; try discriminate; [intros [E|(w & k & E & _)]; discriminate|intros (w & k & E & _); discriminate]).
  destruct (Z.eqb_spec (zlen w) 0) as [E|E].
  { assert (w = []) as -> by (destruct w; auto; discriminate). eexists; split; [reflexivity|].
    split; [|split]; split; try discriminate; auto.
    - intros [H|(w & E' & H & _)]; [destruct (H [] eq_refl)|congruence].
    - intros (w & k & E' & H & _). congruence. }
  assert (Hw : w <> []) by (intros ->; apply E; reflexivity).
  destruct (as_int top_k) as [k|] eqn:A.
  2:{ eexists; split; [reflexivity|]. split; [|split]; split; try discriminate; auto.
      - intros _. right. exists w. auto.
      - intros [H|(w' & k & _ & _ & H & _)]; congruence.
      - intros (w' & k & _ & _ & H & _). congruence. }
  destruct (Z.leb_spec k 0) as [K|K].
  { eexists; split; [reflexivity|]. split; [|split]; split; try discriminate; auto.
    - intros [H|(w' & _ & _ & H)]; [destruct (H w eq_refl)|congruence].
    - intros _. right. exists w, k. auto.
    - intros (w' & k' & _ & _ & H & H' & _). assert (k = k') by congruence. lia. }
  cbv zeta. unfold fold_case. destruct (existsb _ _ || existsb _ _) eqn:D.
  - eexists; split; [reflexivity|]. apply dirty_iff in D. split; [|split]; split; try discriminate; auto.
    + intros [H|(w' & _ & _ & H)]; [destruct (H w eq_refl)|congruence].
    + intros [H|(w' & k' & _ & _ & H & H')]; [congruence|]. assert (k = k') by congruence. lia.
    + intros _. exists w, k. auto.
  - exfalso. apply N. exists (if case_insensitive st then casefold w else w), k. exists w.
    split; auto. split; auto. split; auto. split; [|split; auto; lia].
    destruct (clean_dec (if case_insensitive st then casefold w else w)) as [|X]; auto. apply dirty_iff in X. congruence.
Qed.
Print Assumptions lookup_bad_arguments.

(** For acceptable arguments the only error is [ZeroDivisionError].  It is
    raised whenever the query has a single n-gram of some configured size and
    there is a candidate; otherwise only if, with [normalize], the two sizes
    of some candidate add up to nothing. *)
Theorem lookup_errors : forall rnd casefold mean, lawful rnd -> (forall w, casefold (casefold w) = casefold w) ->
  forall st o word top_k normalize q k, reachable rnd casefold st -> fair o -> asks casefold st word top_k q k ->
  let offered w := In w (vocabulary st) /\ candidate (n_list st) (filter_n st) q w in
  let r := lookup rnd casefold mean o st word top_k normalize in
  ((forall w, ~ offered w) -> r = Ok []) /\
  ((exists w, offered w) -> (exists n, In n (n_list st) /\ single_gram n q) -> r = Err ZeroDivisionError) /\
  ((forall n, In n (n_list st) -> ~ single_gram n q) ->
   (forall w n, normalize = true -> offered w -> In n (n_list st) -> (size n q + size n w <> 0)%Z) -> exists R, r = Ok R) /\
  (forall e, r = Err e -> e = ZeroDivisionError).
Proof.
  intros rnd casefold mean L CI st o word top_k nz q k Re F A offered r.
  pose proof (reachable_inv rnd casefold st (rnd_0 rnd L) CI Re) as I.
  destruct (lookup_totality rnd casefold mean L st I o word top_k nz q k F A) as (T1 & T2 & T3 & T4).
  assert (OC : forall i, cand st q i -> offered (wd st i)).
  { intros i [Hi Hc]. split; auto. apply vocabulary_in, wd_in. auto. }
  assert (CO : forall w, offered w -> exists i, cand st q i /\ wd st i = w).
  { intros w [Hw Hc]. rewrite vocabulary_in in Hw. destruct (in_wd st w Hw) as (i & Hi & <-). exists i. split; auto. split; auto. }
  split; [|split; [|split]].
  - intros H. apply T1. intros i Hi. apply (H _ (OC i Hi)).
  - intros (w & Hw) (n & Hn & Hs). destruct (CO w Hw) as (i & Hi & _). apply (T2 i Hi). apply Exists_exists. eauto.
  - intros H1 H2. apply T3.
    + apply Forall_forall. auto.
    + intros i Hi [Hn (n & Hin & Hz)]. apply (H2 (wd st i) n Hn (OC i Hi) Hin Hz).
  - intros e He. apply (T4 e He).
Qed.
Print Assumptions lookup_errors.

(** If [top_k] covers the whole vocabulary this is exact. *)
Theorem lookup_error_iff : forall rnd casefold mean, lawful rnd -> averaging mean -> (forall w, casefold (casefold w) = casefold w) ->
  forall st o word top_k normalize q k, reachable rnd casefold st -> fair o -> asks casefold st word top_k q k ->
  (normalize = false \/ rnd = exact) -> (Z.of_nat (List.length (vocabulary st)) <= k)%Z ->
  (lookup rnd casefold mean o st word top_k normalize = Err ZeroDivisionError <->
   exists w, In w (vocabulary st) /\ candidate (n_list st) (filter_n st) q w /\
     exists n, In n (n_list st) /\ (single_gram n q \/ (normalize = true /\ (size n q + size n w = 0)%Z))).
Proof.
  intros rnd casefold mean L M CI st o word top_k nz q k Re F A NE Hk.
  pose proof (reachable_inv rnd casefold st (rnd_0 rnd L) CI Re) as I.
  rewrite (lookup_totality_all rnd casefold mean L st I o word top_k nz q k F A M NE).
  2:{ unfold vocabulary in Hk. rewrite isort_length in Hk. lia. }
  split.
  - intros (i & [Hi Hc] & H). exists (wd st i). split; [apply vocabulary_in, wd_in; auto|]. split; auto.
    destruct H as [H|[Hn (n & Hin & Hz)]]; [|exists n; auto]. apply Exists_exists in H. destruct H as (n & Hn & Hs). exists n; auto.
  - intros (w & Hw & Hc & n & Hn & H). rewrite vocabulary_in in Hw. destruct (in_wd st w Hw) as (i & Hi & <-).
    exists i. split; [split; auto|]. destruct H as [H|[H1 H2]]; [left; apply Exists_exists; eauto|right; split; auto; exists n; auto].
Qed.
Print Assumptions lookup_error_iff.

(** The constructor's default sizes are 2 and 4: every two-letter query that
    has a candidate raises. *)
Theorem lookup_total_refuted : exists st w, reachable exact lower st /\ w <> [] /\ clean w /\ In w (vocabulary st) /\
  n_list st = [2%Z; 4%Z] /\ lookup exact lower (mean1 exact) ord0 st (PStr w) (PInt 10) true = Err ZeroDivisionError.
Proof.
  exists (built [2%Z; 4%Z] 0 ["ab"]), (w_ "ab"). split; [eapply built_reachable; vm_compute; reflexivity|].
  split; [discriminate|]. split; [solve_clean|]. split; [vm_compute; auto|]. split; vm_compute; reflexivity.
Qed.
Print Assumptions lookup_total_refuted.

(** Whether the second kind of error occurs depends on [top_k], because the
    offending candidate may be pruned before. *)
Theorem lookup_error_independent_of_top_k_refuted : exists st w, reachable exact lower st /\
  is_ok (lookup exact lower (mean1 exact) ord0 st (PStr w) (PInt 1) true) = true /\
  lookup exact lower (mean1 exact) ord0 st (PStr w) (PInt 2) true = Err ZeroDivisionError.
Proof.
  exists (built [2%Z; 6%Z] 0 ["abcde"; "a"]), (w_ "abcde"). split; [eapply built_reachable; vm_compute; reflexivity|].
  split; vm_compute; reflexivity.
Qed.
Print Assumptions lookup_error_independent_of_top_k_refuted.

Example ex_error_iff : asks lower (built [2%Z; 4%Z] 0 ["abc"; "xyz"]) (PStr (w_ "ABC")) (PInt 2) (w_ "abc") 2 /\
  (forall n, In n [2%Z; 4%Z] -> ~ single_gram n (w_ "abc")) /\
  is_ok (lookup_ex (built [2%Z; 4%Z] 0 ["abc"; "xyz"]) "ABC" 2 true) = true.
Proof.
  split; [|split].
  - exists (w_ "ABC"). split; auto. split; [discriminate|]. split; [vm_compute; reflexivity|]. split; [solve_clean|]. split; [reflexivity|lia].
  - intros n [<-|[<-|[]]]; vm_compute; discriminate.
  - vm_compute. reflexivity.
Qed.

(** *** C27: hash seeds *)

(** Two processes performing the same calls with different set iteration
    orders observe the same. *)
Theorem wordlist_order_independent : forall rnd casefold mean, lawful rnd -> (forall w, casefold (casefold w) = casefold w) ->
  forall n c fn st0, wl_init n c fn = Ok st0 -> forall calls calls',
  Forall (fun c => fair (fst c)) calls -> Forall (fun c => fair (fst c)) calls' -> map snd calls = map snd calls' ->
  let st := run rnd casefold st0 calls in let st' := run rnd casefold st0 calls' in
  vocabulary st = vocabulary st' /\
  forall o o', fair o -> fair o' ->
  (forall word top_k normalize, lookup rnd casefold mean o st word top_k normalize = lookup rnd casefold mean o' st' word top_k normalize) /\
  (forall word top_k normalize invert,
     lookup_v5 rnd casefold mean o st word top_k normalize invert = lookup_v5 rnd casefold mean o' st' word top_k normalize invert) /\
  (forall v, snd (add_word rnd casefold o st v) = snd (add_word rnd casefold o' st' v)).
Proof.
  intros rnd casefold mean L CI n c fn st0 E calls calls' F F' EM st st'.
  destruct (init_inv rnd casefold n c fn st0 E) as (I & _ & _).
  destruct (run_order rnd casefold calls calls' (rnd_0 rnd L) CI F F' EM st0 st0 I I eq_refl eq_refl eq_refl eq_refl)
    as (J & J' & EN & EF & EW & EC). fold st in J, EN, EF, EW, EC. fold st' in J', EN, EF, EW, EC.
  split; [unfold vocabulary; rewrite EW; reflexivity|].
  intros o o' Fo Fo'. split; [|split].
  - intros. eapply lookup_order; eauto.
  - intros. eapply lookup_order; eauto.
  - intros v. assert (EI : word_indices st = word_indices st') by (rewrite (inv_indices _ _ _ J), (inv_indices _ _ _ J'), EW; reflexivity).
    assert (EL : word_lens st = word_lens st') by (rewrite (inv_lens _ _ _ J), (inv_lens _ _ _ J'), EW; reflexivity).
    destruct v as [w| | | |]; try reflexivity. unfold add_word. destruct (zlen w =? 0)%Z; [reflexivity|]. unfold fold_case. rewrite EC, EI.
    cbv zeta. destruct (dmem _ _); [reflexivity|]. destruct (existsb _ _ || existsb _ _); [reflexivity|].
    unfold resolve_word_index, fold_case. cbv zeta. cbn [word_indices word_list word_lens]. rewrite EC, EI, EW, EL.
    destruct (zlen _ =? 0)%Z; [reflexivity|]. destruct (dget _ _); [reflexivity|].
    destruct (_ && _); [|reflexivity]. destruct (nth_error _ _); [|reflexivity]. destruct (nth_error _ _); [|reflexivity].
    destruct (eqd _ _); [|reflexivity]. destruct (_ =? _)%Z; reflexivity.
Qed.
Print Assumptions wordlist_order_independent.

(** Two runs that really differ inside: the filter dictionary is filled in
    another order. *)
Example ex_order_independent :
  let r o := run exact lower (fresh [2%Z; 3%Z] 2) (map (fun s => (o, PStr (w_ s))) ["banana"; "cabana"]) in
  map fst (ngram_filter (r ord0)) <> map fst (ngram_filter (r ord1)).
Proof. vm_compute. discriminate. Qed.

(** *** C28: normalized scores *)

Theorem lookup_normalized_range : forall rnd casefold mean, lawful rnd -> averaging mean -> (forall w, casefold (casefold w) = casefold w) ->
  forall st o word top_k q k R, reachable rnd casefold st -> fair o -> asks casefold st word top_k q k ->
  (rnd = exact \/ forall w, In w (vocabulary st) -> (zlen q + zlen w + 4 <= 2 ^ 53)%Z) -> small (List.length (n_list st)) ->
  lookup rnd casefold mean o st word top_k true = Ok R ->
  forall w s t, In (w, (s, t)) R -> 0 <= s /\ s <= 1 /\ 0 <= t /\ t <= 1.
Proof.
  intros rnd casefold mean L M CI st o word top_k q k R Re F A D Sm H w s t Hw.
  pose proof (reachable_inv rnd casefold st (rnd_0 rnd L) CI Re) as I. destruct (asks_clean _ _ _ _ _ _ A) as [Cq _].
  destruct (lookup_scores rnd casefold mean L CI st o word top_k true q k R Re F A H w s t Hw) as (E1 & E2 & E3 & E4).
  assert (Hw' := E3). rewrite vocabulary_in in Hw'. assert (Cw : clean w) by (eapply words_clean; eauto).
  assert (Fu : forall n, (0 < n)%Z -> faithful_upto rnd (weight q n w)).
  { intros n Hn. destruct D as [->|D]; [apply exact_faithful|]. apply lawful_faithful; auto. unfold small.
    etransitivity; [apply weight_le; auto|]. apply D; auto. }
  unfold similarity in E1. rewrite (mapM_ext_in _ (fun n => score1 rnd true q n w)) in E1 by (intros; eapply pair_score1; eauto).
  apply bind_ok in E1. destruct E1 as (v & Hv & E). assert (s = mean v) as -> by congruence.
  pose proof (mapM_inv _ _ _ Hv) as B. cbn beta in B.
  assert (Ln : List.length v = List.length (n_list st)) by (clear - B; induction B; simpl; auto).
  assert (U : Forall (fun y => 0 <= y /\ y <= 1) v).
  { eapply Forall2_right; [|exact B]. intros n y Hn Hy. apply (score1_unit rnd L q n w y); auto; [eapply NL_pos; eauto|]. apply Fu. eapply NL_pos; eauto. }
  assert (Nl : n_list st <> []) by (destruct E4 as [(n & Hn & _) _]; intros C; rewrite C in Hn; destruct Hn).
  assert (Sn : exists m, List.length v = S m) by (rewrite Ln; destruct (n_list st); [congruence|eexists; reflexivity]).
  destruct Sn as [m Em]. assert (Sv : small (S m)) by (rewrite <- Em, Ln; exact Sm).
  split; [|split].
  - rewrite <- (mean_zero _ M m Sv) at 1. rewrite <- Em. apply (mean_mono _ M).
    + clear. induction (List.length v); simpl; constructor; auto. apply Qcle_refl.
    + clear - U. induction U as [|y v [H _] U IH]; simpl; constructor; auto.
  - rewrite <- (mean_one _ M m Sv) at 1. rewrite <- Em. apply (mean_mono _ M).
    + eapply Forall_impl; [|exact U]. intros y [H0 _]. exact H0.
    + clear - U. induction U as [|y v [_ H] U IH]; simpl; constructor; auto.
  - rewrite <- score1_nmd in E2 by (auto; lia). apply (score1_unit rnd L q 2 w t); auto; [lia|]. apply Fu. lia.
Qed.
Print Assumptions lookup_normalized_range.

(** A word that is indexed scores exactly 1, also in floats. *)
Theorem lookup_normalized_self : forall rnd casefold mean, lawful rnd -> averaging mean -> (forall w, casefold (casefold w) = casefold w) ->
  forall st q, reachable rnd casefold st -> In q (vocabulary st) -> proper (n_list st) q -> small (List.length (n_list st)) ->
  (2 * zlen q + 4 <= 2 ^ 53)%Z ->
  similarity rnd mean (n_list st) q q true = Ok 1.
Proof.
  intros rnd casefold mean L M CI st q Re Hq [N0 Pr] Sm Sq. rewrite Forall_forall in Pr.
  pose proof (reachable_inv rnd casefold st (rnd_0 rnd L) CI Re) as I. rewrite vocabulary_in in Hq.
  assert (Cq : clean q) by (eapply words_clean; eauto).
  unfold similarity. rewrite (mapM_ext_in _ (fun n => score1 rnd true q n q)) by (intros; eapply pair_score1; eauto).
  rewrite (mapM_Ok_in _ (fun _ => 1)).
  2:{ intros n Hn. specialize (Pr n Hn). apply score1_self; auto. apply lawful_faithful; auto. unfold small.
      pose proof (weight_le q n q ltac:(lia)). lia. }
  cbn [bind]. f_equal. destruct (n_list st) as [|a l]; [congruence|]. etransitivity; [|exact (mean_one _ M (List.length l) Sm)].
  f_equal. clear. simpl. f_equal. induction l; simpl; congruence.
Qed.
Print Assumptions lookup_normalized_self.

(** With 1-grams the count that is divided by is two too large: a word is not
    fully similar to itself. *)
Theorem lookup_self_score_one_refuted : exists st R s t, reachable exact lower st /\
  lookup exact lower (mean1 exact) ord0 st (PStr (w_ "abc")) (PInt 1) true = Ok R /\ In (w_ "abc", (s, t)) R /\ s < 1.
Proof.
  exists (built [1%Z; 2%Z] 0 ["abc"]). do 3 eexists. split; [eapply built_reachable; vm_compute; reflexivity|].
  split; [vm_compute; reflexivity|]. split; [left; reflexivity|]. vm_compute. reflexivity.
Qed.
Print Assumptions lookup_self_score_one_refuted.

(** *** C29: [ApproxWordListV5.lookup] *)

Lemma best_snd_sorted {A} (l : list (A * Qc)) : StronglySorted (fun a b => snd b <= snd a) (best qleb snd l).
Proof.
  pose proof (best_sorted qleb (snd : A * Qc -> Qc) qleb_total qleb_trans l) as S.
  induction S as [|a l' S IH F]; constructor; auto. eapply Forall_impl; [|exact F]. intros b Hb. apply qleb_le in Hb. exact Hb.
Qed.

Theorem lookup_v5_result : forall rnd casefold mean, lawful rnd -> (forall w, casefold (casefold w) = casefold w) ->
  forall st o word top_k normalize invert q k R, reachable rnd casefold st -> fair o -> asks casefold st word top_k q k ->
  lookup_v5 rnd casefold mean o st word top_k normalize invert = Ok R ->
  (* at most twice [top_k] words, each once, largest value first *)
  (Z.of_nat (List.length R) <= 2 * k)%Z /\ NoDup (map fst R) /\ StronglySorted (fun a b => snd b <= snd a) R /\
  (* every value is the similarity, or its complement *)
  (forall w x, In (w, x) R -> In w (vocabulary st) /\ candidate (n_list st) (filter_n st) q w /\
     exists s, similarity rnd mean (n_list st) q w normalize = Ok s /\
       x = (if invert then s else rnd ((if normalize then 1 else 0) - s))) /\
  (* and the [top_k] best candidates are among them *)
  (averaging mean -> dependable rnd normalize st q ->
   exists B, incl B (map fst R) /\ NoDup B /\
     (exists C, NoDup C /\ (forall w, In w C <-> In w (vocabulary st) /\ candidate (n_list st) (filter_n st) q w) /\
        List.length B = Nat.min (Z.to_nat k) (List.length C)) /\
     forall b w s x, In b B -> In w (vocabulary st) -> candidate (n_list st) (filter_n st) q w -> ~ In w B ->
       similarity rnd mean (n_list st) q b normalize = Ok s -> similarity rnd mean (n_list st) q w normalize = Ok x -> x <= s).
Proof.
  intros rnd casefold mean L CI st o word top_k nz iv q k R Re F A H.
  pose proof (reachable_inv rnd casefold st (rnd_0 rnd L) CI Re) as I. destruct (asks_clean _ _ _ _ _ _ A) as [Cq Hk].
  destruct (lookup_v5_complete rnd casefold mean L st I o word top_k nz q k F A R iv H) as (Ix & cs & -> & Nc & Hc & Ni & Ln & HI & LL).
  assert (P : Permutation (best qleb snd (map (v5_value rnd mean st q nz iv) Ix)) (map (v5_value rnd mean st q nz iv) Ix)) by apply best_perm.
  assert (Pf : Permutation (map fst (best qleb snd (map (v5_value rnd mean st q nz iv) Ix))) (map (wd st) Ix)).
  { etransitivity; [apply Permutation_map, P|]. rewrite map_map. apply Permutation_refl. }
  assert (Nw : forall l, NoDup l -> (forall i, In i l -> cand st q i) -> NoDup (map (wd st) l)).
  { intros l Nl Hl. apply NoDup_map_inj; auto. intros a b Ha Hb E. destruct (Hl a Ha), (Hl b Hb). eapply wd_inj; eauto. }
  split; [|split; [|split; [|split]]].
  - rewrite (Permutation_length P), map_length. lia.
  - eapply Permutation_NoDup; [symmetry; exact Pf|]. apply Nw; auto. intros i Hi. apply HI; auto.
  - apply best_snd_sorted.
  - intros w x Hw. apply (Permutation_in _ P) in Hw. apply in_map_iff in Hw. destruct Hw as (i & E & Hi).
    destruct (HI i Hi) as [[Hl Hca] [v Hv]]. unfold v5_value in E. assert (wd st i = w) as <- by congruence.
    split; [apply vocabulary_in, wd_in; auto|]. split; auto.
    exists (sc rnd mean st q nz i). split; [|congruence].
    rewrite (similarity_vec rnd casefold mean st I q i nz Cq Hl), Hv. cbn [bind]. f_equal. symmetry. apply sc_val; auto.
  - intros M D. destruct (dependable_tight rnd casefold st q nz L I D) as [T NE].
    destruct (LL M T NE) as (_ & Iy & Inc & Ny & Ly & Ll).
    exists (map (wd st) Iy). split; [|split; [|split]].
    + intros w Hw. apply (Permutation_in _ (Permutation_sym Pf)). apply in_map_iff in Hw. destruct Hw as (i & <- & Hi). apply in_map; auto.
    + apply Nw; auto. intros i Hi. apply HI; auto.
    + exists (map (wd st) cs). split; [apply Nw; auto; intros; apply Hc; auto|]. split; [|rewrite !map_length; auto].
      intros w. rewrite in_map_iff, vocabulary_in. split.
      * intros (i & <- & Hi'). apply Hc in Hi'. destruct Hi'. split; auto. apply wd_in; auto.
      * intros [Hw Cw]. destruct (in_wd st w Hw) as (i & Hi' & <-). exists i. split; auto. apply Hc. split; auto.
    + intros b w s x Hb Hw Cw Nb Hs Hx. apply in_map_iff in Hb. destruct Hb as (r & <- & Hr).
      rewrite vocabulary_in in Hw. destruct (in_wd st w Hw) as (j & Hj & <-).
      assert (Hrl : (r < List.length (word_list st))%nat) by (apply Inc, HI in Hr; apply Hr).
      rewrite (similarity_sc rnd casefold mean st I q r nz s Cq Hrl Hs).
      rewrite (similarity_vec rnd casefold mean st I q j nz Cq Hj) in Hx. apply bind_ok in Hx. destruct Hx as (v & Hv & Ex).
      assert (x = mean v) as -> by congruence. apply (Ll r j v Hr); [split; auto| |exact Hv].
      intros C. apply Nb. apply in_map; auto.
Qed.
Print Assumptions lookup_v5_result.

(** It fails exactly when the other one does. *)
Theorem lookup_v5_same_errors : forall rnd casefold mean, lawful rnd -> (forall w, casefold (casefold w) = casefold w) ->
  forall st o word top_k normalize invert e, reachable rnd casefold st -> fair o ->
  lookup_v5 rnd casefold mean o st word top_k normalize invert = Err e <-> lookup rnd casefold mean o st word top_k normalize = Err e.
Proof.
  intros rnd casefold mean L CI st o word top_k nz iv e Re F.
  pose proof (reachable_inv rnd casefold st (rnd_0 rnd L) CI Re) as I.
  destruct (lookup_checks casefold st word top_k) as [[q k]|e'] eqn:C.
  - apply asks_checks in C. destruct (call_outcome rnd casefold mean L st I o word top_k nz q k F C) as [[cs ND HC low LV CA] _].
    destruct CA as [(E & H0 & H1)|[(E & S & H0 & H1)|(E & S & surv & thr & top & P1 & P2 & P3 & P4 & P5 & P6 & [(Q1 & H0 & H1)|(N & Q1 & H0 & H1)])]];
      specialize (H1 iv); cbv beta in H1; rewrite H0, H1; split; congruence.
  - unfold lookup, lookup_v5. rewrite C. cbn [bind]. split; congruence.
Qed.
Print Assumptions lookup_v5_same_errors.

Example ex_v5 : match lookup_v5 exact lower (mean1 exact) ord0 (built [2%Z] 0 ["ab"; "abc"; "xb"; "yb"]) (PStr (w_ "abx")) (PInt 1) true false with
  | Ok [(a, x); (b, y)] => a = w_ "abc" /\ b = w_ "ab" /\ qeqb x (f 1 2) && qeqb y (f 19 42) = true | _ => False end.
Proof. vm_compute. auto. Qed.
