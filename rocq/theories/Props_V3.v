(** Theorems about [ApproxWordListV3] (nmd/nmd_index.py:40-185): properties
    C61 - C65.

    In every statement [rnd] is a lawful rounding, [casefold] any idempotent
    function, [mean] any function standing for the average of the given
    [dim], and each call iterates over its set of sizes in any order.  The
    sizes are positive and distinct. *)
From Coq Require Import ZArith NArith QArith Qcanon List Bool Permutation Lia Sorted String.
From Verif Require Import Num Py ListAux PyDict Float64 EmdSpec EmdModel EmdProofs EmdFloatProofs
  NmdSpec NmdModel NmdProofs NmdFloatProofs IndexSpec IndexModel IndexProofs IndexLoops IndexLookupProofs IndexResult IndexTop
  IndexScore IndexFacts V3Model V3Proofs Ex Props_Nmd Props_Index.
Import ListNotations.
Open Scope string_scope.
Open Scope list_scope.
Open Scope Qc_scope.

(** A word list constructed with the sizes [zs] and the flag [c], after the
    calls [calls] of [add_word]. *)
Record history (rnd : Qc -> Qc) (casefold : str -> str) (zs : list Z) (c : pyval) (calls : list (order * pyval))
    (st : wordlist3) : Prop := {
  h_sizes : Forall (fun z => (0 < z)%Z) zs /\ NoDup zs;
  h_orders : Forall (fun call => fair (fst call)) calls;
  h_state : exists st0, v3_init (NIter zs) c = Ok st0 /\ st = run3 rnd casefold st0 calls
}.

(** Words as they are stored and looked up. *)
Definition folded (casefold : str -> str) (c : pyval) (w : str) : str :=
  match as_int c with Some 0%Z => casefold w | _ => w end.

(** The words a history has put in. *)
Definition known (casefold : str -> str) (c : pyval) (calls : list (order * pyval)) (u : str) : Prop :=
  exists call, In call calls /\ enters (folded casefold c) (snd call) u.

Section Setting.
Variables (rnd : Qc -> Qc) (casefold : str -> str) (mean : list Qc -> Qc).
Hypothesis L : lawful rnd.
Hypothesis CI : forall w, casefold (casefold w) = casefold w.
Variables (zs : list Z) (c : pyval) (calls : list (order * pyval)) (st : wordlist3).
Hypothesis H : history rnd casefold zs c calls st.

Lemma history_state : inv rnd casefold (as6 st) /\ v_n_list st = zs /\ (forall w, v_fold casefold st w = folded casefold c w) /\
  (forall u, In u (v_words st) <-> known casefold c calls u).
Proof.
  destruct H as [[Hp Hd] Ho (st0 & E & ->)]. assert (R0 := rnd_0 rnd L).
  assert (E' := E). unfold v3_init in E'. apply bind_ok in E'. destruct E' as (nl & [= <-] & E').
  destruct (as_int c) as [k|] eqn:Ec; [|discriminate]. injection E' as E0.
  assert (N0 : v_n_list st0 = zs) by (rewrite <- E0; reflexivity).
  assert (C0 : v_insensitive st0 = (k =? 0)%Z) by (rewrite <- E0; reflexivity).
  assert (I0 : inv rnd casefold (as6 st0) /\ v_words st0 = []) by (apply (init_as6 rnd casefold (NIter zs) c); rewrite ?N0; auto).
  destruct I0 as [I0 W0].
  destruct (run_inv rnd casefold R0 CI calls (as6 st0) I0 Ho) as (I1 & N1 & C1 & _).
  assert (Hw := run_words rnd casefold R0 CI calls (as6 st0) I0 Ho).
  rewrite <- (run_as6 rnd casefold) in I1, N1, C1, Hw. cbn [as6 n_list case_insensitive word_list] in N1, C1, Hw.
  assert (Ef : forall w, (if v_insensitive st0 then casefold w else w) = folded casefold c w).
  { intros w. unfold folded. rewrite Ec, C0. destruct (Z.eqb_spec k 0) as [->|]; [reflexivity|].
    destruct k; try reflexivity. congruence. }
  split; [exact I1|]. split; [congruence|]. split.
  - intros w. unfold v_fold. rewrite C1. apply Ef.
  - intros u. rewrite Hw, W0. unfold known. split.
    + intros [[]|(call & H1 & (w & H2 & H3 & H4 & H5))]. exists call. split; auto. exists w. rewrite <- Ef. auto.
    + intros (call & H1 & (w & H2 & H3 & H4 & H5)). right. exists call. split; auto. exists w. rewrite <- Ef in H4. auto.
Qed.

(** The number of a known word. *)
Lemma known_number u : known casefold c calls u <-> exists i, (i < List.length (v_words st))%nat /\ wd (as6 st) i = u.
Proof.
  destruct history_state as (I & _ & _ & K). rewrite <- K. split.
  - intros Hu. apply (in_wd (as6 st)). exact Hu.
  - intros (i & Hi & <-). apply (wd_in (as6 st)). exact Hi.
Qed.
End Setting.

(** *** C61: what a lookup lists *)

(** Shares an n-gram with the query, for one of the sizes. *)
Definition related (zs : list Z) (q w : str) : Prop := exists n, In n zs /\ shares n q w.

Lemma candidate_related zs q w : candidate zs 0 q w <-> related zs q w.
Proof. unfold candidate, related. tauto. Qed.

Definition word_of (e : str * Qc * Qc) : str := fst (fst e).
Definition score_of (e : str * Qc * Qc) : Qc := snd (fst e).

Theorem v3_lookup_lists : forall rnd casefold mean, lawful rnd -> (forall w, casefold (casefold w) = casefold w) ->
  forall zs c calls st, history rnd casefold zs c calls st ->
  forall w top_k out, lookup3 rnd casefold mean st (PStr w) top_k = Ok out ->
  let q := folded casefold c w in
  out <> [] /\ NoDup (map word_of out) /\
  (forall x s d, In (x, s, d) out ->
     known casefold c calls x /\ related zs q x /\ score3 rnd mean zs q x = Ok s /\
     ngram_movers_distance rnd (PStr q) (PStr x) (PInt 2) true true = Ok d) /\
  StronglySorted (fun a b => score_of b <= score_of a) out /\
  ((0 < top_k)%Z -> (zlen out <= top_k)%Z) /\
  (forall x, known casefold c calls x -> related zs q x -> In x (map word_of out) \/
     ((0 < top_k)%Z /\ zlen out = top_k /\
      forall s y t d, score3 rnd mean zs q x = Ok s -> In (y, t, d) out -> s <= t)).
Proof.
  intros rnd casefold mean L CI zs c calls st H w top_k out E q.
  destruct (history_state rnd casefold L CI zs c calls st H) as (I & N & Fo & K).
  assert (Hw : w <> []). { intros ->. cbn in E. discriminate. }
  assert (Cq : clean q).
  { destruct (clean_dec q) as [|D]; auto. exfalso. unfold lookup3 in E. destruct (zlen w =? 0)%Z; [discriminate|]. cbv zeta in E.
    rewrite Fo in E. apply dirty_iff in D. fold q in E. rewrite D in E. discriminate. }
  assert (Eq : q = v_fold casefold st w) by (rewrite Fo; reflexivity).
  destruct (lookup3_cases rnd casefold mean L st I q w top_k Hw Eq Cq) as [[_ X]|[_ (cs & ND & HC & X)]]; [congruence|].
  destruct cs as [|c0 cs0]; [congruence|]. destruct (existsb _ _); [congruence|]. rewrite X in E. injection E as <-.
  set (cs := c0 :: cs0) in *. set (rk := ranked3 rnd mean st q cs top_k) in *.
  assert (Sub : forall i, In i rk -> cand3 st q i) by (intros i Hi; apply HC; eapply best_firstn_incl; exact Hi).
  assert (Lrk : List.length rk = Nat.min (if (top_k <=? 0)%Z then List.length cs else Z.to_nat top_k) (List.length cs)).
  { unfold rk, ranked3. rewrite firstn_length. f_equal. unfold best. apply isort_length. }
  assert (Ew : map word_of (map (entry3 rnd mean st q) rk) = map (wd (as6 st)) rk) by (rewrite map_map; reflexivity).
  assert (Sc : forall i, score3 rnd mean zs q (wd (as6 st) i) = Ok (sc3 rnd mean st q i)).
  { intros i. unfold sc3. rewrite N. destruct (score3_ok rnd mean L st q (wd (as6 st) i)) as [x Hx]. rewrite N in Hx. rewrite Hx. reflexivity. }
  split; [|split; [|split; [|split; [|split]]]].
  - destruct rk eqn:Er; [|discriminate]. exfalso. cbn [List.length] in Lrk. unfold cs in Lrk. cbn [List.length] in Lrk.
    destruct (Z.leb_spec top_k 0); lia.
  - rewrite Ew. assert (Nr : NoDup rk).
    { apply NoDup_firstn. eapply Permutation_NoDup; [|exact ND]. apply Permutation_sym, best_perm. }
    clear - Nr Sub I. induction rk as [|i rk IH]; [constructor|]. inversion Nr; subst. cbn [map]. constructor.
    + intros C. apply in_map_iff in C. destruct C as (j & Ej & Hj). apply H1.
      replace i with j; auto. eapply (wd_inj rnd casefold (as6 st) I); eauto; apply Sub; [right; auto|left; auto].
    + apply IH; auto. intros; apply Sub; right; auto.
  - intros x s d Hin. apply in_map_iff in Hin. destruct Hin as (i & Ei & Hi). unfold entry3 in Ei. injection Ei as <- <- <-.
    destruct (Sub i Hi) as [Hi1 Hi2]. rewrite N in Hi2. split; [|split; [|split]].
    + apply (known_number rnd casefold L CI zs c calls st H). eauto.
    + apply (proj1 (candidate_related _ _ _)). exact Hi2.
    + apply Sc.
    + apply (s2_val rnd casefold L (as6 st) I q true i Cq Hi1).
  - assert (S1 : StronglySorted (fun a b => qleb (sc3 rnd mean st q b) (sc3 rnd mean st q a) = true) rk).
    { apply sorted_firstn. apply best_sorted; [intros; apply qleb_total|intros; eapply qleb_trans; eauto]. }
    clear - S1. induction S1 as [|a l S1 IH F]; [constructor|]. cbn [map]. constructor; auto.
    apply Forall_forall. intros e He. apply in_map_iff in He. destruct He as (j & <- & Hj). rewrite Forall_forall in F.
    apply F in Hj. unfold score_of, entry3. cbn [fst snd]. apply qleb_le. exact Hj.
  - intros Hk. unfold zlen. rewrite map_length, Lrk. destruct (Z.leb_spec top_k 0); lia.
  - intros x Kx Rx. apply (known_number rnd casefold L CI zs c calls st H) in Kx. destruct Kx as (i & Hi & <-).
    rewrite Ew. assert (Ci : In i cs). { apply HC. split; auto. rewrite N. apply (proj2 (candidate_related _ _ _)). exact Rx. }
    destruct (in_dec Nat.eq_dec i rk) as [Hr|Hr]; [left; apply in_map; auto|]. right.
    destruct (Z.leb_spec top_k 0) as [Kn|Kn].
    + exfalso. apply Hr. unfold rk, ranked3. destruct (Z.leb_spec top_k 0); [|lia]. rewrite firstn_all2.
      * eapply Permutation_in; [apply Permutation_sym, best_perm|exact Ci].
      * unfold best. rewrite isort_length. apply le_n.
    + split; [exact Kn|]. split.
      * unfold zlen. rewrite map_length, Lrk. destruct (Nat.le_gt_cases (List.length cs) (Z.to_nat top_k)) as [B|B]; [|lia].
        exfalso. apply Hr. unfold rk, ranked3. destruct (Z.leb_spec top_k 0); [lia|]. rewrite firstn_all2.
        -- eapply Permutation_in; [apply Permutation_sym, best_perm|exact Ci].
        -- unfold best. rewrite isort_length. exact B.
      * intros s y t d Es Hin. rewrite Sc in Es. injection Es as <-. apply in_map_iff in Hin. destruct Hin as (j & Ej & Hj).
        unfold entry3 in Ej. injection Ej as _ <- _. apply qleb_le.
        eapply (best_rest qleb (sc3 rnd mean st q)); eauto; intros; [apply qleb_total|eapply qleb_trans; eauto].
Qed.

(** *** C62: when a lookup raises *)

Theorem v3_lookup_raises : forall rnd casefold mean, lawful rnd -> (forall w, casefold (casefold w) = casefold w) ->
  forall zs c calls st, history rnd casefold zs c calls st -> forall v top_k,
  (forall w, v <> PStr w) /\ lookup3 rnd casefold mean st v top_k = Err TypeError \/
  v = PStr [] /\ lookup3 rnd casefold mean st v top_k = Err ValueError \/
  exists w, v = PStr w /\ w <> [] /\ let q := folded casefold c w in
    (~ clean q /\ lookup3 rnd casefold mean st v top_k = Err AssertionError \/
     clean q /\ (exists n, In n zs /\ n = (zlen q + 2)%Z /\ n <> 1%Z) /\ lookup3 rnd casefold mean st v top_k = Err ZeroDivisionError \/
     clean q /\ ~ (exists n, In n zs /\ n = (zlen q + 2)%Z /\ n <> 1%Z) /\
       (~ (exists x, known casefold c calls x /\ related zs q x) /\ lookup3 rnd casefold mean st v top_k = Err IndexError \/
        (exists x, known casefold c calls x /\ related zs q x) /\
          (In (zlen q + 3)%Z zs /\ lookup3 rnd casefold mean st v top_k = Err ZeroDivisionError \/
           ~ In (zlen q + 3)%Z zs /\ exists out, lookup3 rnd casefold mean st v top_k = Ok out))).
Proof.
  intros rnd casefold mean L CI zs c calls st H v top_k.
  destruct (history_state rnd casefold L CI zs c calls st H) as (I & N & Fo & K).
  destruct v as [w| | | |]; try (left; split; [intros w; discriminate|reflexivity]).
  right. destruct w as [|c0 w0] eqn:Ew; [left; split; reflexivity|]. rewrite <- Ew. assert (Hw : w <> []) by (rewrite Ew; discriminate).
  right. exists w. split; auto. split; auto. intros q.
  destruct (clean_dec q) as [Cq|Dq].
  2:{ left. split; auto. unfold lookup3. destruct (Z.eqb_spec (zlen w) 0) as [Z0|_]; [rewrite Ew in Z0; unfold zlen in Z0; cbn [List.length] in Z0; lia|].
      cbv zeta. rewrite Fo. fold q. apply dirty_iff in Dq. rewrite Dq. reflexivity. }
  right. assert (Eq : q = v_fold casefold st w) by (rewrite Fo; reflexivity).
  assert (Lo : forall n, In n zs -> lone q n <-> n = (zlen q + 2)%Z /\ n <> 1%Z).
  { intros n Hn. destruct (h_sizes _ _ _ _ _ _ H) as [Hp _]. rewrite Forall_forall in Hp. specialize (Hp n Hn). unfold lone. lia. }
  destruct (lookup3_cases rnd casefold mean L st I q w top_k Hw Eq Cq) as [[D X]|[D (cs & ND & HC & X)]]; rewrite N in *.
  - left. split; auto. split; auto. apply Exists_exists in D. destruct D as (n & Hn & D). exists n. split; auto. apply Lo; auto.
  - right. split; auto. split.
    { intros (n & Hn & E). rewrite Forall_forall in D. apply (D n Hn). apply Lo; auto. }
    assert (Rel : forall i, In i cs -> known casefold c calls (wd (as6 st) i) /\ related zs q (wd (as6 st) i)).
    { intros i Hi. apply HC in Hi. destruct Hi as [Hi1 Hi2]. rewrite N in Hi2. split.
      - apply (known_number rnd casefold L CI zs c calls st H). eauto.
      - apply (proj1 (candidate_related _ _ _)). exact Hi2. }
    destruct cs as [|i0 cs].
    + left. split; auto. intros (x & Kx & Rx). apply (known_number rnd casefold L CI zs c calls st H) in Kx.
      destruct Kx as (i & Hi & <-). assert (C : In i []); [|destruct C]. apply HC. split; auto. rewrite N. apply (proj2 (candidate_related _ _ _)). exact Rx.
    + right. split; [exists (wd (as6 st) i0); apply Rel; left; auto|].
      assert (Z3 : existsb (fun n => (size n q =? 0)%Z) zs = true <-> In (zlen q + 3)%Z zs).
      { destruct (h_sizes _ _ _ _ _ _ H) as [Hp _]. rewrite Forall_forall in Hp. rewrite existsb_exists. pose proof (zlen_nonneg q).
        split.
        - intros (n & Hn & E). apply Z.eqb_eq in E. specialize (Hp n Hn). replace (zlen q + 3)%Z with n; auto.
          unfold size in E. destruct (Z.ltb_spec 1 n); lia.
        - intros Hn. exists (zlen q + 3)%Z. split; auto. apply Z.eqb_eq. unfold size. destruct (Z.ltb_spec 1 (zlen q + 3)); lia. }
      destruct (existsb _ zs).
      * left. split; auto. apply Z3. reflexivity.
      * right. split; [intros C; apply Z3 in C; discriminate|]. eauto.
Qed.

(** *** C63: scores *)

(** All counts of n-grams are below 2^53. *)
Definition counts_small (zs : list Z) (q w : str) : Prop :=
  Forall (fun n => small (List.length (query_pieces n q) + List.length (word_pieces n w))) zs /\ small (List.length zs).

Lemma repeat_one_Forall {A} (f : A -> result Qc) l v : mapM f l = Ok v -> (forall a, In a l -> f a = Ok 1) -> v = repeat 1 (List.length l).
Proof.
  revert v. induction l as [|a l IH]; intros v E H; simpl in E; [injection E as <-; reflexivity|].
  rewrite H in E by (left; auto). cbn [bind] in E. apply bind_ok in E. destruct E as (v' & E1 & E2). injection E2 as <-.
  cbn [List.length repeat]. f_equal. apply IH; auto. intros; apply H; right; auto.
Qed.

Theorem v3_scores : forall rnd casefold mean, lawful rnd -> (forall w, casefold (casefold w) = casefold w) -> averaging mean ->
  forall zs c calls st, history rnd casefold zs c calls st ->
  forall w top_k out, lookup3 rnd casefold mean st (PStr w) top_k = Ok out ->
  let q := folded casefold c w in
  (forall x, known casefold c calls x -> counts_small zs q x) ->
  (forall x s d, In (x, s, d) out -> 0 <= s /\ s <= 1) /\
  (known casefold c calls q -> Forall (fun n => (2 <= n < zlen q + 2)%Z) zs ->
   (forall s d, In (q, s, d) out -> s = 1) /\
   ((top_k <= 0)%Z -> exists d, In (q, 1, d) out) /\
   (exists x d rest, out = (x, 1, d) :: rest)).
Proof.
  intros rnd casefold mean L CI Av zs c calls st H w top_k out E q Small.
  destruct (v3_lookup_lists rnd casefold mean L CI zs c calls st H w top_k out E) as (Ne & ND & Ent & Srt & Len & Miss). fold q in Ent, Miss.
  assert (Sz : ~ In (zlen q + 3)%Z zs).
  { destruct (v3_lookup_raises rnd casefold mean L CI zs c calls st H (PStr w) top_k) as [[_ X]|[[_ X]|(w' & [= <-] & _ & X)]]; try congruence.
    fold q in X. destruct X as [[_ X]|[(_ & _ & X)|(_ & _ & [[_ X]|[_ [[_ X]|[X _]]]])]]; try congruence. }
  assert (Szs : forall n, In n zs -> (0 < n)%Z /\ size n q <> 0%Z).
  { intros n Hn. destruct (h_sizes _ _ _ _ _ _ H) as [Hp _]. rewrite Forall_forall in Hp. specialize (Hp n Hn). split; auto.
    intros C. apply Sz. replace (zlen q + 3)%Z with n; auto. pose proof (zlen_nonneg q). unfold size in C. destruct (Z.ltb_spec 1 n); lia. }
  assert (NeZ : zs <> []).
  { intros ->. destruct out as [|[[x s] d] out]; [congruence|]. destruct (Ent x s d (or_introl eq_refl)) as (_ & (n & [] & _) & _). }
  assert (B : forall x s, counts_small zs q x -> score3 rnd mean zs q x = Ok s -> 0 <= s /\ s <= 1).
  { intros x s [F Sn] Hs. unfold score3 in Hs. apply bind_ok in Hs. destruct Hs as (v & Hv & Hs).
    assert (Es : s = mean v) by congruence. subst s. clear Hs.
    pose proof (mapM_inv _ _ _ Hv) as B. rewrite Forall_forall in F.
    assert (Bv : Forall2 (fun n y => 0 <= y /\ y <= 1) zs v).
    { clear Hv. assert (G : forall n y, In n zs -> part3 rnd q x n = Ok y -> 0 <= y /\ y <= 1).
      { intros n y Hn Hy. destruct (Szs n Hn). eapply (part3_bounds rnd L q x n); eauto. apply lawful_faithful; auto. }
      clear - B G. induction B as [|n y l v Hy B IHB]; constructor.
      - apply (G n y); [left; auto|auto].
      - apply IHB. intros m z Hm. apply G. right; auto. }
    assert (Lv : List.length v = List.length zs) by (clear - Bv; induction Bv; cbn [List.length]; congruence).
    destruct zs as [|z zs0] eqn:Ez; [congruence|]. rewrite <- Ez in *. assert (Lz : List.length zs = S (List.length zs0)) by (rewrite Ez; reflexivity).
    assert (N0 : Forall (fun y => 0 <= y) v) by (eapply Forall2_right; [|exact Bv]; cbn beta; tauto).
    split.
    - rewrite <- (mean_zero _ Av (List.length zs0)) by (rewrite <- Lz; auto). apply (mean_mono _ Av).
      + apply Forall_forall. intros y Hy. apply repeat_spec in Hy. subst y. apply Qcle_refl.
      + rewrite <- Lz, <- Lv. clear - N0. induction N0; cbn [List.length repeat]; constructor; auto.
    - rewrite <- (mean_one _ Av (List.length zs0)) by (rewrite <- Lz; auto). apply (mean_mono _ Av); auto.
      rewrite <- Lz. clear - Bv. induction Bv; cbn [List.length repeat]; constructor; tauto. }
  split; [intros x s d Hin; destruct (Ent x s d Hin) as (Kx & _ & Hs & _); eauto|].
  intros Kq Long. assert (Sm := Small q Kq).
  assert (S1 : score3 rnd mean zs q q = Ok 1).
  { destruct (score3_ok rnd mean L st q q) as [s Hs]. destruct (history_state rnd casefold L CI zs c calls st H) as (_ & N & _). rewrite N in Hs.
    rewrite Hs. f_equal. unfold score3 in Hs. apply bind_ok in Hs. destruct Hs as (v & Hv & Hs).
    assert (Ev : v = repeat 1 (List.length zs)).
    { eapply repeat_one_Forall; eauto. intros n Hn. rewrite Forall_forall in Long. specialize (Long n Hn). destruct Sm as [F _].
      rewrite Forall_forall in F. specialize (F n Hn).
      apply (part3_self rnd L q n); [lia|unfold size; destruct (Z.ltb_spec 1 n); lia|].
      unfold word_pieces in F. destruct (Z.ltb_spec 1 n); [exact F|lia]. }
    subst v. assert (Es : s = mean (repeat 1 (List.length zs))) by congruence. rewrite Es.
    destruct zs as [|z zs0]; [congruence|]. cbn [List.length]. apply (mean_one _ Av). apply Sm. }
  assert (Rq : related zs q q).
  { destruct zs as [|n zs0] eqn:Ez; [congruence|]. exists n. split; [left; auto|]. inversion Long; subst.
    exists (firstn (Z.to_nat n) (padded q)).
    assert (G : has_gram n q (firstn (Z.to_nat n) (padded q))).
    { unfold has_gram. destruct (Z.ltb_spec 1 n); [|lia]. split.
      - exists [], (skipn (Z.to_nat n) (padded q)). symmetry. apply firstn_skipn.
      - unfold zlen in *. rewrite firstn_length, padded_length. lia. }
    auto. }
  split; [|split].
  - intros s d Hin. destruct (Ent q s d Hin) as (_ & _ & Hs & _). congruence.
  - intros Hk. destruct (Miss q Kq Rq) as [Hin|(Hk' & _)]; [|lia].
    apply in_map_iff in Hin. destruct Hin as ([[x s] d] & Ex & Hin). unfold word_of in Ex. cbn [fst] in Ex. subst x.
    destruct (Ent q s d Hin) as (_ & _ & Hs & _). exists d. congruence.
  - destruct out as [|[[x s] d] rest]; [congruence|]. exists x, d, rest. f_equal. f_equal. f_equal.
    destruct (Ent x s d (or_introl eq_refl)) as (Kx & _ & Hs & _). destruct (B x s (Small x Kx) Hs) as [_ B2].
    apply Qcle_antisym; [exact B2|]. destruct (Miss q Kq Rq) as [Hin|(_ & _ & Hm)].
    + apply in_map_iff in Hin. destruct Hin as ([[y t] d'] & Ey & Hin). unfold word_of in Ey. cbn [fst] in Ey. subst y.
      destruct (Ent q t d' Hin) as (_ & _ & Ht & _). assert (t = 1) by congruence. subst t. clear Ht.
      destruct Hin as [[= -> -> ->]|Hin]; [apply Qcle_refl|]. inversion Srt as [|a l S1' S2']; subst. rewrite Forall_forall in S2'.
      exact (S2' _ Hin).
    + apply (Hm 1 x s d S1). left. reflexivity.
Qed.

(** *** C64: adding words *)

Lemma as6_inj a b : as6 a = as6 b -> a = b.
Proof. destruct a, b. unfold as6. cbn. intros E. injection E. intros. subst. reflexivity. Qed.

Lemma history_snoc rnd casefold zs c calls st o v : history rnd casefold zs c calls st -> fair o ->
  history rnd casefold zs c (calls ++ [(o, v)]) (fst (v3_add_word rnd casefold o st v)).
Proof.
  intros [Hs Ho (st0 & E & ->)] Fo. split; auto.
  - apply Forall_app. auto.
  - exists st0. split; auto. unfold run3. rewrite fold_left_app. reflexivity.
Qed.

(** [add_word] returns exactly for a non-empty string whose folded form is
    not empty and has no markers; otherwise it raises and changes nothing.  A
    word that is already known changes nothing either. *)
Theorem v3_add_word_outcome : forall rnd casefold, lawful rnd -> (forall w, casefold (casefold w) = casefold w) ->
  forall zs c calls st, history rnd casefold zs c calls st -> forall o v, fair o ->
  let st' := fst (v3_add_word rnd casefold o st v) in let r := snd (v3_add_word rnd casefold o st v) in
  (r = Ok tt <-> exists u, enters (folded casefold c) v u) /\
  (forall e, r = Err e ->
     (e = TypeError /\ forall w, v <> PStr w) \/
     (exists w, v = PStr w /\ (e = ValueError /\ (w = [] \/ folded casefold c w = []) \/ e = AssertionError /\ ~ clean (folded casefold c w)))) /\
  (is_ok r = false -> st' = st) /\
  (forall u, enters (folded casefold c) v u -> known casefold c calls u -> st' = st).
Proof.
  intros rnd casefold L CI zs c calls st H o v Fo st' r.
  destruct (history_state rnd casefold L CI zs c calls st H) as (I & N & Fold & K).
  destruct (add_word_spec rnd casefold (rnd_0 rnd L) CI o (as6 st) v I Fo) as (_ & _ & _ & _ & W & Same & Okk).
  rewrite (add_as6 rnd casefold) in W, Same, Okk. cbn [fst snd] in W, Same, Okk. fold st' in W, Same. fold r in Okk.
  assert (Ff : forall w, fold_case casefold (as6 st) w = folded casefold c w) by (intros w; rewrite <- Fold; reflexivity).
  assert (Kc : forall u, In u (v_words st) -> clean u /\ u <> []).
  { intros u Hu. destruct (inv_words _ _ _ I) as [_ C]. rewrite Forall_forall in C. destruct (C u Hu) as (H1 & H2 & _). auto. }
  assert (Ent : is_ok r = true <-> exists u, enters (folded casefold c) v u).
  { rewrite Okk. split.
    - intros (w & -> & Hw & [Hin|[C1 C2]]); rewrite Ff in *.
      + destruct (Kc _ Hin). exists (folded casefold c w), w. auto.
      + exists (folded casefold c w), w. auto.
    - intros (u & w & -> & Hw & -> & Hu & Cu). exists w. rewrite Ff. auto. }
  assert (Add : forall u, enters (folded casefold c) v u -> In u (v_words st) -> st' = st).
  { intros u (w & -> & Hw & -> & Hu & Cu) Hin. apply as6_inj, Same. unfold added. rewrite Ff.
    destruct w; [congruence|]. destruct (folded casefold c _) eqn:Ef; [congruence|].
    cbn [as6 word_list]. destruct (in_dec _ _ _) as [|Nn]; [reflexivity|contradiction]. }
  split; [|split; [|split]].
  - rewrite <- Ent. destruct r as [[]|]; simpl; split; congruence.
  - intros e Er. pose proof Er as Er0. unfold r, v3_add_word in Er.
    destruct v as [w| | | |]; try (left; cbn [snd] in Er; injection Er as <-; split; [reflexivity|intros; discriminate]).
    right. exists w. split; auto. destruct (Z.eqb_spec (zlen w) 0) as [Z0|Z0].
    + cbn [snd] in Er. injection Er as <-. left. split; auto. left. destruct w; auto. unfold zlen in Z0. cbn [List.length] in Z0. lia.
    + cbv zeta in Er. rewrite Fold in Er. destruct (dmem _ _); [discriminate|].
      destruct (existsb _ _ || existsb _ _) eqn:Dq.
      * cbn [snd] in Er. injection Er as <-. right. split; auto. apply dirty_iff. exact Dq.
      * destruct (clean_dec (folded casefold c w)) as [Cw|Cw]; [|apply dirty_iff in Cw; congruence].
        destruct (folded casefold c w) as [|c0 u] eqn:Ef.
        -- left. cbn in Er. injection Er as <-. auto.
        -- exfalso. assert (X : is_ok r = true).
           { apply Ent. exists (c0 :: u), w. split; auto. split; [intros ->; apply Z0; reflexivity|]. split; auto. split; [discriminate|auto]. }
           rewrite Er0 in X. discriminate.
  - intros Hr. apply as6_inj, Same. unfold added. destruct v as [w| | | |]; try reflexivity. rewrite Ff.
    destruct w as [|c0 w]; [reflexivity|]. destruct (folded casefold c (c0 :: w)) as [|c1 u] eqn:Ef; [reflexivity|].
    destruct (in_dec _ _ _); [reflexivity|]. destruct (clean_dec _) as [Cu|]; [|reflexivity]. exfalso.
    assert (X : is_ok r = true); [|congruence]. apply Ent. exists (c1 :: u), (c0 :: w). split; auto. split; [discriminate|]. split; auto. split; [discriminate|auto].
  - intros u Hu Ku. apply (Add u Hu). apply K. exact Ku.
Qed.

(** The order in which the sizes are visited has no effect on any lookup. *)
Lemma matches3_cong rnd st st' q : v_n_list st = v_n_list st' -> (forall g, dgetl g (v_grams st) = dgetl g (v_grams st')) ->
  matches3 rnd st q = matches3 rnd st' q.
Proof.
  intros N G. unfold matches3. rewrite <- N. apply (foldM_ext_inv (fun _ => True)); auto.
  intros d [k n] _ _. destruct (query_locations3 rnd _) as [l|]; [|reflexivity]. cbn [bind].
  apply (foldM_ext_inv (fun _ => True)); auto. intros d1 [g x] _ _. rewrite <- G. apply (foldM_ext_inv (fun _ => True)); auto.
  intros d2 [i l1] _ _. unfold match_step3. rewrite N. reflexivity.
Qed.

Lemma run3_words rnd casefold : lawful rnd -> (forall w, casefold (casefold w) = casefold w) -> forall calls calls' st st',
  inv rnd casefold (as6 st) -> inv rnd casefold (as6 st') -> v_words st = v_words st' -> v_insensitive st = v_insensitive st' ->
  Forall (fun call => fair (fst call)) calls -> Forall (fun call => fair (fst call)) calls' -> map snd calls = map snd calls' ->
  v_words (run3 rnd casefold st calls) = v_words (run3 rnd casefold st' calls') /\
  v_insensitive (run3 rnd casefold st calls) = v_insensitive (run3 rnd casefold st' calls').
Proof.
  intros L CI. induction calls as [|[o v] calls IH]; intros [|[o' v'] calls'] st st' I I' W C F F' E; try discriminate; auto.
  inversion F; inversion F'; subst. cbn [map snd fst] in *. injection E as <- E. unfold run3. cbn [fold_left fst snd].
  destruct (add_word_spec rnd casefold (rnd_0 rnd L) CI o (as6 st) v I H1) as (J & _ & C1 & _ & W1 & _).
  destruct (add_word_spec rnd casefold (rnd_0 rnd L) CI o' (as6 st') v I' H5) as (J' & _ & C1' & _ & W1' & _).
  rewrite (add_as6 rnd casefold) in J, C1, W1, J', C1', W1'. cbn [fst as6 word_list case_insensitive] in C1, W1, C1', W1'.
  apply IH; auto.
  - rewrite W1, W1', W. f_equal. unfold added, fold_case. cbn [as6 word_list case_insensitive]. rewrite C, W. reflexivity.
  - congruence.
Qed.

Theorem v3_lookup_order_irrelevant : forall rnd casefold mean, lawful rnd -> (forall w, casefold (casefold w) = casefold w) ->
  forall zs c calls calls' st st', history rnd casefold zs c calls st -> history rnd casefold zs c calls' st' ->
  map snd calls = map snd calls' -> forall v top_k,
  lookup3 rnd casefold mean st v top_k = lookup3 rnd casefold mean st' v top_k.
Proof.
  intros rnd casefold mean L CI zs c calls calls' st st' H H' E v top_k.
  destruct (history_state rnd casefold L CI zs c calls st H) as (I & N & Fo & _).
  destruct (history_state rnd casefold L CI zs c calls' st' H') as (I' & N' & Fo' & _).
  destruct H as [[Hp Hd] Ho (st0 & E0 & Es)], H' as [_ Ho' (st0' & E0' & Es')].
  assert (st0' = st0) by congruence. subst st0'.
  assert (I0 : inv rnd casefold (as6 st0)).
  { assert (N0 : v_n_list st0 = zs).
    { unfold v3_init in E0. apply bind_ok in E0. destruct E0 as (nl & [= <-] & E0). destruct (as_int c); [|discriminate]. injection E0 as <-. reflexivity. }
    apply (init_as6 rnd casefold (NIter zs) c); rewrite ?N0; auto. }
  destruct (run3_words rnd casefold L CI calls calls' st0 st0 I0 I0 eq_refl eq_refl Ho Ho' E) as [W C].
  rewrite <- Es, <- Es' in W, C.
  assert (M : forall q, matches3 rnd st q = matches3 rnd st' q).
  { intros q. apply matches3_cong; [congruence|]. intros g. pose proof (inv_pos _ _ _ I g) as P. pose proof (inv_pos _ _ _ I' g) as P'.
    cbn [as6 ngram_positions n_list word_list] in P, P'. rewrite P, P', W, N, N'. reflexivity. }
  unfold lookup3, v_fold, lookup3_scores. rewrite C, W. destruct v as [w| | | |]; try reflexivity.
  destruct (zlen w =? 0)%Z; [reflexivity|]. cbv zeta. destruct (existsb _ _ || existsb _ _); [reflexivity|]. rewrite M.
  assert (Nm : forall q m, mapM (norm_scores3 rnd st q) m = mapM (norm_scores3 rnd st' q) m).
  { intros q m. apply mapM_ext_in. intros [i l] _. unfold norm_scores3. rewrite N, N'. reflexivity. }
  destruct (matches3 rnd st' _) as [m|]; [|reflexivity]. cbn [bind]. rewrite Nm. reflexivity.
Qed.

(** *** C65: the vocabulary property *)

Theorem v3_vocabulary_never_returns : forall limit st, v3_vocabulary limit st = Err RuntimeError.
Proof. induction limit as [|limit IH]; intros st; [reflexivity|]. cbn [v3_vocabulary]. rewrite IH. reflexivity. Qed.

(** *** Concrete word lists *)

Definition fresh3 (n : list Z) : wordlist3 :=
  {| v_n_list := n; v_words := []; v_indices := []; v_grams := []; v_insensitive := true |}.
Definition built3 (n : list Z) (words : list string) : wordlist3 :=
  run3 exact lower (fresh3 n) (map (fun s => (ord0, PStr (w_ s))) words).
Definition lookup3_ex (n : list Z) (words : list string) (q : string) (k : Z) : result (list (str * Qc * Qc)) :=
  lookup3 exact lower (mean1 exact) (built3 n words) (PStr (w_ q)) k.

Lemma built3_history n words : Forall (fun z => (0 < z)%Z) n -> NoDup n ->
  history exact lower n (PBool false) (map (fun s => (ord0, PStr (w_ s))) words) (built3 n words).
Proof.
  intros H1 H2. split; auto.
  - apply Forall_forall. intros call Hc. apply in_map_iff in Hc. destruct Hc as (s & <- & _). apply ord0_fair.
  - exists (fresh3 n). split; reflexivity.
Qed.

Definition lists3 (r : result (list (str * Qc * Qc))) (l : list (string * Qc * Qc)) : bool :=
  match r with
  | Ok r => (List.length r =? List.length l)%nat &&
      forallb (fun ab => (if list_eq_dec N.eq_dec (word_of (fst ab)) (w_ (fst (fst (snd ab)))) then true else false) &&
        qeqb (score_of (fst ab)) (snd (fst (snd ab))) && qeqb (snd (fst ab)) (snd (snd ab))) (combine r l)
  | Err _ => false
  end.

Example v3_lists : lists3 (lookup3_ex [2; 4]%Z ["banana"; "bandana"; "cat"] "Banana" 2)
  [("banana", 1, 1); ("bandana", qz 303 / qz 490, qz 83 / qz 105)] = true.
Proof. vm_compute. reflexivity. Qed.

Example v3_raises : lookup3_ex [2; 4]%Z ["banana"] "" 2 = Err ValueError /\ lookup3_ex [2; 4]%Z ["banana"] "zzz" 2 = Err IndexError /\
  lookup3_ex [2; 4]%Z ["banana"] "ba" 2 = Err ZeroDivisionError /\ lookup3_ex [2; 4]%Z ["banana"] "b" 2 = Err ZeroDivisionError /\
  is_ok (lookup3_ex [2; 5]%Z ["banana"] "b" 2) = true.
Proof. vm_compute. repeat split. Qed.

Example v3_added : v_words (built3 [2; 4]%Z ["Banana"; ""; "bandana"; "BANANA"]) = [w_ "banana"; w_ "bandana"].
Proof. vm_compute. reflexivity. Qed.

Example v3_add_raises :
  let r v := snd (v3_add_word exact lower ord0 (built3 [2; 4]%Z ["banana"]) v) in
  r (PInt 3) = Err TypeError /\ r (PStr []) = Err ValueError /\ r (PStr [98%N; 2%N]) = Err AssertionError /\ r (PStr (w_ "Banana")) = Ok tt /\
  r (PStr (w_ "cat")) = Ok tt.
Proof. vm_compute. repeat split. Qed.

Example v3_orders_differ : exists o1 o2, fair o1 /\ fair o2 /\
  let st o := run3 exact lower (fresh3 [2; 4]%Z) [(o, PStr (w_ "banana"))] in
  v_grams (st o1) <> v_grams (st o2) /\
  lookup3 exact lower (mean1 exact) (st o1) (PStr (w_ "bandana")) 2 = lookup3 exact lower (mean1 exact) (st o2) (PStr (w_ "bandana")) 2.
Proof.
  assert (F2 : fair {| o_int := @rev Z; o_str := @rev str |}) by (split; intros; apply Permutation_sym, Permutation_rev).
  exists ord0, {| o_int := @rev Z; o_str := @rev str |}. split; [apply ord0_fair|]. split; [exact F2|]. split.
  - vm_compute. discriminate.
  - apply (v3_lookup_order_irrelevant exact lower (mean1 exact) lawful_exact lower_idem [2; 4]%Z (PBool false)
      [(ord0, PStr (w_ "banana"))] [({| o_int := @rev Z; o_str := @rev str |}, PStr (w_ "banana"))]); [| |reflexivity].
    + apply (built3_history [2; 4]%Z ["banana"]); [repeat constructor|repeat constructor; simpl; intuition discriminate].
    + split; [split; [repeat constructor|repeat constructor; simpl; intuition discriminate]|repeat constructor; apply F2|].
      exists (fresh3 [2; 4]%Z). split; reflexivity.
Qed.

(** A query that is in the list need not come first, *)
Theorem v3_exact_match_first_refuted : exists words q out,
  In q words /\ lookup3_ex [2]%Z words q 1 = Ok out /\ ~ In (w_ q) (map word_of out).
Proof.
  exists ["axxa"; "a"], "a". eexists. split; [right; left; reflexivity|]. split; [vm_compute; reflexivity|].
  vm_compute. intros [C|[]]. discriminate.
Qed.

(** and with size 1 it does not even score 1. *)
Theorem v3_exact_match_size_one_refuted : exists q out s d,
  lookup3_ex [1]%Z [q] q 1 = Ok out /\ In (w_ q, s, d) out /\ s < 1.
Proof. exists "ab". do 3 eexists. split; [vm_compute; reflexivity|]. split; [left; reflexivity|]. vm_compute. reflexivity. Qed.

Example v3_scores_case : lists3 (lookup3_ex [2; 4]%Z ["axxa"; "banana"; "bananas"] "banana" 0)
  [("banana", 1, 1); ("bananas", qz 947 / qz 1225, qz 163 / qz 210); ("axxa", qz 1 / qz 14, qz 1 / qz 6)] = true.
Proof. vm_compute. reflexivity. Qed.

Print Assumptions v3_lookup_lists.
Print Assumptions v3_lookup_raises.
Print Assumptions v3_scores.
Print Assumptions v3_add_word_outcome.
Print Assumptions v3_lookup_order_irrelevant.
Print Assumptions v3_vocabulary_never_returns.
Print Assumptions v3_exact_match_first_refuted.
Print Assumptions v3_exact_match_size_one_refuted.
