(** Theorems about the word lists of nmd/nmd_index.py in IEEE doubles with
    gradual underflow: property C111. *)
From Coq Require Import ZArith NArith QArith Qcanon List Bool Permutation Lia String.
From Verif Require Import Num Py ListAux PyDict Float64 EmdSpec EmdModel EmdProofs EmdFloatProofs NmdSpec NmdModel NmdProofs NmdFloatProofs
  Accuracy LookupFloat IndexSpec IndexModel IndexProofs IndexLoops IndexLookupProofs IndexResult IndexTop IndexFacts Ex Props_Nmd Props_Index.
From Verif Require Import Ieee NmdIeee IndexIeee Props_Ieee Props_Accuracy.
Import ListNotations.
Open Scope string_scope.
Open Scope list_scope.
Open Scope Qc_scope.

(** Words have at most [2^30] characters. *)
Definition short_words (st : wordlist) : Prop := forall w, In w (vocabulary st) -> (zlen w <= 2 ^ 30)%Z.
(** Sizes are at most [2^51], and there are at most [2^20]. *)
Definition few_sizes (st : wordlist) : Prop := (forall n, In n (n_list st) -> (n <= 2 ^ 51)%Z) /\ (zlen (n_list st) <= 2 ^ 20)%Z.
(** The query too has at most [2^30] characters, after case folding. *)
Definition short_query (casefold : str -> str) (st : wordlist) (word : pyval) : Prop :=
  match word with PStr w => (zlen (if case_insensitive st then casefold w else w) <= 2 ^ 30)%Z | _ => True end.

Lemma short_words_brief st : short_words st <-> brief st.
Proof. unfold short_words, brief. rewrite Forall_forall. split; intros H w Hw; apply H, vocabulary_in, Hw. Qed.

(** Adding words to a fresh list leaves the same list. *)
Theorem build_ieee : forall rnd casefold, double_rounding rnd -> (forall w, casefold (casefold w) = casefold w) ->
  forall n c fn st0 calls, wl_init n c fn = Ok st0 -> Forall (fun c => fair (fst c)) calls ->
  short_words (run rnd casefold st0 calls) ->
  run rnd casefold st0 calls = run rnd64 casefold st0 calls.
Proof.
  intros rnd casefold D CI n c fn st0 calls E F H. destruct (init_inv rnd casefold n c fn st0 E) as (I & _ & _).
  apply run_double; auto. apply short_words_brief; auto.
Qed.
Print Assumptions build_ieee.

Theorem reachable_ieee : forall rnd casefold, double_rounding rnd -> (forall w, casefold (casefold w) = casefold w) ->
  forall st, reachable rnd casefold st -> short_words st -> reachable rnd64 casefold st.
Proof. intros rnd casefold D CI st Re H. apply (reachable_double rnd D casefold CI); auto. apply short_words_brief; auto. Qed.
Print Assumptions reachable_ieee.

(** Every lookup gives the same words, in the same order, with the same scores,
    or raises the same exception. *)
Theorem lookup_ieee : forall rnd casefold, double_rounding rnd -> (forall w, casefold (casefold w) = casefold w) ->
  forall st o word top_k normalize, reachable rnd casefold st -> fair o ->
  short_words st -> few_sizes st -> short_query casefold st word ->
  lookup rnd casefold (mean1 rnd) o st word top_k normalize = lookup rnd64 casefold (mean1 rnd64) o st word top_k normalize /\
  forall invert, lookup_v5 rnd casefold (mean1 rnd) o st word top_k normalize invert =
                 lookup_v5 rnd64 casefold (mean1 rnd64) o st word top_k normalize invert.
Proof.
  intros rnd casefold D CI st o word top_k nz Re F SW [SN SL] SQ.
  pose proof (reachable_ieee rnd casefold D CI st Re SW) as Re'.
  pose proof (reachable_inv rnd casefold st (double_0 rnd D) CI Re) as I'.
  pose proof (reachable_inv rnd64 casefold st (rnd_0 _ rnd64_lawful) CI Re') as I.
  unfold lookup, lookup_v5.
  destruct (lookup_checks casefold st word top_k) as [[q k]|] eqn:E; [|split; reflexivity]. cbn [bind].
  assert (Hq : (zlen q <= 2 ^ 30)%Z).
  { unfold lookup_checks in E. destruct word as [w| | | |]; try discriminate. cbn in SQ. destruct (zlen w =? 0)%Z; [discriminate|].
    destruct (as_int top_k); [|discriminate]. destruct (_ <=? 0)%Z; [discriminate|]. cbv zeta in E. destruct (_ || _); [discriminate|].
    assert (fold_case casefold st w = q) by congruence. subst q. exact SQ. }
  assert (B : lengths st q).
  { split; auto. split; [apply short_words_brief; auto|]. split; auto. apply Forall_forall. exact SN. }
  destruct (similarity_double rnd D casefold st I I' q B o nz k F) as [ES FS]. rewrite ES.
  destruct (lookup_similarity rnd64 (mean1 rnd64) o st q k nz) as [sims|] eqn:Es; [|split; reflexivity]. cbn [bind].
  specialize (FS sims eq_refl). split.
  - rewrite (mapM_ext_in _ (fun e => other <- py_get (word_list st) (Z.of_nat (fst e)) ;;
         s <- ngram_movers_distance rnd64 (PStr q) (PStr other) (PInt 2) true nz ;; Ok (fst e, (snd e, s)))); [reflexivity|].
    intros e He. destruct (py_get (word_list st) (Z.of_nat (fst e))) as [other|] eqn:Eo; [|reflexivity]. cbn [bind].
    apply py_get_member in Eo. rewrite (nmd_ieee rnd D); [reflexivity| | |].
    + cbn. lia.
    + cbn. assert (zlen other <= 2 ^ 30)%Z by (apply SW, vocabulary_in; auto). lia.
    + cbn. lia.
  - intros invert.
    rewrite (mapM_ext_in _ (fun e => other <- py_get (word_list st) (Z.of_nat (fst e)) ;;
       Ok (other, if invert then snd e else rnd64 ((if nz then 1 else 0) - snd e)))); [reflexivity|].
    intros e He. destruct (py_get (word_list st) (Z.of_nat (fst e))) as [other|] eqn:Eo; [|reflexivity]. cbn [bind]. do 2 f_equal. destruct invert; [reflexivity|].
    assert (Fe : fit 315 (List.length (n_list st) * M2) (snd e)).
    { rewrite Forall_forall in FS. apply FS. unfold most_common in He. apply In_firstn' in He.
      eapply Permutation_in; [apply isort_perm|exact He]. }
    apply (fit_same rnd D 315 (1 + List.length (n_list st) * M2)); [lia| |].
    + unfold small, zlen in *. rewrite Nat2Z.inj_add, Nat2Z.inj_mul, M2_z. nia.
    + apply fit_sub; auto. destruct nz; [change 1 with (qz 1); apply fit_qz; lia|apply fit_0; lia].
Qed.
Print Assumptions lookup_ieee.

(** The similarity of two words too (the mean over the sizes, in terms of which
    the results of [lookup] are described). *)
Theorem similarity_ieee : forall rnd casefold, double_rounding rnd -> (forall w, casefold (casefold w) = casefold w) ->
  forall st q w normalize, reachable rnd casefold st -> short_words st -> few_sizes st -> clean q -> (zlen q <= 2 ^ 30)%Z -> In w (vocabulary st) ->
  similarity rnd (mean1 rnd) (n_list st) q w normalize = similarity rnd64 (mean1 rnd64) (n_list st) q w normalize.
Proof.
  intros rnd casefold D CI st q w nz Re SW [SN SL] Cq Lq Hw.
  pose proof (reachable_ieee rnd casefold D CI st Re SW) as Re'.
  apply (score_double rnd D casefold st); auto.
  - apply reachable_inv; auto.
  - apply reachable_inv; auto. apply (double_0 rnd D).
  - split; auto. split; [apply short_words_brief; auto|]. split; auto. apply Forall_forall. exact SN.
  - apply vocabulary_in; auto.
Qed.
Print Assumptions similarity_ieee.

(** So what was shown about [lookup] for an unbounded exponent holds for
    doubles: *)

(** a word of the list comes first when looked up, with score 1, and everything
    else scores less; *)
Theorem lookup_self_first_ieee : forall rnd casefold, double_rounding rnd -> (forall w, casefold (casefold w) = casefold w) ->
  forall st o word top_k q k R, reachable rnd casefold st -> fair o -> asks casefold st word top_k q k ->
  In q (vocabulary st) -> proper (n_list st) q -> Props_Accuracy.moderate (2 ^ 15) 4092 st q ->
  (filter_n st = 0 \/ 1 <= filter_n st <= zlen q + 2)%Z ->
  lookup rnd casefold (mean1 rnd) o st word top_k true = Ok R ->
  exists rest, R = (q, (1, 1)) :: rest /\ forall w s t, In (w, (s, t)) rest -> w <> q /\ s < 1.
Proof.
  intros rnd casefold D CI st o word top_k q k R Re F A Hq Pr Mo Fi H. destruct Mo as (M1 & M2' & M3).
  assert (SW : short_words st) by (intros w Hw; specialize (M3 w Hw); unfold zlen in *; lia).
  assert (SN : few_sizes st).
  { split; [|lia]. intros n Hn. destruct Pr as [_ Pr]. rewrite Forall_forall in Pr. specialize (Pr n Hn). specialize (M3 q Hq). unfold zlen in *. lia. }
  assert (SQ : short_query casefold st word).
  { assert (X : (zlen q <= 2 ^ 30)%Z) by (specialize (M3 q Hq); unfold zlen in *; lia). destruct A as (w & -> & _ & Eq & _). rewrite Eq in X. exact X. }
  destruct (lookup_ieee rnd casefold D CI st o word top_k true Re F SW SN SQ) as [E _]. rewrite E in H.
  eapply (lookup_self_first_binary64 casefold CI st o word top_k q k R); eauto.
  - eapply reachable_ieee; eauto.
  - split; [|split]; auto.
Qed.
Print Assumptions lookup_self_first_ieee.

(** pruning loses nothing; *)
Theorem lookup_lossless_ieee : forall rnd casefold, double_rounding rnd -> (forall w, casefold (casefold w) = casefold w) ->
  forall st o word top_k q k R, reachable rnd casefold st -> fair o -> asks casefold st word top_k q k -> few_sizes st ->
  (zlen q <= 65532)%Z -> Props_Accuracy.moderate (2 ^ 20) 65532 st q ->
  lookup rnd casefold (mean1 rnd) o st word top_k true = Ok R ->
  (forall w x, In w (vocabulary st) -> candidate (n_list st) (filter_n st) q w -> ~ In w (map fst R) ->
     similarity rnd (mean1 rnd) (n_list st) q w true = Ok x -> forall u s t, In (u, (s, t)) R -> x <= s) /\
  (exists C, NoDup C /\ (forall w, In w C <-> In w (vocabulary st) /\ candidate (n_list st) (filter_n st) q w) /\
     List.length R = Nat.min (Z.to_nat k) (List.length C)).
Proof.
  intros rnd casefold D CI st o word top_k q k R Re F A SN Lq Mo H. pose proof Mo as (M1 & M2' & M3).
  assert (SW : short_words st) by (intros w Hw; specialize (M3 w Hw); unfold zlen in *; lia).
  assert (SQ : short_query casefold st word).
  { assert (X : (zlen q <= 2 ^ 30)%Z) by lia. destruct A as (w & -> & _ & Eq & _). rewrite Eq in X. exact X. }
  destruct (lookup_ieee rnd casefold D CI st o word top_k true Re F SW SN SQ) as [E _]. rewrite E in H.
  destruct (asks_clean _ _ _ _ _ _ A) as [Cq _].
  destruct (lookup_lossless_binary64 casefold CI st o word top_k q k R) as [X1 X2]; eauto; [eapply reachable_ieee; eauto|].
  split; auto. intros w x Hw Hc Nw E'. apply (X1 w x Hw Hc Nw).
  rewrite <- (similarity_ieee rnd casefold D CI); auto. lia.
Qed.
Print Assumptions lookup_lossless_ieee.

(** and every normalized score lies between 0 and 1. *)
Theorem lookup_range_ieee : forall rnd casefold, double_rounding rnd -> (forall w, casefold (casefold w) = casefold w) ->
  forall st o word top_k q k R, reachable rnd casefold st -> fair o -> asks casefold st word top_k q k ->
  short_words st -> few_sizes st -> short_query casefold st word ->
  lookup rnd casefold (mean1 rnd) o st word top_k true = Ok R ->
  (Z.of_nat (List.length R) <= k)%Z /\ NoDup (map fst R) /\
  forall w s t, In (w, (s, t)) R -> In w (vocabulary st) /\ 0 <= s /\ s <= 1 /\ 0 <= t /\ t <= 1.
Proof.
  intros rnd casefold D CI st o word top_k q k R Re F A SW SN SQ H.
  destruct (lookup_ieee rnd casefold D CI st o word top_k true Re F SW SN SQ) as [E _]. rewrite E in H.
  pose proof (reachable_ieee rnd casefold D CI st Re SW) as Re'.
  assert (Lq : (zlen q <= 2 ^ 30)%Z) by (destruct A as (w & -> & _ & -> & _); exact SQ).
  destruct (lookup_result_shape rnd64 casefold (mean1 rnd64) rnd64_lawful CI st o word top_k true q k R Re' F A H) as (L1 & L2 & L3 & _).
  split; auto. split; auto. intros w s t Hw. split; [apply L3; apply (in_map fst) in Hw; exact Hw|].
  eapply (lookup_normalized_range rnd64 casefold (mean1 rnd64) rnd64_lawful (mean1_averaging _ rnd64_lawful) CI st o word top_k q k R); eauto.
  - right. intros u Hu. specialize (SW u Hu). lia.
  - destruct SN as [_ SN]. unfold small, zlen in *. lia.
Qed.
Print Assumptions lookup_range_ieee.

(** *** A concrete list in doubles with gradual underflow *)
Definition built_ieee (n : list Z) (fn : Z) (words : list string) : wordlist :=
  run ieee64 lower (fresh n fn) (map (fun s => (ord0, PStr (w_ s))) words).
Lemma built_ieee_reachable n fn words st0 : wl_init (NIter n) (PBool false) fn = Ok st0 -> reachable ieee64 lower (built_ieee n fn words).
Proof.
  intros E. unfold built_ieee. apply run_reachable.
  - unfold fresh. rewrite E. econstructor; eauto.
  - apply Forall_forall. intros c Hc. apply in_map_iff in Hc. destruct Hc as (s & <- & _). apply ord0_fair.
Qed.

Example ex_lookup_ieee : let st := built_ieee [2%Z; 3%Z] 2 ["bandana"; "banana"; "cabana"] in
  double_rounding ieee64 /\ reachable ieee64 lower st /\ short_words st /\ few_sizes st /\ short_query lower st (PStr (w_ "Banana")) /\
  asks lower st (PStr (w_ "Banana")) (PInt 2) (w_ "banana") 2 /\ proper (n_list st) (w_ "banana") /\
  Props_Accuracy.moderate (2 ^ 15) 4092 st (w_ "banana") /\
  match lookup ieee64 lower (mean1 ieee64) ord0 st (PStr (w_ "Banana")) (PInt 2) true with
  | Ok [(w1, (s1, t1)); (w2, (s2, t2))] => w1 = w_ "banana" /\ w2 = w_ "bandana" /\ qeqb s1 1 && qeqb t1 1 && qltb s2 1 && qltb (f 6 10) s2 = true
  | _ => False
  end.
Proof.
  cbv zeta. split; [intros q _; reflexivity|]. split; [eapply built_ieee_reachable; vm_compute; reflexivity|].
  split; [|split; [|split; [|split; [|split; [|split]]]]].
  - intros w Hw. vm_compute in Hw. repeat (destruct Hw as [<-|Hw]; [vm_compute; discriminate|]). destruct Hw.
  - split; [|vm_compute; discriminate]. intros n Hn. vm_compute in Hn. destruct Hn as [<-|[<-|[]]]; lia.
  - vm_compute. discriminate.
  - exists (w_ "Banana"). split; auto. split; [discriminate|]. split; [vm_compute; reflexivity|]. split; [solve_clean|]. split; [reflexivity|lia].
  - split; [discriminate|]. vm_compute. repeat constructor; discriminate.
  - split; [|split].
    + intros n Hn. vm_compute in Hn. destruct Hn as [<-|[<-|[]]]; lia.
    + vm_compute. discriminate.
    + intros w Hw. vm_compute in Hw. repeat (destruct Hw as [<-|Hw]; [vm_compute; discriminate|]). destruct Hw.
  - vm_compute. split; [reflexivity|]. split; reflexivity.
Qed.
