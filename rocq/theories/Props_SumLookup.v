(** Word lists under Python 3.12 and later, for any number of n-gram sizes:
    property C118.  Each theorem is followed by a concrete case. *)
From Coq Require Import ZArith NArith QArith Qcanon List Bool Permutation Lia String Sorted.
From Verif Require Import Num Py ListAux PyDict Float64 EmdSpec EmdModel EmdProofs EmdFloatProofs NmdSpec NmdModel NmdProofs NmdFloatProofs Accuracy NmdAccuracy LookupFloat SelfFloat.
From Verif Require Import IndexSpec IndexModel IndexProofs IndexLoops IndexLookupProofs IndexResult IndexTop IndexScore IndexFacts Ex Props_Nmd Props_Index.
From Verif Require Import Ieee NmdIeee IndexIeee Props_Ieee Props_IndexIeee SumExact SumModel SumLookup SumAccuracy SumMean Props_Sum Props_Accuracy.
Import ListNotations.
Open Scope string_scope.
Open Scope list_scope.
Open Scope Qc_scope.

(** At most [2^20] sizes.  With normalized scores all sizes are at least 2 and
    query and word have at most 65532 characters together; without, they have
    less than [2^27]. *)
Definition ample (normalize : bool) (st : wordlist) (q : str) : Prop :=
  if normalize then moderate (2 ^ 20)%Z 65532%Z st q
  else (zlen (n_list st) <= 2 ^ 20)%Z /\ forall w, In w (vocabulary st) -> (zlen q + zlen w + 4 <= 2 ^ 27)%Z.

Lemma ample_keeps : forall casefold, (forall w, casefold (casefold w) = casefold w) -> forall st q nz, reachable rnd64 casefold st -> clean q -> ample nz st q ->
  keeps rnd64 (mean_new rnd64) st q nz /\ separated rnd64 (mean_new rnd64) st q nz.
Proof.
  intros casefold CI st q nz Re Cq A. pose proof (reachable_inv rnd64 casefold st (rnd_0 rnd64 rnd64_lawful) CI Re) as I. destruct nz.
  - apply (keeps_new casefold st I q Cq); auto. apply A.
  - destruct A as [A1 A2]. eapply keeps_new_plain; eauto.
Qed.

(** ** The pruning loses nothing *)
Theorem lookup_lossless_sum : forall casefold, (forall w, casefold (casefold w) = casefold w) ->
  forall st o word top_k normalize q k R, reachable rnd64 casefold st -> fair o -> asks casefold st word top_k q k ->
  ample normalize st q ->
  lookup rnd64 casefold (mean_new rnd64) o st word top_k normalize = Ok R ->
  (* a candidate left out scores no more than any word returned *)
  (forall w x, In w (vocabulary st) -> candidate (n_list st) (filter_n st) q w -> ~ In w (map fst R) ->
     similarity rnd64 (mean_new rnd64) (n_list st) q w normalize = Ok x -> forall u s t, In (u, (s, t)) R -> x <= s) /\
  (* fewer than [top_k] words are returned only if there are fewer candidates *)
  (exists C, NoDup C /\ (forall w, In w C <-> In w (vocabulary st) /\ candidate (n_list st) (filter_n st) q w) /\
     List.length R = Nat.min (Z.to_nat k) (List.length C)).
Proof.
  intros casefold CI st o word top_k nz q k R Re F A Am H.
  destruct (ample_keeps casefold CI st q nz Re (proj1 (asks_clean _ _ _ _ _ _ A)) Am) as [M T]. eapply lossless_from; eauto.
Qed.
Print Assumptions lookup_lossless_sum.

Theorem lookup_all_candidates_sum : forall casefold, (forall w, casefold (casefold w) = casefold w) ->
  forall st o word top_k normalize q k R, reachable rnd64 casefold st -> fair o -> asks casefold st word top_k q k ->
  ample normalize st q -> (Z.of_nat (List.length (vocabulary st)) <= k)%Z ->
  lookup rnd64 casefold (mean_new rnd64) o st word top_k normalize = Ok R ->
  forall w, In w (map fst R) <-> In w (vocabulary st) /\ candidate (n_list st) (filter_n st) q w.
Proof.
  intros casefold CI st o word top_k nz q k R Re F A Am Hk H.
  destruct (ample_keeps casefold CI st q nz Re (proj1 (asks_clean _ _ _ _ _ _ A)) Am) as [M T]. eapply all_candidates_from; eauto.
Qed.
Print Assumptions lookup_all_candidates_sum.

Theorem lookup_v5_lossless_sum : forall casefold, (forall w, casefold (casefold w) = casefold w) ->
  forall st o word top_k normalize invert q k R, reachable rnd64 casefold st -> fair o -> asks casefold st word top_k q k ->
  ample normalize st q ->
  lookup_v5 rnd64 casefold (mean_new rnd64) o st word top_k normalize invert = Ok R ->
  exists B, incl B (map fst R) /\ NoDup B /\
    (exists C, NoDup C /\ (forall w, In w C <-> In w (vocabulary st) /\ candidate (n_list st) (filter_n st) q w) /\
       List.length B = Nat.min (Z.to_nat k) (List.length C)) /\
    forall b w s x, In b B -> In w (vocabulary st) -> candidate (n_list st) (filter_n st) q w -> ~ In w B ->
      similarity rnd64 (mean_new rnd64) (n_list st) q b normalize = Ok s -> similarity rnd64 (mean_new rnd64) (n_list st) q w normalize = Ok x -> x <= s.
Proof.
  intros casefold CI st o word top_k nz iv q k R Re F A Am H.
  destruct (ample_keeps casefold CI st q nz Re (proj1 (asks_clean _ _ _ _ _ _ A)) Am) as [M T]. eapply v5_lossless_from; eauto.
Qed.
Print Assumptions lookup_v5_lossless_sum.

(** Three sizes: the two best of each kind, and all candidates. *)
Example ex_lossless_sum : let st := built64 [2; 3; 4]%Z 2 ["abcd"; "bcda"; "abxx"; "zzab"; "q"] in
  reachable rnd64 lower st /\ ample true st (w_ "abc") /\ ample false st (w_ "abc") /\ zlen (n_list st) = 3%Z /\
  match lookup rnd64 lower (mean_new rnd64) ord0 st (PStr (w_ "abc")) (PInt 2) true with Ok R => map fst R = [w_ "abcd"; w_ "abxx"] | _ => False end /\
  match lookup rnd64 lower (mean_new rnd64) ord0 st (PStr (w_ "abc")) (PInt 2) false with Ok R => map fst R = [w_ "abcd"; w_ "abxx"] | _ => False end /\
  match lookup rnd64 lower (mean_new rnd64) ord0 st (PStr (w_ "abc")) (PInt 9) true with
  | Ok R => map fst R = [w_ "abcd"; w_ "abxx"; w_ "zzab"; w_ "bcda"] | _ => False end.
Proof.
  cbv zeta. split; [eapply built64_reachable; vm_compute; reflexivity|].
  assert (V : forall w, In w (vocabulary (built64 [2; 3; 4]%Z 2 ["abcd"; "bcda"; "abxx"; "zzab"; "q"])) -> (zlen w <= 4)%Z).
  { intros w Hw. vm_compute in Hw. repeat (destruct Hw as [<-|Hw]; [vm_compute; discriminate|]). destruct Hw. }
  assert (Q : zlen (w_ "abc") = 3%Z) by reflexivity. split; [|split; [|split; [reflexivity|split; [|split]; vm_compute; reflexivity]]].
  - split; [|split].
    + intros n Hn. vm_compute in Hn. destruct Hn as [<-|[<-|[<-|[]]]]; lia.
    + vm_compute. discriminate.
    + intros w Hw. specialize (V w Hw). lia.
  - split; [vm_compute; discriminate|]. intros w Hw. specialize (V w Hw). lia.
Qed.

(** ** A word of the list finds itself, alone with score 1 *)
Theorem lookup_self_unique_best_sum : forall casefold, (forall w, casefold (casefold w) = casefold w) ->
  forall st q, reachable rnd64 casefold st -> In q (vocabulary st) -> proper (n_list st) q -> moderate (2 ^ 15)%Z 4092%Z st q ->
  similarity rnd64 (mean_new rnd64) (n_list st) q q true = Ok 1 /\
  forall w x, In w (vocabulary st) -> w <> q -> similarity rnd64 (mean_new rnd64) (n_list st) q w true = Ok x -> x < 1.
Proof.
  intros casefold CI st q Re Hq Pr (_ & Lm & Lw).
  pose proof (reachable_inv rnd64 casefold st (rnd_0 rnd64 rnd64_lawful) CI Re) as I.
  destruct (moderate_size 4096) as [W WZ]; [lia|]. eapply (self_unique64 casefold st I q Hq Pr Lm Lw W WZ).
  - destruct Pr as [N0 _]. apply mean_new_ones; [destruct (n_list st); [congruence|cbn [List.length]; lia]|unfold zlen in Lm; lia].
  - intros w v Hw Hv. pose proof (mapM_inv _ _ _ Hv) as B. cbn beta in B. apply mean_new_near.
    + eapply (scores_few st q); [lia|exact Hv].
    + eapply Forall2_right; [|exact B]. intros n y Hn Hy. apply (score1_nonneg rnd64 rnd64_lawful true q n w y); auto; [eapply NL_pos; eauto|].
      apply lawful_faithful; [apply rnd64_lawful|]. rewrite vocabulary_in in Hw. pose proof (weights_self casefold st I q Lw W WZ n w Hn Hw). unfold small in *. lia.
    + intros ->. destruct Pr as [N0 _]. inversion B as [E|]. symmetry in E. contradiction.
Qed.
Print Assumptions lookup_self_unique_best_sum.

Theorem lookup_self_first_sum : forall casefold, (forall w, casefold (casefold w) = casefold w) ->
  forall st o word top_k q k R, reachable rnd64 casefold st -> fair o -> asks casefold st word top_k q k ->
  In q (vocabulary st) -> proper (n_list st) q -> moderate (2 ^ 15)%Z 4092%Z st q ->
  (filter_n st = 0 \/ 1 <= filter_n st <= zlen q + 2)%Z ->
  lookup rnd64 casefold (mean_new rnd64) o st word top_k true = Ok R ->
  exists rest, R = (q, (1, 1)) :: rest /\ forall w s t, In (w, (s, t)) rest -> w <> q /\ s < 1.
Proof.
  intros casefold CI st o word top_k q k R Re F A Hq Pr Mo Fi H.
  destruct (lookup_self_unique_best_sum casefold CI st q Re Hq Pr Mo) as [S1 S2].
  assert (Mo' : ample true st q).
  { destruct Mo as (M1 & M2 & M3). split; auto. split; [lia|]. intros w Hw. specialize (M3 w Hw). lia. }
  destruct (ample_keeps casefold CI st q true Re (proj1 (asks_clean _ _ _ _ _ _ A)) Mo') as [M T]. eapply self_first_from; eauto.
Qed.
Print Assumptions lookup_self_first_sum.

Example ex_self_first_sum : let st := built64 [2; 3; 4]%Z 2 ["bandana"; "banana"; "cabana"] in
  reachable rnd64 lower st /\ moderate (2 ^ 15)%Z 4092%Z st (w_ "banana") /\ proper (n_list st) (w_ "banana") /\ In (w_ "banana") (vocabulary st) /\
  lists (lookup rnd64 lower (mean_new rnd64) ord0 st (PStr (w_ "banana")) (PInt 1) true) [("banana"%string, (1, 1))] = true.
Proof.
  cbv zeta. split; [eapply built64_reachable; vm_compute; reflexivity|]. split; [|split; [|split]].
  - split; [|split].
    + intros n Hn. vm_compute in Hn. destruct Hn as [<-|[<-|[<-|[]]]]; lia.
    + vm_compute. discriminate.
    + intros w Hw. vm_compute in Hw. repeat (destruct Hw as [<-|Hw]; [vm_compute; discriminate|]). destruct Hw.
  - split; [vm_compute; discriminate|]. vm_compute. repeat constructor; discriminate.
  - vm_compute. auto.
  - vm_compute. reflexivity.
Qed.

(** ** Scores are between 0 and 1 *)
Theorem lookup_range_sum : forall casefold, (forall w, casefold (casefold w) = casefold w) ->
  forall st o word top_k q k R, reachable rnd64 casefold st -> fair o -> asks casefold st word top_k q k ->
  (forall w, In w (vocabulary st) -> (zlen q + zlen w + 4 <= 2 ^ 53)%Z) -> (zlen (n_list st) <= 2 ^ 20)%Z ->
  lookup rnd64 casefold (mean_new rnd64) o st word top_k true = Ok R ->
  forall w s t, In (w, (s, t)) R -> 0 <= s /\ s <= 1 /\ 0 <= t /\ t <= 1.
Proof.
  intros casefold CI st o word top_k q k R Re F A D Nf H w s t Hw. pose proof rnd64_lawful as L.
  pose proof (reachable_inv rnd64 casefold st (rnd_0 rnd64 L) CI Re) as I. destruct (asks_clean _ _ _ _ _ _ A) as [Cq _].
  destruct (lookup_scores rnd64 casefold (mean_new rnd64) L CI st o word top_k true q k R Re F A H w s t Hw) as (E1 & E2 & E3 & E4).
  assert (Hw' := E3). rewrite vocabulary_in in Hw'. assert (Cw : clean w) by (eapply words_clean; eauto).
  assert (Fu : forall n, (0 < n)%Z -> faithful_upto rnd64 (weight q n w)).
  { intros n Hn. apply lawful_faithful; auto. unfold small. etransitivity; [apply weight_le; auto|]. apply D; auto. }
  unfold similarity in E1. rewrite (mapM_ext_in _ (fun n => score1 rnd64 true q n w)) in E1 by (intros; eapply pair_score1; eauto).
  apply bind_ok in E1. destruct E1 as (v & Hv & E). assert (s = mean_new rnd64 v) as -> by congruence.
  pose proof (mapM_inv _ _ _ Hv) as B. cbn beta in B.
  assert (U : Forall (fun y => 0 <= y /\ y <= 1) v).
  { eapply Forall2_right; [|exact B]. intros n y Hn Hy. apply (score1_unit rnd64 L q n w y); auto; [eapply NL_pos; eauto|]. apply Fu. eapply NL_pos; eauto. }
  assert (Nv : v <> []).
  { intros ->. destruct E4 as [(n & Hn & _) _]. apply mapM_len in Hv. destruct (n_list st); [destruct Hn|discriminate]. }
  assert (Fw : few v) by (eapply (scores_few st q); eauto).
  split; [|split].
  - apply mean_new_nonneg; auto. eapply Forall_impl; [|exact U]. cbv beta. tauto.
  - apply mean_new_unit; auto.
  - rewrite <- score1_nmd in E2 by (auto; lia). apply (score1_unit rnd64 L q 2 w t); auto; [lia|]. apply Fu. lia.
Qed.
Print Assumptions lookup_range_sum.

Example ex_range_sum : let st := built64 [2; 3; 4]%Z 0 ["bandana"; "banana"; "cabana"] in
  match lookup rnd64 lower (mean_new rnd64) ord0 st (PStr (w_ "bananas")) (PInt 3) true with
  | Ok R => List.length R = 3%nat /\ forallb (fun e => qltb 0 (fst (snd e)) && qltb (fst (snd e)) 1) R = true | _ => False end.
Proof. vm_compute. split; reflexivity. Qed.

(** ** With gradual underflow *)
Theorem lookup_sum_ieee : forall rnd casefold, double_rounding rnd -> (forall w, casefold (casefold w) = casefold w) ->
  forall st o word top_k normalize, reachable rnd casefold st -> fair o -> (zlen (n_list st) <= 2 ^ 9)%Z ->
  short_words st -> few_sizes st -> short_query casefold st word -> reachable rnd64 casefold st /\
  lookup rnd casefold (mean_new rnd) o st word top_k normalize = lookup rnd64 casefold (mean_new rnd64) o st word top_k normalize /\
  forall invert, lookup_v5 rnd casefold (mean_new rnd) o st word top_k normalize invert =
                 lookup_v5 rnd64 casefold (mean_new rnd64) o st word top_k normalize invert.
Proof.
  intros rnd casefold D CI st o word top_k nz Re F N9 SW SN SQ.
  pose proof (reachable_ieee rnd casefold D CI st Re SW) as Re'.
  pose proof (reachable_inv rnd casefold st (double_0 rnd D) CI Re) as I'.
  pose proof (reachable_inv rnd64 casefold st (rnd_0 _ rnd64_lawful) CI Re') as I. split; auto.
  unfold lookup, lookup_v5. destruct (lookup_checks casefold st word top_k) as [[q k]|] eqn:E; [|split; reflexivity]. cbn [bind].
  assert (Hq : (zlen q <= 2 ^ 30)%Z).
  { unfold lookup_checks in E. destruct word as [w| | | |]; try discriminate. cbn in SQ. destruct (zlen w =? 0)%Z; [discriminate|].
    destruct (as_int top_k); [|discriminate]. destruct (_ <=? 0)%Z; [discriminate|]. cbv zeta in E. destruct (_ || _); [discriminate|].
    assert (fold_case casefold st w = q) by congruence. subst q. exact SQ. }
  assert (B : lengths st q) by (split; auto; split; [apply short_words_brief; auto|]; split; [apply Forall_forall; apply SN|apply SN]).
  destruct (similarity_any_double rnd D casefold st I I' q B N9 o nz k F) as [ES FS]. rewrite ES.
  destruct (lookup_similarity rnd64 (mean_new rnd64) o st q k nz) as [sims|] eqn:Es; [|split; reflexivity]. cbn [bind].
  specialize (FS sims eq_refl). split.
  - rewrite (mapM_ext_in _ (fun e => other <- py_get (word_list st) (Z.of_nat (fst e)) ;;
         s <- ngram_movers_distance rnd64 (PStr q) (PStr other) (PInt 2) true nz ;; Ok (fst e, (snd e, s)))); [reflexivity|].
    intros e He. destruct (py_get (word_list st) (Z.of_nat (fst e))) as [other|] eqn:Eo; [|reflexivity]. cbn [bind].
    apply py_get_member in Eo. rewrite (nmd_ieee rnd D); [reflexivity| | |].
    + cbn. lia.
    + cbn. assert (zlen other <= 2 ^ 30)%Z by (apply SW, vocabulary_in; auto). lia.
    + cbn. lia.
  - intros invert.
    rewrite (mapM_ext_in _ (fun e => other <- py_get (word_list st) (Z.of_nat (fst e)) ;;
       Ok (other, if invert then snd e else rnd64 ((if nz then 1 else 0) - snd e)))); [reflexivity|].
    intros e He. destruct (py_get (word_list st) (Z.of_nat (fst e))) as [other|] eqn:Eo; [|reflexivity]. cbn [bind]. do 2 f_equal. destruct invert; [reflexivity|].
    set (K := (List.length (n_list st) * (List.length (n_list st) + 2) * M2)%nat) in *.
    assert (Fe : fit 315 K (snd e)).
    { rewrite Forall_forall in FS. apply FS. unfold most_common in He. apply In_firstn' in He.
      eapply Permutation_in; [apply isort_perm|exact He]. }
    apply (fit_same rnd D 315 (1 + K)); [lia| |].
    + unfold small, K, zlen in *. rewrite Nat2Z.inj_add, !Nat2Z.inj_mul, Nat2Z.inj_add, M2_z. nia.
    + apply fit_sub; auto. destruct nz; [change 1 with (qz 1); apply fit_qz; lia|apply fit_0; lia].
Qed.
Print Assumptions lookup_sum_ieee.

Example ex_lookup_sum_ieee : let st := built_ieee [2; 3; 4]%Z 0 ["bandana"; "banana"; "cabana"] in
  reachable ieee64 lower st /\ zlen (n_list st) = 3%Z /\ short_words st /\ few_sizes st /\ short_query lower st (PStr (w_ "Bananas")) /\
  match lookup ieee64 lower (mean_new ieee64) ord0 st (PStr (w_ "Bananas")) (PInt 2) true with Ok l => map fst l = [w_ "banana"; w_ "bandana"] | _ => False end.
Proof.
  cbv zeta. split; [eapply built_ieee_reachable; vm_compute; reflexivity|]. split; [reflexivity|]. split; [|split; [|split]].
  - intros w Hw. vm_compute in Hw. repeat (destruct Hw as [<-|Hw]; [vm_compute; discriminate|]). destruct Hw.
  - split; [|vm_compute; discriminate]. intros n Hn. vm_compute in Hn. destruct Hn as [<-|[<-|[<-|[]]]]; lia.
  - vm_compute. discriminate.
  - vm_compute. reflexivity.
Qed.
