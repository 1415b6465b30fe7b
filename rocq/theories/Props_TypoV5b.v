(** Misspelt queries against [ApproxWordListV5b]
    (experiments/gemini_optimized_v5.py): part of property C129. *)
From Coq Require Import ZArith NArith QArith Qcanon List Bool Permutation Lia Sorted String.
From Verif Require Import EditSpec EditModel Props_Typo.
From Verif Require Import Num Py ListAux PyDict Float64 EmdSpec EmdModel EmdProofs EmdFloatProofs
  NmdSpec NmdModel NmdProofs NmdFloatProofs IndexSpec IndexModel IndexProofs IndexLoops IndexLookupProofs IndexResult IndexTop
  IndexScore IndexFacts Ex Props_Nmd Props_Index Props_Growth.
From Verif Require Import V5bSpec V5bModel V5bProofs V5bLookup V5bFacts Props_V5b Props_V5bGrowth.
Import ListNotations.
Open Scope string_scope.
Open Scope list_scope.
Open Scope Qc_scope.

(** The word is [e] edits from the query, and long enough for one of the sizes
    and for the filter. *)
Definition near5 (c : Z) (st : wordlist) (q w : str) (e : Z) : Prop :=
  apart c q w e /\
  (exists n, In n (n_list st) /\ (2 <= n)%Z /\ ((2 * n + c) * e < zlen q + zlen w + 6 - 2 * n)%Z) /\
  (filter_n st = 0%Z \/ ((2 <= filter_n st)%Z /\ ((2 * filter_n st + c) * e < zlen q + zlen w + 6 - 2 * filter_n st)%Z)).

(** A word of the list that is near the query is listed with its score, or as
    many words as were asked for are listed that score at least as much. *)
Theorem v5b_finds_typo : forall rnd casefold mean, lawful rnd -> doubling rnd -> averaging mean ->
  forall st o word top_k normalize q k R c w e, reachable5b rnd casefold st -> fair o -> asks casefold st word top_k q k -> q <> [] -> sane rnd st q ->
  lookup5b rnd casefold mean o st word top_k normalize = Ok R ->
  In w (vocabulary st) -> near5 c st q w e ->
  let score := mean (map (score5 rnd normalize q w) (n_list st)) in
  In (w, score) R \/ (Z.of_nat (List.length R) = k /\ forall u x, In (u, x) R -> score <= x).
Proof.
  intros rnd casefold mean L Db M st o word top_k nz q k R c w e Re F A Hq Sn H Hw (He & (n & Hn & N2 & Hl) & Hf) score.
  destruct (v5b_best rnd casefold mean L Db M st o word top_k nz q k R Re F A Hq Sn H) as (C & NC & HC & B & V).
  assert (Cw : In w C).
  { apply HC. split; [exact Hw|]. split.
    - exists n. split; [exact Hn|]. eapply edits_keep_a_gram; eauto.
    - destruct Hf as [->|[F1 F2]]; [left; reflexivity|right; eapply edits_keep_a_gram; eauto]. }
  destruct B as [Nd I0 Ln So O]. destruct (in_dec eqd w (map fst R)) as [I|N0].
  - left. apply in_map_iff in I. destruct I as ([w' s] & <- & I). cbn [fst] in *. rewrite (in_value R _ V w' s I) in I. exact I.
  - right. split.
    + rewrite map_length in Ln. destruct A as (_ & _ & _ & _ & _ & _ & K1).
      destruct (Nat.le_gt_cases (Z.to_nat k) (List.length C)) as [Le|Gt]; [lia|]. exfalso. apply N0.
      rewrite Nat.min_r in Ln by lia. apply (@NoDup_length_incl str _ C Nd); [|exact I0|exact Cw].
      etransitivity; [apply Nat.eq_le_incl; symmetry; exact Ln|apply Nat.eq_le_incl; symmetry; apply map_length].
    + intros u x Iu. rewrite (in_value R _ V u x Iu). apply (O w Cw N0). apply in_map_iff. eexists. split; [|exact Iu]. reflexivity.
Qed.
Print Assumptions v5b_finds_typo.

(** In real arithmetic, with room for all sizes, the score is at least what
    Props_Typo.v shows for [WordList.lookup]. *)
Theorem v5b_finds_typo_score : forall casefold st o word top_k q k R c w e N,
  reachable5b exact casefold st -> fair o -> asks casefold st word top_k q k -> q <> [] ->
  lookup5b exact casefold (mean1 exact) o st word top_k true = Ok R ->
  In w (vocabulary st) -> near c st q w e N ->
  let least := 1 - qz ((2 * N + c) * e) / qz (zlen q + zlen w + 6 - 2 * N) in
  (exists s, In (w, s) R /\ least <= s) \/ (Z.of_nat (List.length R) = k /\ forall u s, In (u, s) R -> least <= s).
Proof.
  intros casefold st o word top_k q k R c w e N Re F A Hq H Hw Nr least. pose proof (asks_clean _ _ _ _ _ _ A) as [Cq _].
  destruct (reachable5b_inv exact casefold st eq_refl Re) as [I _].
  pose proof Hw as Hv. rewrite vocabulary_in in Hv. assert (Cw : clean w) by (eapply words_clean; eauto).
  pose proof Nr as (He & Hn & Ne & L1 & L2 & Hl & Hf).
  assert (Pe : (0 <= e /\ 0 <= c)%Z) by (destruct (edit_dist_bound c 1 q w e (le_n 1) He); auto).
  assert (Room : forall n, In n (n_list st) -> (2 <= n)%Z /\ ((2 * n + c) * e < zlen q + zlen w + 6 - 2 * n)%Z) by (intros n In0; specialize (Hn n In0); split; [lia|nia]).
  assert (B : least <= mean1 exact (map (score5 exact true q w) (n_list st))).
  { destruct (near_similarity c st q w e N Cq Cw Nr) as (x & Ex & Bx). unfold similarity in Ex.
    assert (Em : mapM (pair_score exact q w true) (n_list st) = Ok (map (score5 exact true q w) (n_list st))).
    { assert (PS : forall n, In n (n_list st) -> pair_score exact q w true n = Ok (score5 exact true q w n)).
      { intros n In0. assert (P : (0 < n)%Z) by (specialize (Hn n In0); lia). transitivity (score1 exact true q n w); [eapply pair_score1; eauto|]. apply score1_shares; auto.
        destruct (Room n In0). eapply edits_keep_a_gram; eauto. }
      clear - PS. induction (n_list st) as [|n nl IH]; [reflexivity|]. cbn [mapM map]. rewrite PS by (left; reflexivity). cbn [bind]. rewrite IH by (intros; apply PS; right; assumption). reflexivity. }
    rewrite Em in Ex. cbn [bind] in Ex. injection Ex as <-. exact Bx. }
  assert (N5 : near5 c st q w e).
  { split; [exact He|]. split; [|exact Hf]. destruct (n_list st) as [|n l] eqn:E; [congruence|]. exists n. split; [left; reflexivity|]. apply Room. left. reflexivity. }
  destruct (v5b_finds_typo exact casefold (mean1 exact) lawful_exact exact_doubling (strict_avg _ mean1_strict) st o word top_k true q k R c w e Re F A Hq (or_introl eq_refl) H Hw N5) as [X|[X Y]].
  - left. eexists. split; [exact X|exact B].
  - right. split; [exact X|]. intros u s Iu. eapply Qcle_trans; [exact B|eapply Y; exact Iu].
Qed.
Print Assumptions v5b_finds_typo_score.

(** *** Case *)
Definition typos5 : wordlist := built5b exact [2%Z; 3%Z] PNone ["receive"; "recipe"; "sieve"].
Example typo5_case :
  reachable5b exact lower typos5 /\ In (w_ "receive") (vocabulary typos5) /\ near5 2 typos5 (w_ "recieve") (w_ "receive") 1 /\ near 2 typos5 (w_ "recieve") (w_ "receive") 1 3 /\
  asks lower typos5 (PStr (w_ "recieve")) (PInt 3) (w_ "recieve") 3 /\ sane exact typos5 (w_ "recieve") /\
  (exists R, lookup5b exact lower (mean1 exact) ord0 typos5 (PStr (w_ "recieve")) (PInt 3) true = Ok R /\ map fst R = [w_ "recipe"; w_ "receive"; w_ "sieve"]).
Proof.
  split; [eapply built5b_reachable; vm_compute; reflexivity|]. split; [vm_compute; intuition auto|]. split; [|split; [|split; [|split; [left; reflexivity|]]]].
  - split; [right; split; vm_compute; reflexivity|]. split; [exists 2%Z; vm_compute; intuition (auto; try discriminate)|]. vm_compute. first [left; reflexivity|right; split; [discriminate|reflexivity]].
  - split; [right; split; vm_compute; reflexivity|]. split; [intros n H; vm_compute in H; intuition (subst; lia)|]. split; [vm_compute; discriminate|].
    split; [vm_compute; discriminate|]. split; [vm_compute; discriminate|]. split; [vm_compute; reflexivity|].
    first [left; vm_compute; reflexivity|right; split; [vm_compute; discriminate|vm_compute; reflexivity]].
  - exists (w_ "recieve"). split; [reflexivity|]. split; [discriminate|]. split; [vm_compute; reflexivity|]. split; [|split; [reflexivity|lia]].
    split; intros H; vm_compute in H; intuition discriminate.
  - eexists. split; [vm_compute; reflexivity|]. vm_compute. reflexivity.
Qed.
