(** Misspelt queries against [ApproxWordListV3] (nmd/nmd_index.py): part of
    property C129. *)
From Coq Require Import ZArith NArith QArith Qcanon List Bool Permutation Lia Sorted String.
From Verif Require Import EditSpec EditModel Props_Typo.
From Verif Require Import Num Py ListAux PyDict Float64 EmdSpec EmdModel EmdProofs EmdFloatProofs
  NmdSpec NmdModel NmdProofs NmdFloatProofs IndexSpec IndexModel IndexProofs IndexLoops IndexLookupProofs IndexResult IndexTop
  IndexScore IndexFacts V3Model V3Proofs Ex Props_Nmd Props_Index Props_V3.
Import ListNotations.
Open Scope string_scope.
Open Scope list_scope.
Open Scope Qc_scope.

(** A word that was added and is [e] edits from the query, long enough for one
    of the sizes: the lookup does not raise the IndexError of a query without
    relatives, and if it returns, the word is listed or as many words as were
    asked for are listed that score at least as much. *)
Theorem v3_finds_typo : forall rnd casefold mean, lawful rnd -> (forall w, casefold (casefold w) = casefold w) ->
  forall zs c calls st, history rnd casefold zs c calls st ->
  forall w top_k x t e n, let q := folded casefold c w in
  known casefold c calls x -> apart t q x e -> In n zs -> (2 <= n)%Z -> ((2 * n + t) * e < zlen q + zlen x + 6 - 2 * n)%Z ->
  lookup3 rnd casefold mean st (PStr w) top_k <> Err IndexError /\
  forall out, lookup3 rnd casefold mean st (PStr w) top_k = Ok out ->
    (exists s d, In (x, s, d) out /\ score3 rnd mean zs q x = Ok s) \/
    ((0 < top_k)%Z /\ zlen out = top_k /\ forall s y u d, score3 rnd mean zs q x = Ok s -> In (y, u, d) out -> s <= u).
Proof.
  intros rnd casefold mean L CI zs c calls st H w top_k x t e n q Kx He Hn N2 Hl.
  assert (Re : related zs q x) by (exists n; split; [exact Hn|eapply edits_keep_a_gram; eauto]). split.
  - intros C. destruct (v3_lookup_raises rnd casefold mean L CI zs c calls st H (PStr w) top_k) as [[X _]|[[_ E]|(w' & E & Hw & X)]]; [eapply X; reflexivity|congruence|].
    injection E as <-. cbv zeta in X. fold q in X. destruct X as [[_ E]|[(_ & _ & E)|(_ & _ & [[N _]|[_ E]])]]; try congruence.
    + apply N. exists x. split; [exact Kx|exact Re].
    + repeat match goal with K : exists _, _ |- _ => destruct K | K : _ /\ _ |- _ => destruct K | K : _ \/ _ |- _ => destruct K end; congruence.
  - intros out E. destruct (v3_lookup_lists rnd casefold mean L CI zs c calls st H w top_k out E) as (_ & _ & Hs & _ & _ & Hf). fold q in Hs, Hf.
    destruct (Hf x Kx Re) as [I|X]; [left|right; exact X]. apply in_map_iff in I. destruct I as ([[x' s] d] & Ex & I). cbn in Ex. subst x'. exists s, d. split; [exact I|]. apply (Hs _ _ _ I).
Qed.
Print Assumptions v3_finds_typo.

(** *** Case *)
Example typo3_case :
  apart 2 (w_ "recieve") (w_ "receive") 1 /\ ((2 * 2 + 2) * 1 < zlen (w_ "recieve") + zlen (w_ "receive") + 6 - 2 * 2)%Z /\
  map word_of (match lookup3_ex [2; 3]%Z ["receive"; "recipe"; "sieve"] "recieve" 2 with Ok out => out | Err _ => [] end) = [w_ "receive"; w_ "recipe"].
Proof. split; [right; split; vm_compute; reflexivity|]. split; [vm_compute; reflexivity|]. vm_compute. reflexivity. Qed.
