(** Theorems about experiments/gemini_optimized_v5.py ([ApproxWordListV5b]):
    properties C77 - C80.

    In every statement [rnd] is a rounding ([exact] for real arithmetic,
    [rnd64] for binary64), [casefold] any function, [mean] an average, and each
    call iterates over its sets in any order. *)
From Coq Require Import ZArith NArith QArith Qcanon List Bool Permutation Lia Sorted String.
From Verif Require Import Num Py ListAux PyDict Float64 EmdSpec EmdModel EmdProofs EmdFloatProofs
  NmdSpec NmdModel NmdProofs NmdFloatProofs IndexSpec IndexModel IndexProofs IndexLoops IndexLookupProofs IndexResult IndexTop
  IndexScore IndexFacts Ex Props_Nmd Props_Index.
From Verif Require Import V5bSpec V5bModel V5bProofs V5bLookup V5bFacts.
Import ListNotations.
Open Scope string_scope.
Open Scope list_scope.
Open Scope Qc_scope.

(** An instance after any sequence of [add_word] calls. *)
Inductive reachable5b (rnd : Qc -> Qc) (casefold : str -> str) : wordlist -> Prop :=
| reach5b_new n c fn st : init5b n c fn = Ok st -> reachable5b rnd casefold st
| reach5b_add o st v : reachable5b rnd casefold st -> fair o -> reachable5b rnd casefold (fst (add_word5b rnd casefold o st v)).

Lemma reachable5b_inv rnd casefold st : rnd 0 = 0 -> reachable5b rnd casefold st -> inv rnd ident st /\ n_list st <> [].
Proof.
  intros R0. induction 1 as [n c fn st H|o st v _ [I N] F].
  - destruct (init5b_inv rnd n c fn st H) as (I & _ & N). auto.
  - destruct (add_word5b_spec rnd R0 casefold o st v I F) as (I' & E & _). rewrite E. auto.
Qed.

Lemma run5b_reachable rnd casefold calls : forall st, reachable5b rnd casefold st -> Forall (fun c => fair (fst c)) calls ->
  reachable5b rnd casefold (run5b rnd casefold st calls).
Proof.
  induction calls as [|[o v] calls IH]; intros st H F; [exact H|]. inversion F; subst. unfold run5b. cbn [fold_left fst snd].
  apply IH; auto. apply reach5b_add; auto.
Qed.

(** [ApproxWordListV5b(n, filter_n=fn)], and the same with words added. *)
Definition fresh5b (n : list Z) (fn : pyval) : wordlist :=
  match init5b (NIter n) (PBool false) fn with Ok st => st | Err _ =>
    {| n_list := []; case_insensitive := true; filter_n := 0; word_indices := []; word_list := []; word_lens := [];
       word_num_grams := []; ngram_filter := []; ngram_counts := []; ngram_positions := [] |} end.
Definition built5b (rnd : Qc -> Qc) (n : list Z) (fn : pyval) (words : list string) : wordlist :=
  run5b rnd lower (fresh5b n fn) (map (fun s => (ord0, PStr (w_ s))) words).

Lemma built5b_reachable rnd n fn words st0 : init5b (NIter n) (PBool false) fn = Ok st0 -> reachable5b rnd lower (built5b rnd n fn words).
Proof.
  intros E. unfold built5b. apply run5b_reachable.
  - unfold fresh5b. rewrite E. econstructor; eauto.
  - apply Forall_forall. intros c Hc. apply in_map_iff in Hc. destruct Hc as (s & <- & _). apply ord0_fair.
Qed.

(** *** C77: construction and vocabulary *)

Definition good_filter (fn : pyval) (z : Z) : Prop := (fn = PNone /\ z = 0%Z) \/ (as_int fn = Some z /\ (0 < z)%Z).

Theorem v5b_init : forall n c fn,
  ((exists st, init5b n c fn = Ok st) <->
     exists zs b z, asked n zs /\ zs <> [] /\ Forall (fun z => (0 < z)%Z) zs /\ c = PBool b /\ good_filter fn z) /\
  (forall st, init5b n c fn = Ok st -> exists zs, asked n zs /\ StronglySorted Z.lt (n_list st) /\
     (forall z, In z (n_list st) <-> In z zs) /\ c = PBool (negb (case_insensitive st)) /\ good_filter fn (filter_n st) /\
     vocabulary st = [] /\ len5b st = 0%Z) /\
  (forall e, init5b n c fn = Err e ->
     (e = ValueError /\ ((exists z, n = NInt z /\ (z <= 0)%Z) \/ (forall z, ~ good_filter fn z))) \/
     (e = TypeError /\ (n = NOther \/ (exists zs, n = NIter zs /\ (zs = [] \/ exists z, In z zs /\ (z <= 0)%Z)) \/ forall b, c <> PBool b))).
Proof.
  intros n c fn.
  assert (Sz : match sizes5b n with
    | Ok nl => exists zs, asked n zs /\ zs <> [] /\ Forall (fun z => (0 < z)%Z) zs /\ StronglySorted Z.lt nl /\ forall z, In z nl <-> In z zs
    | Err e => (e = ValueError /\ exists z, n = NInt z /\ (z <= 0)%Z) \/
               (e = TypeError /\ (n = NOther \/ exists zs, n = NIter zs /\ (zs = [] \/ exists z, In z zs /\ (z <= 0)%Z)))
    end).
  { destruct n as [z|l|]; cbn [sizes5b asked].
    - destruct (Z.leb_spec z 0) as [G|G].
      + left. split; auto. exists z. auto.
      + exists [z]. split; auto. split; [discriminate|]. split; auto. split; [repeat constructor|]. tauto.
    - cbv zeta. assert (P : forall z, In z (isort Z.leb (nodup eqd l)) <-> In z l).
      { intros z. rewrite <- (nodup_In eqd l). split; apply Permutation_in; [apply isort_perm|symmetry; apply isort_perm]. }
      assert (Ss : StronglySorted Z.lt (isort Z.leb (nodup eqd l))).
      { assert (Ss : StronglySorted (fun a b => (a <=? b)%Z = true) (isort Z.leb (nodup eqd l))).
        { apply isort_sorted; [intros a b; rewrite !Z.leb_le; lia|intros a b d; rewrite !Z.leb_le; lia]. }
        assert (Nd : NoDup (isort Z.leb (nodup eqd l))).
        { eapply Permutation_NoDup; [symmetry; apply isort_perm|apply NoDup_nodup]. }
        revert Ss Nd. generalize (isort Z.leb (nodup eqd l)). clear. intros l. induction 1 as [|a l Hs IH Ha]; intros N; [constructor|].
        inversion N; subst. constructor; auto. rewrite Forall_forall in *. intros b Hb. specialize (Ha b Hb). apply Z.leb_le in Ha.
        assert (a <> b) by (intros ->; contradiction). lia. }
      destruct (isort Z.leb (nodup eqd l)) as [|a u] eqn:E.
      + right. split; auto. right. exists l. split; auto. left. destruct l as [|x l]; auto. exfalso. apply (P x). left; auto.
      + rewrite <- E in *. destruct (existsb _ _) eqn:X.
        * right. split; auto. right. exists l. split; auto. right. apply existsb_exists in X. destruct X as (z & Hz & Hl).
          exists z. split; [apply P; auto|]. apply Z.leb_le; auto.
        * exists l. split; auto. split; [intros ->; destruct (proj1 (P a)); rewrite E; left; auto|]. split; [|split; auto].
          apply Forall_forall. intros z Hz. apply P in Hz. destruct (Z.leb_spec z 0); [|auto]. exfalso.
          assert (existsb (fun z => (z <=? 0)%Z) (isort Z.leb (nodup eqd l)) = true) by (apply existsb_exists; exists z; split; auto; apply Z.leb_le; auto).
          congruence.
    - right. auto. }
  assert (Fz : exists r, match fn with
        | PNone => Ok 0%Z
        | _ => match as_int fn with
               | Some z => if (z <=? 0)%Z then Err ValueError else Ok z
               | None => Err ValueError
               end
        end = r /\ match r with Ok z => good_filter fn z | Err e => e = ValueError /\ forall z, ~ good_filter fn z end).
  { eexists. split; [reflexivity|]. destruct fn as [w|z|b| |]; cbn [as_int]; unfold good_filter; cbn [as_int].
    - split; auto. intros z [[C _]|[C _]]; discriminate.
    - destruct (Z.leb_spec z 0); [|right; auto]. split; auto. intros y [[C _]|[C ?]]; [discriminate|]. injection C as ->. lia.
    - destruct b; [right; split; [reflexivity|lia]|]. split; auto. intros y [[C _]|[C ?]]; [discriminate|]. injection C as <-. lia.
    - left; auto.
    - split; auto. intros z [[C _]|[C _]]; discriminate. }
  destruct Fz as (r & Er & Hr). unfold init5b. rewrite Er. clear Er.
  destruct (sizes5b n) as [nl|e]; cbn [bind].
  - destruct Sz as (zs & A & Nz & P & Ss & In_).
    destruct c as [cw|cz|b| |]; try (split; [split; [intros [st H]; discriminate|intros (? & ? & ? & _ & _ & _ & H & _); discriminate]|split; [discriminate|]];
      intros e [= <-]; right; split; auto; right; right; intros b; discriminate).
    cbn [bind]. destruct r as [z|e]; cbn [bind].
    + split; [split; [intros _; exists zs, b, z; auto|intros _; eexists; reflexivity]|]. split; [|discriminate].
      intros st [= <-]. exists zs. cbn. rewrite negb_involutive. auto 10.
    + destruct Hr as [-> Hr]. split; [split; [intros [st H]; discriminate|intros (? & ? & z & _ & _ & _ & _ & H); exfalso; eapply Hr; eauto]|].
      split; [discriminate|]. intros e [= <-]. left. auto.
  - split; [|split; [discriminate|]].
    + split; [intros [st H]; discriminate|]. intros (zs & b & z & A & Nz & P & _). exfalso. rewrite Forall_forall in P.
      destruct Sz as [(_ & y & -> & Hy)|(_ & [->|(l & -> & H)])]; cbn [asked] in A; [|exact A|].
      * rewrite A in P. specialize (P y (or_introl eq_refl)). lia.
      * rewrite A in *. destruct H as [H|(y & Hy & Ly)]; [congruence|]. specialize (P y Hy). lia.
    + intros e' [= <-]. destruct Sz as [(-> & H)|(-> & H)]; [left; auto|right; split; auto]. tauto.
Qed.
Print Assumptions v5b_init.

Example ex_v5b_init :
  (match init5b (NIter [4; 2; 4]%Z) (PBool true) (PInt 3) with Ok st => (n_list st, case_insensitive st, filter_n st) = ([2; 4]%Z, false, 3%Z) | Err _ => False end) /\
  init5b (NIter [2; 0]%Z) (PBool true) (PInt 3) = Err TypeError /\ init5b (NInt 0) (PBool true) (PInt 3) = Err ValueError /\
  init5b (NInt 2) (PInt 1) (PInt 3) = Err TypeError /\ init5b (NInt 2) (PBool false) (PInt 0) = Err ValueError.
Proof. vm_compute. auto. Qed.

Lemma added5b_iff rnd casefold st v u : inv rnd ident st ->
  In u (added5b casefold st v) <-> enters (fun w => if case_insensitive st then casefold w else w) v u /\ ~ In u (word_list st).
Proof.
  intros I. unfold added5b. split.
  - destruct v as [w| | | |]; try (intros []). cbv zeta. fold (fold_case casefold st w).
    destruct (Z.eqb_spec (zlen w) 0) as [|Nw]; [intros []|]. destruct (Z.eqb_spec (zlen (fold_case casefold st w)) 0) as [|Nu]; [intros []|].
    destruct (marked (fold_case casefold st w)) eqn:M; [intros []|]. destruct (dmem (fold_case casefold st w) (word_indices st)) eqn:D; [intros []|].
    cbn [orb]. intros [<-|[]]. rewrite zlen0 in Nw, Nu. apply marked_clean in M. split.
    + exists w. auto.
    + rewrite <- (known_iff _ _ _ I), D. discriminate.
  - intros ((w & -> & Hw & E & Hu & C) & Ni). cbv zeta. change (if case_insensitive st then casefold w else w) with (fold_case casefold st w) in E. rewrite <- E.
    destruct (Z.eqb_spec (zlen w) 0) as [H|_]; [apply zlen0 in H; contradiction|]. destruct (Z.eqb_spec (zlen u) 0) as [H|_]; [apply zlen0 in H; contradiction|].
    rewrite (proj2 (marked_clean u) C). destruct (dmem u (word_indices st)) eqn:D; [apply (known_iff _ _ _ I) in D; contradiction|]. left; auto.
Qed.

Lemma run5b_words rnd casefold : rnd 0 = 0 -> forall calls st, inv rnd ident st -> Forall (fun c => fair (fst c)) calls ->
  let st' := run5b rnd casefold st calls in
  inv rnd ident st' /\ case_insensitive st' = case_insensitive st /\ n_list st' = n_list st /\ filter_n st' = filter_n st /\ forall u,
  In u (word_list st') <->
  In u (word_list st) \/ exists c, In c calls /\ enters (fun w => if case_insensitive st then casefold w else w) (snd c) u.
Proof.
  intros R0. induction calls as [|[o v] calls IH]; intros st I F st'.
  - split; [exact I|]. do 3 (split; [reflexivity|]). intros u. split; auto. intros [|(c & [] & _)]; auto.
  - inversion F; subst. cbn [fst] in *. unfold st', run5b. cbn [fold_left fst snd].
    destruct (add_word5b_spec rnd R0 casefold o st v I H1) as (I' & N' & C' & F' & W' & _).
    change (fold_left _ calls ?s) with (run5b rnd casefold s calls).
    destruct (IH _ I' H2) as (J & JC & JN & JF & JW). split; [exact J|]. split; [congruence|]. split; [congruence|]. split; [congruence|].
    intros u. rewrite JW, W', C', in_app_iff, (added5b_iff rnd) by auto. split.
    + intros [[H|[H _]]|(c & Hc & Hu)]; auto.
      * right. exists (o, v). split; [left; auto|]. auto.
      * right. exists c. split; [right; auto|auto].
    + intros [H|(c & [<-|Hc] & Hu)]; auto.
      * cbn [snd] in Hu. destruct (in_dec (list_eq_dec N.eq_dec) u (word_list st)); auto.
      * right. exists c. auto.
Qed.

(** After any calls, the vocabulary is the set of the folded words that were
    acceptable; [len] and [in] agree with it. *)
Theorem v5b_vocabulary : forall rnd casefold, lawful rnd -> forall n c fn st0, init5b n c fn = Ok st0 ->
  forall calls, Forall (fun c => fair (fst c)) calls ->
  let fold w := if case_insensitive st0 then casefold w else w in
  let st := run5b rnd casefold st0 calls in let V := vocabulary st in
  NoDup V /\ StronglySorted (fun a b => str_leb a b = true) V /\
  (forall u, In u V <-> exists c, In c calls /\ enters fold (snd c) u) /\
  len5b st = zlen V /\
  forall v, contains5b casefold st v = true <-> exists w, v = PStr w /\ In (fold w) V.
Proof.
  intros rnd casefold L n c fn st0 E calls F fold st V.
  destruct (init5b_inv rnd n c fn st0 E) as (I & W0 & _).
  destruct (run5b_words rnd casefold (rnd_0 rnd L) calls st0 I F) as (J & JC & _ & _ & JW). fold st in J, JC, JW.
  assert (P : Permutation V (word_list st)) by apply isort_perm.
  split; [|split; [|split; [|split]]].
  - eapply Permutation_NoDup; [symmetry; exact P|]. apply (inv_words _ _ _ J).
  - apply isort_sorted; [apply str_leb_total|apply str_leb_trans].
  - intros u. unfold V. rewrite vocabulary_in, JW, W0. split; auto. intros [[]|H]; auto.
  - unfold len5b, zlen. f_equal. symmetry. apply Permutation_length; auto.
  - intros v. unfold contains5b. destruct v as [w| | | |].
    2-5: split; [discriminate|intros (x & H & _); discriminate].
    assert (Ef : fold_case casefold st w = fold w) by (unfold fold_case, fold; rewrite JC; reflexivity). rewrite Ef, (known_iff _ _ _ J).
    unfold V. split.
    + intros H. exists w. split; auto. apply vocabulary_in; auto.
    + intros (x & [= <-] & H). apply vocabulary_in; auto.
Qed.
Print Assumptions v5b_vocabulary.

(** What a call says, and that it changes nothing unless the word is new. *)
Theorem v5b_add_word : forall rnd casefold, lawful rnd -> forall st o v, reachable5b rnd casefold st -> fair o ->
  let fold w := if case_insensitive st then casefold w else w in
  let r := add_word5b rnd casefold o st v in
  (snd r = Ok tt \/ snd r = Err ValueError) /\
  (snd r = Ok tt <-> exists u, enters fold v u) /\
  (snd r = Err ValueError -> fst r = st) /\
  (forall u, enters fold v u -> In u (vocabulary st) -> fst r = st) /\
  (forall u, enters fold v u -> ~ In u (vocabulary st) -> len5b (fst r) = (len5b st + 1)%Z /\
     forall x, In x (vocabulary (fst r)) <-> x = u \/ In x (vocabulary st)).
Proof.
  intros rnd casefold L st o v Re F fold r. destruct (reachable5b_inv rnd casefold st (rnd_0 rnd L) Re) as [I _].
  destruct (add_word5b_spec rnd (rnd_0 rnd L) casefold o st v I F) as (I' & _ & _ & _ & W' & S' & O'). fold r in I', W', S', O'.
  assert (Un : forall u u', enters fold v u -> enters fold v u' -> u = u').
  { intros u u' (w & -> & _ & -> & _) (w' & [= <-] & _ & -> & _). reflexivity. }
  assert (Ok1 : snd r = Ok tt <-> exists u, enters fold v u).
  { rewrite O'. destruct v as [w| | | |]; try (split; [discriminate|intros (u & w & H & _); discriminate]). cbv zeta.
    destruct (Z.eqb_spec (zlen w) 0) as [Ew|Nw]; cbn [orb].
    { split; [discriminate|]. intros (u & x & [= <-] & H & _). apply zlen0 in Ew. contradiction. }
    destruct (Z.eqb_spec (zlen (fold_case casefold st w)) 0) as [Eu|Nu]; cbn [orb].
    { split; [discriminate|]. intros (u & x & [= <-] & _ & E & H & _). apply zlen0 in Eu. rewrite E in H. contradiction. }
    destruct (marked (fold_case casefold st w)) eqn:M; cbn [orb].
    { split; [discriminate|]. intros (u & x & [= <-] & _ & E & _ & H). apply marked_iff in M. rewrite E in H. contradiction. }
    split; auto. intros _. exists (fold w), w. rewrite zlen0 in Nw, Nu. apply marked_clean in M. auto. }
  assert (Two : snd r = Ok tt \/ snd r = Err ValueError).
  { rewrite O'. destruct v; auto. cbv zeta. destruct (_ || _); auto. }
  assert (Ad : forall u, In u (added5b casefold st v) <-> enters fold v u /\ ~ In u (word_list st)) by (intros u; apply (added5b_iff rnd); auto).
  split; [auto|]. split; [auto|]. split; [|split].
  - intros H. apply S'. destruct (added5b casefold st v) as [|u l] eqn:E; auto. exfalso.
    destruct (proj1 (Ad u) (or_introl eq_refl)) as [Hu _]. rewrite (proj2 Ok1) in H; [discriminate|eauto].
  - intros u Hu Hv. apply S'. destruct (added5b casefold st v) as [|u' l] eqn:E; auto. exfalso.
    destruct (proj1 (Ad u') (or_introl eq_refl)) as [Hu' N]. rewrite (Un u' u Hu' Hu) in N. apply N. apply vocabulary_in; auto.
  - intros u Hu Hv. rewrite vocabulary_in in Hv. assert (E : added5b casefold st v = [u]).
    { pose proof (proj2 (Ad u) (conj Hu Hv)) as H. destruct v as [w| | | |]; try destruct H. unfold added5b in *. cbv zeta in *.
      destruct (_ || _); [destruct H|]. destruct H as [<-|[]]. reflexivity. }
    rewrite E in W'. split.
    + unfold len5b. rewrite W'. unfold zlen. rewrite app_length. cbn [List.length]. lia.
    + intros x. rewrite !vocabulary_in, W', in_app_iff. cbn [In]. intuition auto.
Qed.
Print Assumptions v5b_add_word.

Example ex_v5b_vocabulary :
  let st := built5b rnd64 [2%Z; 4%Z] (PInt 3) ["Banana"; ""; "cabana"; "BANANA"] in
  vocabulary st = [w_ "banana"; w_ "cabana"] /\ len5b st = 2%Z /\ contains5b lower st (PStr (w_ "CABANA")) = true /\
  contains5b lower st (PInt 1) = false /\ snd (add_word5b rnd64 lower ord0 st (PStr [2%N])) = Err ValueError /\
  snd (add_word5b rnd64 lower ord0 st PNone) = Err ValueError /\ snd (add_word5b rnd64 lower ord0 st (PStr (w_ "Cabana"))) = Ok tt.
Proof. vm_compute. auto 10. Qed.

(** *** C78: lookup *)

(** The words are not astronomically long, or there is no rounding. *)
Definition sane (rnd : Qc -> Qc) (st : wordlist) (q : str) : Prop :=
  rnd = exact \/ forall w, In w (vocabulary st) -> (zlen q + zlen w + 4 <= 2 ^ 53)%Z.

Lemma sane_measured rnd st q : lawful rnd -> inv rnd ident st -> sane rnd st q -> measured rnd st q.
Proof.
  intros L I [->|H]; [apply exact_measured|]. apply lawful_measured; auto. intros n w Hn Hw. unfold small.
  etransitivity; [apply weight_le; eapply NL_pos; eauto|]. apply H, vocabulary_in; auto.
Qed.

(** [lookup] raises ValueError exactly when its arguments are wrong, and
    nothing else ever. *)
Theorem v5b_lookup_total : forall rnd casefold mean, lawful rnd -> forall st o word top_k normalize,
  reachable5b rnd casefold st -> fair o ->
  let r := lookup5b rnd casefold mean o st word top_k normalize in
  ((exists w k, word = PStr w /\ w <> [] /\ as_int top_k = Some k /\ (1 <= k)%Z) -> exists R, r = Ok R) /\
  ((~ exists w k, word = PStr w /\ w <> [] /\ as_int top_k = Some k /\ (1 <= k)%Z) -> r = Err ValueError).
Proof.
  intros rnd casefold mean L st o word top_k nz Re F r. destruct (reachable5b_inv rnd casefold st (rnd_0 rnd L) Re) as [I _].
  split.
  - intros (w & k & -> & Hw & Hk & H1). unfold r, lookup5b.
    destruct (Z.eqb_spec (zlen w) 0) as [E|_]; [apply zlen0 in E; contradiction|]. rewrite Hk. destruct (Z.leb_spec k 0); [lia|]. cbv zeta.
    set (q := fold_case casefold st w). destruct (zlen q =? 0)%Z eqn:Eq; [eauto|]. destruct (marked q); [eauto|].
    assert (S : exists l, lookup_similarity5b rnd mean o st q k nz = Ok (map (fun i => (i, mean (vec rnd st q (mat rnd st q nz) i))) l) /\
      forall i, In i l -> (i < List.length (word_list st))%nat).
    { assert (Z : forall i : nat, In i [] -> (i < List.length (word_list st))%nat) by (intros i []).
      unfold lookup_similarity5b. rewrite Eq. destruct (candidates5b o st q) as [|c0 cs] eqn:Ec; [exists []; auto|]. rewrite <- Ec in *.
      rewrite (min_scores5b_eq rnd st I q nz). cbn [bind]. set (ms := map _ (filter _ _)).
      destruct ms as [|e0 ms'] eqn:Ems; [exists []; auto|]. rewrite <- Ems.
      assert (Nms : ms <> []) by congruence.
      assert (Wms : dwf ms).
      { unfold dwf, dkeys, ms. rewrite map_map, map_id. apply NoDup_filter, firsts_nodup. }
      destruct (prune_spec mean k ms ltac:(lia) Nms Wms) as (thr & poss & top & Ep & _).
      rewrite finalists5b_prune, Ep by (auto; lia). cbn [bind]. destruct poss as [|p0 ps] eqn:Eps; [exists []; auto|]. rewrite <- Eps.
      rewrite (matches5b_eq rnd L st I q nz poss). cbn [bind]. rewrite map_map. eexists. split; [reflexivity|].
      intros i Hi. apply filter_In in Hi. destruct Hi as [Hi _]. rewrite firsts_in in Hi. eapply hits_lt; eauto. }
    destruct S as (l & -> & Hl). cbn [bind]. rewrite (most_common_map qleb (fun i => mean (vec rnd st q (mat rnd st q nz) i))), mapM_map.
    eexists. apply (mapM_Ok_in _ (fun i => (wd st i, mean (vec rnd st q (mat rnd st q nz) i)))).
    intros i Hi. cbn [fst snd]. apply best_firstn_incl, Hl in Hi. rewrite (py_get_nat (word_list st) i (@nil N : str)) by auto. reflexivity.
  - intros N. unfold r, lookup5b. destruct word as [w| | | |]; auto. destruct (Z.eqb_spec (zlen w) 0) as [E|E]; auto.
    destruct (as_int top_k) as [k|] eqn:Ek; auto. destruct (Z.leb_spec k 0); auto. exfalso. apply N. exists w, k.
    split; auto. split; [intros ->; apply E; reflexivity|]. split; auto. lia.
Qed.
Print Assumptions v5b_lookup_total.

(** A query that folds to nothing or holds a reserved character finds
    nothing. *)
Theorem v5b_lookup_unsearchable : forall rnd casefold mean st o w top_k k normalize, w <> [] -> as_int top_k = Some k -> (1 <= k)%Z ->
  (if case_insensitive st then casefold w else w) = [] \/ ~ clean (if case_insensitive st then casefold w else w) ->
  lookup5b rnd casefold mean o st (PStr w) top_k normalize = Ok [].
Proof.
  intros rnd casefold mean st o w top_k k nz Hw Hk H1 H. unfold lookup5b.
  destruct (Z.eqb_spec (zlen w) 0) as [E|_]; [apply zlen0 in E; contradiction|]. rewrite Hk. destruct (Z.leb_spec k 0); [lia|]. cbv zeta.
  destruct (Z.eqb_spec (zlen (fold_case casefold st w)) 0) as [E|E]; auto. destruct H as [H|H]; [exfalso; apply E, zlen0, H|].
  assert (Hm : marked (fold_case casefold st w) = true) by (apply marked_iff; exact H). rewrite Hm. reflexivity.
Qed.
Print Assumptions v5b_lookup_unsearchable.

(** There is one ranking of all candidates, and every call, whatever its
    [top_k] and whatever order it goes through sets in, returns the beginning
    of it.  In particular the pruning loses nothing, in binary64 too. *)
Theorem v5b_lookup_ranked : forall rnd casefold mean, lawful rnd -> doubling rnd -> averaging mean ->
  forall st w q normalize, reachable5b rnd casefold st -> w <> [] -> q = (if case_insensitive st then casefold w else w) ->
  q <> [] -> clean q -> sane rnd st q ->
  exists R, NoDup (map fst R) /\
    (forall u, In u (map fst R) <-> In u (vocabulary st) /\ candidate (n_list st) (filter_n st) q u) /\
    StronglySorted (fun a b => snd b <= snd a) R /\
    (forall u s, In (u, s) R -> s = mean (map (score5 rnd normalize q u) (n_list st))) /\
    forall o top_k k, fair o -> as_int top_k = Some k -> (1 <= k)%Z ->
      lookup5b rnd casefold mean o st (PStr w) top_k normalize = Ok (firstn (Z.to_nat k) R).
Proof.
  intros rnd casefold mean L D A st w q nz Re Hw Eq Hq Cq Sn. destruct (reachable5b_inv rnd casefold st (rnd_0 rnd L) Re) as [I _].
  pose proof (sane_measured rnd st q L I Sn) as M.
  exists (ranking rnd st q mean ord0 nz). unfold ranking.
  set (Ix := best qleb (sc5 rnd st q mean nz) (found rnd st q ord0)).
  assert (P : Permutation Ix (found rnd st q ord0)) by apply best_perm.
  assert (Hc : forall i, In i Ix <-> cand st q i).
  { intros i. rewrite <- (found_in rnd st I q ord0 i ord0_fair). split; apply Permutation_in; [exact P|symmetry; exact P]. }
  assert (Ef : map fst (map (fun i => (wd st i, sc5 rnd st q mean nz i)) Ix) = map (wd st) Ix) by (rewrite map_map; reflexivity).
  rewrite Ef. split; [|split; [|split; [|split]]].
  - apply NoDup_map_inj; [|eapply Permutation_NoDup; [symmetry; exact P|apply found_nodup]].
    intros a b Ha Hb E. apply Hc in Ha, Hb. destruct Ha, Hb. eapply wd_inj; eauto.
  - intros u. rewrite in_map_iff, vocabulary_in. split.
    + intros (i & <- & Hi). apply Hc in Hi. destruct Hi as [Hl Hca]. split; auto. apply wd_in; auto.
    + intros [Hu Hca]. destruct (in_wd st u Hu) as (i & Hi & <-). exists i. split; auto. apply Hc. split; auto.
  - pose proof (best_sorted qleb (sc5 rnd st q mean nz) qleb_total qleb_trans (found rnd st q ord0)) as S. fold Ix in S.
    clear - S. induction S as [|i l S IH H]; [constructor|]. cbn [map]. constructor; auto. apply Forall_map.
    eapply Forall_impl; [|exact H]. intros j Hj. cbn [snd]. apply qleb_le in Hj. exact Hj.
  - intros u s H. apply in_map_iff in H. destruct H as (i & E & Hi). injection E as <- <-. unfold sc5. f_equal. apply (vec_score5 rnd st I).
  - intros o top_k k F Hk H1. unfold lookup5b.
    destruct (Z.eqb_spec (zlen w) 0) as [E|_]; [apply zlen0 in E; contradiction|]. rewrite Hk. destruct (Z.leb_spec k 0); [lia|]. cbv zeta.
    change (fold_case casefold st w) with (if case_insensitive st then casefold w else w). rewrite <- Eq.
    destruct (Z.eqb_spec (zlen q) 0) as [E|_]; [apply zlen0 in E; contradiction|]. rewrite (proj2 (marked_clean q) Cq).
    rewrite (similarity_ranked rnd L st I q D M mean A o k nz Hq H1). unfold ranking.
    rewrite (found_order rnd st I q o ord0 F ord0_fair). reflexivity.
Qed.
Print Assumptions v5b_lookup_ranked.

Definition found5b (r : result (list (str * Qc))) : list str := match r with Ok l => map fst l | Err _ => [] end.
Definition scores5b (r : result (list (str * Qc))) : list Qc := match r with Ok l => map snd l | Err _ => [] end.

(** binary64; the query has a single 4-gram for one of the sizes. *)
Example ex_v5b_ranked :
  let st := built5b rnd64 [2%Z; 4%Z] PNone ["abcd"; "bcda"; "ab"; "zzab"; "q"] in
  let look k := found5b (lookup5b rnd64 lower (mean1 rnd64) ord0 st (PStr (w_ "AB")) (PInt k) true) in
  reachable5b rnd64 lower st /\ sane rnd64 st (w_ "ab") /\
  look 1%Z = [w_ "ab"] /\ look 2%Z = [w_ "ab"; w_ "abcd"] /\ look 10%Z = [w_ "ab"; w_ "abcd"; w_ "zzab"].
Proof.
  cbv zeta. split; [eapply built5b_reachable; vm_compute; reflexivity|]. split.
  - right. intros w Hw. vm_compute in Hw. repeat (destruct Hw as [<-|Hw]; [vm_compute; discriminate|]). destruct Hw.
  - vm_compute. auto.
Qed.

(** *** C79: scores *)

Lemma firstn_In {A} (l : list A) k x : In x (firstn k l) -> In x l.
Proof. intros H. rewrite <- (firstn_skipn k l). apply in_app_iff. auto. Qed.

Lemma shares_cases n q w : (0 < n)%Z -> shares n q w \/ ~ shares n q w.
Proof.
  intros Hn. destruct (common exact q n w) as [|m] eqn:E.
  - right. intros S. apply (common_pos exact) in S; auto. lia.
  - left. apply (common_pos exact); auto. lia.
Qed.

Lemma score5_unit q w n : (0 < n)%Z -> 0 <= score5 exact true q w n /\ score5 exact true q w n <= 1.
Proof.
  intros Hn. destruct (shares_cases n q w Hn) as [S|S].
  - apply (score1_unit exact lawful_exact q n w); auto; [apply exact_faithful|]. apply score1_shares; auto.
  - rewrite score5_no_share by auto. split; [apply Qcle_refl|discriminate].
Qed.

(** In real arithmetic a score is the mean of what [ngram_movers_distance]
    says for each size, or 0 for a size without a common n-gram. *)
Theorem v5b_scores : forall casefold mean, averaging mean -> forall st o w q top_k k normalize R,
  reachable5b exact casefold st -> fair o -> w <> [] -> q = (if case_insensitive st then casefold w else w) -> q <> [] -> clean q ->
  as_int top_k = Some k -> (1 <= k)%Z ->
  lookup5b exact casefold mean o st (PStr w) top_k normalize = Ok R -> forall u s, In (u, s) R ->
  exists vs, s = mean vs /\
    Forall2 (fun n v => (shares n q u -> pair_score exact q u normalize n = Ok v) /\ (~ shares n q u -> v = 0)) (n_list st) vs.
Proof.
  intros casefold mean A st o w q top_k k nz R Re F Hw Eq Hq Cq Hk H1 H u s Hu.
  destruct (reachable5b_inv exact casefold st eq_refl Re) as [I _].
  destruct (v5b_lookup_ranked exact casefold mean lawful_exact exact_doubling A st w q nz Re Hw Eq Hq Cq (or_introl eq_refl)) as (R' & _ & Hc & _ & Hs & HR).
  rewrite (HR o top_k k F Hk H1) in H. injection H as <-. assert (Hu' : In (u, s) R') by (eapply firstn_In; eauto).
  exists (map (score5 exact nz q u) (n_list st)). split; [auto|].
  assert (Vu : In u (vocabulary st)) by (apply Hc, in_map_iff; exists (u, s); auto). rewrite vocabulary_in in Vu.
  assert (P : forall n, In n (n_list st) -> (0 < n)%Z) by (intros; eapply NL_pos; eauto).
  assert (PS : forall n, In n (n_list st) -> pair_score exact q u nz n = score1 exact nz q n u).
  { intros n Hn. eapply pair_score1; eauto. eapply words_clean; eauto. }
  clear - P PS. induction (n_list st) as [|n nl IH]; cbn [map]; constructor.
  - split; intros S.
    + rewrite PS by (left; auto). apply score1_shares; auto. apply P. left; auto.
    + apply score5_no_share; auto. apply P. left; auto.
  - apply IH; intros; [apply P|apply PS]; right; auto.
Qed.
Print Assumptions v5b_scores.

(** Scores are never negative, in binary64 too; normalized ones are at most 1
    in real arithmetic. *)
Theorem v5b_range : forall rnd casefold mean, lawful rnd -> doubling rnd -> averaging mean ->
  forall st o w q top_k k normalize R, reachable5b rnd casefold st -> fair o -> w <> [] -> q = (if case_insensitive st then casefold w else w) ->
  q <> [] -> clean q -> sane rnd st q -> as_int top_k = Some k -> (1 <= k)%Z -> small (List.length (n_list st)) ->
  lookup5b rnd casefold mean o st (PStr w) top_k normalize = Ok R -> forall u s, In (u, s) R ->
  0 <= s /\ (rnd = exact -> normalize = true -> s <= 1).
Proof.
  intros rnd casefold mean L D A st o w q top_k k nz R Re F Hw Eq Hq Cq Sn Hk H1 Sm H u s Hu.
  destruct (reachable5b_inv rnd casefold st (rnd_0 rnd L) Re) as [I N0].
  destruct (v5b_lookup_ranked rnd casefold mean L D A st w q nz Re Hw Eq Hq Cq Sn) as (R' & _ & Hc & _ & Hs & HR).
  rewrite (HR o top_k k F Hk H1) in H. injection H as <-. assert (Hu' : In (u, s) R') by (eapply firstn_In; eauto).
  rewrite (Hs u s Hu'). assert (Vu : In u (vocabulary st)) by (apply Hc, in_map_iff; exists (u, s); auto).
  rewrite vocabulary_in in Vu. destruct (in_wd st u Vu) as (i & Hi & <-).
  assert (Nn : nonneg (map (score5 rnd nz q (wd st i)) (n_list st))).
  { rewrite <- (vec_score5 rnd st I). destruct (vec_bounds rnd L st I q D (sane_measured rnd st q L I Sn) nz i Hi) as (B1 & B2 & _).
    clear - B1 B2. revert B1. induction B2 as [|a b l m H _ IH]; intros B; constructor; inversion B; subst; [eapply Qcle_trans; eauto|auto]. }
  assert (Nl : exists m, List.length (n_list st) = S m) by (destruct (n_list st); [congruence|eexists; reflexivity]).
  destruct Nl as [m Em]. rewrite Em in Sm. split.
  - rewrite <- (mean_zero _ A m Sm), <- Em. apply (mean_mono _ A).
    + clear. induction (List.length (n_list st)); cbn [repeat]; constructor; auto. apply Qcle_refl.
    + clear - Nn. induction (n_list st); cbn [map List.length repeat]; constructor; inversion Nn; subst; auto.
  - intros -> ->. rewrite <- (mean_one _ A m Sm), <- Em. apply (mean_mono _ A); [exact Nn|].
    assert (P : forall n, In n (n_list st) -> (0 < n)%Z) by (intros; eapply NL_pos; eauto).
    clear - P. induction (n_list st) as [|n nl IH]; cbn [map List.length repeat]; constructor.
    + apply score5_unit. apply P. left; auto.
    + apply IH. intros; apply P; right; auto.
Qed.
Print Assumptions v5b_range.

(** In binary64 a word of eight different letters is more than fully similar
    to itself: nine times 2/18, rounded after each addition. *)
Theorem v5b_normalized_range_refuted : exists st R s, reachable5b rnd64 lower st /\ n_list st = [2%Z] /\
  lookup5b rnd64 lower (mean1 rnd64) ord0 st (PStr (w_ "abcdefgh")) (PInt 1) true = Ok R /\ In (w_ "abcdefgh", s) R /\ 1 < s.
Proof.
  exists (built5b rnd64 [2%Z] PNone ["abcdefgh"]). do 2 eexists. split; [eapply built5b_reachable; vm_compute; reflexivity|].
  split; [vm_compute; reflexivity|]. split; [vm_compute; reflexivity|]. split; [left; reflexivity|]. vm_compute. reflexivity.
Qed.
Print Assumptions v5b_normalized_range_refuted.

(** With normalization and n-grams no longer than the padded query, an indexed
    query comes first with score 1, and everything else scores less. *)
Theorem v5b_self_first : forall casefold mean, strict_averaging mean -> forall st o w q top_k k,
  reachable5b exact casefold st -> fair o -> w <> [] -> q = (if case_insensitive st then casefold w else w) ->
  In q (vocabulary st) -> proper (n_list st) q -> small (List.length (n_list st)) ->
  (filter_n st = 0 \/ 1 <= filter_n st <= zlen q + 2)%Z -> as_int top_k = Some k -> (1 <= k)%Z ->
  exists rest, lookup5b exact casefold mean o st (PStr w) top_k true = Ok ((q, 1) :: rest) /\
    forall u s, In (u, s) rest -> u <> q /\ s < 1.
Proof.
  intros casefold mean M st o w q top_k k Re F Hw Eq Vq [N0 Pr] Sm Fi Hk H1. rewrite Forall_forall in Pr.
  destruct (reachable5b_inv exact casefold st eq_refl Re) as [I _]. assert (Vq' := Vq). rewrite vocabulary_in in Vq'.
  assert (Hq : q <> []) by (eapply words_nonempty; eauto). assert (Cq : clean q) by (eapply words_clean; eauto).
  destruct (v5b_lookup_ranked exact casefold mean lawful_exact exact_doubling (strict_avg _ M) st w q true Re Hw Eq Hq Cq (or_introl eq_refl)) as (R & Nd & Hc & So & Hs & HR).
  assert (M1 : mean (repeat 1 (List.length (n_list st))) = 1).
  { destruct (n_list st) as [|a l]; [congruence|]. apply (mean_one _ (strict_avg _ M)). exact Sm. }
  assert (P : forall n, In n (n_list st) -> (0 < n)%Z) by (intros; eapply NL_pos; eauto).
  assert (Sq : forall s, In (q, s) R -> s = 1).
  { intros s H. rewrite (Hs q s H). etransitivity; [|exact M1]. f_equal.
    assert (E : forall n, In n (n_list st) -> score5 exact true q q n = 1).
    { intros n Hn. symmetry. apply (score1_score5 q q n true); auto. apply score1_self; auto using lawful_exact. apply exact_faithful. }
    clear - E. induction (n_list st); cbn [map List.length repeat]; f_equal; [apply E; left; auto|]. apply IHl. intros; apply E; right; auto. }
  assert (So1 : forall u s, In (u, s) R -> u <> q -> s < 1).
  { intros u s H Nq. rewrite (Hs u s H), <- M1. assert (Vu : In u (vocabulary st)) by (apply Hc, in_map_iff; exists (u, s); auto).
    rewrite vocabulary_in in Vu. assert (Cu : clean u) by (eapply words_clean; eauto).
    assert (Lt : forall n, In n (n_list st) -> score5 exact true q u n < 1).
    { intros n Hn. destruct (shares_cases n q u (P n Hn)) as [S|S].
      - apply (score1_other q n u); auto. apply score1_shares; auto.
      - rewrite score5_no_share by auto. reflexivity. }
    apply (mean_strict _ M).
    - clear - P. induction (n_list st) as [|n nl IH]; cbn [map]; constructor; [apply score5_unit, P; left; auto|]. apply IH. intros; apply P; right; auto.
    - clear - P. induction (n_list st) as [|n nl IH]; cbn [map List.length repeat]; constructor; [apply score5_unit, P; left; auto|].
      apply IH. intros; apply P; right; auto.
    - intros C. destruct (n_list st) as [|n nl]; [congruence|]. cbn [map List.length repeat] in C. injection C as C _.
      specialize (Lt n (or_introl eq_refl)). rewrite C in Lt. discriminate. }
  assert (Cand : candidate (n_list st) (filter_n st) q q).
  { split.
    - destruct (n_list st) as [|a l]; [congruence|]. exists a. split; [left; auto|]. apply shares_self. left. apply Pr. left; auto.
    - destruct Fi as [Fi|Fi]; auto. right. apply shares_self. destruct (Z.eq_dec (filter_n st) 1); [right; split; auto|left; lia]. }
  assert (Iq : In q (map fst R)) by (apply Hc; auto).
  destruct R as [|[u s] R]; [destruct Iq|]. cbn [map fst] in Nd, Iq. apply NoDup_cons_iff in Nd. destruct Nd as [Nu _].
  assert (E : u = q).
  { destruct (list_eq_dec N.eq_dec u q) as [|N]; auto. exfalso. destruct Iq as [|Iq]; [contradiction|].
    apply in_map_iff in Iq. destruct Iq as ([q' s'] & E & Hi). cbn [fst] in E. subst q'.
    pose proof (Sq s' (or_intror Hi)) as ->. pose proof (So1 u s (or_introl eq_refl) N) as Hl. apply StronglySorted_inv in So. destruct So as [_ Fa].
    rewrite Forall_forall in Fa. specialize (Fa _ Hi). cbn [snd] in Fa. clear - Fa Hl. qclra. }
  subst u. rewrite (Sq s (or_introl eq_refl)) in *. exists (firstn (Z.to_nat k - 1) R). split.
  - rewrite (HR o top_k k F Hk H1). destruct (Z.to_nat k) as [|m] eqn:Em; [lia|]. cbn [firstn]. rewrite Nat.sub_0_r || replace (S m - 1)%nat with m by lia. reflexivity.
  - intros u s' Hu. apply firstn_In in Hu. assert (u <> q) by (intros ->; apply Nu, in_map_iff; exists (q, s'); auto).
    split; auto. apply (So1 u s'); auto. right; auto.
Qed.
Print Assumptions v5b_self_first.

Example ex_v5b_self_first :
  let st := built5b exact [2%Z; 3%Z] (PInt 2) ["aaaa"; "aa"; "baa"] in let r := lookup5b exact lower (mean1 exact) ord0 st (PStr (w_ "AA")) (PInt 2) true in
  proper (n_list st) (w_ "aa") /\ found5b r = [w_ "aa"; w_ "aaaa"] /\ Forall2 (fun a b => qeqb a b = true) (scores5b r) [1; f 17 24].
Proof. split; [split; [discriminate|]; repeat constructor; vm_compute; discriminate|]. vm_compute. repeat constructor. Qed.

(** *** C80: agreement with [ApproxWordListV5] *)

Lemma inv_weaken rnd casefold st : inv rnd casefold st -> inv rnd ident st.
Proof.
  intros I. constructor; try apply I. destruct (inv_words _ _ _ I) as [N H]. split; auto. eapply Forall_impl; [|exact H].
  intros w (A & B & _). split; auto. split; auto. apply fold_ident.
Qed.

Lemma added_agree casefold rnd st st' v : inv rnd ident st' -> word_list st = word_list st' -> case_insensitive st = case_insensitive st' ->
  added casefold st v = added5b casefold st' v.
Proof.
  intros I EW EC. destruct v as [w| | | |]; try reflexivity. unfold added, added5b. cbv zeta.
  assert (Ef : fold_case casefold st w = fold_case casefold st' w) by (unfold fold_case; rewrite EC; reflexivity). rewrite Ef.
  destruct w as [|c w]; [reflexivity|]. replace (zlen (c :: w) =? 0)%Z with false by reflexivity.
  destruct (fold_case casefold st' (c :: w)) as [|d u]; [reflexivity|]. replace (zlen (d :: u) =? 0)%Z with false by reflexivity. cbn [orb].
  rewrite EW. match goal with |- context [@in_dec ?T ?e ?x ?l] => destruct (@in_dec T e x l) as [Hi|Hi] end.
  - rewrite (proj2 (known_iff _ _ _ I _) Hi), orb_true_r. reflexivity.
  - match goal with |- context [dmem ?x ?y] => destruct (dmem x y) eqn:D end; [apply (known_iff _ _ _ I) in D; contradiction|].
    match goal with |- context [orb _ ?b] => assert (Db : b = false) by exact D; rewrite Db end. rewrite orb_false_r.
    match goal with |- context [clean_dec ?x] => destruct (clean_dec x) as [C|C] end; [rewrite (proj2 (marked_clean _) C)|rewrite (proj2 (marked_iff _) C)]; reflexivity.
Qed.

Lemma run_agree rnd casefold : rnd 0 = 0 -> (forall w, casefold (casefold w) = casefold w) -> forall calls calls',
  Forall (fun c => fair (fst c)) calls -> Forall (fun c => fair (fst c)) calls' -> map snd calls = map snd calls' ->
  forall st st', inv rnd casefold st -> inv rnd ident st' ->
  n_list st = n_list st' -> filter_n st = filter_n st' -> word_list st = word_list st' -> case_insensitive st = case_insensitive st' ->
  let r := run rnd casefold st calls in let r' := run5b rnd casefold st' calls' in
  inv rnd casefold r /\ inv rnd ident r' /\ n_list r = n_list r' /\ filter_n r = filter_n r' /\ word_list r = word_list r' /\
  case_insensitive r = case_insensitive r'.
Proof.
  intros R0 CI. induction calls as [|[o v] calls IH]; intros [|[o' v'] calls'] Fc Fc' E st st' I I' EN EF EW EC; try discriminate.
  - cbv zeta. unfold run, run5b. cbn [fold_left]. auto 6.
  - cbv zeta. unfold run, run5b. cbn [fold_left fst snd]. cbn [map snd] in E. injection E as Ev E. subst v'.
    inversion Fc; inversion Fc'; subst. cbn [fst] in *.
    destruct (add_word_spec rnd casefold R0 CI o st v I) as (I1 & N1 & C1 & F1 & W1 & _); [auto|].
    destruct (add_word5b_spec rnd R0 casefold o' st' v I') as (I2 & N2 & C2 & F2 & W2 & _); [auto|].
    apply (IH calls'); auto; try congruence.
    rewrite W1, W2, EW. f_equal. apply (added_agree casefold rnd); auto.
Qed.

Lemma mapM_firstn {A B} (g : A -> result B) l : forall k r, mapM g l = Ok r -> mapM g (firstn k l) = Ok (firstn k r).
Proof.
  induction l as [|a l IH]; intros k r H.
  - cbn in H. injection H as <-. rewrite !firstn_nil. reflexivity.
  - cbn [mapM] in H. apply bind_ok in H. destruct H as (b & Hb & H). apply bind_ok in H. destruct H as (bs & Hbs & H). injection H as <-.
    destruct k as [|k]; [reflexivity|]. cbn [firstn mapM]. rewrite Hb. cbn [bind]. rewrite (IH k bs Hbs). reflexivity.
Qed.

(** The same calls to both classes give the same vocabulary, and in real
    arithmetic whenever the original answers, this one answers with the first
    [top_k] of its entries (the original returns up to twice as many). *)
Theorem v5b_agrees : forall casefold mean, (forall w, casefold (casefold w) = casefold w) ->
  forall n c fn fn5 st0 st5, wl_init n (PBool c) fn = Ok st0 -> init5b n (PBool c) fn5 = Ok st5 -> good_filter fn5 fn ->
  forall calls calls', Forall (fun c => fair (fst c)) calls -> Forall (fun c => fair (fst c)) calls' -> map snd calls = map snd calls' ->
  let st := run exact casefold st0 calls in let st' := run5b exact casefold st5 calls' in
  vocabulary st = vocabulary st' /\
  forall o o' word top_k q k normalize R, fair o -> fair o' -> asks casefold st word top_k q k -> q <> [] ->
  lookup_v5 exact casefold mean o st word top_k normalize true = Ok R ->
  lookup5b exact casefold mean o' st' word top_k normalize = Ok (firstn (Z.to_nat k) R).
Proof.
  intros casefold mean CI n c fn fn5 st0 st5 E0 E5 Gf calls calls' F F' EM st st'.
  destruct (init_inv exact casefold n (PBool c) fn st0 E0) as (I0 & W0 & F0). destruct (init5b_inv exact n (PBool c) fn5 st5 E5) as (I5 & W5 & _).
  assert (X : n_list st0 = n_list st5 /\ filter_n st0 = filter_n st5 /\ case_insensitive st0 = case_insensitive st5).
  { unfold wl_init in E0. unfold init5b in E5. apply bind_ok in E0. destruct E0 as (nl & H1 & H2). cbn [as_int] in H2. injection H2 as <-.
    apply bind_ok in E5. destruct E5 as (nl' & H3 & H4). cbn [bind] in H4. apply bind_ok in H4. destruct H4 as (z & H4 & H5). injection H5 as <-.
    cbn [n_list filter_n case_insensitive]. split; [|split].
    - destruct n as [y|l|]; [| |discriminate]; cbn [sizes5b] in H3.
      + destruct (0 <? y)%Z; [|discriminate]. destruct (y <=? 0)%Z; [discriminate|]. congruence.
      + cbv zeta in H1, H3. destruct (forallb _ _); [|discriminate]. destruct (isort Z.leb (nodup eqd l)) eqn:El; [discriminate|]. destruct (existsb _ _); [discriminate|]. congruence.
    - destruct Gf as [[-> ->]|[Hf Pf]]; [congruence|]. destruct fn5; try discriminate; cbn [as_int] in *; injection Hf as <-;
        (match type of H4 with (if (?y <=? 0)%Z then _ else _) = _ => destruct (Z.leb_spec y 0) end; [lia|congruence]).
    - destruct c; reflexivity. }
  destruct X as (XN & XF & XC).
  destruct (run_agree exact casefold eq_refl CI calls calls' F F' EM st0 st5 I0 I5 XN XF ltac:(congruence) XC) as (J & J' & EN & EF & EW & EC).
  fold st in J, EN, EF, EW, EC. fold st' in J', EN, EF, EW, EC.
  split; [unfold vocabulary; rewrite EW; reflexivity|].
  intros o o' word top_k q k nz R Fo Fo' As Hq H. assert (As' := As). apply asks_checks in As'. unfold lookup_v5 in H. rewrite As' in H. cbn [bind] in H.
  apply bind_ok in H. destruct H as (sims & Hs & H). apply bind_ok in H. destruct H as (out & Ho & H). injection H as <-.
  destruct As as (w & -> & Hw & Eq & Cq & Hk & H1). unfold lookup5b.
  destruct (Z.eqb_spec (zlen w) 0) as [Z0|_]; [apply zlen0 in Z0; contradiction|]. rewrite Hk. destruct (Z.leb_spec k 0); [lia|]. cbv zeta.
  assert (Ef : fold_case casefold st' w = q) by (rewrite Eq; unfold fold_case; rewrite EC; reflexivity). rewrite Ef.
  destruct (Z.eqb_spec (zlen q) 0) as [Z0|_]; [apply zlen0 in Z0; contradiction|]. rewrite (proj2 (marked_clean q) Cq).
  rewrite (lookup_similarity_order exact ident mean o o' st st' q k nz (inv_weaken _ _ _ J) J' Fo Fo' EN EF EW) in Hs.
  rewrite (similarity_agree st' J' q mean o' k nz sims Hq H1 Hs). cbn [bind].
  rewrite isort_sorted_id.
  - rewrite <- EW. assert (Em : most_common qleb k sims = firstn (Z.to_nat k) (most_common qleb (k * 2) sims)).
    { unfold most_common. rewrite firstn_firstn. f_equal. lia. }
    rewrite Em. apply mapM_firstn. rewrite <- Ho. apply mapM_ext_in. intros e _. reflexivity.
  - pose proof (best_sorted qleb (snd : nat * Qc -> Qc) qleb_total qleb_trans sims) as S.
    assert (S' : StronglySorted (fun a b : nat * Qc => qleb (snd b) (snd a) = true) (most_common qleb (k * 2) sims)).
    { unfold most_common. apply sorted_firstn. exact S. }
    apply mapM_inv in Ho. clear - S' Ho. revert S'. induction Ho as [|e x l out Hx Ho IH]; intros S; [constructor|].
    inversion S as [|? ? S1 S2]; subst. constructor; [auto|]. apply bind_ok in Hx. destruct Hx as (z & _ & Hx). injection Hx as <-. cbn [snd].
    clear - S2 Ho. revert S2. induction Ho as [|e' y l out Hy Ho IH]; intros S2; [constructor|]. inversion S2; subst. constructor; auto.
    apply bind_ok in Hy. destruct Hy as (z & _ & Hy). injection Hy as <-. exact H1.
Qed.
Print Assumptions v5b_agrees.

Example ex_v5b_agrees :
  let words := ["ab"; "abc"; "xb"; "yb"] in let st := built [2%Z] 0 words in let st5 := built5b exact [2%Z] PNone words in
  let r := lookup_v5 exact lower (mean1 exact) ord0 st (PStr (w_ "abx")) (PInt 1) true true in
  let r5 := lookup5b exact lower (mean1 exact) ord0 st5 (PStr (w_ "abx")) (PInt 1) true in
  vocabulary st = vocabulary st5 /\ found5b r = [w_ "ab"; w_ "abc"] /\ found5b r5 = [w_ "ab"] /\
  forallb (fun e => qeqb (fst e) (snd e)) (combine (scores5b r5) (scores5b r)) = true.
Proof. vm_compute. auto. Qed.

(** The converse fails: where the original divides by zero this one answers. *)
Theorem v5b_agrees_converse_refuted : exists words R,
  lookup_v5 exact lower (mean1 exact) ord0 (built [2%Z; 4%Z] 0 words) (PStr (w_ "ab")) (PInt 5) true true = Err ZeroDivisionError /\
  lookup5b exact lower (mean1 exact) ord0 (built5b exact [2%Z; 4%Z] PNone words) (PStr (w_ "ab")) (PInt 5) true = Ok R /\ map fst R = [w_ "ab"].
Proof. exists ["ab"]. eexists. split; [vm_compute; reflexivity|]. split; vm_compute; reflexivity. Qed.
Print Assumptions v5b_agrees_converse_refuted.

(** In binary64 the two differ in the last place. *)
Theorem v5b_agrees_binary64_refuted : exists words s s5,
  lookup_v5 rnd64 lower (mean1 rnd64) ord0 (run rnd64 lower (fresh [2%Z] 0) (map (fun s => (ord0, PStr (w_ s))) words)) (PStr (w_ "abcdefgh")) (PInt 1) true true
    = Ok [(w_ "abcdefgh", s)] /\
  lookup5b rnd64 lower (mean1 rnd64) ord0 (built5b rnd64 [2%Z] PNone words) (PStr (w_ "abcdefgh")) (PInt 1) true = Ok [(w_ "abcdefgh", s5)] /\
  s = 1 /\ s < s5.
Proof.
  exists ["abcdefgh"]. do 2 eexists. split; [vm_compute; reflexivity|]. split; [vm_compute; reflexivity|].
  split; [apply Qc_is_canon; reflexivity|vm_compute; reflexivity].
Qed.
Print Assumptions v5b_agrees_binary64_refuted.
