(** Theorems about nmd/nmd_word_set.py ([WordSet]): properties C30 - C36 and
    C49, C50.

    [rnd] is any rounding ([exact] for real arithmetic), [casefold] any
    function, the normalizer any function that returns a string or raises, and
    each call iterates over its sets in any order. *)
From Coq Require Import ZArith NArith QArith Qcanon List Bool Permutation Lia Sorted String.
From Verif Require Import Num Py ListAux PyDict Float64 EmdSpec EmdModel EmdProofs EmdFloatProofs
  NmdSpec NmdModel NmdProofs NmdFloatProofs IndexModel WordSetSpec WordSetModel WordSetProofs WordSetScore Ex Props_Nmd Props_Index.
Import ListNotations.
Open Scope string_scope.
Open Scope list_scope.
Open Scope Qc_scope.

(** *** Construction *)

Definition normalizer_of (nz : nz_arg) : option (str -> option str) := match nz with ZCall f => Some f | _ => None end.

(** The integers an argument [ngram_sizes] stands for. *)
Definition asked_sizes (a : sizes_arg) (zs : list Z) : Prop :=
  match a with SInt z => zs = [z] | SIter l => l = map Some zs | SOther => False end.

Lemma all_ints_some l zs : all_ints l = Some zs <-> l = map Some zs.
Proof.
  revert zs. induction l as [|[z|] l IH]; intros zs; simpl.
  - split; [intros [= <-]; auto|]. destruct zs; [auto|discriminate].
  - destruct (all_ints l) as [zs'|] eqn:E.
    + split.
      * intros [= <-]. simpl. f_equal. apply IH. reflexivity.
      * destruct zs as [|z' zs0]; [discriminate|]. simpl. intros [= -> Hl]. f_equal. f_equal.
        apply IH in Hl. congruence.
    + split; [discriminate|]. destruct zs as [|z' zs0]; [discriminate|]. simpl. intros [= -> Hl].
      apply IH in Hl. discriminate.
  - split; [discriminate|]. destruct zs; discriminate.
Qed.

Lemma zleb_total a b : (a <=? b)%Z = true \/ (b <=? a)%Z = true. Proof. rewrite !Z.leb_le. lia. Qed.
Lemma zleb_trans a b c : (a <=? b)%Z = true -> (b <=? c)%Z = true -> (a <=? c)%Z = true. Proof. rewrite !Z.leb_le. lia. Qed.

Lemma sorted_lt l : StronglySorted (fun a b => (a <=? b)%Z = true) l -> NoDup l -> StronglySorted Z.lt l.
Proof.
  induction 1 as [|a l Hs IH Ha]; intros N; [constructor|]. inversion N; subst. constructor; auto.
  rewrite Forall_forall in *. intros b Hb. specialize (Ha b Hb). apply Z.leb_le in Ha.
  assert (a <> b) by (intros ->; contradiction). lia.
Qed.

Lemma check_sizes_ok a nl : check_sizes a = Ok nl <->
  exists zs, asked_sizes a zs /\ zs <> [] /\ Forall (fun z => (0 < z)%Z) zs /\
    nl = isort Z.leb (nodup eqd zs).
Proof.
  destruct a as [z|l|]; cbn [check_sizes asked_sizes].
  - destruct (Z.leb_spec z 0) as [L|L].
    + split; [discriminate|]. intros (zs & -> & _ & F & _). inversion F; subst. lia.
    + split.
      * intros [= <-]. exists [z]. repeat split; auto; try discriminate.
      * intros (zs & -> & _ & _ & ->). reflexivity.
  - destruct (all_ints l) as [zs|] eqn:E.
    + apply all_ints_some in E. subst l. cbv zeta.
      assert (P : forall z, In z (isort Z.leb (nodup eqd zs)) <-> In z zs).
      { intros z. rewrite <- (nodup_In eqd zs). split; apply Permutation_in; [apply isort_perm|symmetry; apply isort_perm]. }
      destruct (Nat.eqb (List.length (isort Z.leb (nodup eqd zs))) 0) eqn:E0; cbn [orb].
      * split; [discriminate|]. intros (zs' & E' & Hne & _ & _).
        assert (zs' = zs). { clear - E'. revert zs' E'. induction zs; intros [|z' zs']; simpl; try discriminate; auto. intros [= -> H]. f_equal. auto. }
        subst zs'. apply length_zero in E0. exfalso. destruct zs as [|z zs]; [congruence|].
        assert (In z (isort Z.leb (nodup eqd (z :: zs)))) by (apply P; left; auto). rewrite E0 in H. destruct H.
      * assert (zs <> []) by (intros ->; discriminate).
        destruct (existsb _ _) eqn:Ex.
        -- split; [discriminate|]. intros (zs' & E' & _ & F & _).
           assert (zs' = zs). { clear - E'. revert zs' E'. induction zs; intros [|z' zs']; simpl; try discriminate; auto. intros [= -> H]. f_equal. auto. }
           subst zs'. apply existsb_exists in Ex. destruct Ex as (z & I & Hz). apply P in I. rewrite Forall_forall in F.
           specialize (F z I). apply Z.leb_le in Hz. lia.
        -- split.
           ++ intros [= <-]. exists zs. repeat split; auto. apply Forall_forall. intros z I. apply P in I.
              destruct (Z.ltb_spec 0 z) as [|L]; auto. exfalso.
              assert (existsb (fun z => (z <=? 0)%Z) (isort Z.leb (nodup eqd zs)) = true).
              { apply existsb_exists. exists z. split; auto. apply Z.leb_le. exact L. }
              congruence.
           ++ intros (zs' & E' & _ & _ & ->).
              assert (zs' = zs). { clear - E'. revert zs' E'. induction zs; intros [|z' zs']; simpl; try discriminate; auto. intros [= -> H]. f_equal. auto. }
              subst. reflexivity.
    + split; [discriminate|]. intros (zs & -> & _). exfalso. assert (all_ints (map Some zs) = Some zs) by (apply all_ints_some; auto). congruence.
  - split; [discriminate|]. intros (zs & [] & _).
Qed.

(** *** C49: the constructor.  It succeeds exactly when the flag is a bool, the
    normalizer is [None] or callable, and the sizes are one or more positive
    integers; the sizes are then reported sorted and without repetition. *)
Theorem wordset_init_ok : forall cs nz sz,
  (exists st, ws_init cs nz sz = Ok st) <->
  (exists b, cs = PBool b) /\ nz <> ZOther /\
  exists zs, asked_sizes sz zs /\ zs <> [] /\ Forall (fun z => (0 < z)%Z) zs.
Proof.
  intros cs nz sz. unfold ws_init. split.
  - intros [st E]. destruct cs; try discriminate. cbn [bind] in E. split; [eauto|].
    destruct nz; try discriminate; cbn [bind] in E; (split; [discriminate|]); apply bind_ok in E; destruct E as (nl & E & _);
      apply check_sizes_ok in E; destruct E as (zs & A & B & C & _); exists zs; auto.
  - intros ([b ->] & Hn & zs & A & B & C).
    assert (E : check_sizes sz = Ok (isort Z.leb (nodup eqd zs))) by (apply check_sizes_ok; exists zs; auto).
    rewrite E. assert (exists fn, effective_filter (isort Z.leb (nodup eqd zs)) = Ok fn) as [fn Ef].
    { unfold effective_filter. destruct (in_dec eqd 3%Z _); [eauto|].
      destruct (isort Z.leb (nodup eqd zs)) as [|z l] eqn:Ez; [|eexists; reflexivity].
      exfalso. destruct zs as [|z zs]; [congruence|].
      assert (In z (isort Z.leb (nodup eqd (z :: zs)))).
      { eapply Permutation_in; [symmetry; apply isort_perm|]. apply nodup_In. left; auto. }
      rewrite Ez in H. destruct H. }
    destruct nz; try congruence; cbn [bind]; rewrite Ef; cbn [bind]; eauto.
Qed.
Print Assumptions wordset_init_ok.

Theorem wordset_init_sizes : forall cs nz sz st, ws_init cs nz sz = Ok st ->
  exists zs, asked_sizes sz zs /\ StronglySorted Z.lt (ws_n_list st) /\ (forall z, In z (ws_n_list st) <-> In z zs) /\
    ws_iter st = [] /\ ws_len st = 0%nat /\ cs = PBool (ws_case_sensitive st) /\ ws_normalizer st = normalizer_of nz.
Proof.
  intros cs nz sz st E. unfold ws_init in E. destruct cs; try discriminate. cbn [bind] in E.
  destruct nz; try discriminate; cbn [bind] in E; apply bind_ok in E; destruct E as (nl & En & E); apply bind_ok in E;
    destruct E as (fn & _ & E); injection E as <-; apply check_sizes_ok in En; destruct En as (zs & A & _ & _ & ->); exists zs;
    (split; [exact A|]); cbn [ws_n_list ws_iter ws_len ws_case_sensitive ws_normalizer];
    (split; [apply sorted_lt; [apply isort_sorted; [apply zleb_total|apply zleb_trans]|
       eapply Permutation_NoDup; [symmetry; apply isort_perm|apply NoDup_nodup]]|]);
    (split; [|repeat split]); intros z; rewrite <- (nodup_In eqd zs);
    split; apply Permutation_in; (apply isort_perm || (symmetry; apply isort_perm)).
Qed.
Print Assumptions wordset_init_sizes.

(** The exceptions: a TypeError, except that a single int that is not positive
    is a ValueError. *)
Theorem wordset_init_errors : forall cs nz sz e, ws_init cs nz sz = Err e ->
  e = TypeError \/ (e = ValueError /\ exists z, sz = SInt z /\ (z <= 0)%Z).
Proof.
  intros cs nz sz e E. unfold ws_init in E. destruct cs; cbn [bind] in E; try (injection E as <-; auto; fail).
  destruct nz; cbn [bind] in E; try (injection E as <-; auto; fail);
    (apply bind_err in E; destruct E as [E|(nl & En & E)];
     [destruct sz as [z|l|]; cbn [check_sizes] in E;
       [destruct (Z.leb_spec z 0); [injection E as <-; right; eauto|discriminate]
       |destruct (all_ints l); [cbv zeta in E; destruct (_ || _); [injection E as <-; auto|discriminate]|injection E as <-; auto]
       |injection E as <-; auto]
     |exfalso; apply bind_err in E; destruct E as [E|(fn & _ & E)]; [|discriminate];
      apply check_sizes_ok in En; destruct En as (zs & _ & Hne & _ & ->);
      unfold effective_filter in E; destruct (in_dec eqd 3%Z _); [discriminate|];
      destruct (isort Z.leb (nodup eqd zs)) as [|z l] eqn:Ez; [|discriminate];
      destruct zs as [|z zs]; [congruence|];
      assert (In z (isort Z.leb (nodup eqd (z :: zs)))) by
        (eapply Permutation_in; [symmetry; apply isort_perm|]; apply nodup_In; left; auto);
      rewrite Ez in *; contradiction]).
Qed.
Print Assumptions wordset_init_errors.

Example ex_init : match ws_init (PBool false) ZNone (SIter [Some 4; Some 2; Some 4; Some 3]%Z) with
  | Ok st => ws_n_list st = [2; 3; 4]%Z | Err _ => False end.
Proof. reflexivity. Qed.
Example ex_init_err : ws_init (PBool true) ZNone (SInt 0) = Err ValueError /\
  ws_init (PBool true) ZNone (SIter [Some 0%Z]) = Err TypeError.
Proof. split; reflexivity. Qed.

Lemma init_configured cs nz sz st : ws_init cs nz sz = Ok st -> exists ns fn, configured st ns fn /\ ns = map Z.to_nat (ws_n_list st).
Proof.
  intros E. destruct (wordset_init_sizes _ _ _ _ E) as (zs & A & Srt & In_ & _).
  assert (Pos : Forall (fun z => (0 < z)%Z) (ws_n_list st) /\ ws_n_list st <> []).
  { destruct (proj1 (wordset_init_ok cs nz sz) (ex_intro _ st E)) as (_ & _ & zs' & A' & Hne & F).
    assert (zs' = zs).
    { destruct sz; cbn [asked_sizes] in *; [congruence| |contradiction].
      rewrite A in A'. clear - A'. revert zs' A'. induction zs; intros [|z' zs']; simpl; try discriminate; auto. intros [= -> H]. f_equal. auto. }
    subst zs'. rewrite Forall_forall in *. split; [intros z I; apply F, In_, I|].
    destruct zs as [|z zs]; [congruence|]. intros E0. assert (In z (ws_n_list st)) by (apply In_; left; auto). rewrite E0 in H. destruct H. }
  destruct Pos as [Pos Ne].
  assert (Ef : exists f, effective_filter (ws_n_list st) = Ok f /\ ws_filter_n st = f).
  { unfold ws_init in E. destruct cs; try discriminate. cbn [bind] in E. destruct nz; try discriminate; cbn [bind] in E;
      apply bind_ok in E; destruct E as (nl & _ & E); apply bind_ok in E; destruct E as (fn & Ef & E); injection E as <-; eauto. }
  destruct Ef as (f & Ef & Ew).
  set (nl := ws_n_list st) in *.
  assert (Rt : map Z.of_nat (map Z.to_nat nl) = nl).
  { rewrite map_map. rewrite <- (map_id nl) at 2. apply map_ext_in. intros z I. rewrite Forall_forall in Pos. specialize (Pos z I). lia. }
  exists (map Z.to_nat nl), (option_map Z.to_nat f). split; auto. unfold configured. fold nl.
  split; [auto|]. split.
  { apply (NoDup_map_inv Z.of_nat). rewrite Rt. clear - Srt. induction Srt; constructor; auto.
    rewrite Forall_forall in H. intros I. specialize (H _ I). lia. }
  split. { apply Forall_forall. intros n I. apply in_map_iff in I. destruct I as (z & <- & I). rewrite Forall_forall in Pos. specialize (Pos z I). lia. }
  split. { intros E0. apply map_eq_nil in E0. auto. }
  unfold effective_filter in Ef.
  assert (In3 : In 3%nat (map Z.to_nat nl) <-> In 3%Z nl).
  { rewrite in_map_iff. split.
    - intros (z & Ez & I). rewrite Forall_forall in Pos. specialize (Pos z I). replace 3%Z with z by lia. auto.
    - intros I. exists 3%Z. auto. }
  destruct (in_dec eqd 3%Z nl) as [I3|I3].
  - injection Ef as <-. split; [rewrite Ew; reflexivity|]. left. split; [apply In3; auto|reflexivity].
  - destruct nl as [|m nl'] eqn:Enl; [congruence|]. cbn [py_get py_index zlen] in Ef. 
    assert (Ef' : Ok (if (m <=? 4)%Z then Some m else None) = Ok f) by exact Ef. injection Ef' as <-.
    inversion Srt as [|? ? _ Hm]; subst. inversion Pos as [|? ? Pm _]; subst.
    split.
    { rewrite Ew. destruct (m <=? 4)%Z; cbn [option_map]; [f_equal; lia|reflexivity]. }
    right. split; [intros H; apply I3, In3, H|]. exists (Z.to_nat m). split; [left; auto|]. split.
    + intros k [<-|I]; auto. apply in_map_iff in I. destruct I as (z & <- & I). rewrite Forall_forall in Hm. specialize (Hm z I). lia.
    + destruct (Z.leb_spec m 4), (Nat.leb_spec (Z.to_nat m) 4); cbn [option_map]; auto; lia.
Qed.

(** *** Concrete sets *)

Definition ws_fresh (b : bool) (sz : list Z) : wordset :=
  match ws_init (PBool b) ZNone (SIter (map Some sz)) with Ok st => st | Err _ =>
    {| ws_case_sensitive := b; ws_normalizer := None; ws_n_list := []; ws_filter_n := None; to_id := []; to_original := [];
       next_id := 0; word_info := []; filter_index := [] |} end.
Definition ws_built (b : bool) (sz : list Z) (words : list string) : wordset :=
  fst (ws_run exact lower (ws_fresh b sz) (map (fun s => (ord0, CAdd (PStr (w_ s)))) words)).
Definition ws_lists (r : result (list (str * Qc))) (l : list (string * Qc)) : bool :=
  match r with
  | Ok r => (List.length r =? List.length l)%nat &&
      forallb (fun ab => (if list_eq_dec N.eq_dec (fst (fst ab)) (w_ (fst (snd ab))) then true else false) &&
        qeqb (snd (fst ab)) (snd (snd ab))) (combine r l)
  | Err _ => false
  end.

(** *** C30: a set of normalized words *)

Theorem wordset_refines : forall rnd casefold b nz sz st0, ws_init (PBool b) nz sz = Ok st0 ->
  forall calls, Forall (fun c => fair (fst c)) calls ->
  let st := fst (ws_run rnd casefold st0 calls) in
  let answers := snd (ws_run rnd casefold st0 calls) in
  let norm := normal_form casefold b (normalizer_of nz) in
  let m := fst (spec_run norm [] (map snd calls)) in
  answers = snd (spec_run norm [] (map snd calls)) /\
  ws_len st = List.length m /\ ws_iter st = map snd m /\ forall v, ws_contains casefold st v = contains_spec norm m v.
Proof.
  intros rnd casefold b nz sz st0 E calls F st answers norm m.
  destruct (wordset_init_sizes _ _ _ _ E) as (_ & _ & _ & _ & _ & _ & Eb & En).
  assert (Hn : norm_of casefold st0 = norm). { unfold norm_of, norm. rewrite En. injection Eb as <-. reflexivity. }
  destruct (ws_run_spec rnd casefold calls F st0 [] (ws_init_repr rnd casefold _ _ _ _ E)) as (l & R & C & Er).
  rewrite Hn in Er. cbn [map] in Er. fold st answers in R, Er, C.
  assert (Em : m = map member l) by (unfold m; rewrite <- Er; reflexivity).
  split; [rewrite <- Er; reflexivity|]. rewrite Em, map_length. split; [eapply ws_len_repr; eauto|].
  split. { rewrite (ws_iter_repr rnd casefold st l R), map_map. reflexivity. }
  intros v. rewrite (ws_contains_repr rnd casefold st l v R). f_equal. rewrite <- Hn. apply norm_of_config. exact C.
Qed.
Print Assumptions wordset_refines.

(** A set built by a history.  [m] lists its words (normalized, as added). *)
Definition ws_reached (rnd : Qc -> Qc) (casefold : str -> str) (b : bool) (nz : nz_arg) (sz : sizes_arg)
    (cs : list command) (st : wordset) : Prop :=
  exists st0 calls, ws_init (PBool b) nz sz = Ok st0 /\ Forall (fun c => fair (fst c)) calls /\
    map snd calls = cs /\ st = fst (ws_run rnd casefold st0 calls).

Definition contents (casefold : str -> str) (b : bool) (nz : nz_arg) (cs : list command) : members :=
  fst (spec_run (normal_form casefold b (normalizer_of nz)) [] cs).

(** A word is in the set iff some successful [add] of it was not followed by a
    [discard], [remove] or [clear] (histories without [pop]). *)
Definition names (norm : str -> option str) (v : pyval) (u : str) : Prop := exists w, v = PStr w /\ norm w = Some u.
Definition takes_out (norm : str -> option str) (u : str) (c : command) : Prop :=
  match c with CDiscard v | CRemove v => names norm v u | CClear => True | _ => False end.
Definition puts_in (norm : str -> option str) (u : str) (c : command) : Prop :=
  match c with CAdd v => names norm v u /\ v <> PStr [] /\ u <> [] | _ => False end.

Lemma spec_run_app norm a b : forall m,
  spec_run norm m (a ++ b) =
  (fst (spec_run norm (fst (spec_run norm m a)) b), snd (spec_run norm m a) ++ snd (spec_run norm (fst (spec_run norm m a)) b)).
Proof.
  induction a as [|c a IH]; intros m; cbn [spec_run app fst snd].
  - destruct (spec_run norm m b); reflexivity.
  - destruct (command_spec norm m c) as [m1 r]. rewrite IH. destruct (spec_run norm m1 a) as [m2 rs]. cbn [fst snd].
    destruct (spec_run norm m2 b); reflexivity.
Qed.

Lemma holds_cons (u w : str) (m : members) x : holds ((u, w) :: m) x = (if eqd u x then true else false) || holds m x.
Proof. reflexivity. Qed.

Lemma without_holds m u v : holds (without m u) v = if eqd u v then false else holds m v.
Proof.
  destruct (eqd u v) as [->|D].
  - destruct (holds (without m v) v) eqn:E; auto. apply holds_in in E. apply in_map_iff in E. destruct E as (e & E & I).
    unfold without in I. apply filter_In in I. destruct I as [_ I]. destruct (eqd (fst e) v); [discriminate|congruence].
  - destruct (holds m v) eqn:E.
    + apply holds_in in E. apply holds_in. apply in_map_iff in E. destruct E as (e & E & I). apply in_map_iff. exists e. split; auto.
      unfold without. apply filter_In. split; auto. destruct (eqd (fst e) u); congruence.
    + destruct (holds (without m u) v) eqn:E2; auto. apply holds_in in E2. apply in_map_iff in E2. destruct E2 as (e & E2 & I).
      unfold without in I. apply filter_In in I. destruct I as [I _]. assert (holds m v = true); [|congruence].
      apply holds_in. apply in_map_iff. eauto.
Qed.

Lemma spec_step_holds norm m c u : c <> CPop ->
  holds (fst (command_spec norm m c)) u = true <->
  puts_in norm u c \/ (holds m u = true /\ ~ takes_out norm u c).
Proof.
  intros NP. assert (OnlyM : forall P : Prop, ~ P -> (holds m u = true <-> False \/ (holds m u = true /\ ~ P))) by tauto.
  destruct c as [v|v|v| |]; try congruence; cbn [command_spec puts_in takes_out].
  - destruct v as [w| | | |]; try (cbn [fst]; split; [auto|]; intros [[(w' & [=] & _) _]|[H _]]; exact H).
    destruct w as [|c w]; [cbn [fst]; split; [auto|]; intros [(_ & H & _)|[H _]]; [congruence|exact H]|].
    set (w0 := c :: w). destruct (norm w0) as [x|] eqn:En.
    2:{ cbn [fst]. split; [auto|]. intros [[(w' & Ew & H) _]|[H _]]; [|exact H]. injection Ew as <-. congruence. }
    destruct x as [|cx x].
    { cbn [fst]. split; [auto|]. intros [((w' & Ew & H) & _ & Hu)|[H _]]; [|exact H]. injection Ew as <-. congruence. }
    set (x0 := cx :: x) in *. destruct (holds m x0) eqn:Eh; cbn [fst].
    + split; [auto|]. intros [((w' & Ew & H) & _ & Hu)|[H _]]; [|exact H]. injection Ew as <-. congruence.
    + assert (HA : holds (m ++ [(x0, w0)]) u = holds m u || (if eqd x0 u then true else false)).
      { unfold holds. rewrite existsb_app. cbn [existsb fst]. rewrite orb_false_r. reflexivity. }
      transitivity (holds m u || (if eqd x0 u then true else false) = true); [apply Bool.eq_iff_eq_true; exact HA|].
      rewrite orb_true_iff. split.
      * intros [H|H]; [auto|]. destruct (eqd x0 u) as [<-|]; [|discriminate]. left. split; [exists w0; auto|].
        split; discriminate.
      * intros [((w' & Ew & H) & _ & Hu)|[H _]]; [|auto]. injection Ew as <-. right. destruct (eqd x0 u); congruence.
  - destruct v as [w| | | |]; try (cbn [fst]; split; [intros H; right; split; [exact H|]; intros (w' & [=] & _)|intros [[]|[H _]]; exact H]).
    destruct (norm w) as [x|] eqn:En.
    2:{ cbn [fst]. split; [|intros [[]|[H _]]; exact H]. intros H. right. split; auto. intros (w' & Ew & H'). injection Ew as <-. congruence. }
    cbn [fst]. rewrite without_holds. destruct (eqd x u) as [->|D].
    + split; [discriminate|]. intros [[]|[_ H]]. exfalso. apply H. exists w. auto.
    + split; [|intros [[]|[H _]]; exact H]. intros H. right. split; auto. intros (w' & Ew & H'). injection Ew as <-. congruence.
  - destruct v as [w| | | |]; try (cbn [fst]; split; [intros H; right; split; [exact H|]; intros (w' & [=] & _)|intros [[]|[H _]]; exact H]).
    destruct (norm w) as [x|] eqn:En.
    2:{ cbn [fst]. split; [|intros [[]|[H _]]; exact H]. intros H. right. split; auto. intros (w' & Ew & H'). injection Ew as <-. congruence. }
    destruct (holds m x) eqn:Eh; cbn [fst].
    + rewrite without_holds. destruct (eqd x u) as [->|D].
      * split; [discriminate|]. intros [[]|[_ H]]. exfalso. apply H. exists w. auto.
      * split; [|intros [[]|[H _]]; exact H]. intros H. right. split; auto. intros (w' & Ew & H'). injection Ew as <-. congruence.
    + split; [|intros [[]|[H _]]; exact H]. intros H. right. split; auto. intros (w' & Ew & H'). injection Ew as <-. congruence.
  - cbn [fst]. split; [discriminate|]. intros [[]|[_ H]]; tauto.
Qed.

Lemma spec_run_holds norm cs u : ~ In CPop cs ->
  holds (fst (spec_run norm [] cs)) u = true <->
  exists a c b, cs = a ++ c :: b /\ puts_in norm u c /\ Forall (fun d => ~ takes_out norm u d) b.
Proof.
  induction cs as [|c cs IH] using rev_ind; intros NP.
  - split; [discriminate|]. intros (a & c & b & E & _). destruct a; discriminate.
  - rewrite spec_run_app. cbn [fst]. assert (NP1 : ~ In CPop cs) by (intros I; apply NP, in_app_iff; auto).
    assert (NP2 : c <> CPop) by (intros ->; apply NP, in_app_iff; right; left; auto).
    cbn [spec_run]. destruct (command_spec norm (fst (spec_run norm [] cs)) c) as [m1 r] eqn:Ec.
    assert (m1 = fst (command_spec norm (fst (spec_run norm [] cs)) c)) as -> by (rewrite Ec; reflexivity).
    cbn [fst]. rewrite spec_step_holds, IH by auto. split.
    + intros [H|[(a & c' & b & -> & H1 & H2) H]].
      * exists cs, c, []. auto.
      * exists a, c', (b ++ [c]). split; [rewrite <- app_assoc; reflexivity|]. split; auto. apply Forall_app. auto.
    + intros (a & c' & b & E & H1 & H2). destruct b as [|x b0] using rev_ind.
      * apply app_inj_tail in E. destruct E as [_ <-]. auto.
      * clear IHb0. rewrite app_comm_cons, app_assoc in E. apply app_inj_tail in E. destruct E as [-> <-].
        apply Forall_app in H2. destruct H2 as [H2 H3]. inversion H3; subst. right. split; auto. exists a, c', b0. auto.
Qed.

Theorem wordset_contains_iff : forall rnd casefold b nz sz cs st, ws_reached rnd casefold b nz sz cs st -> ~ In CPop cs ->
  let norm := normal_form casefold b (normalizer_of nz) in
  forall w u, norm w = Some u ->
  ws_contains casefold st (PStr w) = Ok true <->
  exists before c after, cs = before ++ c :: after /\ puts_in norm u c /\ Forall (fun d => ~ takes_out norm u d) after.
Proof.
  intros rnd casefold b nz sz cs st (st0 & calls & E & F & <- & ->) NP norm w u Hu.
  destruct (wordset_refines rnd casefold b nz sz st0 E calls F) as (_ & _ & _ & H). rewrite H. cbn [contains_spec].
  fold norm. rewrite Hu. rewrite <- spec_run_holds by auto. split; congruence.
Qed.
Print Assumptions wordset_contains_iff.

Example ex_set : ws_iter (ws_built false [2; 3]%Z ["Apple"; "pear"; "APPLE"; "fig"]) = map w_ ["Apple"; "pear"; "fig"].
Proof. reflexivity. Qed.
Example ex_set_pop :
  let r := ws_run exact lower (ws_fresh false [2]%Z)
    (map (fun c => (ord0, c)) [CAdd (PStr (w_ "Apple")); CAdd (PStr (w_ "pear")); CRemove (PStr (w_ "aPPLE")); CRemove (PStr (w_ "apple"));
       CAdd (PStr (w_ "APPLE")); CPop; CAdd (PInt 3); CAdd (PStr [])]) in
  ws_iter (fst r) = [w_ "APPLE"] /\
  snd r = [Ok ANone; Ok ANone; Ok ANone; Err KeyError; Ok ANone; Ok (AWord (w_ "pear")); Err TypeError; Err ValueError].
Proof. vm_compute. split; reflexivity. Qed.

(** *** C31: a call that raises changes nothing *)

Lemma reached_repr rnd casefold b nz sz cs st : ws_reached rnd casefold b nz sz cs st ->
  exists l ns fn, repr rnd casefold st l /\ configured st ns fn /\ map member l = contents casefold b nz cs /\
    norm_of casefold st = normal_form casefold b (normalizer_of nz) /\
    ns = map Z.to_nat (ws_n_list st).
Proof.
  intros (st0 & calls & E & F & <- & ->). destruct (wordset_init_sizes _ _ _ _ E) as (_ & _ & _ & _ & _ & _ & Eb & En).
  assert (Hn : norm_of casefold st0 = normal_form casefold b (normalizer_of nz)).
  { unfold norm_of. rewrite En. injection Eb as <-. reflexivity. }
  destruct (ws_run_spec rnd casefold calls F st0 [] (ws_init_repr rnd casefold _ _ _ _ E)) as (l & R & C & Er).
  destruct (init_configured _ _ _ _ E) as (ns & fn & Cf & Hns). exists l, ns, fn. split; auto. split.
  { destruct C as (_ & _ & C1 & C2). destruct Cf as (A1 & A2 & A3 & A4 & A5 & A6). repeat split; auto; congruence. }
  split. { unfold contents. rewrite <- Hn. cbn [map] in Er. rewrite <- Er. reflexivity. }
  split. { rewrite <- Hn. apply norm_of_config, C. }
  destruct C as (_ & _ & C1 & _). rewrite C1. exact Hns.
Qed.

Theorem wordset_failed_no_effect : forall rnd casefold b nz sz cs st, ws_reached rnd casefold b nz sz cs st ->
  forall o c st' e, fair o -> ws_call rnd casefold o st c = (st', Err e) -> st' = st.
Proof.
  intros rnd casefold b nz sz cs st H o c st' e Fo E.
  destruct (reached_repr _ _ _ _ _ _ _ H) as (l & ns & fn & R & _).
  assert (D : forall v s e, ws_discard casefold o st v = (s, Err e) -> s = st).
  { intros v s e' Ed. destruct (ws_discard_spec rnd casefold o st l v Fo R) as (l' & _ & _ & Es). rewrite Ed in Es. cbn [snd] in Es.
    unfold ws_discard in Ed. destruct v as [w| | | |]; try congruence. cbn [command_spec] in Es. rewrite normalize_word_norm in Ed.
    destruct (norm_of casefold st w); [discriminate|congruence]. }
  destruct c as [v|v|v| |]; unfold ws_call in E.
  - unfold ws_add in E. destruct v as [w| | | |]; try congruence. destruct (Nat.eqb (List.length w) 0); [congruence|].
    destruct (normalize_word casefold st w) as [u|]; [|congruence]. destruct (Nat.eqb (List.length u) 0); [congruence|].
    destruct (dmem u (to_id st)); discriminate.
  - eapply D; eauto.
  - unfold ws_remove in E. destruct v as [w| | | |]; try congruence. destruct (normalize_word casefold st w) as [u|]; [|congruence].
    destruct (dmem u (to_id st)); [eapply D; eauto|congruence].
  - unfold ws_pop in E. destruct (ws_iter st) as [|w ws]; [congruence|].
    destruct (ws_discard casefold o st (PStr w)) as [s r] eqn:Ed. injection E as <- Er.
    destruct r; [discriminate|]. eapply D; eauto.
  - discriminate.
Qed.
Print Assumptions wordset_failed_no_effect.

(** *** C32: the index stays consistent *)

Theorem wordset_index_consistent : forall rnd casefold b nz sz cs st, ws_reached rnd casefold b nz sz cs st ->
  (forall g ids, In (g, ids) (filter_index st) -> ids <> [] /\ StronglySorted lt ids /\ dget g (filter_index st) = Some ids) /\
  (forall g i, (exists ids, In (g, ids) (filter_index st) /\ In i ids) <->
     exists u n, dget u (to_id st) = Some i /\ ws_filter_n st = Some n /\ In g (grams (Z.to_nat n) u)) /\
  (forall u i, dget u (to_id st) = Some i ->
     exists w info, dget i (to_original st) = Some w /\ dget i (word_info st) = Some info /\
       normal_form casefold b (normalizer_of nz) w = Some u).
Proof.
  intros rnd casefold b nz sz cs st H. destruct (reached_repr _ _ _ _ _ _ _ H) as (l & ns & fn & R & C & _ & Hn & _).
  assert (N : NoDup (map e_id l)) by (apply asc_NoDup, R).
  assert (Id : forall u i, dget u (to_id st) = Some i <-> exists e, In e l /\ e_norm e = u /\ e_id e = i).
  { intros u i. rewrite (r_ids _ _ _ _ R). split.
    - intros E. apply dget_In in E. apply in_map_iff in E. destruct E as (e & E & I). exists e. unfold id_pair in E. injection E as <- <-. auto.
    - intros (e & I & <- & <-). apply (dget_map e_norm e_id); auto. apply R. }
  split; [|split].
  - intros g ids I. split; [apply (r_ixne _ _ _ _ R g ids I)|].
    apply In_dget in I; [|apply R]. split; auto. pose proof (r_ixasc _ _ _ _ R g) as A. unfold dgetl in A. rewrite I in A. exact A.
  - intros g i. assert (Hx : (exists ids, In (g, ids) (filter_index st) /\ In i ids) <-> In i (dgetl g (filter_index st))).
    { unfold dgetl. split.
      - intros (ids & I & Hi). apply In_dget in I; [|apply R]. rewrite I. exact Hi.
      - destruct (dget g (filter_index st)) as [ids|] eqn:E; [|intros []]. intros Hi. exists ids. split; auto. apply dget_In; auto. }
    rewrite Hx, (r_ix _ _ _ _ R). destruct C as (C1 & C2 & C3 & C4 & C5 & C6).
    split.
    + intros (e & I & <- & Hg). apply (fgrams_grams st ns fn) in Hg; [|repeat split; auto]. destruct Hg as (n & -> & Hg).
      exists (e_norm e), (Z.of_nat n). split; [apply Id; eauto|]. split; [exact C5|]. rewrite Nat2Z.id. exact Hg.
    + intros (u & n & Hu & Hn' & Hg). apply Id in Hu. destruct Hu as (e & I & <- & <-). exists e. split; auto. split; auto.
      apply (fgrams_grams st ns fn); [repeat split; auto|]. rewrite C5 in Hn'. destruct fn as [m|]; [|discriminate].
      injection Hn' as <-. rewrite Nat2Z.id in Hg. eauto.
  - intros u i Hu. apply Id in Hu. destruct Hu as (e & I & <- & <-). exists (e_word e), (compute_word_info rnd st (e_norm e)).
    split. { rewrite (r_orig _ _ _ _ R). apply (dget_map e_id e_word); auto. }
    split. { rewrite (r_info _ _ _ _ R). apply (dget_map e_id (fun e => compute_word_info rnd st (e_norm e))); auto. }
    pose proof (r_norm _ _ _ _ R) as Nm. rewrite Forall_forall in Nm. destruct (Nm e I) as [E _].
    rewrite normalize_word_norm, Hn in E. destruct (normal_form _ _ _ _); congruence.
Qed.
Print Assumptions wordset_index_consistent.

(** [find_similar] raises only for bad arguments. *)
Definition valid_k (k : pyval) (n : Z) : Prop := as_int k = Some n /\ (0 < n)%Z.
Definition valid_threshold (t : ms_arg) : Prop :=
  match t with MNone => True | MNum q => 0 <= q <= 1 | MOther => False end.

Lemma check_find_ok q k t a n : check_find q k t = Ok (a, n) <-> q = PStr a /\ valid_k k n /\ valid_threshold t.
Proof.
  unfold check_find, valid_k, valid_threshold. destruct q as [s| | | |]; try (split; [discriminate|intros ([=] & _)]).
  destruct (as_int k) as [z|]; [|split; [discriminate|intros (_ & ([=] & _) & _)]].
  destruct (Z.leb_spec z 0) as [L|L].
  - split; [discriminate|]. intros (_ & ([= ->] & H) & _). lia.
  - destruct t as [|x|].
    + split; [intros [= <- <-]; auto|]. intros ([= ->] & ([= ->] & _) & _). reflexivity.
    + destruct (qleb 0 x && qleb x 1) eqn:E.
      * apply andb_true_iff in E. rewrite !qleb_le in E. split; [intros [= <- <-]; auto|]. intros ([= ->] & ([= ->] & _) & _). reflexivity.
      * split; [discriminate|]. intros (_ & _ & H). exfalso. rewrite <- !qleb_le, <- andb_true_iff in H. congruence.
    + split; [discriminate|]. intros (_ & _ & []).
Qed.

Theorem find_similar_errors : forall rnd casefold b nz sz cs st, ws_reached rnd casefold b nz sz cs st ->
  let norm := normal_form casefold b (normalizer_of nz) in
  forall o q k t, fair o ->
  (find_similar rnd casefold o st q k t = Err TypeError <-> ~ exists a, q = PStr a) /\
  (find_similar rnd casefold o st q k t = Err ValueError <->
     exists a, q = PStr a /\ ((~ exists n, valid_k k n) \/ ~ valid_threshold t \/
       (a <> [] /\ ws_len st <> 0%nat /\ norm a = None))) /\
  (forall e, find_similar rnd casefold o st q k t = Err e -> e = TypeError \/ e = ValueError).
Proof.
  intros rnd casefold b nz sz cs st H norm o q k t Fo.
  destruct (reached_repr _ _ _ _ _ _ _ H) as (l & ns & fn & R & C & Em & Hn & _). fold norm in Hn.
  rewrite (find_similar_value rnd casefold o st ns fn l q k t Fo C R). rewrite Hn.
  rewrite (ws_len_repr rnd casefold st l R).
  destruct (check_find q k t) as [[a n]|e] eqn:Ec; cbn [bind].
  - apply check_find_ok in Ec. destruct Ec as (-> & Vk & Vt).
    assert (Z0 : Nat.eqb (List.length a) 0 || Nat.eqb (List.length l) 0 = true <-> a = [] \/ List.length l = 0%nat).
    { rewrite orb_true_iff, length_zero, Nat.eqb_eq. reflexivity. }
    destruct (Nat.eqb (List.length a) 0 || Nat.eqb (List.length l) 0) eqn:E0.
    + split; [split; [discriminate|intros X; exfalso; eauto]|]. split; [|discriminate]. split; [discriminate|].
      intros (a' & [= <-] & [X|[X|(X & Y & _)]]); exfalso; eauto. destruct (proj1 Z0 eq_refl); auto.
    + assert (a <> [] /\ List.length l <> 0%nat) as [Ha Hl].
      { split; intros X; assert (false = true) by (apply Z0; auto); discriminate. }
      destruct (norm a) as [u|] eqn:En.
      * split; [split; [discriminate|intros X; exfalso; eauto]|]. split; [|discriminate]. split; [discriminate|].
        intros (a' & [= <-] & [X|[X|(X & Y & Hz)]]); exfalso; eauto. congruence.
      * split; [split; [discriminate|intros X; exfalso; eauto]|]. split; [|intros e [= <-]; auto]. split; auto.
        intros _. exists a. split; auto. 
  - assert (Ce : (q = match q with PStr a => PStr a | x => x end) /\
       ((e = TypeError /\ ~ exists a, q = PStr a) \/ (e = ValueError /\ exists a, q = PStr a))).
    { split; [destruct q; reflexivity|]. unfold check_find in Ec. destruct q as [s| | | |];
        try (left; injection Ec as <-; split; [reflexivity|intros [a [=]]]; fail).
      right. split; [|eauto]. destruct (as_int k) as [z|]; [|congruence]. destruct (z <=? 0)%Z; [congruence|].
      destruct t; try congruence. destruct (_ && _); congruence. }
    destruct Ce as [_ [[-> Hq]|[-> [a ->]]]].
    + split; [split; auto|]. split; [split; [discriminate|intros (a & -> & _); exfalso; eauto]|]. intros e' [= <-]; auto.
    + split; [split; [discriminate|intros X; exfalso; eauto]|]. split; [|intros e' [= <-]; auto]. split; auto. intros _.
      exists a. split; auto. assert (Hd : (exists n, valid_k k n) \/ ~ exists n, valid_k k n).
      { unfold valid_k. destruct (as_int k) as [z|].
        - destruct (Z.ltb_spec 0 z); [left; exists z; auto|right; intros (n & [= ->] & X); lia].
        - right. intros (n & [=] & _). }
      destruct Hd as [[n Vn]|Hd]; auto. right. left. intros Vt.
      assert (check_find (PStr a) k t = Ok (a, n)) by (apply check_find_ok; auto). congruence.
Qed.
Print Assumptions find_similar_errors.

Example ex_errors :
  let st := ws_built false [2; 3]%Z ["Apple"; "pear"] in
  find_similar exact lower ord0 st (PInt 3) (PInt 5) MNone = Err TypeError /\
  find_similar exact lower ord0 st (PStr (w_ "a")) (PInt 0) MNone = Err ValueError /\
  find_similar exact lower ord0 st (PStr [0%N]) (PInt 5) MNone = Err ValueError.
Proof. vm_compute. repeat split. Qed.

(** *** C33: the k best *)

(** The size configuration of a set. *)
Definition sizes_of (st : wordset) : list nat := map Z.to_nat (ws_n_list st).
Definition filter_of (st : wordset) : option nat := option_map Z.to_nat (ws_filter_n st).

(** The filter size follows from the sizes. *)
Theorem wordset_filter_size : forall rnd casefold b nz sz cs st, ws_reached rnd casefold b nz sz cs st ->
  filter_size (sizes_of st) (filter_of st) /\ NoDup (sizes_of st) /\ Forall (fun n => (1 <= n)%nat) (sizes_of st).
Proof.
  intros rnd casefold b nz sz cs st H. destruct (reached_repr _ _ _ _ _ _ _ H) as (l & ns & fn & R & C & Em & Hn & Hs).
  fold (sizes_of st) in Hs. destruct C as (C1 & C2 & C3 & C4 & C5 & C6). rewrite <- Hs. unfold filter_of. rewrite C5.
  assert (option_map Z.to_nat (option_map Z.of_nat fn) = fn) as -> by (destruct fn; cbn; rewrite ?Nat2Z.id; reflexivity). auto.
Qed.
Print Assumptions wordset_filter_size.

Lemma reached_conf rnd casefold b nz sz cs st : ws_reached rnd casefold b nz sz cs st ->
  exists l, repr rnd casefold st l /\ configured st (sizes_of st) (filter_of st) /\ map member l = contents casefold b nz cs /\
    norm_of casefold st = normal_form casefold b (normalizer_of nz).
Proof.
  intros H. destruct (reached_repr _ _ _ _ _ _ _ H) as (l & ns & fn & R & C & Em & Hn & Hs). fold (sizes_of st) in Hs. subst ns.
  exists l. split; auto. split; auto. assert (fn = filter_of st) as <-; auto.
  destruct C as (_ & _ & _ & _ & C5 & _). unfold filter_of. rewrite C5. destruct fn; cbn; rewrite ?Nat2Z.id; reflexivity.
Qed.

Lemma asc_before (l : list entry) x y : asc (map e_id l) -> In x l -> In y l -> (e_id x < e_id y)%nat ->
  exists a b c, l = a ++ x :: b ++ y :: c.
Proof.
  intros A Ix Iy D. apply in_split in Ix. destruct Ix as (a & r & ->).
  rewrite map_app in A. cbn [map] in A. apply in_app_iff in Iy. destruct Iy as [Iy|[->|Iy]]; [|lia|].
  - exfalso. clear - A Iy D. induction a as [|z a IH]; [destruct Iy|]. cbn [map app] in A. inversion A; subst. destruct Iy as [->|Iy]; auto.
    rewrite Forall_forall in H2. assert (e_id y < e_id x)%nat by (apply H2, in_app_iff; right; left; auto). lia.
  - apply in_split in Iy. destruct Iy as (b & c & ->). exists a, b, c. reflexivity.
Qed.

Lemma sorted_map_nodup (P Q : entry -> entry -> Prop) l : NoDup l ->
  (forall a b, In a l -> In b l -> a <> b -> P a b -> Q a b) -> StronglySorted P l -> StronglySorted Q l.
Proof.
  induction l as [|a l IH]; intros N H S0; [constructor|]. inversion N; subst. inversion S0; subst. constructor.
  - apply IH; auto. intros; apply H; simpl; auto.
  - rewrite Forall_forall in *. intros b Hb. apply H; simpl; auto. intros ->. contradiction.
Qed.

Lemma StronglySorted_map {A B} (f : A -> B) P l : StronglySorted (fun a b => P (f a) (f b)) l -> StronglySorted P (map f l).
Proof.
  induction 1 as [|a l Hs IH Ha]; simpl; constructor; auto. rewrite Forall_forall in *. intros b I.
  apply in_map_iff in I. destruct I as (c & <- & I). auto.
Qed.

Lemma NoDup_of_map {A B} (f : A -> B) l : NoDup (map f l) -> NoDup l.
Proof. apply NoDup_map_inv. Qed.

Theorem find_similar_ranking : forall rnd ns, exists score : str -> str -> Qc,
  (forall q w, 0 <= score q w <= 1) /\
  (rnd = exact -> NoDup ns -> Forall (fun n => (1 <= n)%nat) ns ->
     forall q w, ((0 < total_grams ns q + total_grams ns w)%nat -> is_score ns q w (score q w)) /\
       ((0 < total_grams ns q)%nat -> score q w = 1 <-> q = w)) /\
  (lawful rnd -> forall w, (0 < total_grams ns w)%nat -> small (total_grams ns w + total_grams ns w) -> score w w = 1) /\
  forall casefold b nz sz cs st, ws_reached rnd casefold b nz sz cs st -> sizes_of st = ns ->
  let m := contents casefold b nz cs in
  let norm := normal_form casefold b (normalizer_of nz) in
  forall o a k n t u, fair o -> valid_k k n -> valid_threshold t -> a <> [] -> norm a = Some u -> u <> [] ->
  exists ranking : members,
    NoDup ranking /\
    (forall x, In x ranking <-> In x m /\ eligible ns (filter_of st) u (fst x)) /\
    StronglySorted (fun x y => score u (fst y) < score u (fst x) \/ (score u (fst x) = score u (fst y) /\ before m x y)) ranking /\
    find_similar rnd casefold o st (PStr a) k t =
      Ok (map (fun x => (snd x, score u (fst x))) (firstn (Z.to_nat n) ranking)).
Proof.
  intros rnd ns. exists (wscore rnd ns). split; [apply wscore_range|]. split.
  { intros -> N P q w. split; [intros T; apply wscore_is_score; auto|]. intros T. apply wscore_one_iff; auto. }
  split. { intros L w T Sm. apply wscore_self; auto. }
  intros casefold b nz sz cs st H Hs m norm o a k n t u Fo Vk Vt Ha Hu Hne.
  destruct (reached_conf _ _ _ _ _ _ _ H) as (l & R & C & Em & Hn). rewrite Hs in C. fold m in Em. fold norm in Hn.
  set (fn := filter_of st) in *. set (es := filter (fun e => eligibleb ns fn u (e_norm e)) l).
  assert (N : NoDup (map e_id l)) by (apply asc_NoDup, R).
  assert (Pm : Permutation (ranked rnd ns u es) es) by apply isort_perm.
  assert (Inl : forall e, In e (ranked rnd ns u es) <-> In e l /\ eligible ns fn u (e_norm e)).
  { intros e. rewrite <- eligibleb_iff. unfold es in *. rewrite <- (filter_In (fun e => eligibleb ns fn u (e_norm e))).
    split; apply Permutation_in; [exact Pm|symmetry; exact Pm]. }
  assert (Nr : NoDup (map e_norm (ranked rnd ns u es))).
  { eapply Permutation_NoDup; [apply Permutation_map; symmetry; exact Pm|]. apply NoDup_map_filter, R. }
  exists (map member (ranked rnd ns u es)). split; [|split; [|split]].
  - apply (NoDup_of_map fst). rewrite member_keys. exact Nr.
  - intros x. rewrite <- Em. rewrite !in_map_iff. split.
    + intros (e & <- & I). apply Inl in I. destruct I as [I El]. split; [exists e; auto|exact El].
    + intros [(e & <- & I) El]. exists e. split; auto. apply Inl. auto.
  - apply StronglySorted_map. cbn [member fst].
    apply (sorted_map_nodup (fun a b => scored_leb (key rnd ns u a) (key rnd ns u b) = true)).
    + apply (NoDup_of_map e_norm). exact Nr.
    + intros x y Ix Iy D Le. apply Inl in Ix, Iy. destruct Ix as [Ix _], Iy as [Iy _]. apply scored_leb_iff in Le. unfold key in Le. cbn [fst snd] in Le.
      destruct Le as [Le|[Eq Le]].
      * left. set (p := wscore rnd ns u (e_norm x)) in *. set (r := wscore rnd ns u (e_norm y)) in *. clearbody p r. clear - Le. qclra.
      * right. split.
        { set (p := wscore rnd ns u (e_norm x)) in *. set (r := wscore rnd ns u (e_norm y)) in *. clearbody p r. clear - Eq.
          rewrite <- (Qcopp_involutive p), Eq. apply Qcopp_involutive. }
        assert (e_id x <> e_id y). { intros E. apply D. apply (NoDup_map_eq e_id l); auto. }
        destruct (asc_before l x y) as (a1 & b1 & c1 & El); [apply R|auto|auto|lia|].
        exists (map member a1), (map member b1), (map member c1). rewrite <- Em, El, map_app. cbn [map]. rewrite map_app. reflexivity.
    + apply (isort_sorted (fun a b => scored_leb (key rnd ns u a) (key rnd ns u b))).
      * intros x y. apply scored_leb_total.
      * intros x y z. apply scored_leb_trans.
  - rewrite (find_similar_value rnd casefold o st ns fn l (PStr a) k t Fo C R).
    assert (check_find (PStr a) k t = Ok (a, n)) as -> by (apply check_find_ok; auto). cbn [bind].
    assert (Nat.eqb (List.length a) 0 = false) as -> by (destruct a; [congruence|reflexivity]).
    rewrite Hn, Hu. assert (Nat.eqb (List.length u) 0 = false) as -> by (destruct u; [congruence|reflexivity]).
    cbn [orb]. unfold answer_of. fold es. destruct (Nat.eqb (List.length l) 0) eqn:El.
    + apply length_zero in El. unfold es. rewrite El. cbn. rewrite firstn_nil. reflexivity.
    + rewrite firstn_map, map_map. reflexivity.
Qed.
Print Assumptions find_similar_ranking.

(** Read off: the number of results, and that nothing omitted scores higher. *)
Theorem find_similar_k_best : forall rnd casefold b nz sz cs st, ws_reached rnd casefold b nz sz cs st ->
  let m := contents casefold b nz cs in
  let norm := normal_form casefold b (normalizer_of nz) in
  forall o a k n t u, fair o -> valid_k k n -> valid_threshold t -> a <> [] -> norm a = Some u -> u <> [] ->
  exists (score : str -> Qc) (best rest : members),
    (forall w, 0 <= score w <= 1) /\
    find_similar rnd casefold o st (PStr a) k t = Ok (map (fun x => (snd x, score (fst x))) best) /\
    NoDup (best ++ rest) /\ (forall x, In x (best ++ rest) <-> In x m /\ eligible (sizes_of st) (filter_of st) u (fst x)) /\
    (Z.of_nat (List.length best) <= n)%Z /\ (rest <> [] -> Z.of_nat (List.length best) = n) /\
    StronglySorted (fun x y => score (fst y) <= score (fst x)) best /\
    (forall x y, In x best -> In y rest -> score (fst y) <= score (fst x)).
Proof.
  intros rnd casefold b nz sz cs st H m norm o a k n t u Fo Vk Vt Ha Hu Hne.
  destruct (find_similar_ranking rnd (sizes_of st)) as (score & Sr & _ & _ & Hr).
  destruct (Hr casefold b nz sz cs st H eq_refl o a k n t u Fo Vk Vt Ha Hu Hne) as (rk & Nd & Mem & Srt & Ef).
  exists (score u), (firstn (Z.to_nat n) rk), (skipn (Z.to_nat n) rk). rewrite firstn_skipn. split; [auto|].
  split; [exact Ef|]. split; [exact Nd|]. split; [exact Mem|]. destruct Vk as [_ Vk].
  split; [rewrite firstn_length; lia|].
  split. { intros Hne'. rewrite firstn_length. assert (Z.to_nat n < List.length rk)%nat; [|lia].
    destruct (Nat.lt_ge_cases (Z.to_nat n) (List.length rk)) as [|G]; auto. exfalso. apply Hne'. apply skipn_all2. exact G. }
  assert (Le : StronglySorted (fun x y => score u (fst y) <= score u (fst x)) rk).
  { clear - Srt. induction Srt as [|x l Hs IH Hx]; constructor; auto. eapply Forall_impl; [|exact Hx]. intros y [L|[-> _]]; [apply Qclt_le_weak; auto|apply Qcle_refl]. }
  clear - Le. rewrite <- (firstn_skipn (Z.to_nat n) rk) in Le. revert Le. generalize (firstn (Z.to_nat n) rk), (skipn (Z.to_nat n) rk).
  intros l1 l2. induction l1 as [|x l1 IH]; cbn [app]; intros Le.
  - split; [constructor|intros ? ? []].
  - inversion Le; subst. destruct (IH H1) as [A B]. rewrite Forall_forall in H2. split.
    + constructor; auto. apply Forall_forall. intros y I. apply H2, in_app_iff. auto.
    + intros y z [<-|I] J; auto. apply H2, in_app_iff. auto.
Qed.
Print Assumptions find_similar_k_best.

Example ex_find :
  ws_lists (find_similar exact lower ord0 (ws_built false [2; 3]%Z ["Apple"; "applet"; "pear"; "fig"; "APPLY"]) (PStr (w_ "appl")) (PInt 3) MNone)
    [("Apple", f 269 400); ("APPLY", f 269 400); ("applet", f 131 220)] = true.
Proof. vm_compute. reflexivity. Qed.

(** *** C34: a member is found first, with similarity 1 *)

Theorem eligible_self : forall rnd casefold b nz sz cs st, ws_reached rnd casefold b nz sz cs st ->
  forall u, eligible (sizes_of st) (filter_of st) u u <->
    match filter_of st with
    | Some n => (n <= List.length u + 2)%nat
    | None => exists n, In n (sizes_of st) /\ (n <= List.length u + 2)%nat
    end.
Proof.
  intros rnd casefold b nz sz cs st H u. unfold eligible. destruct (filter_of st) as [n|].
  - unfold share_gram. split.
    + intros (g & Hg & _). unfold grams, gram_count in Hg. destruct (Nat.le_gt_cases n (List.length u + 2)); auto.
      replace (List.length u + 2 + 1 - n)%nat with 0%nat in Hg by lia. destruct Hg.
    + intros L. exists (gram_at n u 0). assert (In (gram_at n u 0) (grams n u)); auto.
      unfold grams. apply in_map. apply in_seq. unfold gram_count. lia.
  - split.
    + unfold total_grams. induction (sizes_of st) as [|n ns IH]; cbn [map list_sum fold_right]; [lia|]. intros T.
      destruct (Nat.le_gt_cases n (List.length u + 2)) as [L|G]; [exists n; simpl; auto|].
      destruct IH as (k & I & L). { assert (gram_count n u = 0%nat) as G0 by (unfold gram_count; lia). unfold list_sum in *. rewrite G0 in T. lia. }
      exists k. simpl. auto.
    + intros (n & I & L). assert (0 < total_grams (sizes_of st) u)%nat; [|lia]. eapply total_pos; eauto. unfold gram_count. lia.
Qed.
Print Assumptions eligible_self.

Lemma eligible_self_total rnd casefold b nz sz cs st : ws_reached rnd casefold b nz sz cs st ->
  forall u, eligible (sizes_of st) (filter_of st) u u -> (0 < total_grams (sizes_of st) u)%nat.
Proof.
  intros H u E. pose proof (proj1 (eligible_self _ _ _ _ _ _ _ H u) E) as G.
  destruct (wordset_filter_size _ _ _ _ _ _ _ H) as (Fs & _ & _). destruct (filter_of st) as [n|] eqn:Ef.
  - assert (In n (sizes_of st)).
    { destruct Fs as [[I Ek]|(_ & k & I & _ & Ek)]; [injection Ek as ->; auto|]. destruct (k <=? 4)%nat; [|discriminate]. injection Ek as ->. auto. }
    eapply total_pos; eauto. unfold gram_count. lia.
  - destruct G as (n & I & L). eapply total_pos; eauto. unfold gram_count. lia.
Qed.

Lemma contains_member rnd casefold b nz sz cs st a u : ws_reached rnd casefold b nz sz cs st ->
  normal_form casefold b (normalizer_of nz) a = Some u -> ws_contains casefold st (PStr a) = Ok true ->
  exists w, In (u, w) (contents casefold b nz cs).
Proof.
  intros H Hu Hc. destruct (reached_conf _ _ _ _ _ _ _ H) as (l & R & _ & Em & Hn).
  rewrite (ws_contains_repr rnd casefold st l _ R) in Hc. rewrite Hn, Em in Hc. cbn [contains_spec] in Hc. rewrite Hu in Hc.
  assert (Hh : holds (contents casefold b nz cs) u = true) by congruence. apply holds_in in Hh. apply in_map_iff in Hh.
  destruct Hh as ([x w] & <- & I). exists w. exact I.
Qed.

Lemma contents_nodup rnd casefold b nz sz cs st : ws_reached rnd casefold b nz sz cs st -> NoDup (map fst (contents casefold b nz cs)).
Proof. intros H. destruct (reached_conf _ _ _ _ _ _ _ H) as (l & R & _ & Em & _). rewrite <- Em, member_keys. apply R. Qed.

Lemma contents_norm rnd casefold b nz sz cs st : ws_reached rnd casefold b nz sz cs st ->
  forall u w, In (u, w) (contents casefold b nz cs) -> normal_form casefold b (normalizer_of nz) w = Some u /\ u <> [] /\ In w (ws_iter st).
Proof.
  intros H u w I. destruct (reached_conf _ _ _ _ _ _ _ H) as (l & R & _ & Em & Hn). rewrite <- Em in I. apply in_map_iff in I.
  destruct I as (e & E & I). injection E as <- <-. pose proof (r_norm _ _ _ _ R) as Nm. rewrite Forall_forall in Nm. destruct (Nm e I) as [E Ne].
  rewrite normalize_word_norm, Hn in E. split; [destruct (normal_form _ _ _ _); congruence|]. split; auto.
  rewrite (ws_iter_repr rnd casefold st l R). apply in_map. exact I.
Qed.

Theorem find_similar_member_first : forall rnd casefold b nz sz cs st, lawful rnd -> ws_reached rnd casefold b nz sz cs st ->
  let norm := normal_form casefold b (normalizer_of nz) in
  forall o a k n t u, fair o -> valid_k k n -> valid_threshold t -> a <> [] -> norm a = Some u ->
  ws_contains casefold st (PStr a) = Ok true ->
  eligible (sizes_of st) (filter_of st) u u ->
  small (total_grams (sizes_of st) u + total_grams (sizes_of st) u) ->
  exists w rest, find_similar rnd casefold o st (PStr a) k t = Ok ((w, 1) :: rest) /\ In w (ws_iter st) /\
    (rnd = exact -> norm w = Some u /\ Forall (fun r => snd r < 1) rest).
Proof.
  intros rnd casefold b nz sz cs st L H norm o a k n t u Fo Vk Vt Ha Hu Hc El Sm.
  destruct (contains_member _ _ _ _ _ _ _ a u H Hu Hc) as (w & Iw).
  destruct (contents_norm _ _ _ _ _ _ _ H u w Iw) as (Nw & Hne & Ii).
  destruct (wordset_filter_size _ _ _ _ _ _ _ H) as (_ & Nd & Ps).
  pose proof (eligible_self_total _ _ _ _ _ _ _ H u El) as T.
  destruct (find_similar_ranking rnd (sizes_of st)) as (score & Sr & Sx & Sl & Hr).
  destruct (Hr casefold b nz sz cs st H eq_refl o a k n t u Fo Vk Vt Ha Hu Hne) as (rk & Ndr & Mem & Srt & Ef).
  specialize (Sl L u T Sm).
  assert (Ir : In (u, w) rk) by (apply Mem; auto).
  assert (Z.to_nat n = S (Z.to_nat n - 1)) as En by (destruct Vk; lia).
  destruct rk as [|x rk]; [destruct Ir|]. rewrite En in Ef. cbn [firstn map] in Ef.
  inversion Srt as [|? ? Sr' Hx]; subst. rewrite Forall_forall in Hx.
  assert (S1 : score u (fst x) = 1).
  { destruct Ir as [->|Ir]; auto. specialize (Hx _ Ir). cbn [fst] in Hx. rewrite Sl in Hx. destruct (Sr u (fst x)) as [_ U].
    set (s := score u (fst x)) in *. clearbody s. destruct Hx as [Hx|[Hx _]]; [|auto]. clear - U Hx. exfalso. apply (Qclt_not_le _ _ Hx). exact U. }
  rewrite S1 in Ef. destruct x as [ux wx]. cbn [fst snd] in *.
  assert (Ix : In (ux, wx) (contents casefold b nz cs)) by (apply Mem; left; auto).
  exists wx. eexists. split; [exact Ef|]. split; [apply (contents_norm _ _ _ _ _ _ _ H ux wx Ix)|].
  intros ->. specialize (Sx eq_refl Nd Ps).
  assert (u = ux) as <- by (apply (Sx u ux); auto). split; [apply (contents_norm _ _ _ _ _ _ _ H u wx Ix)|].
  apply Forall_forall. intros r Hr'. apply in_map_iff in Hr'. destruct Hr' as ([uy wy] & <- & Iy). cbn [fst snd].
  assert (Iy0 : In (uy, wy) rk) by (rewrite <- (firstn_skipn (Z.to_nat n - 1) rk); apply in_app_iff; auto). clear Iy. rename Iy0 into Iy. destruct (Sr u uy) as [_ U]. destruct (Qcle_lt_or_eq _ _ U) as [|E]; auto. exfalso.
  apply (proj2 (Sx u uy)) in E; auto. subst uy.
  assert (Iy' : In (u, wy) (contents casefold b nz cs)) by (apply Mem; right; auto).
  pose proof (contents_nodup _ _ _ _ _ _ _ H) as Nk.
  assert ((u, wx) = (u, wy)) by (apply (NoDup_map_eq fst (contents casefold b nz cs)); auto).
  inversion Ndr; subst. congruence.
Qed.
Print Assumptions find_similar_member_first.

Example ex_member_first :
  ws_lists (find_similar exact lower ord0 (ws_built false [2; 3]%Z ["Apple"; "applet"; "pear"; "fig"; "APPLY"]) (PStr (w_ "apPly")) (PInt 30) MNone)
    [("APPLY", 1); ("Apple", f 7 11); ("applet", f 91 160)] = true.
Proof. vm_compute. reflexivity. Qed.

(** Without the length condition it fails: with sizes [(4,)] the word "a" is in
    the set and is not found. *)
Theorem find_similar_member_found_refuted : exists st, ws_reached exact lower true ZNone (SInt 4) [CAdd (PStr (w_ "a"))] st /\
  ws_contains lower st (PStr (w_ "a")) = Ok true /\
  find_similar exact lower ord0 st (PStr (w_ "a")) (PInt 10) MNone = Ok [].
Proof.
  exists (fst (ws_run exact lower (ws_fresh true [4%Z]) [(ord0, CAdd (PStr (w_ "a")))])).
  split; [|split; vm_compute; reflexivity].
  exists (ws_fresh true [4%Z]), [(ord0, CAdd (PStr (w_ "a")))]. repeat split. constructor; [apply ord0_fair|constructor].
Qed.
Print Assumptions find_similar_member_found_refuted.

(** *** C35: [min_similarity] has no effect *)

Theorem find_similar_ignores_min_similarity : forall rnd casefold o st a k t, valid_threshold t ->
  find_similar rnd casefold o st (PStr a) k t = find_similar rnd casefold o st (PStr a) k MNone.
Proof.
  intros rnd casefold o st a k t V. unfold find_similar. f_equal. unfold check_find. destruct (as_int k) as [z|]; auto. destruct (z <=? 0)%Z; auto.
  destruct t as [|x|]; auto; [|destruct V]. cbn [valid_threshold] in V. destruct V as [V1 V2]. apply qleb_le in V1, V2. rewrite V1, V2. reflexivity.
Qed.
Print Assumptions find_similar_ignores_min_similarity.

Theorem find_similar_min_similarity_refuted : exists cs st q t r s,
  ws_reached exact lower false ZNone (SIter [Some 2%Z; Some 3%Z]) cs st /\ 0 <= t <= 1 /\
  find_similar exact lower ord0 st (PStr q) (PInt 5) (MNum t) = Ok r /\ In s r /\ snd s < t.
Proof.
  set (cs := [CAdd (PStr (w_ "Apple"))]).
  exists cs, (fst (ws_run exact lower (ws_fresh false [2; 3]%Z) (map (fun c => (ord0, c)) cs))), (w_ "appl"), (f 9 10).
  set (r := find_similar exact lower ord0 (fst (ws_run exact lower (ws_fresh false [2; 3]%Z) (map (fun c => (ord0, c)) cs)))
    (PStr (w_ "appl")) (PInt 5) (MNum (f 9 10))).
  assert (E : ws_lists r [("Apple", f 269 400)] = true) by (vm_compute; reflexivity).
  destruct r as [[|x [|y r']]|e]; try discriminate E. exists [x], x. split.
  { exists (ws_fresh false [2; 3]%Z), (map (fun c => (ord0, c)) cs). repeat split. constructor; [apply ord0_fair|constructor]. }
  split. { split; apply qleb_le; vm_compute; reflexivity. }
  split; [reflexivity|]. split; [left; reflexivity|]. unfold ws_lists in E. cbn [List.length combine forallb fst snd Nat.eqb andb] in E.
  rewrite andb_true_r in E. apply andb_true_iff in E. destruct E as [_ E]. apply qeqb_eq in E. destruct x as [xw xs]. cbn [snd] in *. rewrite E. apply qltb_lt. vm_compute. reflexivity.
Qed.
Print Assumptions find_similar_min_similarity_refuted.

(** *** C36: a set is determined by what it contains *)

Lemma insert_ext {A} (l1 l2 : A -> A -> bool) x l : (forall y, In y l -> l1 x y = l2 x y) -> insert l1 x l = insert l2 x l.
Proof. induction l as [|y l IH]; intros H; simpl; auto. rewrite (H y) by (left; auto). rewrite IH; auto. intros z Hz. apply H. right; auto. Qed.

Lemma isort_cons {A} (leb : A -> A -> bool) x l : isort leb (x :: l) = insert leb x (isort leb l).
Proof. reflexivity. Qed.

(** The result of a search over members in order of insertion. *)
Definition best (rnd : Qc -> Qc) (ns : list nat) (fn : option nat) (m : members) (u : str) (k : Z) : list (str * Qc) :=
  map (fun x => (snd x, wscore rnd ns u (fst x)))
    (firstn (Z.to_nat k) (isort (fun x y => qleb (- wscore rnd ns u (fst x)) (- wscore rnd ns u (fst y)))
       (filter (fun x => eligibleb ns fn u (fst x)) m))).

Lemma ranked_stable rnd ns u l : asc (map e_id l) ->
  ranked rnd ns u l = isort (fun x y => qleb (- wscore rnd ns u (e_norm x)) (- wscore rnd ns u (e_norm y))) l.
Proof.
  unfold ranked. induction l as [|x l IH]; intros A; auto. cbn [map] in A. inversion A; subst. rewrite isort_cons, IH by auto. rewrite isort_cons.
  apply insert_ext. intros y Iy. assert (Iy' : In y l).
  { eapply Permutation_in; [apply isort_perm|exact Iy]. }
  rewrite Forall_forall in H2. assert (D : (e_id x < e_id y)%nat) by (apply H2, in_map; auto).
  apply Bool.eq_iff_eq_true. rewrite scored_leb_iff, qleb_le. unfold key. cbn [fst snd]. split.
  - intros [Lt|[-> _]]; [apply Qclt_le_weak; auto|apply Qcle_refl].
  - intros Le. destruct (Qcle_lt_or_eq _ _ Le) as [|E]; auto. right. split; [exact E|lia].
Qed.

Lemma answer_best rnd ns fn l u k : asc (map e_id l) -> answer_of rnd ns fn l u k = best rnd ns fn (map member l) u k.
Proof.
  intros A. unfold answer_of, best. rewrite ranked_stable.
  - assert (F : filter (fun x => eligibleb ns fn u (fst x)) (map member l) = map member (filter (fun e => eligibleb ns fn u (e_norm e)) l)).
    { clear. induction l as [|e l IH]; cbn [map filter member fst]; auto. destruct (eligibleb ns fn u (e_norm e)); cbn [map]; rewrite IH; reflexivity. }
    rewrite F. rewrite isort_map, firstn_map, map_map. reflexivity.
  - clear - A. induction l as [|e l IH]; cbn [filter]; [constructor|]. cbn [map] in A. inversion A; subst.
    destruct (eligibleb ns fn u (e_norm e)); auto. cbn [map]. constructor; [apply IH; auto|]. rewrite Forall_forall in *.
    intros i I. apply H2. apply in_map_iff in I. destruct I as (e' & <- & I). apply filter_In in I. apply in_map. apply I.
Qed.

Lemma find_similar_best rnd casefold b nz sz cs st : ws_reached rnd casefold b nz sz cs st ->
  forall o q k t, fair o -> find_similar rnd casefold o st q k t =
  (qk <- check_find q k t ;;
   let '(a, n) := qk in
   if Nat.eqb (List.length a) 0 || Nat.eqb (List.length (contents casefold b nz cs)) 0 then Ok [] else
   match normal_form casefold b (normalizer_of nz) a with
   | None => Err ValueError
   | Some u => Ok (if Nat.eqb (List.length u) 0 then [] else best rnd (sizes_of st) (filter_of st) (contents casefold b nz cs) u n)
   end).
Proof.
  intros H o q k t Fo. destruct (reached_conf _ _ _ _ _ _ _ H) as (l & R & C & Em & Hn).
  rewrite (find_similar_value rnd casefold o st _ _ l q k t Fo C R). rewrite Hn, <- Em, map_length.
  destruct (check_find q k t) as [[a n]|]; auto. cbn [bind]. destruct (_ || _); auto.
  destruct (normal_form _ _ _ a) as [u|]; auto. rewrite answer_best by apply R. reflexivity.
Qed.

Lemma reached_sizes rnd casefold b nz sz cs cs' st st' : ws_reached rnd casefold b nz sz cs st -> ws_reached rnd casefold b nz sz cs' st' ->
  sizes_of st = sizes_of st' /\ filter_of st = filter_of st'.
Proof.
  intros (s0 & calls & E & F & _ & ->) (s0' & calls' & E' & F' & _ & ->). assert (s0 = s0') by congruence. subst s0'.
  destruct (ws_run_spec rnd casefold calls F s0 [] (ws_init_repr rnd casefold _ _ _ _ E)) as (_ & _ & (_ & _ & C1 & C2) & _).
  destruct (ws_run_spec rnd casefold calls' F' s0 [] (ws_init_repr rnd casefold _ _ _ _ E)) as (_ & _ & (_ & _ & C3 & C4) & _).
  unfold sizes_of, filter_of. split; congruence.
Qed.

Lemma reached_run rnd casefold b nz sz cs st calls : ws_reached rnd casefold b nz sz cs st -> Forall (fun c => fair (fst c)) calls ->
  ws_reached rnd casefold b nz sz (cs ++ map snd calls) (fst (ws_run rnd casefold st calls)).
Proof.
  intros (s0 & calls0 & E & F & <- & ->) F'. exists s0, (calls0 ++ calls). split; auto. split; [apply Forall_app; auto|].
  split; [apply map_app|]. clear. revert s0. induction calls0 as [|[o c] calls0 IH]; intros s0; cbn [app ws_run]; auto.
  destruct (ws_call rnd casefold o s0 c) as [s1 r]. specialize (IH s1). destruct (ws_run rnd casefold s1 calls0) as [s2 rs].
  cbn [fst] in *. rewrite IH. destruct (ws_run rnd casefold s1 (calls0 ++ calls)). reflexivity.
Qed.

Lemma reached_answers rnd casefold b nz sz cs st calls : ws_reached rnd casefold b nz sz cs st -> Forall (fun c => fair (fst c)) calls ->
  snd (ws_run rnd casefold st calls) =
  snd (spec_run (normal_form casefold b (normalizer_of nz)) (contents casefold b nz cs) (map snd calls)).
Proof.
  intros H F. destruct (reached_conf _ _ _ _ _ _ _ H) as (l & R & _ & Em & Hn).
  destruct (ws_run_spec rnd casefold calls F st l R) as (l' & _ & _ & E). rewrite Hn, Em in E. rewrite <- E. reflexivity.
Qed.

Lemma reached_contains rnd casefold b nz sz cs st : ws_reached rnd casefold b nz sz cs st -> 
  ws_iter st = map snd (contents casefold b nz cs) /\ ws_len st = List.length (contents casefold b nz cs) /\
  forall v, ws_contains casefold st v = contains_spec (normal_form casefold b (normalizer_of nz)) (contents casefold b nz cs) v.
Proof.
  intros H. destruct (reached_conf _ _ _ _ _ _ _ H) as (l & R & _ & Em & Hn). rewrite <- Em, <- Hn. rewrite map_length, map_map.
  split; [exact (ws_iter_repr rnd casefold st l R)|]. split; [exact (ws_len_repr rnd casefold st l R)|].
  intros v. exact (ws_contains_repr rnd casefold st l v R).
Qed.

Lemma contents_iter rnd casefold b nz sz cs cs' st st' : ws_reached rnd casefold b nz sz cs st -> ws_reached rnd casefold b nz sz cs' st' ->
  ws_iter st = ws_iter st' -> contents casefold b nz cs = contents casefold b nz cs'.
Proof.
  intros H H' E. destruct (reached_contains _ _ _ _ _ _ _ H) as (I & _). destruct (reached_contains _ _ _ _ _ _ _ H') as (I' & _).
  rewrite I, I' in E. pose proof (contents_norm _ _ _ _ _ _ _ H) as N. pose proof (contents_norm _ _ _ _ _ _ _ H') as N'.
  clear I I'. revert E N N'. generalize (contents casefold b nz cs), (contents casefold b nz cs'). intros m.
  induction m as [|[u w] m IH]; intros [|[u' w'] m'] E N N'; try discriminate; auto. cbn [map snd] in E. injection E as <- E.
  f_equal.
  - destruct (N u w) as [A _]; [left; auto|]. destruct (N' u' w) as [B _]; [left; auto|]. congruence.
  - apply IH; auto; intros; [apply N|apply N']; right; auto.
Qed.

Theorem wordset_determined_by_contents : forall rnd casefold b nz sz cs cs' st st',
  ws_reached rnd casefold b nz sz cs st -> ws_reached rnd casefold b nz sz cs' st' -> ws_iter st = ws_iter st' ->
  (forall o o' q k t, fair o -> fair o' -> find_similar rnd casefold o st q k t = find_similar rnd casefold o' st' q k t) /\
  (forall v, ws_contains casefold st v = ws_contains casefold st' v) /\ ws_len st = ws_len st' /\
  (forall calls calls', map snd calls = map snd calls' -> Forall (fun c => fair (fst c)) calls -> Forall (fun c => fair (fst c)) calls' ->
     snd (ws_run rnd casefold st calls) = snd (ws_run rnd casefold st' calls') /\
     ws_iter (fst (ws_run rnd casefold st calls)) = ws_iter (fst (ws_run rnd casefold st' calls'))).
Proof.
  intros rnd casefold b nz sz cs cs' st st' H H' E. pose proof (contents_iter _ _ _ _ _ _ _ _ _ H H' E) as Ec.
  destruct (reached_contains _ _ _ _ _ _ _ H) as (I & Ln & Ct). destruct (reached_contains _ _ _ _ _ _ _ H') as (I' & Ln' & Ct').
  destruct (reached_sizes _ _ _ _ _ _ _ _ _ H H') as [Es Ef]. split; [|split; [|split]].
  - intros o o' q k t Fo Fo'. rewrite (find_similar_best _ _ _ _ _ _ _ H), (find_similar_best _ _ _ _ _ _ _ H') by auto. rewrite Ec, Es, Ef. reflexivity.
  - intros v. rewrite Ct, Ct', Ec. reflexivity.
  - congruence.
  - intros calls calls' Em F F'. split.
    + rewrite (reached_answers _ _ _ _ _ _ _ _ H F), (reached_answers _ _ _ _ _ _ _ _ H' F'), Ec, Em. reflexivity.
    + destruct (reached_contains _ _ _ _ _ _ _ (reached_run _ _ _ _ _ _ _ _ H F)) as (-> & _).
      destruct (reached_contains _ _ _ _ _ _ _ (reached_run _ _ _ _ _ _ _ _ H' F')) as (-> & _).
      unfold contents in *. rewrite !spec_run_app. cbn [fst]. rewrite Ec, Em. reflexivity.
Qed.
Print Assumptions wordset_determined_by_contents.

(** Adding a new word and later discarding it leaves no trace. *)
Definition mentions (norm : str -> option str) (u : str) (c : command) : Prop :=
  match c with CAdd v | CDiscard v | CRemove v => names norm v u | CPop | CClear => False end.

Lemma without_app m m' u : without (m ++ m') u = without m u ++ without m' u.
Proof. apply filter_app. Qed.
Lemma without_comm m u x : without (without m u) x = without (without m x) u.
Proof.
  unfold without. induction m as [|e m IH]; auto. cbn [filter]. destruct (eqd (fst e) u) eqn:E1, (eqd (fst e) x) eqn:E2; cbn [filter];
    rewrite ?E1, ?E2; cbn [filter]; rewrite ?IH; auto.
Qed.

Lemma spec_step_without norm u m c : ~ mentions norm u c -> c <> CPop ->
  command_spec norm (without m u) c = (without (fst (command_spec norm m c)) u, snd (command_spec norm m c)).
Proof.
  intros Nm Np. destruct c as [v|v|v| |]; try congruence; cbn [mentions] in Nm; [..|reflexivity];
    destruct v as [w| | | |]; try reflexivity; cbn [command_spec].
  - destruct w as [|c w]; [reflexivity|]. set (w0 := c :: w) in *. destruct (norm w0) as [x|] eqn:En; [|reflexivity].
    assert (D : u <> x) by (intros ->; apply Nm; exists w0; auto).
    destruct x as [|cx x0] eqn:Ex; [reflexivity|]. rewrite <- Ex in *. cbn [fst snd]. f_equal.
    rewrite without_holds. destruct (eqd u x) as [|_]; [congruence|]. destruct (holds m x); [reflexivity|].
    rewrite without_app. f_equal. unfold without. cbn [filter fst]. destruct (eqd x u); [congruence|reflexivity].
  - destruct (norm w) as [x|] eqn:En; [|reflexivity]. cbn [fst snd]. rewrite without_comm. reflexivity.
  - destruct (norm w) as [x|] eqn:En; [|reflexivity]. assert (D : u <> x) by (intros ->; apply Nm; exists w; auto).
    rewrite without_holds. destruct (eqd u x) as [|_]; [congruence|]. destruct (holds m x); cbn [fst snd]; [|reflexivity].
    rewrite without_comm. reflexivity.
Qed.

Lemma spec_run_without norm u cs : Forall (fun c => ~ mentions norm u c /\ c <> CPop) cs -> forall m,
  spec_run norm (without m u) cs = (without (fst (spec_run norm m cs)) u, snd (spec_run norm m cs)).
Proof.
  induction 1 as [|c cs [H1 H2] _ IH]; intros m; cbn [spec_run fst snd]; [reflexivity|].
  rewrite spec_step_without by auto. destruct (command_spec norm m c) as [m1 r]. cbn [fst snd]. rewrite IH.
  destruct (spec_run norm m1 cs). reflexivity.
Qed.

Theorem wordset_discard_undoes_add : forall rnd casefold b nz sz cs st, ws_reached rnd casefold b nz sz cs st ->
  let norm := normal_form casefold b (normalizer_of nz) in
  forall w u w', norm w = Some u -> norm w' = Some u -> u <> [] -> ws_contains casefold st (PStr w) = Ok false ->
  forall o1 o2 calls, fair o1 -> fair o2 -> Forall (fun c => fair (fst c)) calls ->
  Forall (fun c => ~ mentions norm u (snd c) /\ snd c <> CPop) calls ->
  let st1 := fst (ws_run rnd casefold st ((o1, CAdd (PStr w)) :: calls ++ [(o2, CDiscard (PStr w'))])) in
  let st2 := fst (ws_run rnd casefold st calls) in
  ws_iter st1 = ws_iter st2 /\
  forall o q k t, fair o -> find_similar rnd casefold o st1 q k t = find_similar rnd casefold o st2 q k t.
Proof.
  intros rnd casefold b nz sz cs st H norm w u w' Hw Hw' Hne Hc o1 o2 calls F1 F2 F Nm st1 st2.
  assert (R1 : ws_reached rnd casefold b nz sz (cs ++ map snd ((o1, CAdd (PStr w)) :: calls ++ [(o2, CDiscard (PStr w'))])) st1).
  { apply reached_run; auto. constructor; auto. apply Forall_app. auto. }
  assert (R2 : ws_reached rnd casefold b nz sz (cs ++ map snd calls) st2) by (apply reached_run; auto).
  assert (E : ws_iter st1 = ws_iter st2).
  { destruct (reached_contains _ _ _ _ _ _ _ R1) as (-> & _). destruct (reached_contains _ _ _ _ _ _ _ R2) as (-> & _). f_equal.
    destruct (reached_contains _ _ _ _ _ _ _ H) as (_ & _ & Ct). rewrite Ct in Hc. cbn [contains_spec] in Hc. fold norm in Hc. rewrite Hw in Hc.
    unfold contents. rewrite !spec_run_app. cbn [fst]. fold norm. fold (contents casefold b nz cs). 
    change (fst (spec_run norm [] cs)) with (contents casefold b nz cs). set (m := contents casefold b nz cs) in *.
    assert (Hh : holds m u = false) by congruence.
    assert (Wm : without m u = m) by (apply (without_absent casefold); intros Iu; apply holds_in in Iu; congruence).
    cbn [map snd]. cbn [spec_run]. destruct (command_spec norm m (CAdd (PStr w))) as [m1 r1] eqn:Ea.
    assert (W1 : without m1 u = m).
    { cbn [command_spec] in Ea. destruct w as [|c w0]; [congruence|]. rewrite Hw in Ea. destruct u as [|cu u0]; [congruence|].
      rewrite Hh in Ea. injection Ea as <- _. rewrite without_app, Wm. unfold without. cbn [filter fst].
      match goal with |- context[if ?c then false else true] => destruct c end; [|congruence]. apply app_nil_r. }
    assert (Fm : Forall (fun c => ~ mentions norm u c /\ c <> CPop) (map snd calls)).
    { clear - Nm. induction Nm; constructor; auto. }
    pose proof (spec_run_without norm u _ Fm m1) as Es. rewrite W1 in Es. rewrite map_app. cbn [map snd].
    pose proof (spec_run_app norm (map snd calls) [CDiscard (PStr w')] m1) as Ep.
    destruct (spec_run norm m1 (map snd calls ++ [CDiscard (PStr w')])) as [m2 r2]. cbn [fst]. injection Ep as -> _.
    cbn [spec_run command_spec]. rewrite Hw'. cbn [fst]. rewrite Es. reflexivity. }
  split; [exact E|]. intros o q k t Fo. apply (wordset_determined_by_contents _ _ _ _ _ _ _ _ _ R1 R2 E); auto.
Qed.
Print Assumptions wordset_discard_undoes_add.

Example ex_undo :
  let run cs := fst (ws_run exact lower (ws_fresh false [2; 3]%Z) (map (fun c => (ord0, c)) cs)) in
  let a := run [CAdd (PStr (w_ "Apple")); CAdd (PStr (w_ "applet")); CAdd (PStr (w_ "apply")); CDiscard (PStr (w_ "APPLET"))] in
  let b := run [CAdd (PStr (w_ "Apple")); CAdd (PStr (w_ "apply"))] in
  ws_iter a = ws_iter b /\ to_id a <> to_id b.
Proof. vm_compute. split; [reflexivity|discriminate]. Qed.

(** *** C50: comparison and the operators of [collections.abc] *)

Lemma subset_length (a b : members) : NoDup (map fst a) -> (forall u, holds a u = true -> holds b u = true) ->
  (List.length a <= List.length b)%nat.
Proof.
  intros N H. rewrite <- (map_length fst a), <- (map_length fst b). apply NoDup_incl_length; auto.
  intros u I. apply holds_in, H, holds_in, I.
Qed.

Lemma all_in_spec casefold b nz (m : members) st' (l : list str) :
  (forall v, ws_contains casefold st' v = contains_spec (normal_form casefold b nz) m v) ->
  (forall w, In w l -> exists u, normal_form casefold b nz w = Some u) ->
  exists r, all_in casefold st' l = Ok r /\
    (r = true <-> forall w u, In w l -> normal_form casefold b nz w = Some u -> holds m u = true).
Proof.
  intros Hc. induction l as [|w l IH]; intros Hl; cbn [all_in].
  - exists true. split; [auto|]. split; [intros _ w u []|auto].
  - destruct (Hl w (or_introl eq_refl)) as (u & Hu). rewrite Hc. cbn [contains_spec]. rewrite Hu. cbn [bind].
    destruct (holds m u) eqn:Eh.
    + destruct IH as (r & E & Hr). { intros x I. apply Hl. right; auto. }
      exists r. split; auto. rewrite Hr. split.
      * intros G x y [<-|I] Hx; [congruence|eauto].
      * intros G x y I. apply G. right; auto.
    + exists false. split; auto. split; [discriminate|]. intros G. rewrite <- Eh. apply (G w u); [left; auto|auto].
Qed.

(** Sets with the same flag and normalizer are compared by their words; the
    sizes do not matter. *)
Theorem wordset_le_iff : forall rnd casefold b nz sz sz' cs cs' st st',
  ws_reached rnd casefold b nz sz cs st -> ws_reached rnd casefold b nz sz' cs' st' ->
  exists r, ws_le casefold st st' = Ok r /\
    (r = true <-> forall v, ws_contains casefold st v = Ok true -> ws_contains casefold st' v = Ok true).
Proof.
  intros rnd casefold b nz sz sz' cs cs' st st' H H'.
  destruct (reached_contains _ _ _ _ _ _ _ H) as (I & Ln & Ct). destruct (reached_contains _ _ _ _ _ _ _ H') as (_ & Ln' & Ct').
  pose proof (contents_norm _ _ _ _ _ _ _ H) as N. pose proof (contents_nodup _ _ _ _ _ _ _ H) as Nd.
  set (m := contents casefold b nz cs) in *. set (m' := contents casefold b nz cs') in *.
  set (norm := normal_form casefold b (normalizer_of nz)) in *.
  assert (Sub : (forall v, ws_contains casefold st v = Ok true -> ws_contains casefold st' v = Ok true) <->
                (forall u, holds m u = true -> holds m' u = true)).
  { split.
    - intros G u Hu. apply holds_in in Hu. apply in_map_iff in Hu. destruct Hu as ([x w] & <- & Iw). cbn [fst].
      destruct (N x w Iw) as (Nw & _). specialize (G (PStr w)). rewrite Ct, Ct' in G. cbn [contains_spec] in G. rewrite Nw in G.
      assert (Hx : holds m x = true) by (apply holds_in, in_map_iff; exists (x, w); auto). rewrite Hx in G. specialize (G eq_refl). congruence.
    - intros G v. rewrite Ct, Ct'. destruct v as [w| | | |]; cbn [contains_spec]; auto. destruct (norm w) as [u|]; auto.
      intros E. rewrite G; congruence. }
  unfold ws_le. rewrite Ln, Ln'. destruct (Nat.ltb_spec (List.length m') (List.length m)) as [L|L].
  - exists false. split; auto. split; [discriminate|]. intros G. rewrite Sub in G. pose proof (subset_length m m' Nd G). lia.
  - destruct (all_in_spec casefold b (normalizer_of nz) m' st' (ws_iter st) Ct') as (r & E & Hr).
    { intros w Iw. rewrite I in Iw. apply in_map_iff in Iw. destruct Iw as ([u w'] & <- & Iw). exists u. apply (N u w' Iw). }
    exists r. split; auto. rewrite Hr, Sub. split.
    + intros G u Hu. apply holds_in in Hu. apply in_map_iff in Hu. destruct Hu as ([x w] & <- & Iw). cbn [fst].
      apply (G w x); [|apply (N x w Iw)]. rewrite I. apply in_map_iff. exists (x, w). auto.
    + intros G w u Iw Hw. apply G. apply holds_in. rewrite I in Iw. apply in_map_iff in Iw. destruct Iw as ([x w'] & <- & Iw). cbn [snd] in *.
      destruct (N x w' Iw) as (Nw & _). fold norm in Hw. apply in_map_iff. exists (x, w'). split; auto. cbn [fst]. congruence.
Qed.
Print Assumptions wordset_le_iff.

Theorem wordset_eq_iff : forall rnd casefold b nz sz sz' cs cs' st st',
  ws_reached rnd casefold b nz sz cs st -> ws_reached rnd casefold b nz sz' cs' st' ->
  exists r, ws_eq casefold st st' = Ok r /\
    (r = true <-> forall v, ws_contains casefold st v = Ok true <-> ws_contains casefold st' v = Ok true).
Proof.
  intros rnd casefold b nz sz sz' cs cs' st st' H H'.
  destruct (wordset_le_iff _ _ _ _ _ _ _ _ _ _ H H') as (r & E & Hr).
  destruct (wordset_le_iff _ _ _ _ _ _ _ _ _ _ H' H) as (r' & E' & Hr').
  destruct (reached_contains _ _ _ _ _ _ _ H) as (I & Ln & Ct). destruct (reached_contains _ _ _ _ _ _ _ H') as (I' & Ln' & Ct').
  pose proof (contents_norm _ _ _ _ _ _ _ H) as N. pose proof (contents_nodup _ _ _ _ _ _ _ H) as Nd.
  pose proof (contents_norm _ _ _ _ _ _ _ H') as N'. pose proof (contents_nodup _ _ _ _ _ _ _ H') as Nd'.
  set (m := contents casefold b nz cs) in *. set (m' := contents casefold b nz cs') in *.
  set (norm := normal_form casefold b (normalizer_of nz)) in *.
  assert (Sub : forall (m m' : members) s s', (forall u w, In (u, w) m -> norm w = Some u /\ u <> [] /\ In w (ws_iter s)) ->
     (forall v, ws_contains casefold s v = contains_spec norm m v) -> (forall v, ws_contains casefold s' v = contains_spec norm m' v) ->
     (forall v, ws_contains casefold s v = Ok true -> ws_contains casefold s' v = Ok true) -> incl (map fst m) (map fst m')).
  { clear. intros m m' s s' N C1 C2 G u Hu. apply in_map_iff in Hu. destruct Hu as ([x w] & <- & Iw). cbn [fst].
    destruct (N x w Iw) as (Nw & _). specialize (G (PStr w)). rewrite C1, C2 in G. cbn [contains_spec] in G. rewrite Nw in G.
    assert (Hx : holds m x = true) by (apply holds_in, in_map_iff; exists (x, w); auto). rewrite Hx in G. specialize (G eq_refl).
    apply holds_in. congruence. }
  unfold ws_eq. rewrite Ln, Ln'. destruct (Nat.eqb_spec (List.length m) (List.length m')) as [El|El].
  - exists r. split; [exact E|]. rewrite Hr. split; [|intros G v; apply G]. intros G v. split; [apply G|].
    assert (Hi : incl (map fst m') (map fst m)).
    { apply NoDup_length_incl; auto; [rewrite !map_length; lia|]. apply (Sub m m' st st'); auto. }
    rewrite Ct, Ct'. destruct v as [w| | | |]; cbn [contains_spec]; auto. destruct (norm w) as [u|]; auto. intros Eh.
    assert (Hh : holds m' u = true) by congruence. apply holds_in, Hi, holds_in in Hh. congruence.
  - exists false. split; auto. split; [discriminate|]. intros G. exfalso. apply El.
    rewrite <- (map_length fst m), <- (map_length fst m'). apply Nat.le_antisymm; apply NoDup_incl_length; auto.
    + apply (Sub m m' st st'); auto. intros v. apply G.
    + apply (Sub m' m st' st); auto. intros v. apply G.
Qed.
Print Assumptions wordset_eq_iff.

Example ex_eq : ws_eq lower (ws_built false [2]%Z ["Apple"; "fig"]) (ws_built false [3; 4]%Z ["FIG"; "apple"]) = Ok true.
Proof. reflexivity. Qed.

(** Sets with different flags: [==] is not symmetric. *)
Theorem wordset_eq_symmetric_refuted : exists sz a b,
  ws_reached exact lower true ZNone sz [CAdd (PStr (w_ "Apple"))] a /\
  ws_reached exact lower false ZNone sz [CAdd (PStr (w_ "apple"))] b /\
  ws_eq lower a b = Ok true /\ ws_eq lower b a = Ok false.
Proof.
  exists (SIter [Some 2%Z]), (ws_built true [2%Z] ["Apple"]), (ws_built false [2%Z] ["apple"]). split; [|split; [|split; reflexivity]].
  - exists (ws_fresh true [2%Z]), [(ord0, CAdd (PStr (w_ "Apple")))]. repeat split. constructor; [apply ord0_fair|constructor].
  - exists (ws_fresh false [2%Z]), [(ord0, CAdd (PStr (w_ "apple")))]. repeat split. constructor; [apply ord0_fair|constructor].
Qed.
Print Assumptions wordset_eq_symmetric_refuted.

Theorem wordset_isdisjoint_iff : forall rnd casefold b nz sz sz' cs cs' st st',
  ws_reached rnd casefold b nz sz cs st -> ws_reached rnd casefold b nz sz' cs' st' ->
  exists r, ws_isdisjoint casefold st (map PStr (ws_iter st')) = Ok r /\
    (r = true <-> ~ exists v, ws_contains casefold st v = Ok true /\ ws_contains casefold st' v = Ok true).
Proof.
  intros rnd casefold b nz sz sz' cs cs' st st' H H'.
  destruct (reached_contains _ _ _ _ _ _ _ H) as (_ & _ & Ct). destruct (reached_contains _ _ _ _ _ _ _ H') as (I & _ & Ct').
  pose proof (contents_norm _ _ _ _ _ _ _ H') as N.
  set (m := contents casefold b nz cs) in *. set (m' := contents casefold b nz cs') in *.
  set (norm := normal_form casefold b (normalizer_of nz)) in *.
  assert (D : forall l : members, (forall u w, In (u, w) l -> norm w = Some u) ->
    exists r, ws_isdisjoint casefold st (map PStr (map snd l)) = Ok r /\ (r = true <-> forall u, holds l u = true -> holds m u = false)).
  { induction l as [|[u w] l IH]; intros Hl; cbn [map ws_isdisjoint snd].
    - exists true. split; auto. split; auto. discriminate.
    - rewrite Ct. cbn [contains_spec]. rewrite (Hl u w) by (left; auto). cbn [bind]. destruct (holds m u) eqn:Eh.
      + exists false. split; auto. split; [discriminate|]. intros G. rewrite <- Eh. symmetry. apply G. rewrite holds_cons. destruct (eqd u u); [reflexivity|congruence].
      + destruct IH as (r & E & Hr). { intros x y Ix. apply Hl. right; auto. }
        exists r. split; auto. rewrite Hr. setoid_rewrite holds_cons. split.
        * intros G x. rewrite orb_true_iff. destruct (eqd u x) as [<-|]; auto. intros [|]; [discriminate|auto].
        * intros G x Hx. apply G. rewrite orb_true_iff. auto. }
  destruct (D m') as (r & E & Hr). { intros u w Iw. apply (N u w Iw). }
  exists r. rewrite I. split; auto. rewrite Hr. split.
  - intros G (v & C1 & C2). rewrite Ct in C1. rewrite Ct' in C2. destruct v as [w| | | |]; cbn [contains_spec] in *; try discriminate.
    destruct (norm w) as [u|]; [|discriminate]. assert (holds m' u = true) by congruence. rewrite (G u) in C1 by auto. discriminate.
  - intros G u Hu. destruct (holds m u) eqn:Eh; auto. exfalso. apply holds_in in Hu. apply in_map_iff in Hu. destruct Hu as ([x w] & <- & Iw).
    cbn [fst] in *. apply G. exists (PStr w). rewrite Ct, Ct'. cbn [contains_spec]. destruct (N x w Iw) as (Nw & _). rewrite Nw. split; [congruence|].
    f_equal. apply holds_in. apply in_map_iff. exists (x, w). auto.
Qed.
Print Assumptions wordset_isdisjoint_iff.

(** [s |= other] and [s -= other] for another set with the same flag and
    normalizer: union and difference. *)
Lemma ior_run rnd casefold o : forall ws st, 
  Forall (fun r => exists x, r = Ok x) (snd (ws_run rnd casefold st (map (fun w => (o, CAdd (PStr w))) ws))) ->
  ws_ior rnd casefold o st (map PStr ws) = (fst (ws_run rnd casefold st (map (fun w => (o, CAdd (PStr w))) ws)), Ok ANone).
Proof.
  induction ws as [|w ws IH]; intros st; cbn [map ws_ior ws_run fst snd]; auto.
  cbn [ws_call]. destruct (ws_add rnd casefold o st (PStr w)) as [s1 r]. specialize (IH s1).
  destruct (ws_run rnd casefold s1 _) as [s2 rs]. cbn [fst snd] in *. intros F. inversion F as [|? ? [x ->] F']; subst. auto.
Qed.

Lemma isub_run rnd casefold o : forall ws st, 
  Forall (fun r => exists x, r = Ok x) (snd (ws_run rnd casefold st (map (fun w => (o, CDiscard (PStr w))) ws))) ->
  ws_isub casefold o st (map PStr ws) = (fst (ws_run rnd casefold st (map (fun w => (o, CDiscard (PStr w))) ws)), Ok ANone).
Proof.
  induction ws as [|w ws IH]; intros st; cbn [map ws_isub ws_run fst snd]; auto.
  cbn [ws_call]. destruct (ws_discard casefold o st (PStr w)) as [s1 r]. specialize (IH s1).
  destruct (ws_run rnd casefold s1 _) as [s2 rs]. cbn [fst snd] in *. intros F. inversion F as [|? ? [x ->] F']; subst. auto.
Qed.

Lemma spec_run_cons norm m c cs : spec_run norm m (c :: cs) =
  (fst (spec_run norm (fst (command_spec norm m c)) cs), snd (command_spec norm m c) :: snd (spec_run norm (fst (command_spec norm m c)) cs)).
Proof. cbn [spec_run]. destruct (command_spec norm m c) as [m1 r]. cbn [fst snd]. destruct (spec_run norm m1 cs). reflexivity. Qed.

Lemma adds_spec norm (l : members) : (forall u w, In (u, w) l -> norm w = Some u /\ u <> [] /\ w <> []) -> forall m,
  let r := spec_run norm m (map (fun w => CAdd (PStr w)) (map snd l)) in
  Forall (fun r => exists x, r = Ok x) (snd r) /\ forall u, holds (fst r) u = holds m u || holds l u.
Proof.
  induction l as [|[u w] l IH]; intros Hl m; cbn [map snd].
  - cbn. split; [constructor|]. intros u. rewrite orb_false_r. reflexivity.
  - cbv zeta. rewrite spec_run_cons. destruct (Hl u w (or_introl eq_refl)) as (Nw & Hu & Hw).
    destruct (IH (fun x y I => Hl x y (or_intror I)) (fst (command_spec norm m (CAdd (PStr w))))) as [A B]. cbv zeta in A, B.
    cbn [fst snd]. split.
    + constructor; auto. exists ANone. cbn [command_spec]. destruct w; [congruence|]. rewrite Nw. destruct u; [congruence|reflexivity].
    + intros x. rewrite B. assert (P : holds (fst (command_spec norm m (CAdd (PStr w)))) x = holds m x || (if eqd u x then true else false)).
      { apply Bool.eq_iff_eq_true. rewrite spec_step_holds by discriminate. cbn [puts_in takes_out]. rewrite orb_true_iff. split.
        - intros [((w1 & Ew & N1) & _)|[Hx _]]; auto. injection Ew as <-. right. destruct (eqd u x); congruence.
        - intros [Hx|Hx]; auto. left. destruct (eqd u x) as [<-|]; [|discriminate]. split; [exists w; auto|]. split; auto. congruence. }
      rewrite P. setoid_rewrite holds_cons. rewrite orb_assoc. reflexivity.
Qed.

Lemma discards_spec norm (l : members) : (forall u w, In (u, w) l -> norm w = Some u) -> forall m,
  let r := spec_run norm m (map (fun w => CDiscard (PStr w)) (map snd l)) in
  Forall (fun r => exists x, r = Ok x) (snd r) /\ forall u, holds (fst r) u = holds m u && negb (holds l u).
Proof.
  induction l as [|[u w] l IH]; intros Hl m; cbn [map snd].
  - cbn. split; [constructor|]. intros u. rewrite andb_true_r. reflexivity.
  - cbv zeta. rewrite spec_run_cons. pose proof (Hl u w (or_introl eq_refl)) as Nw.
    destruct (IH (fun x y I => Hl x y (or_intror I)) (fst (command_spec norm m (CDiscard (PStr w))))) as [A B]. cbv zeta in A, B.
    cbn [fst snd]. split.
    + constructor; auto. exists ANone. cbn [command_spec]. rewrite Nw. reflexivity.
    + intros x. rewrite B. cbn [command_spec]. rewrite Nw. cbn [fst]. rewrite without_holds. setoid_rewrite holds_cons.
      destruct (eqd u x); cbn [orb negb andb]; [rewrite andb_false_r; reflexivity|reflexivity].
Qed.

Lemma contents_nonempty casefold b nz cs u : ~ In (u, []) (contents casefold b nz cs).
Proof.
  unfold contents. set (norm := normal_form casefold b (normalizer_of nz)). clearbody norm.
  assert (G : forall cs (m : members), ~ In (u, []) m -> ~ In (u, []) (fst (spec_run norm m cs))); [|apply G; intros []].
  clear. induction cs as [|c cs IH]; intros m Hm; [exact Hm|]. rewrite spec_run_cons. cbn [fst]. apply IH.
  assert (W : forall x, ~ In (u, []) (without m x)) by (intros x I; apply Hm; eapply filter_In; exact I).
  destruct c as [v|v|v| |]; cbn [command_spec].
  - destruct v as [w| | | |]; auto. destruct w as [|c w]; auto. destruct (norm (c :: w)) as [x|]; auto.
    destruct x as [|cx x]; auto. cbn [fst]. destruct (holds m (cx :: x)); auto. intros I. apply in_app_iff in I.
    destruct I as [I|[[=]|[]]]; auto.
  - destruct v as [w| | | |]; auto. destruct (norm w); cbn [fst]; auto.
  - destruct v as [w| | | |]; auto. destruct (norm w) as [x|]; cbn [fst]; auto. destruct (holds m x); cbn [fst]; auto.
  - destruct m as [|[x w] m']; cbn [fst]; auto. intros I. apply Hm. right. exact I.
  - intros [].
Qed.

Theorem wordset_ior : forall rnd casefold b nz sz sz' cs cs' st st' o,
  ws_reached rnd casefold b nz sz cs st -> ws_reached rnd casefold b nz sz' cs' st' -> fair o ->
  exists st2 cs2, ws_ior rnd casefold o st (map PStr (ws_iter st')) = (st2, Ok ANone) /\ ws_reached rnd casefold b nz sz cs2 st2 /\
    forall v, ws_contains casefold st2 v = Ok true <-> ws_contains casefold st v = Ok true \/ ws_contains casefold st' v = Ok true.
Proof.
  intros rnd casefold b nz sz sz' cs cs' st st' o H H' Fo.
  assert (Ne : forall u, ~ In (u, []) (contents casefold b nz cs')) by (intros u; apply contents_nonempty).
  destruct (reached_contains _ _ _ _ _ _ _ H) as (_ & _ & Ct). destruct (reached_contains _ _ _ _ _ _ _ H') as (I & _ & Ct').
  pose proof (contents_norm _ _ _ _ _ _ _ H') as N.
  set (calls := map (fun w => (o, CAdd (PStr w))) (ws_iter st')).
  assert (F : Forall (fun c : order * command => fair (fst c)) calls).
  { apply Forall_forall. intros c Ic. apply in_map_iff in Ic. destruct Ic as (w & <- & _). exact Fo. }
  pose proof (reached_run _ _ _ _ _ _ _ calls H F) as R. pose proof (reached_answers _ _ _ _ _ _ _ calls H F) as An.
  destruct (reached_contains _ _ _ _ _ _ _ R) as (_ & _ & Ct2).
  assert (Ec : map snd calls = map (fun w => CAdd (PStr w)) (map snd (contents casefold b nz cs'))).
  { unfold calls. rewrite map_map. cbn [snd]. rewrite I. reflexivity. }
  rewrite Ec in *. set (norm := normal_form casefold b (normalizer_of nz)) in *.
  destruct (adds_spec norm (contents casefold b nz cs')) with (m := contents casefold b nz cs) as [A B].
  { intros u w Iw. destruct (N u w Iw) as (N1 & N2 & N3). repeat split; auto. intros ->. eapply Ne; eauto. }
  exists (fst (ws_run rnd casefold st calls)). eexists. split; [|split; [exact R|]].
  - apply ior_run. fold calls. rewrite An. exact A.
  - intros v. rewrite Ct2, Ct, Ct'. destruct v as [w| | | |]; cbn [contains_spec]; try (split; [discriminate|intros [|]; discriminate]).
    destruct (norm w) as [u|]; [|split; [discriminate|intros [|]; discriminate]].
    assert (Hh : holds (contents casefold b nz (cs ++ map (fun w => CAdd (PStr w)) (map snd (contents casefold b nz cs')))) u =
      holds (contents casefold b nz cs) u || holds (contents casefold b nz cs') u).
    { rewrite <- B. unfold contents at 1. rewrite spec_run_app. reflexivity. }
    rewrite Hh. destruct (holds (contents casefold b nz cs) u), (holds (contents casefold b nz cs') u); cbn [orb];
      split; auto; intros [|]; discriminate.
Qed.
Print Assumptions wordset_ior.

Theorem wordset_isub : forall rnd casefold b nz sz sz' cs cs' st st' o,
  ws_reached rnd casefold b nz sz cs st -> ws_reached rnd casefold b nz sz' cs' st' -> fair o ->
  exists st2 cs2, ws_isub casefold o st (map PStr (ws_iter st')) = (st2, Ok ANone) /\ ws_reached rnd casefold b nz sz cs2 st2 /\
    forall v, ws_contains casefold st2 v = Ok true <-> ws_contains casefold st v = Ok true /\ ws_contains casefold st' v <> Ok true.
Proof.
  intros rnd casefold b nz sz sz' cs cs' st st' o H H' Fo.
  destruct (reached_contains _ _ _ _ _ _ _ H) as (_ & _ & Ct). destruct (reached_contains _ _ _ _ _ _ _ H') as (I & _ & Ct').
  pose proof (contents_norm _ _ _ _ _ _ _ H') as N.
  set (calls := map (fun w => (o, CDiscard (PStr w))) (ws_iter st')).
  assert (F : Forall (fun c : order * command => fair (fst c)) calls).
  { apply Forall_forall. intros c Ic. apply in_map_iff in Ic. destruct Ic as (w & <- & _). exact Fo. }
  pose proof (reached_run _ _ _ _ _ _ _ calls H F) as R. pose proof (reached_answers _ _ _ _ _ _ _ calls H F) as An.
  destruct (reached_contains _ _ _ _ _ _ _ R) as (_ & _ & Ct2).
  assert (Ec : map snd calls = map (fun w => CDiscard (PStr w)) (map snd (contents casefold b nz cs'))).
  { unfold calls. rewrite map_map. cbn [snd]. rewrite I. reflexivity. }
  rewrite Ec in *. set (norm := normal_form casefold b (normalizer_of nz)) in *.
  destruct (discards_spec norm (contents casefold b nz cs')) with (m := contents casefold b nz cs) as [A B].
  { intros u w Iw. apply (N u w Iw). }
  exists (fst (ws_run rnd casefold st calls)). eexists. split; [|split; [exact R|]].
  - apply (isub_run rnd). fold calls. rewrite An. exact A.
  - intros v. rewrite Ct2, Ct, Ct'. destruct v as [w| | | |]; cbn [contains_spec]; try (split; [discriminate|intros [? _]; discriminate]).
    destruct (norm w) as [u|]; [|split; [discriminate|intros [? _]; discriminate]].
    assert (Hh : holds (contents casefold b nz (cs ++ map (fun w => CDiscard (PStr w)) (map snd (contents casefold b nz cs')))) u =
      holds (contents casefold b nz cs) u && negb (holds (contents casefold b nz cs') u)).
    { rewrite <- B. unfold contents at 1. rewrite spec_run_app. reflexivity. }
    rewrite Hh. destruct (holds (contents casefold b nz cs) u), (holds (contents casefold b nz cs') u); cbn [andb negb];
      split; try discriminate; auto; try (intros [? ?]; congruence). intros _. split; [auto|discriminate].
Qed.
Print Assumptions wordset_isub.

Example ex_ior :
  let a := ws_built false [2]%Z ["Apple"; "fig"] in let b := ws_built false [3]%Z ["FIG"; "pear"] in
  ws_iter (fst (ws_ior exact lower ord0 a (map PStr (ws_iter b)))) = map w_ ["Apple"; "fig"; "pear"] /\
  ws_iter (fst (ws_isub lower ord0 a (map PStr (ws_iter b)))) = map w_ ["Apple"] /\ ws_isdisjoint lower a (map PStr (ws_iter b)) = Ok false.
Proof. vm_compute. repeat split. Qed.

