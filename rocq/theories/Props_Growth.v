(** How the answers of a WordList change with its vocabulary, with the order
    in which the words were added and with [top_k]: property C115. *)
From Coq Require Import ZArith NArith QArith Qcanon List Bool Permutation Lia Sorted String.
From Verif Require Import Num Py ListAux PyDict Float64 EmdSpec EmdModel EmdProofs EmdFloatProofs
  NmdSpec NmdModel NmdProofs NmdFloatProofs IndexSpec IndexModel IndexProofs IndexLoops IndexLookupProofs IndexResult IndexTop
  IndexScore IndexFacts Ex Props_Nmd Props_Index.
Import ListNotations.
Open Scope string_scope.
Open Scope list_scope.
Open Scope Qc_scope.

(** *** Best [k] of a collection *)

(** [l] lists [k] elements of [C] with the highest values of [f], best first. *)
Record best {A} (f : A -> Qc) (k : nat) (C l : list A) : Prop := {
  best_nodup : NoDup l;
  best_incl : incl l C;
  best_length : List.length l = Nat.min k (List.length C);
  best_sorted : StronglySorted (fun a b => f b <= f a) l;
  best_left_out : forall a, In a C -> ~ In a l -> forall b, In b l -> f a <= f b }.

Lemma sorted_nth {A} (R : A -> A -> Prop) (refl : forall a, R a a) l : StronglySorted R l ->
  forall i j a b, (i <= j)%nat -> nth_error l i = Some a -> nth_error l j = Some b -> R a b.
Proof.
  induction 1 as [|x l S IH F]; intros i j a b Hij Hi Hj; [destruct i; discriminate|].
  destruct i as [|i], j as [|j]; cbn [nth_error] in *; try lia.
  - injection Hi as <-. injection Hj as <-. apply refl.
  - injection Hi as <-. rewrite Forall_forall in F. apply F. eapply nth_error_In; eauto.
  - eapply IH; [|exact Hi|exact Hj]. lia.
Qed.

Lemma nodup_firstn {A} n (l : list A) : NoDup l -> NoDup (firstn n l).
Proof.
  intros N. revert n. induction N as [|x l Nx N IH]; intros [|n]; cbn [firstn]; constructor; auto.
  intros H. apply Nx. rewrite <- (firstn_skipn n l). apply in_or_app. auto.
Qed.

Lemma best_dominates {A} (dec : forall x y : A, {x = y} + {x <> y}) (f : A -> Qc) k k' C C' l l' :
  NoDup C -> incl C C' -> (k <= k')%nat -> best f k C l -> best f k' C' l' ->
  forall i a, nth_error l i = Some a -> exists a', nth_error l' i = Some a' /\ f a <= f a'.
Proof.
  intros NC IC Kk B B' i a Ha. destruct B as [N I L So O], B' as [N' I' L' So' O'].
  assert (Hi : (i < List.length l)%nat) by (apply nth_error_Some; congruence).
  pose proof (NoDup_incl_length NC IC) as LC. destruct (nth_error l' i) as [a'|] eqn:Ha'; [|apply nth_error_None in Ha'; lia].
  exists a'. split; auto. apply Qcnot_lt_le. intros Lt.
  assert (R : forall x, In x (firstn (S i) l) -> f a <= f x).
  { intros x Hx. apply In_nth_error in Hx. destruct Hx as (j & Hj).
    assert (J : (j < S i)%nat). { assert (Hl : (j < List.length (firstn (S i) l))%nat) by (apply nth_error_Some; congruence). rewrite firstn_length in Hl. lia. }
    assert (Hj' : nth_error l j = Some x).
    { rewrite <- (firstn_skipn (S i) l). rewrite nth_error_app1; auto. apply nth_error_Some. congruence. }
    apply (sorted_nth (fun a b => f b <= f a) (fun a => Qcle_refl (f a)) l So j i x a); auto. lia. }
  assert (Incl : incl (firstn (S i) l) (firstn i l')).
  { intros x Hx. destruct (in_dec dec x (firstn i l')) as [|Nx]; auto. exfalso.
    assert (Fx : f x <= f a').
    { destruct (in_dec dec x l') as [Hx'|Hx'].
      - apply In_nth_error in Hx'. destruct Hx' as (j & Hj). destruct (Nat.lt_ge_cases j i) as [J|J].
        + exfalso. apply Nx. apply (nth_error_In _ j). rewrite <- Hj. rewrite <- (firstn_skipn i l') at 2. symmetry. apply nth_error_app1.
          rewrite firstn_length. assert ((j < List.length l')%nat) by (apply nth_error_Some; congruence). lia.
        + apply (sorted_nth (fun a b => f b <= f a) (fun a => Qcle_refl (f a)) l' So' i j a' x); auto.
      - apply O'; auto; [|eapply nth_error_In; eauto]. apply IC, I. rewrite <- (firstn_skipn (S i) l). apply in_or_app. auto. }
    specialize (R x Hx). apply (Qclt_not_le _ _ Lt). eapply Qcle_trans; eauto. }
  apply NoDup_incl_length in Incl.
  - rewrite !firstn_length in Incl. assert ((i < List.length l')%nat) by (apply nth_error_Some; congruence). lia.
  - apply nodup_firstn. exact N.
Qed.

(** *** Lookups *)

(** The two word lists have the same settings. *)
Definition same_settings (st st' : wordlist) : Prop :=
  n_list st = n_list st' /\ filter_n st = filter_n st' /\ case_insensitive st = case_insensitive st'.

(** Every candidate has a score (the average is defined). *)
Definition scorable (rnd : Qc -> Qc) (mean : list Qc -> Qc) (st : wordlist) (q : str) (normalize : bool) : Prop :=
  forall w, In w (vocabulary st) -> candidate (n_list st) (filter_n st) q w -> exists x, similarity rnd mean (n_list st) q w normalize = Ok x.

Definition score (rnd : Qc -> Qc) (mean : list Qc -> Qc) (nl : list Z) (q : str) (normalize : bool) (w : str) : Qc :=
  match similarity rnd mean nl q w normalize with Ok x => x | Err _ => 0 end.

Lemma lookup_best : forall rnd casefold mean, lawful rnd -> averaging mean -> (forall w, casefold (casefold w) = casefold w) ->
  forall st o word top_k normalize q k R, reachable rnd casefold st -> fair o -> asks casefold st word top_k q k ->
  dependable rnd normalize st q -> scorable rnd mean st q normalize ->
  lookup rnd casefold mean o st word top_k normalize = Ok R ->
  exists C, NoDup C /\ (forall w, In w C <-> In w (vocabulary st) /\ candidate (n_list st) (filter_n st) q w) /\
    best (score rnd mean (n_list st) q normalize) (Z.to_nat k) C (map fst R) /\
    (forall e, In e R -> fst (snd e) = score rnd mean (n_list st) q normalize (fst e) /\
    ngram_movers_distance rnd (PStr q) (PStr (fst e)) (PInt 2) true normalize = Ok (snd (snd e))).
Proof.
  intros rnd casefold mean L M CI st o word top_k nz q k R Re F A D Sc H.
  destruct (lookup_lossless rnd casefold mean L M CI st o word top_k nz q k R Re F A D H) as [LL (C & Nc & Hc & Ln)].
  destruct (lookup_result_shape rnd casefold mean L CI st o word top_k nz q k R Re F A H) as (_ & Nr & Vr & So).
  pose proof (lookup_scores rnd casefold mean L CI st o word top_k nz q k R Re F A H) as SC.
  assert (E : forall e, In e R -> fst (snd e) = score rnd mean (n_list st) q nz (fst e)).
  { intros [w [s t]] He. cbn [fst snd]. unfold score. destruct (SC w s t He) as (-> & _). reflexivity. }
  exists C. split; auto. split; auto. split.
  - constructor; auto.
    + intros w Hw. apply in_map_iff in Hw. destruct Hw as ([w' [s t]] & <- & He). destruct (SC _ _ _ He) as (_ & _ & V & K). apply Hc. auto.
    + rewrite map_length. exact Ln.
    + clear - So E. induction So as [|e R So IH Fa]; cbn [map]; constructor.
      * apply IH. intros x Hx. apply E. right. exact Hx.
      * apply Forall_map. rewrite Forall_forall in Fa |- *. intros x Hx. specialize (Fa x Hx). rewrite <- !E by (cbn; auto).
        destruct Fa as [Lt|[Eq _]]; [apply Qclt_le_weak; exact Lt|rewrite Eq; apply Qcle_refl].
    + intros w Hw Nw u Hu. apply Hc in Hw. destruct Hw as [V K]. destruct (Sc w V K) as (x & Hx).
      apply in_map_iff in Hu. destruct Hu as ([u' [s t]] & <- & He). cbn [fst]. pose proof (E _ He) as Es. cbn [fst snd] in Es. rewrite <- Es.
      unfold score. rewrite Hx. eapply LL; eauto.
  - intros e He. split; [apply E; auto|]. destruct e as [w [s t]]. destruct (SC w s t He) as (_ & T & _). exact T.
Qed.

Lemma same_asks casefold st st' word top_k top_k' q k k' : same_settings st st' -> asks casefold st word top_k q k ->
  as_int top_k' = Some k' -> (1 <= k')%Z -> asks casefold st' word top_k' q k'.
Proof. intros (_ & _ & E) (w & -> & N & -> & Cl & _ & _) T K. exists w. rewrite <- E. auto 10. Qed.

Section Two.
Variables (rnd : Qc -> Qc) (casefold : str -> str) (mean : list Qc -> Qc).
Hypothesis L : lawful rnd.
Hypothesis M : averaging mean.
Hypothesis CI : forall w, casefold (casefold w) = casefold w.
Variables (st st' : wordlist) (o o' : order) (word top_k top_k' : pyval) (normalize : bool) (q : str) (k k' : Z) (R R' : list (str * (Qc * Qc))).
Hypothesis Re : reachable rnd casefold st.
Hypothesis Re' : reachable rnd casefold st'.
Hypothesis SS : same_settings st st'.
Hypothesis F : fair o.
Hypothesis F' : fair o'.
Hypothesis A : asks casefold st word top_k q k.
Hypothesis A' : asks casefold st' word top_k' q k'.
Hypothesis D' : dependable rnd normalize st' q.
Hypothesis Sc' : scorable rnd mean st' q normalize.
Hypothesis Inc : incl (vocabulary st) (vocabulary st').
Hypothesis H : lookup rnd casefold mean o st word top_k normalize = Ok R.
Hypothesis H' : lookup rnd casefold mean o' st' word top_k' normalize = Ok R'.

Let f := score rnd mean (n_list st') q normalize.

Lemma two_best : exists C C', NoDup C /\ NoDup C' /\ incl C C' /\
    (forall w, In w C <-> In w (vocabulary st) /\ candidate (n_list st') (filter_n st') q w) /\
    (forall w, In w C' <-> In w (vocabulary st') /\ candidate (n_list st') (filter_n st') q w) /\
    best f (Z.to_nat k) C (map fst R) /\ best f (Z.to_nat k') C' (map fst R') /\
    (forall e, In e R \/ In e R' -> fst (snd e) = f (fst e) /\
    ngram_movers_distance rnd (PStr q) (PStr (fst e)) (PInt 2) true normalize = Ok (snd (snd e))).
Proof.
  destruct SS as (En & Ef & Ec).
  assert (D : dependable rnd normalize st q). { destruct D' as [->|[N B]]; [left; auto|right; split; auto]. }
  assert (Sc : scorable rnd mean st q normalize) by (intros w V K; rewrite En, Ef in *; apply Sc'; auto).
  destruct (lookup_best rnd casefold mean L M CI st o word top_k normalize q k R Re F A D Sc H) as (C & NC & HC & B & E).
  destruct (lookup_best rnd casefold mean L M CI st' o' word top_k' normalize q k' R' Re' F' A' D' Sc' H') as (C' & NC' & HC' & B' & E').
  rewrite En, Ef in HC. rewrite En in B, E. exists C, C'. do 2 (split; [auto|]). split; [|split; [auto|split; [auto|split; [auto|split; auto]]]].
  - intros w Hw. apply HC in Hw. apply HC'. destruct Hw. split; auto.
  - intros e [I|I]; auto.
Qed.

Lemma two_dominates : (k <= k')%Z -> forall i e, nth_error R i = Some e -> exists e', nth_error R' i = Some e' /\ fst (snd e) <= fst (snd e').
Proof.
  intros Kk i e He. destruct two_best as (C & C' & NC & _ & IC & _ & _ & B & B' & E).
  destruct (best_dominates (list_eq_dec N.eq_dec) f (Z.to_nat k) (Z.to_nat k') C C' (map fst R) (map fst R') NC IC ltac:(lia) B B' i (fst e)) as (w & Hw & Le).
  { rewrite nth_error_map. unfold str in *. rewrite He. reflexivity. }
  rewrite nth_error_map in Hw. destruct (nth_error R' i) as [e'|] eqn:He'; [|discriminate]. injection Hw as <-. exists e'. split; auto.
  rewrite (proj1 (E e (or_introl (nth_error_In _ _ He)))), (proj1 (E e' (or_intror (nth_error_In _ _ He')))). exact Le.
Qed.

End Two.

Lemma list_nth_ext {A} (l l' : list A) : (forall i, nth_error l i = nth_error l' i) -> l = l'.
Proof.
  revert l'. induction l as [|a l IH]; intros [|b l'] H; auto; try (specialize (H 0%nat); discriminate).
  f_equal; [specialize (H 0%nat); injection H; auto|]. apply IH. intros i. apply (H (S i)).
Qed.

Lemma best_values {A} (dec : forall x y : A, {x = y} + {x <> y}) (f : A -> Qc) k C C' l l' :
  NoDup C -> NoDup C' -> incl C C' -> incl C' C -> best f k C l -> best f k C' l' -> map f l = map f l'.
Proof.
  intros NC NC' I I' B B'. apply list_nth_ext. intros i. rewrite !nth_error_map.
  pose proof (best_dominates dec f k k C C' l l' NC I (le_n k) B B' i) as D1.
  pose proof (best_dominates dec f k k C' C l' l NC' I' (le_n k) B' B i) as D2.
  destruct (nth_error l i) as [a|] eqn:Ha.
  - destruct (D1 a eq_refl) as (b & Hb & Le). rewrite Hb in D2 |- *. destruct (D2 b eq_refl) as (a' & E & Le'). injection E as <-.
    cbn [option_map]. f_equal. apply Qcle_antisym; auto.
  - destruct (nth_error l' i) as [b|]; [|reflexivity]. destruct (D2 b eq_refl) as (a & E & _). discriminate.
Qed.

Lemma sorted_app_le {A} (R : A -> A -> Prop) l l' : StronglySorted R (l ++ l') -> forall a b, In a l -> In b l' -> R a b.
Proof.
  induction l as [|x l IH]; intros S a b Ha Hb; [destruct Ha|]. cbn [app] in S. apply StronglySorted_inv in S. destruct S as [S F].
  destruct Ha as [<-|Ha]; [|eapply IH; eauto]. rewrite Forall_forall in F. apply F, in_or_app. auto.
Qed.

Lemma best_firstn {A} (dec : forall x y : A, {x = y} + {x <> y}) (f : A -> Qc) k k' C l : (k <= k')%nat -> best f k' C l -> best f k C (firstn k l).
Proof.
  intros K [N I Ln So O]. constructor.
  - apply nodup_firstn; auto.
  - intros x Hx. apply I. rewrite <- (firstn_skipn k l). apply in_or_app; auto.
  - rewrite firstn_length. lia.
  - clear - So. revert k. induction So as [|a l So IH F]; intros [|k]; cbn [firstn]; constructor; auto.
    rewrite Forall_forall in *. intros x Hx. apply F. rewrite <- (firstn_skipn k l). apply in_or_app; auto.
  - intros a Ha Na b Hb. assert (Hb' : In b l) by (rewrite <- (firstn_skipn k l); apply in_or_app; auto).
    destruct (in_dec dec a l) as [Al|Al]; [|auto].
    rewrite <- (firstn_skipn k l) in Al, So. apply in_app_or in Al. destruct Al as [Al|Al]; [contradiction|].
    eapply (sorted_app_le _ _ _ So); eauto.
Qed.

(** *** C115 *)

(** Adding words, or asking for more results, never lowers the score at any
    place of the list. *)
Theorem lookup_growth : forall rnd casefold mean, lawful rnd -> averaging mean -> (forall w, casefold (casefold w) = casefold w) ->
  forall st st' o o' word top_k top_k' normalize q k k' R R', reachable rnd casefold st -> reachable rnd casefold st' ->
  same_settings st st' -> fair o -> fair o' -> asks casefold st word top_k q k -> asks casefold st' word top_k' q k' ->
  dependable rnd normalize st' q -> scorable rnd mean st' q normalize ->
  (forall w, In w (vocabulary st) -> In w (vocabulary st')) -> (k <= k')%Z ->
  lookup rnd casefold mean o st word top_k normalize = Ok R -> lookup rnd casefold mean o' st' word top_k' normalize = Ok R' ->
  forall i w s t, nth_error R i = Some (w, (s, t)) -> exists w' s' t', nth_error R' i = Some (w', (s', t')) /\ s <= s'.
Proof.
  intros rnd casefold mean L M CI st st' o o' word top_k top_k' nz q k k' R R' Re Re' SS F F' A A' D Sc Inc Kk H H' i w s t E.
  destruct (two_dominates rnd casefold mean L M CI st st' o o' word top_k top_k' nz q k k' R R' Re Re' SS F F' A A' D Sc Inc H H' Kk i _ E)
    as ([w' [s' t']] & E' & Le). exists w', s', t'. auto.
Qed.
Print Assumptions lookup_growth.

(** After adding words, a word that was there before is listed only if it was
    listed before or tied with the last one listed. *)
Theorem lookup_pushed_out : forall rnd casefold mean, lawful rnd -> averaging mean -> (forall w, casefold (casefold w) = casefold w) ->
  forall st st' o o' word top_k normalize q k R R', reachable rnd casefold st -> reachable rnd casefold st' ->
  same_settings st st' -> fair o -> fair o' -> asks casefold st word top_k q k ->
  dependable rnd normalize st' q -> scorable rnd mean st' q normalize ->
  (forall w, In w (vocabulary st) -> In w (vocabulary st')) ->
  lookup rnd casefold mean o st word top_k normalize = Ok R -> lookup rnd casefold mean o' st' word top_k normalize = Ok R' ->
  forall w s t, In (w, (s, t)) R' -> In w (vocabulary st) -> ~ In w (map fst R) ->
  Z.of_nat (List.length R) = k /\ (forall u x y, In (u, (x, y)) R -> s <= x) /\ exists u y, In (u, (s, y)) R.
Proof.
  intros rnd casefold mean L M CI st st' o o' word top_k nz q k R R' Re Re' SS F F' A D Sc Inc H H' w s t I V N.
  assert (Ak : as_int top_k = Some k /\ (1 <= k)%Z) by (destruct A as (x & _ & _ & _ & _ & T); exact T). destruct Ak as [Ak1 Ak2].
  pose proof (same_asks casefold st st' word top_k top_k q k k SS A Ak1 Ak2) as A'.
  pose proof (two_dominates rnd casefold mean L M CI st st' o o' word top_k top_k nz q k k R R' Re Re' SS F F' A A' D Sc Inc H H' (Z.le_refl k)) as Dm.
  destruct (two_best rnd casefold mean L M CI st st' o o' word top_k top_k nz q k k R R' Re Re' SS F F' A A' D Sc Inc H H')
    as (C & C' & NC & NC' & IC & HC & HC' & B & B' & E).
  assert (Cw : In w C).
  { apply HC. split; auto. eapply lookup_scores; [exact L|exact CI|exact Re'|exact F'|exact A'|exact H'|exact I]. }
  assert (Es : s = score rnd mean (n_list st') q nz w) by (destruct (E _ (or_intror I)); auto).
  assert (Lk : Z.of_nat (List.length R) = k).
  { pose proof (best_length _ _ _ _ B) as Ln. rewrite map_length in Ln.
    assert (Lt : (List.length (map fst R) < List.length C)%nat).
    { apply (NoDup_incl_length (l := w :: map fst R)).
      - constructor; auto. apply (best_nodup _ _ _ _ B).
      - intros x [<-|Hx]; auto. apply (best_incl _ _ _ _ B). auto. }
    rewrite map_length in Lt. unfold str in *. lia. }
  assert (Low : forall u x y, In (u, (x, y)) R -> s <= x).
  { intros u x y Hu. destruct (E _ (or_introl Hu)) as [Ex _]. cbn [fst snd] in Ex. rewrite Ex, Es.
    apply (best_left_out _ _ _ _ B); auto. apply (in_map fst) in Hu. exact Hu. }
  split; auto. split; auto.
  destruct (nth_error R (Z.to_nat k - 1)) as [[u [x y]]|] eqn:En; [|apply nth_error_None in En; lia].
  exists u, y. replace s with x; [eapply nth_error_In; eauto|].
  destruct (Dm _ _ En) as ([u' [x' y']] & En' & Le). cbn [fst snd] in Le. apply Qcle_antisym; [|eapply Low; eapply nth_error_In; eauto].
  eapply Qcle_trans; [exact Le|].
  destruct (E _ (or_intror (nth_error_In _ _ En'))) as [Ex _]. cbn [fst snd] in Ex. rewrite Ex, Es.
  apply (in_map fst) in I. apply In_nth_error in I. destruct I as (j & Hj). cbn [fst] in Hj.
  assert (Jl : (j < List.length (map fst R'))%nat) by (apply nth_error_Some; congruence).
  pose proof (best_length _ _ _ _ B') as Ln'.
  apply (sorted_nth (fun a b => score rnd mean (n_list st') q nz b <= score rnd mean (n_list st') q nz a) (fun a => Qcle_refl _) (map fst R') (best_sorted _ _ _ _ B') j (Z.to_nat k - 1) w u'); auto; [lia|].
  rewrite nth_error_map. unfold str in *. rewrite En'. reflexivity.
Qed.
Print Assumptions lookup_pushed_out.

(** The same words added in any order, with repetitions: the same scores in
    the same places; and asking for fewer results lists the first of them. *)
Theorem lookup_order_scores : forall rnd casefold mean, lawful rnd -> averaging mean -> (forall w, casefold (casefold w) = casefold w) ->
  forall st st' o o' word top_k top_k' normalize q k k' R R', reachable rnd casefold st -> reachable rnd casefold st' ->
  same_settings st st' -> fair o -> fair o' -> asks casefold st word top_k q k -> asks casefold st' word top_k' q k' ->
  dependable rnd normalize st' q -> scorable rnd mean st' q normalize ->
  (forall w, In w (vocabulary st) <-> In w (vocabulary st')) -> (k <= k')%Z ->
  lookup rnd casefold mean o st word top_k normalize = Ok R -> lookup rnd casefold mean o' st' word top_k' normalize = Ok R' ->
  map (fun e => fst (snd e)) R = firstn (Z.to_nat k) (map (fun e => fst (snd e)) R').
Proof.
  intros rnd casefold mean L M CI st st' o o' word top_k top_k' nz q k k' R R' Re Re' SS F F' A A' D Sc V Kk H H'.
  destruct (two_best rnd casefold mean L M CI st st' o o' word top_k top_k' nz q k k' R R' Re Re' SS F F' A A' D Sc (fun w => proj1 (V w)) H H')
    as (C & C' & NC & NC' & IC & HC & HC' & B & B' & E).
  assert (IC' : incl C' C) by (intros w Hw; apply HC' in Hw; apply HC; rewrite V; exact Hw).
  set (f := score rnd mean (n_list st') q nz) in *.
  assert (E1 : forall e, In e R \/ In e R' -> fst (snd e) = f (fst e)) by (intros e He; apply E; exact He). clear E.
  assert (M1 : map (fun e => fst (snd e)) R = map f (map fst R)) by (rewrite map_map; apply map_ext_in; intros; apply E1; auto).
  assert (M2 : map (fun e => fst (snd e)) R' = map f (map fst R')) by (rewrite map_map; apply map_ext_in; intros; apply E1; auto).
  etransitivity; [exact M1|]. etransitivity; [|apply (f_equal (firstn (Z.to_nat k))); symmetry; exact M2]. rewrite firstn_map.
  apply (best_values (list_eq_dec N.eq_dec) f (Z.to_nat k) C C'); auto.
  apply (best_firstn (list_eq_dec N.eq_dec) f (Z.to_nat k) (Z.to_nat k')); auto. lia.
Qed.
Print Assumptions lookup_order_scores.

Lemma same_entries {A} (P : str * (Qc * A) -> Prop) : forall X Y, map (fun e => fst (snd e)) X = map (fun e => fst (snd e)) Y ->
  (forall e, In e X -> P e) -> (forall e, In e Y -> P e) -> (forall e e', P e -> P e' -> fst (snd e) = fst (snd e') -> e = e') -> X = Y.
Proof.
  induction X as [|x X IH]; intros [|y Y] E H1 H2 H; try discriminate; auto. cbn [map] in E.
  assert (E1 : fst (snd x) = fst (snd y)) by congruence. assert (E2 : map (fun e => fst (snd e)) X = map (fun e => fst (snd e)) Y) by congruence.
  rewrite (H x y) by (auto with datatypes). f_equal. apply (IH Y); auto; intros; [apply H1|apply H2]; right; auto.
Qed.

(** When no two candidates tie, the whole result is the same. *)
Theorem lookup_order_same : forall rnd casefold mean, lawful rnd -> averaging mean -> (forall w, casefold (casefold w) = casefold w) ->
  forall st st' o o' word top_k top_k' normalize q k k' R R', reachable rnd casefold st -> reachable rnd casefold st' ->
  same_settings st st' -> fair o -> fair o' -> asks casefold st word top_k q k -> asks casefold st' word top_k' q k' ->
  dependable rnd normalize st' q -> scorable rnd mean st' q normalize ->
  (forall w, In w (vocabulary st) <-> In w (vocabulary st')) -> (k <= k')%Z ->
  (forall w u x, In w (vocabulary st) -> candidate (n_list st) (filter_n st) q w -> In u (vocabulary st) -> candidate (n_list st) (filter_n st) q u ->
     similarity rnd mean (n_list st) q w normalize = Ok x -> similarity rnd mean (n_list st) q u normalize = Ok x -> w = u) ->
  lookup rnd casefold mean o st word top_k normalize = Ok R -> lookup rnd casefold mean o' st' word top_k' normalize = Ok R' ->
  R = firstn (Z.to_nat k) R'.
Proof.
  intros rnd casefold mean L M CI st st' o o' word top_k top_k' nz q k k' R R' Re Re' SS F F' A A' D Sc V Kk Dis H H'.
  pose proof (lookup_order_scores rnd casefold mean L M CI st st' o o' word top_k top_k' nz q k k' R R' Re Re' SS F F' A A' D Sc V Kk H H') as Es.
  destruct (two_best rnd casefold mean L M CI st st' o o' word top_k top_k' nz q k k' R R' Re Re' SS F F' A A' D Sc (fun w => proj1 (V w)) H H')
    as (C & C' & NC & NC' & IC & HC & HC' & B & B' & E). destruct SS as (En & Ef & _). rewrite En, Ef in Dis.
  rewrite firstn_map in Es.
  assert (P : forall e, In e R \/ In e R' -> In (fst e) (vocabulary st) /\ candidate (n_list st') (filter_n st') q (fst e) /\
    similarity rnd mean (n_list st') q (fst e) nz = Ok (fst (snd e)) /\ ngram_movers_distance rnd (PStr q) (PStr (fst e)) (PInt 2) true nz = Ok (snd (snd e))).
  { intros e He. assert (K : In (fst e) (vocabulary st) /\ candidate (n_list st') (filter_n st') q (fst e)).
    { destruct He as [He|He]; apply (in_map fst) in He; [apply (best_incl _ _ _ _ B) in He|apply (best_incl _ _ _ _ B') in He].
      - apply HC; exact He.
      - apply HC' in He. rewrite V. exact He. }
    destruct K as [K1 K2]. split; auto. split; auto. destruct (E e He) as [S1 S2]. split; auto. rewrite S1. unfold score.
    destruct (Sc (fst e) (proj1 (V _) K1) K2) as (x & ->). reflexivity. }
  assert (P' : forall e, In e (firstn (Z.to_nat k) R') -> In e R') by (intros e He; rewrite <- (firstn_skipn (Z.to_nat k) R'); apply in_or_app; auto).
  eapply (same_entries _ R (firstn (Z.to_nat k) R') Es (fun e He => P e (or_introl He)) (fun e He => P e (or_intror (P' e He)))).
  intros [w [s t]] [u [s' t']] (A1 & A2 & A3 & A4) (B1 & B2 & B3 & B4) Eq. cbn [fst snd] in *. subst s'.
  assert (w = u) by (eapply Dis; eauto). subst u. rewrite A4 in B4. injection B4 as ->. reflexivity.
Qed.
Print Assumptions lookup_order_same.

(** Ties do make a difference: the same three words in another order give
    another word, with another second score. *)
Theorem lookup_order_refuted : exists st st' q w w' s t t', reachable exact lower st /\ reachable exact lower st' /\
  same_settings st st' /\ vocabulary st = vocabulary st' /\
  lookup exact lower (mean1 exact) ord0 st (PStr q) (PInt 1) false = Ok [(w, (s, t))] /\
  lookup exact lower (mean1 exact) ord0 st' (PStr q) (PInt 1) false = Ok [(w', (s, t'))] /\ w <> w' /\ t < t'.
Proof.
  exists (built [4%Z] 0 ["abcdxx"; "abcdyy"; "abcdxf"]), (built [4%Z] 0 ["abcdxf"; "abcdxx"; "abcdyy"]), (w_ "abcdef"), (w_ "abcdxx"), (w_ "abcdxf").
  do 3 eexists. split; [eapply built_reachable; vm_compute; reflexivity|]. split; [eapply built_reachable; vm_compute; reflexivity|].
  split; [vm_compute; auto|]. split; [vm_compute; reflexivity|]. split; [vm_compute; reflexivity|]. split; [vm_compute; reflexivity|].
  split; [discriminate|]. apply qltb_lt. vm_compute. reflexivity.
Qed.
Print Assumptions lookup_order_refuted.

(** And with ties the best result is not always the first of the best two. *)
Theorem lookup_prefix_refuted : exists st q w s t w' s' t' rest, reachable exact lower st /\
  lookup exact lower (mean1 exact) ord0 st (PStr q) (PInt 1) false = Ok [(w, (s, t))] /\
  lookup exact lower (mean1 exact) ord0 st (PStr q) (PInt 2) false = Ok ((w', (s', t')) :: rest) /\ w <> w' /\ t < t'.
Proof.
  exists (built [4%Z] 0 ["abcdxx"; "abcdyy"; "abcdxf"]), (w_ "abcdef"), (w_ "abcdxx").
  do 2 eexists. exists (w_ "abcdxf"). do 3 eexists. split; [eapply built_reachable; vm_compute; reflexivity|].
  split; [vm_compute; reflexivity|]. split; [vm_compute; reflexivity|]. split; [discriminate|]. apply qltb_lt. vm_compute. reflexivity.
Qed.
Print Assumptions lookup_prefix_refuted.

(** Scores are always defined, except when normalizing by 0. *)
Theorem scorable_unless_zero : forall rnd casefold mean, lawful rnd -> (forall w, casefold (casefold w) = casefold w) ->
  forall st q normalize, reachable rnd casefold st -> clean q ->
  (normalize = true -> forall w n, In w (vocabulary st) -> candidate (n_list st) (filter_n st) q w -> In n (n_list st) -> (size n q + size n w <> 0)%Z) ->
  scorable rnd mean st q normalize.
Proof.
  intros rnd casefold mean L CI st q nz Re Cq Z w V K. pose proof (reachable_inv rnd casefold st (rnd_0 rnd L) CI Re) as I.
  assert (Z' : nz = true -> forall n, In n (n_list st) -> (size n q + size n w <> 0)%Z) by (intros; apply Z; auto). clear Z K.
  rewrite vocabulary_in in V. unfold similarity. rewrite (mapM_ext_in _ (fun n => score1 rnd nz q n w)) by (intros; eapply pair_score1; eauto; eapply words_clean; eauto).
  rewrite (mapM_Ok_in _ (fun n => match score1 rnd nz q n w with Ok x => x | Err _ => 0 end)); [eexists; reflexivity|].
  intros n Hn. unfold score1. destruct (simf_ok rnd L q n w) as [s ->]. cbn [bind]. destruct nz; [|reflexivity].
  destruct (Z.eqb_spec (size n q + size n w) 0) as [E|E]; [|reflexivity]. exfalso. eapply Z'; eauto.
Qed.
Print Assumptions scorable_unless_zero.

(** Two orders of adding three words, one of them twice. *)
Definition gr1 := built [2%Z] 0 ["banana"; "bandana"; "cabana"].
Definition gr2 := built [2%Z] 0 ["cabana"; "Banana"; "bandana"; "banana"; "ban"].
Example growth_case : reachable exact lower gr1 /\ reachable exact lower gr2 /\ same_settings gr1 gr2 /\
  dependable exact true gr2 (w_ "banana") /\ scorable exact (mean1 exact) gr2 (w_ "banana") true /\
  (forall w, In w (vocabulary gr1) -> In w (vocabulary gr2)) /\ asks lower gr1 (PStr (w_ "BANANA")) (PInt 3) (w_ "banana") 3 /\
  lists (lookup_ex gr1 "BANANA" 3 true) [("banana", (1, 1)); ("bandana", (Q2Qc (83 # 105), Q2Qc (83 # 105))); ("cabana", (Q2Qc (23 # 42), Q2Qc (23 # 42)))] = true.
Proof.
  split; [eapply built_reachable; vm_compute; reflexivity|]. split; [eapply built_reachable; vm_compute; reflexivity|].
  split; [vm_compute; auto|]. split; [left; reflexivity|]. split; [|split; [|split]].
  - apply (scorable_unless_zero exact lower); [apply lawful_exact|apply lower_idem|eapply built_reachable; vm_compute; reflexivity|solve_clean|].
    intros _ w n V _ N. vm_compute in N. clear V. destruct N as [<-|[]]. unfold size, zlen. cbn [Z.ltb Z.compare Pos.compare Pos.compare_cont]. lia.
  - intros w H. vm_compute in H. vm_compute. repeat (destruct H as [H|H]; [subst; tauto|]). destruct H.
  - exists (w_ "BANANA"). split; [reflexivity|]. split; [discriminate|]. split; [vm_compute; reflexivity|]. split; [solve_clean|]. split; [reflexivity|discriminate].
  - vm_compute. reflexivity.
Qed.
