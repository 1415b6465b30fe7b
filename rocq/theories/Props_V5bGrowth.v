(** How the answers of [ApproxWordListV5b] (experiments/gemini_optimized_v5.py)
    change with its vocabulary, with the order in which the words were added
    and with [top_k]: property C128. *)
From Coq Require Import ZArith NArith QArith Qcanon List Bool Permutation Lia Sorted String.
From Verif Require Import Num Py ListAux PyDict Float64 EmdSpec EmdModel EmdProofs EmdFloatProofs
  NmdSpec NmdModel NmdProofs NmdFloatProofs IndexSpec IndexModel IndexProofs IndexLoops IndexLookupProofs IndexResult IndexTop
  IndexScore IndexFacts Ex Props_Nmd Props_Index Props_Growth.
From Verif Require Import V5bSpec V5bModel V5bProofs V5bLookup V5bFacts Props_V5b.
Import ListNotations.
Open Scope string_scope.
Open Scope list_scope.
Open Scope Qc_scope.

Section Best.
Variables (rnd : Qc -> Qc) (casefold : str -> str) (mean : list Qc -> Qc).
Hypothesis L : lawful rnd.
Hypothesis Db : doubling rnd.
Hypothesis M : averaging mean.

Definition value5 (ns : list Z) (q : str) (normalize : bool) (u : str) : Qc := mean (map (score5 rnd normalize q u) ns).

Lemma v5b_best st o word top_k normalize q k R : reachable5b rnd casefold st -> fair o -> asks casefold st word top_k q k -> q <> [] -> sane rnd st q ->
  lookup5b rnd casefold mean o st word top_k normalize = Ok R ->
  exists C, NoDup C /\ (forall u, In u C <-> In u (vocabulary st) /\ candidate (n_list st) (filter_n st) q u) /\
    best (value5 (n_list st) q normalize) (Z.to_nat k) C (map fst R) /\ map snd R = map (value5 (n_list st) q normalize) (map fst R).
Proof.
  intros Re F (w & -> & Hw & Eq & Cq & Hk & H1) Hq Sn H.
  destruct (v5b_lookup_ranked rnd casefold mean L Db M st w q normalize Re Hw Eq Hq Cq Sn) as (R' & Nd & Hc & So & Hs & HR).
  rewrite (HR o top_k k F Hk H1) in H. injection H as <-. exists (map fst R'). split; [exact Nd|]. split; [exact Hc|].
  assert (B : best (value5 (n_list st) q normalize) (List.length R') (map fst R') (map fst R')).
  { constructor; auto.
    - apply incl_refl.
    - rewrite map_length. lia.
    - clear - So Hs. induction So as [|e R So IH Fa]; cbn [map]; constructor.
      + apply IH. intros u s I. apply Hs. right. exact I.
      + apply Forall_map. rewrite Forall_forall in Fa |- *. intros x Hx. specialize (Fa x Hx). destruct e as [u s], x as [u' s']. cbn [fst snd] in *.
        unfold value5. rewrite <- (Hs u s (or_introl eq_refl)), <- (Hs u' s' (or_intror Hx)). exact Fa.
    - intros a Ha Na. contradiction. }
  split.
  - rewrite <- firstn_map. destruct (Nat.le_ge_cases (Z.to_nat k) (List.length R')) as [Le|Ge].
    + apply (best_firstn eqd _ _ _ _ _ Le B).
    + rewrite (firstn_all2 (n := Z.to_nat k)) by (rewrite map_length; exact Ge). destruct B as [N I Ln B4 O]. constructor; auto. rewrite !map_length. lia.
  - rewrite <- !firstn_map. f_equal. rewrite map_map. apply map_ext_in. intros [u s] I. cbn [fst snd]. apply Hs, I.
Qed.

Lemma nth_snd {B} (R : list (str * B)) i u s : nth_error R i = Some (u, s) -> nth_error (map fst R) i = Some u /\ nth_error (map snd R) i = Some s.
Proof. intros E. rewrite !nth_error_map, E. auto. Qed.
Lemma snd_nth (R : list (str * Qc)) i u s : nth_error (map fst R) i = Some u -> nth_error (map snd R) i = Some s -> nth_error R i = Some (u, s).
Proof. rewrite !nth_error_map. destruct (nth_error R i) as [[u' s']|]; cbn; congruence. Qed.
Lemma in_value R (f : str -> Qc) : map snd R = map f (map fst R) -> forall u s, In (u, s) R -> s = f u.
Proof.
  intros E u s I. apply In_nth_error in I. destruct I as (i & I). apply nth_snd in I. destruct I as [I1 I2]. rewrite E, nth_error_map, I1 in I2. injection I2 as <-. reflexivity.
Qed.
End Best.

(** Adding words, or asking for more results, never lowers the score at any
    place of the list. *)
Theorem v5b_growth : forall rnd casefold mean, lawful rnd -> doubling rnd -> averaging mean ->
  forall st st' o o' word top_k top_k' normalize q k k' R R', reachable5b rnd casefold st -> reachable5b rnd casefold st' -> same_settings st st' ->
  fair o -> fair o' -> asks casefold st word top_k q k -> asks casefold st' word top_k' q k' -> q <> [] -> sane rnd st' q ->
  (forall w, In w (vocabulary st) -> In w (vocabulary st')) -> (k <= k')%Z ->
  lookup5b rnd casefold mean o st word top_k normalize = Ok R -> lookup5b rnd casefold mean o' st' word top_k' normalize = Ok R' ->
  forall i w s, nth_error R i = Some (w, s) -> exists w' s', nth_error R' i = Some (w', s') /\ s <= s'.
Proof.
  intros rnd casefold mean L Db M st st' o o' word top_k top_k' nz q k k' R R' Re Re' (E1 & E2 & E3) F F' A A' Hq Sn Inc Kk H H' i w s E.
  assert (Sn0 : sane rnd st q) by (destruct Sn as [Sn|Sn]; [left; exact Sn|right; intros x I; apply Sn, Inc, I]).
  destruct (v5b_best rnd casefold mean L Db M st o word top_k nz q k R Re F A Hq Sn0 H) as (C & NC & HC & B & V).
  destruct (v5b_best rnd casefold mean L Db M st' o' word top_k' nz q k' R' Re' F' A' Hq Sn H') as (C' & NC' & HC' & B' & V').
  rewrite <- E1 in B', V'. apply nth_snd in E. destruct E as [Ew Es].
  assert (IC : incl C C').
  { intros x Hx. apply HC in Hx. apply HC'. rewrite <- E1, <- E2. destruct Hx as [V0 K0]. split; [apply Inc, V0|exact K0]. }
  destruct (best_dominates eqd _ (Z.to_nat k) (Z.to_nat k') C C' _ _ NC IC ltac:(lia) B B' i w Ew) as (w' & Ew' & Le).
  exists w', (value5 rnd mean (n_list st) q nz w'). split.
  - apply snd_nth; [exact Ew'|]. rewrite V', nth_error_map, Ew'. reflexivity.
  - rewrite V, nth_error_map, Ew in Es. injection Es as <-. exact Le.
Qed.
Print Assumptions v5b_growth.

(** A word that is no longer listed after words were added has been pushed out
    by [k] words that score at least as much. *)
Theorem v5b_pushed_out : forall rnd casefold mean, lawful rnd -> doubling rnd -> averaging mean ->
  forall st st' o o' word top_k top_k' normalize q k k' R R', reachable5b rnd casefold st -> reachable5b rnd casefold st' -> same_settings st st' ->
  fair o -> fair o' -> asks casefold st word top_k q k -> asks casefold st' word top_k' q k' -> q <> [] -> sane rnd st' q ->
  (forall w, In w (vocabulary st) -> In w (vocabulary st')) ->
  lookup5b rnd casefold mean o st word top_k normalize = Ok R -> lookup5b rnd casefold mean o' st' word top_k' normalize = Ok R' ->
  forall w s, In (w, s) R -> ~ In w (map fst R') -> Z.of_nat (List.length R') = k' /\ forall u x, In (u, x) R' -> s <= x.
Proof.
  intros rnd casefold mean L Db M st st' o o' word top_k top_k' nz q k k' R R' Re Re' (E1 & E2 & E3) F F' A A' Hq Sn Inc H H' w s I N.
  assert (Sn0 : sane rnd st q) by (destruct Sn as [Sn|Sn]; [left; exact Sn|right; intros x Ix; apply Sn, Inc, Ix]).
  destruct (v5b_best rnd casefold mean L Db M st o word top_k nz q k R Re F A Hq Sn0 H) as (C & NC & HC & B & V).
  destruct (v5b_best rnd casefold mean L Db M st' o' word top_k' nz q k' R' Re' F' A' Hq Sn H') as (C' & NC' & HC' & B' & V').
  rewrite <- E1 in B', V'. pose proof (in_value R _ V w s I) as ->. destruct B as [_ I0 _ _ _], B' as [N' I' Ln' So' O'].
  assert (Cw : In w C).
  { apply I0, in_map_iff. eexists. split; [|exact I]. reflexivity. }
  assert (Cw' : In w C').
  { apply HC in Cw. apply HC'. rewrite <- E1, <- E2. destruct Cw as [V0 K0]. split; [apply Inc, V0|exact K0]. }
  split.
  - rewrite map_length in Ln'. destruct A' as (_ & _ & _ & _ & _ & _ & K1).
    destruct (Nat.le_gt_cases (Z.to_nat k') (List.length C')) as [Le|Gt]; [lia|]. exfalso. apply N.
    rewrite Nat.min_r in Ln' by lia. apply (@NoDup_length_incl str _ C' N'); [|exact I'|exact Cw'].
    etransitivity; [apply Nat.eq_le_incl; symmetry; exact Ln'|apply Nat.eq_le_incl; symmetry; apply map_length].
  - intros u x Iu. pose proof (in_value R' _ V' u x Iu) as ->. apply (O' w Cw' N). apply in_map_iff. eexists. split; [|exact Iu]. reflexivity.
Qed.
Print Assumptions v5b_pushed_out.

(** A smaller [top_k] gives the first entries, also among equal scores. *)
Theorem v5b_prefix : forall rnd casefold mean, lawful rnd -> doubling rnd -> averaging mean ->
  forall st o o' word top_k top_k' normalize q k k' R', reachable5b rnd casefold st -> fair o -> fair o' ->
  asks casefold st word top_k q k -> asks casefold st word top_k' q k' -> q <> [] -> sane rnd st q -> (k <= k')%Z ->
  lookup5b rnd casefold mean o' st word top_k' normalize = Ok R' -> lookup5b rnd casefold mean o st word top_k normalize = Ok (firstn (Z.to_nat k) R').
Proof.
  intros rnd casefold mean L Db M st o o' word top_k top_k' nz q k k' R' Re F F' (w & -> & Hw & Eq & Cq & Hk & H1) (w' & Ew' & _ & _ & _ & Hk' & H1') Hq Sn Kk H.
  injection Ew' as <-. destruct (v5b_lookup_ranked rnd casefold mean L Db M st w q nz Re Hw Eq Hq Cq Sn) as (R & _ & _ & _ & _ & HR).
  rewrite (HR o' top_k' k' F' Hk' H1') in H. injection H as <-. rewrite (HR o top_k k F Hk H1). f_equal. rewrite firstn_firstn. f_equal. lia.
Qed.
Print Assumptions v5b_prefix.

(** The same words added in another order: the same scores in the same places,
    and the same words if a complete result has no score twice. *)
Theorem v5b_order : forall rnd casefold mean, lawful rnd -> doubling rnd -> averaging mean ->
  forall st st' o o' word top_k top_k' normalize q k k' R R', reachable5b rnd casefold st -> reachable5b rnd casefold st' -> same_settings st st' ->
  fair o -> fair o' -> asks casefold st word top_k q k -> asks casefold st' word top_k' q k' -> q <> [] -> sane rnd st' q ->
  (forall w, In w (vocabulary st) <-> In w (vocabulary st')) -> (k <= k')%Z ->
  lookup5b rnd casefold mean o st word top_k normalize = Ok R -> lookup5b rnd casefold mean o' st' word top_k' normalize = Ok R' ->
  map snd R = firstn (Z.to_nat k) (map snd R') /\
  ((Z.of_nat (List.length R') < k')%Z -> NoDup (map snd R') -> R = firstn (Z.to_nat k) R').
Proof.
  intros rnd casefold mean L Db M st st' o o' word top_k top_k' nz q k k' R R' Re Re' (E1 & E2 & E3) F F' A A' Hq Sn Voc Kk H H'.
  assert (Sn0 : sane rnd st q) by (destruct Sn as [Sn|Sn]; [left; exact Sn|right; intros x I; apply Sn, Voc, I]).
  destruct (v5b_best rnd casefold mean L Db M st o word top_k nz q k R Re F A Hq Sn0 H) as (C & NC & HC & B & V).
  destruct (v5b_best rnd casefold mean L Db M st' o' word top_k' nz q k' R' Re' F' A' Hq Sn H') as (C' & NC' & HC' & B' & V').
  rewrite <- E1 in B', V'. set (f := value5 rnd mean (n_list st) q nz) in *.
  assert (IC : forall x, In x C <-> In x C') by (intros x; rewrite HC, HC', Voc, E1, E2; reflexivity).
  assert (B2 : best f (Z.to_nat k) C' (firstn (Z.to_nat k) (map fst R'))) by (apply (best_firstn eqd f (Z.to_nat k) (Z.to_nat k')); [lia|exact B']).
  assert (EV : map f (map fst R) = map f (firstn (Z.to_nat k) (map fst R'))).
  { apply (best_values eqd f (Z.to_nat k) C C'); auto; intros x; apply IC. }
  assert (ES : map snd R = firstn (Z.to_nat k) (map snd R')) by (rewrite V, V', EV; symmetry; apply firstn_map).
  split; [exact ES|]. intros Full Nd.
  assert (All : forall x, In x C' -> In x (map fst R')).
  { destruct B' as [N' I' Ln' _ _]. rewrite map_length in Ln'. intros x Hx. apply (@NoDup_length_incl str _ C' N'); [|exact I'|exact Hx]. etransitivity; [|apply Nat.eq_le_incl; symmetry; apply map_length]. unfold str in *; lia. }
  assert (Inj : forall x y, In x (map fst R') -> In y (map fst R') -> f x = f y -> x = y).
  { rewrite V' in Nd. clear - Nd. induction (map fst R') as [|a l IH]; [intros x y []|]. cbn [map] in Nd. inversion Nd; subst.
    intros x y [<-|Ix] [<-|Iy] E; auto; exfalso; apply H1; [rewrite E|rewrite <- E]; apply in_map; assumption. }
  assert (EF : map fst R = firstn (Z.to_nat k) (map fst R')).
  { assert (I1 : forall x, In x (map fst R) -> In x (map fst R')) by (intros x Hx; apply All, IC; destruct B as [_ I _ _ _]; apply I, Hx).
    assert (I2 : forall x, In x (firstn (Z.to_nat k) (map fst R')) -> In x (map fst R')) by (intros x Hx; rewrite <- (firstn_skipn (Z.to_nat k) (map fst R')); apply in_app_iff; auto).
    revert EV I1 I2. generalize (map fst R), (firstn (Z.to_nat k) (map fst R')). intros l l'. revert l'. induction l as [|x l IH]; intros [|y l'] E J1 J2; try discriminate; auto.
    cbn [map] in E. injection E as Ex E. f_equal; [apply Inj; auto; [apply J1|apply J2]; left; auto|]. apply IH; auto; intros z Hz; [apply J1|apply J2]; right; exact Hz. }
  clear - ES EF. rewrite firstn_map in ES, EF. revert ES EF. generalize (firstn (Z.to_nat k) R'). intros l. revert l. induction R as [|[u s] R IH]; intros [|[u' s'] l] E1 E2; try discriminate; auto.
  cbn [map fst snd] in E1, E2. injection E1 as -> E1. injection E2 as -> E2. f_equal. apply IH; auto.
Qed.
Print Assumptions v5b_order.

(** Among equal scores the words listed depend on the order of adding. *)
Theorem v5b_order_refuted : exists st st' R R', reachable5b exact lower st /\ reachable5b exact lower st' /\ vocabulary st = vocabulary st' /\ same_settings st st' /\
  lookup5b exact lower (mean1 exact) ord0 st (PStr (w_ "x")) (PInt 1) true = Ok R /\
  lookup5b exact lower (mean1 exact) ord0 st' (PStr (w_ "x")) (PInt 1) true = Ok R' /\ map fst R <> map fst R'.
Proof.
  exists (built5b exact [2%Z] PNone ["xa"; "xb"]), (built5b exact [2%Z] PNone ["xb"; "xa"]). do 2 eexists.
  split; [eapply built5b_reachable; vm_compute; reflexivity|]. split; [eapply built5b_reachable; vm_compute; reflexivity|]. split; [vm_compute; reflexivity|].
  split; [vm_compute; auto|]. split; [vm_compute; reflexivity|]. split; [vm_compute; reflexivity|]. vm_compute. discriminate.
Qed.
Print Assumptions v5b_order_refuted.

(** ** Cases *)
Definition small5 : wordlist := built5b exact [2%Z; 3%Z] PNone ["abcd"; "zab"].
Definition large5 : wordlist := built5b exact [2%Z; 3%Z] PNone ["zab"; "abc"; "abcd"; "q"].
Example growth5_case :
  reachable5b exact lower small5 /\ reachable5b exact lower large5 /\ same_settings small5 large5 /\
  (forall w, In w (vocabulary small5) -> In w (vocabulary large5)) /\ asks lower small5 (PStr (w_ "abce")) (PInt 2) (w_ "abce") 2 /\
  (exists R R' R2, lookup5b exact lower (mean1 exact) ord0 small5 (PStr (w_ "abce")) (PInt 2) true = Ok R /\ map fst R = [w_ "abcd"; w_ "zab"] /\
     lookup5b exact lower (mean1 exact) ord0 large5 (PStr (w_ "abce")) (PInt 2) true = Ok R' /\ map fst R' = [w_ "abc"; w_ "abcd"] /\
     lookup5b exact lower (mean1 exact) ord0 large5 (PStr (w_ "abce")) (PInt 9) true = Ok R2 /\ map fst R2 = [w_ "abc"; w_ "abcd"; w_ "zab"]).
Proof.
  split; [eapply built5b_reachable; vm_compute; reflexivity|]. split; [eapply built5b_reachable; vm_compute; reflexivity|]. split; [vm_compute; auto|].
  split; [vm_compute; intuition auto|]. split.
  - exists (w_ "abce"). split; [reflexivity|]. split; [discriminate|]. split; [vm_compute; reflexivity|]. split; [|split; [reflexivity|lia]].
    split; intros H; vm_compute in H; intuition discriminate.
  - do 3 eexists. split; [vm_compute; reflexivity|]. split; [vm_compute; reflexivity|]. split; [vm_compute; reflexivity|]. split; [vm_compute; reflexivity|]. split; [vm_compute; reflexivity|]. vm_compute. reflexivity.
Qed.
