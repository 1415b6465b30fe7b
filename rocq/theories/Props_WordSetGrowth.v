(** Theorems about how the results of [WordSet.find_similar] change with the
    number of results asked for and with the content of the set: property C120. *)
From Coq Require Import ZArith NArith QArith Qcanon List Bool Permutation Lia Sorted String.
From Verif Require Import Num Py ListAux PyDict Float64 Ex EmdSpec EmdModel EmdProofs EmdFloatProofs NmdSpec NmdModel NmdProofs NmdFloatProofs IndexModel
  WordSetSpec WordSetModel WordSetProofs WordSetScore Props_Nmd Props_Index Props_WordSet V5bModel V5bProofs.
Import ListNotations.
Open Scope string_scope.
Open Scope list_scope.
Open Scope Qc_scope.

(** ** Sorting *)

Section Sort.
Context {A : Type} (leb : A -> A -> bool).
Hypothesis tot : forall x y, leb x y = true \/ leb y x = true.
Hypothesis tr : forall x y z, leb x y = true -> leb y z = true -> leb x z = true.

Lemma insert_app a l r : insert leb a (l ++ r) = if existsb (leb a) l then insert leb a l ++ r else l ++ insert leb a r.
Proof.
  induction l as [|b l IH]; [reflexivity|]. cbn [app insert existsb]. destruct (leb a b) eqn:E; cbn [orb]; [reflexivity|].
  rewrite IH. destruct (existsb (leb a) l); reflexivity.
Qed.

Lemma insert_first a l : Forall (fun b => leb a b = true) l -> insert leb a l = a :: l.
Proof. intros H. destruct l as [|b l]; [reflexivity|]. inversion H; subst. cbn [insert]. rewrite H2. reflexivity. Qed.

(** The last element of a list is placed after all that are not greater. *)
Lemma isort_snoc x l : exists l1 l2, isort leb l = l1 ++ l2 /\ isort leb (l ++ [x]) = l1 ++ x :: l2 /\
  Forall (fun y => leb y x = true) l1 /\ Forall (fun y => leb y x = false) l2.
Proof.
  induction l as [|a l IH].
  - exists [], []. repeat split; constructor.
  - destruct IH as (l1 & l2 & E1 & E2 & F1 & F2). cbn [app]. rewrite !isort_cons, E1, E2.
    rewrite !insert_app. destruct (existsb (leb a) l1) eqn:X.
    + exists (insert leb a l1), l2. repeat split; auto.
      apply existsb_exists in X. destruct X as (y & Iy & Hy). rewrite Forall_forall in F1.
      assert (Ha : leb a x = true) by (eapply tr; [exact Hy|auto]). apply Forall_forall. intros z Iz.
      apply (Permutation_in _ (insert_perm leb a l1)) in Iz. destruct Iz as [<-|Iz]; auto.
    + cbn [insert]. destruct (leb a x) eqn:H.
      * assert (G : Forall (fun b => leb a b = true) l2).
        { eapply Forall_impl; [|exact F2]. intros z Hz. cbn beta in Hz. destruct (tot z x) as [C|C]; [congruence|]. eapply tr; eauto. }
        rewrite (insert_first a l2 G). exists (l1 ++ [a]), l2. rewrite <- !app_assoc. repeat split; auto. apply Forall_app. auto.
      * exists l1, (insert leb a l2). repeat split; auto. apply Forall_forall. intros z Iz.
        apply (Permutation_in _ (insert_perm leb a l2)) in Iz. rewrite Forall_forall in F2. destruct Iz as [<-|Iz]; auto.
Qed.
End Sort.

Lemma firstn_map_firstn {A} n k (l : list A) : (n <= k)%nat -> firstn n (firstn k l) = firstn n l.
Proof. intros H. rewrite firstn_firstn. f_equal. lia. Qed.

Lemma filter_skips_one {A} (p : A -> bool) l : (forall l1 x l2, l = l1 ++ x :: l2 -> p x = false -> Forall (fun y => p y = true) (l1 ++ l2)) ->
  forall n, firstn n (filter p l) = firstn n (filter p (firstn (n + 1) l)).
Proof.
  induction l as [|a l IH]; intros H n; [destruct n; reflexivity|].
  replace (n + 1)%nat with (Datatypes.S n) by lia. cbn [firstn filter]. destruct (p a) eqn:E.
  - destruct n as [|n]; [reflexivity|]. change (firstn (Datatypes.S n) (a :: filter p l)) with (a :: firstn n (filter p l)).
    change (firstn (Datatypes.S n) (a :: filter p (firstn (Datatypes.S n) l))) with (a :: firstn n (filter p (firstn (Datatypes.S n) l))).
    f_equal. replace (Datatypes.S n) with (n + 1)%nat by lia. apply IH.
    intros l1 x l2 El Px. specialize (H (a :: l1) x l2). cbn [app] in H. rewrite El in H. specialize (H eq_refl Px). inversion H; auto.
  - specialize (H [] a l eq_refl E). cbn [app] in H. rewrite !filter_all; [|rewrite <- Forall_forall..].
    + rewrite firstn_firstn. f_equal. lia.
    + rewrite Forall_forall in *. intros x I. apply H. rewrite <- (firstn_skipn n l). apply in_app_iff. auto.
    + exact H.
Qed.

Lemma filter_perm {A} (p : A -> bool) l l' : Permutation l l' -> Permutation (filter p l) (filter p l').
Proof.
  induction 1; cbn [filter]; auto.
  - destruct (p x); auto.
  - destruct (p x), (p y); auto. apply perm_swap.
  - eapply Permutation_trans; eauto.
Qed.

Lemma perm_map_eq {A} (f : A -> Qc) (l l' : list A) : Permutation l l' -> map f l = map f l' -> NoDup (map f l) -> l = l'.
Proof.
  revert l'. induction l as [|a l IH]; intros l' P E N.
  - apply Permutation_nil in P. auto.
  - destruct l' as [|b l']; [discriminate|]. cbn [map] in E. injection E as E1 E2.
    assert (a = b) as <-.
    { apply (NoDup_map_eq f (a :: l)); auto; [left; auto|]. eapply Permutation_in; [symmetry; exact P|left; auto]. }
    f_equal. apply IH; auto; [eapply Permutation_cons_inv; eauto|]. cbn [map] in N. inversion N; auto.
Qed.

(** ** The full result *)

Section Full.
Variables (rnd : Qc -> Qc) (ns : list nat) (fn : option nat).
Definition worse (u : str) (x y : str * str) : bool := qleb (- wscore rnd ns u (fst x)) (- wscore rnd ns u (fst y)).
Definition rk (m : members) (u : str) : members := isort (worse u) (filter (fun x => eligibleb ns fn u (fst x)) m).
Definition out (u : str) (x : str * str) : str * Qc := (snd x, wscore rnd ns u (fst x)).

Lemma worse_total u x y : worse u x y = true \/ worse u y x = true.
Proof.
  unfold worse. rewrite !qleb_le. destruct (Qclt_le_dec (- wscore rnd ns u (fst x)) (- wscore rnd ns u (fst y))) as [H|H]; auto.
  left. apply Qclt_le_weak. exact H.
Qed.
Lemma worse_trans u x y z : worse u x y = true -> worse u y z = true -> worse u x z = true.
Proof. unfold worse. rewrite !qleb_le. apply Qcle_trans. Qed.
Lemma worse_true u x y : worse u x y = true -> snd (out u y) <= snd (out u x).
Proof. unfold worse, out. rewrite qleb_le. cbn [snd]. intros H. set (a := wscore _ _ _ _) in *. set (b := wscore _ _ _ _) in *. clearbody a b. clear - H. qclra. Qed.
Lemma worse_false u x y : worse u x y = false -> snd (out u x) < snd (out u y).
Proof. unfold worse, out. cbn [snd]. intros H. apply qleb_nle in H. set (a := wscore _ _ _ _) in *. set (b := wscore _ _ _ _) in *. clearbody a b. clear - H. qclra. Qed.

Lemma best_rk m u k : best rnd ns fn m u k = firstn (Z.to_nat k) (map (out u) (rk m u)).
Proof. unfold best. rewrite firstn_map. reflexivity. Qed.

Lemma rk_in m u x : In x (rk m u) -> In x m.
Proof. intros H. eapply Permutation_in in H; [|apply isort_perm]. apply filter_In in H. apply H. Qed.

Lemma rk_sorted m u : StronglySorted (fun x y : Qc => qleb y x = true) (map snd (map (out u) (rk m u))).
Proof.
  unfold rk. pose proof (isort_sorted (worse u) (worse_total u) (worse_trans u) (filter (fun x => eligibleb ns fn u (fst x)) m)) as Sd.
  induction Sd as [|x l Sd IH F]; cbn [map]; constructor; auto. apply Forall_map, Forall_map. eapply Forall_impl; [|exact F].
  intros y Hy. apply qleb_le, worse_true. exact Hy.
Qed.

Lemma rk_length m u : (List.length (rk m u) <= List.length m)%nat.
Proof. unfold rk. rewrite (Permutation_length (isort_perm _ _)). induction m as [|x m IH]; cbn [filter List.length]; [lia|]. destruct (eligibleb ns fn u (fst x)); cbn [List.length]; lia. Qed.

Lemma filter_filter {A} (p q : A -> bool) l : filter p (filter q l) = filter q (filter p l).
Proof. induction l as [|a l IH]; auto. cbn [filter]. destruct (p a) eqn:P, (q a) eqn:Q; cbn [filter]; rewrite ?P, ?Q, IH; auto. Qed.

Lemma rk_without m u x : rk (without m x) u = filter (fun e => if eqd (fst e) x then false else true) (rk m u).
Proof.
  unfold rk, without. rewrite filter_filter. apply isort_filter; [apply worse_total|apply worse_trans].
Qed.

(** What a search for [a] would list without a limit. *)
Definition full (norm : str -> option str) (m : members) (a : str) : list (str * Qc) :=
  match a, norm a with
  | [], _ | _, None | _, Some [] => []
  | _, Some u => map (out u) (rk m u)
  end.
End Full.

Section Set_.
Context {rnd : Qc -> Qc} {casefold : str -> str} {b : bool} {nz : nz_arg} {sz : sizes_arg} {cs : list command} {st : wordset}.
Hypothesis H : ws_reached rnd casefold b nz sz cs st.
Let norm := normal_form casefold b (normalizer_of nz).
Let m := contents casefold b nz cs.

Lemma find_full o q k t R : fair o -> find_similar rnd casefold o st q k t = Ok R ->
  exists a n, q = PStr a /\ valid_k k n /\ valid_threshold t /\ R = firstn (Z.to_nat n) (full rnd (sizes_of st) (filter_of st) norm m a) /\
    (a = [] \/ m = [] \/ norm a <> None).
Proof.
  intros Fo E. rewrite (find_similar_best _ _ _ _ _ _ _ H o q k t Fo) in E. fold norm m in E.
  destruct (check_find q k t) as [[a n]|] eqn:Ec; [|discriminate]. apply check_find_ok in Ec. destruct Ec as (-> & Vk & Vt).
  exists a, n. split; [auto|]. split; [auto|]. split; [auto|]. cbn [bind] in E. unfold full.
  destruct a as [|c a]; [cbn in E; injection E as <-; rewrite firstn_nil; auto|].
  change (Nat.eqb (List.length (c :: a)) 0) with false in E. cbn [orb] in E.
  destruct (Nat.eqb (List.length m) 0) eqn:Em.
  - apply length_zero in Em. injection E as <-. split; [|auto]. destruct (norm (c :: a)) as [[|d u]|]; rewrite ?firstn_nil; auto.
    rewrite Em. unfold rk. cbn. rewrite firstn_nil. reflexivity.
  - destruct (norm (c :: a)) as [u|]; [|discriminate]. split; [|right; right; discriminate].
    destruct u as [|d u]; [cbn in E; injection E as <-; rewrite firstn_nil; auto|].
    change (Nat.eqb (List.length (d :: u)) 0) with false in E. rewrite best_rk in E. congruence.
Qed.

Lemma full_find o a k n t : fair o -> valid_k k n -> valid_threshold t -> (a = [] \/ m = [] \/ norm a <> None) ->
  find_similar rnd casefold o st (PStr a) k t = Ok (firstn (Z.to_nat n) (full rnd (sizes_of st) (filter_of st) norm m a)).
Proof.
  intros Fo Vk Vt Ha. rewrite (find_similar_best _ _ _ _ _ _ _ H o (PStr a) k t Fo). fold norm m.
  assert (check_find (PStr a) k t = Ok (a, n)) as -> by (apply check_find_ok; auto). cbn [bind]. unfold full.
  destruct a as [|c a]; [cbn; rewrite firstn_nil; auto|].
  change (Nat.eqb (List.length (c :: a)) 0) with false. cbn [orb]. destruct (Nat.eqb (List.length m) 0) eqn:Em.
  - apply length_zero in Em. destruct (norm (c :: a)) as [[|d u]|]; rewrite ?firstn_nil; auto.
    rewrite Em. unfold rk. cbn. rewrite firstn_nil. reflexivity.
  - destruct Ha as [Ha|[Ha|Ha]]; [discriminate|rewrite Ha in Em; discriminate|].
    destruct (norm (c :: a)) as [[|d u]|]; [cbn; rewrite firstn_nil; auto| |congruence].
    change (Nat.eqb (List.length (d :: u)) 0) with false. rewrite best_rk. reflexivity.
Qed.

Lemma contents_as_iter : m = map (fun w => (match norm w with Some u => u | None => [] end, w)) (ws_iter st).
Proof.
  destruct (reached_contains _ _ _ _ _ _ _ H) as (-> & _). fold m. rewrite map_map. rewrite <- (map_id m) at 1. apply map_ext_in.
  intros [u w] I. cbn [snd]. destruct (contents_norm _ _ _ _ _ _ _ H u w I) as (E & _). fold norm in E. rewrite E. reflexivity.
Qed.

Lemma contents_spellings : NoDup (map snd m).
Proof.
  destruct (reached_contains _ _ _ _ _ _ _ H) as (E & _). fold m in E. rewrite <- E.
  pose proof (contents_nodup _ _ _ _ _ _ _ H) as N. fold m in N. rewrite contents_as_iter, map_map in N. cbn [fst] in N.
  eapply NoDup_map_inv. exact N.
Qed.
End Set_.

(** *** C120 *)

(** Asking for fewer results gives the first of those of the longer answer. *)
Theorem find_similar_prefix : forall rnd casefold b nz sz cs st, ws_reached rnd casefold b nz sz cs st ->
  forall o o' q k n k' n' t t' R, fair o -> fair o' -> valid_k k n -> valid_k k' n' -> (n <= n')%Z -> valid_threshold t ->
  find_similar rnd casefold o' st q k' t' = Ok R -> find_similar rnd casefold o st q k t = Ok (firstn (Z.to_nat n) R).
Proof.
  intros rnd casefold b nz sz cs st H o o' q k n k' n' t t' R Fo Fo' Vk Vk' Hn Vt E.
  destruct (find_full H o' q k' t' R Fo' E) as (a & n2 & -> & Vk2 & _ & -> & Ha).
  assert (n2 = n') as -> by (destruct Vk', Vk2; congruence).
  rewrite (full_find H o a k n t Fo Vk Vt Ha). f_equal. symmetry. apply firstn_map_firstn. lia.
Qed.
Print Assumptions find_similar_prefix.

(** A word that is added either does not show, or is put into the earlier
    result after the words scoring at least as much and before those scoring
    less; the rest keep their order and scores, and only the last of a full
    result drops out. *)
Theorem find_similar_add : forall rnd casefold b nz sz cs st, ws_reached rnd casefold b nz sz cs st ->
  forall o w, fair o -> ws_contains casefold st (PStr w) = Ok false ->
  let st' := fst (ws_add rnd casefold o st (PStr w)) in
  forall o1 o2 q k n t R R', fair o1 -> fair o2 -> valid_k k n ->
  find_similar rnd casefold o1 st q k t = Ok R -> find_similar rnd casefold o2 st' q k t = Ok R' ->
  R' = R \/ exists l1 s l2, R = l1 ++ l2 /\ R' = firstn (Z.to_nat n) (l1 ++ (w, s) :: l2) /\
    Forall (fun r => s <= snd r) l1 /\ Forall (fun r => snd r < s) l2.
Proof.
  intros rnd casefold b nz sz cs st H o w Fo Hc st' o1 o2 q k n t R R' F1 F2 Vk E E'.
  set (norm := normal_form casefold b (normalizer_of nz)) in *.
  assert (Fc : Forall (fun c : order * command => fair (fst c)) [(o, CAdd (PStr w))]) by (constructor; [exact Fo|constructor]).
  pose proof (reached_run _ _ _ _ _ _ _ [(o, CAdd (PStr w))] H Fc) as H'. clear Fc.
  assert (Est : fst (ws_run rnd casefold st [(o, CAdd (PStr w))]) = st').
  { cbn [ws_run ws_call]. unfold st'. destruct (ws_add rnd casefold o st (PStr w)); reflexivity. }
  rewrite Est in H'. cbn [map snd] in H'. clear Est. clearbody st'.
  destruct (reached_sizes _ _ _ _ _ _ _ _ _ H H') as [Es Ef].
  destruct (find_full H o1 q k t R F1 E) as (a & n1 & -> & V1 & Vt & -> & Ha).
  destruct (find_full H' o2 (PStr a) k t R' F2 E') as (a' & n2 & Ea & V2 & _ & -> & Ha'). injection Ea as <-.
  assert (n1 = n) as -> by (destruct Vk, V1; congruence). assert (n2 = n) as -> by (destruct Vk, V2; congruence). clear V1 V2 E E'.
  rewrite <- Es, <- Ef. fold norm in Ha, Ha' |- *.
  destruct (reached_contains _ _ _ _ _ _ _ H) as (_ & _ & Ct). rewrite Ct in Hc. cbn [contains_spec] in Hc. fold norm in Hc.
  assert (Em : contents casefold b nz (cs ++ [CAdd (PStr w)]) = contents casefold b nz cs \/
    exists x, contents casefold b nz (cs ++ [CAdd (PStr w)]) = contents casefold b nz cs ++ [(x, w)]).
  { unfold contents. rewrite spec_run_app. cbn [fst]. fold norm. change (fst (spec_run norm [] cs)) with (contents casefold b nz cs).
    set (m := contents casefold b nz cs) in *. cbn [spec_run command_spec]. destruct w as [|c w]; [left; reflexivity|].
    destruct (norm (c :: w)) as [[|d x]|]; try (left; reflexivity). destruct (holds m (d :: x)); [left; reflexivity|]. right. exists (d :: x). reflexivity. }
  destruct Em as [->|[x ->]]; [left; reflexivity|].
  set (m := contents casefold b nz cs) in *. set (ns := sizes_of st) in *. set (fn := filter_of st) in *.
  unfold full. destruct a as [|c a]; [left; reflexivity|]. destruct (norm (c :: a)) as [[|d u]|]; try (left; reflexivity).
  set (v := d :: u). unfold rk. rewrite filter_app. cbn [filter fst]. destruct (eligibleb ns fn v x); [|left; rewrite app_nil_r; reflexivity].
  destruct (isort_snoc (worse rnd ns v) (worse_total rnd ns v) (worse_trans rnd ns v) (x, w) (filter (fun x => eligibleb ns fn v (fst x)) m)) as (l1 & l2 & E1 & E2 & G1 & G2).
  rewrite E1, E2. set (N := Z.to_nat n). rewrite !map_app. cbn [map].
  destruct (Nat.le_gt_cases N (List.length l1)) as [Le|Gt].
  - left. rewrite !firstn_app. rewrite map_length. replace (N - List.length l1)%nat with 0%nat by lia. reflexivity.
  - right. exists (map (out rnd ns v) l1), (wscore rnd ns v x), (firstn (N - List.length l1) (map (out rnd ns v) l2)).
    split; [|split; [|split]].
    + rewrite firstn_app, map_length. f_equal. apply firstn_all2. rewrite map_length. lia.
    + change (out rnd ns v (x, w)) with (w, wscore rnd ns v x). rewrite !firstn_app, !map_length. f_equal.
      destruct (N - List.length l1)%nat as [|p] eqn:Ep; [lia|]. cbn [firstn]. f_equal. destruct (firstn_map_firstn p (Datatypes.S p) (map (out rnd ns v) l2)); [lia|reflexivity].
    + apply Forall_map. eapply Forall_impl; [|exact G1]. intros y Hy. exact (worse_true rnd ns v y (x, w) Hy).
    + rewrite firstn_map. apply Forall_map. apply Forall_forall. intros y Iy. rewrite Forall_forall in G2. apply (worse_false rnd ns v y (x, w)).
      apply G2. rewrite <- (firstn_skipn (N - List.length l1) l2). apply in_app_iff. auto.
Qed.
Print Assumptions find_similar_add.

(** Is the result about another word? *)
Definition other (w : str) (r : str * Qc) : bool := if list_eq_dec N.eq_dec (fst r) w then false else true.

(** After a word was discarded a search gives what it gave before, asked for
    one more result, without that word. *)
Theorem find_similar_discard : forall rnd casefold b nz sz cs st, ws_reached rnd casefold b nz sz cs st ->
  let norm := normal_form casefold b (normalizer_of nz) in
  forall o w w' x, fair o -> norm w = Some x -> norm w' = Some x -> In w (ws_iter st) ->
  let st' := fst (ws_discard casefold o st (PStr w')) in
  forall o1 o2 q k n k' t t' R, fair o1 -> fair o2 -> valid_k k n -> valid_k k' (n + 1) -> valid_threshold t ->
  find_similar rnd casefold o1 st q k' t' = Ok R ->
  find_similar rnd casefold o2 st' q k t = Ok (firstn (Z.to_nat n) (filter (other w) R)).
Proof.
  intros rnd casefold b nz sz cs st H norm o w w' x Fo Nw Nw' Iw st' o1 o2 q k n k' t t' R F1 F2 Vk Vk' Vt E.
  assert (Fc : Forall (fun c : order * command => fair (fst c)) [(o, CDiscard (PStr w'))]) by (constructor; [exact Fo|constructor]).
  pose proof (reached_run _ _ _ _ _ _ _ [(o, CDiscard (PStr w'))] H Fc) as H'. clear Fc.
  assert (Est : fst (ws_run rnd casefold st [(o, CDiscard (PStr w'))]) = st').
  { cbn [ws_run ws_call]. unfold st'. destruct (ws_discard casefold o st (PStr w')); reflexivity. }
  rewrite Est in H'. cbn [map snd] in H'. clear Est. clearbody st'.
  destruct (reached_sizes _ _ _ _ _ _ _ _ _ H H') as [Es Ef].
  destruct (find_full H o1 q k' t' R F1 E) as (a & n1 & -> & V1 & _ & -> & Ha).
  assert (n1 = (n + 1)%Z) as -> by (destruct Vk', V1; congruence). clear V1 E. fold norm in Ha.
  assert (Em : contents casefold b nz (cs ++ [CDiscard (PStr w')]) = without (contents casefold b nz cs) x).
  { unfold contents. rewrite spec_run_app. cbn [fst]. fold norm. cbn [spec_run command_spec]. rewrite Nw'. reflexivity. }
  assert (N0 : norm a <> None \/ a = [] \/ contents casefold b nz cs = []) by tauto.
  rewrite (full_find H' o2 a k n t F2 Vk Vt).
  2:{ fold norm. rewrite Em. destruct Ha as [Ha|[Ha|Ha]]; auto. rewrite Ha. right. left. reflexivity. }
  fold norm. rewrite Em, <- Es, <- Ef. f_equal. set (m := contents casefold b nz cs) in *. set (ns := sizes_of st) in *. set (fn := filter_of st) in *.
  destruct Vk as [_ Vk]. replace (Z.to_nat (n + 1)) with (Z.to_nat n + 1)%nat by lia. set (N := Z.to_nat n).
  unfold full. destruct a as [|c a]; [destruct N; reflexivity|].
  destruct (norm (c :: a)) as [[|d u]|]; try (destruct N; reflexivity).
  set (v := d :: u). rewrite rk_without. set (l := rk rnd ns fn m v).
  assert (Sp : forall y z, In (y, z) m -> (y = x <-> z = w)).
  { intros y z I. destruct (contents_norm _ _ _ _ _ _ _ H y z I) as (Ny & _ & _). fold norm in Ny. split.
    - intros ->. pose proof (contents_nodup _ _ _ _ _ _ _ H) as Nd. fold m in Nd.
      assert (Ix : In (x, w) m). { unfold m. rewrite (contents_as_iter H). fold norm. apply in_map_iff. exists w. rewrite Nw. auto. }
      assert (Eq : (x, z) = (x, w)) by (apply (NoDup_map_eq fst m); auto). congruence.
    - intros ->. congruence. }
  assert (El : map (out rnd ns v) (filter (fun e => if eqd (fst e) x then false else true) l) = filter (other w) (map (out rnd ns v) l)).
  { assert (Il : forall e, In e l -> In e m) by (intros e I; eapply rk_in; exact I). clearbody l. clear - Sp Il.
    induction l as [|[y z] l IH]; [reflexivity|]. cbn [filter map fst]. unfold other at 1. cbn [fst out snd].
    specialize (Sp y z (Il _ (or_introl eq_refl))). assert (IH' := IH (fun e I => Il e (or_intror I))).
    destruct (eqd y x) as [e|e], (list_eq_dec N.eq_dec z w) as [e'|e']; cbn [map]; rewrite IH'; auto; exfalso; tauto. }
  rewrite El. apply filter_skips_one. intros l1 r l2 Er Hr.
  (* the words listed are distinct *)
  assert (Nl : NoDup (map fst (map (out rnd ns v) l))).
  { rewrite map_map. change (map (fun e => fst (out rnd ns v e)) l) with (map (@snd str str) l). unfold l, rk.
    eapply Permutation_NoDup; [apply Permutation_map; symmetry; apply isort_perm|]. apply NoDup_map_filter.
    exact (contents_spellings H). }
  rewrite Er in Nl. rewrite map_app in Nl. cbn [map] in Nl. apply NoDup_remove in Nl. destruct Nl as [_ Nl].
  unfold other in Hr. destruct (list_eq_dec N.eq_dec (fst r) w) as [<-|]; [|discriminate].
  apply Forall_forall. intros r' I. unfold other. destruct (list_eq_dec N.eq_dec (fst r') (fst r)) as [C|]; [|reflexivity].
  exfalso. apply Nl. rewrite <- map_app, <- C. apply in_map. exact I.
Qed.
Print Assumptions find_similar_discard.

(** The order in which the words came matters only for words with equal scores:
    two sets with the same words give the same scores at the same places, *)
Theorem find_similar_order : forall rnd casefold b nz sz cs cs' st st',
  ws_reached rnd casefold b nz sz cs st -> ws_reached rnd casefold b nz sz cs' st' -> Permutation (ws_iter st) (ws_iter st') ->
  forall o o' q k t R R', fair o -> fair o' ->
  find_similar rnd casefold o st q k t = Ok R -> find_similar rnd casefold o' st' q k t = Ok R' ->
  map snd R = map snd R' /\
  (* and the same words as well if no two words of the set score the same. *)
  (forall o0 k0 n0 R0, fair o0 -> valid_k k0 n0 -> (Z.of_nat (ws_len st) <= n0)%Z ->
    find_similar rnd casefold o0 st q k0 t = Ok R0 -> NoDup (map snd R0) -> R = R').
Proof.
  intros rnd casefold b nz sz cs cs' st st' H H' P o o' q k t R R' Fo Fo' E E'.
  destruct (reached_sizes _ _ _ _ _ _ _ _ _ H H') as [Es Ef].
  assert (Pm : Permutation (contents casefold b nz cs) (contents casefold b nz cs')).
  { rewrite (contents_as_iter H), (contents_as_iter H'). apply Permutation_map. exact P. }
  destruct (reached_contains _ _ _ _ _ _ _ H) as (_ & Ln & _).
  destruct (find_full H o q k t R Fo E) as (a & n & -> & V & _ & -> & Ha).
  destruct (find_full H' o' (PStr a) k t R' Fo' E') as (a' & n' & Ea & V' & _ & -> & Ha'). injection Ea as <-.
  assert (n' = n) as -> by (destruct V, V'; congruence). rewrite <- Es, <- Ef. clear E E'.
  set (norm := normal_form casefold b (normalizer_of nz)) in *. set (m := contents casefold b nz cs) in *. set (m' := contents casefold b nz cs') in *.
  set (ns := sizes_of st) in *. set (fn := filter_of st) in *.
  assert (S0 : map snd (full rnd ns fn norm m a) = map snd (full rnd ns fn norm m' a) /\ Permutation (full rnd ns fn norm m a) (full rnd ns fn norm m' a)).
  { unfold full. destruct a as [|c a]; [auto|]. destruct (norm (c :: a)) as [[|d u]|]; auto. set (v := d :: u).
    assert (Pr : Permutation (rk rnd ns fn m v) (rk rnd ns fn m' v)).
    { unfold rk. rewrite !isort_perm. apply filter_perm. exact Pm. }
    split; [|apply Permutation_map; exact Pr]. apply (sorted_perm_unique (fun x y : Qc => qleb y x)).
    - intros x y A B. apply qleb_le in A, B. apply Qcle_antisym; assumption.
    - apply rk_sorted.
    - apply rk_sorted.
    - apply Permutation_map. apply Permutation_map. exact Pr. }
  destruct S0 as [S0 S1]. split; [rewrite <- !firstn_map, S0; reflexivity|].
  intros o0 k0 n0 R0 F0 V0 L0 E0 N0. destruct (find_full H o0 (PStr a) k0 t R0 F0 E0) as (a0 & n1 & Ea & V1 & _ & -> & _). injection Ea as <-.
  fold norm m ns fn in N0. assert (n1 = n0) as -> by (destruct V0, V1; congruence).
  rewrite firstn_all2 in N0.
  - f_equal. apply (perm_map_eq snd); auto.
  - fold m in Ln. enough (List.length (full rnd ns fn norm m a) <= List.length m)%nat by lia. unfold full.
    destruct a as [|c a]; [cbn; lia|]. destruct (norm (c :: a)) as [[|d u]|]; try (cbn [List.length]; lia). rewrite map_length. apply rk_length.
Qed.
Print Assumptions find_similar_order.

Lemma ws_lists_eq r l : ws_lists r l = true -> r = Ok (map (fun e => (w_ (fst e), snd e)) l).
Proof.
  destruct r as [r|]; [|discriminate]. unfold ws_lists. intros E. apply andb_true_iff in E. destruct E as [E F]. f_equal.
  revert l E F. induction r as [|[a x] r IH]; intros [|[b y] l] E F; try discriminate E; [reflexivity|].
  cbn [combine forallb fst snd] in F. apply andb_true_iff in F. destruct F as [F G]. apply andb_true_iff in F. destruct F as [F F2].
  destruct (list_eq_dec N.eq_dec a (w_ b)) as [->|]; [|discriminate F]. apply qeqb_eq in F2. subst y. cbn [map fst snd]. f_equal. apply IH; auto.
Qed.

(** With ties the order of insertion decides which of the words is listed. *)
Theorem find_similar_order_refuted : exists st st' q w w', w <> w' /\
  ws_reached exact lower false ZNone (SIter [Some 2; Some 3]%Z) [CAdd (PStr w); CAdd (PStr w')] st /\
  ws_reached exact lower false ZNone (SIter [Some 2; Some 3]%Z) [CAdd (PStr w'); CAdd (PStr w)] st' /\
  (forall v, ws_contains lower st v = ws_contains lower st' v) /\
  exists s, find_similar exact lower ord0 st (PStr q) (PInt 1) MNone = Ok [(w, s)] /\
    find_similar exact lower ord0 st' (PStr q) (PInt 1) MNone = Ok [(w', s)].
Proof.
  set (sz := SIter [Some 2; Some 3]%Z).
  set (mk := fun a b => fst (ws_run exact lower (ws_fresh false [2; 3]%Z) [(ord0, CAdd (PStr (w_ a))); (ord0, CAdd (PStr (w_ b)))])).
  assert (R : forall a b, ws_reached exact lower false ZNone sz [CAdd (PStr (w_ a)); CAdd (PStr (w_ b))] (mk a b)).
  { intros a b. exists (ws_fresh false [2; 3]%Z), [(ord0, CAdd (PStr (w_ a))); (ord0, CAdd (PStr (w_ b)))]. repeat split.
    repeat (constructor; [apply ord0_fair|]). constructor. }
  exists (mk "Apple" "APPLY"), (mk "APPLY" "Apple"), (w_ "appl"), (w_ "Apple"), (w_ "APPLY").
  assert (Ne : w_ "Apple" <> w_ "APPLY") by discriminate.
  split; [exact Ne|]. split; [apply R|]. split; [apply R|]. split.
  - intros v. destruct (reached_contains _ _ _ _ _ _ _ (R "Apple" "APPLY")) as (_ & _ & ->).
    destruct (reached_contains _ _ _ _ _ _ _ (R "APPLY" "Apple")) as (_ & _ & ->).
    destruct v as [s| | | |]; try reflexivity. cbn [contains_spec].
    destruct (normal_form lower false (normalizer_of ZNone) s) as [u|]; [|reflexivity]. f_equal.
    apply Bool.eq_iff_eq_true. unfold holds.
    change (contents lower false ZNone [CAdd (PStr (w_ "Apple")); CAdd (PStr (w_ "APPLY"))]) with [(w_ "apple", w_ "Apple"); (w_ "apply", w_ "APPLY")].
    change (contents lower false ZNone [CAdd (PStr (w_ "APPLY")); CAdd (PStr (w_ "Apple"))]) with [(w_ "apply", w_ "APPLY"); (w_ "apple", w_ "Apple")].
    cbn [existsb fst]. rewrite !Bool.orb_false_r. rewrite Bool.orb_comm. tauto.
  - assert (E1 : ws_lists (find_similar exact lower ord0 (mk "Apple" "APPLY") (PStr (w_ "appl")) (PInt 1) MNone) [("Apple", f 269 400)] = true) by (vm_compute; reflexivity).
    assert (E2 : ws_lists (find_similar exact lower ord0 (mk "APPLY" "Apple") (PStr (w_ "appl")) (PInt 1) MNone) [("APPLY", f 269 400)] = true) by (vm_compute; reflexivity).
    exists (f 269 400). split; [exact (ws_lists_eq _ _ E1)|exact (ws_lists_eq _ _ E2)].
Qed.
Print Assumptions find_similar_order_refuted.

(** Words added, discarded and fewer results asked for. *)
Example growth_case :
  let q k st := find_similar exact lower ord0 st (PStr (w_ "appl")) (PInt k) MNone in
  let A := ws_built false [2; 3]%Z ["Apple"; "APPLY"; "applet"] in
  let B := fst (ws_add exact lower ord0 A (PStr (w_ "app"))) in
  let C := fst (ws_discard lower ord0 A (PStr (w_ "apply"))) in
  ws_contains lower A (PStr (w_ "app")) = Ok false /\ ws_iter C = [w_ "Apple"; w_ "applet"] /\
  ws_lists (q 3%Z A) [("Apple", f 269 400); ("APPLY", f 269 400); ("applet", f 131 220)] = true /\
  ws_lists (q 2%Z A) [("Apple", f 269 400); ("APPLY", f 269 400)] = true /\
  ws_lists (q 2%Z C) [("Apple", f 269 400); ("applet", f 131 220)] = true /\
  ws_lists (q 3%Z B) [("Apple", f 269 400); ("APPLY", f 269 400); ("app", f 115 192)] = true.
Proof. cbv zeta. repeat split; vm_compute; reflexivity. Qed.
