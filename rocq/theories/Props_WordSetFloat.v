(** Theorems about [WordSet.find_similar] in doubles: property C119. *)
From Coq Require Import ZArith NArith QArith Qcanon List Bool Permutation Lia Sorted String.
From Verif Require Import Num Py ListAux PyDict Float64 Ex EmdSpec EmdModel EmdProofs EmdFloatProofs NmdSpec NmdModel NmdProofs NmdFloatProofs IndexModel
  WordSetSpec WordSetModel WordSetProofs WordSetScore Props_Nmd Props_Index Props_WordSet Accuracy WordSetFloat Ieee WordSetIeee.
Import ListNotations.
Open Scope string_scope.
Open Scope list_scope.
Open Scope Qc_scope.

(** Double arithmetic: 53 bits with an unbounded exponent, or any rounding that
    is that of IEEE 754 below 2^1023. *)
Definition doubles (rnd : Qc -> Qc) : Prop := rnd = rnd64 \/ double_rounding rnd.

Lemma doubles_wscore rnd ns q w : doubles rnd -> small (total_grams ns q + total_grams ns w) ->
  (0 < total_grams ns q + total_grams ns w)%nat -> wscore rnd ns q w = wscore rnd64 ns q w.
Proof. intros [->|D] S T; auto. apply wscore_double; auto. Qed.

Lemma eligible_total rnd casefold b nz sz cs st : ws_reached rnd casefold b nz sz cs st ->
  forall q w, eligible (sizes_of st) (filter_of st) q w -> (0 < total_grams (sizes_of st) q + total_grams (sizes_of st) w)%nat.
Proof.
  intros H q w E. destruct (wordset_filter_size _ _ _ _ _ _ _ H) as ([[I F]|[_ (m & I & _ & F)]] & _ & _); rewrite F in E; unfold eligible in E.
  - destruct E as (g & Hg & _). assert (0 < gram_count 3 q)%nat. { rewrite <- grams_length. destruct (grams 3 q); [destruct Hg|simpl; lia]. }
    pose proof (total_pos _ 3 q I H0). lia.
  - destruct (m <=? 4)%nat; [|exact E]. destruct E as (g & Hg & _).
    assert (0 < gram_count m q)%nat. { rewrite <- grams_length. destruct (grams m q); [destruct Hg|simpl; lia]. }
    pose proof (total_pos _ m q I H0). lia.
Qed.

(** The query and each word of the set together have at most [B] n-grams. *)
Definition at_most (B : Z) (st : wordset) (norm : str -> option str) (u : str) : Prop :=
  forall w x, In w (ws_iter st) -> norm w = Some x -> (Z.of_nat (total_grams (sizes_of st) u + total_grams (sizes_of st) x) <= B)%Z.

Lemma member_at_most rnd casefold b nz sz cs st B u : ws_reached rnd casefold b nz sz cs st ->
  at_most B st (normal_form casefold b (normalizer_of nz)) u ->
  forall x w, In (x, w) (contents casefold b nz cs) -> (Z.of_nat (total_grams (sizes_of st) u + total_grams (sizes_of st) x) <= B)%Z.
Proof.
  intros H A x w I. destruct (contents_norm _ _ _ _ _ _ _ H x w I) as (Nw & _ & Ii). exact (A w x Ii Nw).
Qed.

Lemma insert_same {A} (l1 l2 : A -> A -> bool) x l : (forall y, In y l -> l1 x y = l2 x y) -> insert l1 x l = insert l2 x l.
Proof. apply insert_ext. Qed.

Lemma isort_same {A} (l1 l2 : A -> A -> bool) l : (forall x y, In x l -> In y l -> l1 x y = l2 x y) -> isort l1 l = isort l2 l.
Proof.
  induction l as [|x l IH]; intros H; auto. rewrite !isort_cons. rewrite IH by (intros; apply H; right; auto). apply insert_same.
  intros y Hy. apply H; [left; auto|right]. eapply Permutation_in; [apply isort_perm|exact Hy].
Qed.

Lemma best_same r1 r2 ns fn m u k : (forall x, In x m -> eligible ns fn u (fst x) -> wscore r1 ns u (fst x) = wscore r2 ns u (fst x)) ->
  best r1 ns fn m u k = best r2 ns fn m u k.
Proof.
  intros H. unfold best. set (F := filter _ m).
  assert (H' : forall x, In x F -> wscore r1 ns u (fst x) = wscore r2 ns u (fst x)).
  { intros x I. apply filter_In in I. destruct I as [I E]. apply eligibleb_iff in E. auto. }
  rewrite (isort_same (fun x y => qleb (- wscore r1 ns u (fst x)) (- wscore r1 ns u (fst y))) (fun x y => qleb (- wscore r2 ns u (fst x)) (- wscore r2 ns u (fst y))) F).
  - apply map_ext_in. intros x I. f_equal. apply H'. eapply Permutation_in; [apply isort_perm|]. rewrite <- (firstn_skipn (Z.to_nat k)). apply in_app_iff. left. exact I.
  - intros x y I J. rewrite (H' x I), (H' y J). reflexivity.
Qed.

Lemma contents_calls r1 r2 casefold b nz sz cs st1 st2 : ws_reached r1 casefold b nz sz cs st1 -> ws_reached r2 casefold b nz sz cs st2 ->
  ws_iter st1 = ws_iter st2 /\ sizes_of st1 = sizes_of st2 /\ filter_of st1 = filter_of st2.
Proof.
  intros H1 H2. destruct (reached_contains _ _ _ _ _ _ _ H1) as (I1 & _). destruct (reached_contains _ _ _ _ _ _ _ H2) as (I2 & _).
  split; [congruence|]. destruct H1 as (s0 & calls & E & F & _ & ->), H2 as (s0' & calls' & E' & F' & _ & ->).
  assert (s0 = s0') by congruence. subst s0'.
  destruct (ws_run_spec r1 casefold calls F s0 [] (ws_init_repr r1 casefold _ _ _ _ E)) as (_ & _ & (_ & _ & C1 & C2) & _).
  destruct (ws_run_spec r2 casefold calls' F' s0 [] (ws_init_repr r2 casefold _ _ _ _ E)) as (_ & _ & (_ & _ & C3 & C4) & _).
  unfold sizes_of, filter_of. split; congruence.
Qed.

(** *** C119: doubles *)

(** The same calls give a set with the same words, and a search gives the same
    words with the same scores, or raises the same exception, with gradual
    underflow as with an unbounded exponent. *)
Theorem find_similar_ieee : forall rnd, double_rounding rnd -> forall casefold b nz sz cs st st',
  ws_reached rnd casefold b nz sz cs st -> ws_reached rnd64 casefold b nz sz cs st' ->
  ws_iter st = ws_iter st' /\ (forall v, ws_contains casefold st v = ws_contains casefold st' v) /\
  let norm := normal_form casefold b (normalizer_of nz) in
  forall o o' q k t, fair o -> fair o' -> (forall a u, q = PStr a -> norm a = Some u -> at_most (2 ^ 53) st norm u) ->
  find_similar rnd casefold o st q k t = find_similar rnd64 casefold o' st' q k t.
Proof.
  intros rnd D casefold b nz sz cs st st' H H' .
  destruct (contents_calls _ _ _ _ _ _ _ _ _ H H') as (Ei & Es & Ef).
  destruct (reached_contains _ _ _ _ _ _ _ H) as (_ & _ & C1). destruct (reached_contains _ _ _ _ _ _ _ H') as (_ & _ & C2).
  split; [exact Ei|]. split; [intros v; rewrite C1, C2; reflexivity|]. intros norm o o' q k t Fo Fo' Am.
  rewrite (find_similar_best _ _ _ _ _ _ _ H o q k t Fo), (find_similar_best _ _ _ _ _ _ _ H' o' q k t Fo'). fold norm.
  destruct (check_find q k t) as [[a n]|] eqn:Ec; auto. cbn [bind]. apply check_find_ok in Ec. destruct Ec as (-> & _ & _).
  destruct (_ || _); auto. destruct (norm a) as [u|] eqn:Eu; auto. destruct (Nat.eqb (List.length u) 0); auto.
  rewrite <- Es, <- Ef. f_equal. apply best_same. intros [x w] I El. cbn [fst] in *.
  pose proof (member_at_most _ _ _ _ _ _ _ _ _ H (Am a u eq_refl Eu) x w I) as B.
  apply wscore_double; auto. eapply eligible_total; eauto.
Qed.
Print Assumptions find_similar_ieee.

Lemma u64_le n B : (Z.of_nat n <= B)%Z -> qn n * u64 <= qz B * u64.
Proof. intros H. apply qmul_le_r; [discriminate|]. apply (proj1 (qz_le _ _)). exact H. Qed.

(** Every score listed is close to the true one. *)
Theorem find_similar_accurate : forall rnd, doubles rnd -> forall casefold b nz sz cs st, ws_reached rnd casefold b nz sz cs st ->
  let norm := normal_form casefold b (normalizer_of nz) in
  forall o a k t u R, fair o -> norm a = Some u -> at_most (2 ^ 51) st norm u ->
  find_similar rnd casefold o st (PStr a) k t = Ok R ->
  forall w s, In (w, s) R -> exists x s', In w (ws_iter st) /\ norm w = Some x /\ is_score (sizes_of st) u x s' /\
    qabs (s - s') <= qn (3 * (total_grams (sizes_of st) u + total_grams (sizes_of st) x) + 4) * u64.
Proof.
  intros rnd Db casefold b nz sz cs st H norm o a k t u R Fo Hu Am E w s I.
  rewrite (find_similar_best _ _ _ _ _ _ _ H o (PStr a) k t Fo) in E.
  destruct (check_find (PStr a) k t) as [[a' n]|] eqn:Ec; [|discriminate]. apply check_find_ok in Ec. destruct Ec as (Ea & _ & _).
  injection Ea as <-. cbn [bind] in E. destruct (_ || _); [injection E as <-; destruct I|]. fold norm in E. rewrite Hu in E.
  destruct (Nat.eqb (List.length u) 0); [injection E as <-; destruct I|].
  assert (R = best rnd (sizes_of st) (filter_of st) (contents casefold b nz cs) u n) as -> by congruence. clear E.
  unfold best in I. apply in_map_iff in I. destruct I as ([x w'] & Ew & I). injection Ew as -> <-. cbn [fst snd].
  assert (I' : In (x, w) (filter (fun x => eligibleb (sizes_of st) (filter_of st) u (fst x)) (contents casefold b nz cs))).
  { eapply Permutation_in; [apply isort_perm|]. rewrite <- (firstn_skipn (Z.to_nat n)). apply in_app_iff. left. exact I. }
  clear I. apply filter_In in I'. destruct I' as [I El]. apply eligibleb_iff in El. cbn [fst] in El.
  destruct (contents_norm _ _ _ _ _ _ _ H x w I) as (Nw & _ & Ii).
  destruct (wordset_filter_size _ _ _ _ _ _ _ H) as (_ & Nd & Ps).
  pose proof (eligible_total _ _ _ _ _ _ _ H u x El) as T.
  pose proof (member_at_most _ _ _ _ _ _ _ _ _ H Am x w I) as B.
  exists x, (wscore exact (sizes_of st) u x). split; [exact Ii|]. split; [exact Nw|]. split; [apply wscore_is_score; auto|].
  assert (Sm : small (total_grams (sizes_of st) u + total_grams (sizes_of st) x)). { unfold small. eapply Z.le_trans; [exact B|]. clear. lia. }
  rewrite (doubles_wscore rnd (sizes_of st) u x Db Sm T).
  apply (wscore_acc u64 (proj1 u64_unit) (proj2 u64_unit) rnd64 rnd64_lawful rnd64_accurate); auto.
  eapply Qcle_trans; [apply qmul_le_l; [apply qn_nonneg|apply (u64_le _ (2 ^ 51 + 1)); lia]|]. vm_compute. discriminate.
Qed.
Print Assumptions find_similar_accurate.

(** A word of the set that is looked up comes first with score 1, and all
    others score less. *)
Theorem find_similar_member_first_doubles : forall rnd, doubles rnd -> forall casefold b nz sz cs st, ws_reached rnd casefold b nz sz cs st ->
  let norm := normal_form casefold b (normalizer_of nz) in
  forall o a k n t u, fair o -> valid_k k n -> valid_threshold t -> a <> [] -> norm a = Some u ->
  ws_contains casefold st (PStr a) = Ok true ->
  eligible (sizes_of st) (filter_of st) u u -> at_most 8192 st norm u ->
  exists w rest, find_similar rnd casefold o st (PStr a) k t = Ok ((w, 1) :: rest) /\ In w (ws_iter st) /\ norm w = Some u /\
    Forall (fun r => snd r < 1) rest.
Proof.
  intros rnd Db casefold b nz sz cs st H norm o a k n t u Fo Vk Vt Ha Hu Hc El Am.
  destruct (contains_member _ _ _ _ _ _ _ a u H Hu Hc) as (w & Iw).
  destruct (contents_norm _ _ _ _ _ _ _ H u w Iw) as (Nw & Hne & Ii).
  destruct (wordset_filter_size _ _ _ _ _ _ _ H) as (_ & Nd & Ps).
  pose proof (eligible_self_total _ _ _ _ _ _ _ H u El) as T.
  assert (Bd : forall x w, In (x, w) (contents casefold b nz cs) -> (Z.of_nat (total_grams (sizes_of st) u + total_grams (sizes_of st) x) <= 8192)%Z)
    by (intros; eapply member_at_most; eauto).
  assert (Sm : forall x w, In (x, w) (contents casefold b nz cs) -> small (total_grams (sizes_of st) u + total_grams (sizes_of st) x)).
  { intros x w' I. specialize (Bd x w' I). unfold small. lia. }
  assert (S1 : wscore rnd (sizes_of st) u u = 1).
  { rewrite (doubles_wscore rnd _ u u Db) by (eauto; lia). apply (wscore_self rnd64 rnd64_lawful); eauto. }
  assert (S2 : forall x w, In (x, w) (contents casefold b nz cs) -> x <> u -> wscore rnd (sizes_of st) u x < 1).
  { intros x w' I N. rewrite (doubles_wscore rnd _ u x Db) by (eauto; lia). apply wscore_below64; eauto. }
  pose proof (find_similar_best _ _ _ _ _ _ _ H o (PStr a) k t Fo) as Ef.
  assert (check_find (PStr a) k t = Ok (a, n)) as Ec by (apply check_find_ok; auto). rewrite Ec in Ef. cbn [bind] in Ef.
  assert (Nat.eqb (List.length a) 0 = false) as La by (destruct a; [congruence|reflexivity]). rewrite La in Ef.
  assert (Nat.eqb (List.length (contents casefold b nz cs)) 0 = false) as Lm. { destruct (contents casefold b nz cs); [destruct Iw|reflexivity]. }
  rewrite Lm in Ef. fold norm in Ef. rewrite Hu in Ef. cbn [orb] in Ef.
  assert (Nat.eqb (List.length u) 0 = false) as Lu by (destruct u; [congruence|reflexivity]). rewrite Lu in Ef. rewrite Ef. clear Ef.
  unfold best. set (F := filter _ _). set (leb := fun x y : str * str => qleb (- wscore rnd (sizes_of st) u (fst x)) (- wscore rnd (sizes_of st) u (fst y))).
  assert (Pm : Permutation (isort leb F) F) by apply isort_perm.
  assert (Sr : StronglySorted (fun x y => leb x y = true) (isort leb F)).
  { apply isort_sorted; unfold leb.
    - intros x y. destruct (qleb (- wscore rnd (sizes_of st) u (fst x)) (- wscore rnd (sizes_of st) u (fst y))) eqn:E; auto. right.
      apply qleb_nle in E. apply qleb_le. apply Qclt_le_weak. exact E.
    - intros x y z Hxy Hyz. rewrite qleb_le in *. eapply Qcle_trans; eauto. }
  assert (Nf : NoDup (map fst (isort leb F))).
  { eapply Permutation_NoDup; [apply Permutation_map; symmetry; exact Pm|]. apply NoDup_map_filter. eapply contents_nodup; eauto. }
  assert (If : In (u, w) F). { apply filter_In. split; auto. apply eligibleb_iff. exact El. }
  assert (Mem : forall x, In x (isort leb F) -> In x (contents casefold b nz cs)).
  { intros x I. eapply Permutation_in in I; [|exact Pm]. apply filter_In in I. apply I. }
  assert (Ir : In (u, w) (isort leb F)) by (eapply Permutation_in; [symmetry; exact Pm|exact If]).
  clearbody F. assert (exists p, Z.to_nat n = Datatypes.S p) as [p ->] by (exists (Z.to_nat n - 1)%nat; destruct Vk; lia).
  destruct (isort leb F) as [|[x v] rk]; [destruct Ir|]. inversion Sr as [|? ? Sr' Hx]; subst. rewrite Forall_forall in Hx.
  assert (x = u /\ v = w) as [-> ->].
  { destruct Ir as [E|Ir]; [injection E as -> ->; auto|]. specialize (Hx _ Ir). unfold leb in Hx. cbn [fst] in Hx. rewrite S1 in Hx. apply qleb_le in Hx.
    exfalso. cbn [map fst] in Nf. inversion Nf; subst. destruct (list_eq_dec N.eq_dec x u) as [->|D].
    - apply H2. apply in_map_iff. exists (u, w). auto.
    - pose proof (S2 x v (Mem _ (or_introl eq_refl)) D) as Lt. set (y := wscore rnd (sizes_of st) u x) in *. clearbody y. clear - Hx Lt. qclra. }
  cbn [firstn map fst snd]. rewrite S1. exists w. eexists. split; [reflexivity|]. split; [exact Ii|]. split; [exact Nw|].
  apply Forall_forall. intros r Hr. apply in_map_iff in Hr. destruct Hr as ([y v] & <- & Iy). cbn [fst snd].
  assert (Iy' : In (y, v) rk) by (rewrite <- (firstn_skipn p rk); apply in_app_iff; auto).
  apply (S2 y v); [apply Mem; right; exact Iy'|]. intros ->. cbn [map fst] in Nf. inversion Nf; subst. apply H2. apply in_map_iff. exists (u, v). auto.
Qed.
Print Assumptions find_similar_member_first_doubles.

(** Three words searched in doubles. *)
Definition ws_built64 (r : Qc -> Qc) (b : bool) (sz : list Z) (words : list string) : wordset :=
  fst (ws_run r lower (ws_fresh b sz) (map (fun s => (ord0, CAdd (PStr (w_ s)))) words)).

Example wordset_doubles_case :
  let r := find_similar ieee64 lower ord0 (ws_built64 ieee64 false [2; 3]%Z ["Apple"; "pear"; "APPLY"]) (PStr (w_ "apPly")) (PInt 30) MNone in
  ws_lists r [("APPLY", 1); ("Apple", rnd64 (f 7 11))] = true /\
  at_most 8192 (ws_built64 ieee64 false [2; 3]%Z ["Apple"; "pear"; "APPLY"]) (normal_form lower false None) (w_ "apply").
Proof.
  split; [vm_compute; reflexivity|]. intros w x I E.
  assert (Hw : ws_iter (ws_built64 ieee64 false [2; 3]%Z ["Apple"; "pear"; "APPLY"]) = [w_ "Apple"; w_ "pear"; w_ "APPLY"]) by reflexivity.
  rewrite Hw in I. destruct I as [<-|[<-|[<-|[]]]]; vm_compute in E; injection E as <-; vm_compute; discriminate.
Qed.
