(** The Levenshtein automaton. *)
From Coq Require Import ZArith NArith QArith Qcanon List Bool Lia Permutation.
From Verif Require Import Py PyDict Num NmdSpec IndexModel EditSpec EditProofs EditModel AutoModel AutoProofs.
Import ListNotations.
Open Scope nat_scope.

(** What [add_transition] and [add_final_state] maintain. *)
Definition nfa_ok (n : nfa) : Prop := full n /\ forall q l, NoDup (targets n q l).

Lemma nfa_ok_new : nfa_ok new_nfa.
Proof. split; [apply full_new|]. intros q l. constructor. Qed.
Lemma nfa_ok_add n q l d : nfa_ok n -> nfa_ok (add_transition n q l d).
Proof.
  intros [F N]. split; [apply full_add; auto|]. intros q' l'. unfold targets. rewrite state_transitions_add. destruct (eqd q' q) as [->|]; [|apply N].
  destruct (eqd l' l) as [->|]; [rewrite dget_dset_eq; apply sadd_nodup, N|rewrite dget_dset_neq by auto; apply N].
Qed.
Lemma nfa_ok_final n q : nfa_ok n -> nfa_ok (add_final_state n q).
Proof. auto. Qed.

Lemma nfa_ok_fold {E} (f : nfa -> E -> nfa) (l : list E) : (forall n e, nfa_ok n -> nfa_ok (f n e)) -> forall n, nfa_ok n -> nfa_ok (fold_left f l n).
Proof. intros H. induction l as [|e l IH]; intros n B; cbn [fold_left]; auto. Qed.

Lemma targets_fold {E} (f : nfa -> E -> nfa) (P : E -> Prop) q l x :
  (forall n e, In x (targets (f n e) q l) <-> In x (targets n q l) \/ P e) ->
  forall es n, In x (targets (fold_left f es n) q l) <-> In x (targets n q l) \/ exists e, In e es /\ P e.
Proof.
  intros H. induction es as [|e es IH]; intros n; cbn [fold_left].
  - split; auto. intros [I|(e & [] & _)]; auto.
  - rewrite IH, H. split.
    + intros [[I|I]|(e' & I & X)]; auto; right; [exists e|exists e']; simpl; auto.
    + intros [I|(e' & [<-|I] & X)]; auto. right. exists e'. auto.
Qed.

Lemma finals_fold {E} (f : nfa -> E -> nfa) (P : E -> Prop) q :
  (forall n e, In q (final_states (f n e)) <-> In q (final_states n) \/ P e) ->
  forall es n, In q (final_states (fold_left f es n)) <-> In q (final_states n) \/ exists e, In e es /\ P e.
Proof.
  intros H. induction es as [|e es IH]; intros n; cbn [fold_left].
  - split; auto. intros [I|(e & [] & _)]; auto.
  - rewrite IH, H. split.
    + intros [[I|I]|(e' & I & X)]; auto; right; [exists e|exists e']; simpl; auto.
    + intros [I|(e' & [<-|I] & X)]; auto. right. exists e'. auto.
Qed.

Lemma qn_inj a b : qn a = qn b -> a = b.
Proof. intros E. apply Nat.le_antisymm; rewrite qn_le, E; apply Qcle_refl. Qed.

Section Lev.
Variable word : str.
Variable k : Z.
Let n := levenshtein_automaton word k.

Lemma lev_nfa_ok : nfa_ok n.
Proof.
  unfold n, levenshtein_automaton. apply nfa_ok_fold.
  - intros m d B. apply nfa_ok_final. destruct (d <? k)%Z; auto using nfa_ok_add.
  - apply nfa_ok_fold; [|apply nfa_ok_new]. intros m e B. apply nfa_ok_fold; auto. intros m' d B'. destruct (d <? k)%Z; auto using nfa_ok_add.
Qed.

(** The edges out of (i, d), where [c] is the character at [i]. *)
Definition edge_in (i : Z) (c : N) (d : Z) (q : state) (l : label) (x : state) : Prop :=
  q = (i, d) /\ ((l = Char c /\ x = (i + 1, d)%Z) \/
    ((d < k)%Z /\ ((l = ANY /\ x = (i, d + 1)%Z) \/ (l = EPSILON /\ x = (i + 1, d + 1)%Z) \/ (l = ANY /\ x = (i + 1, d + 1)%Z)))).

Lemma in_enum {A} (w : list A) i c : In (i, c) (enum w) <-> nth_error w i = Some c.
Proof.
  unfold enum. assert (G : forall a, In (a + i, c) (combine (seq a (length w)) w) <-> nth_error w i = Some c).
  { revert i. induction w as [|x w IH]; intros i a; cbn [length seq combine].
    - destruct i; split; simpl; try discriminate; intros [].
    - destruct i as [|i]; cbn [nth_error In].
      + split; [intros [[= _ ->]|I]; auto|intros [= ->]; left; f_equal; lia]. exfalso. apply in_combine_l in I. apply in_seq in I. lia.
      + rewrite <- (IH i (S a)). replace (S a + i) with (a + S i) by lia. split; auto. intros [[= E _]|I]; [lia|auto]. }
  apply (G 0).
Qed.

Lemma lev_targets q l x : In x (targets n q l) <->
  (exists i c d, nth_error word i = Some c /\ (0 <= d <= k)%Z /\ edge_in (Z.of_nat i) c d q l x) \/
  (exists d, (0 <= d < k)%Z /\ q = (zlen word, d) /\ l = ANY /\ x = (zlen word, d + 1)%Z).
Proof.
  unfold n, levenshtein_automaton.
  rewrite (targets_fold _ (fun d => (d < k)%Z /\ q = (zlen word, d) /\ l = ANY /\ x = (zlen word, d + 1)%Z)).
  2:{ intros m d. rewrite targets_final. destruct (d <? k)%Z eqn:E; [apply Z.ltb_lt in E|apply Z.ltb_ge in E; intuition lia]. rewrite in_targets_add. intuition. }
  rewrite (targets_fold _ (fun e => exists d, In d (py_range 0 (k + 1)) /\ edge_in (Z.of_nat (fst e)) (snd e) d q l x)).
  2:{ intros m [i c]. apply targets_fold. intros m' d. cbn [fst snd]. unfold edge_in. destruct (d <? k)%Z eqn:E; [apply Z.ltb_lt in E|apply Z.ltb_ge in E].
      - rewrite !in_targets_add. intuition.
      - rewrite in_targets_add. intuition lia. }
  split.
  - intros [[[]|([i c] & I & d & J & X)]|(d & J & L & X)].
    + left. exists i, c, d. rewrite in_enum in I. rewrite py_range_in in J. split; auto. split; [lia|auto].
    + right. exists d. rewrite py_range_in in J. split; [lia|auto].
  - intros [(i & c & d & I & J & X)|(d & J & X)].
    + left. right. exists (i, c). rewrite in_enum. split; auto. exists d. rewrite py_range_in. split; [lia|auto].
    + right. exists d. rewrite py_range_in. split; [lia|]. split; [lia|auto].
Qed.

Lemma lev_finals q : In q (final_states n) <-> exists d, (0 <= d <= k)%Z /\ q = (zlen word, d).
Proof.
  unfold n, levenshtein_automaton. rewrite (finals_fold _ (fun d => q = (zlen word, d))).
  2:{ intros m d. cbn [add_final_state final_states]. rewrite in_sadd. destruct (d <? k)%Z; cbn [add_transition final_states]; intuition. }
  rewrite (finals_fold _ (fun _ => False)).
  2:{ intros m e. rewrite (finals_fold _ (fun _ => False)).
      - split; [intros [I|(? & _ & [])]; auto|intros [I|[]]; auto].
      - intros m' d. destruct (d <? k)%Z; cbn [add_transition final_states]; intuition. }
  split.
  - intros [[[]|(? & _ & [])]|(d & I & X)]. apply py_range_in in I. exists d. split; [lia|auto].
  - intros (d & L & X). right. exists d. rewrite py_range_in. split; [lia|auto].
Qed.

Lemma firstn_snoc {A} (w : list A) i c : nth_error w i = Some c -> firstn (S i) w = firstn i w ++ [c].
Proof. revert i; induction w as [|x w IH]; intros [|i] E; cbn in *; try discriminate; [congruence|]. f_equal. apply IH; auto. Qed.
Lemma firstn_snoc_inv {A} (w : list A) a u x : a <= length w -> u ++ [x] = firstn a w -> exists i, a = S i /\ nth_error w i = Some x /\ u = firstn i w.
Proof.
  intros L E. destruct a as [|i]; [destruct u; discriminate|]. exists i. destruct (nth_error w i) as [c|] eqn:En.
  - rewrite (firstn_snoc _ _ _ En) in E. apply app_inj_tail in E. destruct E as [-> ->]. auto.
  - apply nth_error_None in En. lia.
Qed.

Hypothesis nonneg : (0 <= k)%Z.

Lemma lev_reaches_al s q : reaches n s q -> exists i d, q = (Z.of_nat i, Z.of_nat d) /\ i <= length word /\ (Z.of_nat d <= k)%Z /\ al unit_costs (firstn i word) s (qn d).
Proof.
  assert (Z1 : forall i, (Z.of_nat i + 1)%Z = Z.of_nat (S i)) by (intros; lia).
  assert (Lt : forall i c, nth_error word i = Some c -> S i <= length word) by (intros i c E; apply nth_error_Some; congruence).
  assert (Q1 : forall d, qn (S d) = (qn d + 1)%Qc) by (intros; rewrite qn_S; ring).
  induction 1 as [|s q q' R IH T|s q q' c R IH T|s q q' c R IH T].
  - exists 0, 0. cbn. repeat split; auto; try lia. constructor.
  - destruct IH as (i & d & -> & Li & Ld & H). apply lev_targets in T. destruct T as [(i' & c & d' & En & Ld' & [[= Ei Ed] T])|(d' & _ & _ & [=] & _)].
    apply Nat2Z.inj in Ei. subst i' d'. destruct T as [[[=] _]|[L [[[=] _]|[[_ ->]|[[=] _]]]]].
    exists (S i), (S d). rewrite !Z1. split; auto. split; [eauto|]. split; [lia|]. rewrite (firstn_snoc _ _ _ En), Q1. apply (al_del unit_costs). exact H.
  - destruct IH as (i & d & -> & Li & Ld & H). apply lev_targets in T. destruct T as [(i' & c' & d' & En & Ld' & [[= Ei Ed] T])|(d' & _ & _ & [=] & _)].
    apply Nat2Z.inj in Ei. subst i' d'. destruct T as [[[= <-] ->]|[L [[[=] _]|[[[=] _]|[[=] _]]]]].
    exists (S i), d. rewrite !Z1. split; auto. split; [eauto|]. split; [lia|]. rewrite (firstn_snoc _ _ _ En). apply al_keep. exact H.
  - destruct IH as (i & d & -> & Li & Ld & H). apply lev_targets in T. destruct T as [(i' & c' & d' & En & Ld' & [[= Ei Ed] T])|(d' & L & [= Ei Ed] & _ & ->)].
    + apply Nat2Z.inj in Ei. subst i' d'. destruct T as [[[=] _]|[L [[_ ->]|[[[=] _]|[_ ->]]]]].
      * exists i, (S d). rewrite !Z1. split; auto. split; auto. split; [lia|]. rewrite Q1. apply (al_ins unit_costs). exact H.
      * exists (S i), (S d). rewrite !Z1. split; auto. split; [eauto|]. split; [lia|]. rewrite (firstn_snoc _ _ _ En), Q1. apply (al_sub unit_costs). exact H.
    + subst d'. rewrite <- Ei. exists i, (S d). rewrite Z1. split; auto. split; auto. split; [lia|]. rewrite Q1. apply (al_ins unit_costs). exact H.
Qed.

Lemma al_lev_reaches u s x : al unit_costs u s x -> forall i d, u = firstn i word -> i <= length word -> x = qn d -> (Z.of_nat d <= k)%Z -> reaches n s (Z.of_nat i, Z.of_nat d).
Proof.
  assert (Z1 : forall i, (Z.of_nat i + 1)%Z = Z.of_nat (S i)) by (intros; lia).
  assert (Dec : forall u v y d, @al N unit_costs u v y -> (y + 1)%Qc = qn d -> exists d', d = S d' /\ y = qn d').
  { intros u' v y d H E. apply al_steps in H. destruct H as (m & -> & _). exists m. split; auto. rewrite <- qn_S in E. symmetry. apply qn_inj. exact E. }
  induction 1 as [|u v y c H IH|u v y c H IH|u v y c H IH|u v y c c' H IH|u v y c c' t E]; intros i d Eu Li Ex Ld; cbn [insertion deletion substitution unit_costs] in *; try discriminate.
  - assert (i = 0) as ->. { destruct i; auto. destruct word; [cbn in Li; lia|discriminate]. }
    assert (d = 0) as ->. { symmetry. apply qn_inj. exact Ex. }
    constructor.
  - destruct (firstn_snoc_inv _ _ _ _ Li Eu) as (i' & -> & En & ->). apply reach_char with (q := (Z.of_nat i', Z.of_nat d)); [apply IH; auto; lia|].
    apply lev_targets. left. exists i', c, (Z.of_nat d). split; auto. split; [lia|]. split; auto. left. split; auto. f_equal; lia.
  - destruct (Dec _ _ _ _ H Ex) as (d' & -> & ->). apply reach_any with (q := (Z.of_nat i, Z.of_nat d')); [apply IH; auto; lia|].
    apply lev_targets. destruct (Nat.eq_dec i (length word)) as [->|Ni].
    + right. exists (Z.of_nat d'). split; [lia|]. split; auto. split; auto. unfold zlen. f_equal; lia.
    + left. destruct (nth_error word i) as [c'|] eqn:En; [|apply nth_error_None in En; lia]. exists i, c', (Z.of_nat d'). split; auto. split; [lia|]. split; auto. right. split; [lia|]. left. split; auto. f_equal; lia.
  - destruct (Dec _ _ _ _ H Ex) as (d' & -> & ->). destruct (firstn_snoc_inv _ _ _ _ Li Eu) as (i' & -> & En & ->). apply reach_epsilon with (q := (Z.of_nat i', Z.of_nat d')); [apply IH; auto; lia|].
    apply lev_targets. left. exists i', c, (Z.of_nat d'). split; auto. split; [lia|]. split; auto. right. split; [lia|]. right. left. split; auto. f_equal; lia.
  - destruct (Dec _ _ _ _ H Ex) as (d' & -> & ->). destruct (firstn_snoc_inv _ _ _ _ Li Eu) as (i' & -> & En & ->). apply reach_any with (q := (Z.of_nat i', Z.of_nat d')); [apply IH; auto; lia|].
    apply lev_targets. left. exists i', c, (Z.of_nat d'). split; auto. split; [lia|]. split; auto. right. split; [lia|]. right. right. split; auto. f_equal; lia.
Qed.
End Lev.

(** Within [k] single edits. *)
Definition near (word : str) (k : Z) (s : str) : Prop := exists m, in_steps one_edit m word s /\ (Z.of_nat m <= k)%Z.

Lemma lev_accepts word k s : nfa_accepts (levenshtein_automaton word k) s <-> near word k s.
Proof.
  split.
  - intros (q & R & F). apply lev_finals in F. destruct F as (d' & L & ->). destruct (lev_reaches_al word k ltac:(lia) s _ R) as (i & d & [= Ei ->] & Li & _ & H).
    unfold zlen in Ei. apply Nat2Z.inj in Ei. subst i. rewrite firstn_all in H. apply al_steps in H. destruct H as (m & E & H). exists m. split; auto.
    apply qn_inj in E. subst m. lia.
  - intros (m & H & L). apply steps_al in H. destruct H as (y & H & Ly). destruct (al_steps _ _ _ H) as (d & -> & _). rewrite <- qn_le in Ly.
    exists (Z.of_nat (length word), Z.of_nat d). split; [|apply lev_finals; exists (Z.of_nat d); split; [lia|reflexivity]].
    apply (al_lev_reaches word k _ _ _ H); [symmetry; apply firstn_all|lia|reflexivity|lia].
Qed.

(** Every state reached can be completed. *)
Lemma lev_live word k s q : (0 <= k)%Z -> reaches (levenshtein_automaton word k) s q -> exists t, near word k (s ++ t).
Proof.
  intros K R. destruct (lev_reaches_al word k K s q R) as (i & d & -> & Li & Ld & H). exists (skipn i word). apply lev_accepts.
  exists (Z.of_nat (length word), Z.of_nat d). split; [|apply lev_finals; exists (Z.of_nat d); split; [lia|reflexivity]].
  assert (G : forall t a, i + length t = a -> a <= length word -> t = firstn (length t) (skipn i word) -> reaches (levenshtein_automaton word k) (s ++ t) (Z.of_nat a, Z.of_nat d)).
  { intros t. induction t as [|c t IH] using rev_ind; intros a Ea La Et.
    - cbn in Ea. rewrite app_nil_r. replace a with i by lia. exact R.
    - rewrite app_length in *. cbn [length] in *. rewrite app_assoc. destruct (firstn_snoc_inv (skipn i word) (length t + 1) t c) as (j & Ej & En & Et'); [rewrite skipn_length; lia|exact Et|].
      assert (j = length t) by lia. subst j. apply reach_char with (q := (Z.of_nat (i + length t), Z.of_nat d)); [apply IH; auto; lia|].
      apply lev_targets. left. exists (i + length t), c, (Z.of_nat d). split; [|split; [lia|]].
      + clear - En. revert i En. induction word as [|x w IH]; intros i En; [destruct i; cbn in En; destruct (length t); discriminate|]. destruct i; auto. cbn. apply IH. exact En.
      + split; auto. left. split; auto. f_equal; lia. }
  apply G.
  - rewrite skipn_length. lia.
  - lia.
  - symmetry. apply firstn_all.
Qed.

Lemma near_len word k s : near word k s -> (Z.of_nat (length s) <= Z.of_nat (length word) + k)%Z.
Proof.
  intros (m & H & L). assert (G : length s <= length word + m); [|lia]. clear L. revert s H. induction m as [|m IH]; intros s H; inversion H; subst; [lia|].
  match goal with X : in_steps _ m _ ?v, Y : one_edit ?v _ |- _ => apply IH in X; destruct Y; rewrite ?app_length in *; cbn [length] in *; lia end.
Qed.
