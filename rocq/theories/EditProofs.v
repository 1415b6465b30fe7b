(** The recurrence of edit distance. *)
From Coq Require Import ZArith QArith Qcanon List Bool Lia.
From Verif Require Import Num Py PyDict EmdSpec EmdProofs EditSpec.
Import ListNotations.
Open Scope Qc_scope.

Lemma snoc_inv {A} (u v : list A) x y : u ++ [x] = v ++ [y] -> u = v /\ x = y.
Proof. apply app_inj_tail. Qed.

Lemma snoc2_inv {A} (u v : list A) x y z : u ++ [x] = v ++ [y; z] -> u = v ++ [y] /\ x = z.
Proof. intros E. change (v ++ [y; z]) with (v ++ ([y] ++ [z])) in E. rewrite app_assoc in E. apply snoc_inv in E. auto. Qed.

Section Edit.
Context {A : Type}.

(** Scripts seen from their end. *)
Inductive al (c : costs) : list A -> list A -> Qc -> Prop :=
| al_nil : al c [] [] 0
| al_keep u v k x : al c u v k -> al c (u ++ [x]) (v ++ [x]) k
| al_ins u v k x : al c u v k -> al c u (v ++ [x]) (k + insertion c)
| al_del u v k x : al c u v k -> al c (u ++ [x]) v (k + deletion c)
| al_sub u v k x y : al c u v k -> al c (u ++ [x]) (v ++ [y]) (k + substitution c)
| al_swap u v k x y t : transposition c = Some t -> al c u v k -> al c (u ++ [x; y]) (v ++ [y; x]) (k + t).

Lemma script_al c s : Forall (available c) s -> al c (flat_map reads s) (flat_map writes s) (script_cost c s).
Proof.
  induction s as [|e s IH] using rev_ind; intros F; [constructor|]. apply Forall_app in F. destruct F as [F Fe]. apply IH in F. clear IH.
  inversion Fe as [|? ? Ha _]; subst. unfold script_cost in *. rewrite !flat_map_app, map_app, qsum_app. cbn [map qsum flat_map].
  rewrite !app_nil_r. destruct e as [x|x|x|x y|x y]; cbn [reads writes edit_cost]; rewrite ?app_nil_r.
  - replace (qsum (map (edit_cost c) s) + (0 + 0)) with (qsum (map (edit_cost c) s)) by ring. apply al_keep; auto.
  - rewrite Qcplus_0_r. apply al_ins; auto.
  - rewrite Qcplus_0_r. apply al_del; auto.
  - rewrite Qcplus_0_r. apply al_sub; auto.
  - rewrite Qcplus_0_r. cbn [available] in Ha. destruct (transposition c) as [t|] eqn:E; [|congruence]. apply al_swap; auto.
Qed.

Lemma al_script c u v k : al c u v k -> exists s, turns c s u v /\ script_cost c s = k.
Proof.
  unfold turns, script_cost. intros H.
  assert (G : forall (s : list (edit A)) u v k e, (Forall (available c) s /\ flat_map reads s = u /\ flat_map writes s = v) /\ qsum (map (edit_cost c) s) = k -> available c e ->
    (Forall (available c) (s ++ [e]) /\ flat_map reads (s ++ [e]) = u ++ reads e /\ flat_map writes (s ++ [e]) = v ++ writes e) /\
    qsum (map (edit_cost c) (s ++ [e])) = k + edit_cost c e).
  { intros s u' v' k' e ((F & <- & <-) & E) Ha. rewrite !flat_map_app, map_app, qsum_app. cbn [flat_map map qsum]. rewrite !app_nil_r, E.
    split; [split; [apply Forall_app; auto|]; auto|]. ring. }
  induction H as [|u v k x H (s & IH)|u v k x H (s & IH)|u v k x H (s & IH)|u v k x y H (s & IH)|u v k x y t Et H (s & IH)].
  - exists []. repeat split; auto.
  - exists (s ++ [Keep x]). destruct (G _ _ _ _ (Keep x) IH I) as [X Y]. cbn [reads writes edit_cost] in *. split; auto. rewrite Y. ring.
  - exists (s ++ [Insert x]). destruct (G _ _ _ _ (Insert x) IH I) as [X Y]. cbn [reads writes edit_cost] in *. rewrite app_nil_r in X. auto.
  - exists (s ++ [Delete x]). destruct (G _ _ _ _ (Delete x) IH I) as [X Y]. cbn [reads writes edit_cost] in *. rewrite app_nil_r in X. auto.
  - exists (s ++ [Substitute x y]). exact (G _ _ _ _ (Substitute x y) IH I).
  - exists (s ++ [Transpose x y]). destruct (G _ _ _ _ (Transpose x y) IH) as [X Y]; [cbn; congruence|]. cbn [reads writes edit_cost] in *. rewrite Et in Y. auto.
Qed.

(** Least cost *)
Definition best (c : costs) (u v : list A) (k : Qc) : Prop := al c u v k /\ forall k', al c u v k' -> k <= k'.

Lemma best_distance c u v k : best c u v k <-> distance c u v k.
Proof.
  split.
  - intros [H M]. split; [apply al_script; auto|]. intros s (F & <- & <-). apply M. apply script_al; auto.
  - intros [(s & (F & <- & <-) & <-) M]. split; [apply script_al; auto|]. intros k' H. apply al_script in H. destruct H as (s' & T & <-). auto.
Qed.

Lemma best_within c u v k d : best c u v k -> (within c u v d <-> k <= d).
Proof.
  intros [H M]. split.
  - intros (s & (F & <- & <-) & L). pose proof (M _ (script_al c s F)). qclra.
  - intros L. apply al_script in H. destruct H as (s & T & <-). exists s. auto.
Qed.

Lemma best_unique c u v k k' : best c u v k -> best c u v k' -> k = k'.
Proof. intros [H M] [H' M']. apply M in H'. apply M' in H as H2. specialize (M _ H). qclra. Qed.

(** ** Exchange of the two sequences *)
Definition flip (c : costs) : costs :=
  {| insertion := deletion c; deletion := insertion c; substitution := substitution c; transposition := transposition c |}.

Lemma al_flip c u v k : al c u v k -> al (flip c) v u k.
Proof.
  induction 1; [constructor|apply al_keep; auto|apply (al_del (flip c)); auto|apply (al_ins (flip c)); auto|apply (al_sub (flip c)); auto|].
  apply (al_swap (flip c)); auto.
Qed.

Lemma flip_flip c : flip (flip c) = c.
Proof. destruct c; reflexivity. Qed.

Lemma best_flip c u v k : best c u v k -> best (flip c) v u k.
Proof.
  intros [H M]. split; [apply al_flip; auto|]. intros k' H'. apply M. apply al_flip in H'. rewrite flip_flip in H'. auto.
Qed.

(** ** Reversal *)
Record sane (c : costs) : Prop := {
  s_ins : 0 <= insertion c; s_del : 0 <= deletion c; s_sub : 0 <= substitution c;
  s_swap : forall t, transposition c = Some t -> 0 <= t
}.

Lemma sane_flip c : sane c -> sane (flip c).
Proof. intros [? ? ? ?]. constructor; auto. Qed.

Lemma al_nonneg c u v k : sane c -> al c u v k -> 0 <= k.
Proof. intros [? ? ? S4]. induction 1; try qclra. apply S4 in H. qclra. Qed.

(** Leaving out the last element written. *)
Lemma al_drop c u v' k : sane c -> al c u v' k -> forall v x, v' = v ++ [x] -> exists k', al c u v k' /\ k' <= k + deletion c.
Proof.
  intros [Pi Pd Ps Pt] H. induction H as [|u v k x H IH|u v k x H IH|u v k x H IH|u v k x y H IH|u v k x y t Et H IH]; intros v0 z E.
  - destruct v0; discriminate.
  - apply snoc_inv in E. destruct E as [-> ->]. exists (k + deletion c). split; [apply al_del; auto|qclra].
  - apply snoc_inv in E. destruct E as [-> ->]. exists k. split; auto. qclra.
  - destruct (IH _ _ E) as (k' & H' & L). exists (k' + deletion c). split; [apply al_del; auto|qclra].
  - apply snoc_inv in E. destruct E as [-> ->]. exists (k + deletion c). split; [apply al_del; auto|qclra].
  - symmetry in E. apply snoc2_inv in E. destruct E as [-> ->]. exists (k + deletion c). split.
    + change [x; y] with ([x] ++ [y]). rewrite app_assoc. apply al_keep, al_del; auto.
    + apply Pt in Et. qclra.
Qed.

(** Leaving out the last element read. *)
Lemma al_drop_l c u v k x : sane c -> al c (u ++ [x]) v k -> exists k', al c u v k' /\ k' <= k + insertion c.
Proof.
  intros P H. apply al_flip in H. destruct (al_drop (flip c) _ _ _ (sane_flip _ P) H u x eq_refl) as (k' & H' & L).
  exists k'. split; [|exact L]. apply al_flip in H'. rewrite flip_flip in H'. auto.
Qed.

(** Equal last elements. *)
Lemma al_equal c u v x k : sane c -> al c (u ++ [x]) (v ++ [x]) k -> exists k', al c u v k' /\ k' <= k.
Proof.
  intros P H. pose proof P as [Pi Pd Ps Pt]. inversion H as [E1 E2|u' v' k' x' H' E1 E2|u' v' k' x' H' E1 E2|u' v' k' x' H' E1 E2|u' v' k' x' y' H' E1 E2|u' v' k' x' y' t Et H' E1 E2]; subst.
  - destruct u; discriminate.
  - apply snoc_inv in E1, E2. destruct E1 as [-> ->], E2 as [-> _]. exists k. split; auto. qclra.
  - apply snoc_inv in E2. destruct E2 as [-> ->]. apply al_drop_l in H'; auto.
  - apply snoc_inv in E1. destruct E1 as [-> ->]. destruct (al_drop c _ _ _ P H' v x eq_refl) as (k'' & H'' & L). eauto.
  - apply snoc_inv in E1, E2. destruct E1 as [-> ->], E2 as [-> ->]. exists k'. split; auto. qclra.
  - symmetry in E1, E2. apply snoc2_inv in E1, E2. destruct E1 as [-> <-], E2 as [-> <-]. exists k'. split; [apply al_keep; auto|]. apply Pt in Et. qclra.
Qed.

(** *** The recurrence *)
Lemma best_nil c : sane c -> best c [] [] 0.
Proof. intros P. split; [constructor|]. intros k H. eapply al_nonneg; eauto. Qed.

Lemma best_equal c u v x k : sane c -> best c u v k -> best c (u ++ [x]) (v ++ [x]) k.
Proof.
  intros P [H M]. split; [apply al_keep; auto|]. intros k' H'. destruct (al_equal c _ _ _ _ P H') as (k'' & H'' & L). apply M in H''. qclra.
Qed.

(** the last elements are exchanged *)
Definition crossed (u v : list A) x y u0 v0 : Prop := u = u0 ++ [y] /\ v = v0 ++ [x].

Lemma al_differ c u v x y k : sane c -> x <> y -> al c (u ++ [x]) (v ++ [y]) k ->
  (exists k', al c (u ++ [x]) v k' /\ k = k' + insertion c) \/
  (exists k', al c u (v ++ [y]) k' /\ k = k' + deletion c) \/
  (exists k', al c u v k' /\ k = k' + substitution c) \/
  (exists u0 v0 t k', crossed u v x y u0 v0 /\ transposition c = Some t /\ al c u0 v0 k' /\ k = k' + t).
Proof.
  intros P N H. inversion H as [E1 E2|u' v' k' x' H' E1 E2|u' v' k' x' H' E1 E2|u' v' k' x' H' E1 E2|u' v' k' x' y' H' E1 E2|u' v' k' x' y' t Et H' E1 E2]; subst.
  - destruct u; discriminate.
  - apply snoc_inv in E1, E2. destruct E1 as [-> ->], E2 as [-> ->]. congruence.
  - apply snoc_inv in E2. destruct E2 as [-> ->]. eauto.
  - apply snoc_inv in E1. destruct E1 as [-> ->]. eauto.
  - apply snoc_inv in E1, E2. destruct E1 as [-> ->], E2 as [-> ->]. right. right. left. eauto.
  - symmetry in E1, E2. apply snoc2_inv in E1, E2. destruct E1 as [-> <-], E2 as [-> <-]. do 3 right. exists u', v', t, k'. repeat split; auto.
Qed.

Lemma best_differ c u v x y a b d : sane c -> x <> y -> (forall t u0 v0, transposition c = Some t -> ~ crossed u v x y u0 v0) ->
  best c (u ++ [x]) v a -> best c u (v ++ [y]) b -> best c u v d ->
  best c (u ++ [x]) (v ++ [y]) (qmin (qmin (a + insertion c) (b + deletion c)) (d + substitution c)).
Proof.
  intros P N X [Ha Ma] [Hb Mb] [Hd Md]. split.
  - unfold qmin. destruct (qleb _ (d + substitution c)); [|apply al_sub; auto]. destruct (qleb _ _); [apply al_ins|apply al_del]; auto.
  - intros k H. apply al_differ in H; auto.
    assert (L : forall p q, qmin p q <= p /\ qmin p q <= q) by (intros p q; unfold qmin; destruct (qleb p q) eqn:E; split; qclra).
    pose proof (L (qmin (a + insertion c) (b + deletion c)) (d + substitution c)). pose proof (L (a + insertion c) (b + deletion c)).
    destruct H as [(k' & H & ->)|[(k' & H & ->)|[(k' & H & ->)|(u0 & v0 & t & k' & C & Et & H & ->)]]].
    + apply Ma in H. qclra.
    + apply Mb in H. qclra.
    + apply Md in H. qclra.
    + exfalso. eapply X; eauto.
Qed.

Lemma best_crossed c u v x y a b d e t : sane c -> x <> y -> transposition c = Some t ->
  best c (u ++ [y] ++ [x]) (v ++ [x]) a -> best c (u ++ [y]) (v ++ [x] ++ [y]) b -> best c (u ++ [y]) (v ++ [x]) d -> best c u v e ->
  best c (u ++ [y] ++ [x]) (v ++ [x] ++ [y]) (qmin (qmin (qmin (a + insertion c) (b + deletion c)) (d + substitution c)) (e + t)).
Proof.
  intros P N Et [Ha Ma] [Hb Mb] [Hd Md] [He Me].
  assert (L : forall p q, qmin p q <= p /\ qmin p q <= q) by (intros p q; unfold qmin; destruct (qleb p q) eqn:E; split; qclra).
  split.
  - assert (S : forall p q r, al c p q r -> forall s, al c p q s -> al c p q (qmin r s)) by (intros; unfold qmin; destruct (qleb _ _); auto).
    apply S; [apply S; [apply S|]|].
    + rewrite (app_assoc v). apply al_ins; auto.
    + rewrite (app_assoc u). apply al_del; auto.
    + rewrite (app_assoc u), (app_assoc v). apply al_sub; auto.
    + cbn [app]. apply al_swap; auto.
  - intros k H. rewrite (app_assoc u), (app_assoc v) in H. apply al_differ in H; auto.
    pose proof (L (qmin (qmin (a + insertion c) (b + deletion c)) (d + substitution c)) (e + t)).
    pose proof (L (qmin (a + insertion c) (b + deletion c)) (d + substitution c)). pose proof (L (a + insertion c) (b + deletion c)).
    destruct H as [(k' & H & ->)|[(k' & H & ->)|[(k' & H & ->)|(u0 & v0 & t' & k' & [C1 C2] & Et' & H & ->)]]].
    + rewrite <- app_assoc in H. apply Ma in H. qclra.
    + rewrite <- app_assoc in H. apply Mb in H. qclra.
    + apply Md in H. qclra.
    + apply snoc_inv in C1, C2. destruct C1 as [-> _], C2 as [-> _]. apply Me in H. rewrite Et in Et'. injection Et' as <-. qclra.
Qed.

(** First row and first column *)
Lemma best_row0 c u : sane c -> best c u [] (qn (length u) * deletion c).
Proof.
  intros P. induction u as [|x u [H M]] using rev_ind; [cbn [length]; rewrite qn_0, Qcmult_0_l; apply best_nil; auto|].
  rewrite app_length, Nat.add_1_r, qn_S. replace ((qn (length u) + 1) * deletion c) with (qn (length u) * deletion c + deletion c) by ring.
  split; [apply al_del; auto|]. intros k' H'. inversion H' as [E1 E2|u' v' k x' H'' E1 E2|u' v' k x' H'' E1 E2|u' v' k x' H'' E1 E2|u' v' k x' y' H'' E1 E2|u' v' k x' y' t Et H'' E1 E2]; subst;
    try (destruct v'; discriminate); [destruct u; discriminate|].
  apply snoc_inv in E1. destruct E1 as [-> ->]. apply M in H''. qclra.
Qed.

Lemma best_col0 c v : sane c -> best c [] v (qn (length v) * insertion c).
Proof. intros P. apply sane_flip in P. pose proof (best_flip _ _ _ _ (best_row0 _ v P)) as B. rewrite flip_flip in B. exact B. Qed.

(** A longer sequence to write costs at most an insertion more, a longer pair of
    sequences at most a substitution more. *)
Lemma best_ins c u v x a b : best c u v a -> best c u (v ++ [x]) b -> b <= a + insertion c.
Proof. intros [H _] [_ M]. apply M, al_ins; auto. Qed.
Lemma best_sub c u v x y a b : best c u v a -> best c (u ++ [x]) (v ++ [y]) b -> b <= a + substitution c.
Proof. intros [H _] [_ M]. apply M, al_sub; auto. Qed.

(** ** Without transpositions: edits anywhere *)
Lemma al_context c e a s1 s2 : transposition c = None ->
  (forall u k, al c u (a ++ s1) k -> exists k', al c u (a ++ s2) k' /\ k' <= k + e) ->
  forall b u k, al c u (a ++ s1 ++ b) k -> exists k', al c u (a ++ s2 ++ b) k' /\ k' <= k + e.
Proof.
  intros Nt Base. induction b as [|z b IHb] using rev_ind; intros u k H; [rewrite app_nil_r in *; auto|].
  assert (Ea : forall s, a ++ s ++ b ++ [z] = (a ++ s ++ b) ++ [z]) by (intros s; rewrite <- !app_assoc; reflexivity). rewrite Ea in *.
  remember ((a ++ s1 ++ b) ++ [z]) as w eqn:Ew.
  induction H as [|u v k x H IH|u v k x H IH|u v k x H IH|u v k x y H IH|u v k x y t Et H IH].
  - symmetry in Ew. apply app_eq_nil in Ew. destruct Ew; discriminate.
  - apply snoc_inv in Ew. destruct Ew as [-> ->]. apply IHb in H. destruct H as (k' & H & L). exists k'. split; [apply al_keep; auto|auto].
  - apply snoc_inv in Ew. destruct Ew as [-> ->]. apply IHb in H. destruct H as (k' & H & L). exists (k' + insertion c). split; [apply al_ins; auto|qclra].
  - destruct (IH Ew) as (k' & H' & L). exists (k' + deletion c). split; [apply al_del; auto|qclra].
  - apply snoc_inv in Ew. destruct Ew as [-> ->]. apply IHb in H. destruct H as (k' & H & L). exists (k' + substitution c). split; [apply al_sub; auto|qclra].
  - congruence.
Qed.

Lemma al_replace c u v' k : sane c -> transposition c = None -> al c u v' k -> forall v x y, v' = v ++ [x] -> exists k', al c u (v ++ [y]) k' /\ k' <= k + substitution c.
Proof.
  intros [Pi Pd Ps _] Nt H. induction H as [|u v k x H IH|u v k x H IH|u v k x H IH|u v k x y H IH|u v k x y t Et H IH]; intros v0 z y0 E.
  - destruct v0; discriminate.
  - apply snoc_inv in E. destruct E as [-> ->]. exists (k + substitution c). split; [apply al_sub; auto|qclra].
  - apply snoc_inv in E. destruct E as [-> ->]. exists (k + insertion c). split; [apply al_ins; auto|qclra].
  - destruct (IH _ _ y0 E) as (k' & H' & L). exists (k' + deletion c). split; [apply al_del; auto|qclra].
  - apply snoc_inv in E. destruct E as [-> ->]. exists (k + substitution c). split; [apply al_sub; auto|qclra].
  - congruence.
Qed.

Lemma sane_unit : sane unit_costs.
Proof. constructor; cbn; try discriminate; qclra. Qed.
Lemma sane_unit_t : sane unit_costs_t.
Proof. constructor; cbn; try qclra. intros t [= <-]. qclra. Qed.

Lemma one_edit_al u v w k : al unit_costs u v k -> one_edit v w -> exists k', al unit_costs u w k' /\ k' <= k + 1.
Proof.
  intros H E. pose proof sane_unit as P. destruct E as [a x b|a x b|a x y b].
  - change (a ++ x :: b) with (a ++ [x] ++ b). change (a ++ b) with (a ++ [] ++ b) in H. revert H. apply al_context; [reflexivity|].
    clear. intros u k H. rewrite app_nil_r in H. exists (k + 1). split; [apply (al_ins unit_costs); auto|qclra].
  - change (a ++ x :: b) with (a ++ [x] ++ b) in H. change (a ++ b) with (a ++ [] ++ b). revert H. apply al_context; [reflexivity|].
    intros u' k' H. rewrite app_nil_r. exact (al_drop unit_costs _ _ _ P H a x eq_refl).
  - change (a ++ x :: b) with (a ++ [x] ++ b) in H. change (a ++ y :: b) with (a ++ [y] ++ b). revert H. apply al_context; [reflexivity|].
    intros u' k' H. exact (al_replace unit_costs _ _ _ P eq_refl H a x y eq_refl).
Qed.

Lemma al_refl c (u : list A) : al c u u 0.
Proof. induction u as [|x u IH] using rev_ind; [constructor|apply al_keep; auto]. Qed.

Lemma steps_al n (u v : list A) : in_steps one_edit n u v -> exists k, al unit_costs u v k /\ k <= qn n.
Proof.
  induction 1 as [u|n u v w H (k & H' & L) E]; [exists 0; split; [apply al_refl|rewrite qn_0; qclra]|].
  destruct (one_edit_al _ _ _ _ H' E) as (k' & H2 & L2). exists k'. split; auto. rewrite qn_S. qclra.
Qed.

Lemma one_edit_snoc (u v : list A) x : one_edit u v -> one_edit (u ++ [x]) (v ++ [x]).
Proof. intros [a y b|a y b|a y z b]; rewrite <- !app_assoc; cbn [app]; constructor. Qed.
Lemma steps_snoc n (u v : list A) x : in_steps one_edit n u v -> in_steps one_edit n (u ++ [x]) (v ++ [x]).
Proof. induction 1; econstructor; eauto using one_edit_snoc. Qed.

Lemma one_edit_sym (u v : list A) : one_edit u v -> one_edit v u.
Proof. intros []; constructor. Qed.

Lemma steps_app {step} n m (u v w : list A) : in_steps step n u v -> in_steps step m v w -> in_steps step (n + m) u w.
Proof.
  intros H. induction 1; [rewrite Nat.add_0_r; auto|]. rewrite Nat.add_succ_r. econstructor; eauto.
Qed.

Lemma steps_sym n (u v : list A) : in_steps one_edit n u v -> in_steps one_edit n v u.
Proof.
  induction 1 as [u|n u v w H IH E]; [constructor|]. change (S n) with (1 + n)%nat. eapply steps_app; eauto.
  econstructor; [constructor|]. apply one_edit_sym; auto.
Qed.

Lemma al_steps u v k : al unit_costs u v k -> exists n, k = qn n /\ in_steps one_edit n u v.
Proof.
  induction 1 as [|u v k x H (n & -> & S)|u v k x H (n & -> & S)|u v k x H (n & -> & S)|u v k x y H (n & -> & S)|u v k x y t Et H IH].
  - exists 0%nat. split; [reflexivity|constructor].
  - exists n. split; auto. apply steps_snoc; auto.
  - exists (Datatypes.S n). split; [rewrite qn_S; reflexivity|]. econstructor; eauto. rewrite <- (app_nil_r v) at 1. constructor.
  - exists (Datatypes.S n). split; [rewrite qn_S; reflexivity|]. change (Datatypes.S n) with (1 + n)%nat. eapply steps_app; [|exact S].
    econstructor; [constructor|]. rewrite <- (app_nil_r u) at 2. constructor.
  - exists (Datatypes.S n). split; [rewrite qn_S; reflexivity|]. econstructor; [apply (steps_snoc _ _ _ x S)|]. constructor.
  - discriminate.
Qed.

Lemma best_steps u v n : best unit_costs u v (qn n) <-> least_steps one_edit u v n.
Proof.
  split.
  - intros [H M]. split.
    + apply al_steps in H. destruct H as (m & E & H). apply qn_inj in E. subst. auto.
    + intros m Hm. apply steps_al in Hm. destruct Hm as (k & Hk & L). apply M in Hk. apply qn_le. qclra.
  - intros [H M]. assert (G : forall k, al unit_costs u v k -> qn n <= k).
    { intros k Hk. apply al_steps in Hk. destruct Hk as (m & -> & Hm). apply qn_le. auto. }
    split; auto. apply steps_al in H. destruct H as (k & Hk & L). pose proof (G _ Hk). assert (k = qn n) as <- by qclra. auto.
Qed.

(** A transposition that costs at least an insertion and a deletion is not
    needed. *)
Definition no_swap (c : costs) : costs :=
  {| insertion := insertion c; deletion := deletion c; substitution := substitution c; transposition := None |}.

Lemma al_no_swap c u v k : (forall t, transposition c = Some t -> insertion c + deletion c <= t) -> al c u v k ->
  exists k', al (no_swap c) u v k' /\ k' <= k.
Proof.
  intros L. induction 1 as [|u v k x H (k' & H' & L')|u v k x H (k' & H' & L')|u v k x H (k' & H' & L')|u v k x y H (k' & H' & L')|u v k x y t Et H (k' & H' & L')].
  - exists 0. split; [constructor|qclra].
  - exists k'. split; [apply al_keep|]; auto.
  - exists (k' + insertion c). split; [apply (al_ins (no_swap c)); auto|qclra].
  - exists (k' + deletion c). split; [apply (al_del (no_swap c)); auto|qclra].
  - exists (k' + substitution c). split; [apply (al_sub (no_swap c)); auto|qclra].
  - exists (k' + deletion c + insertion c). split.
    + change [x; y] with ([x] ++ [y]). change [y; x] with ([y] ++ [x]). rewrite !app_assoc. apply (al_ins (no_swap c)), al_keep, (al_del (no_swap c)); auto.
    + specialize (L t Et). qclra.
Qed.

Lemma no_swap_al c u v k : al (no_swap c) u v k -> al c u v k.
Proof.
  induction 1; [apply al_nil|apply al_keep; auto|apply (al_ins c); auto|apply (al_del c); auto|apply (al_sub c); auto|discriminate].
Qed.

Lemma best_no_swap c u v k : (forall t, transposition c = Some t -> insertion c + deletion c <= t) -> (best c u v k <-> best (no_swap c) u v k).
Proof.
  intros L. split; intros [H M].
  - destruct (al_no_swap c u v k L H) as (k' & H' & L'). pose proof (M _ (no_swap_al _ _ _ _ H')). assert (k' = k) as -> by qclra.
    split; auto. intros k' H2. apply M, no_swap_al; auto.
  - split; [apply no_swap_al; auto|]. intros k' H'. destruct (al_no_swap c u v k' L H') as (k2 & H2 & L2). apply M in H2. qclra.
Qed.

(** Writing less needs reading less: what pruning relies on. *)
Lemma al_prefix c u v' k : sane c -> (forall t, transposition c = Some t -> insertion c <= t \/ substitution c <= t) ->
  al c u v' k -> forall v x, v' = v ++ [x] -> exists a b k', u = a ++ b /\ al c a v k' /\ k' <= k.
Proof.
  intros [Pi Pd Ps Pt] L H. induction H as [|u v k x H IH|u v k x H IH|u v k x H IH|u v k x y H IH|u v k x y t Et H IH]; intros v0 z E.
  - destruct v0; discriminate.
  - apply snoc_inv in E. destruct E as [-> ->]. exists u, [z], k. split; auto. split; auto. qclra.
  - apply snoc_inv in E. destruct E as [-> ->]. exists u, [], k. rewrite app_nil_r. split; auto. split; auto. qclra.
  - destruct (IH _ _ E) as (a & b & k' & -> & H' & L'). exists a, (b ++ [x]), k'. rewrite app_assoc. split; auto. split; auto. qclra.
  - apply snoc_inv in E. destruct E as [-> ->]. exists u, [x], k. split; auto. split; auto. qclra.
  - symmetry in E. apply snoc2_inv in E. destruct E as [-> ->]. destruct (L _ Et) as [L'|L'].
    + exists u, [x; y], (k + insertion c). split; auto. split; [apply al_ins; auto|qclra].
    + exists (u ++ [x]), [y], (k + substitution c). rewrite <- app_assoc. split; auto. split; [apply al_sub; auto|qclra].
Qed.

(** ** The distance as a function; both sequences are reversed in [ed] *)
Context `{EqDec A}.
Variable c : costs.

Fixpoint ed (u : list A) : list A -> Qc :=
  fix edv (v : list A) : Qc :=
    match u, v with
    | [], _ => qn (length v) * insertion c
    | _, [] => qn (length u) * deletion c
    | x :: u', y :: v' =>
        if eqd x y then ed u' v' else
        let m := qmin (qmin (edv v' + insertion c) (ed u' v + deletion c)) (ed u' v' + substitution c) in
        match transposition c, u', v' with
        | Some t, a :: u'', b :: v'' => if eqd x b then if eqd y a then qmin m (ed u'' v'' + t) else m else m
        | _, _, _ => m
        end
    end.

Definition dist (u v : list A) : Qc := ed (rev u) (rev v).

Lemma ed_best : sane c -> forall n u v, (length u + length v <= n)%nat -> best c (rev u) (rev v) (ed u v).
Proof.
  intros P. induction n as [|n IH]; intros u v L.
  - destruct u; [|cbn [length] in L; lia]. destruct v; [|cbn [length] in L; lia]. cbn. rewrite qn_0, Qcmult_0_l. apply best_nil; auto.
  - destruct u as [|x u]; [cbn [ed rev]; destruct v as [|y v]; [cbn [length rev]; rewrite qn_0, Qcmult_0_l; apply best_nil; auto|]; cbn [rev]; change (y :: v) with ([y] ++ v); 
      rewrite <- (rev_length ([y] ++ v)); cbn [app rev]; apply best_col0; auto|].
    destruct v as [|y v]; [cbn [ed]; rewrite <- (rev_length (x :: u)); apply best_row0; auto|].
    cbn [length] in L. cbn [ed]. destruct (eqd x y) as [->|N]; [cbn [rev]; apply best_equal; auto; apply IH; lia|].
    pose proof (IH (x :: u) v ltac:(cbn [length]; lia)) as B1. pose proof (IH u (y :: v) ltac:(cbn [length]; lia)) as B2. pose proof (IH u v ltac:(lia)) as B3.
    change ((fix edv (v : list A) : Qc := match v with [] => qn (length (x :: u)) * deletion c | y :: v' => _ end) v) with (ed (x :: u) v).
    cbn [rev] in *.
    destruct (transposition c) as [t|] eqn:Et.
    2:{ apply best_differ; auto. intros t u0 v0 E. congruence. }
    assert (D : (forall u0 v0, ~ crossed (rev u) (rev v) x y u0 v0) -> best c (rev u ++ [x]) (rev v ++ [y]) (qmin (qmin (ed (x :: u) v + insertion c) (ed u (y :: v) + deletion c)) (ed u v + substitution c))).
    { intros X. apply best_differ; auto. }
    destruct u as [|a u]; [apply D; intros u0 v0 [E _]; destruct u0; discriminate|].
    destruct v as [|b v]; [apply D; intros u0 v0 [_ E]; destruct v0; discriminate|].
    destruct (eqd x b) as [->|Nb].
    2:{ apply D. intros u0 v0 [_ E]. cbn [rev] in E. apply snoc_inv in E. destruct E. congruence. }
    destruct (eqd y a) as [->|Na].
    2:{ apply D. intros u0 v0 [E _]. cbn [rev] in E. apply snoc_inv in E. destruct E. congruence. }
    cbn [rev] in *. rewrite <- !app_assoc in *. apply best_crossed; auto. apply IH. cbn [length] in L. lia.
Qed.

Lemma dist_best u v : sane c -> best c u v (dist u v).
Proof. intros P. pose proof (ed_best P _ (rev u) (rev v) (le_n _)) as B. rewrite !rev_involutive in B. exact B. Qed.

Lemma dist_eq u v k : sane c -> best c u v k -> dist u v = k.
Proof. intros P B. eapply best_unique; eauto. apply dist_best; auto. Qed.

Lemma dist_nil_r u : dist u [] = qn (length u) * deletion c.
Proof. unfold dist. cbn [rev]. rewrite <- (rev_length u). destruct (rev u) as [|x l]; [cbn [ed length]; rewrite qn_0; ring|reflexivity]. Qed.
Lemma dist_nil_l v : dist [] v = qn (length v) * insertion c.
Proof. unfold dist. cbn [rev ed]. rewrite <- (rev_length v). destruct (rev v); reflexivity. Qed.

(** The recurrence, without and with a transposition. *)
Lemma dist_equal u v x : dist (u ++ [x]) (v ++ [x]) = dist u v.
Proof. unfold dist. rewrite !rev_unit. cbn [ed]. destruct (eqd x x); [reflexivity|congruence]. Qed.

Definition three (u v : list A) x y : Qc :=
  qmin (qmin (dist (u ++ [x]) v + insertion c) (dist u (v ++ [y]) + deletion c)) (dist u v + substitution c).

Lemma dist_differ u v x y : x <> y -> (forall t u0 v0, transposition c = Some t -> ~ crossed u v x y u0 v0) ->
  dist (u ++ [x]) (v ++ [y]) = three u v x y.
Proof.
  intros N X. unfold three, dist. rewrite !rev_unit. cbn [ed]. destruct (eqd x y); [congruence|].
  destruct (transposition c) as [t|]; [|reflexivity].
  destruct (rev u) as [|a u'] eqn:Eu; [reflexivity|]. destruct (rev v) as [|b v'] eqn:Ev; [reflexivity|].
  destruct (eqd x b) as [->|Nb]; [|reflexivity]. destruct (eqd y a) as [->|Na]; [|reflexivity].
  exfalso. apply (X t (rev u') (rev v') eq_refl). split; [rewrite <- (rev_involutive u), Eu|rewrite <- (rev_involutive v), Ev]; reflexivity.
Qed.

Lemma dist_crossed u v x y t : x <> y -> transposition c = Some t ->
  dist (u ++ [y; x]) (v ++ [x; y]) = qmin (three (u ++ [y]) (v ++ [x]) x y) (dist u v + t).
Proof.
  intros N E. unfold three, dist. change [y; x] with ([y] ++ [x]). change [x; y] with ([x] ++ [y]). rewrite !app_assoc, !rev_unit. cbn [ed].
  destruct (eqd x y); [congruence|]. rewrite E. destruct (eqd x x); [|congruence]. destruct (eqd y y); [|congruence]. reflexivity.
Qed.
End Edit.
