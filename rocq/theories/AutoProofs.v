(** The subset construction. *)
From Coq Require Import ZArith NArith List Bool Lia Permutation.
From Verif Require Import Py PyDict NmdSpec IndexModel EditModel AutoModel.
Import ListNotations.
Open Scope nat_scope.

(** ** Sets *)
Section Sets.
Context {A : Type} `{EqDec A}.
Implicit Types s t : list A.

Lemma smem_In x s : smem x s = true <-> In x s.
Proof. unfold smem. destruct (in_dec eqd x s); split; auto; discriminate. Qed.
Lemma smem_not x s : smem x s = false <-> ~ In x s.
Proof. unfold smem. destruct (in_dec eqd x s); split; auto; try discriminate. contradiction. Qed.

Lemma in_sadd x s y : In x (sadd s y) <-> x = y \/ In x s.
Proof.
  unfold sadd. destruct (smem y s) eqn:E.
  - apply smem_In in E. split; auto. intros [->|I]; auto.
  - rewrite in_app_iff. simpl. intuition.
Qed.
Lemma in_supdate x s t : In x (supdate s t) <-> In x s \/ In x t.
Proof.
  unfold supdate. revert s; induction t as [|y t IH]; intros s; cbn [fold_left]; [simpl; tauto|]. rewrite IH, in_sadd. simpl. intuition.
Qed.
Lemma in_sdiff x s t : In x (sdiff s t) <-> In x s /\ ~ In x t.
Proof. unfold sdiff. rewrite filter_In, negb_true_iff, smem_not. reflexivity. Qed.

Lemma sadd_nodup s y : NoDup s -> NoDup (sadd s y).
Proof.
  intros N. unfold sadd. destruct (smem y s) eqn:E; auto. apply smem_not in E.
  apply NoDup_rev in N. rewrite <- (rev_involutive (s ++ [y])). apply NoDup_rev. rewrite rev_unit. constructor; auto. rewrite <- in_rev. exact E.
Qed.
Lemma supdate_nodup s t : NoDup s -> NoDup (supdate s t).
Proof. unfold supdate. revert s; induction t as [|y t IH]; intros s N; cbn [fold_left]; auto. apply IH, sadd_nodup, N. Qed.
Lemma sdiff_nodup s t : NoDup s -> NoDup (sdiff s t).
Proof. apply NoDup_filter. Qed.

Definition eqset s t : Prop := forall x, In x s <-> In x t.
Lemma seqb_eqset s t : seqb s t = true <-> eqset s t.
Proof.
  unfold seqb, eqset. rewrite andb_true_iff, !forallb_forall. split.
  - intros [A1 A2] x. split; intros I; apply smem_In; auto.
  - intros E. split; intros x I; apply smem_In, E, I.
Qed.
Lemma eqset_refl s : eqset s s.
Proof. intros x. reflexivity. Qed.
Lemma eqset_sym s t : eqset s t -> eqset t s.
Proof. intros E x. symmetry. apply E. Qed.
Lemma eqset_trans s t u : eqset s t -> eqset t u -> eqset s u.
Proof. intros E F x. rewrite (E x). apply F. Qed.

Lemma nodup_incl_remove s t : NoDup s -> incl s t -> (length s <= length t)%nat.
Proof. intros N I. apply NoDup_incl_length; auto. Qed.
End Sets.

(** ** Transitions *)
Lemma state_transitions_add n q l d q' : state_transitions (add_transition n q l d) q' =
  if eqd q' q then dset l (sadd (targets n q l) d) (state_transitions n q) else state_transitions n q'.
Proof.
  unfold state_transitions at 1. cbn [add_transition transitions]. destruct (eqd q' q) as [->|N].
  - rewrite dget_dset_eq. reflexivity.
  - rewrite dget_dset_neq by auto. reflexivity.
Qed.

Lemma in_targets_add n q l d q' l' x : In x (targets (add_transition n q l d) q' l') <-> (q' = q /\ l' = l /\ x = d) \/ In x (targets n q' l').
Proof.
  unfold targets at 1. rewrite state_transitions_add. destruct (eqd q' q) as [->|N].
  - destruct (eqd l' l) as [->|N].
    + rewrite dget_dset_eq, in_sadd. intuition.
    + rewrite dget_dset_neq by auto. fold (targets n q l'). intuition congruence.
  - fold (targets n q' l'). intuition congruence.
Qed.

Lemma targets_final n f q l : targets (add_final_state n f) q l = targets n q l.
Proof. reflexivity. Qed.

(** The dicts hold no empty set. *)
Definition full (n : nfa) : Prop := forall q l, In l (dkeys (state_transitions n q)) -> targets n q l <> [].

Lemma full_new : full new_nfa.
Proof. intros q l []. Qed.
Lemma sadd_ne {A} `{EqDec A} (s : list A) x : sadd s x <> [].
Proof. unfold sadd. destruct (smem x s) eqn:E; [apply smem_In in E; destruct s; [destruct E|discriminate]|destruct s; discriminate]. Qed.
Lemma full_add n q l d : full n -> full (add_transition n q l d).
Proof.
  intros F q' l'. unfold targets. rewrite state_transitions_add. destruct (eqd q' q) as [->|N].
  - rewrite in_dkeys_dset. destruct (eqd l' l) as [->|N].
    + intros _. rewrite dget_dset_eq. apply sadd_ne.
    + rewrite dget_dset_neq by auto. intros [E|I]; [congruence|]. apply F. exact I.
  - apply F.
Qed.
Lemma full_final n f : full n -> full (add_final_state n f).
Proof. intros F. exact F. Qed.

Lemma key_targets n q l : targets n q l <> [] -> In l (dkeys (state_transitions n q)).
Proof. unfold targets. destruct (dget l (state_transitions n q)) eqn:E; [|congruence]. intros _. eapply dget_Some_key; eauto. Qed.

Lemma in_all_targets n q l x : In x (targets n q l) -> In x (all_targets n).
Proof.
  unfold targets, state_transitions, all_targets. destruct (dget q (transitions n)) as [d|] eqn:E; [|intros []].
  destruct (dget l d) as [s|] eqn:E2; [|intros []]. intros I. apply in_flat_map. exists (q, d). split; [apply dget_In; auto|]. apply in_flat_map. exists (l, s). split; [apply dget_In; auto|auto].
Qed.

(** ** What an automaton reads *)
(** A path from the start state reading the string. *)
Inductive reaches (n : nfa) : str -> state -> Prop :=
| reach_start : reaches n [] (0, 0)%Z
| reach_epsilon s q q' : reaches n s q -> In q' (targets n q EPSILON) -> reaches n s q'
| reach_char s q q' c : reaches n s q -> In q' (targets n q (Char c)) -> reaches n (s ++ [c]) q'
| reach_any s q q' c : reaches n s q -> In q' (targets n q ANY) -> reaches n (s ++ [c]) q'.

Definition nfa_accepts (n : nfa) (s : str) : Prop := exists q, reaches n s q /\ In q (final_states n).

Section Run.
Variable arrange : forall A, list A -> list A.
Hypothesis arranged : forall A l, Permutation (arrange A l) l.
Variable n : nfa.

Lemma in_arrange {A} (x : A) l : In x (arrange A l) <-> In x l.
Proof. split; apply Permutation_in; [apply arranged|symmetry; apply arranged]. Qed.

(** Closure under epsilon transitions. *)
Inductive closure (s : list state) : state -> Prop :=
| cl_in q : In q s -> closure s q
| cl_step q q' : closure s q -> In q' (targets n q EPSILON) -> closure s q'.

Definition missing (states : list state) : nat := length (sdiff (nodup eqd (all_targets n)) states).

Lemma filter_length_split {A} (f g : A -> bool) (l : list A) : (forall x, In x l -> f x = true -> g x = true) -> length (filter f l) + length (filter (fun x => g x && negb (f x)) l) = length (filter g l).
Proof.
  intros E. induction l as [|a l IH]; cbn [filter]; auto. specialize (IH (fun x I => E x (or_intror I))). pose proof (E a (or_introl eq_refl)) as Ea.
  destruct (f a) eqn:Fa; [rewrite Ea by auto; cbn [andb negb length]; lia|]. destruct (g a); cbn [andb negb length]; lia.
Qed.

Lemma missing_new states new : NoDup new -> (forall x, In x new -> In x (all_targets n) /\ ~ In x states) -> length new + missing (supdate states new) <= missing states.
Proof.
  intros N I. unfold missing. set (u := nodup eqd (all_targets n)).
  pose proof (filter_length_split (fun x => negb (smem x (supdate states new))) (fun x => negb (smem x states)) u) as F.
  unfold sdiff. rewrite <- F.
  - rewrite Nat.add_comm. apply Nat.add_le_mono_l. apply NoDup_incl_length; auto. intros x Ix. apply filter_In. destruct (I x Ix) as [I1 I2]. split; [apply nodup_In; auto|].
    apply andb_true_intro. split; [apply negb_true_iff, smem_not; auto|]. rewrite negb_involutive. apply smem_In, in_supdate. auto.
  - intros x _. rewrite !negb_true_iff, !smem_not. intros X Y. apply X, in_supdate. auto.
Qed.

Lemma supdate_len {A} `{EqDec A} (s t : list A) : length (supdate s t) <= length s + length t.
Proof.
  unfold supdate. revert s; induction t as [|x t IH]; intros s; cbn [fold_left length]; [lia|]. specialize (IH (sadd s x)).
  assert (length (sadd s x) <= S (length s)); [|lia]. unfold sadd. destruct (smem x s); [lia|]. rewrite app_length. cbn [length]. lia.
Qed.

Hypothesis distinct : forall q l, NoDup (targets n q l).

Lemma expand_loop_ok base : forall fuel frontier states,
  length frontier + missing states < fuel -> incl frontier states -> NoDup states -> incl base states ->
  (forall q, In q states -> closure base q) ->
  (forall q q', In q states -> In q' (targets n q EPSILON) -> In q frontier \/ In q' states) ->
  exists r, expand_loop arrange n fuel frontier states = Ok r /\ NoDup r /\ forall q, In q r <-> closure base q.
Proof.
  induction fuel as [|fuel IH]; intros frontier states Lf If Nd Ib Cl Fr; [lia|]. cbn [expand_loop].
  pose proof (arranged _ frontier) as P. destruct (arrange state frontier) as [|q rest] eqn:E.
  - apply Permutation_nil in P. subst frontier. exists states. split; auto. split; auto. intros q. split; auto.
    induction 1 as [q I|q q' _ IHq I]; [apply Ib; auto|]. destruct (Fr _ _ IHq I) as [[]|]; auto.
  - set (new := sdiff (targets n q EPSILON) states).
    assert (Iq : In q frontier) by (eapply Permutation_in; [exact P|simpl; auto]).
    assert (Nn : forall x, In x new -> In x (all_targets n) /\ ~ In x states) by (intros x I; apply in_sdiff in I; destruct I; split; auto; eapply in_all_targets; eauto).
    assert (Nd' : NoDup new) by (apply sdiff_nodup, distinct).
    apply IH.
    + pose proof (missing_new states new Nd' Nn). pose proof (supdate_len rest new). apply Permutation_length in P. cbn [length] in P. lia.
    + intros x I. apply in_supdate in I. apply in_supdate. destruct I as [I|I]; auto. left. apply If. eapply Permutation_in; [exact P|simpl; auto].
    + apply supdate_nodup; auto.
    + intros x I. apply in_supdate. auto.
    + intros x I. apply in_supdate in I. destruct I as [I|I]; auto. apply in_sdiff in I. destruct I as [I _]. eapply cl_step; [apply Cl, If, Iq|exact I].
    + intros x y I J. apply in_supdate in I. destruct I as [I|I].
      * destruct (Fr x y I J) as [K|K]; [|right; apply in_supdate; auto]. eapply Permutation_in in K; [|symmetry; exact P]. destruct K as [<-|K].
        -- right. apply in_supdate. destruct (in_dec eqd y states); auto. right. apply in_sdiff. auto.
        -- left. apply in_supdate. auto.
      * left. apply in_supdate. auto.
Qed.

Lemma filter_le {A} (f : A -> bool) l : length (filter f l) <= length l.
Proof. induction l as [|a l IH]; cbn [filter]; auto. destruct (f a); cbn [length]; lia. Qed.

Lemma missing_bound states : missing states <= length (all_targets n).
Proof.
  unfold missing, sdiff. etransitivity; [apply filter_le|]. clear. induction (all_targets n) as [|a l IH]; cbn [nodup]; auto.
  destruct (in_dec eqd a l); cbn [length]; lia.
Qed.

Lemma expand_ok base : NoDup base -> exists r, expand_epsilon arrange n base = Ok r /\ NoDup r /\ forall q, In q r <-> closure base q.
Proof.
  intros N. unfold expand_epsilon. apply expand_loop_ok; auto.
  - pose proof (missing_bound base). lia.
  - apply incl_refl.
  - apply incl_refl.
  - intros q I. apply cl_in; auto.
Qed.

Definition follow (qs : list state) (l : label) (q : state) : Prop := exists q0, In q0 qs /\ (In q (targets n q0 l) \/ In q (targets n q0 ANY)).

Lemma closure_ext s t : eqset s t -> forall q, closure s q -> closure t q.
Proof. intros E q. induction 1; [apply cl_in, E; auto|eapply cl_step; eauto]. Qed.

Lemma gather_ok l (qs : list state) : let r := fold_left (fun dest q => supdate (supdate dest (targets n q l)) (targets n q ANY)) (arrange state qs) [] in
  NoDup r /\ forall q, In q r <-> follow qs l q.
Proof.
  cbn zeta.
  assert (G : forall ps acc, NoDup acc -> NoDup (fold_left (fun dest q => supdate (supdate dest (targets n q l)) (targets n q ANY)) ps acc) /\
    forall q, In q (fold_left (fun dest q => supdate (supdate dest (targets n q l)) (targets n q ANY)) ps acc) <-> In q acc \/ follow ps l q).
  { induction ps as [|p ps IH]; intros acc N; cbn [fold_left].
    - split; auto. intros q. split; auto. intros [I|(q0 & [] & _)]; auto.
    - destruct (IH (supdate (supdate acc (targets n p l)) (targets n p ANY))) as [N' I']; [apply supdate_nodup, supdate_nodup; auto|]. split; auto.
      intros q. rewrite I', !in_supdate. unfold follow. split.
      + intros [[[I|I]|I]|(q0 & I & T)]; [auto| | |]; right; [exists p|exists p|exists q0]; simpl; auto.
      + intros [I|(q0 & [<-|I] & T)]; [auto|tauto|]. right. exists q0. auto. }
  destruct (G (arrange state qs) [] (NoDup_nil _)) as [N I]. split; auto. intros q. rewrite I. split.
  - intros [[]|(q0 & J & T)]. exists q0. rewrite in_arrange in J. auto.
  - intros (q0 & J & T). right. exists q0. split; auto. apply in_arrange. auto.
Qed.

Lemma next_ok qs l : exists r, next_dfa_state arrange n qs l = Ok r /\ NoDup r /\
  forall q, In q r <-> exists q0, follow qs l q0 /\ closure [q0] q.
Proof.
  unfold next_dfa_state. destruct (gather_ok l qs) as [N I]. destruct (expand_ok _ N) as (r & E & Nr & Ir). exists r. split; auto. split; auto.
  intros q. rewrite Ir. split.
  - induction 1 as [q J|q q' _ (q0 & F & C) T]; [exists q; split; [apply I; auto|apply cl_in; simpl; auto]|]. exists q0. split; auto. eapply cl_step; eauto.
  - intros (q0 & F & C). apply I in F. induction C as [q J|q q' _ IHC T]; [destruct J as [<-|[]]; apply cl_in; auto|eapply cl_step; eauto].
Qed.

Lemma start_ok : exists r, start_dfa_state arrange n = Ok r /\ NoDup r /\ forall q, In q r <-> reaches n [] q.
Proof.
  unfold start_dfa_state. destruct (expand_ok [(0, 0)%Z]) as (r & E & N & I); [repeat constructor; auto|]. exists r. split; auto. split; auto.
  intros q. rewrite I. split.
  - induction 1 as [q [<-|[]]|q q' _ IH T]; [constructor|eapply reach_epsilon; eauto].
  - intros R. remember ([] : str) as s eqn:Es. induction R as [|s' q q' R IH T|s' q q' c R IH T|s' q q' c R IH T]; [apply cl_in; simpl; auto|eapply cl_step; eauto|exfalso; apply app_eq_nil in Es; destruct Es; discriminate|exfalso; apply app_eq_nil in Es; destruct Es; discriminate].
Qed.

(** If [qs] are the states after [s], the next set are those after one more
    character. *)
Lemma next_reaches qs s c r : (forall q, In q qs <-> reaches n s q) -> next_dfa_state arrange n qs (Char c) = Ok r ->
  forall q, In q r <-> reaches n (s ++ [c]) q.
Proof.
  intros Q E q. destruct (next_ok qs (Char c)) as (r' & E' & _ & I). assert (r' = r) as -> by congruence. rewrite I. clear - Q. split.
  - intros (q0 & (p & Ip & T) & C). apply Q in Ip. assert (R0 : reaches n (s ++ [c]) q0) by (destruct T; [eapply reach_char|eapply reach_any]; eauto).
    induction C as [q J|q q' _ IHC J]; [destruct J as [<-|[]]; auto|eapply reach_epsilon; eauto].
  - intros R. remember (s ++ [c]) as sc eqn:Es. induction R as [|s' q q' R IH T|s' q q' c' R IH T|s' q q' c' R IH T].
    + destruct s; discriminate.
    + destruct (IH Es) as (q0 & F & C). exists q0. split; auto. eapply cl_step; eauto.
    + apply app_inj_tail in Es. destruct Es as [-> ->]. exists q'. split; [exists q; split; [apply Q; auto|auto]|apply cl_in; simpl; auto].
    + apply app_inj_tail in Es. destruct Es as [-> ->]. exists q'. split; [exists q; split; [apply Q; auto|auto]|apply cl_in; simpl; auto].
Qed.

(** Characters without a transition of their own. *)
Lemma next_default qs c r r' : (forall q, In q qs -> targets n q (Char c) = []) ->
  next_dfa_state arrange n qs (Char c) = Ok r -> next_dfa_state arrange n qs ANY = Ok r' -> eqset r r'.
Proof.
  intros Z E E' q. destruct (next_ok qs (Char c)) as (r1 & E1 & _ & I1). destruct (next_ok qs ANY) as (r2 & E2 & _ & I2).
  assert (r1 = r) as -> by congruence. assert (r2 = r') as -> by congruence. rewrite I1, I2.
  split; intros (q0 & (p & Ip & T) & C); exists q0; (split; [|exact C]); exists p; split; auto.
  - rewrite (Z p Ip) in T. destruct T as [[]|T]; auto.
  - right. destruct T; auto.
Qed.

Lemma inputs_ok qs : NoDup (get_inputs arrange n qs) /\ forall l, In l (get_inputs arrange n qs) <-> exists q, In q qs /\ In l (dkeys (state_transitions n q)).
Proof.
  unfold get_inputs.
  assert (G : forall ps acc, NoDup acc -> NoDup (fold_left (fun inputs q => supdate inputs (dkeys (state_transitions n q))) ps acc) /\
    forall l, In l (fold_left (fun inputs q => supdate inputs (dkeys (state_transitions n q))) ps acc) <-> In l acc \/ exists q, In q ps /\ In l (dkeys (state_transitions n q))).
  { induction ps as [|p ps IH]; intros acc N; cbn [fold_left].
    - split; auto. intros l. split; auto. intros [I|(q & [] & _)]; auto.
    - destruct (IH (supdate acc (dkeys (state_transitions n p)))) as [N' I']; [apply supdate_nodup; auto|]. split; auto. intros l. rewrite I', in_supdate. split.
      + intros [[I|I]|(q & I & J)]; [auto| |]; right; [exists p|exists q]; simpl; auto.
      + intros [I|(q & [<-|I] & J)]; auto. right. exists q. auto. }
  destruct (G (arrange state qs) [] (NoDup_nil _)) as [N I]. split; auto. intros l. rewrite I. split.
  - intros [[]|(q & J & T)]. exists q. rewrite in_arrange in J. auto.
  - intros (q & J & T). right. exists q. split; auto. apply in_arrange. auto.
Qed.

Definition inputs (qs : list state) : list label := arrange label (sdiff (get_inputs arrange n qs) [EPSILON]).
Lemma inputs_nodup qs : NoDup (inputs qs).
Proof. unfold inputs. eapply Permutation_NoDup; [symmetry; apply arranged|]. apply sdiff_nodup, inputs_ok. Qed.
Lemma in_inputs qs l : In l (inputs qs) <-> l <> EPSILON /\ exists q, In q qs /\ In l (dkeys (state_transitions n q)).
Proof. unfold inputs. rewrite in_arrange, in_sdiff. destruct (inputs_ok qs) as [_ I]. rewrite I. simpl. intuition. Qed.

(** ** The numbering *)
Definition trans (d : dfa) (i : nat) (l : label) : option nat :=
  match l with Char c => dget c (labels_of d (Some i)) | ANY => default_of d (Some i) | EPSILON => None end.

Record numbered (m : ids) : Prop := {
  nb_ids : map snd m = seq 0 (length m);
  nb_distinct : forall qs qs' i j, In (qs, i) m -> In (qs', j) m -> eqset qs qs' -> i = j
}.

Lemma seq_pos (m : ids) qs i : map snd m = seq 0 (length m) -> In (qs, i) m -> i < length m.
Proof. intros E I. apply (in_map snd) in I. rewrite E in I. apply in_seq in I. cbn in I. lia. Qed.

Lemma nb_unique m qs qs' i : numbered m -> In (qs, i) m -> In (qs', i) m -> qs = qs'.
Proof.
  intros [E _] I J. assert (N : NoDup (map snd m)) by (rewrite E; apply seq_NoDup). revert I J N. clear. induction m as [|[a b] m IH]; intros I J N; [destruct I|].
  cbn [map snd] in N. inversion N as [|? ? Nb Nm]; subst. destruct I as [I|I], J as [J|J]; auto.
  - congruence.
  - exfalso. apply Nb. apply (in_map snd) in J. injection I as -> ->. exact J.
  - exfalso. apply Nb. apply (in_map snd) in I. injection J as -> ->. exact I.
Qed.

Lemma id_of_Some m qs i : id_of m qs = Some i -> exists qs', In (qs', i) m /\ eqset qs' qs.
Proof.
  unfold id_of. destruct (find _ m) as [[qs' j]|] eqn:E; [|discriminate]. intros [= <-]. apply find_some in E. destruct E as [I E]. cbn in *. apply seqb_eqset in E. eauto.
Qed.
Lemma id_of_None m qs : id_of m qs = None -> forall qs' i, In (qs', i) m -> ~ eqset qs' qs.
Proof.
  unfold id_of. destruct (find _ m) as [[qs' j]|] eqn:E; [discriminate|]. intros _ qs' i I X. apply seqb_eqset in X. pose proof (find_none _ _ E _ I) as F. cbn in F. congruence.
Qed.
Lemma id_of_in m qs i : numbered m -> In (qs, i) m -> id_of m qs = Some i.
Proof.
  intros N I. destruct (id_of m qs) as [j|] eqn:E.
  - apply id_of_Some in E. destruct E as (qs' & J & X). f_equal. symmetry. eapply nb_distinct; eauto. apply eqset_sym. auto.
  - exfalso. eapply id_of_None; eauto. apply eqset_refl.
Qed.

Lemma numbered_snoc m qs : numbered m -> id_of m qs = None -> numbered (m ++ [(qs, length m)]).
Proof.
  intros [E D] N. constructor.
  - rewrite map_app, app_length, E. cbn [map length snd]. rewrite seq_app. reflexivity.
  - pose proof (id_of_None _ _ N) as F. intros a b i j I J X. apply in_app_iff in I, J. destruct I as [I|[[= <- <-]|[]]], J as [J|[[= <- <-]|[]]]; auto.
    + eapply D; eauto.
    + exfalso. eapply F; eauto.
    + exfalso. eapply F; eauto. apply eqset_sym. auto.
Qed.

(** The transitions of [i], whose set is [qs], have been entered for [done]. *)
Definition partly (m : ids) (d : dfa) (i : nat) (qs : list state) (done : list label) : Prop :=
  forall l, match trans d i l with
            | Some j => In l done /\ exists qs' r, In (qs', j) m /\ next_dfa_state arrange n qs l = Ok r /\ eqset qs' r
            | None => ~ In l done
            end.

Lemma partly_more m m' d i qs done : incl m m' -> partly m d i qs done -> partly m' d i qs done.
Proof. intros I P l. specialize (P l). destruct (trans d i l); auto. destruct P as (A & qs' & r & B & C). split; auto. exists qs', r. auto. Qed.

Definition enter (d : dfa) (i : nat) (l : label) (j : nat) : dfa :=
  match l with ANY => set_default_transition d i j | Char c => dfa_add_transition d i c j | EPSILON => d end.

Lemma trans_enter d i l j i' l' : l <> EPSILON -> trans (enter d i l j) i' l' = if eqd (i', l') (i, l) then Some j else trans d i' l'.
Proof.
  intros Ne. destruct (eqd (i', l') (i, l)) as [[= -> ->]|N].
  - destruct l as [c| |]; cbn [enter trans]; [|congruence|].
    + cbn [labels_of dfa_add_transition dtransitions]. rewrite dget_dset_eq, dget_dset_eq. reflexivity.
    + cbn [default_of set_default_transition defaults]. rewrite dget_dset_eq. reflexivity.
  - destruct l as [c| |], l' as [c'| |]; cbn [enter trans]; try congruence; try reflexivity.
    + unfold labels_of at 1. cbn [dfa_add_transition dtransitions]. destruct (Nat.eq_dec i' i) as [->|N'].
      * rewrite dget_dset_eq, dget_dset_neq by congruence. reflexivity.
      * rewrite dget_dset_neq by auto. reflexivity.
    + cbn [default_of set_default_transition defaults]. rewrite dget_dset_neq by congruence. reflexivity.
Qed.

Definition universe : list state := (0, 0)%Z :: all_targets n.

Definition due (frontier : list (list state)) (cur : option (nat * list label)) (qs : list state) (i : nat) : list label :=
  if in_dec eqd qs frontier then []
  else match cur with Some (c, done) => if eqd i c then done else inputs qs | None => inputs qs end.

Record inv (start : list state) (m : ids) (d : dfa) (frontier : list (list state)) (cur : option (nat * list label)) : Prop := {
  i_num : numbered m;
  i_start : In (start, 0) m /\ start_state d = 0;
  i_sets : forall qs i, In (qs, i) m -> incl qs universe;
  i_front : NoDup frontier /\ forall qs, In qs frontier -> exists i, In (qs, i) m;
  i_trans : forall qs i, In (qs, i) m -> partly m d i qs (due frontier cur qs i);
  i_cur : forall c done qs, cur = Some (c, done) -> In (qs, c) m -> ~ In qs frontier;
  i_final : forall i, In i (dfinal_states d) <-> i <> 0 /\ exists qs, In (qs, i) m /\ is_final_dfa_state n qs = true;
  i_unknown : forall i l, length m <= i -> trans d i l = None
}.

Lemma closure_universe q0 q : In q0 universe -> closure [q0] q -> In q universe.
Proof. intros I C. induction C as [q [<-|[]]|q q' _ _ T]; auto. right. eapply in_all_targets; eauto. Qed.

Lemma trans_final d j i l : trans (dfa_add_final_state d j) i l = trans d i l.
Proof. destruct l; reflexivity. Qed.
Lemma finals_enter d i l j : dfinal_states (enter d i l j) = dfinal_states d.
Proof. destruct l; reflexivity. Qed.
Lemma start_enter d i l j : start_state (enter d i l j) = start_state d.
Proof. destruct l; reflexivity. Qed.

Lemma step_ok start m d fr i done current l : inv start m d fr (Some (i, done)) -> In (current, i) m -> ~ In l done -> l <> EPSILON ->
  exists m' d' fr', dfa_step arrange n current (m, d, fr) l = Ok (m', d', fr') /\ inv start m' d' fr' (Some (i, done ++ [l])) /\ incl m m' /\
  length m' + length fr = length m + length fr'.
Proof.
  intros [Nm [St Sd] Se [Nf Fr] Tr Cu Fi Un] Ic Nl Ne. unfold dfa_step.
  destruct (next_ok current l) as (r & Er & Nr & Hr). rewrite Er. cbn [bind].
  pose proof (seq_pos m current i (nb_ids _ Nm) Ic) as Li. pose proof (Cu _ _ _ eq_refl Ic) as Nc.
  assert (Ur : incl r universe).
  { intros q I. apply Hr in I. destruct I as (q0 & (p & _ & T) & C). eapply closure_universe; [|exact C]. right. destruct T; eapply in_all_targets; eauto. }
  destruct (id_of m r) as [j|] eqn:Ej.
  - (* known *)
    destruct (id_of_Some _ _ _ Ej) as (qs' & Ij & Eq).
    unfold node_id at 1. rewrite (id_of_in m current i Nm Ic). unfold node_id. rewrite Ej.
    exists m, (enter d i l j), fr. split; [destruct l; reflexivity|]. split; [|split; [apply incl_refl|lia]].
    constructor; auto.
    + rewrite start_enter. auto.
    + intros qs i' I l'. rewrite trans_enter by auto. unfold due. destruct (eqd (i', l') (i, l)) as [[= -> ->]|N].
      * assert (qs = current) as -> by (eapply nb_unique; eauto). destruct (in_dec eqd current fr); [contradiction|]. destruct (eqd i i); [|congruence].
        split; [apply in_app_iff; simpl; auto|]. exists qs', r. auto.
      * pose proof (Tr qs i' I l') as P. unfold due in P. destruct (in_dec eqd qs fr); [exact P|]. destruct (eqd i' i) as [->|N']; [|exact P].
        destruct (trans d i l'); [destruct P as [P1 P2]; split; auto; apply in_app_iff; auto|]. intros X. apply in_app_iff in X. destruct X as [X|[->|[]]]; [auto|congruence].
    + intros c dn qs [= <- <-] I. eapply Cu; eauto.
    + intros i'. rewrite finals_enter. apply Fi.
    + intros i' l' L. rewrite trans_enter by auto. destruct (eqd (i', l') (i, l)) as [[= -> ->]|N]; [lia|auto].
  - (* new *)
    set (j := length m) in *. set (m1 := m ++ [(r, j)]). set (d1 := if is_final_dfa_state n r then dfa_add_final_state d j else d).
    pose proof (numbered_snoc m r Nm Ej) as Nm1. fold j m1 in Nm1.
    assert (Ic1 : In (current, i) m1) by (apply in_app_iff; auto). assert (Ir1 : In (r, j) m1) by (apply in_app_iff; simpl; auto).
    assert (E : (let '(m, d, frontier) := (if is_final_dfa_state n r then let (m', i0) := node_id m r in (m', dfa_add_final_state d i0, r :: fr) else (m, d, r :: fr)) in
      let (m, i0) := node_id m current in let (m, j0) := node_id m r in
      Ok (m, match l with ANY => set_default_transition d i0 j0 | Char c => dfa_add_transition d i0 c j0 | EPSILON => d end, frontier)) = Ok (m1, enter d1 i l j, r :: fr)).
    { unfold d1. destruct (is_final_dfa_state n r).
      - unfold node_id at 1. rewrite Ej. unfold node_id at 1. fold j m1. rewrite (id_of_in m1 current i Nm1 Ic1). unfold node_id. rewrite (id_of_in m1 r j Nm1 Ir1). destruct l; reflexivity.
      - unfold node_id at 1. rewrite (id_of_in m current i Nm Ic). unfold node_id. rewrite Ej. destruct l; reflexivity. }
    exists m1, (enter d1 i l j), (r :: fr). split; [exact E|]. split; [|split; [intros x I; apply in_app_iff; auto|unfold m1; rewrite app_length; cbn [length]; lia]].
    assert (Td : forall i' l', trans d1 i' l' = trans d i' l') by (intros; unfold d1; destruct (is_final_dfa_state n r); [apply trans_final|reflexivity]).
    assert (Inc : incl m m1) by (intros x I; apply in_app_iff; auto).
    assert (Nfr : ~ In r fr). { intros X. apply Fr in X. destruct X as (i' & X). apply (id_of_None _ _ Ej _ _ X). apply eqset_refl. }
    assert (Ncr : current <> r). { intros ->. apply (id_of_None _ _ Ej _ _ Ic). apply eqset_refl. }
    assert (Lij : i <> j) by (unfold j; lia).
    constructor; auto.
    + split; [apply Inc; auto|]. rewrite start_enter. unfold d1. destruct (is_final_dfa_state n r); auto.
    + intros qs i' I. apply in_app_iff in I. destruct I as [I|[[= <- <-]|[]]]; eauto.
    + split; [constructor; auto|]. intros qs [<-|I]; [exists j; auto|]. destruct (Fr qs I) as (i' & X). exists i'. auto.
    + intros qs i' I l'. rewrite trans_enter, Td by auto. unfold due. destruct (eqd (i', l') (i, l)) as [[= -> ->]|N].
      * assert (qs = current) as -> by (eapply nb_unique; eauto). destruct (in_dec eqd current (r :: fr)) as [[X|X]|_]; [congruence|contradiction|]. destruct (eqd i i); [|congruence].
        split; [apply in_app_iff; simpl; auto|]. exists r, r. split; auto. split; auto. apply eqset_refl.
      * apply in_app_iff in I. destruct I as [I|[[= <- <-]|[]]].
        -- assert (Nqr : qs <> r). { intros ->. apply (id_of_None _ _ Ej _ _ I). apply eqset_refl. }
           pose proof (partly_more m m1 d i' qs _ Inc (Tr qs i' I) l') as P. unfold due in P.
           destruct (in_dec eqd qs (r :: fr)) as [[X|X]|X]; [congruence| |]; destruct (in_dec eqd qs fr) as [Y|Y]; try contradiction; [exact P| |].
           { exfalso. apply X. right. exact Y. }
           destruct (eqd i' i) as [->|N']; [|exact P].
           destruct (trans d i l'); [destruct P as [P1 P2]; split; auto; apply in_app_iff; auto|]. intros Z. apply in_app_iff in Z. destruct Z as [Z|[->|[]]]; [auto|congruence].
        -- rewrite Un by (unfold j; lia). destruct (in_dec eqd r (r :: fr)) as [_|X]; [auto|]. exfalso. apply X. left. reflexivity.
    + intros c dn qs [= <- <-] I. assert (qs = current) as -> by (eapply nb_unique; eauto). intros [X|X]; [congruence|contradiction].
    + intros i'. rewrite finals_enter. assert (F1 : In i' (dfinal_states d1) <-> (i' = j /\ is_final_dfa_state n r = true) \/ In i' (dfinal_states d)).
      { unfold d1. destruct (is_final_dfa_state n r); [cbn [dfa_add_final_state dfinal_states]; rewrite in_sadd; intuition|intuition discriminate]. }
      rewrite F1, Fi. split.
      * intros [[-> X]|[X (qs & I & F)]]; [split; [unfold j; lia|]; exists r; auto|]. split; auto. exists qs. auto.
      * intros [X (qs & I & F)]. apply in_app_iff in I. destruct I as [I|[[= <- <-]|[]]]; [right; split; auto; exists qs; auto|left; auto].
    + intros i' l' L. rewrite trans_enter, Td by auto. unfold m1 in L. rewrite app_length in L. cbn [length] in L. fold j in L.
      destruct (eqd (i', l') (i, l)) as [[= -> ->]|N]; [lia|]. apply Un. unfold j in L. lia.
Qed.

Lemma steps_ok start current i : forall ls m d fr done, inv start m d fr (Some (i, done)) -> In (current, i) m -> NoDup (done ++ ls) -> ~ In EPSILON ls ->
  exists m' d' fr', foldM (dfa_step arrange n current) ls (m, d, fr) = Ok (m', d', fr') /\ inv start m' d' fr' (Some (i, done ++ ls)) /\ incl m m' /\
  length m' + length fr = length m + length fr'.
Proof.
  induction ls as [|l ls IH]; intros m d fr done V I N Ne; cbn [foldM].
  - exists m, d, fr. rewrite app_nil_r. split; auto. split; auto. split; [apply incl_refl|lia].
  - destruct (step_ok start m d fr i done current l V I) as (m' & d' & fr' & E & V' & Inc & L).
    + intros X. apply NoDup_remove_2 in N. apply N. apply in_app_iff. auto.
    + intros ->. apply Ne. simpl; auto.
    + rewrite E. cbn [bind]. destruct (IH m' d' fr' (done ++ [l]) V') as (m2 & d2 & fr2 & E2 & V2 & Inc2 & L2).
      * apply Inc; auto.
      * rewrite <- app_assoc. exact N.
      * intros X. apply Ne. simpl; auto.
      * exists m2, d2, fr2. rewrite E2. rewrite <- app_assoc in V2. split; auto. split; auto. split; [intros x J; auto|lia].
Qed.

(** There are at most 2^(number of states) sets. *)
Fixpoint bools (k : nat) : list (list bool) := match k with O => [[]] | S k => map (cons true) (bools k) ++ map (cons false) (bools k) end.
Lemma bools_len k : length (bools k) = 2 ^ k.
Proof. induction k as [|k IH]; cbn [bools]; auto. rewrite app_length, !map_length, IH. cbn. lia. Qed.
Lemma bools_all (l : list bool) : In l (bools (length l)).
Proof. induction l as [|b l IH]; cbn [length bools]; [simpl; auto|]. apply in_app_iff. destruct b; [left|right]; apply in_map; auto. Qed.

Lemma keys_bound start m d fr cur : inv start m d fr cur -> length m <= 2 ^ length universe.
Proof.
  intros V. set (f := fun e : list state * nat => map (fun u => smem u (fst e)) universe).
  assert (N : NoDup (map f m)).
  { pose proof (i_num _ _ _ _ _ V) as Nm. pose proof (i_sets _ _ _ _ _ V) as Se. destruct Nm as [Ids Di].
    assert (G : forall e e', In e m -> In e' m -> f e = f e' -> snd e = snd e').
    { intros [qs i] [qs' j] I J E. eapply Di; eauto. unfold f in E. cbn [fst] in E.
      assert (X : forall u, In u universe -> smem u qs = smem u qs') by (apply map_ext_in_iff; exact E).
      intros q. split; intros Q; apply smem_In.
      - rewrite <- X; [apply smem_In; auto|]. exact (Se qs i I q Q).
      - rewrite X; [apply smem_In; auto|]. exact (Se qs' j J q Q). }
    assert (Ns : NoDup (map snd m)) by (rewrite Ids; apply seq_NoDup). clear - G Ns. induction m as [|e m IH]; cbn [map]; [constructor|].
    cbn [map] in Ns. inversion Ns as [|? ? N1 N2]; subst. constructor.
    - intros I. apply in_map_iff in I. destruct I as (e' & E & I). apply N1. rewrite <- (G e' e); [apply in_map; auto|right; auto|left; auto|auto].
    - apply IH; auto. intros a b I J. apply G; right; auto. }
  rewrite <- bools_len, <- (map_length f m). apply NoDup_incl_length; auto. intros x I. apply in_map_iff in I. destruct I as (e & <- & _).
  replace (length universe) with (length (f e)) by (unfold f; apply map_length). apply bools_all.
Qed.

Lemma loop_ok start : forall fuel m d fr, inv start m d fr None -> 2 ^ length universe + length fr < fuel + length m ->
  exists m' d', dfa_loop arrange n fuel (m, d, fr) = Ok d' /\ inv start m' d' [] None.
Proof.
  induction fuel as [|fuel IH]; intros m d fr V L.
  - pose proof (keys_bound _ _ _ _ _ V). lia.
  - cbn [dfa_loop]. destruct fr as [|current fr]; [eauto|].
    pose proof V as [Nm [St Sd] Se [Nf Fr] Tr Cu Fi Un]. destruct (Fr current) as (i & Ic); [simpl; auto|]. inversion Nf as [|? ? Nc Nf']; subst.
    assert (V0 : inv start m d fr (Some (i, []))).
    { constructor; auto.
      - split; auto. intros qs I. apply Fr. simpl; auto.
      - intros qs i' I. pose proof (Tr qs i' I) as P. unfold due in *. destruct (in_dec eqd qs (current :: fr)) as [[<-|X]|X].
        + destruct (in_dec eqd current fr); [contradiction|]. assert (i' = i) as -> by (eapply (nb_distinct m Nm); eauto; apply eqset_refl). destruct (eqd i i); [exact P|congruence].
        + destruct (in_dec eqd qs fr); [exact P|contradiction].
        + destruct (in_dec eqd qs fr); [exfalso; apply X; right; auto|]. destruct (eqd i' i) as [->|]; [|exact P].
          exfalso. apply X. left. symmetry. eapply nb_unique; eauto.
      - intros c dn qs [= <- <-] I. assert (qs = current) as -> by (eapply nb_unique; eauto). exact Nc. }
    destruct (steps_ok start current i (inputs current) m d fr [] V0 Ic) as (m' & d' & fr' & E & V' & Inc & L').
    { apply inputs_nodup. }
    { intros X. apply in_inputs in X. destruct X. congruence. }
    unfold inputs in E. rewrite E. cbn [bind]. apply IH.
    + cbn [app] in V'. pose proof V' as [Nm' St' Se' Nf2 Tr' Cu' Fi' Un']. constructor; auto.
      * intros qs i' I. pose proof (Tr' qs i' I) as P. unfold due in *. destruct (in_dec eqd qs fr'); [exact P|]. destruct (eqd i' i) as [->|]; [|exact P].
        assert (qs = current) as -> by (eapply nb_unique; eauto). exact P.
      * intros c dn qs [=].
    + cbn [length] in L. lia.
Qed.

(** ** The automaton made *)
Fixpoint drun (d : dfa) (q : option nat) (s : str) : option nat := match s with [] => q | c :: s' => drun d (next_state d q c) s' end.

Lemma drun_snoc d q s c : drun d q (s ++ [c]) = next_state d (drun d q s) c.
Proof. revert q; induction s as [|a s IH]; intros q; cbn [app drun]; auto. Qed.

Lemma closure_nil q : ~ closure [] q.
Proof. induction 1; auto. Qed.

Lemma dfa_sim start m d : start_dfa_state arrange n = Ok start -> inv start m d [] None -> full n -> forall s,
  match drun d (Some (start_state d)) s with
  | Some i => exists qs, In (qs, i) m /\ (forall q, In q qs <-> reaches n s q) /\ exists q, reaches n s q
  | None => forall q, ~ reaches n s q
  end.
Proof.
  intros Es V Fu. pose proof V as [Nm [St Sd] Se _ Tr _ Fi Un]. intros s. induction s as [|c s IH] using rev_ind.
  - cbn [drun]. rewrite Sd. destruct start_ok as (st & E & _ & I). assert (st = start) as -> by congruence. exists start. split; auto. split; auto. exists (0, 0)%Z. constructor.
  - rewrite drun_snoc. destruct (drun d (Some (start_state d)) s) as [i|].
    + destruct IH as (qs & Iq & Q & _). pose proof (Tr qs i Iq) as P. unfold due in P. cbn [in_dec] in P.
      unfold next_state. pose proof (P (Char c)) as Pc. cbn [trans] in Pc. destruct (dget c (labels_of d (Some i))) as [j|] eqn:Ec.
      * destruct Pc as (Il & qs' & r & Ij & Er & Eq). exists qs'. split; auto. split.
        -- intros q. rewrite (Eq q). apply (next_reaches qs s c r Q Er).
        -- apply in_inputs in Il. destruct Il as (_ & q & I & K). apply Fu in K. destruct (targets n q (Char c)) as [|q' ts] eqn:Et; [congruence|].
           exists q'. eapply reach_char; [apply Q; exact I|]. rewrite Et. simpl; auto.
      * assert (Z : forall q, In q qs -> targets n q (Char c) = []).
        { intros q I. destruct (targets n q (Char c)) eqn:Et; auto. exfalso. apply Pc. apply in_inputs. split; [discriminate|]. exists q. split; auto. apply key_targets. congruence. }
        pose proof (P ANY) as Pa. cbn [trans] in Pa. destruct (default_of d (Some i)) as [j|] eqn:Ea.
        -- destruct Pa as (Il & qs' & r & Ij & Er & Eq). exists qs'. split; auto. split.
           ++ destruct (next_ok qs (Char c)) as (r' & Er' & _). intros q. rewrite (Eq q), <- (next_default qs c r' r Z Er' Er q). apply (next_reaches qs s c r' Q Er').
           ++ apply in_inputs in Il. destruct Il as (_ & q & I & K). apply Fu in K. destruct (targets n q ANY) as [|q' ts] eqn:Et; [congruence|].
              exists q'. eapply reach_any; [apply Q; exact I|]. rewrite Et. simpl; auto.
        -- destruct (next_ok qs (Char c)) as (r' & Er' & _ & Hr'). intros q R. apply (next_reaches qs s c r' Q Er') in R. apply Hr' in R.
           destruct R as (q0 & (p & Ip & T) & _). rewrite (Z p Ip) in T. destruct T as [[]|T]. apply Pa. apply in_inputs. split; [discriminate|]. exists p. split; auto.
           apply key_targets. destruct (targets n p ANY); [destruct T|discriminate].
    + cbn. intros q R. clear - IH R. remember (s ++ [c]) as sc eqn:E. induction R as [|s' q q' R IHR T|s' q q' c' R IHR T|s' q q' c' R IHR T].
      * destruct s; discriminate.
      * auto.
      * apply app_inj_tail in E. destruct E as [-> ->]. eapply IH; eauto.
      * apply app_inj_tail in E. destruct E as [-> ->]. eapply IH; eauto.
Qed.

Definition dfa_accepts (d : dfa) (s : str) : Prop := is_final d (drun d (Some (start_state d)) s) = true.

Lemma is_final_iff qs : is_final_dfa_state n qs = true <-> exists q, In q qs /\ In q (final_states n).
Proof. unfold is_final_dfa_state. rewrite existsb_exists. split; intros (q & I & F); exists q; split; auto; apply smem_In; auto. Qed.

Lemma to_dfa_ok : full n -> exists bound d, (forall fuel, bound <= fuel -> to_dfa arrange fuel n = Ok d) /\ start_state d = 0 /\
  (forall s, drun d (Some 0) s <> None -> exists q, reaches n s q) /\
  (forall s, drun d (Some 0) s = Some 0 -> forall q, reaches n s q <-> reaches n [] q) /\
  forall s, dfa_accepts d s <-> nfa_accepts n s /\ ~ (forall q, reaches n s q <-> reaches n [] q).
Proof.
  intros Fu. destruct start_ok as (start & Es & Ns & Hs). set (d0 := {| start_state := 0; dtransitions := []; defaults := []; dfinal_states := [] |}).
  assert (V0 : inv start [(start, 0)] d0 [start] None).
  { constructor.
    - constructor; [reflexivity|]. intros a b i j [[= <- <-]|[]] [[= <- <-]|[]]; auto.
    - simpl; auto.
    - intros qs i [[= <- <-]|[]] q I. apply Hs in I. remember ([] : str) as s eqn:E. induction I as [|s' q q' R IHR T|s' q q' c' R IHR T|s' q q' c' R IHR T]; [left; reflexivity| | |];
        right; eapply in_all_targets; eauto.
    - split; [repeat constructor; auto|]. intros qs [<-|[]]. exists 0. simpl; auto.
    - intros qs i [[= <- <-]|[]] l. unfold due. destruct (in_dec eqd start [start]) as [_|X]; [|exfalso; apply X; simpl; auto]. destruct l; cbn; auto.
    - discriminate.
    - intros i. cbn. split; [intros []|]. intros [N (qs & [[= <- <-]|[]] & _)]. congruence.
    - intros i l _. destruct l; reflexivity. }
  set (B := 2 ^ length universe + 2).
  assert (Ld : exists m d, dfa_loop arrange n B ([(start, 0)], d0, [start]) = Ok d /\ inv start m d [] None).
  { apply loop_ok; auto. unfold B. cbn [length]. lia. }
  destruct Ld as (m & d & Ed & V). exists B, d. split.
  { intros fuel L. unfold to_dfa. rewrite Es. cbn [bind]. change (node_id [] start) with ([(start, 0)], 0). cbv iota beta. fold d0.
    destruct (loop_ok start fuel [(start, 0)] d0 [start] V0) as (m' & d' & E' & _); [unfold B in L; cbn [length]; lia|].
    rewrite E'. assert (Mono : forall f f' st x y, dfa_loop arrange n f st = Ok x -> dfa_loop arrange n f' st = Ok y -> x = y).
    { clear. induction f as [|f IH]; intros [|f'] [[m d] fr] x y E1 E2; try discriminate. cbn [dfa_loop] in *. destruct fr as [|c fr]; [congruence|].
      destruct (foldM _ _ _) as [st'|]; [|discriminate]. cbn [bind] in *. eapply IH; eauto. }
    f_equal. eapply Mono; eauto. }
  pose proof (dfa_sim start m d Es V Fu) as Sim. pose proof V as [Nm [St Sd] Se _ Tr _ Fi Un]. rewrite Sd in Sim. split; auto. split; [|split].
  - intros s X. specialize (Sim s). destruct (drun d (Some 0) s) as [i|]; [|congruence]. destruct Sim as (_ & _ & _ & R). exact R.
  - intros s E. specialize (Sim s). rewrite E in Sim. destruct Sim as (qs & I & Q & _). assert (qs = start) as -> by (eapply nb_unique; eauto).
    intros q. rewrite <- Q. apply Hs.
  - intros s. unfold dfa_accepts. rewrite Sd. specialize (Sim s). destruct (drun d (Some 0) s) as [i|]; cbn [is_final].
    + destruct Sim as (qs & I & Q & _). rewrite smem_In, Fi. split.
      * intros [N (qs' & I' & F)]. assert (qs' = qs) as -> by (eapply nb_unique; eauto). split.
        -- apply is_final_iff in F. destruct F as (q & Iq & F). exists q. split; auto. apply Q; auto.
        -- intros X. apply N. eapply (nb_distinct m Nm); [exact I|exact St|]. intros q. rewrite Q, X. symmetry. apply Hs.
      * intros [(q & R & F) X]. split.
        -- intros ->. apply X. assert (qs = start) as -> by (eapply nb_unique; eauto). intros q'. rewrite <- Q. apply Hs.
        -- exists qs. split; auto. apply is_final_iff. exists q. split; auto. apply Q; auto.
    + split; [discriminate|]. intros [(q & R & _) _]. exfalso. eapply Sim; eauto.
Qed.
End Run.
