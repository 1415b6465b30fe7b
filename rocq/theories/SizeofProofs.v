(** [deep_sizeof] adds up the objects reachable from its argument, each once. *)
From Coq Require Import ZArith NArith List Bool Lia Permutation.
From Verif Require Import Py PyDict NmdSpec.
From Verif Require Import SizeofModel.
Import ListNotations.
Open Scope Z_scope.

(** ** Independent vocabulary *)

(** the object tells its own total size *)
Definition reports (o : pyobj) (n : Z) : Prop :=
  nbytes o = Some n \/ (nbytes o = None /\ memory o = Some (Ok (Some n))).

(** what one object counts for *)
Definition counts (o : pyobj) (n : Z) : Prop :=
  reports o n \/ ((forall m, ~ reports o m) /\ n = getsizeof o).

Definition underscores (name : str) : Prop :=
  (exists r, name = 95%N :: 95%N :: r) \/ (exists r, name = r ++ [95%N; 95%N]).

(** [o] is entered and holds [x] *)
Inductive holds (o : pyobj) (x : nat) : Prop :=
| h_key ks vs : mapping o = Some (ks, vs) -> In x ks -> holds o x
| h_value ks vs : mapping o = Some (ks, vs) -> In x vs -> holds o x
| h_element l : elements o = Some l -> In x l -> holds o x
| h_dict_key : In x (fst (attr_dict o)) -> holds o x
| h_dict_value : In x (snd (attr_dict o)) -> holds o x
| h_slot : In x (slots o) -> holds o x
| h_attr name : In (name, false, Ok x) (attrs o) -> ~ underscores name -> holds o x.

Definition refers (o : pyobj) (x : nat) : Prop :=
  (forall m, ~ reports o m) /\ flat o = false /\ holds o x.

Inductive reach (heap : nat -> pyobj) (root : nat) : nat -> Prop :=
| reach_root : reach heap root root
| reach_step x y : reach heap root x -> refers (heap x) y -> reach heap root y.

(** looking at [o] raises [e] *)
Inductive raises (o : pyobj) (e : exn) : Prop :=
| r_memory : nbytes o = None -> memory o = Some (Err e) -> e <> TypeError -> raises o e
| r_attr name : (forall m, ~ reports o m) -> flat o = false ->
    In (name, false, Err e) (attrs o) -> ~ underscores name -> raises o e.

Fixpoint total (l : list Z) : Z := match l with [] => 0 | a :: l => a + total l end.

(** ** Lemmas *)

Lemma total_fold l a : fold_left Z.add l a = a + total l.
Proof. revert a; induction l as [|b l IH]; intros a; simpl; [lia|]. rewrite IH. lia. Qed.

Lemma total_app l1 l2 : total (l1 ++ l2) = total l1 + total l2.
Proof. induction l1; simpl; lia. Qed.

Lemma total_perm l1 l2 : Permutation l1 l2 -> total l1 = total l2.
Proof. induction 1; simpl; lia. Qed.

Lemma counts_fun o n m : counts o n -> counts o m -> n = m.
Proof.
  assert (F : forall n m, reports o n -> reports o m -> n = m).
  { intros a b [A|[A A']] [B|[B B']]; congruence. }
  intros [A|[A A']] [B|[B B']]; subst; eauto; exfalso; [apply (B n)|apply (A m)]; assumption.
Qed.

Lemma magic_spec name : magic name = true <-> underscores name.
Proof.
  unfold magic, underscores. rewrite orb_true_iff. split.
  - intros [E|E].
    + left. destruct (eqd _ _) as [E'|]; [|discriminate].
      exists (skipn 2 name). rewrite <- (firstn_skipn 2 name) at 1. rewrite E'. reflexivity.
    + right. destruct (eqd _ _) as [E'|]; [|discriminate].
      exists (firstn (length name - 2) name). rewrite <- (firstn_skipn (length name - 2) name) at 1. rewrite E'. reflexivity.
  - intros [[r ->]|[r ->]].
    + left. reflexivity.
    + right. rewrite app_length. simpl. replace (length r + 2 - 2)%nat with (length r + 0)%nat by lia.
      rewrite skipn_app, skipn_all2 by lia. replace (length r + 0 - length r)%nat with 0%nat by lia. reflexivity.
Qed.

Lemma add_keys sizes stack x y :
  In y (dkeys (add_to_stack sizes stack x)) <-> In y (dkeys stack) \/ (y = x /\ ~ In x (dkeys sizes)).
Proof.
  unfold add_to_stack. destruct (dmem x sizes) eqn:E.
  - apply dmem_true in E. split; [tauto|]. intros [A|[-> A]]; tauto.
  - apply dmem_false in E. rewrite in_dkeys_dset. split; [intros [->|A]; tauto|]. intros [A|[-> A]]; tauto.
Qed.

Definition okstack (stack : dict nat nat) : Prop := dwf stack /\ (forall k v, In (k, v) stack -> v = k).

Lemma in_dset (k v : nat) k' v' d : In (k, v) (dset k' v' d) -> (k = k' /\ v = v') \/ In (k, v) d.
Proof.
  induction d as [|[a b] d IH]; simpl.
  - intros [E|[]]. injection E as <- <-. tauto.
  - destruct (eqd k' a) as [->|N]; simpl.
    + intros [E|I]; [injection E as <- <-; tauto|tauto].
    + intros [E|I]; [tauto|]. destruct (IH I); tauto.
Qed.

Lemma add_ok sizes stack x : okstack stack -> okstack (add_to_stack sizes stack x).
Proof.
  intros [W I]. unfold add_to_stack. destruct (dmem x sizes); [split; assumption|]. split.
  - apply dset_wf; assumption.
  - intros k v J. apply in_dset in J. destruct J as [[-> ->]|J]; [reflexivity|]. apply I; assumption.
Qed.

Lemma push_ok sizes l : forall stack, okstack stack -> okstack (fold_left (add_to_stack sizes) l stack).
Proof. induction l as [|x l IH]; intros stack A; simpl; [assumption|]. apply IH, add_ok, A. Qed.

Lemma push_keys sizes l y : forall stack,
  In y (dkeys (fold_left (add_to_stack sizes) l stack)) <-> In y (dkeys stack) \/ (In y l /\ ~ In y (dkeys sizes)).
Proof.
  induction l as [|x l IH]; intros stack; simpl; [tauto|].
  rewrite IH, add_keys. split.
  - intros [[A|[-> A]]|[A B]]; tauto.
  - intros [A|[[<-|A] B]]; tauto.
Qed.

Lemma attrs_ok sizes l : forall stack s',
  foldM (push_attr sizes) l stack = Ok s' ->
  (okstack stack -> okstack s') /\
  (forall y, In y (dkeys s') <-> In y (dkeys stack) \/
     ((exists name, In (name, false, Ok y) l /\ ~ underscores name) /\ ~ In y (dkeys sizes))) /\
  (forall name e, In (name, false, Err e) l -> underscores name).
Proof.
  induction l as [|[[name skip] value] l IH]; intros stack s' E; simpl in E.
  - injection E as <-. split; [tauto|]. split; [|intros ? ? []].
    intros y. split; [tauto|]. intros [A|[[n [[] _]] _]]; assumption.
  - destruct skip; [|destruct (magic name) eqn:M; [|destruct value as [v|e]]]; simpl in E.
    + destruct (IH _ _ E) as [A [B C]]. split; [exact A|]. split.
      * intros y. rewrite B. split; (intros [D|[[n [D1 D2]] D3]]; [tauto|right; split; [|assumption]; exists n; split; [|assumption]]).
        -- right; assumption.
        -- destruct D1 as [D1|D1]; [discriminate|assumption].
      * intros n e [D|D]; [discriminate|]. eapply C; eassumption.
    + apply magic_spec in M. destruct (IH _ _ E) as [A [B C]]. split; [exact A|]. split.
      * intros y. rewrite B. split; (intros [D|[[n [D1 D2]] D3]]; [tauto|right; split; [|assumption]; exists n; split; [|assumption]]).
        -- right; assumption.
        -- destruct D1 as [D1|D1]; [injection D1 as <- _; contradiction|assumption].
      * intros n e [D|D]; [injection D as <- _; assumption|]. eapply C; eassumption.
    + assert (M' : ~ underscores name) by (rewrite <- magic_spec; congruence).
      destruct (IH _ _ E) as [A [B C]]. split; [intros O; apply A, add_ok, O|]. split.
      * intros y. rewrite B, add_keys. split.
        -- intros [[D|[-> D]]|[[n [D1 D2]] D3]]; [tauto| |].
           ++ right. split; [|assumption]. exists name. split; [left; reflexivity|assumption].
           ++ right. split; [|assumption]. exists n. split; [right; assumption|assumption].
        -- intros [D|[[n [[D1|D1] D2]] D3]]; [tauto| |].
           ++ injection D1 as _ <-. tauto.
           ++ right. split; [|assumption]. exists n. split; assumption.
      * intros n e [D|D]; [discriminate|]. eapply C; eassumption.
    + discriminate.
Qed.

Lemma attrs_err sizes l e : forall stack,
  foldM (push_attr sizes) l stack = Err e -> exists name, In (name, false, Err e) l /\ ~ underscores name.
Proof.
  induction l as [|[[name skip] value] l IH]; intros stack E; simpl in E; [discriminate|].
  destruct skip; [|destruct (magic name) eqn:M; [|destruct value as [v|e']]]; simpl in E.
  - destruct (IH _ E) as [n [A B]]. exists n. split; [right|]; assumption.
  - destruct (IH _ E) as [n [A B]]. exists n. split; [right|]; assumption.
  - destruct (IH _ E) as [n [A B]]. exists n. split; [right|]; assumption.
  - injection E as <-. exists name. split; [left; reflexivity|]. rewrite <- magic_spec. congruence.
Qed.

(** [recurse] adds what the object holds and has not been counted *)
Lemma recurse_ok sizes stack o s' :
  flat o = false -> recurse sizes stack o = Ok s' ->
  (okstack stack -> okstack s') /\
  (forall y, In y (dkeys s') <-> In y (dkeys stack) \/ (holds o y /\ ~ In y (dkeys sizes))) /\
  (forall name e, In (name, false, Err e) (attrs o) -> underscores name).
Proof.
  intros F E. unfold recurse in E. rewrite F in E. apply attrs_ok in E. destruct E as [A [B C]].
  split; [|split; [|exact C]].
  - intros O. apply A. apply push_ok, push_ok, push_ok.
    destruct (mapping o) as [[ks vs]|]; destruct (elements o); repeat apply push_ok; exact O.
  - intros y. rewrite B. rewrite !push_keys. clear A B C. split.
    + intros [[[[D|[D N]]|[D N]]|[D N]]|[[name [D D']] N]].
      2: { right. split; [apply h_dict_key|]; assumption. }
      2: { right. split; [apply h_dict_value|]; assumption. }
      2: { right. split; [apply h_slot|]; assumption. }
      2: { right. split; [eapply h_attr; eassumption|assumption]. }
      destruct (mapping o) as [[ks vs]|] eqn:Em; destruct (elements o) as [l|] eqn:El; rewrite ?push_keys in D.
      * destruct D as [[[D|[D N]]|[D N]]|[D N]]; [tauto| | |]; right; (split; [|assumption]).
        -- eapply h_key; eassumption.
        -- eapply h_value; eassumption.
        -- eapply h_element; eassumption.
      * destruct D as [[D|[D N]]|[D N]]; [tauto| |]; right; (split; [|assumption]).
        -- eapply h_key; eassumption.
        -- eapply h_value; eassumption.
      * destruct D as [D|[D N]]; [tauto|]; right; (split; [|assumption]). eapply h_element; eassumption.
      * tauto.
    + intros [D|[[ks vs E I|ks vs E I|l E I|I|I|I|name I U] N]].
      * left; left; left; left.
        destruct (mapping o) as [[ks vs]|]; destruct (elements o) as [l|]; rewrite ?push_keys; tauto.
      * rewrite E. left; left; left; left. destruct (elements o); rewrite ?push_keys; tauto.
      * rewrite E. left; left; left; left. destruct (elements o); rewrite ?push_keys; tauto.
      * rewrite E. left; left; left; left. rewrite ?push_keys; tauto.
      * tauto.
      * tauto.
      * tauto.
      * right. split; [|assumption]. exists name. tauto.
Qed.

Lemma recurse_err sizes stack o e :
  recurse sizes stack o = Err e -> flat o = false /\ exists name, In (name, false, Err e) (attrs o) /\ ~ underscores name.
Proof.
  unfold recurse. destruct (flat o); [discriminate|]. intros E. apply attrs_err in E. split; [reflexivity|exact E].
Qed.

Lemma popitem_none stack : popitem stack = None -> stack = [].
Proof.
  unfold popitem. destruct (rev stack) eqn:E; [|discriminate]. intros _.
  rewrite <- (rev_involutive stack), E. reflexivity.
Qed.

Lemma popitem_some stack k v s : popitem stack = Some (k, v, s) -> stack = s ++ [(k, v)].
Proof.
  unfold popitem. destruct (rev stack) as [|[k' v'] r] eqn:E; [discriminate|]. intros H. injection H as <- <- <-.
  rewrite <- (rev_involutive stack), E. reflexivity.
Qed.

Lemma usage_cases o :
  match memory_usage o with
  | Ok (Some n) => memory o = Some (Ok (Some n))
  | Ok None => (forall n, memory o <> Some (Ok (Some n))) /\ (forall e, memory o = Some (Err e) -> e = TypeError)
  | Err e => memory o = Some (Err e) /\ e <> TypeError
  end.
Proof.
  unfold memory_usage. destruct (memory o) as [[[n|]|e]|]; try reflexivity; try (split; [intros; discriminate|intros; discriminate]).
  destruct e; try (split; [reflexivity|discriminate]).
  split; [intros; discriminate|]. intros e E. injection E as <-. reflexivity.
Qed.

(** ** The loop *)

Section Loop.
Variable heap : nat -> pyobj.
Variable root : nat.

Record inv (sizes : dict nat Z) (stack : dict nat nat) : Prop := {
  i_sizes : dwf sizes;
  i_stack : okstack stack;
  i_apart : forall x, In x (dkeys stack) -> ~ In x (dkeys sizes);
  i_reach : forall x, In x (dkeys sizes) \/ In x (dkeys stack) -> reach heap root x;
  i_root : In root (dkeys sizes) \/ In root (dkeys stack);
  i_closed : forall x y, In x (dkeys sizes) -> refers (heap x) y -> In y (dkeys sizes) \/ In y (dkeys stack);
  i_counts : forall x n, In (x, n) sizes -> counts (heap x) n;
  i_quiet : forall x e, In x (dkeys sizes) -> ~ raises (heap x) e;
}.

Lemma inv_start : inv [] [(root, root)].
Proof.
  constructor; simpl; try tauto.
  - constructor.
  - split; [repeat constructor; simpl; tauto|]. intros k v [E|[]]. injection E as <- <-. reflexivity.
  - intros x [[]|[<-|[]]]. constructor.
Qed.

(** what one round does *)
Lemma round sizes stack k v s :
  inv sizes stack -> popitem stack = Some (k, v, s) ->
  v = k /\ dmem k sizes = false /\ reach heap root k /\ ~ In k (dkeys s) /\
  (forall n, counts (heap k) n -> (forall e, ~ raises (heap k) e) ->
     (forall s', okstack s' -> (forall y, In y (dkeys s') <-> In y (dkeys s) \/ (refers (heap k) y /\ y <> k /\ ~ In y (dkeys sizes))) ->
       inv (dset k n sizes) s')).
Proof.
  intros I P. apply popitem_some in P. subst stack. destruct I as [W [Ws Is] Ap R Rt Cl Co Q].
  assert (Ik : In k (dkeys (s ++ [(k, v)]))).
  { unfold dkeys. rewrite map_app. apply in_or_app. right. left. reflexivity. }
  assert (Ev : v = k). { apply Is. apply in_or_app. right. left. reflexivity. }
  subst v.
  assert (Nk : ~ In k (dkeys s)).
  { unfold dwf, dkeys in Ws. rewrite map_app in Ws. simpl in Ws. apply NoDup_remove_2 in Ws. rewrite app_nil_r in Ws. exact Ws. }
  assert (K : forall y, In y (dkeys (s ++ [(k, k)])) <-> In y (dkeys s) \/ y = k).
  { intros y. unfold dkeys. rewrite map_app, in_app_iff. simpl. split; [intros [A|[->|[]]]; tauto|intros [A| ->]; tauto]. }
  split; [reflexivity|]. split; [apply dmem_false, Ap, Ik|]. split; [apply R; right; exact Ik|]. split; [exact Nk|].
  intros n C Qk s' Os' Ks'. constructor.
  - apply dset_wf, W.
  - exact Os'.
  - intros x J. rewrite in_dkeys_dset. rewrite Ks' in J. intros [->|J'].
    + destruct J as [J|[_ [J _]]]; tauto.
    + destruct J as [J|[_ [_ J]]]; [|tauto]. apply (Ap x); [apply K; tauto|assumption].
  - intros x. rewrite in_dkeys_dset, Ks'. intros [[->|J]|[J|[J _]]].
    + apply R. tauto.
    + apply R. tauto.
    + apply R. right. apply K. tauto.
    + apply reach_step with k; [|exact J]. apply R. tauto.
  - rewrite in_dkeys_dset, Ks'. destruct Rt as [A|A]; [tauto|]. apply K in A. destruct A as [A|A]; [tauto|]. left. left. congruence.
  - intros x y. rewrite !in_dkeys_dset, Ks'. intros J X.
    destruct (Nat.eq_dec y k) as [->|Ny]; [tauto|].
    destruct (in_dec Nat.eq_dec y (dkeys sizes)) as [Y|Y]; [tauto|].
    destruct J as [->|J]; [tauto|].
    destruct (Cl x y J X) as [A|A]; [tauto|]. apply K in A. tauto.
  - intros x m J. apply In_dget in J; [|apply dset_wf, W]. destruct (Nat.eq_dec x k) as [->|Nx].
    + rewrite dget_dset_eq in J. injection J as <-. exact C.
    + rewrite dget_dset_neq in J by assumption. apply Co. apply dget_In. exact J.
  - intros x e. rewrite in_dkeys_dset. intros [->|J]; [apply Qk|]. apply Q. exact J.
Qed.

Lemma okstack_pop stack k v s : okstack stack -> popitem stack = Some (k, v, s) -> okstack s.
Proof.
  intros [W I] P. apply popitem_some in P. subst stack. split.
  - unfold dwf, dkeys in *. rewrite map_app in W. simpl in W. apply NoDup_remove_1 in W. rewrite app_nil_r in W. exact W.
  - intros a b J. apply I. apply in_or_app. tauto.
Qed.

(** a round either raises because of a reachable object or counts one more *)
Lemma loop_step f sizes stack :
  inv sizes stack ->
  (stack = [] /\ size_loop heap (S f) sizes stack = Ok (Some (total (dvals sizes)))) \/
  (exists x e, reach heap root x /\ raises (heap x) e /\ size_loop heap (S f) sizes stack = Err e) \/
  (exists sizes' stack', inv sizes' stack' /\ length (dkeys sizes') = S (length (dkeys sizes)) /\
     size_loop heap (S f) sizes stack = size_loop heap f sizes' stack').
Proof.
  intros I. simpl. destruct (popitem stack) as [[[k v] s]|] eqn:P.
  2: { left. split; [apply popitem_none, P|]. rewrite total_fold. reflexivity. }
  right. destruct (round _ _ _ _ _ I P) as [-> [M [Rk [Nk G]]]]. rewrite M.
  pose proof (okstack_pop _ _ _ _ (i_stack _ _ I) P) as Os.
  assert (L : forall n, length (dkeys (dset k n sizes)) = S (length (dkeys sizes))).
  { intros n. rewrite dkeys_dset, M, app_length. simpl. lia. }
  assert (Rep : forall n, reports (heap k) n -> exists sizes' stack', inv sizes' stack' /\
     length (dkeys sizes') = S (length (dkeys sizes)) /\
     size_loop heap f (dset k n sizes) s = size_loop heap f sizes' stack').
  { intros n Hn. exists (dset k n sizes), s. split; [|split; [apply L|reflexivity]].
    apply G; [left; exact Hn| |exact Os|].
    - intros e [A B D|nm A _ _ _]; [|apply (A n Hn)]. destruct Hn as [Hn|[_ Hn]]; congruence.
    - intros y. split; [tauto|]. intros [A|[[A _] _]]; [assumption|]. exfalso. apply (A n Hn). }
  destruct (nbytes (heap k)) as [n|] eqn:En.
  { right. apply Rep. left. exact En. }
  pose proof (usage_cases (heap k)) as U. destruct (memory_usage (heap k)) as [[n|]|e]; simpl.
  { right. apply Rep. right. split; assumption. }
  2: { left. exists k, e. split; [exact Rk|]. split; [|reflexivity]. destruct U. apply r_memory; assumption. }
  destruct U as [U1 U2].
  assert (NR : forall m, ~ reports (heap k) m). { intros m [A|[_ A]]; [congruence|]. apply (U1 m A). }
  destruct (recurse (dset k (getsizeof (heap k)) sizes) s (heap k)) as [s'|e] eqn:E; simpl.
  2: { left. exists k, e. split; [exact Rk|]. split; [|reflexivity]. apply recurse_err in E.
       destruct E as [F [name [A B]]]. eapply r_attr; eassumption. }
  right. exists (dset k (getsizeof (heap k)) sizes), s'. split; [|split; [apply L|reflexivity]].
  apply G.
  - right. split; [exact NR|reflexivity].
  - intros e [A B D|nm A F D D']; [apply D, (U2 e B)|].
    destruct (recurse_ok _ _ _ _ F E) as [_ [_ Q]]. apply D'. eapply Q. exact D.
  - destruct (flat (heap k)) eqn:F.
    + unfold recurse in E. rewrite F in E. injection E as <-. exact Os.
    + apply (recurse_ok _ _ _ _ F E). exact Os.
  - intros y. destruct (flat (heap k)) eqn:F.
    + unfold recurse in E. rewrite F in E. injection E as <-. split; [tauto|]. intros [A|[[_ [A _]] _]]; [assumption|congruence].
    + destruct (recurse_ok _ _ _ _ F E) as [_ [K _]]. rewrite K, in_dkeys_dset. unfold refers. rewrite F. tauto.
Qed.

(** once the stack is empty the counted objects are the reachable ones *)
Lemma inv_done sizes : inv sizes [] ->
  forall x, In x (dkeys sizes) <-> reach heap root x.
Proof.
  intros I x. split; [intros A; apply (i_reach _ _ I); tauto|].
  induction 1 as [|x y _ IH R].
  - destruct (i_root _ _ I) as [A|[]]; exact A.
  - destruct (i_closed _ _ I x y IH R) as [A|[]]; exact A.
Qed.

Lemma loop_end f : forall sizes stack v, inv sizes stack ->
  size_loop heap f sizes stack = Ok (Some v) ->
  exists sizes', inv sizes' [] /\ v = total (dvals sizes').
Proof.
  induction f as [|f IH]; intros sizes stack v I E; [discriminate|].
  destruct (loop_step f _ _ I) as [[-> A]|[[x [e [_ [_ A]]]]|[s1 [t1 [I1 [_ A]]]]]]; rewrite A in E.
  - injection E as <-. exists sizes. split; [exact I|reflexivity].
  - discriminate.
  - apply (IH s1 t1); assumption.
Qed.

Lemma loop_raises f : forall sizes stack e, inv sizes stack ->
  size_loop heap f sizes stack = Err e -> exists x, reach heap root x /\ raises (heap x) e.
Proof.
  induction f as [|f IH]; intros sizes stack e I E; [discriminate|].
  destruct (loop_step f _ _ I) as [[-> A]|[[x [e' [R [Q A]]]]|[s1 [t1 [I1 [_ A]]]]]]; rewrite A in E.
  - discriminate.
  - injection E as ->. exists x. split; assumption.
  - apply (IH s1 t1); assumption.
Qed.

(** enough rounds: one per reachable object and one to notice the end *)
Lemma loop_finish (R : list nat) : (forall x, reach heap root x -> In x R) ->
  forall f sizes stack, inv sizes stack -> (length R < f + length (dkeys sizes))%nat ->
  size_loop heap f sizes stack <> Ok None.
Proof.
  intros HR. induction f as [|f IH]; intros sizes stack I L.
  - exfalso. assert (length (dkeys sizes) <= length R)%nat; [|simpl in L; lia].
    apply NoDup_incl_length; [apply (i_sizes _ _ I)|]. intros x A. apply HR, (i_reach _ _ I). tauto.
  - destruct (loop_step f _ _ I) as [[-> A]|[[x [e' [_ [_ A]]]]|[s1 [t1 [I1 [N A]]]]]]; rewrite A; [discriminate|discriminate|].
    apply IH; [assumption|]. lia.
Qed.

End Loop.
