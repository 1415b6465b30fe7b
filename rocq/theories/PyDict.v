(** Python dictionaries: association lists in insertion order.

    Support library; it models the builtin, not a function of /repo. *)
From Coq Require Import ZArith NArith List Bool Permutation Lia.
Import ListNotations.

(** Decidable equality of keys. *)
Class EqDec (A : Type) : Type := eqd : forall x y : A, {x = y} + {x <> y}.

#[global] Instance EqDec_nat : EqDec nat := Nat.eq_dec.
#[global] Instance EqDec_Z : EqDec Z := Z.eq_dec.
#[global] Instance EqDec_N : EqDec N := N.eq_dec.
#[global] Instance EqDec_list {A} `{EqDec A} : EqDec (list A) := list_eq_dec eqd.
#[global] Instance EqDec_prod {A B} `{EqDec A} `{EqDec B} : EqDec (A * B).
Proof. unfold EqDec in *. decide equality. Defined.

Section Dict.
  Context {K V : Type} `{EqDec K}.

  Definition dict := list (K * V).

  (** [d.get(k)] *)
  Fixpoint dget (k : K) (d : dict) : option V :=
    match d with
    | [] => None
    | (k', v) :: d' => if eqd k k' then Some v else dget k d'
    end.

  (** [d[k] = v]: overwrites in place or appends at the end. *)
  Fixpoint dset (k : K) (v : V) (d : dict) : dict :=
    match d with
    | [] => [(k, v)]
    | (k', v') :: d' => if eqd k k' then (k', v) :: d' else (k', v') :: dset k v d'
    end.

  (** [del d[k]] (no effect when absent) *)
  Fixpoint ddel (k : K) (d : dict) : dict :=
    match d with
    | [] => []
    | (k', v') :: d' => if eqd k k' then d' else (k', v') :: ddel k d'
    end.

  (** [k in d] *)
  Definition dmem (k : K) (d : dict) : bool :=
    match dget k d with Some _ => true | None => false end.

  Definition dkeys (d : dict) : list K := map fst d.
  Definition dvals (d : dict) : list V := map snd d.

  Definition dwf (d : dict) : Prop := NoDup (dkeys d).

  Lemma dget_dset_eq k v d : dget k (dset k v d) = Some v.
  Proof.
    induction d as [|[k' v'] d IH]; simpl.
    - destruct (eqd k k); congruence.
    - destruct (eqd k k') as [->|N]; simpl; [destruct (eqd k' k'); congruence|].
      destruct (eqd k k'); congruence.
  Qed.

  Lemma dget_dset_neq k k' v d : k <> k' -> dget k (dset k' v d) = dget k d.
  Proof.
    intros N. induction d as [|[a b] d IH]; simpl.
    - destruct (eqd k k'); congruence.
    - destruct (eqd k' a) as [->|N2]; simpl.
      + destruct (eqd k a); congruence.
      + destruct (eqd k a); congruence.
  Qed.

  Lemma dget_In k v d : dget k d = Some v -> In (k, v) d.
  Proof.
    induction d as [|[a b] d IH]; simpl; [discriminate|].
    destruct (eqd k a) as [->|N]; [intros [= ->]; auto|auto].
  Qed.

  Lemma dget_None k d : dget k d = None <-> ~ In k (dkeys d).
  Proof.
    induction d as [|[a b] d IH]; simpl; [tauto|].
    destruct (eqd k a) as [->|N]; [split; [discriminate|tauto]|].
    rewrite IH. intuition congruence.
  Qed.

  Lemma dget_Some_key k v d : dget k d = Some v -> In k (dkeys d).
  Proof. intros E. apply dget_In in E. apply (in_map fst) in E. exact E. Qed.

  Lemma dmem_true k d : dmem k d = true <-> In k (dkeys d).
  Proof.
    unfold dmem. destruct (dget k d) eqn:E.
    - split; auto. intros _. eapply dget_Some_key; eauto.
    - apply dget_None in E. split; [discriminate|tauto].
  Qed.

  Lemma dmem_false k d : dmem k d = false <-> ~ In k (dkeys d).
  Proof. rewrite <- dmem_true. destruct (dmem k d); split; congruence. Qed.

  Lemma In_dget k v d : dwf d -> In (k, v) d -> dget k d = Some v.
  Proof.
    unfold dwf. induction d as [|[a b] d IH]; simpl; [tauto|].
    intros W [E|I].
    - injection E as -> ->. destruct (eqd k k); congruence.
    - inversion W; subst. destruct (eqd k a) as [->|N]; auto.
      exfalso. apply H2. apply (in_map fst) in I. exact I.
  Qed.

  Lemma dkeys_dset k v d : dkeys (dset k v d) = if dmem k d then dkeys d else dkeys d ++ [k].
  Proof.
    unfold dmem. induction d as [|[a b] d IH]; simpl; auto.
    destruct (eqd k a) as [->|N]; simpl; auto. rewrite IH. destruct (dget k d); auto.
  Qed.

  Lemma in_dkeys_dset k k' v d : In k (dkeys (dset k' v d)) <-> k = k' \/ In k (dkeys d).
  Proof.
    rewrite dkeys_dset. destruct (dmem k' d) eqn:E.
    - apply dmem_true in E. split; auto. intros [->|]; auto.
    - rewrite in_app_iff. simpl. intuition auto.
  Qed.

  Lemma dset_wf k v d : dwf d -> dwf (dset k v d).
  Proof.
    unfold dwf. intros W. rewrite dkeys_dset. destruct (dmem k d) eqn:E; auto.
    apply dmem_false in E. clear -W E. induction (dkeys d) as [|a l IH]; simpl.
    - constructor; [intros []|constructor].
    - inversion W; subst. simpl in E. constructor; [|apply IH; tauto].
      rewrite in_app_iff. simpl. intuition congruence.
  Qed.

  Lemma dset_app k v d : dmem k d = false -> dset k v d = d ++ [(k, v)].
  Proof.
    unfold dmem. induction d as [|[a b] d IH]; simpl; auto.
    destruct (eqd k a); [discriminate|]. intros E. rewrite IH; auto.
  Qed.

  Lemma ddel_wf k d : dwf d -> dwf (ddel k d).
  Proof.
    unfold dwf. induction d as [|[a b] d IH]; simpl; auto. intros W. inversion W; subst.
    destruct (eqd k a); auto. simpl. constructor; auto.
    intros I. apply H2. clear -I. induction d as [|[c e] d IH]; simpl in *; auto.
    destruct (eqd k c); simpl in *; tauto.
  Qed.

  Lemma in_dkeys_ddel k k' d : dwf d -> (In k (dkeys (ddel k' d)) <-> k <> k' /\ In k (dkeys d)).
  Proof.
    unfold dwf. induction d as [|[a b] d IH]; simpl; [tauto|]. intros W. inversion W; subst.
    destruct (eqd k' a) as [->|N]; simpl.
    - split; [|intuition congruence]. intros I. split; auto. intros ->. contradiction.
    - rewrite IH by auto. intuition congruence.
  Qed.

  Lemma dget_ddel_eq k d : dwf d -> dget k (ddel k d) = None.
  Proof. intros W. apply dget_None. rewrite in_dkeys_ddel by auto. tauto. Qed.

  Lemma dget_ddel_neq k k' d : k <> k' -> dget k (ddel k' d) = dget k d.
  Proof.
    intros N. induction d as [|[a b] d IH]; simpl; auto.
    destruct (eqd k' a) as [->|N2]; simpl.
    - destruct (eqd k a); congruence.
    - destruct (eqd k a); auto.
  Qed.

  Lemma ddel_absent k d : dmem k d = false -> ddel k d = d.
  Proof.
    unfold dmem. induction d as [|[a b] d IH]; simpl; auto.
    destruct (eqd k a); [discriminate|]. intros E. rewrite IH; auto.
  Qed.

  Lemma ddel_filter k d : dwf d -> ddel k d = filter (fun kv => if eqd (fst kv) k then false else true) d.
  Proof.
    unfold dwf. induction d as [|[a b] d IH]; simpl; auto. intros W. inversion W; subst.
    destruct (eqd k a) as [->|N].
    - destruct (eqd a a); [|congruence]. clear -H2. induction d as [|[c e] d IH]; simpl in *; auto.
      destruct (eqd c a); [exfalso; auto|]. f_equal. apply IH. tauto.
    - destruct (eqd a k); [congruence|]. f_equal; auto.
  Qed.
End Dict.

Arguments dict : clear implicits.

(** ** Grouping values by key: [d.setdefault(k, []).append(v)] *)
Section Group.
  Context {K V : Type} `{EqDec K}.

  Definition dappend (k : K) (v : V) (d : dict K (list V)) : dict K (list V) :=
    match dget k d with
    | Some l => dset k (l ++ [v]) d
    | None => dset k [v] d
    end.

  Definition group (kvs : list (K * V)) : dict K (list V) :=
    fold_left (fun d kv => dappend (fst kv) (snd kv) d) kvs [].

  Definition select (k : K) (kvs : list (K * V)) : list V :=
    map snd (filter (fun kv => if eqd (fst kv) k then true else false) kvs).

  Definition dgetl (k : K) (d : dict K (list V)) : list V :=
    match dget k d with Some l => l | None => [] end.

  Lemma select_app k l1 l2 : select k (l1 ++ l2) = select k l1 ++ select k l2.
  Proof. unfold select. rewrite filter_app, map_app. reflexivity. Qed.

  Lemma dgetl_dappend k v d k' :
    dgetl k' (dappend k v d) = dgetl k' d ++ (if eqd k k' then [v] else []).
  Proof.
    unfold dgetl, dappend. destruct (eqd k k') as [->|N].
    - destruct (dget k' d); rewrite dget_dset_eq; reflexivity.
    - rewrite app_nil_r. destruct (dget k d); rewrite dget_dset_neq by auto; reflexivity.
  Qed.

  Lemma dkeys_dappend k v d : dkeys (dappend k v d) = if dmem k d then dkeys d else dkeys d ++ [k].
  Proof. unfold dappend. destruct (dget k d); apply dkeys_dset. Qed.

  Lemma dappend_wf k v d : dwf d -> dwf (dappend k v d).
  Proof. unfold dappend. destruct (dget k d); apply dset_wf. Qed.

  Lemma group_snoc kvs kv : group (kvs ++ [kv]) = dappend (fst kv) (snd kv) (group kvs).
  Proof. unfold group. rewrite fold_left_app. reflexivity. Qed.

  Lemma group_get k kvs : dgetl k (group kvs) = select k kvs.
  Proof.
    induction kvs as [|kv kvs IH] using rev_ind; [reflexivity|].
    rewrite group_snoc, dgetl_dappend, IH, select_app. f_equal.
    unfold select. simpl. destruct (eqd (fst kv) k); reflexivity.
  Qed.

  Lemma group_wf kvs : dwf (group kvs).
  Proof.
    induction kvs as [|kv kvs IH] using rev_ind; [constructor|].
    rewrite group_snoc. apply dappend_wf; auto.
  Qed.

  Lemma group_keys k kvs : In k (dkeys (group kvs)) <-> In k (map fst kvs).
  Proof.
    induction kvs as [|kv kvs IH] using rev_ind; [reflexivity|].
    rewrite group_snoc, dkeys_dappend, map_app, in_app_iff, <- IH. simpl.
    destruct (dmem (fst kv) (group kvs)) eqn:E.
    - apply dmem_true in E. split; auto. intros [|[<-|[]]]; auto.
    - rewrite in_app_iff. simpl. reflexivity.
  Qed.

  Lemma select_nil k kvs : select k kvs = [] <-> ~ In k (map fst kvs).
  Proof.
    unfold select. induction kvs as [|[a b] kvs IH]; simpl; [tauto|].
    destruct (eqd a k) as [->|N]; simpl.
    - split; [discriminate|tauto].
    - rewrite IH. intuition congruence.
  Qed.

  Lemma group_dget k kvs : In k (map fst kvs) -> dget k (group kvs) = Some (select k kvs).
  Proof.
    intros I. apply group_keys in I. rewrite <- group_get. unfold dgetl.
    destruct (dget k (group kvs)) eqn:E; auto. apply dget_None in E. contradiction.
  Qed.

  Lemma group_dget_none k kvs : ~ In k (map fst kvs) -> dget k (group kvs) = None.
  Proof. intros I. apply dget_None. rewrite group_keys. auto. Qed.

  Lemma group_item k l kvs : In (k, l) (group kvs) -> l = select k kvs /\ In k (map fst kvs).
  Proof.
    intros I. apply In_dget in I; [|apply group_wf].
    assert (K1 := dget_Some_key _ _ _ I). apply group_keys in K1. split; auto.
    rewrite group_dget in I by auto. congruence.
  Qed.
End Group.
