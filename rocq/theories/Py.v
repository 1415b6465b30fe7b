(** Python vocabulary shared by all models: exceptions as values, list
    indexing, ranges, loops, [sorted].

    Nothing in this file models a particular function of /repo: it is the
    meaning given to Python builtins. *)
From Coq Require Import ZArith List Bool Lia Permutation Sorted.
Import ListNotations.

(** ** Exceptions *)

Inductive exn : Set :=
| TypeError | ValueError | ZeroDivisionError | KeyError | IndexError
| AssertionError | RuntimeError | StopIteration
| Exception (** [raise Exception(...)], no subclass *).

Inductive result (A : Type) : Type :=
| Ok (a : A)
| Err (e : exn).
Arguments Ok {A} a.
Arguments Err {A} e.

Definition bind {A B} (m : result A) (f : A -> result B) : result B :=
  match m with Ok a => f a | Err e => Err e end.

Notation "x <- m ;; k" := (bind m (fun x => k))
  (at level 61, m at next level, right associativity).
Notation "m ;;; k" := (bind m (fun _ => k))
  (at level 61, right associativity).

Definition is_ok {A} (m : result A) : bool := match m with Ok _ => true | Err _ => false end.

Definition rmap {A B} (f : A -> B) (m : result A) : result B :=
  match m with Ok a => Ok (f a) | Err e => Err e end.

(** [raise e if b] *)
Definition guard (b : bool) (e : exn) : result unit := if b then Err e else Ok tt.

(** A Python [for] loop whose body may raise. *)
Fixpoint foldM {A S} (f : S -> A -> result S) (l : list A) (s : S) : result S :=
  match l with
  | [] => Ok s
  | a :: l' => s' <- f s a ;; foldM f l' s'
  end.

(** A list comprehension whose body may raise. *)
Fixpoint mapM {A B} (f : A -> result B) (l : list A) : result (list B) :=
  match l with
  | [] => Ok []
  | a :: l' => b <- f a ;; bs <- mapM f l' ;; Ok (b :: bs)
  end.

(** ** Lists *)

Definition zlen {A} (l : list A) : Z := Z.of_nat (length l).

(** Python index normalisation: negative indices count from the end. *)
Definition py_index {A} (l : list A) (i : Z) : option nat :=
  let j := (if i <? 0 then i + zlen l else i)%Z in
  if ((0 <=? j) && (j <? zlen l))%Z then Some (Z.to_nat j) else None.

(** [l[i]] *)
Definition py_get {A} (l : list A) (i : Z) : result A :=
  match py_index l i with
  | Some j => match nth_error l j with Some a => Ok a | None => Err IndexError end
  | None => Err IndexError
  end.

Fixpoint list_set {A} (l : list A) (i : nat) (a : A) : list A :=
  match l, i with
  | [], _ => []
  | _ :: l', O => a :: l'
  | b :: l', S i' => b :: list_set l' i' a
  end.

(** [l[i] = a] *)
Definition py_set {A} (l : list A) (i : Z) (a : A) : result (list A) :=
  match py_index l i with
  | Some j => Ok (list_set l j a)
  | None => Err IndexError
  end.

(** [range(a, b)] *)
Definition py_range (a b : Z) : list Z :=
  map (fun k => (a + Z.of_nat k)%Z) (seq 0 (Z.to_nat (b - a))).

(** [l[i:j]] for non-negative [i], [j] *)
Definition py_slice {A} (l : list A) (i j : nat) : list A :=
  firstn (j - i) (skipn i l).

(** ** [sorted], stable insertion sort *)

Section Sort.
  Context {A : Type} (leb : A -> A -> bool).

  Fixpoint insert (a : A) (l : list A) : list A :=
    match l with
    | [] => [a]
    | b :: l' => if leb a b then a :: b :: l' else b :: insert a l'
    end.

  Definition isort (l : list A) : list A := fold_right insert [] l.
End Sort.

(** *** Facts *)

Lemma bind_ok {A B} (m : result A) (f : A -> result B) b :
  bind m f = Ok b -> exists a, m = Ok a /\ f a = Ok b.
Proof. destruct m; simpl; [eauto|discriminate]. Qed.

Lemma bind_err {A B} (m : result A) (f : A -> result B) e :
  bind m f = Err e -> m = Err e \/ exists a, m = Ok a /\ f a = Err e.
Proof. destruct m; simpl; [eauto|]. intros [= ->]; auto. Qed.

Lemma foldM_app {A S} (f : S -> A -> result S) l1 l2 s :
  foldM f (l1 ++ l2) s = (s' <- foldM f l1 s ;; foldM f l2 s').
Proof.
  revert s; induction l1 as [|a l1 IH]; intros s; simpl; auto.
  destruct (f s a); simpl; auto.
Qed.

Lemma foldM_ok {A S} (f : S -> A -> S) l s :
  foldM (fun s a => Ok (f s a)) l s = Ok (fold_left f l s).
Proof. revert s; induction l; simpl; auto. Qed.

Lemma mapM_ok {A B} (f : A -> B) l : mapM (fun a => Ok (f a)) l = Ok (map f l).
Proof. induction l; simpl; auto. rewrite IHl. reflexivity. Qed.

Lemma zlen_nonneg {A} (l : list A) : (0 <= zlen l)%Z.
Proof. unfold zlen; lia. Qed.

Lemma py_index_nat {A} (l : list A) (i : nat) :
  i < length l -> py_index l (Z.of_nat i) = Some i.
Proof.
  intros H. unfold py_index, zlen.
  destruct (Z.of_nat i <? 0)%Z eqn:E; [apply Z.ltb_lt in E; lia|].
  destruct ((0 <=? Z.of_nat i) && (Z.of_nat i <? Z.of_nat (length l)))%Z eqn:E2.
  - rewrite Nat2Z.id. reflexivity.
  - apply andb_false_iff in E2. rewrite Z.leb_gt, Z.ltb_ge in E2. lia.
Qed.

Lemma py_get_nat {A} (l : list A) (i : nat) d :
  i < length l -> py_get l (Z.of_nat i) = Ok (nth i l d).
Proof.
  intros H. unfold py_get. rewrite py_index_nat by auto.
  rewrite (nth_error_nth' l d H). reflexivity.
Qed.

Lemma py_set_nat {A} (l : list A) (i : nat) a :
  i < length l -> py_set l (Z.of_nat i) a = Ok (list_set l i a).
Proof. intros H. unfold py_set. rewrite py_index_nat by auto. reflexivity. Qed.

Lemma list_set_length {A} (l : list A) i a : length (list_set l i a) = length l.
Proof. revert i; induction l; intros [|i]; simpl; auto. Qed.

Lemma list_set_app {A} (l1 l2 : list A) b a :
  list_set (l1 ++ b :: l2) (length l1) a = l1 ++ a :: l2.
Proof. induction l1; simpl; auto. rewrite IHl1. reflexivity. Qed.

Lemma nth_list_set_eq {A} (l : list A) i a d :
  i < length l -> nth i (list_set l i a) d = a.
Proof. revert i; induction l; intros [|i] H; simpl in *; auto; try lia. apply IHl. lia. Qed.

Lemma nth_list_set_neq {A} (l : list A) i j a d :
  i <> j -> nth j (list_set l i a) d = nth j l d.
Proof. revert i j; induction l; intros [|i] [|j] H; simpl in *; auto; try lia. Qed.

Lemma py_range_nat a n :
  py_range (Z.of_nat a) (Z.of_nat a + Z.of_nat n) = map Z.of_nat (seq a n).
Proof.
  unfold py_range. replace (Z.to_nat (Z.of_nat a + Z.of_nat n - Z.of_nat a)) with n by lia.
  revert a. induction n; intros a; simpl; auto. f_equal; [lia|].
  rewrite <- IHn. rewrite <- seq_shift, map_map. apply map_ext. intros; lia.
Qed.

Lemma py_range_length a b : length (py_range a b) = Z.to_nat (b - a).
Proof. unfold py_range. rewrite map_length, seq_length. reflexivity. Qed.

Lemma py_range_in a b z : In z (py_range a b) <-> (a <= z < b)%Z.
Proof.
  unfold py_range. rewrite in_map_iff. split.
  - intros (k & <- & H). apply in_seq in H. lia.
  - intros H. exists (Z.to_nat (z - a)). split; [lia|]. apply in_seq. lia.
Qed.

Section SortFacts.
  Context {A : Type} (leb : A -> A -> bool).
  Hypothesis leb_total : forall a b, leb a b = true \/ leb b a = true.
  Hypothesis leb_trans : forall a b c, leb a b = true -> leb b c = true -> leb a c = true.

  Let le a b := leb a b = true.

  Lemma insert_perm a l : Permutation (insert leb a l) (a :: l).
  Proof.
    induction l as [|b l IH]; simpl; auto.
    destruct (leb a b); auto. rewrite IH. apply perm_swap.
  Qed.

  Lemma isort_perm l : Permutation (isort leb l) l.
  Proof.
    induction l as [|a l IH]; simpl; auto.
    unfold isort in *; simpl. rewrite insert_perm. auto.
  Qed.

  Lemma isort_length l : length (isort leb l) = length l.
  Proof. apply Permutation_length, isort_perm. Qed.

  Lemma insert_sorted a l : StronglySorted le l -> StronglySorted le (insert leb a l).
  Proof.
    induction 1 as [|b l Hs IH Hb]; simpl.
    - repeat constructor.
    - destruct (leb a b) eqn:E.
      + constructor; [constructor; auto|]. constructor; auto.
        eapply Forall_impl; [|apply Hb]. intros c Hc. eapply leb_trans; eauto.
      + constructor; auto.
        apply (Permutation_Forall (Permutation_sym (insert_perm a l))).
        constructor; auto. destruct (leb_total b a) as [H|H]; auto. unfold le; congruence.
  Qed.

  Lemma isort_sorted l : StronglySorted le (isort leb l).
  Proof. induction l; simpl; [constructor|apply insert_sorted; auto]. Qed.

  Lemma insert_sorted_id a l :
    Forall (le a) l -> insert leb a l = a :: l.
  Proof. intros H; destruct l; simpl; auto. inversion H; subst. rewrite H2. reflexivity. Qed.

  Lemma isort_sorted_id l : StronglySorted le l -> isort leb l = l.
  Proof.
    induction 1; simpl; auto. unfold isort in *; simpl. rewrite IHStronglySorted.
    apply insert_sorted_id; auto.
  Qed.

  Lemma isort_idem l : isort leb (isort leb l) = isort leb l.
  Proof. apply isort_sorted_id, isort_sorted. Qed.

  Section Antisym.
    Hypothesis leb_antisym : forall a b, leb a b = true -> leb b a = true -> a = b.

    Lemma sorted_perm_unique l1 l2 :
      StronglySorted le l1 -> StronglySorted le l2 -> Permutation l1 l2 -> l1 = l2.
    Proof.
      intros H1; revert l2; induction H1 as [|a l1 Hs IH Ha]; intros l2 H2 P.
      - apply Permutation_nil in P. auto.
      - destruct l2 as [|b l2]; [apply Permutation_sym, Permutation_nil in P; discriminate|].
        inversion H2 as [|? ? Hs2 Hb]; subst.
        assert (a = b).
        { assert (In a (b :: l2)) by (eapply Permutation_in; [apply P|left; auto]).
          assert (In b (a :: l1)) by (eapply Permutation_in; [symmetry; apply P|left; auto]).
          destruct H as [->|H]; auto. destruct H0 as [->|H0]; auto.
          rewrite Forall_forall in Ha, Hb. apply leb_antisym; [apply Ha|apply Hb]; auto. }
        subst b. f_equal. apply IH; auto. eapply Permutation_cons_inv; eauto.
    Qed.

    Lemma isort_perm_eq l1 l2 : Permutation l1 l2 -> isort leb l1 = isort leb l2.
    Proof.
      intros P. apply sorted_perm_unique; try apply isort_sorted.
      rewrite !isort_perm. auto.
    Qed.
  End Antisym.
End SortFacts.
