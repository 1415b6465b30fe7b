(** Property C107: the sizes measured by experiments/sizeof.py. *)
From Coq Require Import ZArith NArith List Bool Lia Permutation String.
From Verif Require Import Py PyDict NmdSpec Ex.
From Verif Require Import SizeofModel SizeofProofs.
Import ListNotations.
Open Scope Z_scope.

Definition quiet (heap : nat -> pyobj) (root : nat) : Prop :=
  forall x e, reach heap root x -> ~ raises (heap x) e.

Definition lists (R : list nat) (P : nat -> Prop) : Prop := NoDup R /\ forall x, In x R <-> P x.

(** Every object that can be reached is counted exactly once, however often
    and in whatever order it is met and whether or not it contains itself. *)
Theorem deep_sizeof_sum heap root R own fuel :
  lists R (reach heap root) -> quiet heap root ->
  (forall x, In x R -> counts (heap x) (own x)) ->
  (List.length R < fuel)%nat ->
  deep_sizeof heap fuel root = Ok (Some (total (map own R))).
Proof.
  intros [ND HR] Q Own F. unfold deep_sizeof. pose proof (inv_start heap root) as I.
  destruct (size_loop heap fuel [] [(root, root)]) as [[v|]|e] eqn:E.
  - destruct (loop_end heap root fuel _ _ _ I E) as [sizes [I' ->]]. f_equal. f_equal.
    pose proof (inv_done heap root sizes I') as D.
    assert (Permutation (dkeys sizes) R).
    { apply NoDup_Permutation; [apply (i_sizes _ _ _ _ I')|exact ND|]. intros x. rewrite D, HR. tauto. }
    rewrite <- (total_perm _ _ (Permutation_map own H)). f_equal. unfold dvals, dkeys. rewrite map_map.
    apply map_ext_in. intros [k n] J. simpl. apply counts_fun with (heap k).
    + exact (i_counts _ _ _ _ I' k n J).
    + apply Own. apply HR, D. unfold dkeys. apply (in_map fst) in J. exact J.
  - exfalso. apply (loop_finish heap root R (fun x H => proj2 (HR x) H) fuel [] [(root, root)] I); [simpl; lia|exact E].
  - exfalso. destruct (loop_raises heap root fuel _ _ _ I E) as [x [A B]]. exact (Q x e A B).
Qed.

(** A result is always such a sum. *)
Theorem deep_sizeof_sound heap root fuel v :
  deep_sizeof heap fuel root = Ok (Some v) ->
  quiet heap root /\
  exists R own, lists R (reach heap root) /\ (forall x, In x R -> counts (heap x) (own x)) /\ v = total (map own R).
Proof.
  intros E. destruct (loop_end heap root fuel _ _ _ (inv_start heap root) E) as [sizes [I ->]].
  pose proof (inv_done heap root sizes I) as D. split.
  - intros x e R. apply (i_quiet _ _ _ _ I). apply D, R.
  - pose proof (i_sizes _ _ _ _ I) as W.
    exists (dkeys sizes), (fun x => match dget x sizes with Some n => n | None => 0 end). split; [split; [exact W|exact D]|]. split.
    + intros x J. destruct (dget x sizes) as [n|] eqn:G.
      * apply (i_counts _ _ _ _ I). apply dget_In. exact G.
      * apply dget_None in G. contradiction.
    + f_equal. unfold dvals, dkeys. rewrite map_map. apply map_ext_in. intros [k n] J. simpl.
      rewrite (In_dget _ _ _ W J). reflexivity.
Qed.

(** Everything counts for something, so a finite, quiet graph always has a size. *)
Lemma counts_total o : exists n, counts o n.
Proof.
  destruct (nbytes o) as [n|] eqn:E; [exists n; left; left; exact E|].
  destruct (memory o) as [[[n|]|e]|] eqn:M.
  - exists n. left. right. split; assumption.
  - exists (getsizeof o). right. split; [|reflexivity]. intros m [A|[_ A]]; congruence.
  - exists (getsizeof o). right. split; [|reflexivity]. intros m [A|[_ A]]; congruence.
  - exists (getsizeof o). right. split; [|reflexivity]. intros m [A|[_ A]]; congruence.
Qed.

Lemma own_exists (heap : nat -> pyobj) (R : list nat) : exists own, forall x, In x R -> counts (heap x) (own x).
Proof.
  induction R as [|a R [own IH]]; [exists (fun _ => 0); intros x []|].
  destruct (counts_total (heap a)) as [n C].
  exists (fun x => if Nat.eq_dec x a then n else own x). intros x [<-|J].
  - destruct (Nat.eq_dec a a); [exact C|contradiction].
  - destruct (Nat.eq_dec x a) as [->|]; [exact C|apply IH, J].
Qed.

(** It returns exactly when finitely many objects can be reached and none of
    them raises. *)
Theorem deep_sizeof_returns heap root :
  (exists fuel v, deep_sizeof heap fuel root = Ok (Some v)) <->
  ((exists R, lists R (reach heap root)) /\ quiet heap root).
Proof.
  split.
  - intros [fuel [v E]]. destruct (deep_sizeof_sound _ _ _ _ E) as [Q [R [own [L _]]]]. split; [exists R; exact L|exact Q].
  - intros [[R L] Q]. destruct (own_exists heap R) as [own C].
    exists (S (List.length R)). eexists. apply deep_sizeof_sum with (own := own); [exact L|exact Q|exact C|lia].
Qed.

(** If it raises, a reachable object raises that. *)
Theorem deep_sizeof_error heap root fuel e :
  deep_sizeof heap fuel root = Err e -> exists x, reach heap root x /\ raises (heap x) e.
Proof. apply loop_raises, inv_start. Qed.

(** In a finite graph one object that raises is enough for the whole to raise. *)
Theorem deep_sizeof_error_finite heap root R x e :
  lists R (reach heap root) -> reach heap root x -> raises (heap x) e ->
  exists e', forall fuel, (List.length R < fuel)%nat -> deep_sizeof heap fuel root = Err e'.
Proof.
  intros L A B.
  assert (F : forall fuel, (List.length R < fuel)%nat -> exists e', deep_sizeof heap fuel root = Err e').
  { intros fuel F. destruct (deep_sizeof heap fuel root) as [[v|]|e'] eqn:E; [| |exists e'; reflexivity].
    - exfalso. apply deep_sizeof_sound in E. destruct E as [Q _]. exact (Q x e A B).
    - exfalso. revert E. apply (loop_finish heap root R (fun y H => proj2 (proj2 L y) H) fuel); [apply inv_start|simpl; lia]. }
  assert (More : forall n s t e', size_loop heap n s t = Err e' -> forall m, (n <= m)%nat -> size_loop heap m s t = Err e').
  { clear. induction n as [|n IH]; intros s t e' E m Hm; [discriminate|]. destruct m as [|m]; [lia|]. assert (n <= m)%nat by lia.
    simpl in *. destruct (popitem t) as [[[k v] s1]|]; [|discriminate].
    destruct (dmem k s); [eauto|]. destruct (nbytes (heap v)); [eauto|].
    destruct (memory_usage (heap v)) as [[q|]|]; simpl in *; [eauto| |congruence].
    destruct (recurse _ _ _); simpl in *; [eauto|congruence]. }
  destruct (F (S (List.length R)) ltac:(lia)) as [e' E]. exists e'. intros fuel Hf. apply (More _ _ _ _ E). lia.
Qed.

(** If infinitely many objects can be reached and none raises it never ends. *)
Theorem deep_sizeof_never heap root :
  quiet heap root -> (~ exists R, lists R (reach heap root)) ->
  forall fuel, deep_sizeof heap fuel root = Ok None.
Proof.
  intros Q N fuel. destruct (deep_sizeof heap fuel root) as [[v|]|e] eqn:E; [|reflexivity|].
  - exfalso. apply N. destruct (deep_sizeof_sound _ _ _ _ E) as [_ [R [own [L _]]]]. exists R; exact L.
  - exfalso. destruct (deep_sizeof_error _ _ _ _ E) as [x [A B]]. exact (Q x e A B).
Qed.

Lemma reach_trans heap a b c : reach heap a b -> reach heap b c -> reach heap a c.
Proof. intros A; induction 1; [exact A|]. eapply reach_step; eassumption. Qed.

Lemma total_incl own (L : list nat) : forall M, NoDup M -> (forall x, In x M -> In x L) -> NoDup L ->
  (forall x, In x L -> 0 <= own x) -> total (map own M) <= total (map own L).
Proof.
  induction L as [|a L IH]; intros M NM I NL P.
  - destruct M as [|m M]; [simpl; lia|]. destruct (I m (or_introl eq_refl)).
  - apply NoDup_cons_iff in NL. destruct NL as [Na NL].
    assert (P' : forall x, In x L -> 0 <= own x) by (intros x J; apply P; right; exact J).
    destruct (in_dec Nat.eq_dec a M) as [J|J].
    + apply in_split in J. destruct J as [M1 [M2 ->]].
      assert (E : total (map own (M1 ++ a :: M2)) = own a + total (map own (M1 ++ M2))).
      { rewrite !map_app, !total_app. simpl. lia. }
      rewrite E. simpl. apply Zplus_le_compat_l. apply IH; [eapply NoDup_remove_1; exact NM| |exact NL|exact P'].
      intros x J. assert (J' : In x (M1 ++ a :: M2)) by (apply in_app_iff in J; apply in_or_app; simpl; tauto).
      destruct (I x J') as [<-|K]; [|exact K]. exfalso. apply NoDup_remove_2 in NM. contradiction.
    + simpl. assert (total (map own M) <= total (map own L)).
      { apply IH; [exact NM| |exact NL|exact P']. intros x K. destruct (I x K) as [<-|K']; [contradiction|exact K']. }
      pose proof (P a (or_introl eq_refl)). lia.
Qed.

(** A part is never bigger than a whole it can be reached from. *)
Theorem deep_sizeof_part heap root part fuel v :
  deep_sizeof heap fuel root = Ok (Some v) -> reach heap root part ->
  (forall x n, reach heap root x -> counts (heap x) n -> 0 <= n) ->
  exists v', deep_sizeof heap fuel part = Ok (Some v') /\ v' <= v.
Proof.
  intros E A P. destruct (deep_sizeof_sound _ _ _ _ E) as [Q [R [own [[ND HR] [C ->]]]]].
  assert (Qp : quiet heap part) by (intros x e X; apply Q; eapply reach_trans; eassumption).
  assert (Lp : exists M, lists M (reach heap part) /\ (List.length M <= List.length R)%nat).
  { destruct (deep_sizeof heap (S (List.length R)) part) as [[v|]|e] eqn:F.
    - destruct (deep_sizeof_sound _ _ _ _ F) as [_ [M [own' [L _]]]]. exists M. split; [exact L|].
      apply NoDup_incl_length; [apply L|]. intros x J. apply HR. apply reach_trans with part; [exact A|]. apply L, J.
    - exfalso. revert F. apply (loop_finish heap part R); [|apply inv_start|simpl; lia].
      intros x X. apply HR. eapply reach_trans; eassumption.
    - exfalso. destruct (deep_sizeof_error _ _ _ _ F) as [x [X Y]]. exact (Qp x e X Y). }
  destruct Lp as [M [[NM HM] Len]].
  assert (Sub : forall x, In x M -> In x R).
  { intros x J. apply HR. apply reach_trans with part; [exact A|]. apply HM, J. }
  assert (Own : forall x, In x M -> counts (heap x) (own x)) by (intros x J; apply C, Sub, J).
  exists (total (map own M)). split.
  - destruct (Nat.lt_ge_cases (List.length M) fuel) as [Hf|Hf].
    + apply deep_sizeof_sum; [split; assumption|assumption|assumption|assumption].
    + exfalso. (* [fuel] was enough for the whole *)
      assert (Few : forall f s t, inv heap root s t -> (f + List.length (dkeys s) <= List.length R)%nat -> forall w, size_loop heap f s t <> Ok (Some w)).
      { clear - HR ND. induction f as [|f IH]; intros s t I L w E; [discriminate|].
        destruct (loop_step heap root f _ _ I) as [[-> B]|[[x [e' [_ [_ B]]]]|[s1 [t1 [I1 [N B]]]]]]; rewrite B in E; [|discriminate|].
        - pose proof (inv_done heap root s I) as D.
          assert (List.length R <= List.length (dkeys s))%nat; [|lia].
          apply NoDup_incl_length; [exact ND|]. intros x J. apply D, HR, J.
        - revert E. apply IH; [exact I1|lia]. }
      apply (Few fuel [] [(root, root)] (inv_start heap root)) in E; [exact E|]. simpl. lia.
  - apply total_incl; [exact NM|exact Sub|exact ND|]. intros x J. apply (P x); [apply HR, J|apply C, J].
Qed.

(** Two objects that can be reached from each other have the same size. *)
Theorem deep_sizeof_cycle heap a b fuel v :
  reach heap a b -> reach heap b a ->
  deep_sizeof heap fuel a = Ok (Some v) -> exists fuel', deep_sizeof heap fuel' b = Ok (Some v).
Proof.
  intros AB BA E. destruct (deep_sizeof_sound _ _ _ _ E) as [Q [R [own [[ND HR] [C ->]]]]].
  exists (S (List.length R)). apply deep_sizeof_sum.
  - split; [exact ND|]. intros x. rewrite HR. split; intros X; eapply reach_trans; eassumption.
  - intros x e X. apply Q. eapply reach_trans; eassumption.
  - exact C.
  - lia.
Qed.

(** Only what objects count for and refer to matters: not the order of keys,
    elements and attributes, nor the way (mapping, iteration, [__dict__],
    slots, attributes) or how often an object is held. *)
Theorem deep_sizeof_same heap heap' root fuel v :
  (forall x n, counts (heap x) n <-> counts (heap' x) n) ->
  (forall x y, refers (heap x) y <-> refers (heap' x) y) ->
  (forall x e, raises (heap x) e <-> raises (heap' x) e) ->
  deep_sizeof heap fuel root = Ok (Some v) -> exists fuel', deep_sizeof heap' fuel' root = Ok (Some v).
Proof.
  intros Hc Hr He E. destruct (deep_sizeof_sound _ _ _ _ E) as [Q [R [own [[ND HR] [C ->]]]]].
  assert (S : forall x, reach heap root x <-> reach heap' root x).
  { intros x. split; induction 1 as [|x y X IH Y]; try constructor; apply reach_step with x; try assumption; apply Hr; exact Y. }
  exists (Datatypes.S (List.length R)). apply deep_sizeof_sum.
  - split; [exact ND|]. intros x. rewrite HR. apply S.
  - intros x e X Y. apply (Q x e); [apply S, X|apply He, Y].
  - intros x J. apply Hc, C, J.
  - lia.
Qed.

(** ** Cases *)

Definition plain (n : Z) : pyobj :=
  {| nbytes := None; memory := None; getsizeof := n; flat := true; mapping := None; elements := None;
     attr_dict := ([], []); slots := []; attrs := [] |}.
Definition pylist (n : Z) (l : list nat) : pyobj :=
  {| nbytes := None; memory := None; getsizeof := n; flat := false; mapping := None; elements := Some l;
     attr_dict := ([], []); slots := []; attrs := [(w_ "__len__", false, Ok 5%nat); (w_ "append", true, Ok 6%nat)] |}.
Definition array (n : Z) : pyobj :=
  {| nbytes := Some n; memory := None; getsizeof := 999; flat := false; mapping := None; elements := Some [0; 0; 7]%nat;
     attr_dict := ([], []); slots := []; attrs := [(w_ "T", false, Ok 7%nat)] |}.
(** an instance with a dict and a slot *)
Definition instance (n : Z) (ks vs ss : list nat) : pyobj :=
  {| nbytes := None; memory := Some (Err TypeError); getsizeof := n; flat := false; mapping := None; elements := None;
     attr_dict := (ks, vs); slots := ss; attrs := [(w_ "_x", false, Ok 3%nat)] |}.

(** [a = [s, a, b]; b = [s, array]]; [c = Inst()], with [c.s = a] *)
Definition some_heap (x : nat) : pyobj :=
  match x with
  | 0 => pylist 80 [3; 0; 1; 3]
  | 1 => pylist 70 [3; 2]
  | 2 => array 160
  | 3 => plain 50
  | 4 => instance 48 [3] [0] [1]
  | _ => plain 1000
  end%nat.

Example sizeof_lists : deep_sizeof some_heap 10 0 = Ok (Some (80 + 70 + 160 + 50)).
Proof. vm_compute. reflexivity. Qed.
Example sizeof_instance : deep_sizeof some_heap 10 4 = Ok (Some (48 + 80 + 70 + 160 + 50)).
Proof. vm_compute. reflexivity. Qed.

Lemma some_heap_lists : lists [0; 1; 2; 3]%nat (reach some_heap 0) /\ quiet some_heap 0.
Proof.
  assert (E : deep_sizeof some_heap 10 0 = Ok (Some 360)) by (vm_compute; reflexivity).
  destruct (deep_sizeof_sound _ _ _ _ E) as [Q _]. split; [|exact Q]. split.
  - repeat constructor; simpl; intuition discriminate.
  - assert (NL : forall n l m, ~ reports (pylist n l) m) by (intros n l m [A|[_ A]]; discriminate).
    assert (St : forall x, reach some_heap 0 x -> (x <= 3)%nat).
    { induction 1 as [|x y _ IH [R [F H]]]; [lia|]. destruct x as [|[|[|[|x]]]]; [| | | |lia]; simpl in *.
      - destruct H; simpl in *; try discriminate; try contradiction.
        + injection H as <-. simpl in *. lia.
        + destruct H as [H|[H|[]]]; [|discriminate]. injection H as <- <-. exfalso. apply H0. left. eexists. reflexivity.
      - destruct H; simpl in *; try discriminate; try contradiction.
        + injection H as <-. simpl in *. lia.
        + destruct H as [H|[H|[]]]; [|discriminate]. injection H as <- <-. exfalso. apply H0. left. eexists. reflexivity.
      - exfalso. apply (R 160). left. reflexivity.
      - discriminate. }
    intros x. split.
    + assert (R1 : reach some_heap 0 1).
      { apply reach_step with 0%nat; [constructor|]. split; [apply NL|]. split; [reflexivity|]. eapply h_element; [reflexivity|]. simpl. tauto. }
      intros [<-|[<-|[<-|[<-|[]]]]]; [constructor|exact R1| |];
        (apply reach_step with 1%nat; [exact R1|]; split; [apply NL|]; split; [reflexivity|]; eapply h_element; [reflexivity|]; simpl; tauto).
    + intros X. apply St in X. simpl. lia.
Qed.

Example sizeof_sum_used fuel : (4 < fuel)%nat -> deep_sizeof some_heap fuel 0 = Ok (Some 360).
Proof.
  intros F. destruct some_heap_lists as [L Q].
  rewrite (deep_sizeof_sum some_heap 0 _ (fun x => match x with 0%nat => 80 | 1%nat => 70 | 2%nat => 160 | _ => 50 end) fuel L Q); [reflexivity| |simpl; lia].
  intros x [<-|[<-|[<-|[<-|[]]]]].
  - right. split; [intros m [A|[_ A]]; discriminate|reflexivity].
  - right. split; [intros m [A|[_ A]]; discriminate|reflexivity].
  - left. left. reflexivity.
  - right. split; [intros m [A|[_ A]]; discriminate|reflexivity].
Qed.

(** an object whose attribute [T] is a fresh object of the same kind, for ever *)
Definition transposes (x : nat) : pyobj :=
  {| nbytes := None; memory := None; getsizeof := 100; flat := false; mapping := None; elements := None;
     attr_dict := ([], []); slots := []; attrs := [(w_ "T", false, Ok (S x))] |}.

Example sizeof_transposes fuel : deep_sizeof transposes fuel 0 = Ok None.
Proof.
  apply deep_sizeof_never.
  - intros x e _ [A B C|n A F [I|[]] U]; discriminate.
  - intros [R [_ HR]].
    assert (A : forall n, In n R).
    { induction n as [|n IH]; [apply HR; constructor|]. apply HR in IH. apply HR. apply reach_step with n; [exact IH|].
      split; [intros m [A|[_ A]]; discriminate|]. split; [reflexivity|]. apply h_attr with (w_ "T"); [left; reflexivity|].
      intros [[r A]|[r A]]; [discriminate|]. destruct r as [|a [|b r]]; discriminate. }
    assert (B : forall n, In n R -> (n <= fold_right Nat.max 0 R)%nat).
    { clear. induction R as [|a R IH]; intros n I; [destruct I|]. destruct I as [->|I]; simpl; [lia|]. specialize (IH n I). lia. }
    specialize (B _ (A (S (fold_right Nat.max 0%nat R)))). lia.
Qed.

(** an attribute that raises: [some_heap] with a broken [s] *)
Definition broken_heap (x : nat) : pyobj :=
  match x with
  | 3 => {| nbytes := None; memory := None; getsizeof := 50; flat := false; mapping := None; elements := None;
            attr_dict := ([], []); slots := []; attrs := [(w_ "value", false, Err ValueError)] |}
  | _ => some_heap x
  end%nat.
Example sizeof_broken : deep_sizeof broken_heap 10 4 = Err ValueError.
Proof. vm_compute. reflexivity. Qed.

(** Sizes do not add up: the list [[b, b']] of two lists that share a string is
    smaller than its own size and those of its parts together. *)
Theorem deep_sizeof_additive_refuted :
  exists heap root a b va vb v,
    elements (heap root) = Some [a; b] /\ a <> b /\
    (forall x n, counts (heap x) n -> 0 <= n) /\
    deep_sizeof heap 10 a = Ok (Some va) /\ deep_sizeof heap 10 b = Ok (Some vb) /\
    deep_sizeof heap 10 root = Ok (Some v) /\ v < getsizeof (heap root) + va + vb.
Proof.
  exists (fun x => match x with 0%nat => pylist 72 [1; 2]%nat | 1%nat => pylist 64 [3]%nat | 2%nat => pylist 64 [3]%nat | _ => plain 50 end), 0%nat, 1%nat, 2%nat, 114, 114, 250.
  split; [reflexivity|]. split; [discriminate|]. split; [|repeat (split; [vm_compute; reflexivity|]); vm_compute; reflexivity].
  intros x n [[A|[_ A]]|[_ ->]]; destruct x as [|[|[|x]]]; try discriminate; simpl; lia.
Qed.

(** Objects that say how big they are ([nbytes]) are not entered: what they
    hold is missing from the size (an array of objects). *)
Theorem deep_sizeof_contents_refuted :
  exists heap root x v, elements (heap root) = Some [x] /\ getsizeof (heap x) > 0 /\
    deep_sizeof heap 10 root = Ok (Some v) /\ v < getsizeof (heap x).
Proof.
  exists (fun x => match x with
    | 0%nat => {| nbytes := Some 8; memory := None; getsizeof := 120; flat := false; mapping := None; elements := Some [1%nat];
              attr_dict := ([], []); slots := []; attrs := [] |}
    | _ => plain 5000 end), 0%nat, 1%nat, 8.
  split; [reflexivity|]. split; [reflexivity|]. split; vm_compute; reflexivity.
Qed.

Print Assumptions deep_sizeof_sum.
Print Assumptions deep_sizeof_sound.
Print Assumptions deep_sizeof_returns.
Print Assumptions deep_sizeof_error.
Print Assumptions deep_sizeof_error_finite.
Print Assumptions deep_sizeof_never.
Print Assumptions deep_sizeof_part.
Print Assumptions deep_sizeof_cycle.
Print Assumptions deep_sizeof_same.
Print Assumptions deep_sizeof_additive_refuted.
Print Assumptions deep_sizeof_contents_refuted.
