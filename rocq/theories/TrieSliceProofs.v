(** Slices, deletion of slices, order of the items under deletion. *)
From Coq Require Import ZArith NArith List Bool Permutation Lia Sorted.
From Verif Require Import Py ListAux PyDict TrieSpec TrieModel TrieProofs NmdSpec IndexModel Props_Index Props_Trie.
From Verif Require Import TrieSliceModel.
Import ListNotations.

Section Order.
Context {T V : Type} `{EqDec T}.
Implicit Types n : node T V.

Definition other (ts : list T) (kv : list T * V) : bool := if eqd (fst kv) ts then false else true.

Lemma filter_true {A} (f : A -> bool) l : (forall x, In x l -> f x = true) -> filter f l = l.
Proof.
  induction l as [|a l IH]; intros E; [reflexivity|]. cbn [filter]. rewrite (E a) by (left; reflexivity). f_equal.
  apply IH. intros x I. apply E. right; exact I.
Qed.

Lemma filter_none {A} (f : A -> bool) l : (forall x, In x l -> f x = false) -> filter f l = [].
Proof.
  induction l as [|a l IH]; intros E; [reflexivity|]. cbn [filter]. rewrite (E a) by (left; reflexivity).
  apply IH. intros x I. apply E. right; exact I.
Qed.

Lemma filter_under t u ts (l : list (list T * V)) :
  filter (other (t :: ts)) (map (under u) l) = if eqd t u then map (under u) (filter (other ts) l) else map (under u) l.
Proof.
  destruct (eqd t u) as [->|N].
  - induction l as [|[us v] l IH]; [reflexivity|]. cbn [map filter].
    assert (X : other (u :: ts) (under u (us, v)) = other ts (us, v)).
    { unfold other, under. cbn [fst]. destruct (eqd (u :: us) (u :: ts)); destruct (eqd us ts); congruence. }
    rewrite X. destruct (other ts (us, v)); cbn [map]; [f_equal|]; exact IH.
  - apply filter_true. intros x I. apply in_map_iff in I. destruct I as [[us v] [<- _]]. unfold other, under. cbn [fst].
    destruct (eqd (u :: us) (t :: ts)); [congruence|reflexivity].
Qed.

Lemma paths_of_cons u c (cs : list (T * node T V)) : paths_of ((u, c) :: cs) = paths_of cs ++ map (under u) (all_paths c).
Proof. reflexivity. Qed.

Lemma filter_paths_absent t ts (cs : list (T * node T V)) : dget t cs = None -> filter (other (t :: ts)) (paths_of cs) = paths_of cs.
Proof.
  intros E. apply filter_true. intros [us v] I. apply in_paths_of in I. destruct I as (u & c & ws & I & -> & _).
  unfold other. cbn [fst]. destruct (eqd (u :: ws) (t :: ts)) as [E'|]; [|reflexivity].
  injection E' as -> ->. apply dget_None in E. exfalso. apply E. apply (in_map fst) in I. exact I.
Qed.

(** the children without one path *)
Lemma filter_paths_of t ts (cs : list (T * node T V)) c : dwf cs -> dget t cs = Some c ->
  forall c', all_paths c' = filter (other ts) (all_paths c) ->
  paths_of (dset t c' cs) = filter (other (t :: ts)) (paths_of cs) /\
  (all_paths c' = [] -> paths_of (ddel t cs) = filter (other (t :: ts)) (paths_of cs)).
Proof.
  intros W G c' E. revert W G. induction cs as [|[u d] cs IH]; intros W G; [discriminate|].
  apply NoDup_cons_iff in W. cbn [map fst] in W. fold (dkeys cs) in W. destruct W as [Nu W].
  cbn [dget] in G. cbn [dset ddel]. destruct (eqd t u) as [->|N].
  - injection G as ->. assert (A : dget u cs = None) by (apply dget_None; exact Nu).
    rewrite !paths_of_cons, filter_app, filter_paths_absent, filter_under, <- E by exact A.
    destruct (eqd u u); [|congruence]. split; [reflexivity|]. intros ->. cbn [map]. rewrite app_nil_r. reflexivity.
  - destruct (IH W G) as [I1 I2]. rewrite !paths_of_cons, filter_app, filter_under. destruct (eqd t u); [congruence|].
    split; [rewrite I1; reflexivity|]. intros E'. rewrite (I2 E'). reflexivity.
Qed.

(** removing a key leaves the others in their order *)
Lemma remove_paths ts : forall n, wf n -> live_below n -> look ts n <> None ->
  all_paths (fst (remove ts n)) = filter (other ts) (all_paths n).
Proof.
  induction ts as [|t ts IH]; intros n W L E.
  - cbn [remove fst]. unfold all_paths. rewrite filter_app, !paths_unfold. cbn [children].
    assert (X : forall l, (forall x, In x l -> fst x <> []) -> filter (other []) l = l).
    { intros l Hl. apply filter_true. intros x I. unfold other. destruct (eqd (fst x) []) as [e|]; [|reflexivity]. destruct (Hl x I e). }
    rewrite (X (paths_of (children n))).
    + f_equal. unfold own. cbn [value]. destruct (value n); reflexivity.
    + intros [us v] I. apply in_paths_of in I. destruct I as (u & c & ws & _ & -> & _). discriminate.
  - cbn [remove]. rewrite look_cons in E. destruct (dget t (children n)) as [c|] eqn:G; [|congruence].
    pose proof (wf_child _ _ _ W G) as Wc. pose proof (live_child _ _ _ L G) as Lc.
    specialize (IH c Wc (proj2 (proj1 (live_split c) Lc)) E).
    pose proof (remove_value ts c) as RV. destruct (remove ts c) as [c' r]. cbn [fst snd] in *.
    apply wf_split in W. destruct W as [W _].
    destruct (filter_paths_of t ts (children n) c W G c' IH) as [P1 P2].
    assert (O : filter (other (t :: ts)) (own n) = own n).
    { unfold own. destruct (value n); [|reflexivity]. cbn [filter]. unfold other. cbn [fst]. destruct (eqd [] (t :: ts)); [discriminate|reflexivity]. }
    destruct (r && _) eqn:B; cbn [fst].
    + apply andb_true_iff in B. destruct B as [-> B]. destruct (children c') eqn:Ec; [|discriminate].
      assert (A : all_paths c' = []).
      { unfold all_paths. rewrite paths_unfold, Ec. unfold own. rewrite RV by reflexivity. reflexivity. }
      unfold all_paths at 1. rewrite paths_unfold. cbn [children]. rewrite (P2 A).
      unfold all_paths. rewrite filter_app, O, paths_unfold. reflexivity.
    + unfold all_paths at 1. rewrite paths_unfold. cbn [children]. rewrite P1.
      unfold all_paths. rewrite filter_app, O, paths_unfold. reflexivity.
Qed.

Lemma remove_paths_below ts n : wf n -> live_below n -> look ts n <> None ->
  paths (fst (remove ts n)) = filter (other ts) (paths n).
Proof.
  intros W L E. pose proof (remove_paths ts n W L E) as A. unfold all_paths in A. rewrite filter_app in A.
  assert (X : forall m : node T V, wf m -> forall x, In x (paths m) -> fst x <> []).
  { intros m Wm [us v] I. apply in_paths in I; [|exact Wm]. apply I. }
  assert (Y : forall l, filter (fun x : list T * V => negb (other [] x)) (filter (other ts) l) = filter (other ts) (filter (fun x => negb (other [] x)) l)).
  { induction l as [|a l IHl]; [reflexivity|]. cbn [filter]. destruct (other ts a) eqn:E1; destruct (negb (other [] a)) eqn:E2; cbn [filter]; rewrite ?E1, ?E2, ?IHl; reflexivity. }
  assert (Z : forall l, filter (other []) (filter (other ts) l) = filter (other ts) (filter (other []) l)).
  { induction l as [|a l IHl]; [reflexivity|]. cbn [filter]. destruct (other ts a) eqn:E1; destruct (other [] a) eqn:E2; cbn [filter]; rewrite ?E1, ?E2, ?IHl; reflexivity. }
  apply (f_equal (filter (other []))) in A. rewrite !filter_app, !Z in A.
  assert (O : forall m : node T V, filter (other []) (own m) = []).
  { intros m. unfold own. destruct (value m); reflexivity. }
  rewrite !O in A. cbn [app filter] in A.
  assert (P : forall m : node T V, wf m -> filter (other []) (paths m) = paths m).
  { intros m Wm. apply filter_true. intros x I. unfold other. destruct (eqd (fst x) []) as [e|]; [|reflexivity]. destruct (X m Wm x I e). }
  rewrite !P in A by (try apply remove_wf; exact W). exact A.
Qed.

End Order.
