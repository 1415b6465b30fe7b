(** Proofs about the unicode normalizers. *)
From Coq Require Import NArith List Bool Arith Lia Permutation.
From Verif Require Import Num Py NmdSpec WordSetModel UniModel.
Import ListNotations.
Open Scope N_scope.

Section Uni.
Variable u : ucd.
Let nonmark c := negb (mark u c).

Lemma place_filter c acc : sound u -> filter nonmark (place u c acc) = filter nonmark (c :: acc).
Proof.
  intros Hs. induction acc as [|d acc IH]; [reflexivity|]. cbn [place].
  destruct (negb (ccc u c =? 0) && (ccc u c <? ccc u d)) eqn:E; [|reflexivity].
  apply andb_true_iff in E. destruct E as [E1 E2]. apply negb_true_iff, N.eqb_neq in E1. apply N.ltb_lt in E2.
  pose proof (s_ccc u Hs c E1) as M1. assert (M2 : mark u d = true) by (apply (s_ccc u Hs); lia).
  cbn [filter]. rewrite IH. cbn [filter]. unfold nonmark. rewrite M1, M2. reflexivity.
Qed.

Lemma fold_place_filter s : sound u -> forall acc, filter nonmark (fold_left (fun a c => place u c a) s acc) = filter nonmark (rev s ++ acc).
Proof.
  intros Hs. induction s as [|c s IH]; intros acc; [reflexivity|]. cbn [fold_left rev]. rewrite IH, filter_app, place_filter by auto.
  rewrite <- filter_app, <- app_assoc. reflexivity.
Qed.

Lemma filter_rev {A} (p : A -> bool) l : filter p (rev l) = rev (filter p l).
Proof. induction l as [|x l IH]; [reflexivity|]. cbn. rewrite filter_app, IH. cbn. destruct (p x); cbn; auto using app_nil_r. Qed.

Lemma reorder_filter s : sound u -> filter nonmark (reorder u s) = filter nonmark s.
Proof.
  intros Hs. unfold reorder. rewrite filter_rev, fold_place_filter, app_nil_r, filter_rev, rev_involutive by auto. reflexivity.
Qed.

(** What is left of one character. *)
Definition bare (c : N) : list N := filter nonmark (decomp u c).

Lemma filter_flat_map {A B} (p : B -> bool) (f : A -> list B) l : filter p (flat_map f l) = flat_map (fun x => filter p (f x)) l.
Proof. induction l as [|x l IH]; [reflexivity|]. cbn. rewrite filter_app, IH. reflexivity. Qed.

Lemma strip_bare s : sound u -> normalize_nfd_strip_marks u s = flat_map bare s.
Proof. intros Hs. unfold normalize_nfd_strip_marks, nfd. fold nonmark. rewrite reorder_filter by auto. apply filter_flat_map. Qed.

Lemma bare_mark c : sound u -> mark u c = true -> bare c = [].
Proof.
  intros Hs M. unfold bare. pose proof (fun d => s_mark u Hs c d M) as H. induction (decomp u c) as [|d l IH]; [reflexivity|].
  cbn. unfold nonmark at 1. rewrite (H d) by (left; auto). cbn. apply IH. intros e I. apply H. right. auto.
Qed.

Lemma bare_bare c d : sound u -> In d (bare c) -> bare d = [d].
Proof.
  intros Hs I. apply filter_In in I. destruct I as [I M]. unfold bare. rewrite (s_stable u Hs c d I). cbn. rewrite M. reflexivity.
Qed.

Lemma flat_map_single {A} (f : A -> list A) l : (forall x, In x l -> f x = [x]) -> flat_map f l = l.
Proof. induction l as [|x l IH]; intros H; [reflexivity|]. cbn. rewrite (H x) by (left; auto). rewrite IH by (intros; apply H; right; auto). reflexivity. Qed.

Lemma flat_map_drop {A B} (f : A -> list B) (p : A -> bool) l : (forall x, p x = true -> f x = []) ->
  flat_map f l = flat_map f (filter (fun x => negb (p x)) l).
Proof. intros H. induction l as [|x l IH]; [reflexivity|]. cbn. destruct (p x) eqn:E; cbn; rewrite IH; [rewrite (H x E)|]; reflexivity. Qed.

Lemma flat_map_flat_map {A B C} (f : A -> list B) (g : B -> list C) l : flat_map g (flat_map f l) = flat_map (fun x => flat_map g (f x)) l.
Proof. induction l as [|x l IH]; [reflexivity|]. cbn. rewrite flat_map_app, IH. reflexivity. Qed.

(** ** Reordering *)
Inductive swaps : list N -> list N -> Prop :=
| sw_refl s : swaps s s
| sw_swap x c d y : ccc u c <> 0 -> ccc u d <> 0 -> ccc u c <> ccc u d -> swaps (x ++ c :: d :: y) (x ++ d :: c :: y)
| sw_trans a b c : swaps a b -> swaps b c -> swaps a c.

Lemma swaps_sym a b : swaps a b -> swaps b a.
Proof. induction 1; [constructor|apply sw_swap; auto|eapply sw_trans; eauto]. Qed.

Lemma swaps_app_l x a b : swaps a b -> swaps (x ++ a) (x ++ b).
Proof. induction 1; [constructor|rewrite !app_assoc; apply sw_swap; auto|eapply sw_trans; eauto]. Qed.

Lemma swaps_app_r y a b : swaps a b -> swaps (a ++ y) (b ++ y).
Proof. induction 1; [constructor|rewrite <- !app_assoc; apply sw_swap; auto|eapply sw_trans; eauto]. Qed.

Lemma swaps_app a a' b b' : swaps a a' -> swaps b b' -> swaps (a ++ b) (a' ++ b').
Proof. intros H H'. eapply sw_trans; [apply swaps_app_r, H|apply swaps_app_l, H']. Qed.

Lemma place_place c d acc : ccc u c <> 0 -> ccc u d <> 0 -> ccc u c <> ccc u d -> place u d (place u c acc) = place u c (place u d acc).
Proof.
  intros Hc Hd Hn. assert (Ec : negb (ccc u c =? 0) = true) by (apply negb_true_iff, N.eqb_neq; auto).
  assert (Ed : negb (ccc u d =? 0) = true) by (apply negb_true_iff, N.eqb_neq; auto).
  assert (Cd : forall a b, negb (a =? 0) = true -> (negb (a =? 0) && (a <? b)) = (a <? b)) by (intros a b ->; reflexivity).
  induction acc as [|e acc IH].
  - cbn [place]. rewrite !Cd by auto. destruct (N.ltb_spec (ccc u d) (ccc u c)), (N.ltb_spec (ccc u c) (ccc u d)); try lia; reflexivity.
  - cbn [place]. rewrite !Cd by auto.
    destruct (N.ltb_spec (ccc u c) (ccc u e)) as [A|A], (N.ltb_spec (ccc u d) (ccc u e)) as [B|B]; cbn [place]; rewrite !Cd by auto;
      repeat match goal with |- context [?a <? ?b] => destruct (N.ltb_spec a b); try lia end; cbn [place]; rewrite ?Cd by auto;
      repeat match goal with |- context [?a <? ?b] => destruct (N.ltb_spec a b); try lia end; try reflexivity; try (f_equal; exact IH).
Qed.

Lemma swaps_reorder a b : swaps a b -> reorder u a = reorder u b.
Proof.
  unfold reorder. induction 1 as [|x c d y Hc Hd Hn|]; [reflexivity| |congruence]. f_equal. rewrite !fold_left_app. cbn [fold_left].
  rewrite place_place by auto. reflexivity.
Qed.

Lemma place_swaps c acc : swaps (rev acc ++ [c]) (rev (place u c acc)).
Proof.
  induction acc as [|d acc IH]; [constructor|]. cbn [place].
  destruct (negb (ccc u c =? 0) && (ccc u c <? ccc u d)) eqn:E; [|cbn [rev]; constructor].
  apply andb_true_iff in E. destruct E as [E1 E2]. apply negb_true_iff, N.eqb_neq in E1. apply N.ltb_lt in E2.
  cbn [rev]. rewrite <- app_assoc. cbn [app]. eapply sw_trans; [apply sw_swap; lia|].
  change (rev acc ++ [c; d]) with (rev acc ++ [c] ++ [d]). rewrite app_assoc. apply swaps_app_r, IH.
Qed.

Lemma reorder_swaps s : swaps s (reorder u s).
Proof.
  unfold reorder. enough (forall acc, swaps (rev acc ++ s) (rev (fold_left (fun a c => place u c a) s acc))) by (apply (H [])).
  induction s as [|c s IH]; intros acc; [rewrite app_nil_r; constructor|]. cbn [fold_left].
  eapply sw_trans; [|apply IH]. change (c :: s) with ([c] ++ s). rewrite app_assoc. apply swaps_app_r, place_swaps.
Qed.

Lemma reorder_eq a b : swaps a b <-> reorder u a = reorder u b.
Proof.
  split; [apply swaps_reorder|]. intros E. eapply sw_trans; [apply reorder_swaps|]. rewrite E. apply swaps_sym, reorder_swaps.
Qed.

Lemma swaps_perm a b : swaps a b -> Permutation a b.
Proof. induction 1; [reflexivity|apply Permutation_app_head, perm_swap|etransitivity; eauto]. Qed.

Lemma swaps_flat_map (f : N -> list N) a b : (forall c, In c a -> ccc u c <> 0 -> f c = [c]) -> swaps a b -> swaps (flat_map f a) (flat_map f b).
Proof.
  intros H Sw. revert H. induction Sw as [|x c d y Hc Hd Hn|a b c Sw1 IH1 Sw2 IH2]; intros H; [constructor| |].
  - rewrite !flat_map_app. cbn [flat_map]. rewrite (H c), (H d); auto; try (apply in_app_iff; right; cbn; auto). cbn [app]. apply sw_swap; auto.
  - eapply sw_trans; [apply IH1, H|]. apply IH2. intros e I. apply H. apply (Permutation_in e (Permutation_sym (swaps_perm _ _ Sw1))). exact I.
Qed.

(** Folding before or after decomposing. *)
Lemma nfd_casefold s : sound u -> (forall c, In c (nfd u s) -> ccc u c <> 0 -> fold u c = [c]) ->
  nfd u (uni_casefold u s) = nfd u (uni_casefold u (nfd u s)).
Proof.
  intros Hs H. unfold nfd at 1 2. apply reorder_eq. unfold uni_casefold. rewrite !flat_map_flat_map.
  set (df := fun x => flat_map (decomp u) (fold u x)).
  apply sw_trans with (flat_map df (flat_map (decomp u) s)).
  - rewrite flat_map_flat_map. clear H. induction s as [|c s IH]; [constructor|]. cbn [flat_map]. apply swaps_app; auto.
    pose proof (s_fold u Hs c) as E. apply reorder_eq in E. unfold uni_casefold in E. rewrite flat_map_flat_map in E. exact E.
  - apply swaps_flat_map; [|apply reorder_swaps]. intros c I Hc. unfold df.
    assert (In c (nfd u s)) as I' by (eapply Permutation_in; [apply swaps_perm, reorder_swaps|exact I]).
    rewrite (H c I' Hc). cbn. rewrite app_nil_r. apply in_flat_map in I. destruct I as (e & _ & I). apply (s_stable u Hs e c I).
Qed.

End Uni.

(** ** The excerpt *)
Definition leqb (a b : list N) : bool := if list_eq_dec N.eq_dec a b then true else false.
Lemma leqb_eq a b : leqb a b = true -> a = b.
Proof. unfold leqb. destruct (list_eq_dec N.eq_dec a b); congruence. Qed.

Definition check_rows (rows : list row) (u : ucd) : bool :=
  forallb (fun r => let c := r_code r in
    ((ccc u c =? 0) || mark u c) && forallb (fun d => leqb (decomp u d) [d]) (decomp u c) &&
    (negb (mark u c) || forallb (mark u) (decomp u c)) && leqb (nfd u (fold u c)) (nfd u (uni_casefold u (decomp u c)))) rows.

Lemma check_sound rows pairs : check_rows rows (tables rows pairs) = true -> sound (tables rows pairs).
Proof.
  intros H. unfold check_rows in H. rewrite forallb_forall in H. set (u := tables rows pairs) in *.
  assert (K : forall c, (exists r, In r rows /\ c = r_code r) \/
    (ccc u c = 0 /\ mark u c = false /\ decomp u c = [c] /\ fold u c = [c])).
  { intros c. destruct (find (fun r => r_code r =? c) rows) as [r|] eqn:E.
    - apply find_some in E. destruct E as [I E]. apply N.eqb_eq in E. left. eauto.
    - right. unfold u. cbn. unfold row_of. rewrite E. cbn. auto. }
  split.
  - intros c Hc. destruct (K c) as [(r & I & ->)|(E & _)]; [|congruence]. specialize (H r I). cbv zeta in H.
    apply andb_true_iff in H. destruct H as [H _]. apply andb_true_iff in H. destruct H as [H _]. apply andb_true_iff in H. destruct H as [H _].
    apply orb_true_iff in H. destruct H as [H|H]; auto. apply N.eqb_eq in H. congruence.
  - intros c d I. destruct (K c) as [(r & Ir & ->)|(_ & _ & E & _)].
    + specialize (H r Ir). cbv zeta in H.
      apply andb_true_iff in H. destruct H as [H _]. apply andb_true_iff in H. destruct H as [H _]. apply andb_true_iff in H. destruct H as [_ H].
      rewrite forallb_forall in H. apply leqb_eq, H, I.
    + rewrite E in I. destruct I as [<-|[]]. exact E.
  - intros c d M I. destruct (K c) as [(r & Ir & ->)|(_ & E & _)]; [|congruence].
    specialize (H r Ir). cbv zeta in H. apply andb_true_iff in H. destruct H as [H _]. apply andb_true_iff in H. destruct H as [_ H].
    rewrite M in H. cbn in H. rewrite forallb_forall in H. apply H, I.
  - intros c. destruct (K c) as [(r & Ir & ->)|(_ & _ & E & F)].
    + specialize (H r Ir). cbv zeta in H. apply andb_true_iff in H. destruct H as [_ H]. apply leqb_eq, H.
    + rewrite E, F. unfold uni_casefold. cbn [flat_map]. rewrite F. reflexivity.
Qed.

Lemma excerpt_sound : sound excerpt.
Proof. apply check_sound. vm_compute. reflexivity. Qed.
