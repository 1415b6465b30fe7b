(** The two counting loops of [__lookup_similarity], computed. *)
From Coq Require Import ZArith NArith QArith Qcanon List Bool Permutation Lia Sorted.
From Verif Require Import Num Py ListAux PyDict Float64 EmdSpec EmdModel EmdProofs EmdFloatProofs
  NmdSpec NmdModel NmdProofs NmdFloatProofs IndexSpec IndexModel IndexProofs.
Import ListNotations.
Open Scope Qc_scope.

(** ** [foldM] *)

Lemma foldM_flat_map {A B S} (f : S -> B -> result S) (g : A -> list B) l : forall s,
  foldM f (flat_map g l) s = foldM (fun s a => foldM f (g a) s) l s.
Proof.
  induction l as [|a l IH]; intros s; simpl; auto. rewrite foldM_app.
  destruct (foldM f (g a) s); simpl; auto.
Qed.

Lemma foldM_map {A B S} (f : S -> B -> result S) (g : A -> B) l : forall s,
  foldM f (map g l) s = foldM (fun s a => f s (g a)) l s.
Proof. induction l as [|a l IH]; intros s; simpl; auto. destruct (f s (g a)); simpl; auto. Qed.

Lemma foldM_ext_inv {A S} (P : S -> Prop) (f g : S -> A -> result S) l : forall s,
  P s -> (forall s a, In a l -> P s -> f s a = g s a) ->
  (forall s a s', In a l -> P s -> g s a = Ok s' -> P s') -> foldM f l s = foldM g l s.
Proof.
  induction l as [|a l IH]; intros s Ps E Pr; simpl; auto.
  rewrite E by (auto; left; auto). destruct (g s a) as [s'|e] eqn:G; simpl; auto.
  apply IH.
  - eapply Pr; eauto. left; auto.
  - intros. apply E; auto. right; auto.
  - intros. eapply Pr; eauto. right; auto.
Qed.

Lemma foldM_inv {A S} (P : S -> Prop) (f : S -> A -> result S) l : forall s s',
  P s -> (forall s a s', In a l -> P s -> f s a = Ok s' -> P s') -> foldM f l s = Ok s' -> P s'.
Proof.
  induction l as [|a l IH]; intros s s' Ps Pr H; simpl in H.
  - congruence.
  - apply bind_ok in H. destruct H as (s1 & H1 & H2). eapply IH; [| |exact H2].
    + eapply Pr; eauto. left; auto.
    + intros. eapply Pr; eauto. right; auto.
Qed.

(** A loop stops at the first bad element when the others go through. *)
Lemma foldM_first_bad {A S} (P : S -> Prop) (bad : A -> Prop) (f : S -> A -> result S) e l : forall s,
  P s -> (forall a, In a l -> bad a \/ ~ bad a) ->
  (forall s a, In a l -> P s -> bad a -> f s a = Err e) ->
  (forall s a, In a l -> P s -> ~ bad a -> exists s', f s a = Ok s' /\ P s') ->
  (exists a, In a l /\ bad a) -> foldM f l s = Err e.
Proof.
  induction l as [|a l IH]; intros s Ps D B G (b & Hb & Bb); [contradiction|]. simpl.
  destruct (D a (or_introl eq_refl)) as [Ba|Na].
  - rewrite B; auto. left; auto.
  - destruct (G s a (or_introl eq_refl) Ps Na) as (s' & -> & Ps'). simpl. apply IH; auto.
    + intros; apply D; right; auto.
    + intros; apply B; auto; right; auto.
    + intros; apply G; auto; right; auto.
    + exists b. split; auto. destruct Hb as [->|Hb]; auto. contradiction.
Qed.

(** ** Events: update component [k] of the scores of word [i] *)

Definition event : Type := nat * nat * (Qc -> result Qc).

Definition ev_step (N : nat) (allowed : nat -> bool) (d : dict nat (list Qc)) (e : event) : result (dict nat (list Qc)) :=
  let '(i, k, F) := e in
  if allowed i then
    let d := if dmem i d then d else dset i (repeat 0 N) d in
    v <- F (nth k (dgetl i d) 0) ;;
    Ok (dset i (list_set (dgetl i d) k v) d)
  else Ok d.

Definition sel (i k : nat) (evs : list event) : list (Qc -> result Qc) :=
  flat_map (fun e => if Nat.eqb (fst (fst e)) i && Nat.eqb (snd (fst e)) k then [snd e] else []) evs.

Definition appl (v : Qc) (F : Qc -> result Qc) : result Qc := F v.

Lemma sel_app i k a b : sel i k (a ++ b) = sel i k a ++ sel i k b.
Proof. unfold sel. apply flat_map_app. Qed.

Definition shaped (N : nat) (d : dict nat (list Qc)) : Prop := forall i l, dget i d = Some l -> length l = N.

Lemma shaped_dset N i l d : shaped N d -> length l = N -> shaped N (dset i l d).
Proof.
  intros H E j m Hj. destruct (Nat.eq_dec j i) as [->|Nj].
  - rewrite dget_dset_eq in Hj. congruence.
  - rewrite dget_dset_neq in Hj by auto. eauto.
Qed.

Lemma shaped_default N i d : shaped N d -> shaped N (if dmem i d then d else dset i (repeat 0 N) d).
Proof. intros H. destruct (dmem i d); auto. apply shaped_dset; auto. apply repeat_length. Qed.

Lemma default_get N i d : shaped N d ->
  let d' := if dmem i d then d else dset i (repeat 0 N) d in
  dget i d' = Some (dgetl i d') /\ length (dgetl i d') = N.
Proof.
  intros H d'. pose proof (shaped_default N i d H) as H'. fold d' in H'.
  assert (E : exists l, dget i d' = Some l).
  { unfold d', dmem. destruct (dget i d) eqn:E; eauto. rewrite dget_dset_eq. eauto. }
  destruct E as [l E]. unfold dgetl. rewrite E. split; auto. eapply H'; eauto.
Qed.

Lemma ev_step_shaped N allowed d e d' : shaped N d -> ev_step N allowed d e = Ok d' -> shaped N d'.
Proof.
  destruct e as [[i k] F]. unfold ev_step. intros H E. destruct (allowed i); [|injection E as <-; auto].
  apply bind_ok in E. destruct E as (v & _ & E). injection E as <-.
  apply shaped_dset; [apply shaped_default; auto|]. rewrite list_set_length. apply default_get; auto.
Qed.

Lemma loop_events N allowed evs :
  (forall i k F, In (i, k, F) evs -> (k < N)%nat) ->
  (forall i k, allowed i = true -> exists v, foldM appl (sel i k evs) 0 = Ok v) ->
  exists d, foldM (ev_step N allowed) evs [] = Ok d /\ dwf d /\
    (forall i, In i (dkeys d) <-> allowed i = true /\ exists k F, In (i, k, F) evs) /\
    (forall i l, dget i d = Some l -> length l = N /\
       forall k, (k < N)%nat -> foldM appl (sel i k evs) 0 = Ok (nth k l 0)).
Proof.
  induction evs as [|[[i0 k0] F0] evs IH] using rev_ind; intros HN HV.
  - exists []. split; [reflexivity|]. split; [constructor|]. split; [|discriminate].
    intros i. simpl. split; [tauto|]. intros (_ & k & F & []).
  - destruct IH as (d & Ed & Wd & Kd & Vd).
    { intros i k F H. apply (HN i k F). apply in_app_iff. auto. }
    { intros i k A. destruct (HV i k A) as [v H]. rewrite sel_app, foldM_app in H.
      apply bind_ok in H. destruct H as (u & H & _). eauto. }
    assert (K0 : (k0 < N)%nat) by (apply (HN i0 k0 F0); apply in_app_iff; right; left; auto).
    rewrite foldM_app, Ed. cbn [bind foldM]. unfold ev_step.
    destruct (allowed i0) eqn:A.
    + assert (Sh : shaped N d) by (intros i l H; apply (Vd i l H)).
      set (d1 := if dmem i0 d then d else dset i0 (repeat 0 N) d).
      destruct (default_get N i0 d Sh) as [G1 G2]. fold d1 in G1, G2.
      assert (W1 : dwf d1) by (unfold d1; destruct (dmem i0 d); auto; apply dset_wf; auto).
      assert (Cur : forall k, (k < N)%nat -> foldM appl (sel i0 k evs) 0 = Ok (nth k (dgetl i0 d1) 0)).
      { intros k Hk. unfold d1, dmem in *. destruct (dget i0 d) as [l|] eqn:El.
        - unfold dgetl. rewrite El. apply (Vd i0 l El); auto.
        - assert (Sn : sel i0 k evs = []).
          { destruct (sel i0 k evs) as [|F r] eqn:Es; auto. exfalso. apply dget_None in El. apply El, Kd. split; auto.
            assert (Hin : In F (sel i0 k evs)) by (rewrite Es; left; auto).
            unfold sel in Hin. apply in_flat_map in Hin. destruct Hin as ([[i1 k1] F1] & H1 & H2). cbn [fst snd] in H2.
            destruct (Nat.eqb_spec i1 i0); [|contradiction]. subst i1. eauto. }
          rewrite Sn. cbn [foldM]. unfold dgetl. rewrite dget_dset_eq. rewrite nth_repeat. reflexivity. }
      destruct (HV i0 k0 A) as [v Hv]. rewrite sel_app, foldM_app, (Cur k0 K0) in Hv. cbn [bind] in Hv.
      unfold sel in Hv. cbn [flat_map fst snd] in Hv. rewrite !Nat.eqb_refl in Hv. cbn [andb app foldM] in Hv.
      apply bind_ok in Hv. destruct Hv as (v' & Hv & Ev). unfold appl in Hv. rewrite Hv. cbn [bind].
      eexists. split; [reflexivity|]. split; [apply dset_wf; auto|]. split.
      * intros i. rewrite in_dkeys_dset. unfold d1.
        assert (In i (dkeys (if dmem i0 d then d else dset i0 (repeat 0 N) d)) <-> i = i0 \/ In i (dkeys d)) as ->.
        { destruct (dmem i0 d) eqn:M; [|apply in_dkeys_dset]. apply dmem_true in M. split; auto. intros [->|]; auto. }
        rewrite Kd. split.
        -- intros [->|[->|[H (k & F & HF)]]].
           ++ split; auto. exists k0, F0. apply in_app_iff. right; left; auto.
           ++ split; auto. exists k0, F0. apply in_app_iff. right; left; auto.
           ++ split; auto. exists k, F. apply in_app_iff. auto.
        -- intros (H & k & F & HF). apply in_app_iff in HF. destruct HF as [HF|[HF|[]]].
           ++ right. right. split; eauto.
           ++ left. congruence.
      * intros i l H. destruct (Nat.eq_dec i i0) as [->|Ni].
        -- rewrite dget_dset_eq in H. injection H as <-. rewrite list_set_length. split; auto.
           intros k Hk. rewrite sel_app, foldM_app, (Cur k Hk). cbn [bind]. unfold sel. cbn [flat_map fst snd].
           rewrite Nat.eqb_refl. destruct (Nat.eqb_spec k0 k) as [->|Nk]; cbn [andb app foldM].
           ++ unfold appl. rewrite Hv. cbn [bind]. rewrite nth_list_set_eq by lia. reflexivity.
           ++ rewrite nth_list_set_neq by auto. reflexivity.
        -- rewrite dget_dset_neq in H by auto.
           assert (H' : dget i d = Some l).
           { unfold d1 in H. destruct (dmem i0 d); auto. rewrite dget_dset_neq in H by auto. auto. }
           destruct (Vd i l H') as [L V]. split; auto. intros k Hk. rewrite sel_app. unfold sel at 2. cbn [flat_map fst snd].
           destruct (Nat.eqb_spec i0 i); [congruence|]. cbn [andb app]. rewrite app_nil_r. auto.
    + exists d. split; [reflexivity|]. split; auto. split.
      * intros i. rewrite Kd. split.
        -- intros (H & k & F & HF). split; auto. exists k, F. apply in_app_iff. auto.
        -- intros (H & k & F & HF). split; auto. apply in_app_iff in HF. destruct HF as [HF|[HF|[]]]; eauto. congruence.
      * intros i l H. destruct (Vd i l H) as [L V]. split; auto. intros k Hk.
        rewrite sel_app. unfold sel at 2. cbn [flat_map fst snd].
        assert (Ai : allowed i = true) by (apply dget_Some_key, Kd in H; tauto).
        destruct (Nat.eqb_spec i0 i); [congruence|]. cbn [andb app]. rewrite app_nil_r. auto.
Qed.

(** ** The events of the two loops *)

Section Events.
Variable rnd : Qc -> Qc.
Variable casefold : str -> str.
Hypothesis L : lawful rnd.
Variable st : wordlist.
Hypothesis I : inv rnd casefold st.

Notation W := (word_list st).
Notation NL := (n_list st).

Definition events {X} (items : Z -> list (str * X)) (G : Z -> X -> nat -> list Qc -> Qc -> result Qc) : list event :=
  flat_map (fun kn =>
    flat_map (fun gx => map (fun e => (fst e, fst kn, G (snd kn) (snd gx) (fst e) (snd e))) (dgetl (fst gx) (ngram_positions st)))
             (items (snd kn)))
    (numbered NL).

Lemma sel_flat_map {A} i k (f : A -> list event) l : sel i k (flat_map f l) = flat_map (fun a => sel i k (f a)) l.
Proof. induction l; simpl; auto. rewrite sel_app, IHl. reflexivity. Qed.

Lemma flat_map_ext_in {A B} (f g : A -> list B) l : (forall a, In a l -> f a = g a) -> flat_map f l = flat_map g l.
Proof. induction l; simpl; intros H; auto. rewrite H, IHl; auto. Qed.

Lemma flat_map_nil {A B} (f : A -> list B) l : (forall a, In a l -> f a = []) -> flat_map f l = [].
Proof. induction l; simpl; intros H; auto. rewrite H, IHl; auto. Qed.

Lemma NoDup_numbered {A} (l : list A) : NoDup (numbered l).
Proof. apply (NoDup_map_inv fst). apply numbered_nodup. Qed.

Lemma sel_positions {A} i k kn g (f : nat -> list Qc -> A) (F : A -> Qc -> result Qc) w :
  nth_error W i = Some w -> In (zlen g) NL ->
  sel i k (map (fun e => (fst e, kn, F (f (fst e) (snd e)))) (dgetl g (ngram_positions st))) =
  if Nat.eqb kn k then match locs rnd w g with [] => [] | l => [F (f i l)] end else [].
Proof.
  intros Hw Hg. rewrite (inv_pos _ _ _ I). destruct in_dec as [_|C]; [|contradiction].
  destruct (Nat.eqb_spec kn k) as [->|Nk].
  - unfold sel. rewrite flat_map_concat_map, map_map, <- flat_map_concat_map. cbn [fst snd].
    assert (E : forall l, flat_map (fun x : nat * list Qc => if (Nat.eqb (fst x) i && Nat.eqb k k)%bool then [F (f (fst x) (snd x))] else [])
       (flat_map (entry rnd g) l) = flat_map (fun e => flat_map (fun x : nat * list Qc => if (Nat.eqb (fst x) i && Nat.eqb k k)%bool then [F (f (fst x) (snd x))] else []) (entry rnd g e)) l).
    { induction l; simpl; auto. rewrite flat_map_app, IHl. reflexivity. }
    rewrite E. clear E.
    destruct (flat_map_single (fun e => flat_map (fun x : nat * list Qc => if (Nat.eqb (fst x) i && Nat.eqb k k)%bool then [F (f (fst x) (snd x))] else []) (entry rnd g e)) (i, w) (numbered W)) as [H1 _].
    { apply NoDup_numbered. }
    { intros [j x] Hj Nj. assert (j <> i). { intros ->. apply Nj. f_equal. apply numbered_in in Hj. congruence. }
      unfold entry. cbn [fst snd]. destruct (locs rnd x g); [reflexivity|]. cbn [flat_map fst].
      destruct (Nat.eqb_spec j i); [congruence|reflexivity]. }
    rewrite H1 by (apply numbered_in; auto). unfold entry. cbn [fst snd]. destruct (locs rnd w g); [reflexivity|].
    cbn [flat_map fst snd app]. rewrite !Nat.eqb_refl. reflexivity.
  - unfold sel. apply flat_map_nil. intros e He. apply in_map_iff in He. destruct He as (x & <- & _). cbn [fst snd].
    destruct (Nat.eqb_spec kn k); [congruence|]. rewrite andb_false_r. reflexivity.
Qed.

Lemma sel_events {X} (items : Z -> list (str * X)) G i k n w :
  nth_error NL k = Some n -> nth_error W i = Some w ->
  (forall m g x, In m NL -> In (g, x) (items m) -> zlen g = m) ->
  sel i k (events items G) =
  flat_map (fun gx => match locs rnd w (fst gx) with [] => [] | l => [G n (snd gx) i l] end) (items n).
Proof.
  intros Hn Hw Hi. unfold events. rewrite sel_flat_map.
  assert (E : forall kn, In kn (numbered NL) ->
    sel i k (flat_map (fun gx => map (fun e => (fst e, fst kn, G (snd kn) (snd gx) (fst e) (snd e))) (dgetl (fst gx) (ngram_positions st))) (items (snd kn))) =
    if Nat.eqb (fst kn) k then flat_map (fun gx => match locs rnd w (fst gx) with [] => [] | l => [G (snd kn) (snd gx) i l] end) (items (snd kn)) else []).
  { intros [k' m] Hkn. cbn [fst snd]. apply numbered_in in Hkn. apply nth_error_In in Hkn.
    rewrite sel_flat_map.
    rewrite (flat_map_ext_in _ (fun gx => if Nat.eqb k' k then match locs rnd w (fst gx) with [] => [] | l => [G m (snd gx) i l] end else [])).
    - destruct (Nat.eqb k' k); auto. apply flat_map_nil. auto.
    - intros [g x] Hgx. cbn [fst snd].
      apply (sel_positions i k k' g (fun i l => (i, l)) (fun p => G m x (fst p) (snd p)) w Hw).
      rewrite (Hi m g x); auto. }
  rewrite (flat_map_ext_in _ _ _ E).
  destruct (flat_map_single (fun kn => if Nat.eqb (fst kn) k then flat_map (fun gx : str * X => match locs rnd w (fst gx) with [] => [] | l => [G (snd kn) (snd gx) i l] end) (items (snd kn)) else []) (k, n) (numbered NL)) as [H1 _].
  { apply NoDup_numbered. }
  { intros [k' m] Hkn Nkn. cbn [fst snd]. destruct (Nat.eqb_spec k' k) as [->|]; auto.
    exfalso. apply Nkn. f_equal. apply numbered_in in Hkn. congruence. }
  rewrite H1 by (apply numbered_in; auto). cbn [fst snd]. rewrite Nat.eqb_refl. reflexivity.
Qed.

Lemma in_events {X} (items : Z -> list (str * X)) G i :
  (forall m g x, In m NL -> In (g, x) (items m) -> zlen g = m) ->
  (exists k F, In (i, k, F) (events items G)) <->
  exists w n g x, nth_error W i = Some w /\ In n NL /\ In (g, x) (items n) /\ In g (get_n_grams w n).
Proof.
  intros Hi. unfold events. split.
  - intros (k & F & H). apply in_flat_map in H. destruct H as ([k' n] & Hkn & H). apply numbered_in in Hkn.
    apply nth_error_In in Hkn. cbn [fst snd] in H. apply in_flat_map in H. destruct H as ([g x] & Hgx & H). cbn [fst snd] in H.
    apply in_map_iff in H. destruct H as ([j l] & [= -> _ _] & H). rewrite (inv_pos _ _ _ I) in H.
    destruct in_dec as [_|C]; [|contradiction]. apply in_flat_map in H. destruct H as ([j w] & Hj & H).
    unfold entry in H. cbn [fst snd] in H. destruct (locs rnd w g) eqn:El; [contradiction|]. destruct H as [[= -> _]|[]].
    apply numbered_in in Hj. exists w, n, g, x. repeat split; auto.
    destruct (in_dec eqd g (get_n_grams w n)) as [|C]; auto. exfalso. rewrite <- (Hi n g x) in C by auto.
    apply (locs_nil rnd) in C. congruence.
  - intros (w & n & g & x & Hw & Hn & Hgx & Hg). apply In_nth_error in Hn. destruct Hn as [k Hn].
    assert (Hn' := nth_error_In _ _ Hn).
    exists k, (G n x i (locs rnd w g)). apply in_flat_map. exists (k, n). split; [apply numbered_in; auto|]. cbn [fst snd].
    apply in_flat_map. exists (g, x). split; auto. cbn [fst snd]. apply in_map_iff. exists (i, locs rnd w g). split; auto.
    rewrite (inv_pos _ _ _ I). destruct in_dec as [_|C]; [|rewrite (Hi n g x) in C by auto; contradiction].
    apply in_flat_map. exists (i, w). split; [apply numbered_in; auto|]. unfold entry. cbn [fst snd].
    destruct (locs rnd w g) eqn:El; [|left; auto]. apply locs_nil in El. rewrite (Hi n g x) in El by auto. contradiction.
Qed.

Lemma events_k {X} (items : Z -> list (str * X)) G i k F : In (i, k, F) (events items G) -> (k < length NL)%nat.
Proof.
  unfold events. intros H. apply in_flat_map in H. destruct H as ([k' n] & Hkn & H). cbn [fst snd] in H.
  apply in_flat_map in H. destruct H as (gx & _ & H). apply in_map_iff in H. destruct H as (e & [= _ <- _] & _).
  apply numbered_in in Hkn. apply nth_error_Some. congruence.
Qed.

Lemma events_i {X} (items : Z -> list (str * X)) G i k F : In (i, k, F) (events items G) -> (i < length W)%nat.
Proof.
  unfold events. intros H. apply in_flat_map in H. destruct H as ([k' n] & Hkn & H). cbn [fst snd] in H.
  apply in_flat_map in H. destruct H as (gx & _ & H). apply in_map_iff in H. destruct H as ([j l] & [= <- _ _] & H).
  rewrite (inv_pos _ _ _ I) in H. destruct in_dec; [|contradiction]. apply in_flat_map in H.
  destruct H as ([j' w] & Hj & H). unfold entry in H. cbn [fst snd] in *. destruct (locs rnd w (fst gx)); [contradiction|].
  destruct H as [[= -> _]|[]]. apply numbered_in in Hj. apply nth_error_Some. congruence.
Qed.

Lemma sel_out {X} (items : Z -> list (str * X)) G i k :
  (~ (i < length W)%nat \/ ~ (k < length NL)%nat) -> sel i k (events items G) = [].
Proof.
  intros H. destruct (sel i k (events items G)) as [|F r] eqn:E; auto. exfalso.
  assert (HF : In F (sel i k (events items G))) by (rewrite E; left; auto).
  unfold sel in HF. apply in_flat_map in HF. destruct HF as ([[i1 k1] F1] & H1 & H2). cbn [fst snd] in H2.
  destruct (Nat.eqb_spec i1 i); [|contradiction]. destruct (Nat.eqb_spec k1 k); [|contradiction]. subst.
  destruct H as [H|H]; apply H; [eapply events_i|eapply events_k]; eauto.
Qed.

(** *** The first loop *)

Variable q : str.

Definition items (n : Z) : list (str * list Qc) := group (gocc rnd (get_n_grams q n)).

Lemma items_zlen m g x : In m NL -> In (g, x) (items m) -> zlen g = m.
Proof.
  intros Hm H. apply group_item in H. destruct H as [_ H]. rewrite gocc_keys in H.
  eapply gram_zlen; eauto. destruct (inv_n _ _ _ I) as [P _]. rewrite Forall_forall in P. apply P; auto.
Qed.

Definition wd (i : nat) : str := nth i W [].

Definition count_fun (normalize : bool) (n : Z) (x : list Qc) (i : nat) (l : list Qc) (old : Qc) : result Qc :=
  let m := qz (Z.min (zlen x) (zlen l)) in
  if normalize then
    let d := (size n q + size n (wd i))%Z in
    if (d =? 0)%Z then Err ZeroDivisionError else Ok (rnd (old + rnd (m / qz d)))
  else Ok (old + m).

Definition allowed (poss : list nat) (i : nat) : bool :=
  (filter_n st =? 0)%Z || (if in_dec eqd i poss then true else false).

Lemma py_get_in {A} (l : list A) k d : (k < length l)%nat -> py_get l (Z.of_nat k) = Ok (nth k l d).
Proof. apply py_get_nat. Qed.

Lemma list_iadd_at add l k v : (k < length l)%nat ->
  list_iadd add l (Z.of_nat k) v = Ok (list_set l k (add (nth k l 0) v)).
Proof. intros H. unfold list_iadd. rewrite (py_get_nat l k 0 H). cbn [bind]. apply py_set_nat; auto. Qed.

Lemma count_step_event normalize poss k n x i l d :
  shaped (length NL) d -> nth_error NL k = Some n -> (i < length W)%nat ->
  count_step rnd st q normalize poss (Z.of_nat k) n (zlen x) d (i, zlen l) =
  ev_step (length NL) (allowed poss) d (i, k, count_fun normalize n x i l).
Proof.
  intros Sh Hk Hi. assert (Hk' : (k < length NL)%nat) by (apply nth_error_Some; congruence).
  unfold count_step, ev_step, allowed.
  destruct (filter_n st =? 0)%Z eqn:F; cbn [negb andb orb];
    [|destruct (in_dec eqd i poss); cbn [negb]; [|reflexivity]].
  all: destruct (default_get _ i _ Sh) as [_ G]; set (d1 := if dmem i d then d else dset i (repeat 0 (length NL)) d) in *;
       unfold count_fun; destruct normalize.
  1,3: rewrite (py_get_nat _ i []) by (rewrite (inv_num _ _ _ I), map_length; auto); cbn [bind];
       rewrite (inv_num _ _ _ I), (nth_indep _ [] (map (fun n => size n []) NL)) by (rewrite map_length; auto);
       rewrite (map_nth (fun w => map (fun n => size n w) NL)), (py_get_nat _ k (size 0 (nth i W []))) by (rewrite map_length; auto);
       cbn [bind]; rewrite (map_nth (fun n => size n (nth i W []))), (nth_error_nth _ _ _ Hk), num_grams_size; fold (wd i);
       destruct (size n q + size n (wd i) =? 0)%Z; [reflexivity|]; rewrite list_iadd_at by lia; reflexivity.
  all: rewrite list_iadd_at by lia; reflexivity.
Qed.

Lemma enumerate_numbered {A} (l : list A) : enumerate l = map (fun e => (Z.of_nat (fst e), snd e)) (numbered l).
Proof. unfold enumerate, numbered. apply combine_map_l. Qed.

Lemma min_scores_events normalize poss :
  min_scores rnd st q normalize poss =
  foldM (ev_step (length NL) (allowed poss)) (events items (count_fun normalize)) [].
Proof.
  unfold min_scores, events. rewrite enumerate_numbered, foldM_map, foldM_flat_map.
  apply (foldM_ext_inv (shaped (length NL))).
  - intros i l H. discriminate.
  - intros d [k n] Hkn Sh. apply numbered_in in Hkn. cbn [fst snd].
    rewrite <- (gocc_keys rnd (get_n_grams q n)) at 1. rewrite counter_group, foldM_map, foldM_flat_map. fold (items n).
    apply (foldM_ext_inv (shaped (length NL))); auto.
    + intros d1 [g x] Hgx Sh1. cbn [fst snd]. rewrite (inv_counts _ _ _ I), !foldM_map.
      apply (foldM_ext_inv (shaped (length NL))); auto.
      * intros d2 [i l] Hi Sh2. cbn [fst snd]. apply count_step_event; auto.
        eapply (events_i items (count_fun normalize) i k (count_fun normalize n x i l)).
        unfold events. apply in_flat_map. exists (k, n). split; [apply numbered_in; auto|]. cbn [fst snd].
        apply in_flat_map. exists (g, x). split; auto. cbn [fst snd]. apply in_map_iff. exists (i, l). auto.
      * intros d2 e d3 _ Sh2 E. eapply ev_step_shaped; eauto.
    + intros d1 gx d2 _ Sh1 E. eapply (foldM_inv (shaped (length NL))); [exact Sh1| |exact E].
      intros d3 e d4 _ Sh3 E3. eapply ev_step_shaped; eauto.
  - intros d kn d' _ Sh E. eapply (foldM_inv (shaped (length NL))); [exact Sh| |exact E].
    intros d3 e d4 _ Sh3 E3. eapply ev_step_shaped; eauto.
Qed.

(** *** The second loop *)

Definition match_fun (n : Z) (x : list Qc) (i : nat) (l : list Qc) (old : Qc) : result Qc :=
  e <- emd_1d_dp rnd x l ;; Ok (rnd (rnd (old + qz (zlen x + zlen l)) - e)).

Definition inb (poss : list nat) (i : nat) : bool := if in_dec eqd i poss then true else false.

Lemma list_set_set {A} (l : list A) k a b : list_set (list_set l k a) k b = list_set l k b.
Proof. revert k; induction l; intros [|k]; simpl; auto. f_equal. auto. Qed.

Lemma match_step_event poss k n x i l d :
  shaped (length NL) d -> (k < length NL)%nat ->
  match_step rnd st poss (Z.of_nat k) x d (i, l) =
  ev_step (length NL) (inb poss) d (i, k, match_fun n x i l).
Proof.
  intros Sh Hk. unfold match_step, ev_step, inb. destruct (in_dec eqd i poss); [|reflexivity].
  destruct (default_get _ i _ Sh) as [_ G]. set (d1 := if dmem i d then d else dset i (repeat 0 (length NL)) d) in *.
  rewrite list_iadd_at by lia. cbn [bind]. unfold match_fun. destruct (emd_1d_dp rnd x l) as [e|e]; cbn [bind]; [|reflexivity].
  rewrite list_iadd_at by (rewrite list_set_length; lia). cbn [bind].
  rewrite nth_list_set_eq by lia. rewrite list_set_set. reflexivity.
Qed.

Lemma matches_events poss : Forall (fun n => ~ single_gram n q) NL ->
  matches rnd st q poss = foldM (ev_step (length NL) (inb poss)) (events items match_fun) [].
Proof.
  intros NS. rewrite Forall_forall in NS.
  unfold matches, events. rewrite enumerate_numbered, foldM_map, foldM_flat_map.
  apply (foldM_ext_inv (shaped (length NL))).
  - intros i l H. discriminate.
  - intros d [k n] Hkn Sh. apply numbered_in in Hkn. cbn [fst snd].
    rewrite query_locations_group. assert (Hn := nth_error_In _ _ Hkn).
    destruct (Z.eqb_spec (zlen (get_n_grams q n)) 1) as [E|_]; [exfalso; apply (NS n Hn), single_gram_iff; auto|].
    cbn [bind]. rewrite foldM_flat_map. fold (items n).
    apply (foldM_ext_inv (shaped (length NL))); auto.
    + intros d1 [g x] Hgx Sh1. cbn [fst snd]. rewrite !foldM_map.
      apply (foldM_ext_inv (shaped (length NL))); auto.
      * intros d2 [i l] Hi Sh2. cbn [fst snd]. apply match_step_event; auto. apply nth_error_Some. congruence.
      * intros d2 e d3 _ Sh2 E. eapply ev_step_shaped; eauto.
    + intros d1 gx d2 _ Sh1 E. eapply (foldM_inv (shaped (length NL))); [exact Sh1| |exact E].
      intros d3 e d4 _ Sh3 E3. eapply ev_step_shaped; eauto.
  - intros d kn d' _ Sh E. eapply (foldM_inv (shaped (length NL))); [exact Sh| |exact E].
    intros d3 e d4 _ Sh3 E3. eapply ev_step_shaped; eauto.
Qed.

Lemma matches_single poss : Exists (fun n => single_gram n q) NL -> matches rnd st q poss = Err ZeroDivisionError.
Proof.
  intros Ex. unfold matches. rewrite enumerate_numbered, foldM_map.
  apply (foldM_first_bad (shaped (length NL)) (fun kn => single_gram (snd kn) q)).
  - intros i l H. discriminate.
  - intros [k n] _. cbn [snd]. unfold single_gram. destruct (1 <? n)%Z; lia.
  - intros d [k n] Hkn Sh B. cbn [fst snd] in *. rewrite query_locations_group. apply single_gram_iff in B.
    rewrite B. reflexivity.
  - intros d [k n] Hkn Sh B. cbn [fst snd] in *. rewrite query_locations_group.
    destruct (Z.eqb_spec (zlen (get_n_grams q n)) 1) as [E|_]; [exfalso; apply B, single_gram_iff; auto|].
    cbn [bind]. fold (items n). apply numbered_in in Hkn.
    assert (Hk : (k < length NL)%nat) by (apply nth_error_Some; congruence).
    revert Sh. generalize (items n). intros its. revert d. induction its as [|[g x] its IH]; intros d Sh; [exists d; auto|].
    cbn [foldM].
    assert (S1 : exists d1, foldM (match_step rnd st poss (Z.of_nat k) x) (dgetl g (ngram_positions st)) d = Ok d1 /\ shaped (length NL) d1).
    { generalize (dgetl g (ngram_positions st)). intros es. revert d Sh. induction es as [|[i l] es IHe]; intros d Sh; [exists d; auto|].
      cbn [foldM]. rewrite (match_step_event poss k n x i l d Sh Hk).
      assert (S2 : exists d2, ev_step (length NL) (inb poss) d (i, k, match_fun n x i l) = Ok d2).
      { unfold ev_step. destruct (inb poss i); [|eauto]. unfold match_fun.
        rewrite emd_1d_dp_edp_swapped. cbn [bind]. eauto. }
      destruct S2 as [d2 E2]. rewrite E2. cbn [bind]. apply IHe. eapply ev_step_shaped; eauto. }
    destruct S1 as (d1 & -> & Sh1). cbn [bind]. apply IH; auto.
  - apply Exists_exists in Ex. destruct Ex as (n & Hn & B). apply In_nth_error in Hn. destruct Hn as [k Hk].
    exists (k, n). split; auto. apply numbered_in; auto.
Qed.

End Events.
