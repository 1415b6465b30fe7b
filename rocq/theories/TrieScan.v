(** The scanning loops of [Trie]: invariant and proofs. *)
From Coq Require Import ZArith NArith List Bool Permutation Lia Sorted.
From Verif Require Import Py ListAux PyDict TrieSpec TrieModel TrieProofs.
Import ListNotations.

(** The text from [s] to [e]. *)
Definition seg {A} (s e : nat) (l : list A) : list A := firstn (e - s) (skipn s l).

Lemma skipn_skipn {A} a b (l : list A) : skipn a (skipn b l) = skipn (b + a) l.
Proof. revert l. induction b as [|b IH]; intros l; [reflexivity|]. destruct l; cbn; [apply skipn_nil|apply IH]. Qed.

Lemma seg_length {A} s e (l : list A) : s <= e -> e <= List.length l -> List.length (seg s e l) = e - s.
Proof. intros H1 H2. unfold seg. rewrite firstn_length, skipn_length. lia. Qed.

Lemma seg_app_l {A} s e (l r : list A) : s <= e -> e <= List.length l -> seg s e (l ++ r) = seg s e l.
Proof.
  intros H1 H2. unfold seg. rewrite skipn_app. replace (s - List.length l) with 0 by lia. cbn [skipn].
  rewrite firstn_app, skipn_length. replace (e - s - (List.length l - s)) with 0 by lia. cbn [firstn]. apply app_nil_r.
Qed.

Lemma seg_full {A} s (l : list A) : seg s (List.length l) l = skipn s l.
Proof. unfold seg. rewrite <- (skipn_length s l). apply firstn_all. Qed.

Lemma skipn_snoc {A} s (l : list A) x : s <= List.length l -> skipn s (l ++ [x]) = skipn s l ++ [x].
Proof. intros Hs. rewrite skipn_app. replace (s - List.length l) with 0 by lia. reflexivity. Qed.

Lemma seg_skipn {A} s e (l : list A) : s <= e -> seg s e l ++ skipn e l = skipn s l.
Proof.
  intros Hs. unfold seg. rewrite <- (firstn_skipn (e - s) (skipn s l)) at 2. f_equal. rewrite skipn_skipn. f_equal. lia.
Qed.

Lemma seg_split {A} a b c (l : list A) : a <= b -> b <= c -> seg a b l ++ seg b c l = seg a c l.
Proof.
  intros H1 H2. unfold seg. replace (c - a) with ((b - a) + (c - b)) by lia.
  rewrite <- (firstn_skipn (b - a) (firstn (b - a + (c - b)) (skipn a l))). f_equal.
  - rewrite firstn_firstn. f_equal. lia.
  - rewrite skipn_firstn_comm, skipn_skipn. f_equal; [lia|]. f_equal. lia.
Qed.

Section Core.
Context {T V : Type} `{EqDec T}.
Variable r : node T V.

(** The key at [s, e) of the text. *)
Definition key_at (text : list T) (s e : nat) : option V := look (seg s e text) r.

(** The state after reading [pre]: [p] is the first undecided position, [Sp]
    the live partial matches, [M] the pending matches. *)
Record inv_m (pre : list T) (p : nat) (M : nat -> option nat) : Prop := {
  im_p : p <= List.length pre;
  im_range : forall s e, M s = Some e -> p <= s < e /\ e <= List.length pre;
  im_key : forall s e, M s = Some e -> key_at pre s e <> None;
  im_long : forall s e e', M s = Some e -> e < e' <= List.length pre -> key_at pre s e' = None;
  im_none : forall s, p <= s < List.length pre -> M s = None ->
    (forall e, s < e <= List.length pre -> key_at pre s e = None) \/ (exists m e, M m = Some e /\ m < s < e);
  im_over : forall s m e, M m = Some e -> m < s < e -> M s = None }.

Record inv_s (pre : list T) (p : nat) (Sp : nat -> option (node T V)) (M : nat -> option nat) : Prop := {
  is_range : forall s h, Sp s = Some h -> p <= s < List.length pre;
  is_walk : forall s h, Sp s = Some h -> walk (skipn s pre) r = Some h;
  is_dead : forall s, p <= s < List.length pre -> Sp s = None ->
    walk (skipn s pre) r = None \/ (exists m e, M m = Some e /\ m < s < e);
  is_over : forall s m e, M m = Some e -> m < s < e -> Sp s = None }.

Definition covered (M : nat -> option nat) (s : nat) : Prop := exists m e, M m = Some e /\ m < s < e.

Lemma dead_key pre s rest e : walk (skipn s pre) r = None -> s <= List.length pre -> List.length pre <= e -> key_at (pre ++ rest) s e = None.
Proof.
  intros D Hs He. unfold key_at, look.
  assert (E : exists us, seg s e (pre ++ rest) = skipn s pre ++ us).
  { unfold seg. rewrite skipn_app. replace (s - List.length pre) with 0 by lia. cbn [skipn]. rewrite firstn_app.
    rewrite (firstn_all2 (skipn s pre)) by (rewrite skipn_length; lia). eauto. }
  destruct E as (us & ->). rewrite walk_app, D. reflexivity.
Qed.

Lemma key_at_app pre rest s e : s <= e -> e <= List.length pre -> key_at (pre ++ rest) s e = key_at pre s e.
Proof. intros H1 H2. unfold key_at. rewrite seg_app_l by auto. reflexivity. Qed.

(** ** Reading one more token *)

(** What becomes of the span at [s] when [x] is read. *)
Definition advance (x : T) (h : node T V) : option (node T V) := dget x (children h).
Definition completes (x : T) (Sp : nat -> option (node T V)) (s : nat) : Prop :=
  exists h h', Sp s = Some h /\ advance x h = Some h' /\ value h' <> None.

Lemma completes_dec x Sp s : {completes x Sp s} + {~ completes x Sp s}.
Proof.
  destruct (Sp s) as [h|] eqn:E1; [|right; intros (? & ? & ? & _); congruence].
  destruct (advance x h) as [h'|] eqn:E2; [|right; intros (? & ? & ? & ? & _); congruence].
  destruct (value h') as [v|] eqn:E3; [left; exists h, h'; split; auto; split; auto; congruence|].
  right. intros (a & b & A & B & C). congruence.
Qed.

Definition with_new (Sp : nat -> option (node T V)) (n : nat) (s : nat) : option (node T V) := if Nat.eq_dec s n then Some r else Sp s.

Lemma least_completed x Sp s : completes x Sp s -> exists c, c <= s /\ completes x Sp c /\ forall s', s' < c -> ~ completes x Sp s'.
Proof.
  induction s as [s IH] using lt_wf_ind. intros C.
  assert (D : (exists s', s' < s /\ completes x Sp s') \/ (forall s', s' < s -> ~ completes x Sp s')).
  { clear IH C. induction s as [|s IHs]; [right; intros; lia|]. destruct IHs as [(s' & L & C)|N]; [left; exists s'; split; auto; lia|].
    destruct (completes_dec x Sp s) as [C|C]; [left; exists s; split; auto|]. right. intros s' L. destruct (Nat.eq_dec s' s) as [->|]; auto. apply N. lia. }
  destruct D as [(s' & L & C')|N]; [|exists s; auto]. destruct (IH s' L C') as (c & L' & R). exists c. split; [lia|auto].
Qed.

Lemma core_step pre p Sp M x Sp' M' : let n := List.length pre in let Sn := with_new Sp n in
  inv_m pre p M -> inv_s pre p Sp M ->
  (forall s, (exists s', s' < s /\ completes x Sn s') -> Sp' s = None /\ M' s = None) ->
  (forall s, (forall s', s' < s -> ~ completes x Sn s') ->
     Sp' s = match Sn s with Some h => advance x h | None => None end /\
     M' s = if completes_dec x Sn s then Some (S n) else M s) ->
  inv_m (pre ++ [x]) p M' /\ inv_s (pre ++ [x]) p Sp' M'.
Proof.
  intros n Sn [Ip Ir Ik Il In Io] [Jr Jw Jd Jo] HA HB.
  assert (Ln : List.length (pre ++ [x]) = S n) by (rewrite app_length; cbn; unfold n; lia).
  assert (Dec : forall s, (exists s', s' < s /\ completes x Sn s') \/ (forall s', s' < s -> ~ completes x Sn s')).
  { intros s. induction s as [|s IHs]; [right; intros; lia|]. destruct IHs as [(s' & L & C)|N]; [left; exists s'; split; auto; lia|].
    destruct (completes_dec x Sn s) as [C|C]; [left; exists s; split; auto|]. right. intros s' L. destruct (Nat.eq_dec s' s) as [->|]; auto. apply N. lia. }
  assert (Sr : forall s h, Sn s = Some h -> p <= s <= n /\ walk (skipn s pre) r = Some h).
  { intros s h E. unfold Sn, with_new in E. destruct (Nat.eq_dec s n) as [->|].
    - injection E as <-. split; [fold n in Ip; lia|]. unfold n. rewrite skipn_all. reflexivity.
    - split; [specialize (Jr s h E); fold n in Jr; lia|]. apply Jw; auto. }
  assert (Wx : forall s, s <= n -> walk (skipn s (pre ++ [x])) r = match walk (skipn s pre) r with Some h => advance x h | None => None end).
  { intros s L. rewrite skipn_snoc by auto. rewrite walk_app. destruct (walk (skipn s pre) r); [|reflexivity]. unfold advance. cbn [walk]. destruct (dget x (children _)); reflexivity. }
  assert (Kx : forall s, s <= n -> key_at (pre ++ [x]) s (S n) = match walk (skipn s pre) r with Some h => match advance x h with Some h' => value h' | None => None end | None => None end).
  { intros s L. unfold key_at, look. rewrite <- Ln, seg_full, Wx by auto. destruct (walk (skipn s pre) r); reflexivity. }
  assert (Cr : forall s, completes x Sn s -> p <= s <= n).
  { intros s (h & h' & E & _). apply (Sr s h E). }
  (* pending matches before a completed span stay *)
  assert (Keep : forall s m e, (forall s', s' < s -> ~ completes x Sn s') -> M m = Some e -> m < s < e -> covered M' s).
  { intros s m e N E R. exists m, e. split; auto. destruct (HB m) as [_ ->]; [intros s' L; apply N; lia|].
    destruct (completes_dec x Sn m) as [C|C]; auto. exfalso. apply (N m); [lia|auto]. }
  assert (New : forall s, s <= n -> (exists s', s' < s /\ completes x Sn s') -> covered M' s).
  { intros s Ls (s' & L & C). destruct (least_completed x Sn s' C) as (c & Lc & Cc & Nc). exists c, (S n). split; [|lia].
    destruct (HB c Nc) as [_ ->]. destruct (completes_dec x Sn c); [reflexivity|contradiction]. }
  assert (Mo : forall s e, M' s = Some e -> (forall s', s' < s -> ~ completes x Sn s') /\
     ((completes x Sn s /\ e = S n) \/ (~ completes x Sn s /\ M s = Some e))).
  { intros s e E. destruct (Dec s) as [X|X]; [destruct (HA s X); congruence|]. split; auto. destruct (HB s X) as [_ Y]. rewrite Y in E.
    destruct (completes_dec x Sn s); [left; split; congruence|right; auto]. }
  (* a span that is not there *)
  assert (Absent : forall s, p <= s <= n -> Sn s = None -> walk (skipn s pre) r = None \/ (exists m e, M m = Some e /\ m < s < e)).
  { intros s L E. unfold Sn, with_new in E. destruct (Nat.eq_dec s n); [discriminate|]. apply Jd; auto. fold n. lia. }
  fold n in Ip, Ir, Il, In, Jr, Jd. split; constructor; rewrite ?Ln.
  - lia.
  - intros s e E. destruct (Mo s e E) as [_ [[C ->]|[_ E']]]; [specialize (Cr s C); lia|]. specialize (Ir s e E'). lia.
  - intros s e E. destruct (Mo s e E) as [_ [[C ->]|[_ E']]].
    + rewrite Kx by (apply Cr; auto). destruct C as (h & h' & E1 & E2 & E3). destruct (Sr s h E1) as [_ ->]. rewrite E2. auto.
    + specialize (Ir s e E'). rewrite key_at_app by (fold n; lia). eapply Ik; eauto.
  - intros s e e' E R. destruct (Mo s e E) as [Ns [[C ->]|[C E']]]; [lia|]. pose proof (Ir s e E') as Rs.
    destruct (Nat.eq_dec e' (S n)) as [->|Ne].
    + rewrite Kx by lia. destruct (Sn s) as [h|] eqn:Es.
      * destruct (Sr s h Es) as [_ ->]. destruct (advance x h) as [h'|] eqn:Ea; auto. destruct (value h') eqn:Ev; auto.
        exfalso. apply C. exists h, h'. split; auto. split; auto. congruence.
      * destruct (Absent s) as [->|(m & e0 & Em & Rm)]; [lia|auto|reflexivity|]. specialize (Io s m e0 Em Rm). congruence.
    + rewrite key_at_app by (fold n; lia). eapply Il; eauto. lia.
  - intros s R E. destruct (Dec s) as [X|X]; [right; apply New; auto; lia|]. destruct (HB s X) as [_ Y]. rewrite Y in E.
    destruct (completes_dec x Sn s) as [|C]; [discriminate|].
    assert (Last : key_at (pre ++ [x]) s (S n) = None \/ covered M' s).
    { destruct (Sn s) as [h|] eqn:Es.
      - left. rewrite Kx by lia. destruct (Sr s h Es) as [_ ->]. destruct (advance x h) as [h'|] eqn:Ea; auto. destruct (value h') eqn:Ev; auto.
        exfalso. apply C. exists h, h'. split; auto. split; auto. congruence.
      - destruct (Absent s) as [D|(m & e0 & Em & Rm)]; [lia|auto| |right; eapply Keep; eauto]. left. rewrite Kx, D by lia. reflexivity. }
    destruct (Nat.eq_dec s n) as [->|Nn].
    + destruct Last as [L|L]; [|right; exact L]. left. intros e Re. replace e with (S n) by lia. exact L.
    + destruct (In s) as [A|(m & e0 & Em & Rm)]; [lia|auto| |right; eapply Keep; eauto].
      destruct Last as [L|L]; [|right; exact L]. left. intros e Re. destruct (Nat.eq_dec e (S n)) as [->|]; auto.
      rewrite key_at_app by (fold n; lia). apply A. lia.
  - intros s m e E R. destruct (Mo m e E) as [Nm [[C ->]|[C E']]].
    + destruct (HA s); [exists m; split; [lia|auto]|]. auto.
    + destruct (Dec s) as [X|X]; [apply HA; auto|]. destruct (HB s X) as [_ ->].
      destruct (completes_dec x Sn s) as [Cs|Cs]; [|eapply Io; eauto]. exfalso. destruct Cs as (h & h' & Es & _). unfold Sn, with_new in Es.
      specialize (Ir m e E'). destruct (Nat.eq_dec s n); [lia|]. rewrite (Jo s m e E' R) in Es. discriminate.
  - intros s h E. destruct (Dec s) as [X|X]; [destruct (HA s X); congruence|]. destruct (HB s X) as [Y _]. rewrite Y in E.
    destruct (Sn s) as [h0|] eqn:Es; [|discriminate]. destruct (Sr s h0 Es). lia.
  - intros s h E. destruct (Dec s) as [X|X]; [destruct (HA s X); congruence|]. destruct (HB s X) as [Y _]. rewrite Y in E.
    destruct (Sn s) as [h0|] eqn:Es; [|discriminate]. destruct (Sr s h0 Es) as [L W]. rewrite Wx, W by lia. exact E.
  - intros s R E. destruct (Dec s) as [X|X]; [right; apply New; auto; lia|]. destruct (HB s X) as [Y _]. rewrite Y in E.
    destruct (Sn s) as [h0|] eqn:Es.
    + left. destruct (Sr s h0 Es) as [L W]. rewrite Wx, W by lia. exact E.
    + destruct (Absent s) as [D|(m & e0 & Em & Rm)]; [lia|auto| |right; eapply Keep; eauto]. left. rewrite Wx, D by lia. reflexivity.
  - intros s m e E R. destruct (Mo m e E) as [Nm [[C ->]|[C E']]].
    + destruct (HA s); [exists m; split; [lia|auto]|]. auto.
    + destruct (Dec s) as [X|X]; [apply HA; auto|]. destruct (HB s X) as [-> _]. unfold Sn, with_new.
      specialize (Ir m e E'). destruct (Nat.eq_dec s n); [lia|]. rewrite (Jo s m e E' R). reflexivity.
Qed.

(** ** Deciding *)

(** The first pending match, before every live span: no key starts before it
    and it is the longest one, whatever follows. *)
Lemma core_emit pre p Sp M m e : inv_m pre p M -> inv_s pre p Sp M -> M m = Some e ->
  (forall s, Sp s <> None -> m < s) -> (forall s, M s <> None -> m <= s) ->
  (forall rest s e', p <= s < m -> s < e' -> key_at (pre ++ rest) s e' = None) /\
  (forall rest e', e < e' -> key_at (pre ++ rest) m e' = None) /\
  inv_m pre e (fun s => if Nat.eq_dec s m then None else M s) /\ inv_s pre e Sp (fun s => if Nat.eq_dec s m then None else M s).
Proof.
  intros [Ip Ir Ik Il In Io] [Jr Jw Jd Jo] Em Hs Hm. pose proof (Ir m e Em) as Rm.
  assert (NoS : forall s, s <= m -> Sp s = None). { intros s L. destruct (Sp s) eqn:E; auto. assert (m < s) by (apply Hs; congruence). lia. }
  assert (NoM : forall s, s < m -> M s = None). { intros s L. destruct (M s) eqn:E; auto. assert (m <= s) by (apply Hm; congruence). lia. }
  assert (NoC : forall s, s <= m -> ~ exists m' e', M m' = Some e' /\ m' < s < e'). { intros s L (m' & e' & E & R). rewrite NoM in E by lia. discriminate. }
  assert (Rest : forall s, M s <> None -> s <> m -> e <= s).
  { intros s N1 N2. assert (m <= s) by auto. destruct (Nat.le_gt_cases e s); auto. exfalso. apply N1. apply (Io s m e); auto. lia. }
  assert (RestS : forall s, Sp s <> None -> e <= s).
  { intros s N1. assert (m < s) by auto. destruct (Nat.le_gt_cases e s); auto. exfalso. apply N1. apply (Jo s m e); auto. }
  split; [|split; [|split]].
  - intros rest s e' R L. destruct (Nat.le_gt_cases e' (List.length pre)).
    + rewrite key_at_app by lia. destruct (In s) as [A|A]; [lia|apply NoM; lia|apply A; lia|]. exfalso. apply (NoC s); [lia|exact A].
    + destruct (Jd s) as [D|D]; [lia|apply NoS; lia| |exfalso; apply (NoC s); [lia|exact D]]. apply dead_key; auto; lia.
  - intros rest e' L. destruct (Nat.le_gt_cases e' (List.length pre)).
    + rewrite key_at_app by lia. eapply Il; eauto.
    + destruct (Jd m) as [D|D]; [lia|apply NoS; lia| |exfalso; apply (NoC m); [lia|exact D]]. apply dead_key; auto; lia.
  - constructor.
    + lia.
    + intros s e0 E. destruct (Nat.eq_dec s m); [discriminate|]. pose proof (Ir s e0 E). assert (e <= s) by (apply Rest; congruence). lia.
    + intros s e0 E. destruct (Nat.eq_dec s m); [discriminate|]. eapply Ik; eauto.
    + intros s e0 e' E. destruct (Nat.eq_dec s m); [discriminate|]. eapply Il; eauto.
    + intros s R E. destruct (Nat.eq_dec s m) as [->|]; [lia|]. destruct (In s) as [A|(m' & e' & E' & R')]; [lia|auto|left; exact A|].
      right. exists m', e'. destruct (Nat.eq_dec m' m) as [->|]; [|auto]. assert (e' = e) by congruence. lia.
    + intros s m' e' E R. destruct (Nat.eq_dec m' m); [discriminate|]. destruct (Nat.eq_dec s m); auto. eapply Io; eauto.
  - constructor.
    + intros s h E. pose proof (Jr s h E). assert (e <= s) by (apply RestS; congruence). lia.
    + auto.
    + intros s R E. destruct (Jd s) as [D|(m' & e' & E' & R')]; [lia|auto|left; exact D|].
      right. exists m', e'. destruct (Nat.eq_dec m' m) as [->|]; [|auto]. assert (e' = e) by congruence. lia.
    + intros s m' e' E R. destruct (Nat.eq_dec m' m); [discriminate|]. eapply Jo; eauto.
Qed.

(** Nothing pending before [q]: no key starts before it, whatever follows. *)
Lemma core_skip pre p Sp M q : inv_m pre p M -> inv_s pre p Sp M -> p <= q <= List.length pre ->
  (forall s, Sp s <> None -> q <= s) -> (forall s, M s <> None -> q <= s) ->
  (forall rest s e', p <= s < q -> s < e' -> key_at (pre ++ rest) s e' = None) /\ inv_m pre q M /\ inv_s pre q Sp M.
Proof.
  intros [Ip Ir Ik Il In Io] [Jr Jw Jd Jo] Rq Hs Hm.
  assert (NoS : forall s, s < q -> Sp s = None). { intros s L. destruct (Sp s) eqn:E; auto. assert (q <= s) by (apply Hs; congruence). lia. }
  assert (NoM : forall s, s < q -> M s = None). { intros s L. destruct (M s) eqn:E; auto. assert (q <= s) by (apply Hm; congruence). lia. }
  assert (NoC : forall s, s <= q -> ~ exists m' e', M m' = Some e' /\ m' < s < e'). { intros s L (m' & e' & E & R). rewrite NoM in E by lia. discriminate. }
  split; [|split; constructor; auto].
  - intros rest s e' R L. destruct (Nat.le_gt_cases e' (List.length pre)).
    + rewrite key_at_app by lia. destruct (In s) as [A|A]; [lia|apply NoM; lia|apply A; lia|]. exfalso. apply (NoC s); [lia|exact A].
    + destruct (Jd s) as [D|D]; [lia|apply NoS; lia| |exfalso; apply (NoC s); [lia|exact D]]. apply dead_key; auto; lia.
  - lia.
  - intros s e E. pose proof (Ir s e E). assert (q <= s) by (apply Hm; congruence). lia.
  - intros s R E. apply In; [lia|auto].
  - intros s h E. pose proof (Jr s h E). assert (q <= s) by (apply Hs; congruence). lia.
  - intros s R E. apply Jd; [lia|auto].
Qed.

(** At the end of the text the spans no longer matter. *)
Lemma core_end pre p M m e : inv_m pre p M -> M m = Some e -> (forall s, M s <> None -> m <= s) ->
  (forall s e', p <= s < m -> s < e' <= List.length pre -> key_at pre s e' = None) /\
  (forall e', e < e' <= List.length pre -> key_at pre m e' = None) /\
  inv_m pre e (fun s => if Nat.eq_dec s m then None else M s).
Proof.
  intros [Ip Ir Ik Il In Io] Em Hm. pose proof (Ir m e Em) as Rm.
  assert (NoM : forall s, s < m -> M s = None). { intros s L. destruct (M s) eqn:E; auto. assert (m <= s) by (apply Hm; congruence). lia. }
  assert (NoC : forall s, s <= m -> ~ exists m' e', M m' = Some e' /\ m' < s < e'). { intros s L (m' & e' & E & R). rewrite NoM in E by lia. discriminate. }
  assert (Rest : forall s, M s <> None -> s <> m -> e <= s).
  { intros s N1 N2. assert (m <= s) by auto. destruct (Nat.le_gt_cases e s); auto. exfalso. apply N1. apply (Io s m e); auto. lia. }
  split; [|split].
  - intros s e' R L. destruct (In s) as [A|A]; [lia|apply NoM; lia|apply A; lia|]. exfalso. apply (NoC s); [lia|exact A].
  - intros e' L. eapply Il; eauto.
  - constructor.
    + lia.
    + intros s e0 E. destruct (Nat.eq_dec s m); [discriminate|]. pose proof (Ir s e0 E). assert (e <= s) by (apply Rest; congruence). lia.
    + intros s e0 E. destruct (Nat.eq_dec s m); [discriminate|]. eapply Ik; eauto.
    + intros s e0 e' E. destruct (Nat.eq_dec s m); [discriminate|]. eapply Il; eauto.
    + intros s R E. destruct (Nat.eq_dec s m) as [->|]; [lia|]. destruct (In s) as [A|(m' & e' & E' & R')]; [lia|auto|left; exact A|].
      right. exists m', e'. destruct (Nat.eq_dec m' m) as [->|]; [|auto]. assert (e' = e) by congruence. lia.
    + intros s m' e' E R. destruct (Nat.eq_dec m' m); [discriminate|]. destruct (Nat.eq_dec s m); auto. eapply Io; eauto.
Qed.

Lemma core_end_skip pre p M : inv_m pre p M -> (forall s, M s = None) ->
  forall s e', p <= s < List.length pre -> s < e' <= List.length pre -> key_at pre s e' = None.
Proof.
  intros [Ip Ir Ik Il In Io] Hm s e' R L. destruct (In s) as [A|(m & e & E & _)]; [lia|auto|apply A; lia|]. rewrite Hm in E. discriminate.
Qed.

End Core.

(** ** The dicts of the loops *)

Lemma inv_m_ext {T V} `{EqDec T} (r : node T V) pre p M M' : (forall s, M s = M' s) -> inv_m r pre p M -> inv_m r pre p M'.
Proof.
  intros E [Ip Ir Ik Il In Io]. constructor; auto.
  - intros s e A. apply Ir. congruence.
  - intros s e A. apply Ik. congruence.
  - intros s e e' A. apply Il. congruence.
  - intros s R A. destruct (In s R) as [X|(m & e & X & Y)]; [congruence|left; exact X|]. right. exists m, e. split; [congruence|auto].
  - intros s m e A R. rewrite <- E in *. eapply Io; eauto.
Qed.

Lemma inv_s_ext {T V} `{EqDec T} (r : node T V) pre p Sp Sp' M M' : (forall s, Sp s = Sp' s) -> (forall s, M s = M' s) -> inv_s r pre p Sp M -> inv_s r pre p Sp' M'.
Proof.
  intros E1 E2 [Jr Jw Jd Jo]. constructor.
  - intros s h A. apply (Jr s h). congruence.
  - intros s h A. apply (Jw s h). congruence.
  - intros s R A. destruct (Jd s R) as [X|(m & e & X & Y)]; [congruence|left; exact X|]. right. exists m, e. split; [congruence|auto].
  - intros s m e A R. rewrite <- E1. rewrite <- E2 in A. eapply Jo; eauto.
Qed.

Lemma min_key_in {A} (d : list (nat * A)) x : d <> [] -> In (min_key d x) (dkeys d).
Proof.
  unfold min_key, dkeys. destruct d as [|[k a] d]; [congruence|]. intros _. cbn [map fst]. generalize (map fst d) as ks. intros ks.
  revert k. induction ks as [|k' ks IH]; intros k; [left; reflexivity|]. cbn [fold_left]. destruct (IH (Nat.min k k')) as [X|X].
  - rewrite <- X. destruct (Nat.min_spec k k') as [[_ ->]|[_ ->]]; simpl; auto.
  - simpl. auto.
Qed.

Lemma min_key_le {A} (d : list (nat * A)) x k : In k (dkeys d) -> min_key d x <= k.
Proof.
  unfold min_key, dkeys. destruct d as [|[k0 a] d]; [intros []|]. cbn [map fst]. generalize (map fst d) as ks. intros ks.
  assert (L : forall ks k0, fold_left Nat.min ks k0 <= k0). { clear. induction ks as [|k' ks IH]; intros k0; [auto|]. cbn [fold_left]. specialize (IH (Nat.min k0 k')). lia. }
  revert k0. induction ks as [|k' ks IH]; intros k0 I.
  - destruct I as [->|[]]. cbn. auto.
  - cbn [fold_left]. destruct I as [->|[->|I]]; [specialize (L ks (Nat.min k k')); lia|specialize (L ks (Nat.min k0 k)); lia|]. apply IH. right. exact I.
Qed.

Lemma remove_keys_wf {A} ks (d : list (nat * A)) : dwf d -> dwf (remove_keys ks d).
Proof. revert d. induction ks as [|k ks IH]; intros d W; [exact W|]. apply IH, ddel_wf, W. Qed.

Lemma remove_keys_in {A} ks (d : list (nat * A)) k : dwf d -> In k ks -> dget k (remove_keys ks d) = None.
Proof.
  revert d. induction ks as [|k' ks IH]; intros d W I; [destruct I|]. cbn [remove_keys fold_left]. fold (remove_keys ks (ddel k' d)).
  destruct (Nat.eq_dec k k') as [->|N]; [|apply IH; [apply ddel_wf, W|destruct I; congruence]].
  assert (X : forall ks (d : list (nat * A)), dget k' d = None -> dget k' (remove_keys ks d) = None).
  { clear. induction ks as [|k ks IH]; intros d E; [exact E|]. cbn. apply IH. destruct (Nat.eq_dec k' k) as [->|N]; [rewrite ddel_absent; auto; unfold dmem; rewrite E; reflexivity|].
    rewrite dget_ddel_neq; auto. }
  apply X, dget_ddel_eq, W.
Qed.

Lemma remove_keys_notin {A} ks (d : list (nat * A)) k : ~ In k ks -> dget k (remove_keys ks d) = dget k d.
Proof.
  revert d. induction ks as [|k' ks IH]; intros d I; [reflexivity|]. cbn [remove_keys fold_left]. fold (remove_keys ks (ddel k' d)).
  rewrite IH by (intros X; apply I; right; exact X). apply dget_ddel_neq. intros ->. apply I. left. reflexivity.
Qed.

Section Gstep.
Context {A B : Type}.
Variables (adv : A -> option A) (fin : A -> option B) (f g : nat -> list nat).

(** The loop body shared by [translate] and [finditer]. *)
Definition gstep (st : list (nat * A) * list (nat * B) * list nat * list nat) (span : nat * A) :=
  let '(spans, matches, mr, sr) := st in
  let (s, a) := span in
  match adv a with
  | Some a' =>
      match fin a' with
      | Some b => (dset s a' spans, dset s b matches, mr ++ f s, sr ++ g s)
      | None => (dset s a' spans, matches, mr, sr)
      end
  | None => (spans, matches, mr, sr ++ [s])
  end.

Lemma gfold l : forall spans matches mr sr spans' matches' mr' sr', NoDup (map fst l) -> dwf spans -> dwf matches ->
  fold_left gstep l (spans, matches, mr, sr) = (spans', matches', mr', sr') ->
  dwf spans' /\ dwf matches' /\
  (forall s, dget s spans' = match dget s l with Some a => match adv a with Some a' => Some a' | None => dget s spans end | None => dget s spans end) /\
  (forall s, dget s matches' = match dget s l with
     | Some a => match adv a with Some a' => match fin a' with Some b => Some b | None => dget s matches end | None => dget s matches end
     | None => dget s matches end) /\
  (forall s, In s mr' <-> In s mr \/ exists s0 a a' b, dget s0 l = Some a /\ adv a = Some a' /\ fin a' = Some b /\ In s (f s0)) /\
  (forall s, In s sr' <-> In s sr \/ (exists s0 a a' b, dget s0 l = Some a /\ adv a = Some a' /\ fin a' = Some b /\ In s (g s0)) \/
     (exists a, dget s l = Some a /\ adv a = None)).
Proof.
  induction l as [|[s0 a0] l IH]; intros spans matches mr sr spans' matches' mr' sr' ND Ws Wm E.
  { injection E as <- <- <- <-. repeat split; auto; cbn [dget].
    - intros [X|(? & ? & ? & ? & X & _)]; [auto|discriminate].
    - intros [X|[(? & ? & ? & ? & X & _)|(? & X & _)]]; [auto|discriminate|discriminate]. }
  inversion ND as [|? ? N0 ND']; subst. cbn [fold_left] in E.
  assert (D0 : dget s0 l = None) by (apply dget_None; exact N0).
  assert (Dn : forall s, s <> s0 -> dget s ((s0, a0) :: l) = dget s l). { intros s N. cbn [dget]. destruct (eqd s s0); [congruence|reflexivity]. }
  assert (De : dget s0 ((s0, a0) :: l) = Some a0). { cbn [dget]. destruct (eqd s0 s0); [reflexivity|congruence]. }
  assert (Split : forall s0' a, dget s0' ((s0, a0) :: l) = Some a <-> (s0' = s0 /\ a = a0) \/ dget s0' l = Some a).
  { intros s0' a. destruct (Nat.eq_dec s0' s0) as [->|N].
    - rewrite De, D0. split; [intros X; injection X as <-; auto|intros [[_ ->]|X]; [reflexivity|discriminate]].
    - rewrite Dn by auto. split; [auto|intros [[X _]|X]; [congruence|auto]]. }
  destruct (adv a0) as [a1|] eqn:Ea; [destruct (fin a1) as [b|] eqn:Eb|]; cbn [gstep] in E; rewrite Ea in E; try rewrite Eb in E.
  - destruct (IH _ _ _ _ _ _ _ _ ND' (dset_wf s0 a1 spans Ws) (dset_wf s0 b matches Wm) E) as (W1 & W2 & G1 & G2 & G3 & G4).
    split; [exact W1|]. split; [exact W2|]. split; [|split; [|split]].
    + intros s. rewrite G1. destruct (Nat.eq_dec s s0) as [->|N]; [rewrite De, D0, Ea; apply dget_dset_eq|]. rewrite Dn by auto. rewrite dget_dset_neq by auto. reflexivity.
    + intros s. rewrite G2. destruct (Nat.eq_dec s s0) as [->|N]; [rewrite De, D0, Ea, Eb; apply dget_dset_eq|]. rewrite Dn by auto. rewrite dget_dset_neq by auto. reflexivity.
    + intros s. rewrite G3, in_app_iff. split.
      * intros [[X|X]|(s' & a & a' & b' & X & Y)]; [auto|right; exists s0, a0, a1, b; auto|right; exists s', a, a', b'; rewrite Split; auto].
      * intros [X|(s' & a & a' & b' & X & Y & Z & I)]; [auto|]. apply Split in X. destruct X as [[-> ->]|X]; [auto|]. right. exists s', a, a', b'. auto.
    + intros s. rewrite G4, in_app_iff. split.
      * intros [[X|X]|[(s' & a & a' & b' & X & Y)|(a & X & Y)]];
          [auto|right; left; exists s0, a0, a1, b; auto|right; left; exists s', a, a', b'; rewrite Split; auto|right; right; exists a; rewrite Split; auto].
      * intros [X|[(s' & a & a' & b' & X & Y & Z & I)|(a & X & Y)]]; [auto| |]; apply Split in X.
        -- destruct X as [[-> ->]|X]; [auto|]. right. left. exists s', a, a', b'. auto.
        -- destruct X as [[-> ->]|X]; [congruence|]. right. right. exists a. auto.
  - destruct (IH _ _ _ _ _ _ _ _ ND' (dset_wf s0 a1 spans Ws) Wm E) as (W1 & W2 & G1 & G2 & G3 & G4).
    split; [exact W1|]. split; [exact W2|]. split; [|split; [|split]].
    + intros s. rewrite G1. destruct (Nat.eq_dec s s0) as [->|N]; [rewrite De, D0, Ea; apply dget_dset_eq|]. rewrite Dn by auto. rewrite dget_dset_neq by auto. reflexivity.
    + intros s. rewrite G2. destruct (Nat.eq_dec s s0) as [->|N]; [rewrite De, D0, Ea, Eb; reflexivity|]. rewrite Dn by auto. reflexivity.
    + intros s. rewrite G3. split.
      * intros [X|(s' & a & a' & b' & X & Y)]; [auto|right; exists s', a, a', b'; rewrite Split; auto].
      * intros [X|(s' & a & a' & b' & X & Y & Z & I)]; [auto|]. apply Split in X. destruct X as [[-> ->]|X]; [congruence|]. right. exists s', a, a', b'. auto.
    + intros s. rewrite G4. split.
      * intros [X|[(s' & a & a' & b' & X & Y)|(a & X & Y)]];
          [auto|right; left; exists s', a, a', b'; rewrite Split; auto|right; right; exists a; rewrite Split; auto].
      * intros [X|[(s' & a & a' & b' & X & Y & Z & I)|(a & X & Y)]]; [auto| |]; apply Split in X.
        -- destruct X as [[-> ->]|X]; [congruence|]. right. left. exists s', a, a', b'. auto.
        -- destruct X as [[-> ->]|X]; [congruence|]. right. right. exists a. auto.
  - destruct (IH _ _ _ _ _ _ _ _ ND' Ws Wm E) as (W1 & W2 & G1 & G2 & G3 & G4).
    split; [exact W1|]. split; [exact W2|]. split; [|split; [|split]].
    + intros s. rewrite G1. destruct (Nat.eq_dec s s0) as [->|N]; [rewrite De, D0, Ea; reflexivity|]. rewrite Dn by auto. reflexivity.
    + intros s. rewrite G2. destruct (Nat.eq_dec s s0) as [->|N]; [rewrite De, D0, Ea; reflexivity|]. rewrite Dn by auto. reflexivity.
    + intros s. rewrite G3. split.
      * intros [X|(s' & a & a' & b' & X & Y)]; [auto|right; exists s', a, a', b'; rewrite Split; auto].
      * intros [X|(s' & a & a' & b' & X & Y & Z & I)]; [auto|]. apply Split in X. destruct X as [[-> ->]|X]; [congruence|]. right. exists s', a, a', b'. auto.
    + intros s. rewrite G4, in_app_iff. split.
      * intros [[X|[X|[]]]|[(s' & a & a' & b' & X & Y)|(a & X & Y)]];
          [auto|subst; right; right; exists a0; rewrite Split; auto|right; left; exists s', a, a', b'; rewrite Split; auto|right; right; exists a; rewrite Split; auto].
      * intros [X|[(s' & a & a' & b' & X & Y & Z & I)|(a & X & Y)]]; [auto| |]; apply Split in X.
        -- destruct X as [[-> ->]|X]; [congruence|]. right. left. exists s', a, a', b'. auto.
        -- destruct X as [[-> ->]|X]; [left; right; left; reflexivity|]. right. right. exists a. auto.
Qed.
End Gstep.

Section Loop.
Context {T V : Type} `{EqDec T}.
Variable r : node T V.
Context {A C : Type}.
Variables (proj : A -> node T V) (adv : T -> A -> option A) (fin : nat -> A -> option (nat * C)) (new : A).
Hypothesis adv_proj : forall x a, option_map proj (adv x a) = advance x (proj a).
Hypothesis fin_value : forall i a, fin i a = None <-> value (proj a) = None.
Hypothesis fin_end : forall i a b, fin i a = Some b -> fst b = S i.
Hypothesis new_root : proj new = r.

Definition sview (spans : list (nat * A)) (s : nat) : option (node T V) := option_map proj (dget s spans).
Definition mview (matches : list (nat * (nat * C))) (s : nat) : option nat := option_map fst (dget s matches).

Lemma gstep_core pre p spans matches x (g : nat -> list nat) spans1 matches1 mr sr spans2 matches2 : let n := List.length pre in
  inv_m r pre p (mview matches) -> inv_s r pre p (sview spans) (mview matches) -> dwf spans -> dwf matches ->
  (forall s s', In s (g s') -> s' < s) ->
  fold_left (gstep (adv x) (fin n) (fun s => inside s n) g) (dset n new spans) (dset n new spans, matches, [], []) = (spans1, matches1, mr, sr) ->
  (forall s s', In s (g s') -> In s (inside s' n)) ->
  (forall s, In s mr \/ In s sr -> dget s spans2 = None) -> (forall s, ~ In s mr -> ~ In s sr -> dget s spans2 = dget s spans1) ->
  (forall s, In s mr -> dget s matches2 = None) -> (forall s, ~ In s mr -> dget s matches2 = dget s matches1) ->
  inv_m r (pre ++ [x]) p (mview matches2) /\ inv_s r (pre ++ [x]) p (sview spans2) (mview matches2) /\
  (forall s a', dget s spans2 = Some a' -> exists a, dget s (dset n new spans) = Some a /\ adv x a = Some a') /\
  (forall s b, dget s matches2 = Some b -> dget s matches = Some b \/
     exists a a', dget s (dset n new spans) = Some a /\ adv x a = Some a' /\ fin n a' = Some b).
Proof.
  intros n IM IS Ws Wm Hg E Hg' S2a S2b M2a M2b.
  assert (Wn : dwf (dset n new spans)) by (apply dset_wf; auto).
  destruct (gfold (adv x) (fin n) (fun s => inside s n) g _ _ _ _ _ _ _ _ _ Wn Wn Wm E) as (W1 & W2 & G1 & G2 & G3 & G4).
  assert (Sn : forall s, with_new r (sview spans) n s = option_map proj (dget s (dset n new spans))).
  { intros s. unfold with_new, sview. destruct (Nat.eq_dec s n) as [->|N]; [rewrite dget_dset_eq; cbn; congruence|]. rewrite dget_dset_neq by auto. reflexivity. }
  assert (Cmp : forall s, completes x (with_new r (sview spans) n) s <-> exists a a' b, dget s (dset n new spans) = Some a /\ adv x a = Some a' /\ fin n a' = Some b).
  { intros s. unfold completes. rewrite Sn. split.
    - intros (h & h' & E1 & E2 & E3). destruct (dget s (dset n new spans)) as [a|]; [|discriminate]. injection E1 as <-. rewrite <- adv_proj in E2.
      destruct (adv x a) as [a'|] eqn:Ea; [|discriminate]. injection E2 as <-. destruct (fin n a') as [b|] eqn:Eb; [exists a, a', b; auto|].
      apply fin_value in Eb. congruence.
    - intros (a & a' & b & E1 & E2 & E3). exists (proj a), (proj a'). rewrite E1. split; [reflexivity|]. rewrite <- adv_proj, E2. split; [reflexivity|].
      intros X. apply (fin_value n) in X. congruence. }
  assert (Mr : forall s, In s mr <-> exists s', s' < s /\ completes x (with_new r (sview spans) n) s' /\ s <= n).
  { intros s. rewrite G3. split.
    - intros [[]|(s' & a & a' & b & E1 & E2 & E3 & I)]. unfold inside in I. apply in_seq in I. exists s'. split; [lia|]. split; [apply Cmp; exists a, a', b; auto|lia].
    - intros (s' & L & C' & Ln). right. apply Cmp in C'. destruct C' as (a & a' & b & E1 & E2 & E3). exists s', a, a', b. repeat split; auto. unfold inside. apply in_seq. lia. }
  assert (Sr : forall s, In s sr -> In s mr \/ exists a, dget s (dset n new spans) = Some a /\ adv x a = None).
  { intros s I. apply G4 in I. destruct I as [[]|[(s' & a & a' & b & E1 & E2 & E3 & I)|I]]; [|right; exact I]. left. apply G3. right. exists s', a, a', b. auto. }
  assert (Sr2 : forall s a, dget s (dset n new spans) = Some a -> adv x a = None -> In s sr).
  { intros s a E1 E2. apply G4. right. right. exists a. auto. }
  assert (Beyond : forall s, n < s -> dget s (dset n new spans) = None /\ dget s matches = None).
  { intros s L. rewrite dget_dset_neq by lia. split.
    - destruct (dget s spans) as [a|] eqn:Ea; auto. destruct (is_range _ _ _ _ _ IS s (proj a)); [unfold sview; rewrite Ea; reflexivity|]. fold n in H1. lia.
    - destruct (dget s matches) as [b|] eqn:Eb; auto. destruct (im_range _ _ _ _ IM s (fst b)); [unfold mview; rewrite Eb; reflexivity|]. fold n in H1. lia. }
  assert (Step : inv_m r (pre ++ [x]) p (mview matches2) /\ inv_s r (pre ++ [x]) p (sview spans2) (mview matches2)).
  { apply (core_step r pre p (sview spans) (mview matches) x); auto; fold n.
    - intros s (s' & L & C'). unfold sview, mview. destruct (Nat.le_gt_cases s n) as [Ls|Ls].
      + assert (I : In s mr) by (apply Mr; exists s'; auto). rewrite S2a, M2a by auto. auto.
      + destruct (Beyond s Ls) as [B1 B2].
        assert (Nm : ~ In s mr) by (rewrite Mr; intros (? & _ & _ & ?); lia).
        assert (Ns : ~ In s sr) by (intros I; apply Sr in I; destruct I as [I|(a & Ea & _)]; [auto|congruence]).
        rewrite S2b, M2b by auto. rewrite G1, G2, B1, B2. auto.
    - intros s NC. assert (Nm : ~ In s mr) by (rewrite Mr; intros (s' & L & C' & _); apply (NC s' L C')).
      rewrite Sn. split.
      + unfold sview. destruct (dget s (dset n new spans)) as [a|] eqn:Ea; cbn [option_map].
        * rewrite <- adv_proj. destruct (adv x a) as [a'|] eqn:Eadv.
          -- rewrite S2b; auto; [rewrite G1, Ea, Eadv; reflexivity|]. intros I. apply Sr in I. destruct I as [I|(a0 & Ea0 & X)]; [auto|]. congruence.
          -- rewrite S2a; [reflexivity|]. right. eapply Sr2; eauto.
        * rewrite S2b; auto; [rewrite G1, Ea; reflexivity|]. intros I. apply Sr in I. destruct I as [I|(a0 & Ea0 & X)]; [auto|]. congruence.
      + unfold mview. rewrite M2b by auto. rewrite G2. destruct (completes_dec x (with_new r (sview spans) n) s) as [C'|C'].
        * apply Cmp in C'. destruct C' as (a & a' & b & E1 & E2 & E3). rewrite E1, E2, E3. cbn. f_equal. eapply fin_end; eauto.
        * destruct (dget s (dset n new spans)) as [a|] eqn:Ea; auto. destruct (adv x a) as [a'|] eqn:Eadv; auto. destruct (fin n a') as [b|] eqn:Eb; auto.
          exfalso. apply C', Cmp. exists a, a', b. auto. }
  destruct Step as [Step1 Step2]. split; [exact Step1|]. split; [exact Step2|]. split.
  - intros s a' E2. assert (Nr : ~ (In s mr \/ In s sr)) by (intros I; rewrite S2a in E2 by auto; discriminate).
    rewrite S2b in E2 by tauto. rewrite G1 in E2. destruct (dget s (dset n new spans)) as [a|] eqn:Ea; [|discriminate].
    destruct (adv x a) as [a1|] eqn:Eadv; [injection E2 as <-; exists a; auto|]. exfalso. apply Nr. right. eapply Sr2; eauto.
  - intros s b E2. assert (Nr : ~ In s mr) by (intros I; rewrite M2a in E2 by auto; discriminate).
    rewrite M2b in E2 by auto. rewrite G2 in E2. destruct (dget s (dset n new spans)) as [a|] eqn:Ea; [|auto].
    destruct (adv x a) as [a1|] eqn:Eadv; [|auto]. destruct (fin n a1) as [b1|] eqn:Eb; [|auto]. right. exists a, a1. split; auto. split; auto. congruence.
Qed.
End Loop.
