(** The BK-tree of experiments/automata.py. *)
From Coq Require Import ZArith List Bool Lia.
From Verif Require Import Py PyDict ListAux EditSpec EditProofs EditModel EditDp.
Import ListNotations.
Open Scope Z_scope.

Section Bk.
Context {A : Type} `{EqDec A}.
Notation zd := (zdist unit_costs).

Lemma zd_triangle (u v w : list A) : zd u w <= zd u v + zd v w.
Proof.
  destruct (zd_least u v) as [L1 [S1 _]]. destruct (zd_least v w) as [L2 [S2 _]]. destruct (zd_least u w) as [L3 [_ M]].
  pose proof (M _ (steps_app _ _ _ _ _ S1 S2)). lia.
Qed.

Section Ind.
Variable P : bk A -> Prop.
Hypothesis step : forall t cs, Forall (fun dc => P (snd dc)) cs -> P (BKNode t cs).
Fixpoint bk_ind' (n : bk A) : P n :=
  match n with
  | BKNode t cs => step t cs ((fix go (l : list (Z * bk A)) : Forall (fun dc => P (snd dc)) l :=
      match l with [] => Forall_nil _ | dc :: l' => Forall_cons _ (bk_ind' (snd dc)) (go l') end) cs)
  end.
End Ind.

Fixpoint terms (n : bk A) : list (list A) :=
  match n with BKNode t cs => t :: (fix go (l : list (Z * bk A)) := match l with [] => [] | (_, c) :: l' => terms c ++ go l' end) cs end.
Definition terms_of (cs : list (Z * bk A)) : list (list A) := flat_map (fun dc => terms (snd dc)) cs.
Lemma terms_unfold t cs : terms (BKNode t cs) = t :: terms_of cs.
Proof. cbn [terms]. f_equal. induction cs as [|[d c] cs IH]; [reflexivity|]. unfold terms_of. cbn [flat_map snd]. f_equal. exact IH. Qed.

(** Everything below the child for [d] is at distance [d]. *)
Inductive sorted_out : bk A -> Prop :=
| so t cs : NoDup (map fst cs) -> (forall d c, In (d, c) cs -> sorted_out c /\ forall w, In w (terms c) -> zd t w = d) -> sorted_out (BKNode t cs).

Lemma in_terms_of w cs : In w (terms_of cs) <-> exists d c, In (d, c) cs /\ In w (terms c).
Proof.
  unfold terms_of. rewrite in_flat_map. split; [intros ([d c] & I & J); eauto|intros (d & c & I & J); exists (d, c); auto].
Qed.

Lemma bk_insert_ok n other : sorted_out n -> exists n', bk_insert n other = Ok n' /\ sorted_out n' /\ bk_term n' = bk_term n /\
  forall w, In w (terms n') <-> w = other \/ In w (terms n).
Proof.
  revert other. induction n as [t cs IH] using bk_ind'. intros other S. inversion S as [t' cs' D F E]; subst. cbn [bk_insert]. rewrite levenshtein_ok. cbn [bind].
  set (dist := zd t other).
  set (go := fix go (l : list (Z * bk A)) : result (list (Z * bk A)) :=
        match l with
        | [] => Ok [(dist, bk_new other)]
        | (d, child) :: l' =>
            if d =? dist then child' <- bk_insert child other ;; Ok ((d, child') :: l')
            else l'' <- go l' ;; Ok ((d, child) :: l'')
        end).
  assert (G : exists cs', go cs = Ok cs' /\ NoDup (map fst cs') /\ (forall d, In d (map fst cs') <-> d = dist \/ In d (map fst cs)) /\
    (forall d c, In (d, c) cs' -> sorted_out c /\ forall w, In w (terms c) -> zd t w = d) /\
    forall w, In w (terms_of cs') <-> w = other \/ In w (terms_of cs)).
  { assert (F' : forall d c, In (d, c) cs -> sorted_out c /\ forall w, In w (terms c) -> zd t w = d) by auto.
    clear S F. revert IH D F'. induction cs as [|[d c] cs IHc]; intros IH D F; cbn [go].
    - exists [(dist, bk_new other)]. split; [reflexivity|]. split; [repeat constructor; intros []|]. split; [intros d; cbn; intuition|].
      split; [|intros w; cbn; intuition]. intros d c [[= <- <-]|[]]. split; [constructor; [constructor|intros ? ? []]|]. intros w [<-|[]]. reflexivity.
    - inversion IH as [|? ? Hc Hcs]; subst. cbn [map fst] in D. inversion D as [|? ? Nd Dd]; subst. cbn [snd] in Hc.
      destruct (F d c) as [Sc Tc]; [left; auto|]. destruct (Z.eqb_spec d dist) as [->|N].
      + destruct (Hc other Sc) as (c' & Ec & Sc' & _ & Tc'). rewrite Ec. cbn [bind]. exists ((dist, c') :: cs). split; [reflexivity|].
        split; [cbn [map fst]; constructor; auto|]. split; [intros d; cbn [map fst In]; intuition|]. split.
        * intros d' c2 [[= <- <-]|I]; [|apply F; right; auto]. split; auto. intros w I. apply Tc' in I. destruct I as [->|I]; [reflexivity|apply Tc; auto].
        * intros w. unfold terms_of. cbn [flat_map snd]. rewrite !in_app_iff, Tc'. intuition.
      + destruct (IHc Hcs Dd) as (cs' & Ecs & Dcs & Kcs & Fcs & Tcs); [intros d' c' I; apply F; right; auto|]. rewrite Ecs. cbn [bind].
        exists ((d, c) :: cs'). split; [reflexivity|]. split; [cbn [map fst]; constructor; auto; rewrite Kcs; intros [E|E]; auto|].
        split; [intros d'; cbn [map fst In]; rewrite Kcs; intuition|]. split.
        * intros d' c2 [[= <- <-]|I]; auto.
        * intros w. unfold terms_of in *. cbn [flat_map snd]. rewrite !in_app_iff, Tcs. intuition. }
  destruct G as (cs' & Ecs & Dcs & _ & Fcs & Tcs). rewrite Ecs. cbn [bind]. exists (BKNode t cs'). split; [reflexivity|]. split; [constructor; auto|]. split; [reflexivity|].
  intros w. rewrite !terms_unfold. cbn [In]. rewrite Tcs. intuition.
Qed.

Lemma bk_search_ok n term k : sorted_out n -> exists out counter, bk_search_ n term k = Ok (out, counter) /\
  (forall w, In w out <-> In w (terms n) /\ zd w term <= k).
Proof.
  induction n as [t cs IH] using bk_ind'. intros S. inversion S as [t' cs' D F E]; subst. cbn [bk_search_]. rewrite levenshtein_ok. cbn [bind].
  set (dist := zd t term). 
  set (results := (fix go (l : list (Z * bk A)) : list (Z * result (list (list A) * Z)) :=
        match l with [] => [] | (d, child) :: l' => (d, bk_search_ child term k) :: go l' end) cs).
  assert (R : results = map (fun dc => (fst dc, bk_search_ (snd dc) term k)) cs).
  { unfold results. clear. induction cs as [|[d c] cs IH]; [reflexivity|]. cbn [map fst snd]. f_equal. exact IH. }
  clearbody results. subst results.
  assert (Get : forall d, dget d (map (fun dc => (fst dc, bk_search_ (snd dc) term k)) cs) = match dget d cs with Some c => Some (bk_search_ c term k) | None => None end).
  { intros d. clear. induction cs as [|[d' c] cs IH]; [reflexivity|]. cbn [map dget fst snd]. destruct (eqd d d'); auto. }
  assert (Ch : forall d c, dget d cs = Some c -> exists out counter, bk_search_ c term k = Ok (out, counter) /\ forall w, In w out <-> In w (terms c) /\ zd w term <= k).
  { intros d c Ed. apply dget_In in Ed. rewrite Forall_forall in IH. apply (IH (d, c) Ed). apply (F d c Ed). }
  assert (G : forall ds out0 c0, exists out c1, foldM (fun (st : list (list A) * Z) dist_ =>
        match dget dist_ (map (fun dc => (fst dc, bk_search_ (snd dc) term k)) cs) with
        | None => Ok st
        | Some r => res <- r ;; Ok (fst st ++ fst res, snd st + snd res)
        end) ds (out0, c0) = Ok (out, c1) /\
      forall w, In w out <-> In w out0 \/ exists d c, In d ds /\ In (d, c) cs /\ In w (terms c) /\ zd w term <= k).
  { induction ds as [|d ds IHd]; intros out0 c0; cbn [foldM].
    - exists out0, c0. split; [reflexivity|]. intros w. split; auto. intros [I|(d & c & [] & _)]; auto.
    - rewrite Get. destruct (dget d cs) as [c|] eqn:Ed.
      + destruct (Ch d c Ed) as (o & cn & Er & Ho). rewrite Er. cbn [bind fst snd]. destruct (IHd (out0 ++ o) (c0 + cn)) as (out & c1 & E1 & Hout).
        exists out, c1. split; auto. intros w. rewrite Hout, in_app_iff, Ho. split.
        * intros [[I|[I L]]|(d' & c' & I1 & I2 & I3 & L)]; auto; right; [exists d, c|exists d', c']; cbn; split; auto; split; auto. apply dget_In; auto.
        * intros [I|(d' & c' & [->|I1] & I2 & I3 & L)]; auto; [|right; exists d', c'; auto]. left. right.
          assert (c' = c) as <-; auto. apply In_dget in I2; [congruence|auto].
      + cbn [bind]. destruct (IHd out0 c0) as (out & c1 & E1 & Hout). exists out, c1. split; auto. intros w. rewrite Hout. split.
        * intros [I|(d' & c' & I1 & I2 & I3 & L)]; auto. right. exists d', c'. cbn. auto.
        * intros [I|(d' & c' & [->|I1] & I2 & I3 & L)]; auto; [|right; exists d', c'; auto]. apply In_dget in I2; [congruence|auto]. }
  edestruct G as (out & c1 & E1 & Hout). exists out, c1. split; [exact E1|]. intros w. rewrite Hout, terms_unfold. cbn [In]. rewrite in_terms_of. split.
  - intros [I|(d & c & I1 & I2 & I3 & L)].
    + destruct (Z.leb_spec dist k) as [L|L]; [|destruct I]. destruct I as [<-|[]]. auto.
    + split; auto. right. eauto.
  - intros [[<-|(d & c & I & J)] L].
    + left. destruct (Z.leb_spec dist k) as [L'|L']; [left; auto|]. unfold dist in L'. lia.
    + right. exists d, c. split; auto. apply py_range_in. destruct (F d c I) as [_ T]. specialize (T w J).
      pose proof (zd_triangle t w term). pose proof (zd_triangle t term w). rewrite (zd_sym term w) in *. destruct (zd_least t w) as [L0 _]. fold dist in H0, H1. lia.
Qed.

Fixpoint bk_build (n : bk A) (ws : list (list A)) : result (bk A) :=
  match ws with [] => Ok n | w :: ws' => n' <- bk_insert n w ;; bk_build n' ws' end.

Lemma bk_build_ok n ws : sorted_out n -> exists n', bk_build n ws = Ok n' /\ sorted_out n' /\ forall w, In w (terms n') <-> In w ws \/ In w (terms n).
Proof.
  revert n. induction ws as [|w ws IH]; intros n S; cbn [bk_build]; [exists n; split; auto; split; auto; intros w; cbn; tauto|].
  destruct (bk_insert_ok n w S) as (n1 & E1 & S1 & _ & T1). rewrite E1. cbn [bind]. destruct (IH n1 S1) as (n2 & E2 & S2 & T2).
  exists n2. split; auto. split; auto. intros x. rewrite T2, T1. cbn [In]. intuition.
Qed.

Lemma sorted_new t : sorted_out (bk_new t).
Proof. constructor; [constructor|intros ? ? []]. Qed.
End Bk.
