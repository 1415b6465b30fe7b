(** Proofs about the model of [Trie.process_file]. *)
From Coq Require Import ZArith NArith List Bool Lia String.
From Verif Require Import Py ListAux PyDict TrieModel NmdSpec Ex.
From Verif Require Import FileModel.
Import ListNotations.
Open Scope list_scope.

(** ** Paths *)

Lemma take_drop f l : take_while f l ++ drop_while f l = l.
Proof. induction l as [|c l IH]; cbn; auto. destruct (f c); cbn; congruence. Qed.

Lemma drop_length f l : (List.length (drop_while f l) <= List.length l)%nat.
Proof. induction l as [|c l IH]; cbn; auto. destruct (f c); cbn; lia. Qed.

Lemma take_all f l : forallb f l = true -> forall r, take_while f (l ++ r) = l ++ take_while f r.
Proof. induction l as [|c l IH]; cbn; intros F r; auto. apply andb_prop in F as [-> F]. cbn. f_equal. auto. Qed.

Lemma drop_all f l : forallb f l = true -> forall r, drop_while f (l ++ r) = drop_while f r.
Proof. induction l as [|c l IH]; cbn; intros F r; auto. apply andb_prop in F as [-> F]. auto. Qed.

Lemma split_length p : (List.length (fst (path_split p)) + List.length (snd (path_split p)) <= List.length p)%nat.
Proof.
  unfold path_split. cbn [fst snd]. pose proof (take_drop (fun c => negb (is_slash c)) (rev p)) as E. apply (f_equal (@List.length N)) in E.
  rewrite app_length, rev_length in E. rewrite rev_length. destruct forallb; rewrite rev_length; [lia|].
  pose proof (drop_length is_slash (rev (rev (drop_while (fun c => negb (is_slash c)) (rev p))))). rewrite !rev_length in H. lia.
Qed.

(** The path of a file: it does not end with a slash. *)
Definition names_file (p : path) : Prop := exists d c, p = d ++ [c] /\ c <> SLASH.

Lemma names_file_tail p : names_file p -> snd (path_split p) <> [].
Proof.
  intros (d & c & -> & Nc). unfold path_split. cbn [snd]. rewrite rev_app_distr. cbn. unfold is_slash at 1.
  destruct (N.eqb_spec c SLASH); [contradiction|]. cbn. intros E. apply (f_equal (@List.length _)) in E. rewrite app_length in E. cbn in E. lia.
Qed.

Lemma dirname_shorter p : names_file p -> (List.length (dirname p) < List.length p)%nat.
Proof.
  intros F. apply names_file_tail in F. pose proof (split_length p) as L. unfold dirname. destruct (snd (path_split p)) eqn:E; [congruence|]. cbn [List.length] in L. lia.
Qed.

Lemma dirname_app p c : forallb (fun x => negb (is_slash x)) c = true -> dirname (p ++ c) = dirname p.
Proof.
  intros F. unfold dirname, path_split. cbn [fst]. rewrite rev_app_distr. rewrite drop_all; [reflexivity|].
  rewrite forallb_forall in *. intros x I. apply F. apply in_rev. exact I.
Qed.

Lemma dirname_bare p : forallb (fun x => negb (is_slash x)) p = true -> dirname p = [].
Proof.
  intros F. change p with ([] ++ p). rewrite dirname_app; auto.
Qed.

Lemma temp_neq p : temp_path p <> p.
Proof. unfold temp_path. intros E. apply (f_equal (@List.length N)) in E. rewrite app_length in E. cbn in E. lia. Qed.

Lemma temp_length p : (List.length p < List.length (temp_path p))%nat.
Proof. unfold temp_path. rewrite app_length. cbn. lia. Qed.

Lemma temp_dirname p : dirname (temp_path p) = dirname p.
Proof. apply dirname_app. reflexivity. Qed.

Lemma stat_temp s p : stat s (temp_path p) = s (temp_path p).
Proof. unfold stat. destruct (temp_path p) eqn:E; auto. pose proof (temp_length p). rewrite E in H. cbn in H. lia. Qed.

Lemma upd_same p x s : upd p x s p = x.
Proof. unfold upd. destruct (eqd p p); congruence. Qed.

Lemma upd_other p x s q : q <> p -> upd p x s q = s q.
Proof. unfold upd. intros N. destruct (eqd q p); congruence. Qed.

(** ** Executions *)

(** [Q] holds now and after every further step; without [faults], steps at
    which the operating system refuses on its own are left out. *)
Fixpoint always (faults : bool) (Q : status -> fs -> Prop) (p : prog) (s : fs) : Prop :=
  Q (status_of p) s /\
  match p with
  | Act a k h =>
      match perform a s with (inl r, s') => always faults Q (k r) s' | (inr e, s') => always faults Q (h e) s' end /\
      (faults = true -> fallible a -> always faults Q (h OSError) s) /\
      (faults = true -> match a with
                        | Write p c => forall n b, s p = Some (File b) -> always faults Q (h OSError) (upd p (Some (File (b ++ firstn n c))) s)
                        | _ => True
                        end)
  | _ => True
  end.

Lemma always_here fl Q p s : always fl Q p s -> Q (status_of p) s.
Proof. destruct p; cbn; tauto. Qed.

Lemma always_step Q x y : step x y -> always true Q (fst x) (snd x) -> always true Q (fst y) (snd y).
Proof.
  intros St A. destruct St as [a k h s r s' E|a k h s e s' E|a k h s Fa|p c n k h s b E]; cbn [fst snd always] in *; destruct A as (_ & A1 & A2 & A3).
  - rewrite E in A1. exact A1.
  - rewrite E in A1. exact A1.
  - auto.
  - apply A3; auto.
Qed.

Lemma always_reach Q p s p' s' : always true Q p s -> reach (p, s) (p', s') -> Q (status_of p') s'.
Proof.
  intros A R. remember (p, s) as x eqn:Ex. remember (p', s') as y eqn:Ey. assert (Ax : always true Q (fst x) (snd x)) by (subst; exact A).
  clear p s A Ex. induction R as [x|x y' z St R IH].
  - subst x. apply always_here in Ax. exact Ax.
  - apply IH; auto. eapply always_step; eauto.
Qed.

Lemma always_exec Q p : forall s, always false Q p s -> Q (fst (exec p s)) (snd (exec p s)).
Proof.
  induction p as [|e|a k IHk h IHh]; intros s A; cbn in *; try tauto.
  destruct A as (_ & A & _). destruct (perform a s) as [[r|e] s']; auto.
Qed.

(** An execution without refusals is one of the executions. *)
Lemma exec_reach p : forall s, exists p', reach (p, s) (p', snd (exec p s)) /\ status_of p' = fst (exec p s).
Proof.
  induction p as [|e|a k IHk h IHh]; intros s; cbn.
  - exists Return. split; [constructor|reflexivity].
  - exists (Raise e). split; [constructor|reflexivity].
  - destruct (perform a s) as [[r|e] s'] eqn:E.
    + destruct (IHk r s') as (p' & R & St). exists p'. split; auto. eapply reach_step; [apply s_ok; exact E|exact R].
    + destruct (IHh e s') as (p' & R & St). exists p'. split; auto. eapply reach_step; [apply s_err; exact E|exact R].
Qed.

(** ** Making directories *)
Section Always.
Variables (fl : bool) (Q : status -> fs -> Prop) (s0 : fs) (output : path).
Hypothesis F : names_file output.
Notation temp := (temp_path output).

(** Nothing has happened but new directories. *)
Definition only_dirs (s : fs) : Prop :=
  forall q, s q = s0 q \/ (s0 q = None /\ s q = Some Dir /\ (List.length q < List.length output)%nat).

Lemma only_dirs_refl : only_dirs s0.
Proof. intros q. auto. Qed.

Lemma only_dirs_output s : only_dirs s -> s output = s0 output.
Proof. intros D. destruct (D output) as [E|(_ & _ & L)]; auto. lia. Qed.

Lemma only_dirs_temp s : only_dirs s -> s temp = s0 temp.
Proof. intros D. pose proof (temp_length output). destruct (D temp) as [E|(_ & _ & L)]; auto. lia. Qed.

Lemma only_dirs_file s p b : only_dirs s -> s p = Some (File b) -> s0 p = Some (File b).
Proof. intros D E. destruct (D p) as [X|(_ & X & _)]; congruence. Qed.

Lemma only_dirs_add s p : only_dirs s -> s p = None -> (List.length p < List.length output)%nat -> only_dirs (upd p (Some Dir) s).
Proof.
  intros D E L q. unfold upd. destruct (eqd q p) as [->|N]; [|apply D].
  destruct (D p) as [X|(X & Y & _)]; [|congruence]. right. repeat split; auto. congruence.
Qed.

Lemma mkdir_always name k h s : (List.length name < List.length output)%nat -> only_dirs s -> (forall s, only_dirs s -> Q Running s) ->
  (forall s, only_dirs s -> always fl Q k s) -> (forall s e, only_dirs s -> always fl Q (h e) s) -> always fl Q (Act (MkDir name) (fun _ => k) h) s.
Proof.
  intros L D Hq Hk Hh. cbn. split; [auto|]. split; [|split; auto].
  destruct (stat s name) eqn:E; [auto|]. destruct (parent_error s name) eqn:Ep; [auto|]. apply Hk. apply only_dirs_add; auto.
  destruct name; [discriminate Ep|]. exact E.
Qed.

Lemma makedirs_always : forall fuel name k h s, (List.length name < List.length output)%nat -> only_dirs s -> (forall s, only_dirs s -> Q Running s) ->
  (forall s, only_dirs s -> always fl Q k s) -> (forall s e, only_dirs s -> always fl Q (h e) s) -> always fl Q (makedirs fuel name k h) s.
Proof.
  induction fuel as [|fuel IH]; intros name k h s L D Hq Hk Hh; cbn [makedirs]; [auto|].
  pose proof (split_length name) as SL. destruct (path_split name) as [head tail]. cbn [fst snd] in SL.
  assert (SL2 : (List.length (fst (match tail with [] => path_split head | _ => (head, tail) end)) <= List.length name)%nat).
  { destruct tail; cbn [fst List.length] in *; [|lia]. pose proof (split_length head). lia. }
  destruct (match tail with [] => path_split head | _ => (head, tail) end) as [head' tail']. cbn [fst] in SL2. clear SL.
  destruct head' as [|c1 h1]; [apply mkdir_always; auto|]. destruct tail' as [|c2 t2]; [apply mkdir_always; auto|].
  cbn [always]. split; [apply Hq; auto|]. split; [|split; [intros _ []|auto]].
  cbn [perform]. cbn [yes]. destruct (stat s (c1 :: h1)); cbn [yes]; [apply mkdir_always; auto|].
  apply IH; auto; [lia| |].
  - intros s1 D1. destruct eqd; [auto|apply mkdir_always; auto].
  - intros s1 e D1. destruct e; auto. destruct eqd; [auto|apply mkdir_always; auto].
Qed.

(** ** Writing *)

(** Nothing has happened but new directories and the temporary file. *)
Definition writing (w : bytes) (s : fs) : Prop := s temp = Some (File w) /\ exists s1, only_dirs s1 /\ forall q, q <> temp -> s q = s1 q.

Lemma writing_more w w' s : writing w s -> writing w' (upd temp (Some (File w')) s).
Proof.
  intros (E & s1 & D & R). split; [apply upd_same|]. exists s1. split; auto. intros q N. rewrite upd_other; auto.
Qed.

Lemma writing_start s w : only_dirs s -> writing w (upd temp (Some (File w)) s).
Proof. intros D. split; [apply upd_same|]. exists s. split; auto. intros q N. apply upd_other, N. Qed.

Lemma write_all_always : forall chunks w k h s, writing w s -> (forall w s, writing w s -> Q Running s) ->
  (forall s, writing (w ++ List.concat chunks) s -> always fl Q k s) -> (forall w s e, writing w s -> always fl Q (h e) s) ->
  always fl Q (write_all temp chunks k h) s.
Proof.
  induction chunks as [|c chunks IH]; intros w k h s W Hq Hk Hh; cbn [write_all].
  - apply Hk. cbn. rewrite app_nil_r. exact W.
  - cbn [always]. split; [eapply Hq; eauto|]. split; [|split].
    + cbn [perform]. pose proof W as (E & _). rewrite E. apply (IH (w ++ c)); auto.
      * eapply writing_more; eauto.
      * cbn in Hk. rewrite app_assoc in Hk. exact Hk.
    + intros _ _. eapply Hh; eauto.
    + intros _ n b E. destruct W as (E' & W). rewrite E' in E. injection E as <-. eapply Hh. eapply writing_more. split; [exact E'|exact W].
Qed.
End Always.

(** ** Every moment of every execution *)
Section Crash.
Variables (fl : bool) (stream : bytes -> list bytes * option error) (format_fails : bool) (s0 : fs) (input output : path) (overwrite : bool).
Hypothesis F : names_file output.
Hypothesis Fi : input <> temp_path output.
Notation temp := (temp_path output).

(** [s] holds a finished new file for the input. *)
Definition new_content (new : bytes) : Prop :=
  exists b chunks, s0 input = Some (File b) /\ stream b = (chunks, None) /\ new = List.concat chunks.

Definition elsewhere (s : fs) : Prop := forall q, q <> output -> q <> temp -> s q = s0 q \/ (s0 q = None /\ s q = Some Dir).

Definition sound (st : status) (s : fs) : Prop :=
  elsewhere s /\
  (s output = s0 output \/
   (s0 output = None \/ (overwrite = true /\ s0 output <> Some Dir)) /\
   exists new, new_content new /\ (s output = None /\ s temp = Some (File new) \/ s output = Some (File new) /\ s temp = None)) /\
  match st with
  | Running => True
  | Finished => (overwrite = false /\ s0 output <> None /\ forall q, s q = s0 q) \/
                exists new, new_content new /\ s output = Some (File new) /\ s temp = None
  | Failed e => (e = IndexFailed /\ format_fails = true /\ exists new, new_content new /\ s output = Some (File new) /\ s temp = None) \/
                (fl = false -> s output = s0 output /\ (s temp = s0 temp \/ s temp = None \/ s0 output = Some Dir)) /\
                (s output = s0 output \/ exists new, new_content new /\ s output = None /\ s temp = Some (File new))
  end.

Lemma output_stat s : stat s output = s output.
Proof. destruct F as (d & c & -> & _). destruct d; reflexivity. Qed.

Lemma writing_elsewhere w s : writing s0 output w s -> elsewhere s.
Proof. intros (_ & s1 & D & R) q N1 N2. rewrite R by auto. destruct (D q) as [E|(E1 & E2 & _)]; auto. Qed.

Lemma writing_output w s : writing s0 output w s -> s output = s0 output.
Proof. intros (_ & s1 & D & R). rewrite R by (intros E; symmetry in E; revert E; apply temp_neq). eapply only_dirs_output; eauto. Qed.

Lemma dirs_elsewhere s : only_dirs s0 output s -> elsewhere s.
Proof. intros D q _ _. destruct (D q) as [E|(E1 & E2 & _)]; auto. Qed.

Lemma dirs_running s : only_dirs s0 output s -> sound Running s.
Proof. intros D. split; [apply dirs_elsewhere; auto|]. split; auto. left. eapply only_dirs_output; eauto. Qed.

Lemma dirs_failed s e : only_dirs s0 output s -> sound (Failed e) s.
Proof.
  intros D. split; [apply dirs_elsewhere; auto|]. pose proof (only_dirs_output s0 output s D) as Eo. split; auto.
  right. split; auto. intros _. split; auto. left. eapply only_dirs_temp; eauto.
Qed.

Lemma writing_running w s : writing s0 output w s -> sound Running s.
Proof. intros W. split; [eapply writing_elsewhere; eauto|]. split; auto. left. eapply writing_output; eauto. Qed.

(** Out of the exception handler *)
Lemma clean_up_always w s e : writing s0 output w s -> always fl sound (clean_up output e) s.
Proof.
  intros W. pose proof (writing_output w s W) as Eo. pose proof (writing_elsewhere w s W) as El. pose proof W as (Et & _).
  assert (N : output <> temp) by (intros E; symmetry in E; revert E; apply temp_neq).
  assert (Eo2 : upd temp None s output = s0 output) by (rewrite upd_other; auto).
  unfold clean_up. cbn [always status_of]. split; [eapply writing_running; eauto|]. split; [|split; auto].
  - cbn [perform]. rewrite stat_temp, Et. cbn [always status_of]. split; [|trivial].
    split; [|split; [left; exact Eo2|]].
    + intros q N1 N2. rewrite upd_other by auto. apply El; auto.
    + right. split; [intros _; split; auto; right; left; apply upd_same|]. left. exact Eo2.
  - intros Ff _. cbn [always status_of]. split; [|trivial]. split; [auto|]. split; [auto|]. right. split; [congruence|]. auto.
Qed.

Lemma clean_up_dirs s e : only_dirs s0 output s -> (fl = false -> match s temp with Some (File _) => False | _ => True end) -> always fl sound (clean_up output e) s.
Proof.
  intros D NF. pose proof (only_dirs_output s0 output s D) as Eo. pose proof (only_dirs_temp s0 output s D) as Et.
  assert (N : output <> temp) by (intros E; symmetry in E; revert E; apply temp_neq).
  unfold clean_up. cbn [always status_of]. split; [apply dirs_running; auto|]. split; [|split; auto].
  - cbn [perform]. rewrite stat_temp. destruct (s temp) as [[b|]|] eqn:E; cbn [always status_of]; (split; [|trivial]).
    + split; [|split; [left; rewrite upd_other; auto|]].
      * intros q N1 N2. rewrite upd_other by auto. apply dirs_elsewhere; auto.
      * right. split; [intros Ff; destruct (NF Ff)|]. left. rewrite upd_other; auto.
    + apply dirs_failed; auto.
    + apply dirs_failed; auto.
  - intros Ff _. cbn [always status_of]. split; [|trivial]. apply dirs_failed; auto.
Qed.

Lemma publish_always new s : writing s0 output new s -> new_content new -> (s0 output = None \/ overwrite = true) -> always fl sound (publish format_fails output) s.
Proof.
  intros W C Ov. pose proof (writing_output new s W) as Eo. pose proof (writing_elsewhere new s W) as El. pose proof W as (Et & _).
  assert (N : output <> temp) by (intros E; symmetry in E; revert E; apply temp_neq).
  assert (R : forall s', (forall q, q <> output -> s' q = s q) -> s' output = None -> (s0 output = None \/ (overwrite = true /\ s0 output <> Some Dir)) ->
     always fl sound (Act (Rename temp output) (fun _ => if format_fails then Raise IndexFailed else Return) Raise) s').
  { intros s' Es Eo' Ov'. assert (El' : elsewhere s') by (intros q N1 N2; rewrite Es by auto; apply El; auto).
    assert (Et' : s' temp = Some (File new)) by (rewrite Es by auto; exact Et).
    assert (So : s' output = s0 output \/ (s0 output = None \/ (overwrite = true /\ s0 output <> Some Dir)) /\ (exists new0, new_content new0 /\ (s' output = None /\ s' temp = Some (File new0) \/ s' output = Some (File new0) /\ s' temp = None))).
    { right. split; auto. exists new. auto. }
    cbn [always status_of]. split; [split; [auto|split; [auto|trivial]]|]. split; [|split; auto].
    - cbn [perform]. rewrite stat_temp, Et', output_stat, Eo'.
      set (s2 := upd temp None (upd output (Some (File new)) s')).
      assert (O2 : s2 output = Some (File new)) by (unfold s2; rewrite upd_other by auto; apply upd_same).
      assert (T2 : s2 temp = None) by (unfold s2; apply upd_same).
      assert (E2 : elsewhere s2) by (intros q N1 N2; unfold s2; rewrite !upd_other by auto; apply El'; auto).
      destruct format_fails eqn:Eff; cbn [always status_of]; (split; [|trivial]); (split; [exact E2|split; [right; split; auto; exists new; auto|]]).
      + left. split; [reflexivity|]. split; [assumption|]. exists new. auto.
      + right. exists new. auto.
    - intros Ff _. cbn [always status_of]. split; [|trivial]. split; auto. split; auto. right. split; [congruence|]. right. exists new. auto. }
  assert (R0 : sound Running s) by (eapply writing_running; eauto).
  unfold publish. cbn [always status_of]. split; [auto|]. split; [|split; [intros _ []|auto]].
  cbn [perform]. rewrite output_stat. destruct (s output) as [x|] eqn:Ex; cbn [yes].
  - cbn [always status_of]. split; [auto|]. split; [|split; auto].
    + cbn [perform]. rewrite output_stat, Ex. destruct x as [c|].
      * apply R; [intros q Nq; apply upd_other, Nq|apply upd_same|]. right. destruct Ov as [Ov|Ov]; [rewrite Ov in Eo; discriminate|]. split; auto. congruence.
      * cbn [always status_of]. split; [|trivial]. split; [auto|]. split; [left; congruence|]. right. split; [|left; congruence]. intros _. split; [congruence|]. right. right. congruence.
    + intros Ff _. cbn [always status_of]. split; [|trivial]. split; [auto|]. split; [left; congruence|]. right. split; [congruence|]. left. congruence.
  - apply R; auto.
Qed.

Lemma rewrite_always s : only_dirs s0 output s -> (s0 output = None \/ overwrite = true) -> always fl sound (rewrite_file stream format_fails input output) s.
Proof.
  intros D Ov. unfold rewrite_file. cbn [always status_of]. split; [apply dirs_running; auto|].
  assert (Go : forall s1, only_dirs s0 output s1 -> s1 = s -> always fl sound
     (Act (OpenRead input) (fun r => match r with
        | Content b => let (chunks, failure) := stream b in write_all temp chunks (match failure with None => publish format_fails output | Some e => clean_up output e end) (clean_up output)
        | _ => clean_up output OtherFailed end) (clean_up output)) (upd temp (Some (File [])) s1)).
  { intros s1 D1 _. pose proof (writing_start s0 output s1 [] D1) as W. cbn [always status_of]. split; [eapply writing_running; eauto|].
    split; [|split; auto; intros _ _; eapply clean_up_always; eauto].
    cbn [perform]. assert (Es : stat (upd temp (Some (File [])) s1) input = stat s1 input) by (unfold stat; destruct input; auto; apply upd_other; auto).
    rewrite Es. destruct (stat s1 input) as [[b|]|] eqn:E; [|eapply clean_up_always; eauto|eapply clean_up_always; eauto].
    destruct (stream b) as [chunks failure] eqn:Eb.
    assert (E0 : s0 input = Some (File b)) by (eapply only_dirs_file; eauto; destruct input; [discriminate|exact E]).
    eapply write_all_always; [exact W| | |].
    - intros w s2 W2. eapply writing_running; eauto.
    - intros s2 W2. destruct failure as [e|]; [eapply clean_up_always; eauto|]. cbn [app] in W2. eapply publish_always; eauto. exists b, chunks. auto.
    - intros w s2 e W2. eapply clean_up_always; eauto. }
  split; [|split].
  - cbn [perform]. rewrite stat_temp. destruct (s temp) as [[b|]|] eqn:E.
    + apply Go; auto.
    + apply clean_up_dirs; auto. rewrite E. auto.
    + destruct (parent_error s temp); [apply clean_up_dirs; auto; rewrite E; auto|apply Go; auto].
  - intros Ff _. apply clean_up_dirs; auto. congruence.
  - auto.
Qed.

Lemma process_always : always fl sound (process_file stream format_fails input output overwrite) s0.
Proof.
  pose proof (only_dirs_refl s0 output) as D0. pose proof (dirname_shorter output F) as Ld.
  unfold process_file. cbn [always status_of]. split; [apply dirs_running; auto|]. split; [|split; [intros _ []|auto]].
  cbn [perform]. rewrite output_stat.
  assert (Sz : forall s, only_dirs s0 output s -> s0 output = None \/ overwrite = true -> always fl sound (sized stream format_fails input output) s).
  { intros s D Ov. unfold sized. cbn [always status_of]. split; [apply dirs_running; auto|]. split; [|split; auto].
    - cbn [perform]. destruct (stat s input); [apply rewrite_always; auto|]. cbn [always status_of]. split; [apply dirs_failed; auto|trivial].
    - intros _ _. cbn. split; [apply dirs_failed; auto|trivial]. }
  assert (Go : s0 output = None \/ overwrite = true -> always fl sound
    (Act (IsDir (dirname output)) (fun r =>
      if yes r then sized stream format_fails input output
      else Act (Exists (dirname output)) (fun r =>
             if yes r then Raise AssertionFailed
             else makedirs (S (List.length (dirname output))) (dirname output) (sized stream format_fails input output) Raise) Raise) Raise) s0).
  { intros Ov. cbn [always status_of]. split; [apply dirs_running; auto|]. split; [|split; [intros _ []|auto]].
    cbn [perform].
    assert (Go2 : always fl sound (Act (Exists (dirname output)) (fun r =>
             if yes r then Raise AssertionFailed
             else makedirs (S (List.length (dirname output))) (dirname output) (sized stream format_fails input output) Raise) Raise) s0).
    { cbn [always status_of]. split; [apply dirs_running; auto|]. split; [|split; [intros _ []|auto]].
      cbn [perform]. destruct (stat s0 (dirname output)); cbn [yes].
      - cbn. split; [apply dirs_failed; auto|trivial].
      - apply (makedirs_always fl sound s0 output); auto.
        + apply dirs_running.
        + intros s e D. cbn. split; [apply dirs_failed; auto|trivial]. }
    destruct (stat s0 (dirname output)) as [[b|]|]; cbn [yes]; auto. }
  destruct (s0 output) as [x|] eqn:Ex; cbn [yes andb].
  - destruct overwrite eqn:Eov; cbn [negb].
    + apply Go. auto.
    + cbn. split; [|trivial]. split; [apply dirs_elsewhere; auto|]. split; auto. left. repeat split; auto. congruence.
  - apply Go. auto.
Qed.
End Crash.
