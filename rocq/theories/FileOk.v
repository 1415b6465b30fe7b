(** [Trie.process_file] when nothing goes wrong. *)
From Coq Require Import ZArith NArith List Bool Lia String.
From Verif Require Import Py ListAux PyDict TrieModel NmdSpec Ex.
From Verif Require Import FileModel FileProofs.
Import ListNotations.
Open Scope list_scope.

(** A directory that [os.makedirs] can create: some of its last components are
    missing, and what they are to be created in is a directory. *)
Inductive can_make (s : fs) : path -> Prop :=
| make_here d : path_split d = ([], d) -> d <> [] -> s d = None -> can_make s d
| make_in d head tail : path_split d = (head, tail) -> head <> [] -> tail <> [] -> s head = Some Dir -> s d = None -> can_make s d
| make_deep d head tail : path_split d = (head, tail) -> head <> [] -> tail <> [] -> tail <> w_ "." -> can_make s head -> s d = None -> can_make s d.

Lemma can_make_none s d : can_make s d -> s d = None.
Proof. induction 1; auto. Qed.

Lemma can_make_nonempty s d : can_make s d -> d <> [].
Proof.
  destruct 1 as [d Es Nd En|d head tail Es Nh Nt Eh En|d head tail Es Nh Nt Nt2 C En]; auto; intros ->; injection Es as <- <-; apply Nt; reflexivity.
Qed.

Lemma exec_act a k h s : exec (Act a k h) s = match perform a s with (inl r, s') => exec (k r) s' | (inr e, s') => exec (h e) s' end.
Proof. reflexivity. Qed.

Lemma exec_mkdir name k h s : name <> [] -> s name = None -> parent_error s name = None -> exec (Act (MkDir name) (fun _ => k) h) s = exec k (upd name (Some Dir) s).
Proof.
  intros N E P. rewrite exec_act. unfold perform. replace (stat s name) with (s name) by (destruct name; [congruence|reflexivity]). rewrite E, P. reflexivity.
Qed.

Lemma exec_makedirs s : forall fuel d k h, (List.length d < fuel)%nat -> can_make s d ->
  exists s', exec (makedirs fuel d k h) s = exec k s' /\ s' d = Some Dir /\
    forall q, s' q = s q \/ (s q = None /\ s' q = Some Dir /\ (List.length q <= List.length d)%nat).
Proof.
  induction fuel as [|fuel IH]; intros d k h L C; [lia|].
  assert (Add : forall s1 head tail, path_split d = (head, tail) -> tail <> [] -> (head = [] \/ s1 head = Some Dir) -> s1 d = None ->
     exec (Act (MkDir d) (fun _ => k) h) s1 = exec k (upd d (Some Dir) s1)).
  { intros s1 head tail Es Nt Hd En. assert (Nd : d <> []) by (intros ->; injection Es as <- <-; apply Nt; reflexivity).
    apply exec_mkdir; auto. unfold parent_error, dirname. rewrite Es. cbn [fst]. destruct d as [|c d]; [congruence|]. destruct head as [|x head]; [reflexivity|].
    destruct Hd as [Hd|Hd]; [discriminate|]. rewrite Hd. reflexivity. }
  pose proof (split_length d) as SL.
  destruct C as [d Es Nd En|d head tail Es Nh Nt Eh En|d head tail Es Nh Nt Nt2 C En]; rewrite Es in SL; cbn [fst snd] in SL; cbn [makedirs]; rewrite Es.
  - assert (Nn : exists x y, d = x :: y) by (destruct d as [|x y]; [congruence|eauto]).
    assert (X : exec (makedirs (S fuel) d k h) s = exec (Act (MkDir d) (fun _ => k) h) s) by (cbn [makedirs]; rewrite Es; destruct Nn as (x & y & ->); reflexivity).
    cbn [makedirs] in X. rewrite Es in X. rewrite X.
    rewrite (Add s [] d Es Nd (or_introl eq_refl) En). eexists. split; [reflexivity|]. split; [apply upd_same|].
    intros q. unfold upd. destruct (eqd q d) as [->|]; auto.
  - destruct tail as [|t0 tail]; [congruence|]. destruct head as [|h0 head]; [congruence|].
    rewrite exec_act. cbn [perform stat]. rewrite Eh. cbn [yes]. rewrite (Add s _ _ Es Nt (or_intror Eh) En). eexists. split; [reflexivity|]. split; [apply upd_same|].
    intros q. unfold upd. destruct (eqd q d) as [->|]; auto.
  - destruct tail as [|t0 tail]; [congruence|]. destruct head as [|h0 head]; [congruence|].
    rewrite exec_act. cbn [perform stat]. rewrite (can_make_none _ _ C). cbn [yes]. destruct eqd as [X|_]; [congruence|].
    assert (Lh : (List.length (h0 :: head) < fuel)%nat) by (cbn [List.length] in *; lia).
    destruct (IH (h0 :: head) (Act (MkDir d) (fun _ => k) h) (fun e => match e with FileExistsError => Act (MkDir d) (fun _ => k) h | _ => h e end) Lh C) as (s1 & E1 & D1 & R1).
    assert (En1 : s1 d = None). { destruct (R1 d) as [X|(_ & _ & X)]; [congruence|]. cbn [List.length] in *. lia. }
    rewrite E1, (Add s1 _ _ Es Nt (or_intror D1) En1). eexists. split; [reflexivity|]. split; [apply upd_same|].
    intros q. unfold upd. destruct (eqd q d) as [->|]; [auto|]. destruct (R1 q) as [X|(X1 & X2 & X3)]; auto. right. repeat split; auto. cbn [List.length] in *. lia.
Qed.

Lemma exec_write_all p : forall chunks w k h s, s p = Some (File w) ->
  exists s', exec (write_all p chunks k h) s = exec k s' /\ s' p = Some (File (w ++ List.concat chunks)) /\ forall q, q <> p -> s' q = s q.
Proof.
  induction chunks as [|c chunks IH]; intros w k h s E; cbn [write_all].
  - exists s. cbn. rewrite app_nil_r. auto.
  - rewrite exec_act. cbn [perform]. rewrite E. destruct (IH (w ++ c) k h (upd p (Some (File (w ++ c))) s)) as (s' & E1 & E2 & E3); [apply upd_same|].
    exists s'. cbn. rewrite app_assoc. repeat split; auto. intros q N. rewrite E3, upd_other; auto.
Qed.

Lemma stat_file s p : names_file p -> stat s p = s p.
Proof. intros (d & c & -> & _). destruct d; reflexivity. Qed.

Section Ok.
Variables (stream : bytes -> list bytes * option error) (format_fails : bool).

Lemma exec_process_file s0 input output overwrite b chunks :
  names_file output -> input <> temp_path output ->
  stat s0 input = Some (File b) -> stream b = (chunks, None) ->
  s0 (temp_path output) <> Some Dir ->
  s0 output = None \/ (overwrite = true /\ s0 output <> Some Dir) ->
  stat s0 (dirname output) = Some Dir \/ can_make s0 (dirname output) ->
  exists s', exec (process_file stream format_fails input output overwrite) s0 = (if format_fails then Failed IndexFailed else Finished, s') /\
    s' output = Some (File (List.concat chunks)) /\ s' (temp_path output) = None /\
    forall q, q <> output -> q <> temp_path output -> s' q = s0 q \/ (s0 q = None /\ s' q = Some Dir).
Proof.
  intros F Ni Ei Es Nt Ov Dd. set (temp := temp_path output) in *.
  assert (N : output <> temp) by (intros E; symmetry in E; revert E; apply temp_neq).
  pose proof (dirname_shorter output F) as Ld.
  assert (Lt : (List.length output < List.length temp)%nat) by apply temp_length.
  (* after the directories *)
  assert (Rest : forall s1, stat s1 (dirname output) = Some Dir ->
     (forall q, s1 q = s0 q \/ (s0 q = None /\ s1 q = Some Dir /\ (List.length q <= List.length (dirname output))%nat)) ->
     exists s', exec (sized stream format_fails input output) s1 = (if format_fails then Failed IndexFailed else Finished, s') /\
       s' output = Some (File (List.concat chunks)) /\ s' temp = None /\ forall q, q <> output -> q <> temp -> s' q = s1 q).
  { intros s1 D1 R1. assert (Ei1 : stat s1 input = Some (File b)).
    { destruct input as [|c i]; [discriminate|]. cbn in *. destruct (R1 (c :: i)) as [X|(X & _)]; congruence. }
    assert (Eo1 : s1 output = s0 output) by (destruct (R1 output) as [X|(_ & _ & X)]; [auto|lia]).
    assert (Et1 : s1 temp = s0 temp) by (destruct (R1 temp) as [X|(_ & _ & X)]; [auto|lia]).
    unfold sized. rewrite exec_act. cbn [perform]. rewrite Ei1. unfold rewrite_file. fold temp. rewrite exec_act. cbn [perform].
    assert (Op : (match stat s1 temp with
                 | Some Dir => (inr IsADirectoryError, s1)
                 | Some (File _) => (inl Unit, upd temp (Some (File [])) s1)
                 | None => match parent_error s1 temp with Some e => (inr e, s1) | None => (inl Unit, upd temp (Some (File [])) s1) end
                 end : (reply + error) * fs) = (inl Unit, upd temp (Some (File [])) s1)).
    { unfold temp. rewrite stat_temp. fold temp. destruct (s1 temp) as [[c|]|] eqn:E; [reflexivity|congruence|].
      unfold parent_error. unfold temp at 1. rewrite temp_dirname. fold temp. destruct (dirname output) as [|x d] eqn:Ed; [discriminate|]. cbn [stat] in D1. rewrite D1. reflexivity. }
    rewrite Op. rewrite exec_act. cbn [perform].
    assert (Er : stat (upd temp (Some (File [])) s1) input = Some (File b)).
    { rewrite <- Ei1. unfold stat. destruct input; auto. apply upd_other. auto. }
    rewrite Er, Es. destruct (exec_write_all temp chunks [] (publish format_fails output) (clean_up output) (upd temp (Some (File [])) s1)) as (s2 & E2 & T2 & R2); [apply upd_same|].
    rewrite E2. cbn [app] in T2.
    assert (Eo2 : s2 output = s0 output) by (rewrite R2, upd_other; auto).
    assert (Ro : forall s3, (forall q, q <> output -> s3 q = s2 q) -> s3 output = None ->
       exists s', exec (Act (Rename temp output) (fun _ => if format_fails then Raise IndexFailed else Return) Raise) s3 = (if format_fails then Failed IndexFailed else Finished, s') /\
         s' output = Some (File (List.concat chunks)) /\ s' temp = None /\ forall q, q <> output -> q <> temp -> s' q = s2 q).
    { intros s3 R3 O3. rewrite exec_act. cbn [perform]. assert (T3 : stat s3 temp = Some (File (List.concat chunks))).
      { unfold temp. rewrite stat_temp. fold temp. rewrite R3; auto. }
      rewrite T3, stat_file, O3 by auto. eexists. split; [destruct format_fails; reflexivity|]. split; [rewrite upd_other by auto; apply upd_same|]. split; [apply upd_same|].
      intros q Nq1 Nq2. rewrite !upd_other by auto. auto. }
    assert (Fin : exists s', exec (publish format_fails output) s2 = (if format_fails then Failed IndexFailed else Finished, s') /\
         s' output = Some (File (List.concat chunks)) /\ s' temp = None /\ forall q, q <> output -> q <> temp -> s' q = s2 q).
    { unfold publish. rewrite exec_act. cbn [perform]. rewrite stat_file by auto. destruct (s2 output) as [x|] eqn:Ex; cbn [yes].
      - rewrite exec_act. cbn [perform]. rewrite stat_file, Ex by auto. destruct x as [c|]; [|destruct Ov as [Ov|[_ Ov]]; congruence].
        apply Ro; [intros q Nq; apply upd_other, Nq|apply upd_same].
      - apply Ro; auto. }
    destruct Fin as (s' & E' & O' & T' & R'). exists s'. repeat split; auto. intros q Nq1 Nq2. rewrite R', R2, upd_other; auto. }
  unfold process_file. rewrite exec_act. cbn [perform]. rewrite stat_file by auto.
  assert (Go : exists s', exec (Act (IsDir (dirname output)) (fun r =>
      if yes r then sized stream format_fails input output
      else Act (Exists (dirname output)) (fun r =>
             if yes r then Raise AssertionFailed
             else makedirs (S (List.length (dirname output))) (dirname output) (sized stream format_fails input output) Raise) Raise) Raise) s0
      = (if format_fails then Failed IndexFailed else Finished, s') /\
      s' output = Some (File (List.concat chunks)) /\ s' temp = None /\
      forall q, q <> output -> q <> temp -> s' q = s0 q \/ (s0 q = None /\ s' q = Some Dir)).
  { rewrite exec_act. cbn [perform]. destruct Dd as [Dd|Dd].
    - rewrite Dd. cbn [yes]. destruct (Rest s0 Dd) as (s' & E & O & T & R); [auto|]. exists s'. repeat split; auto. 
    - assert (Sn : stat s0 (dirname output) = None) by (unfold stat; destruct (dirname output) eqn:E; auto; eapply can_make_none; eauto).
      rewrite Sn. cbn [yes]. rewrite exec_act. cbn [perform]. rewrite Sn. cbn [yes].
      destruct (exec_makedirs s0 (S (List.length (dirname output))) (dirname output) (sized stream format_fails input output) Raise (Nat.lt_succ_diag_r _) Dd) as (s1 & E1 & D1 & R1).
      rewrite E1. destruct (Rest s1) as (s' & E & O & T & R).
      + unfold stat. destruct (dirname output) eqn:E; auto. exfalso. eapply can_make_nonempty; eauto.
      + exact R1.
      + exists s'. repeat split; auto. intros q N1 N2. rewrite R by auto. destruct (R1 q) as [X|(X1 & X2 & _)]; auto. }
  destruct (s0 output) as [x|] eqn:Ex; cbn [yes andb]; [|exact Go]. destruct Ov as [Ov|[-> _]]; [discriminate|]. exact Go.
Qed.

(** A name without a slash *)
Lemma exec_bare s0 input output overwrite : forallb (fun x => negb (is_slash x)) output = true ->
  s0 output = None \/ overwrite = true ->
  exec (process_file stream format_fails input output overwrite) s0 = (Failed FileNotFoundError, s0).
Proof.
  intros B Ov. pose proof (dirname_bare output B) as D. unfold process_file. rewrite D. rewrite exec_act. cbn [perform].
  assert (Y : (match stat s0 output with Some _ => true | None => false end && negb overwrite)%bool = false).
  { destruct Ov as [Ov| ->]; [|apply andb_false_r]. unfold stat. destruct output; cbn; auto. rewrite Ov. reflexivity. }
  cbn [yes]. rewrite Y. rewrite exec_act. cbn. reflexivity.
Qed.
End Ok.
