(** Theorems about [Trie.process_file] of experiments/find_replace_trie.py:
    properties C90 to C93. *)
From Coq Require Import ZArith NArith QArith Qabs List Bool Lia String.
From Verif Require Import Py ListAux PyDict TrieSpec TrieModel TrieProofs TrieFind NmdSpec Float64 Props_Trie Props_Find Ex.
From Verif Require Import FileModel FileProofs FileOk FileText FormatModel Props_Format.
Import ListNotations.
Open Scope list_scope.

(** The temporary file of an output path *)
Notation partial_name output := (output ++ w_ ".partial").

(** [format_seconds(t1 - t0)] raises *)
Definition report_fails (lg : Q -> Z) (elapsed : Q) : bool := negb (is_ok (format_seconds rndQ lg elapsed)).

(** A text file with the tokenizer of the trie, [encoding='utf8'] *)
Definition text_stream (tokenizer : str -> list str) (t : trie str str) : bytes -> list bytes * option error :=
  trie_stream tokenizer (read_text tokenizer) write_text t.

(** ** What is written *)

(** Reading text: a carriage return, a newline or a carriage return followed by
    a newline ends a line, and each is read as one newline. *)
Inductive read_lines : str -> str -> Prop :=
| rl_nil : read_lines [] []
| rl_windows s t : read_lines s t -> read_lines (13 :: 10 :: s)%N (10 :: t)%N
| rl_mac s t : hd_error s <> Some 10%N -> read_lines s t -> read_lines (13 :: s)%N (10 :: t)%N
| rl_other c s t : c <> 13%N -> read_lines s t -> read_lines (c :: s) (c :: t).

Lemma read_lines_universal s t : read_lines s t -> universal s = t.
Proof.
  induction 1 as [|s t H IH|s t H H' IH|c s t H H' IH]; [reflexivity|cbn; congruence| |].
  - cbn. f_equal. destruct s as [|d s]; [inversion H'; reflexivity|]. destruct (N.eqb_spec d 10) as [->|]; [cbn in H; congruence|exact IH].
  - cbn [universal]. destruct (N.eqb_spec c 13); [congruence|]. congruence.
Qed.

Lemma read_lines_id s : ~ In 13%N s -> read_lines s s.
Proof. induction s as [|c s IH]; intros H; [constructor|]. constructor; [intros ->; apply H; cbn; auto|apply IH; intros X; apply H; cbn; auto]. Qed.

(** Every text can be read in exactly one way. *)
Lemma read_lines_total s : read_lines s (universal s).
Proof.
  assert (X : forall n s, (List.length s <= n)%nat -> read_lines s (universal s)); [|eapply X; auto].
  induction n as [|n IH]; intros [|c s'] L; cbn in L; try lia; try apply rl_nil.
  cbn [universal]. destruct (N.eqb_spec c 13) as [->|H]; [|constructor; auto; apply IH; lia].
  destruct s' as [|d s'']; [apply rl_mac; [discriminate|apply rl_nil]|]. destruct (N.eqb_spec d 10) as [->|H].
  - apply rl_windows. apply IH. cbn in L. lia.
  - apply rl_mac; [cbn; congruence|]. apply IH. cbn in *. lia.
Qed.

Lemma text_stream_ok tokenizer detokenizer t m text b out new : reached tokenizer detokenizer t -> answers tokenizer t m ->
  utf8 text = Some b -> rewritten m tokenizer (tokenizer (universal text)) out -> utf8 (List.concat out) = Some new ->
  exists chunks, text_stream tokenizer t b = (chunks, None) /\ List.concat chunks = new.
Proof.
  intros Rt At Eb R En. unfold text_stream, trie_stream, read_text. rewrite (utf8_decode_encode text b (S (List.length b)) Eb) by lia. cbv beta iota zeta.
  destruct (translate_tokens_ok (root t) tokenizer t (tokenizer (universal text)) eq_refl) as (out' & E & R').
  assert (R2 : rewritten m tokenizer (tokenizer (universal text)) out') by (eapply rewritten_ext; [|exact R']; intros ts; symmetry; apply (answers_look tokenizer detokenizer); auto).
  assert (X : out' = out) by (eapply rewritten_unique; eauto). subst out'. unfold str in *. rewrite E.
  destruct (write_text_exists out new En) as (bs & F & ->). exists bs. split; [|reflexivity]. apply encode_all_ok. exact F.
Qed.

(** C90 The output file holds the text of the input file, rewritten: at each
    position the longest key is replaced, left to right; line ends are written as
    newlines.  The directory of the output is created if it is missing, an
    existing output is replaced if that is allowed, and nothing else changes. *)
Theorem process_file_rewrites : forall tokenizer detokenizer t m, reached tokenizer detokenizer t -> answers tokenizer t m ->
  forall lg elapsed s0 input output overwrite text lines b out new,
  names_file output -> input <> partial_name output -> Qabs elapsed <= 604799 ->
  stat s0 input = Some (File b) -> utf8 text = Some b ->
  read_lines text lines -> rewritten m tokenizer (tokenizer lines) out -> utf8 (List.concat out) = Some new ->
  s0 (partial_name output) <> Some Dir ->
  s0 output = None \/ (overwrite = true /\ s0 output <> Some Dir) ->
  stat s0 (dirname output) = Some Dir \/ can_make s0 (dirname output) ->
  exists s, exec (process_file (text_stream tokenizer t) (report_fails lg elapsed) input output overwrite) s0 = (Finished, s) /\
    s output = Some (File new) /\ s (partial_name output) = None /\
    forall q, q <> output -> q <> partial_name output -> s q = s0 q \/ (s0 q = None /\ s q = Some Dir).
Proof.
  intros tk dtk t m Rt At lg elapsed s0 input output ov text lines b out new F Ni Le Ei Eb Rl R En Nt Ov Dd. apply read_lines_universal in Rl. subst lines.
  destruct (text_stream_ok tk dtk t m text b out new Rt At Eb R En) as (chunks & Es & Ec).
  destruct (format_seconds_total lg elapsed Le) as (msg & Em).
  assert (Ef : report_fails lg elapsed = false) by (unfold report_fails; rewrite Em; reflexivity). rewrite Ef.
  destruct (exec_process_file (text_stream tk t) false s0 input output ov b chunks F Ni Ei Es Nt Ov Dd) as (s & E & E1 & E2 & E3).
  exists s. rewrite E1, Ec in *. auto.
Qed.
Print Assumptions process_file_rewrites.

(** In a file in which no key occurs, only the line ends change. *)
Theorem process_file_copies : forall detokenizer t m, reached chars detokenizer t -> answers chars t m ->
  forall lg elapsed s0 input output overwrite text b,
  names_file output -> input <> partial_name output -> Qabs elapsed <= 604799 ->
  stat s0 input = Some (File b) -> utf8 text = Some b -> ~ In 13%N text -> (forall s e k, ~ occurs m (chars text) s e k) ->
  s0 (partial_name output) <> Some Dir ->
  s0 output = None \/ (overwrite = true /\ s0 output <> Some Dir) ->
  stat s0 (dirname output) = Some Dir \/ can_make s0 (dirname output) ->
  exists s, exec (process_file (text_stream chars t) (report_fails lg elapsed) input output overwrite) s0 = (Finished, s) /\ s output = Some (File b).
Proof.
  intros dtk t m Rt At lg elapsed s0 input output ov text b F Ni Le Ei Eb Nr No Nt Ov Dd.
  destruct (process_file_rewrites chars dtk t m Rt At lg elapsed s0 input output ov text text b (chars text) b F Ni Le Ei Eb) as (s & E & E1 & _); auto.
  - apply read_lines_id. exact Nr.
  - apply rewritten_none. exact No.
  - assert (X : List.concat (chars text) = text) by (clear; unfold chars; induction text; cbn; congruence). rewrite X. exact Eb.
  - exists s. auto.
Qed.
Print Assumptions process_file_copies.

(** An output that exists is left alone unless overwriting is asked for. *)
Theorem process_file_skips : forall stream ff s0 input output, stat s0 output <> None ->
  exec (process_file stream ff input output false) s0 = (Finished, s0).
Proof.
  intros stream ff s0 input output E. unfold process_file. rewrite exec_act. cbn [perform]. destruct (stat s0 output); [reflexivity|congruence].
Qed.
Print Assumptions process_file_skips.

(** ** Stopped at any moment *)

(** C91 Whatever the operating system refuses, and whenever the process is
    stopped, the output file is the old one, the complete new one, or missing
    while the complete new one is in the temporary file; no other file changes. *)
Theorem process_file_crash_safe : forall stream ff s0 input output overwrite p s,
  names_file output -> input <> partial_name output ->
  reach (process_file stream ff input output overwrite, s0) (p, s) ->
  (forall q, q <> output -> q <> partial_name output -> s q = s0 q \/ (s0 q = None /\ s q = Some Dir)) /\
  (s output = s0 output \/
   exists b chunks, s0 input = Some (File b) /\ stream b = (chunks, None) /\ (s0 output = None \/ overwrite = true) /\ s0 output <> Some Dir /\
     (s output = None /\ s (partial_name output) = Some (File (List.concat chunks)) \/
      s output = Some (File (List.concat chunks)) /\ s (partial_name output) = None)).
Proof.
  intros stream ff s0 input output ov p s F Ni R.
  pose proof (always_reach _ _ _ _ _ (process_always true stream ff s0 input output ov F Ni) R) as (E & O & _).
  split; [exact E|]. destruct O as [O|(Ov & new & (b & chunks & Eb & Es & ->) & O)]; auto. right. exists b, chunks. split; auto. split; auto.
  destruct Ov as [Ov|[Ov Nd]]; (split; [auto|]); (split; [congruence|]); exact O.
Qed.
Print Assumptions process_file_crash_safe.

(** C92 It returns only when the new file is in place or there was nothing to do. *)
Theorem process_file_returns : forall stream ff s0 input output overwrite s,
  names_file output -> input <> partial_name output ->
  reach (process_file stream ff input output overwrite, s0) (Return, s) ->
  (overwrite = false /\ s0 output <> None /\ forall q, s q = s0 q) \/
  exists b chunks, s0 input = Some (File b) /\ stream b = (chunks, None) /\ s output = Some (File (List.concat chunks)) /\ s (partial_name output) = None.
Proof.
  intros stream ff s0 input output ov s F Ni R.
  pose proof (always_reach _ _ _ _ _ (process_always true stream ff s0 input output ov F Ni) R) as (_ & _ & [H|(new & (b & chunks & Eb & Es & ->) & H)]); auto.
  right. exists b, chunks. tauto.
Qed.
Print Assumptions process_file_returns.

(** When it raises and the operating system has refused nothing on its own, the
    output is as before and no temporary file has been added; except that the
    report on the time taken may raise after the work is done, and that a
    directory under the name of the output is found too late. *)
Theorem process_file_raises : forall stream lg elapsed s0 input output overwrite e s,
  names_file output -> input <> partial_name output -> Qabs elapsed <= 604799 -> s0 output <> Some Dir ->
  exec (process_file stream (report_fails lg elapsed) input output overwrite) s0 = (Failed e, s) ->
  s output = s0 output /\ (s (partial_name output) = s0 (partial_name output) \/ s (partial_name output) = None) /\
  forall q, q <> output -> q <> partial_name output -> s q = s0 q \/ (s0 q = None /\ s q = Some Dir).
Proof.
  intros stream lg elapsed s0 input output ov e s F Ni Le Nd E.
  destruct (format_seconds_total lg elapsed Le) as (msg & Em).
  assert (Ef : report_fails lg elapsed = false) by (unfold report_fails; rewrite Em; reflexivity). rewrite Ef in E.
  pose proof (always_exec _ _ _ (process_always false stream false s0 input output ov F Ni)) as A. rewrite E in A. cbn [fst snd] in A.
  destruct A as (A1 & _ & [(_ & X & _)|(A2 & _)]); [discriminate|]. destruct (A2 eq_refl) as [B1 [B2|[B2|B2]]]; [auto|auto|contradiction].
Qed.
Print Assumptions process_file_raises.

(** A file that is not UTF-8 makes it raise. *)
Theorem process_file_bad_text : forall tokenizer t lg elapsed s0 input output overwrite b s st,
  names_file output -> input <> partial_name output -> Qabs elapsed <= 604799 ->
  s0 input = Some (File b) -> (forall text, utf8 text <> Some b) -> s0 output = None \/ overwrite = true ->
  exec (process_file (text_stream tokenizer t) (report_fails lg elapsed) input output overwrite) s0 = (st, s) -> s0 output <> Some Dir ->
  (exists e, st = Failed e) /\ s output = s0 output.
Proof.
  intros tk t lg elapsed s0 input output ov b s st F Ni Le Ei Nu Ov E Nd.
  assert (Bad : forall chunks, text_stream tk t b <> (chunks, None)).
  { intros chunks X. unfold text_stream, trie_stream, read_text in X. destruct (utf8_decode (S (List.length b)) b) as [s' bad] eqn:Ed. destruct bad.
    - cbv zeta in X. set (tokens := tk (universal s')) in *. destruct (foldM _ _ _) as [[[[bf ms] sp] out]|]; [|discriminate].
      assert (Y : forall l bs, encode_all write_text l (Some UnicodeFailed) <> (bs, None)).
      { clear. induction l as [|c l IH]; intros bs; cbn; [discriminate|]. destruct (write_text c); [|discriminate].
        destruct (encode_all write_text l (Some UnicodeFailed)) as [bs' f] eqn:Ef. intros Z. injection Z as _ ->. apply (IH bs'). reflexivity. }
      eapply Y; eauto.
    - apply (Nu s'). eapply utf8_encode_decode; [|exact Ed]. lia. }
  destruct (format_seconds_total lg elapsed Le) as (msg & Em).
  assert (Ef : report_fails lg elapsed = false) by (unfold report_fails; rewrite Em; reflexivity). rewrite Ef in E.
  pose proof (always_exec _ _ _ (process_always false (text_stream tk t) false s0 input output ov F Ni)) as A.
  assert (Nr : st <> Running).
  { destruct (exec_reach (process_file (text_stream tk t) false input output ov) s0) as (p & _ & Sp). rewrite E in Sp. cbn [fst] in Sp.
    intros ->. clear -E. revert E. generalize (process_file (text_stream tk t) false input output ov) as p0. intros p0. revert s0.
    induction p0 as [|e|a k IHk h IHh]; intros s0; cbn; try discriminate. destruct (perform a s0) as [[r|e] s']; eauto. }
  rewrite E in A. cbn [fst snd] in A. destruct A as (_ & _ & A). destruct st as [| |e]; [congruence| |].
  - exfalso. destruct A as [(A1 & A2 & _)|(new & (b' & chunks & Eb & Es & _) & _)].
    + destruct Ov as [Ov|Ov]; congruence.
    + rewrite Ei in Eb. injection Eb as <-. eapply Bad; eauto.
  - split; [eauto|]. destruct A as [(_ & X & _)|(A2 & _)]; [discriminate|]. apply A2. reflexivity.
Qed.
Print Assumptions process_file_bad_text.

(** ** What does not hold *)

(** A file system of literal entries *)
Definition disk (l : list (path * entry)) : fs := fun p => dget p l.
Definition no_keys : trie str str := new_trie.

(** The first [n] calls of the execution without refusals *)
Definition call (x : prog * fs) : prog * fs :=
  match x with (Act a k h, s) => match perform a s with (inl r, s') => (k r, s') | (inr e, s') => (h e, s') end | _ => x end.
Fixpoint calls (n : nat) (x : prog * fs) : prog * fs := match n with O => x | S n' => calls n' (call x) end.
Lemma calls_reach n : forall x, reach x (calls n x).
Proof.
  induction n as [|n IH]; intros x; [constructor|]. cbn [calls]. destruct x as [[|e|a k h] s]; [apply IH|apply IH|].
  eapply reach_step; [|apply IH]. cbn [call]. destruct (perform a s) as [[r|e] s'] eqn:E; constructor; exact E.
Qed.

(** C93 Overwriting is not atomic: there is a moment at which neither the old
    nor the new output exists. *)
Theorem overwrite_atomic_refuted : exists s0 input output p s old,
  s0 output = Some (File old) /\ names_file output /\ input <> partial_name output /\
  reach (process_file (text_stream chars no_keys) false input output true, s0) (p, s) /\ s output = None.
Proof.
  exists (disk [(w_ "d", Dir); (w_ "d/in", File (w_ "new")); (w_ "d/out", File (w_ "old"))]), (w_ "d/in"), (w_ "d/out").
  set (s0 := disk _). set (p := process_file _ _ _ _ _). exists (fst (calls 10 (p, s0))), (snd (calls 10 (p, s0))), (w_ "old").
  split; [reflexivity|]. split; [exists (w_ "d/ou"), 116%N; split; [reflexivity|discriminate]|]. split; [discriminate|]. split.
  - rewrite <- surjective_pairing. apply calls_reach.
  - vm_compute. reflexivity.
Qed.
Print Assumptions overwrite_atomic_refuted.

(** A file in which nothing is to be replaced is not copied byte for byte. *)
Theorem line_ends_refuted : exists s0 input output b s, s0 input = Some (File b) /\
  exec (process_file (text_stream chars no_keys) false input output false) s0 = (Finished, s) /\ s output <> Some (File b).
Proof.
  set (b := [97; 13; 10; 98; 13]%N). exists (disk [(w_ "d", Dir); (w_ "d/in", File b)]), (w_ "d/in"), (w_ "d/out"), b.
  eexists. split; [reflexivity|]. split; [vm_compute; reflexivity|]. vm_compute. discriminate.
Qed.
Print Assumptions line_ends_refuted.

(** An output path without a directory part never works. *)
Theorem bare_output_refuted : forall stream ff s0 input output overwrite, ~ In SLASH output -> s0 output = None \/ overwrite = true ->
  exec (process_file stream ff input output overwrite) s0 = (Failed FileNotFoundError, s0).
Proof.
  intros stream ff s0 input output ov N Ov. apply exec_bare; auto. apply forallb_forall. intros c I. unfold is_slash. destruct (N.eqb_spec c SLASH); [subst; contradiction|reflexivity].
Qed.
Print Assumptions bare_output_refuted.

(** Reading from the name of the temporary file destroys the input. *)
Theorem input_lost_refuted : exists s0 input output b s, s0 input = Some (File b) /\ b <> [] /\ input <> output /\
  exec (process_file (text_stream chars no_keys) false input output false) s0 = (Finished, s) /\ s input = None /\ s output = Some (File []).
Proof.
  exists (disk [(w_ "d", Dir); (w_ "d/out.partial", File (w_ "data"))]), (w_ "d/out.partial"), (w_ "d/out"), (w_ "data").
  eexists. split; [reflexivity|]. split; [discriminate|]. split; [discriminate|]. split; [vm_compute; reflexivity|]. split; vm_compute; reflexivity.
Qed.
Print Assumptions input_lost_refuted.

(** When the output is a directory the temporary file stays behind. *)
Theorem leftover_refuted : exists s0 input output s e, s0 (partial_name output) = None /\ names_file output /\
  exec (process_file (text_stream chars no_keys) false input output true) s0 = (Failed e, s) /\ s (partial_name output) <> None.
Proof.
  exists (disk [(w_ "d", Dir); (w_ "d/in", File (w_ "data")); (w_ "d/out", Dir)]), (w_ "d/in"), (w_ "d/out").
  eexists. eexists. split; [reflexivity|]. split; [exists (w_ "d/ou"), 116%N; split; [reflexivity|discriminate]|]. split; [vm_compute; reflexivity|]. vm_compute. discriminate.
Qed.
Print Assumptions leftover_refuted.

(** [encoding=None] does not work with the default tokenizer: whatever would be
    written is refused. *)
Theorem binary_refuted : forall (t : trie N bytes) ff s0 input output overwrite b out,
  names_file output -> input <> partial_name output -> s0 output = None \/ overwrite = true -> s0 output <> Some Dir -> s0 input = Some (File b) ->
  translate_tokens (fun v => v) t b = Ok out -> out <> [] ->
  forall s, reach (process_file (trie_stream (fun v => v) read_binary write_binary t) ff input output overwrite, s0) (Return, s) -> False.
Proof.
  intros t ff s0 input output ov b out F Ni Ov Nd Ei Et No s R.
  destruct (process_file_returns _ _ _ _ _ _ _ F Ni R) as [(H1 & H2 & _)|(b' & chunks & Eb & Es & _)].
  - destruct Ov; congruence.
  - rewrite Ei in Eb. injection Eb as <-. unfold trie_stream, read_binary in Es. rewrite Et in Es. destruct out; [congruence|]. cbn in Es. discriminate.
Qed.
Print Assumptions binary_refuted.

(** A run of a week or more ends with an exception although the work is done. *)
Theorem week_run_refuted : forall tokenizer detokenizer t m, reached tokenizer detokenizer t -> answers tokenizer t m ->
  forall lg elapsed s0 input output overwrite text lines b out new,
  names_file output -> input <> partial_name output -> 604800 <= Qabs elapsed ->
  stat s0 input = Some (File b) -> utf8 text = Some b ->
  read_lines text lines -> rewritten m tokenizer (tokenizer lines) out -> utf8 (List.concat out) = Some new ->
  s0 (partial_name output) <> Some Dir ->
  s0 output = None \/ (overwrite = true /\ s0 output <> Some Dir) ->
  stat s0 (dirname output) = Some Dir \/ can_make s0 (dirname output) ->
  exists s, exec (process_file (text_stream tokenizer t) (report_fails lg elapsed) input output overwrite) s0 = (Failed IndexFailed, s) /\ s output = Some (File new).
Proof.
  intros tk dtk t m Rt At lg elapsed s0 input output ov text lines b out new F Ni Le Ei Eb Rl R En Nt Ov Dd. apply read_lines_universal in Rl. subst lines.
  destruct (text_stream_ok tk dtk t m text b out new Rt At Eb R En) as (chunks & Es & Ec).
  assert (Ef : report_fails lg elapsed = true) by (unfold report_fails; rewrite format_seconds_week_refuted by exact Le; reflexivity). rewrite Ef.
  destruct (exec_process_file (text_stream tk t) true s0 input output ov b chunks F Ni Ei Es Nt Ov Dd) as (s & E & E1 & E2 & E3).
  exists s. rewrite E1, Ec in *. auto.
Qed.
Print Assumptions week_run_refuted.

(** ** Cases *)

(** A file with a snowman, two keys and a Windows line end; the directories
    [out/deep] are missing. *)
Definition file_ops : list (op str str str) := [SetItem (w_ "yellow") (w_ "hello"); SetItem (w_ "yell") (w_ "shout")].
Definition file_trie : trie str str := fst (run chars join new_trie file_ops).
Definition file_in : str := w_ "yellow yell " ++ [9731; 13; 10; 120]%N.
Definition file_disk : fs := disk [(w_ "in", Dir); (w_ "in/a.txt", File (w_ "yellow yell " ++ [226; 152; 131; 13; 10; 120]%N))].

Example file_case1 :
  let r := exec (process_file (text_stream chars file_trie) (report_fails (fun _ => 0%Z) 3) (w_ "in/a.txt") (w_ "out/deep/a.txt") false) file_disk in
  fst r = Finished /\ snd r (w_ "out/deep/a.txt") = Some (File (w_ "hello shout " ++ [226; 152; 131; 10; 120]%N)) /\
  snd r (w_ "out/deep") = Some Dir /\ snd r (w_ "out") = Some Dir /\ snd r (w_ "out/deep/a.txt.partial") = None /\
  utf8 file_in = Some (w_ "yellow yell " ++ [226; 152; 131; 13; 10; 120]%N).
Proof. vm_compute. repeat split. Qed.

Lemma file_trie_reached : reached chars join file_trie.
Proof. exists file_ops. split; [left; apply chars_join|reflexivity]. Qed.

(** The hypotheses of [process_file_rewrites] are met by this case. *)
Example file_case2 : names_file (w_ "out/deep/a.txt") /\ can_make file_disk (dirname (w_ "out/deep/a.txt")) /\
  stat file_disk (w_ "in/a.txt") = Some (File (w_ "yellow yell " ++ [226; 152; 131; 13; 10; 120]%N)).
Proof.
  split; [exists (w_ "out/deep/a.tx"), 116%N; split; [reflexivity|discriminate]|]. split; [|reflexivity].
  apply (make_deep _ _ (w_ "out") (w_ "deep")); try discriminate; try reflexivity. apply make_here; try discriminate; reflexivity.
Qed.

(** In place: the input is the output. *)
Example file_case3 :
  let r := exec (process_file (text_stream chars file_trie) false (w_ "in/a.txt") (w_ "in/a.txt") true) file_disk in
  fst r = Finished /\ snd r (w_ "in/a.txt") = Some (File (w_ "hello shout " ++ [226; 152; 131; 10; 120]%N)).
Proof. vm_compute. split; reflexivity. Qed.

(** A byte that is not UTF-8: the error is raised and nothing is left. *)
Example file_case4 :
  let s0 := disk [(w_ "d", Dir); (w_ "d/in", File [97; 255]%N); (w_ "d/out", File (w_ "old"))] in
  let r := exec (process_file (text_stream chars file_trie) false (w_ "d/in") (w_ "d/out") true) s0 in
  fst r = Failed UnicodeFailed /\ snd r (w_ "d/out") = Some (File (w_ "old")) /\ snd r (w_ "d/out.partial") = None.
Proof. vm_compute. repeat split. Qed.
