(** The tokenizer: what its outputs are. *)
From Coq Require Import ZArith NArith List Bool Lia.
From Verif Require Import Py NmdSpec IndexModel TokModel.
Import ListNotations.
Open Scope nat_scope.

Definition spelled (ts : list token) : str := concat (map text ts).

(** Start positions, the first one being [p]. *)
Fixpoint placed (p : nat) (ts : list token) : Prop :=
  match ts with [] => True | t :: ts' => start_pos t = Some p /\ placed (p + length (text t)) ts' end.

(** No two words in a row. *)
Fixpoint apart (ts : list token) : Prop :=
  match ts with a :: (b :: _) as r => ~ (cat a = WORD /\ cat b = WORD) /\ apart r | _ => True end.

Lemma spelled_app a b : spelled (a ++ b) = spelled a ++ spelled b.
Proof. unfold spelled. rewrite map_app, concat_app. reflexivity. Qed.
Lemma placed_app p a b : placed p (a ++ b) <-> placed p a /\ placed (p + length (spelled a)) b.
Proof.
  revert p; induction a as [|t a IH]; intros p; cbn [app placed].
  - cbn. rewrite Nat.add_0_r. tauto.
  - rewrite IH. change (spelled (t :: a)) with (text t ++ spelled a). rewrite app_length, Nat.add_assoc. tauto.
Qed.
Lemma apart_app a x b : apart (a ++ x :: b) <-> apart (a ++ [x]) /\ apart (x :: b).
Proof.
  induction a as [|t a IH]; cbn [app].
  - cbn [apart]. tauto.
  - destruct a as [|t' a]; cbn [app apart] in *; tauto.
Qed.
Lemma apart_cons t ts : apart (t :: ts) -> apart ts.
Proof. destruct ts; cbn; tauto. Qed.

Section Tok.
Variable is_text : N -> bool.

(** A word is a non-empty run of text characters, any other token a single
    other character. *)
Definition token_ok (t : token) : Prop :=
  match cat t with
  | WORD => text t <> [] /\ Forall (fun c => is_text c = true) (text t)
  | WHITESPACE => exists c, text t = [c] /\ is_text c = false /\ In c UNICODE_SPACES
  | PUNCTUATION => exists c, text t = [c] /\ is_text c = false /\ ~ In c UNICODE_SPACES
  end.

Definition tokenized (s : str) (ts : list token) : Prop := spelled ts = s /\ placed 0 ts /\ Forall token_ok ts /\ apart ts.

Lemma is_space_In c : is_space_char c = true <-> In c UNICODE_SPACES.
Proof.
  unfold is_space_char. rewrite existsb_exists. split.
  - intros (x & I & E). apply N.eqb_eq in E. subst x. exact I.
  - intros I. exists c. split; auto. apply N.eqb_refl.
Qed.

Definition ends_open (ts : list token) : Prop := forall a t, ts = a ++ [t] -> cat t <> WORD.
Lemma apart_snoc ts t : apart ts -> (cat t <> WORD \/ ends_open ts) -> apart (ts ++ [t]).
Proof.
  induction ts as [|a ts IH]; intros A O; cbn [app]; [cbn; auto|]. destruct ts as [|b ts].
  - cbn [app apart]. split; auto. intros [X Y]. destruct O as [O|O]; [auto|]. apply (O [] a); auto.
  - destruct A as [N A]. cbn [app apart]. split; auto. apply IH; auto. destruct O as [O|O]; auto. right. intros r t' E. apply (O (a :: r) t'). cbn [app]. rewrite E. reflexivity.
Qed.

Lemma all_tokens_inv s : let '(idx, buf, start, out) := fold_left (all_tokens_step is_text) s start_tokens in
  idx = length s /\ ends_open out /\ tokenized s (flush buf start out) /\ Forall (fun c => is_text c = true) buf.
Proof.
  induction s as [|c s IH] using rev_ind.
  - cbn. split; auto. split; [intros [|? ?] ? ?; discriminate|]. repeat split; constructor.
  - rewrite fold_left_app. cbn [fold_left]. destruct (fold_left (all_tokens_step is_text) s start_tokens) as [[[idx buf] start] out].
    destruct IH as (-> & O & (Sp & Pl & Ok_ & Ap) & B). unfold all_tokens_step. rewrite app_length. cbn [length]. destruct (is_text c) eqn:Et.
    + destruct buf as [|b buf].
      * cbn [flush] in *. split; [lia|]. split; auto. split; [|auto]. split; [rewrite spelled_app, Sp; reflexivity|]. split; [|split].
        -- apply placed_app. split; auto. rewrite Sp. split; [reflexivity|exact I].
        -- apply Forall_app. split; auto. constructor; [|constructor]. split; [discriminate|repeat constructor; exact Et].
        -- apply apart_snoc; auto.
      * change (flush ((b :: buf) ++ [c]) start out) with (out ++ [Token ((b :: buf) ++ [c]) start WORD]). cbn [flush] in Sp, Pl, Ok_, Ap. split; [lia|]. split; auto. split; [|apply Forall_app; auto]. rewrite spelled_app in Sp. apply placed_app in Pl. destruct Pl as [Pl1 [Pl2 _]]. apply Forall_app in Ok_. destruct Ok_ as [Ok1 Ok2].
        assert (Ap' : apart out). { clear - Ap. induction out as [|t out IH]; auto. destruct out; [cbn; auto|]. destruct Ap as [N Ap]. split; auto. }
        split; [|split; [|split]].
        -- rewrite spelled_app, <- Sp, <- app_assoc. f_equal. unfold spelled. cbn. rewrite !app_nil_r. reflexivity.
        -- apply placed_app. split; auto. split; [exact Pl2|exact I].
        -- apply Forall_app. split; auto. constructor; [|constructor]. split; [destruct buf; discriminate|]. change ((b :: buf) ++ [c]) with ((b :: buf) ++ [c]). apply Forall_app. split; auto.
        -- apply apart_snoc; auto.
    + assert (G : forall k, cat k <> WORD -> text k = [c] -> start_pos k = Some (length s) -> token_ok k ->
        length s + 1 = length s + 1 /\ ends_open (flush buf start out ++ [k]) /\ tokenized (s ++ [c]) (flush [] start (flush buf start out ++ [k])) /\ Forall (fun c => is_text c = true) ([] : str)).
      { intros k Nk Tk Pk Ok2. split; auto. split; [intros a t E; apply app_inj_tail in E; destruct E as [_ <-]; auto|]. split; [|constructor]. cbn [flush].
        split; [rewrite spelled_app, Sp; unfold spelled; cbn; rewrite Tk, app_nil_r; reflexivity|]. split; [|split].
        - apply placed_app. rewrite Sp. split; auto. split; [exact Pk|exact I].
        - apply Forall_app. split; auto.
        - apply apart_snoc; auto. }
      replace (S (length s)) with (length s + 1) by lia. destruct (is_space_char c) eqn:Es; (apply G; [discriminate|reflexivity|reflexivity|]).
      * exists c. split; auto. split; auto. apply is_space_In; auto.
      * exists c. split; auto. split; auto. rewrite <- is_space_In, Es. discriminate.
Qed.

Lemma all_tokens_ok s : tokenized s (unicode_tokenize_all_tokens is_text s).
Proof. pose proof (all_tokens_inv s) as H. unfold unicode_tokenize_all_tokens. destruct (fold_left _ _ _) as [[[idx buf] start] out]. tauto. Qed.

(** The specification determines the tokens. *)
Lemma runs_unique w w' r r' : Forall (fun c => is_text c = true) w -> Forall (fun c => is_text c = true) w' ->
  (forall c x, r = c :: x -> is_text c = false) -> (forall c x, r' = c :: x -> is_text c = false) -> w ++ r = w' ++ r' -> w = w' /\ r = r'.
Proof.
  revert w'; induction w as [|a w IH]; intros [|a' w'] F F' H H' E; cbn [app] in E.
  - auto.
  - inversion F'; subst. rewrite (H a' _ eq_refl) in *. congruence.
  - inversion F; subst. rewrite (H' a _ eq_refl) in *. congruence.
  - injection E as -> E. inversion F; subst. inversion F'; subst. destruct (IH w') as [-> ->]; auto.
Qed.

Lemma next_not_text t ts c x : token_ok t -> cat t = WORD -> Forall token_ok ts -> apart (t :: ts) -> spelled ts = c :: x -> is_text c = false.
Proof.
  intros O W F A E. destruct ts as [|b ts]; [discriminate|]. destruct A as [N _]. inversion F as [|? ? Ob _]; subst. unfold token_ok in Ob. unfold spelled in E. cbn in E.
  destruct (cat b) eqn:Cb; [exfalso; auto| |]; destruct Ob as (c' & Et & X & _); rewrite Et in E; injection E as -> _; auto.
Qed.

Lemma tokenized_unique_from p : forall ts ts', spelled ts = spelled ts' -> placed p ts -> placed p ts' -> Forall token_ok ts -> Forall token_ok ts' -> apart ts -> apart ts' -> ts = ts'.
Proof.
  assert (Ne : forall t, token_ok t -> text t <> []).
  { intros t O. unfold token_ok in O. destruct (cat t); [tauto| |]; destruct O as (c & -> & _); discriminate. }
  intros ts. revert p. induction ts as [|t ts IH]; intros p [|t' ts'] E P P' F F' A A'.
  - reflexivity.
  - exfalso. inversion F'; subst. unfold spelled in E. cbn in E. apply (Ne t'); auto. destruct (text t'); [auto|discriminate].
  - exfalso. inversion F; subst. unfold spelled in E. cbn in E. apply (Ne t); auto. destruct (text t); [auto|discriminate].
  - inversion F as [|? ? Ot F1]; subst. inversion F' as [|? ? Ot' F1']; subst. destruct P as [P1 P2], P' as [P1' P2'].
    change (text t ++ spelled ts = text t' ++ spelled ts') in E.
    assert (X : text t = text t' /\ spelled ts = spelled ts' /\ cat t = cat t').
    { pose proof Ot as Ot2. pose proof Ot' as Ot2'. unfold token_ok in Ot, Ot'. destruct (cat t) eqn:C; destruct (cat t') eqn:C'.
      - destruct Ot as [_ Ot], Ot' as [_ Ot']. destruct (runs_unique _ _ _ _ Ot Ot' (fun c x => next_not_text t ts c x Ot2 C F1 A) (fun c x => next_not_text t' ts' c x Ot2' C' F1' A') E). auto.
      - destruct Ot as [N Ot], Ot' as (c & Ec & Nc & _). rewrite Ec in E. destruct (text t); [congruence|]. injection E as -> _. inversion Ot; congruence.
      - destruct Ot as [N Ot], Ot' as (c & Ec & Nc & _). rewrite Ec in E. destruct (text t); [congruence|]. injection E as -> _. inversion Ot; congruence.
      - destruct Ot' as [N Ot'], Ot as (c & Ec & Nc & _). rewrite Ec in E. destruct (text t'); [congruence|]. injection E as -> _. inversion Ot'; congruence.
      - destruct Ot as (c & Ec & _), Ot' as (c' & Ec' & _). rewrite Ec, Ec' in *. injection E as -> E. auto.
      - destruct Ot as (c & Ec & _ & X), Ot' as (c' & Ec' & _ & Y). rewrite Ec, Ec' in *. injection E as -> E. contradiction.
      - destruct Ot' as [N Ot'], Ot as (c & Ec & Nc & _). rewrite Ec in E. destruct (text t'); [congruence|]. injection E as -> _. inversion Ot'; congruence.
      - destruct Ot as (c & Ec & _ & X), Ot' as (c' & Ec' & _ & Y). rewrite Ec, Ec' in *. injection E as -> E. contradiction.
      - destruct Ot as (c & Ec & _), Ot' as (c' & Ec' & _). rewrite Ec, Ec' in *. injection E as -> E. auto. }
    apply apart_cons in A, A'. destruct X as (Xt & Xs & Xc). destruct t as [tt tp tc], t' as [tt' tp' tc']. cbn in *. subst tt' tc'. rewrite P1, P1'. f_equal.
    apply (IH (p + length tt)); auto.
Qed.

(** The other three loops. *)
Lemma word_tokens_ok s : unicode_tokenize_word_tokens is_text s = filter is_word (unicode_tokenize_all_tokens is_text s).
Proof.
  assert (H : forall (s : str) (idx : nat) (buf : str) (start : option nat) (out : list token) out', out' = filter is_word out ->
    let '(idx1, buf1, start1, out1) := fold_left (all_tokens_step is_text) s (idx, buf, start, out) in
    fold_left (word_tokens_step is_text) s (idx, buf, start, out') = (idx1, buf1, start1, filter is_word out1)).
  { clear. induction s as [|c s IH]; intros idx buf start out out' E; cbn [fold_left]; [subst; reflexivity|].
    unfold all_tokens_step at 2. unfold word_tokens_step at 2. destruct (is_text c).
    - destruct buf; apply IH; auto.
    - assert (Ef : forall k, cat k <> WORD -> filter is_word (flush buf start out ++ [k]) = match buf with [] => out' | _ => out' ++ [Token buf start WORD] end).
      { intros k N. rewrite filter_app. replace (filter is_word [k]) with ([] : list token) by (cbn; unfold is_word; destruct (cat k); auto; congruence). rewrite app_nil_r.
        destruct buf; cbn [flush]; [auto|]. rewrite filter_app, <- E. reflexivity. }
      destruct (is_space_char c); destruct buf; apply IH; symmetry; apply Ef; discriminate. }
  assert (H' : let '(idx1, buf1, start1, out1) := fold_left (all_tokens_step is_text) s start_tokens in fold_left (word_tokens_step is_text) s start_tokens = (idx1, buf1, start1, filter is_word out1)) by exact (H s 0 ([] : str) None [] [] eq_refl). clear H. rename H' into H. unfold unicode_tokenize_word_tokens, unicode_tokenize_all_tokens.
  revert H. destruct (fold_left (all_tokens_step is_text) s start_tokens) as [[[idx buf] start] out]. cbv beta iota. intros H. rewrite H. destruct buf; cbn [flush]; auto. rewrite filter_app. reflexivity.
Qed.

Lemma all_strings_ok s : unicode_tokenize_all_strings is_text s = map text (unicode_tokenize_all_tokens is_text s).
Proof.
  assert (H : forall (s : str) (idx : nat) (buf : str) (start : option nat) (out : list token) out', out' = map text out ->
    let '(idx1, buf1, start1, out1) := fold_left (all_tokens_step is_text) s (idx, buf, start, out) in
    fold_left (all_strings_step is_text) s (buf, out') = (buf1, map text out1)).
  { clear. induction s as [|c s IH]; intros idx buf start out out' E; cbn [fold_left]; [subst; reflexivity|].
    unfold all_tokens_step at 2. unfold all_strings_step at 2. destruct (is_text c).
    - destruct buf; apply IH; auto.
    - destruct (is_space_char c); destruct buf; apply IH; cbn [flush]; rewrite !map_app, E; reflexivity. }
  assert (H' : let '(idx1, buf1, start1, out1) := fold_left (all_tokens_step is_text) s start_tokens in fold_left (all_strings_step is_text) s start_strings = (buf1, map text out1)) by exact (H s 0 ([] : str) None [] [] eq_refl). clear H. rename H' into H. unfold unicode_tokenize_all_strings, unicode_tokenize_all_tokens.
  revert H. destruct (fold_left (all_tokens_step is_text) s start_tokens) as [[[idx buf] start] out]. cbv beta iota. intros H. rewrite H. destruct buf; cbn [flush]; auto. rewrite map_app. reflexivity.
Qed.

Lemma word_strings_ok s : unicode_tokenize_word_strings is_text s = map text (unicode_tokenize_word_tokens is_text s).
Proof.
  assert (H : forall (s : str) (idx : nat) (buf : str) (start : option nat) (out : list token) out', out' = map text out ->
    let '(idx1, buf1, start1, out1) := fold_left (word_tokens_step is_text) s (idx, buf, start, out) in
    fold_left (word_strings_step is_text) s (buf, out') = (buf1, map text out1)).
  { clear. induction s as [|c s IH]; intros idx buf start out out' E; cbn [fold_left]; [subst; reflexivity|].
    unfold word_tokens_step at 2. unfold word_strings_step at 2. destruct (is_text c).
    - destruct buf; apply IH; auto.
    - destruct buf; apply IH; auto. rewrite map_app, E. reflexivity. }
  assert (H' : let '(idx1, buf1, start1, out1) := fold_left (word_tokens_step is_text) s start_tokens in fold_left (word_strings_step is_text) s start_strings = (buf1, map text out1)) by exact (H s 0 ([] : str) None [] [] eq_refl). clear H. rename H' into H. unfold unicode_tokenize_word_strings, unicode_tokenize_word_tokens.
  revert H. destruct (fold_left (word_tokens_step is_text) s start_tokens) as [[[idx buf] start] out]. cbv beta iota. intros H. rewrite H. destruct buf; cbn [flush]; auto. rewrite map_app. reflexivity.
Qed.
End Tok.

(** ** Merging *)
Definition apostrophe (t : token) : Prop := exists c, text t = [c] /\ In c APOSTROPHES.
Definition linked (t : token) : Prop := cat t = WORD \/ apostrophe t.

Lemma str_in_iff s l : str_in s l = true <-> exists c, s = [c] /\ In c l.
Proof.
  unfold str_in. destruct s as [|c [|c' s]]; try (split; [discriminate|intros (x & E & _); discriminate]).
  rewrite existsb_exists. split; [intros (x & I & E); apply N.eqb_eq in E; subst x; eauto|]. intros (x & [= ->] & I). exists x. split; auto. apply N.eqb_refl.
Qed.
Lemma is_word_iff t : is_word t = true <-> cat t = WORD.
Proof. unfold is_word. destruct (cat t); split; auto; discriminate. Qed.
Lemma is_word_not t : is_word t = false <-> cat t <> WORD.
Proof. unfold is_word. destruct (cat t); split; auto; try discriminate. congruence. Qed.
Lemma apos_iff t : str_in (text t) APOSTROPHES = true <-> apostrophe t.
Proof. apply str_in_iff. Qed.
Lemma apos_not t : str_in (text t) APOSTROPHES = false <-> ~ apostrophe t.
Proof. rewrite <- apos_iff. destruct (str_in _ _); split; auto; try discriminate; try congruence. Qed.
Lemma linked_iff t : is_word t || str_in (text t) APOSTROPHES = true <-> linked t.
Proof. rewrite orb_true_iff, is_word_iff, apos_iff. reflexivity. Qed.

(** A run of words and apostrophes is replaced by one word exactly if it is a
    word, an apostrophe and a word. *)
Inductive replaced : list token -> list token -> Prop :=
| replaced_three a b c : cat a = WORD -> apostrophe b -> cat b <> WORD -> cat c = WORD ->
    replaced [a; b; c] [Token (text a ++ text b ++ text c) (start_pos a) WORD]
| replaced_not run : ~ (exists a b c, run = [a; b; c] /\ cat a = WORD /\ apostrophe b /\ cat b <> WORD /\ cat c = WORD) -> replaced run run.

(** The maximal runs, in turn. *)
Inductive merged : list token -> list token -> Prop :=
| merged_nil : merged [] []
| merged_other t ts out : ~ linked t -> merged ts out -> merged (t :: ts) (t :: out)
| merged_run run new ts out : run <> [] -> Forall linked run -> (forall t r, ts = t :: r -> ~ linked t) -> replaced run new -> merged ts out -> merged (run ++ ts) (new ++ out).

Lemma merged_keep run ts out : Forall linked run -> (forall t r, ts = t :: r -> ~ linked t) -> ~ (exists a b c, run = [a; b; c] /\ cat a = WORD /\ apostrophe b /\ cat b <> WORD /\ cat c = WORD) ->
  merged ts out -> merged (run ++ ts) (run ++ out).
Proof. intros F H N M. destruct run as [|t run]; auto. apply merged_run; auto; [discriminate|]. apply replaced_not. auto. Qed.

(** What is left when a run is given up. *)
Definition given_up (ts out : list token) : Prop :=
  exists run rest out', ts = run ++ rest /\ Forall linked run /\ (forall t r, rest = t :: r -> ~ linked t) /\ out = run ++ out' /\ merged rest out'.

Lemma merge_loop_ok ts :
  (apart ts -> exists out, merge_loop false None None None ts = Ok out /\ merged ts out) /\
  (apart ts -> exists out, merge_loop true None None None ts = Ok out /\ given_up ts out) /\
  (forall a, apart (a :: ts) -> cat a = WORD -> exists out, merge_loop false (Some a) None None ts = Ok out /\ merged (a :: ts) out) /\
  (forall a b, apart (a :: b :: ts) -> cat a = WORD -> apostrophe b -> cat b <> WORD -> exists out, merge_loop false (Some a) (Some b) None ts = Ok out /\ merged (a :: b :: ts) out) /\
  (forall a b c, apart (a :: b :: c :: ts) -> cat a = WORD -> apostrophe b -> cat b <> WORD -> cat c = WORD ->
     exists out, merge_loop false (Some a) (Some b) (Some c) ts = Ok out /\ merged (a :: b :: c :: ts) out).
Proof.
  assert (Short1 : forall a : token, ~ (exists x y z, [a] = [x; y; z] /\ cat x = WORD /\ apostrophe y /\ cat y <> WORD /\ cat z = WORD)) by (intros a (x & y & z & [=] & _)).
  assert (Short2 : forall a b : token, ~ (exists x y z, [a; b] = [x; y; z] /\ cat x = WORD /\ apostrophe y /\ cat y <> WORD /\ cat z = WORD)) by (intros a b (x & y & z & [=] & _)).
  assert (Nil : forall (t : token) r, [] = t :: r -> ~ linked t) by (intros t r [=]).
  assert (Three : forall a b c ts out, cat a = WORD -> apostrophe b -> cat b <> WORD -> cat c = WORD -> (forall t r, ts = t :: r -> ~ linked t) -> merged ts out -> merged (a :: b :: c :: ts) (joined a b c :: out)).
  { intros a b c ts' out Wa Ab Nb Wc H M. apply (merged_run [a; b; c] [joined a b c]); auto; [discriminate| |].
    - constructor; [left; auto|constructor; [right; auto|constructor; [left; auto|constructor]]].
    - apply replaced_three; auto. }
  induction ts as [|t ts (I0 & IW & I1 & I2 & I3)].
  - cbn [merge_loop]. split; [|split; [|split; [|split]]].
    + intros _. exists []. split; auto. constructor.
    + intros _. exists []. split; auto. exists [], [], []. repeat split; auto; constructor.
    + intros a _ Wa. exists [a]. split; auto. apply (merged_keep [a] [] []); auto; [constructor; [left; auto|constructor]|constructor].
    + intros a b _ Wa Ab Nb. exists [a; b]. split; auto. apply (merged_keep [a; b] [] []); auto; [constructor; [left; auto|constructor; [right; auto|constructor]]|constructor].
    + intros a b c _ Wa Ab Nb Wc. exists [joined a b c]. split; auto. apply Three; auto. constructor.
  - (* a break: t is neither *)
    assert (Give : apart (t :: ts) -> exists out, merge_loop (is_word t || str_in (text t) APOSTROPHES) None None None ts = Ok out /\
       forall p, Forall linked p -> (exists r, given_up (t :: ts) r /\ r = t :: out)).
    { intros A. pose proof (apart_cons _ _ A) as A'. destruct (is_word t || str_in (text t) APOSTROPHES) eqn:E.
      - destruct (IW A') as (out & Eo & (run & rest & out' & -> & F & H & -> & M)). eexists. split; [exact Eo|]. intros _ _. eexists. split; [|reflexivity].
        exists (t :: run), rest, out'. repeat split; auto. constructor; auto. apply linked_iff; auto.
      - destruct (I0 A') as (out & Eo & M). eexists. split; [exact Eo|]. intros _ _. eexists. split; [|reflexivity].
        assert (Nl : ~ linked t) by (rewrite <- linked_iff, E; discriminate).
        exists [], (t :: ts), (t :: out). repeat split; auto; [intros t' r [= <- <-]; auto|]. constructor; auto. }
    assert (Merge : forall r, given_up (t :: ts) r -> forall p, Forall linked p -> (forall run rest, t :: ts = run ++ rest -> Forall linked run -> (forall t r, rest = t :: r -> ~ linked t) ->
        ~ (exists a b c, p ++ run = [a; b; c] /\ cat a = WORD /\ apostrophe b /\ cat b <> WORD /\ cat c = WORD)) -> merged (p ++ t :: ts) (p ++ r)).
    { intros r (run & rest & out' & E & F & H & -> & M) p Fp N. rewrite E, !app_assoc. apply merged_keep; auto; [apply Forall_app; auto|]. apply (N run rest); auto. }
    split; [|split; [|split; [|split]]].
    + intros A. cbn [merge_loop]. destruct (is_word t) eqn:Ew.
      * apply is_word_iff in Ew. apply I1; auto.
      * destruct (Give A) as (out & Eo & G). try rewrite Ew in Eo. cbn [orb] in Eo. rewrite Eo. cbn [yield bind]. eexists. split; [reflexivity|]. destruct (G [] (Forall_nil _)) as (r & Gr & ->).
        apply (Merge _ Gr []); auto. intros run rest E F H (a & b & c & Ea & Wa & _). cbn in Ea. subst run. injection E as <- _. apply is_word_not in Ew. auto.
    + intros A. cbn [merge_loop]. destruct (Give A) as (out & Eo & G). rewrite Eo. cbn [yield bind]. eexists. split; [reflexivity|]. destruct (G [] (Forall_nil _)) as (r & Gr & ->). exact Gr.
    + intros a A Wa. cbn [merge_loop]. assert (Nt : cat t <> WORD) by (destruct A as [N _]; intros X; apply N; auto). assert (Ew : is_word t = false) by (apply is_word_not; auto). rewrite Ew. cbn [guard bind].
      destruct (str_in (text t) APOSTROPHES) eqn:Ea.
      * apply apos_iff in Ea. apply I2; auto.
      * destruct (I0 (apart_cons _ _ (apart_cons _ _ A))) as (out & Eo & M). rewrite Eo. cbn [yield bind]. eexists. split; [reflexivity|].
        assert (Nl : ~ linked t) by (intros [X|X]; [auto|apply apos_not in Ea; auto]).
        apply (merged_keep [a] (t :: ts) (t :: out)); auto; [constructor; [left; auto|constructor]|intros t' r [= <- <-]; auto|constructor; auto].
    + intros a b A Wa Ab Nb. cbn [merge_loop]. destruct (is_word t) eqn:Ew.
      * apply is_word_iff in Ew. apply I3; auto.
      * destruct (Give (apart_cons _ _ (apart_cons _ _ A))) as (out & Eo & G). try rewrite Ew in Eo. cbn [orb] in Eo. rewrite Eo. cbn [yield bind]. eexists. split; [reflexivity|].
        assert (Fp : Forall linked [a; b]) by (constructor; [left; auto|constructor; [right; auto|constructor]]).
        destruct (G [a; b] Fp) as (r & Gr & ->). apply (Merge _ Gr [a; b] Fp). intros run rest E F H (x & y & z & Ex & _ & _ & _ & Wz). destruct run as [|t' run]; [discriminate|].
        injection E as <- _. injection Ex as _ _ -> _. apply is_word_not in Ew. auto.
    + intros a b c A Wa Ab Nb Wc. cbn [merge_loop]. assert (Nt : cat t <> WORD) by (destruct A as [_ [_ [N _]]]; intros X; apply N; auto). assert (Ew : is_word t = false) by (apply is_word_not; auto). rewrite Ew. cbn [guard bind].
      pose proof (apart_cons _ _ (apart_cons _ _ (apart_cons _ _ A))) as A'. destruct (str_in (text t) APOSTROPHES) eqn:Ea; cbn [negb].
      * destruct (Give A') as (out & Eo & G). try rewrite Ew in Eo. try rewrite Ea in Eo. cbn [orb] in Eo. rewrite Eo. cbn [yield bind]. eexists. split; [reflexivity|].
        assert (Fp : Forall linked [a; b; c]) by (constructor; [left; auto|constructor; [right; auto|constructor; [left; auto|constructor]]]).
        destruct (G _ Fp) as (r & Gr & ->). apply (Merge _ Gr [a; b; c] Fp). intros run rest E F H (x & y & z & Ex & _). destruct run as [|t' run]; [|discriminate].
        destruct rest as [|t' rest]; [discriminate|]. injection E as <- <-. apply (H t ts eq_refl). right. apply apos_iff; auto.
      * destruct (I0 (apart_cons _ _ A')) as (out & Eo & M). rewrite Eo. cbn [yield bind]. eexists. split; [reflexivity|].
        assert (Nl : ~ linked t) by (intros [X|X]; [auto|apply apos_not in Ea; auto]).
        apply Three; auto; [intros t' r [= <- <-]; auto|constructor; auto].
Qed.

Lemma merge_ok ts : apart ts -> exists out, merge_apostrophes_into_words ts = Ok out /\ merged ts out.
Proof. intros A. apply (merge_loop_ok ts); auto. Qed.

(** The rule determines the result. *)
Lemma replaced_unique run a b : replaced run a -> replaced run b -> a = b.
Proof.
  intros Ha Hb. inversion Ha; subst; inversion Hb; subst; auto; exfalso; match goal with N : ~ _ |- _ => apply N; do 3 eexists; split; [reflexivity|auto] end.
Qed.
Lemma runs_same (r r' x x' : list token) : r ++ x = r' ++ x' -> Forall linked r -> Forall linked r' -> (forall t y, x = t :: y -> ~ linked t) -> (forall t y, x' = t :: y -> ~ linked t) -> r = r' /\ x = x'.
Proof.
  revert r'; induction r as [|a r IH]; intros [|a' r'] E F F' H H'; cbn [app] in E.
  - auto.
  - inversion F'; subst. exfalso. eapply H; eauto.
  - inversion F; subst. exfalso. eapply H'; eauto.
  - injection E as -> E. inversion F; subst. inversion F'; subst. destruct (IH r') as [-> ->]; auto.
Qed.
Lemma merged_fun ts a : merged ts a -> forall b, merged ts b -> a = b.
Proof.
  induction 1 as [|t ts out N M IH|run new ts out Nr F H R M IH]; intros b Mb.
  - inversion Mb as [|? ? ? ?|run new ts out Nr F H R M E]; subst; auto. destruct run; [congruence|discriminate].
  - inversion Mb as [|? ? ? ? Mb'|run new ts' out' Nr F H R M' E]; subst; [f_equal; auto|]. destruct run as [|t' run]; [congruence|]. injection E as -> E. inversion F; contradiction.
  - inversion Mb as [E|t ts' out' N M' E|run' new' ts' out' Nr' F' H' R' M' E]; subst.
    + destruct run; [congruence|discriminate].
    + destruct run as [|t' run]; [congruence|]. injection E as -> E. inversion F; contradiction.
    + destruct (runs_same _ _ _ _ E F' F H' H) as [-> ->]. f_equal; [eapply replaced_unique; eauto|auto].
Qed.

Lemma replaced_facts run new : replaced run new -> spelled new = spelled run /\ (forall p, placed p run -> placed p new) /\
  (forall t, In t new -> cat t <> WORD -> In t run) /\ (forall t, In t new -> cat t = WORD -> In t run \/ exists a b c, In a run /\ cat a = WORD /\ apostrophe b /\ cat c = WORD /\ In c run /\ text t = text a ++ text b ++ text c).
Proof.
  intros H. inversion H as [a b c Wa Ab Nb Wc|r N]; subst; [|split; auto].
  split; [|split; [|split]].
  - unfold spelled. cbn. rewrite !app_nil_r. reflexivity.
  - intros p (P & _). cbn. auto.
  - intros t [<-|[]] X. cbn in X. congruence.
  - intros t [<-|[]] _. right. exists a, b, c. simpl. intuition.
Qed.
Lemma merged_facts ts out : merged ts out -> spelled out = spelled ts /\ (forall p, placed p ts -> placed p out) /\ forall t, In t out -> cat t <> WORD -> In t ts.
Proof.
  induction 1 as [|t ts out N M (I1 & I2 & I3)|run new ts out Nr F H R M (I1 & I2 & I3)].
  - split; auto.
  - split; [change (text t ++ spelled out = text t ++ spelled ts); congruence|]. split; [intros p [P Q]; split; auto|]. intros t' [->|I] X; [left; auto|right; auto].
  - destruct (replaced_facts _ _ R) as (R1 & R2 & R3 & _). rewrite !spelled_app. split; [congruence|]. split.
    + intros p P. apply placed_app in P. destruct P as [P Q]. apply placed_app. rewrite R1. auto.
    + intros t I X. apply in_app_iff in I. apply in_app_iff. destruct I; auto.
Qed.
