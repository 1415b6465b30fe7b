(** Theorems about experiments/tokenizer.py.

    [is_text] is any classification of characters (the code asks [unicodedata]),
    [is_white] any set of characters that [str.strip] removes. *)
From Coq Require Import ZArith NArith List Bool Lia String.
From Verif Require Import Py NmdSpec Ex IndexModel TokModel TokProofs TokSent.
Import ListNotations.
Local Open Scope string_scope.
Local Open Scope list_scope.
Open Scope nat_scope.

(** For the cases: ASCII letters and digits, and spaces. *)
Definition ascii_text (c : N) : bool := ((48 <=? c) && (c <=? 57) || (65 <=? c) && (c <=? 90) || (97 <=? c) && (c <=? 122))%N.
Definition ascii_white (c : N) : bool := ((9 <=? c) && (c <=? 13) || (28 <=? c) && (c <=? 32))%N.

(** ** C47: unicode_tokenize *)
(** The tokens spell the text, carry their positions, a word is a non-empty run of
    text characters and any other token one character of another kind, and no two
    words are adjacent ([tokenized]); there is only one such list. *)
Theorem tokenize_tokens is_text s :
  exists ts, unicode_tokenize_tokens is_text s false false = Ok ts /\
    List.concat (map text ts) = s /\ tokenized is_text s ts /\ forall ts', tokenized is_text s ts' -> ts' = ts.
Proof.
  exists (unicode_tokenize_all_tokens is_text s). split; [reflexivity|]. pose proof (all_tokens_ok is_text s) as T. split; [apply T|]. split; auto.
  intros ts' T'. destruct T as (S1 & P1 & F1 & A1), T' as (S2 & P2 & F2 & A2). apply (tokenized_unique_from is_text 0); auto. congruence.
Qed.
Print Assumptions tokenize_tokens.

(** The position of a token. *)
Lemma placed_at p ts x t y : placed p ts -> ts = x ++ t :: y -> start_pos t = Some (p + List.length (spelled x)).
Proof. intros P ->. apply placed_app in P. destruct P as [_ [P _]]. exact P. Qed.

Definition moved (k : nat) (t : token) : token := Token (text t) (option_map (Nat.add k) (start_pos t)) (cat t).
Lemma moved_spelled k ts : spelled (map (moved k) ts) = spelled ts.
Proof. unfold spelled. rewrite map_map. reflexivity. Qed.
Lemma moved_placed k ts : forall p, placed p ts -> placed (k + p) (map (moved k) ts).
Proof. induction ts as [|t ts IH]; intros p; cbn [map placed]; auto. intros [E P]. split; [cbn; rewrite E; reflexivity|]. cbn [moved text]. rewrite <- Nat.add_assoc. auto. Qed.
Lemma moved_apart k ts : apart ts -> apart (map (moved k) ts).
Proof. induction ts as [|t [|t' ts] IH]; auto. intros [N A]. split; [exact N|exact (IH A)]. Qed.

(** The words are the maximal runs of text characters, with their positions. *)
Theorem tokenize_words is_text s w p :
  exists ts, unicode_tokenize_tokens is_text s true false = Ok ts /\
    (In (Token w (Some p) WORD) ts <->
     exists a b, s = a ++ w ++ b /\ List.length a = p /\ w <> [] /\ Forall (fun c => is_text c = true) w /\
       (forall x c, a = x ++ [c] -> is_text c = false) /\ (forall c y, b = c :: y -> is_text c = false)) /\
    Forall (fun t => cat t = WORD) ts.
Proof.
  exists (unicode_tokenize_word_tokens is_text s). split; [reflexivity|]. rewrite word_tokens_ok. split.
  - destruct (all_tokens_ok is_text s) as (S & P & F & A). rewrite filter_In. split.
    + intros [I _]. apply in_split in I. destruct I as (x & y & E). pose proof (placed_at 0 _ x _ y P E) as Pt. cbn in Pt. injection Pt as Pt.
      rewrite E in S, F, A. rewrite spelled_app in S. exists (spelled x), (spelled y). split; [rewrite <- S; reflexivity|]. split; auto.
      apply Forall_app in F. destruct F as [Fx F]. inversion F as [|? ? Ft Fy]; subst. cbn in Ft. destruct Ft as [Nw Fw]. split; auto. split; auto. split.
      * intros x0 c Ex. destruct x as [|t' x _] using rev_ind; [destruct x0; discriminate|]. apply Forall_app in Fx. destruct Fx as [_ Fx]. inversion Fx as [|? ? Ft' _]; subst.
        rewrite <- app_assoc in A. apply apart_app in A. destruct A as [_ A]. cbn [app apart] in A. destruct A as [N _].
        rewrite spelled_app in Ex. unfold spelled at 2 in Ex. cbn [map List.concat] in Ex. rewrite app_nil_r in Ex. unfold token_ok in Ft'. destruct (cat t') eqn:C; [exfalso; apply N; split; auto| |];
          destruct Ft' as (c' & E' & T' & _); rewrite E' in Ex; apply app_inj_tail in Ex; destruct Ex as [_ <-]; auto.
      * intros c y0 Ey. eapply (next_not_text is_text (Token w (Some (List.length (spelled x))) WORD) y c); eauto; [split; auto|]. apply apart_app in A. apply A.
    + intros (a & b & Es & Lp & Nw & Fw & Na & Nb). split; [|reflexivity].
      set (ts := unicode_tokenize_all_tokens is_text a ++ Token w (Some p) WORD :: map (moved (p + List.length w)) (unicode_tokenize_all_tokens is_text b)).
      assert (T : tokenized is_text s ts).
      { destruct (all_tokens_ok is_text a) as (Sa & Pa & Fa & Aa). destruct (all_tokens_ok is_text b) as (Sb & Pb & Fb & Ab). unfold ts. repeat split.
        - rewrite spelled_app. change (spelled (Token w (Some p) WORD :: map (moved (p + List.length w)) (unicode_tokenize_all_tokens is_text b))) with (w ++ spelled (map (moved (p + List.length w)) (unicode_tokenize_all_tokens is_text b))).
          rewrite moved_spelled. congruence.
        - apply placed_app. split; auto. rewrite Sa. cbn [placed start_pos text]. split; [cbn; congruence|]. rewrite Nat.add_0_l, Lp. rewrite <- (Nat.add_0_r (p + List.length w)) at 1. apply moved_placed. exact Pb.
        - apply Forall_app. split; auto. constructor; [cbn; auto|]. apply Forall_forall. intros t I. apply in_map_iff in I. destruct I as (t0 & <- & I0). rewrite Forall_forall in Fb. exact (Fb t0 I0).
        - apply apart_app. split.
          + apply apart_snoc; auto. right. intros x t Ex. destruct (cat t) eqn:C; try discriminate. exfalso. rewrite Ex in Sa, Fa. apply Forall_app in Fa. destruct Fa as [_ Ft]. inversion Ft as [|? ? Tt _]; subst.
            unfold token_ok in Tt. rewrite C in Tt. destruct Tt as [Nt Tt]. destruct (text t) as [|z zs _] eqn:Et using rev_ind; [congruence|]. apply Forall_app in Tt. destruct Tt as [_ Tt]. inversion Tt as [|? ? Tz _]; subst.
            rewrite (Na (spelled x ++ zs) z) in Tz; [discriminate|]. rewrite spelled_app. unfold spelled at 2. cbn [map List.concat]. rewrite Et, app_nil_r, app_assoc. reflexivity.
          + pose proof (moved_apart (p + List.length w) _ Ab) as M. destruct (unicode_tokenize_all_tokens is_text b) as [|t tb] eqn:Eb; [cbn; auto|]. cbn [map apart] in *. split; auto. intros [_ C]. cbn [moved cat] in C.
            inversion Fb as [|? ? Tt _]; subst. unfold token_ok in Tt. rewrite C in Tt. destruct Tt as [Nt Tt]. destruct (text t) as [|z zs] eqn:Et; [congruence|]. inversion Tt; subst.
            rewrite (Nb z (zs ++ spelled tb)) in *; [discriminate|]. unfold spelled. cbn [map List.concat]. rewrite Et. reflexivity. }
      assert (E : ts = unicode_tokenize_all_tokens is_text s).
      { destruct T as (S2 & P2 & F2 & A2). apply (tokenized_unique_from is_text 0); auto. congruence. }
      rewrite <- E. unfold ts. apply in_app_iff. simpl. auto.
  - apply Forall_forall. intros t I. apply filter_In in I. apply is_word_iff. apply I.
Qed.
Print Assumptions tokenize_words.

(** Strings are the texts of the tokens, and words_only keeps the words, in all modes. *)
Theorem tokenize_modes is_text s merge :
  exists ts, unicode_tokenize_tokens is_text s false merge = Ok ts /\
    unicode_tokenize_strings is_text s false merge = Ok (map text ts) /\
    unicode_tokenize_tokens is_text s true merge = Ok (filter is_word ts) /\
    unicode_tokenize_strings is_text s true merge = Ok (map text (filter is_word ts)).
Proof.
  unfold unicode_tokenize_tokens, unicode_tokenize_strings. destruct merge; cbn [negb].
  - destruct (merge_ok (unicode_tokenize_all_tokens is_text s)) as (out & E & M); [apply (all_tokens_ok is_text s)|]. rewrite E. cbn [bind]. exists out. auto.
  - exists (unicode_tokenize_all_tokens is_text s). rewrite word_tokens_ok, all_strings_ok, word_strings_ok, word_tokens_ok. auto.
Qed.
Print Assumptions tokenize_modes.

(** With merge_apostrophe_word: no assertion fails; every maximal run of words and
    apostrophes is kept as it is, unless it is a word, an apostrophe and a word,
    which become one word ([merged], which determines the result).  Still the
    strings spell the text and the positions are right. *)
Theorem tokenize_merged is_text s :
  exists ts out, unicode_tokenize_tokens is_text s false false = Ok ts /\ unicode_tokenize_tokens is_text s false true = Ok out /\
    merged ts out /\ (forall out', merged ts out' -> out' = out) /\
    List.concat (map text out) = s /\
    (forall x t y, out = x ++ t :: y -> start_pos t = Some (List.length (List.concat (map text x)))) /\
    forall t, In t out -> cat t <> WORD -> In t ts.
Proof.
  exists (unicode_tokenize_all_tokens is_text s). destruct (all_tokens_ok is_text s) as (S & P & F & A). destruct (merge_ok _ A) as (out & E & M). exists out.
  split; [reflexivity|]. split; [unfold unicode_tokenize_tokens; cbn [negb]; rewrite E; reflexivity|]. split; auto. split; [intros out' M'; eapply merged_fun; eauto|].
  destruct (merged_facts _ _ M) as (M1 & M2 & M3). split; [fold (spelled out); congruence|]. split; auto. intros x t y Ex. apply (placed_at 0 out x t y); auto.
Qed.
Print Assumptions tokenize_merged.

(** The examples of the docstring. *)
Example merged_case : unicode_tokenize_strings ascii_text (w_ "O'reilly said 'a'b' it's") false true =
  Ok [w_ "O'reilly"; w_ " "; w_ "said"; w_ " "; w_ "'"; w_ "a"; w_ "'"; w_ "b"; w_ "'"; w_ " "; w_ "it's"].
Proof. reflexivity. Qed.
Example tokens_case : unicode_tokenize_tokens ascii_text (w_ "ab, c1") false false =
  Ok [Token (w_ "ab") (Some 0) WORD; Token (w_ ",") (Some 2) PUNCTUATION; Token (w_ " ") (Some 3) WHITESPACE; Token (w_ "c1") (Some 4) WORD].
Proof. reflexivity. Qed.
Example words_case : unicode_tokenize_strings ascii_text (w_ "ab, it's c1") true false = Ok [w_ "ab"; w_ "it"; w_ "s"; w_ "c1"].
Proof. reflexivity. Qed.
Example words_merged_case : unicode_tokenize_strings ascii_text (w_ "ab, it's c1") true true = Ok [w_ "ab"; w_ "it's"; w_ "c1"].
Proof. reflexivity. Qed.

(** ** C59: sentences *)
Section Sentences.
Variables is_text is_white : N -> bool.

(** The paragraphs, told by [join] (what [str.split] undoes) and stripped. *)
Definition stripped (p q : str) : Prop :=
  exists a b, p = a ++ q ++ b /\ Forall (fun c => is_white c = true) (a ++ b) /\
    (forall c r, q = c :: r -> is_white c = false) /\ (forall c r, q = r ++ [c] -> is_white c = false).
Definition in_paragraphs (s : str) (mode : splitting) (ps : list str) : Prop :=
  match mode with
  | Whole | Separator [] => ps = [s]
  | Newlines => join_with [10%N] ps = s /\ ps <> [] /\ forall p a b, In p ps -> p <> a ++ [10%N] ++ b
  | Separator sep => join_with sep ps = s /\ ps <> [] /\ forall p a b, In p ps -> p <> a ++ sep ++ b
  end.

Lemma spaces_ok_all s merge ts : unicode_tokenize_tokens is_text s false merge = Ok ts -> spaces_ok ts.
Proof.
  intros E t I W. destruct (all_tokens_ok is_text s) as (_ & _ & F & A). rewrite Forall_forall in F.
  assert (X : In t (unicode_tokenize_all_tokens is_text s)).
  { unfold unicode_tokenize_tokens in E. destruct merge; cbn [negb] in E; [|injection E as <-; auto].
    destruct (merge_ok _ A) as (out & Eo & M). rewrite Eo in E. cbn [bind] in E. injection E as <-. destruct (merged_facts _ _ M) as (_ & _ & M3). apply M3; auto. congruence. }
  apply F in X. unfold token_ok in X. rewrite W in X. destruct X as (c & Ec & _ & J). eauto.
Qed.

Lemma stripped_strip s : stripped s (strip is_white s).
Proof. exact (strip_ok is_white s). Qed.

Lemma paragraphs_ok s mode : exists ps, in_paragraphs s mode ps /\ paragraphs is_white s mode = map (strip is_white) ps.
Proof.
  destruct mode as [|[|c sep]|].
  - exists (py_split s [10%N]). split; [|reflexivity]. cbn [in_paragraphs]. split; [apply split_join; discriminate|]. split; [apply split_loop_ne|]. intros p a b I. eapply split_free; eauto. discriminate.
  - exists [s]. split; reflexivity.
  - exists (py_split s (c :: sep)). split; [|reflexivity]. cbn [in_paragraphs]. split; [apply split_join; discriminate|]. split; [apply split_loop_ne|]. intros p a b I. eapply split_free; eauto. discriminate.
  - exists [s]. split; reflexivity.
Qed.

(** sentence_split_tokens never fails.  The text is cut into paragraphs, which are
    stripped and tokenized; each is cut into non-empty sentences right after every
    white space that follows closing punctuation (with only closing quotes and
    brackets between them), and nowhere else. *)
Theorem sentence_tokens s mode merge :
  exists out ps paras, sentence_split_tokens is_text is_white s mode merge = Ok out /\ out = List.concat paras /\ in_paragraphs s mode ps /\
    Forall2 (fun p ss => exists q ts, stripped p q /\ unicode_tokenize_tokens is_text q false merge = Ok ts /\
      List.concat ss = ts /\ sentences_ok [] ss /\ forall ss', List.concat ss' = ts -> sentences_ok [] ss' -> ss' = ss) ps paras.
Proof.
  destruct (paragraphs_ok s mode) as (ps & Ip & Ep). unfold sentence_split_tokens. rewrite Ep.
  assert (H : forall l, exists paras, mapM (fun para => tokens <- unicode_tokenize_tokens is_text para false merge ;; Ok (sentences_of tokens)) (map (strip is_white) l) = Ok paras /\
    Forall2 (fun p ss => exists q ts, stripped p q /\ unicode_tokenize_tokens is_text q false merge = Ok ts /\
      List.concat ss = ts /\ sentences_ok [] ss /\ forall ss', List.concat ss' = ts -> sentences_ok [] ss' -> ss' = ss) l paras).
  { induction l as [|p l (paras & E & F)]; [exists []; auto|]. cbn [map mapM]. destruct (tokenize_modes is_text (strip is_white p) merge) as (ts & Et & _). rewrite Et. cbn [bind]. rewrite E. cbn [bind].
    exists (sentences_of ts :: paras). split; auto. constructor; auto. exists (strip is_white p), ts. split; [apply stripped_strip|]. split; auto.
    destruct (sentences_of_ok ts (spaces_ok_all _ _ _ Et)) as [C O]. split; auto. split; auto. intros ss' C' O'. apply (sentences_unique ss' []); auto. congruence. }
  destruct (H ps) as (paras & E & F). rewrite E. cbn [bind]. exists (List.concat paras), ps, paras. auto.
Qed.

Lemma paras_solid merge ps paras :
  Forall2 (fun p ss => exists q ts, stripped p q /\ unicode_tokenize_tokens is_text q false merge = Ok ts /\
      List.concat ss = ts /\ sentences_ok [] ss /\ forall ss', List.concat ss' = ts -> sentences_ok [] ss' -> ss' = ss) ps paras ->
  solid is_white (List.concat (map (fun ts => List.concat (map text ts)) (List.concat paras))) = List.concat (map (solid is_white) ps).
Proof.
  induction 1 as [|p ss ps paras (q & ts & (a & b & Es & Fw & _) & Et & Ec & _) F IH]; auto.
  cbn [List.concat map]. rewrite map_app, concat_app, solid_app, IH. f_equal.
  assert (Sq : List.concat (map text ts) = q).
  { destruct merge.
    - destruct (tokenize_merged is_text q) as (ts0 & out & _ & Eo & _ & _ & S & _). congruence.
    - destruct (tokenize_tokens is_text q) as (ts0 & Eo & S & _). congruence. }
  assert (C : List.concat (map (fun ts => List.concat (map text ts)) ss) = q).
  { rewrite <- Sq, <- Ec. clear. induction ss as [|x ss IH]; auto. cbn [map List.concat]. rewrite IH, map_app, concat_app. reflexivity. }
  rewrite C, Es. rewrite !solid_app. apply Forall_app in Fw. destruct Fw as [Fa Fb].
  assert (N : forall l, Forall (fun c => is_white c = true) l -> solid is_white l = []) by (induction 1 as [|c l W _ IHl]; auto; cbn; rewrite W; auto).
  rewrite (N a Fa), (N b Fb), app_nil_r. reflexivity.
Qed.

Lemma solid_join sep ps : solid is_white sep = [] -> solid is_white (join_with sep ps) = List.concat (map (solid is_white) ps).
Proof.
  intros E. induction ps as [|p [|p' ps] IH]; auto; [cbn; rewrite app_nil_r; reflexivity|]. rewrite join_with_cons by discriminate. rewrite !solid_app, E, IH. reflexivity.
Qed.

(** sentence_split: non-empty strings without white space at their ends, which
    together have exactly the characters of the text that are not white space, in
    order (those outside the separators, if a separator is given). *)
Theorem sentence_strings s mode merge :
  exists out ps, sentence_split is_text is_white s mode merge = Ok out /\ in_paragraphs s mode ps /\
    Forall (fun x => x <> [] /\ stripped x x) out /\
    List.concat (map (solid is_white) out) = List.concat (map (solid is_white) ps) /\
    (match mode with Newlines => is_white 10%N = true | Separator sep => Forall (fun c => is_white c = true) sep | Whole => True end ->
     List.concat (map (solid is_white) out) = solid is_white s).
Proof.
  destruct (sentence_tokens s mode merge) as (l & ps & paras & E & El & Ip & F). unfold sentence_split. rewrite E. cbn [bind].
  set (out := filter _ _). exists out, ps. split; [reflexivity|]. split; auto. split; [|].
  - apply Forall_forall. intros x I. apply filter_In in I. destruct I as [I N]. split; [destruct x; [discriminate|congruence]|]. apply in_map_iff in I. destruct I as (ts & Ex & _).
    destruct (strip_ok is_white (List.concat (map text ts))) as (a & b & _ & _ & H1 & H2). rewrite Ex in H1, H2. exists [], []. cbn [app]. rewrite app_nil_r. split; [reflexivity|]. split; [constructor|]. split; [exact H1|exact H2].
  - assert (S : List.concat (map (solid is_white) out) = List.concat (map (solid is_white) ps)).
    { rewrite <- (paras_solid merge ps paras F), <- El. unfold out. clear. induction l as [|ts l IH]; auto. cbn [map filter List.concat]. rewrite solid_app, <- IH, <- (solid_strip is_white (List.concat (map text ts))).
      destruct (strip is_white (List.concat (map text ts))); reflexivity. }
    split; auto. intros W. rewrite S. destruct mode as [|[|c sep]|]; cbn [in_paragraphs] in Ip.
    + destruct Ip as (J & _). rewrite <- J. symmetry. apply solid_join. cbn. rewrite W. reflexivity.
    + subst ps. cbn. apply app_nil_r.
    + destruct Ip as (J & _). rewrite <- J. symmetry. apply solid_join. clear -W. induction W as [|x l E W IH]; auto. cbn. rewrite E. exact IH.
    + subst ps. cbn. apply app_nil_r.
Qed.
End Sentences.
Print Assumptions sentence_tokens.
Print Assumptions sentence_strings.

Example sentences_case : sentence_split ascii_text ascii_white (w_ " He said ""no!"" Then 192.168.1.1 left. Bye ") Newlines false =
  Ok [w_ "He said ""no!"""; w_ "Then 192.168.1.1 left."; w_ "Bye"].
Proof. reflexivity. Qed.
Example separator_case : sentence_split ascii_text ascii_white (w_ "a. b--c--d") (Separator (w_ "--")) true = Ok [w_ "a."; w_ "b"; w_ "c"; w_ "d"].
Proof. reflexivity. Qed.

(** The positions in the tokens of a sentence are those in the stripped paragraph,
    not those in the text. *)
Theorem sentence_positions_refuted : exists s out ts t p, sentence_split_tokens ascii_text ascii_white s Newlines false = Ok out /\ In ts out /\ In t ts /\ start_pos t = Some p /\
  py_slice s p (p + List.length (text t)) <> text t.
Proof. exists (w_ " a"), [[Token (w_ "a") (Some 0) WORD]], [Token (w_ "a") (Some 0) WORD], (Token (w_ "a") (Some 0) WORD), 0. split; [reflexivity|]. cbn. split; auto. split; auto. split; auto. discriminate. Qed.
Print Assumptions sentence_positions_refuted.

(** ** C60: n-grams *)
Definition windows {A} (n : nat) (l : list A) : list (list A) := map (fun i => firstn n (skipn i l)) (seq 0 (S (List.length l) - n)).

(** [windows] are the contiguous stretches of length n, by position. *)
Lemma windows_in {A} n (l g : list A) : 0 < n -> (In g (windows n l) <-> List.length g = n /\ exists a b, l = a ++ g ++ b).
Proof.
  intros L. unfold windows. rewrite in_map_iff. split.
  - intros (i & <- & I). apply in_seq in I. split; [rewrite firstn_length, skipn_length; lia|]. exists (firstn i l), (skipn n (skipn i l)). rewrite firstn_skipn, firstn_skipn. reflexivity.
  - intros (<- & a & b & ->). exists (List.length a). rewrite skipn_app, Nat.sub_diag, skipn_all. cbn [app skipn]. rewrite firstn_app, Nat.sub_diag, firstn_all. cbn [firstn]. rewrite app_nil_r. split; auto.
    apply in_seq. rewrite !app_length. lia.
Qed.

Theorem word_grams is_text is_white s n merge : (2 <= n)%Z ->
  (exists ts, unicode_tokenize_tokens is_text s false merge = Ok ts /\
     word_n_grams is_text is_white s n false merge = Ok (windows (Z.to_nat n) (map text (filter is_word ts)))) /\
  (exists ss, sentence_split_tokens is_text is_white s Newlines merge = Ok ss /\
     word_n_grams is_text is_white s n true merge = Ok (List.concat (map (fun ts => windows (Z.to_nat n) (map text (filter is_word ts))) ss))).
Proof.
  intros L. unfold word_n_grams. rewrite (proj2 (Z.geb_le n 2)) by lia. cbn [negb guard bind]. split.
  - destruct (tokenize_modes is_text s merge) as (ts & E & _ & _ & E'). rewrite E'. cbn [bind]. exists ts. split; auto. rewrite n_grams_ok by lia. reflexivity.
  - destruct (sentence_tokens is_text is_white s Newlines merge) as (out & _ & _ & E & _). rewrite E. cbn [bind]. exists out. split; auto. f_equal. rewrite flat_map_concat_map. f_equal. apply map_ext. intros ts. apply n_grams_ok. lia.
Qed.
Print Assumptions word_grams.
Theorem word_grams_error is_text is_white s n split merge : (n < 2)%Z -> word_n_grams is_text is_white s n split merge = Err AssertionError.
Proof. intros L. unfold word_n_grams. destruct (Z.geb_spec n 2); [lia|reflexivity]. Qed.
Print Assumptions word_grams_error.
Theorem text_grams s n : (1 <= n)%Z -> text_n_grams s n = windows (Z.to_nat n) s.
Proof.
  intros L. unfold text_n_grams, windows, py_range. rewrite map_map. unfold zlen. replace (Z.to_nat (Z.of_nat (List.length s) - n + 1 - 0)) with (S (List.length s) - Z.to_nat n) by lia.
  apply map_ext_in. intros i I. apply in_seq in I. unfold slice_from, py_slice. destruct (Z.ltb_spec (0 + Z.of_nat i + n) 0); [lia|]. rewrite Z.add_0_l, Nat2Z.id. f_equal. lia.
Qed.
Print Assumptions text_grams.

Example word_grams_case : word_n_grams ascii_text ascii_white (w_ "a b c. d e") 2 true false = Ok [[w_ "a"; w_ "b"]; [w_ "b"; w_ "c"]; [w_ "d"; w_ "e"]].
Proof. reflexivity. Qed.
Example word_grams_whole_case : word_n_grams ascii_text ascii_white (w_ "a b. c") 2 false false = Ok [[w_ "a"; w_ "b"]; [w_ "b"; w_ "c"]].
Proof. reflexivity. Qed.
Example text_grams_case : text_n_grams (w_ "abcd") 3 = [w_ "abc"; w_ "bcd"].
Proof. reflexivity. Qed.
(** A size below 1: not the (n) n-grams one might expect. *)
Example text_grams_zero_case : text_n_grams (w_ "ab") 0 = [[]; []; []].
Proof. reflexivity. Qed.
