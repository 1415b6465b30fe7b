(** UTF-8 and line ends, and the stream of a trie. *)
From Coq Require Import ZArith NArith List Bool Lia String.
From Verif Require Import Py ListAux PyDict TrieSpec TrieModel NmdSpec Ex.
From Verif Require Import FileModel.
Import ListNotations.
Open Scope list_scope.
Open Scope N_scope.

Ltac Zify.zify_post_hook ::= Z.to_euclidean_division_equations.

Ltac cmp := repeat match goal with
  | |- context [?a <? ?b] => destruct (N.ltb_spec a b); try lia
  | |- context [?a <=? ?b] => destruct (N.leb_spec a b); try lia
  end.

Lemma some_inj {A} (x y : A) : Some x = Some y -> x = y.
Proof. congruence. Qed.

Lemma pair_inj {A B} (x x' : A) (y y' : B) : (x, y) = (x', y') -> x = x' /\ y = y'.
Proof. intros E. inversion E. auto. Qed.

Lemma utf8_head_char c b l : utf8_char c = Some b -> utf8_head (b ++ l) = Some (c, l).
Proof.
  unfold utf8_char. destruct (N.ltb_spec c 128) as [H1|H1].
  - intros E. apply some_inj in E. subst b. unfold utf8_head. cbn [app]. destruct (N.ltb_spec c 128); [reflexivity|lia].
  - destruct (N.ltb_spec c 2048) as [H2|H2].
    + intros E. apply some_inj in E. subst b. unfold utf8_head, cont. cbn [app].
      assert (A1 : (192 + c / 64 <? 128) = false) by (apply N.ltb_ge; lia).
      assert (A2 : (194 <=? 192 + c / 64) = true) by (apply N.leb_le; lia).
      assert (A3 : (192 + c / 64 <? 224) = true) by (apply N.ltb_lt; lia).
      assert (A4 : (128 <=? 128 + c mod 64) = true) by (apply N.leb_le; lia).
      assert (A5 : (128 + c mod 64 <? 192) = true) by (apply N.ltb_lt; lia).
      rewrite A1, A2, A3, A4, A5. cbn [andb]. do 2 f_equal. lia.
    + destruct (N.ltb_spec c 65536) as [H3|H3].
      * destruct ((55296 <=? c) && (c <? 57344)) eqn:Sur; [discriminate|]. intros E. apply some_inj in E. subst b. unfold utf8_head, cont. cbn [app].
        assert (A1 : (224 + c / 4096 <? 128) = false) by (apply N.ltb_ge; lia).
        assert (A2 : (224 + c / 4096 <? 224) = false) by (apply N.ltb_ge; lia).
        assert (A3 : (224 <=? 224 + c / 4096) = true) by (apply N.leb_le; lia).
        assert (A4 : (224 + c / 4096 <? 240) = true) by (apply N.ltb_lt; lia).
        assert (A5 : (128 <=? 128 + (c / 64) mod 64) = true) by (apply N.leb_le; lia).
        assert (A6 : (128 + (c / 64) mod 64 <? 192) = true) by (apply N.ltb_lt; lia).
        assert (A7 : (128 <=? 128 + c mod 64) = true) by (apply N.leb_le; lia).
        assert (A8 : (128 + c mod 64 <? 192) = true) by (apply N.ltb_lt; lia).
        rewrite A1, A2, A3, A4, A5, A6, A7, A8. rewrite !andb_false_r. cbn [andb].
        replace ((224 + c / 4096 - 224) * 4096 + (128 + (c / 64) mod 64 - 128) * 64 + (128 + c mod 64 - 128)) with c by lia.
        rewrite Sur. destruct (N.ltb_spec c 2048); [lia|]. reflexivity.
      * destruct (N.ltb_spec c 1114112) as [H4|H4]; [|discriminate]. intros E. apply some_inj in E. subst b. unfold utf8_head, cont. cbn [app].
        assert (A1 : (240 + c / 262144 <? 128) = false) by (apply N.ltb_ge; lia).
        assert (A2 : (240 + c / 262144 <? 224) = false) by (apply N.ltb_ge; lia).
        assert (A3 : (240 + c / 262144 <? 240) = false) by (apply N.ltb_ge; lia).
        assert (A4 : (240 <=? 240 + c / 262144) = true) by (apply N.leb_le; lia).
        assert (A5 : (240 + c / 262144 <? 245) = true) by (apply N.ltb_lt; lia).
        assert (B1 : (128 <=? 128 + (c / 4096) mod 64) = true) by (apply N.leb_le; lia).
        assert (B2 : (128 + (c / 4096) mod 64 <? 192) = true) by (apply N.ltb_lt; lia).
        assert (B3 : (128 <=? 128 + (c / 64) mod 64) = true) by (apply N.leb_le; lia).
        assert (B4 : (128 + (c / 64) mod 64 <? 192) = true) by (apply N.ltb_lt; lia).
        assert (B5 : (128 <=? 128 + c mod 64) = true) by (apply N.leb_le; lia).
        assert (B6 : (128 + c mod 64 <? 192) = true) by (apply N.ltb_lt; lia).
        rewrite A1, A2, A3, A4, A5, B1, B2, B3, B4, B5, B6. rewrite !andb_false_r. cbn [andb].
        replace ((240 + c / 262144 - 240) * 262144 + (128 + (c / 4096) mod 64 - 128) * 4096 + (128 + (c / 64) mod 64 - 128) * 64 + (128 + c mod 64 - 128)) with c by lia.
        destruct (N.ltb_spec c 65536); [lia|]. destruct (N.leb_spec 1114112 c); [lia|]. reflexivity.
Qed.

Lemma utf8_char_nonempty c b : utf8_char c = Some b -> b <> [].
Proof.
  unfold utf8_char. destruct (_ <? _); [intros E; injection E as <-; discriminate|]. destruct (_ <? _); [intros E; injection E as <-; discriminate|].
  destruct (_ <? _); [destruct (_ && _); [discriminate|intros E; injection E as <-; discriminate]|]. destruct (_ <? _); [intros E; injection E as <-; discriminate|discriminate].
Qed.

(** Encoding, then decoding *)
Lemma utf8_decode_encode s : forall b fuel, utf8 s = Some b -> (List.length b < fuel)%nat -> utf8_decode fuel b = (s, false).
Proof.
  induction s as [|c s IH]; intros b fuel E L; cbn in E.
  - injection E as <-. destruct fuel; reflexivity.
  - destruct (utf8_char c) as [bc|] eqn:Ec; [|discriminate]. destruct (utf8 s) as [bs|]; [|discriminate]. injection E as <-.
    pose proof (utf8_char_nonempty _ _ Ec) as Ne. rewrite app_length in L. destruct fuel as [|fuel]; [lia|]. cbn [utf8_decode].
    rewrite (utf8_head_char _ _ _ Ec). destruct bc as [|x bc]; [congruence|]. cbn [app]. cbn [List.length] in L.
    rewrite (IH bs fuel eq_refl) by lia. reflexivity.
Qed.

(** Decoding, then encoding *)
Lemma utf8_char_head l c l' : utf8_head l = Some (c, l') -> exists b, utf8_char c = Some b /\ l = b ++ l'.
Proof.
  unfold utf8_head, cont. destruct l as [|a l1]; [discriminate|]. destruct (N.ltb_spec a 128) as [H1|H1].
  { intros E. apply some_inj, pair_inj in E as [E El]. subst l'. rewrite <- E. clear E. exists [a]. unfold utf8_char. destruct (N.ltb_spec a 128); [auto|lia]. }
  destruct l1 as [|b l2]; [discriminate|]. destruct ((194 <=? a) && (a <? 224) && ((128 <=? b) && (b <? 192))) eqn:C2.
  { intros E. apply some_inj, pair_inj in E as [E El]. subst l'. rewrite <- E. clear E. rewrite !andb_true_iff, !N.leb_le, !N.ltb_lt in C2. destruct C2 as [[C1 C2] [C3 C4]].
    exists [a; b]. split; [|reflexivity]. unfold utf8_char. set (x := (a - 192) * 64 + (b - 128)).
    destruct (N.ltb_spec x 128); [lia|]. destruct (N.ltb_spec x 2048); [|lia]. do 2 f_equal; [lia|f_equal; lia]. }
  clear C2. destruct l2 as [|c0 l3]; [discriminate|]. destruct ((224 <=? a) && (a <? 240) && ((128 <=? b) && (b <? 192)) && ((128 <=? c0) && (c0 <? 192))) eqn:C3.
  { rewrite !andb_true_iff, !N.leb_le, !N.ltb_lt in C3. destruct C3 as [[[C1 C2] [C3 C4]] [C5 C6]].
    cbv zeta. set (x := (a - 224) * 4096 + (b - 128) * 64 + (c0 - 128)). destruct ((x <? 2048) || ((55296 <=? x) && (x <? 57344))) eqn:G; [discriminate|].
    apply orb_false_iff in G as [G1 G2]. apply N.ltb_ge in G1. intros E. apply some_inj, pair_inj in E as [E El]. subst l'. rewrite <- E. clear E.
    exists [a; b; c0]. split; [|reflexivity]. unfold utf8_char. destruct (N.ltb_spec x 128); [lia|]. destruct (N.ltb_spec x 2048); [lia|].
    destruct (N.ltb_spec x 65536); [|lia]. rewrite G2. do 2 f_equal; [lia|f_equal; [lia|f_equal; lia]]. }
  clear C3. destruct l3 as [|d l4]; [discriminate|].
  destruct ((240 <=? a) && (a <? 245) && ((128 <=? b) && (b <? 192)) && ((128 <=? c0) && (c0 <? 192)) && ((128 <=? d) && (d <? 192))) eqn:C4; [|discriminate].
  rewrite !andb_true_iff, !N.leb_le, !N.ltb_lt in C4. destruct C4 as [[[[C1 C2] [C3 C4]] [C5 C6]] [C7 C8]].
  cbv zeta. set (x := (a - 240) * 262144 + (b - 128) * 4096 + (c0 - 128) * 64 + (d - 128)).
  destruct ((x <? 65536) || (1114112 <=? x)) eqn:G; [discriminate|]. apply orb_false_iff in G as [G1 G2]. apply N.ltb_ge in G1. apply N.leb_gt in G2.
  intros E. apply some_inj, pair_inj in E as [E El]. subst l'. rewrite <- E. clear E. exists [a; b; c0; d]. split; [|reflexivity]. unfold utf8_char.
  destruct (N.ltb_spec x 128); [lia|]. destruct (N.ltb_spec x 2048); [lia|]. destruct (N.ltb_spec x 65536); [lia|]. destruct (N.ltb_spec x 1114112); [|lia].
  do 2 f_equal; [lia|f_equal; [lia|f_equal; [lia|f_equal; lia]]].
Qed.

Lemma utf8_encode_decode fuel : forall b s, (List.length b < fuel)%nat -> utf8_decode fuel b = (s, false) -> utf8 s = Some b.
Proof.
  induction fuel as [|fuel IH]; intros b s L E; [lia|]. cbn [utf8_decode] in E. destruct b as [|x b]; [injection E as <-; reflexivity|].
  destruct (utf8_head (x :: b)) as [[c l']|] eqn:Eh; [|discriminate]. destruct (utf8_decode fuel l') as [s' bad] eqn:Ed. injection E as <- ->.
  destruct (utf8_char_head _ _ _ Eh) as (bc & Ec & El). pose proof (utf8_char_nonempty _ _ Ec) as Ne.
  assert (Ll : (List.length l' < fuel)%nat). { apply (f_equal (@List.length _)) in El. rewrite app_length in El. destruct bc; [congruence|]. cbn [List.length] in *. lia. }
  cbn [utf8]. rewrite Ec, (IH l' s' Ll Ed), El. reflexivity.
Qed.

Close Scope N_scope.

Lemma utf8_app a b x y : utf8 a = Some x -> utf8 b = Some y -> utf8 (a ++ b) = Some (x ++ y).
Proof.
  revert x. induction a as [|c a IH]; cbn; intros x E1 E2; [injection E1 as <-; auto|].
  destruct (utf8_char c); [|discriminate]. destruct (utf8 a) as [z|]; [|discriminate]. injection E1 as <-. rewrite (IH z eq_refl E2), app_assoc. reflexivity.
Qed.

Lemma utf8_app_inv a b z : utf8 (a ++ b) = Some z -> exists x y, utf8 a = Some x /\ utf8 b = Some y /\ z = x ++ y.
Proof.
  revert z. induction a as [|c a IH]; cbn; intros z E; [exists [], z; auto|].
  destruct (utf8_char c) as [bc|]; [|discriminate]. destruct (utf8 (a ++ b)) as [w|] eqn:Ew; [|discriminate]. injection E as <-.
  destruct (IH w eq_refl) as (x & y & -> & -> & ->). exists (bc ++ x), y. rewrite app_assoc. auto.
Qed.

(** Text without carriage returns is read as it is. *)
Lemma universal_id s : ~ In 13%N s -> universal s = s.
Proof.
  induction s as [|c s IH]; intros N; cbn; auto. destruct (N.eqb_spec c 13); [exfalso; apply N; left; auto|]. f_equal. apply IH. intros I. apply N. right. exact I.
Qed.

Lemma universal_no_cr s : ~ In 13%N (universal s).
Proof.
  assert (X : forall n s, (List.length s <= n)%nat -> ~ In 13%N (universal s)).
  { clear. induction n as [|n IH]; intros [|c s] L; cbn in *; auto; [lia|]. destruct (N.eqb_spec c 13).
    - destruct s as [|d s]; [intros [E|[]]; discriminate|]. destruct (N.eqb d 10).
      + intros [E|I]; [discriminate|]. cbn in L. apply (IH s) in I; auto. lia.
      + intros [E|I]; [discriminate|]. apply (IH (d :: s)) in I; auto. lia.
    - intros [E|I]; [congruence|]. apply (IH s) in I; auto. lia. }
  eapply X. reflexivity.
Qed.

(** ** The stream *)
Section Stream.
Context {T V : Type} `{EqDec T}.
Variable value_tokens : V -> list T.
Variable encode : T -> bytes + error.

Lemma encode_all_ok out : forall bs, encode_all encode out None = (bs, None) <-> Forall2 (fun c b => encode c = inl b) out bs.
Proof.
  induction out as [|c out IH]; intros bs; cbn.
  - split; intros E; [injection E as <-; constructor|inversion E; reflexivity].
  - destruct (encode c) as [b|e] eqn:Ec.
    + destruct (encode_all encode out None) as [bs' f]. split.
      * intros E. injection E as <- ->. constructor; auto. apply IH. reflexivity.
      * intros E. inversion E as [|? b' ? bs'' E1 E2]; subst. rewrite Ec in E1. injection E1 as <-. apply IH in E2. injection E2 as -> ->. reflexivity.
    + split; intros E; [discriminate|]. inversion E as [|? b' ? bs'' E1 E2]; subst. congruence.
Qed.
End Stream.

(** Tokens that are strings, written as UTF-8 *)
Lemma write_text_all (out : list str) bs : Forall2 (fun c b => write_text c = inl b) out bs -> utf8 (List.concat out) = Some (List.concat bs).
Proof.
  induction 1 as [|c b out bs E F IH]; cbn; auto. apply utf8_app; auto. unfold write_text in E. destruct (utf8 c); [|discriminate]. congruence.
Qed.

Lemma write_text_exists (out : list str) b : utf8 (List.concat out) = Some b -> exists bs, Forall2 (fun c b => write_text c = inl b) out bs /\ b = List.concat bs.
Proof.
  revert b. induction out as [|c out IH]; cbn; intros b E.
  - injection E as <-. exists []. split; [constructor|reflexivity].
  - apply utf8_app_inv in E as (x & y & Ex & Ey & ->). destruct (IH y Ey) as (bs & F & ->). exists (x :: bs). split; [|reflexivity].
    constructor; auto. unfold write_text. rewrite Ex. reflexivity.
Qed.
