(** Sentences and n-grams. *)
From Coq Require Import ZArith NArith List Bool Lia.
From Verif Require Import Py NmdSpec IndexModel TokModel TokProofs.
Import ListNotations.
Open Scope nat_scope.

(** ** Sentences *)
Definition closing (t : token) : Prop := exists c, text t = [c] /\ In c CLOSING_PUNCTUATION.
Definition closer (t : token) : Prop := exists c, text t = [c] /\ In c CLOSERS.
(** Closing punctuation, and nothing but closing quotes and brackets after it. *)
Definition shut (pre : list token) : Prop := exists p c q, pre = p ++ c :: q /\ closing c /\ Forall closer q.
(** A sentence ends with [t] after the tokens [pre]. *)
Definition ends_sentence (pre : list token) (t : token) : Prop := cat t = WHITESPACE /\ shut pre.

(** Sentences that follow the tokens [pre]: each but the last ends where a
    sentence ends, and none goes on after such a place. *)
Fixpoint sentences_ok (pre : list token) (ss : list (list token)) : Prop :=
  match ss with
  | [] => True
  | s :: rest =>
      s <> [] /\ (rest <> [] -> exists p t, s = p ++ [t] /\ ends_sentence (pre ++ p) t) /\
      (forall p t q, s = p ++ t :: q -> q <> [] -> ~ ends_sentence (pre ++ p) t) /\ sentences_ok (pre ++ s) rest
  end.

(** ... all of them ended. *)
Fixpoint ended_ok (pre : list token) (ss : list (list token)) : Prop :=
  match ss with
  | [] => True
  | s :: rest =>
      (exists p t, s = p ++ [t] /\ ends_sentence (pre ++ p) t) /\
      (forall p t q, s = p ++ t :: q -> q <> [] -> ~ ends_sentence (pre ++ p) t) /\ ended_ok (pre ++ s) rest
  end.

Lemma ended_sentences pre ss : ended_ok pre ss -> sentences_ok pre ss.
Proof.
  revert pre; induction ss as [|s ss IH]; intros pre H; auto. destruct H as (H1 & H2 & H3). cbn [sentences_ok]. split; [destruct H1 as (p & t & -> & _); destruct p; discriminate|]. auto.
Qed.
Lemma ended_snoc ss : forall pre s, ended_ok pre ss -> s <> [] -> (forall p t q, s = p ++ t :: q -> q <> [] -> ~ ends_sentence (pre ++ concat ss ++ p) t) -> sentences_ok pre (ss ++ [s]).
Proof.
  induction ss as [|s0 ss IH]; intros pre s H N L; cbn [app].
  - cbn [concat app] in L. cbn [sentences_ok]. split; auto. split; [congruence|]. auto.
  - destruct H as (H1 & H2 & H3). cbn [sentences_ok]. split; [destruct H1 as (p & t & -> & _); destruct p; discriminate|]. split; auto. split; auto. apply IH; auto.
    intros p t q E X. rewrite <- app_assoc. specialize (L p t q E X). cbn [concat] in L. rewrite <- app_assoc in L. exact L.
Qed.
Lemma ended_snoc_end ss : forall pre p t, ended_ok pre ss -> ends_sentence (pre ++ concat ss ++ p) t ->
  (forall a b q, p = a ++ b :: q -> ~ ends_sentence (pre ++ concat ss ++ a) b) -> ended_ok pre (ss ++ [p ++ [t]]).
Proof.
  induction ss as [|s0 ss IH]; intros pre p t H E L; cbn [app].
  - cbn [concat app] in *. cbn [ended_ok]. split; [exists p, t; auto|]. split; auto. intros a b q Eq N.
    destruct q as [|q0 q] using rev_ind; [congruence|]. rewrite app_comm_cons, app_assoc in Eq. apply app_inj_tail in Eq. destruct Eq as [-> _]. eapply L; eauto.
  - destruct H as (H1 & H2 & H3). cbn [ended_ok]. split; auto. split; auto. cbn [concat] in *. apply IH; auto.
    + rewrite <- app_assoc in E. rewrite <- app_assoc. exact E.
    + intros a b q Eq. rewrite <- app_assoc. specialize (L a b q Eq). rewrite <- app_assoc in L. exact L.
Qed.

Lemma disjoint_lists : forallb (fun c => negb (existsb (N.eqb c) CLOSERS)) CLOSING_PUNCTUATION = true /\
  forallb (fun c => negb (existsb (N.eqb c) CLOSERS) && negb (existsb (N.eqb c) CLOSING_PUNCTUATION)) UNICODE_SPACES = true.
Proof. split; reflexivity. Qed.

Lemma closing_not_closer t : closing t -> ~ closer t.
Proof.
  intros (c & E & I) (c' & E' & I'). rewrite E in E'. injection E' as <-. pose proof (proj1 disjoint_lists) as D. rewrite forallb_forall in D. apply D in I. apply negb_true_iff in I.
  assert (X : existsb (N.eqb c) CLOSERS = true) by (apply existsb_exists; exists c; split; auto; apply N.eqb_refl). congruence.
Qed.
Lemma space_neither t c : text t = [c] -> In c UNICODE_SPACES -> ~ closer t /\ ~ closing t.
Proof.
  intros E I. pose proof (proj2 disjoint_lists) as D. rewrite forallb_forall in D. apply D in I. apply andb_prop in I. destruct I as [I1 I2]. apply negb_true_iff in I1, I2.
  split; intros (c' & E' & I'); rewrite E in E'; injection E' as <-; assert (X : forall l, In c l -> existsb (N.eqb c) l = true) by (intros l J; apply existsb_exists; exists c; split; auto; apply N.eqb_refl); apply X in I'; congruence.
Qed.

Lemma shut_snoc pre t : shut (pre ++ [t]) <-> closing t \/ (closer t /\ shut pre).
Proof.
  split.
  - intros (p & c & q & E & C & F). destruct q as [|q0 q] using rev_ind.
    + apply app_inj_tail in E. destruct E as [_ ->]. auto.
    + rewrite app_comm_cons, app_assoc in E. apply app_inj_tail in E. destruct E as [-> ->]. apply Forall_app in F. destruct F as [F F0]. inversion F0; subst. right. split; auto. exists p, c, q. auto.
  - intros [C|[C (p & c & q & -> & D & F)]]; [exists pre, t, []; auto|]. exists p, c, (q ++ [t]). split; [rewrite <- app_assoc; reflexivity|]. split; auto. apply Forall_app. auto.
Qed.

(** White-space tokens are single characters of the set. *)
Definition spaces_ok (ts : list token) : Prop := forall t, In t ts -> cat t = WHITESPACE -> exists c, text t = [c] /\ In c UNICODE_SPACES.

Lemma sentence_inv ts : spaces_ok ts -> let '(buffer, closed, out) := fold_left sentence_step ts ([], false, []) in
  concat out ++ buffer = ts /\ (closed = true <-> shut ts) /\ ended_ok [] out /\ forall p t q, buffer = p ++ t :: q -> ~ ends_sentence (concat out ++ p) t.
Proof.
  induction ts as [|t ts IH] using rev_ind; intros Sp.
  - cbn. split; auto. split; [split; [discriminate|intros (p & c & q & E & _); destruct p; discriminate]|]. split; auto. intros p t q E. destruct p; discriminate.
  - rewrite fold_left_app. cbn [fold_left]. assert (Sp' : spaces_ok ts) by (intros x I; apply Sp; apply in_app_iff; auto). specialize (IH Sp').
    destruct (fold_left sentence_step ts ([], false, [])) as [[buffer closed] out]. destruct IH as (E & C & O & B). unfold sentence_step.
    destruct (closed && match cat t with WHITESPACE => true | _ => false end) eqn:Ec.
    + apply andb_prop in Ec. destruct Ec as [-> Ec]. assert (Wt : cat t = WHITESPACE) by (destruct (cat t); auto; discriminate). clear Ec.
      replace (match buffer ++ [t] with [] => out | _ => out ++ [buffer ++ [t]] end) with (out ++ [buffer ++ [t]]) by (destruct buffer; reflexivity).
      split; [rewrite concat_app; cbn [concat]; rewrite !app_nil_r, app_assoc, E; reflexivity|]. split; [|split].
      * split; [discriminate|]. rewrite shut_snoc. destruct (Sp t) as (c & Et & I); [apply in_app_iff; simpl; auto|auto|]. destruct (space_neither t c Et I) as [N1 N2]. intros [X|[X _]]; contradiction.
      * apply ended_snoc_end; auto. cbn [app]. rewrite E. split; auto. apply C. auto.
      * intros p t' q X. destruct p; discriminate.
    + split; [rewrite app_assoc, E; reflexivity|]. split; [|split; auto].
      * rewrite shut_snoc. destruct (str_in (text t) CLOSERS) eqn:Ecl; cbn [negb].
        -- apply str_in_iff in Ecl. rewrite C. split; [auto|]. intros [X|[_ X]]; auto. exfalso. eapply closing_not_closer; eauto.
        -- assert (Nc : ~ closer t) by (intros X; apply str_in_iff in X; congruence). rewrite str_in_iff. unfold closing. split; [auto|]. intros [X|[X _]]; [auto|contradiction].
      * intros p t' q X. destruct q as [|q0 q] using rev_ind.
        -- apply app_inj_tail in X. destruct X as [<- <-]. rewrite E. intros [W S]. apply C in S. rewrite S, W in Ec. discriminate.
        -- rewrite app_comm_cons, app_assoc in X. apply app_inj_tail in X. destruct X as [-> _]. eapply B; eauto.
Qed.

Lemma sentences_of_ok ts : spaces_ok ts -> concat (sentences_of ts) = ts /\ sentences_ok [] (sentences_of ts).
Proof.
  intros Sp. pose proof (sentence_inv ts Sp) as H. unfold sentences_of. destruct (fold_left sentence_step ts ([], false, [])) as [[buffer closed] out]. destruct H as (E & _ & O & B).
  destruct buffer as [|b buffer]; [rewrite app_nil_r in E; split; auto; apply ended_sentences; auto|]. split.
  - rewrite concat_app. cbn [concat]. rewrite app_nil_r. exact E.
  - apply ended_snoc; auto; [discriminate|]. intros p t q X _. apply (B p t q X).
Qed.

(** The rule determines the sentences. *)
Lemma app_split {A} (a b c d : list A) : a ++ b = c ++ d -> (exists x, c = a ++ x /\ b = x ++ d) \/ (exists x, a = c ++ x /\ d = x ++ b).
Proof.
  revert c; induction a as [|y a IH]; intros c E; [left; exists c; auto|]. destruct c as [|z c]; [right; exists (y :: a); auto|]. injection E as -> E. destruct (IH c E) as [(x & -> & ->)|(x & -> & ->)]; [left|right]; exists x; auto.
Qed.
Lemma sentences_unique ss : forall pre ss', concat ss = concat ss' -> sentences_ok pre ss -> sentences_ok pre ss' -> ss = ss'.
Proof.
  induction ss as [|s ss IH]; intros pre [|s' ss'] E H H'.
  - reflexivity.
  - destruct H' as (N & _). cbn in E. destruct s'; [congruence|discriminate].
  - destruct H as (N & _). cbn in E. destruct s; [congruence|discriminate].
  - destruct H as (N & H1 & H2 & H3). destruct H' as (N' & H1' & H2' & H3'). cbn [concat] in E. assert (Es : s = s').
    { destruct (app_split _ _ _ _ E) as [([|x0 x] & E1 & E2)|([|x0 x] & E1 & E2)]; try (rewrite app_nil_r in E1; auto); exfalso.
      - destruct H1 as (p & t & Ep & C); [intros ->; discriminate|]. apply (H2' p t (x0 :: x)); [rewrite E1, Ep, <- app_assoc; reflexivity|discriminate|exact C].
      - destruct H1' as (p & t & Ep & C); [intros ->; discriminate|]. apply (H2 p t (x0 :: x)); [rewrite E1, Ep, <- app_assoc; reflexivity|discriminate|exact C]. }
    subst s'. apply app_inv_head in E. f_equal. apply (IH (pre ++ s)); auto.
Qed.

(** ** strip, split *)
Section White.
Variable is_white : N -> bool.
Definition solid (s : str) : str := filter (fun c => negb (is_white c)) s.

Lemma solid_app a b : solid (a ++ b) = solid a ++ solid b.
Proof. apply filter_app. Qed.
Lemma solid_rev s : solid (rev s) = rev (solid s).
Proof. induction s as [|c s IH]; cbn [rev]; auto. rewrite solid_app, IH. cbn. destruct (is_white c); cbn; rewrite ?app_nil_r; reflexivity. Qed.
Lemma solid_lstrip s : solid (lstrip is_white s) = solid s.
Proof. induction s as [|c s IH]; cbn [lstrip]; auto. destruct (is_white c) eqn:E; [|reflexivity]. cbn. rewrite E. exact IH. Qed.
Lemma solid_strip s : solid (strip is_white s) = solid s.
Proof. unfold strip. rewrite solid_rev, solid_lstrip, solid_rev, solid_lstrip, rev_involutive. reflexivity. Qed.

Lemma lstrip_split s : exists a, s = a ++ lstrip is_white s /\ Forall (fun c => is_white c = true) a.
Proof. induction s as [|c s (a & E & F)]; cbn [lstrip]; [exists []; auto|]. destruct (is_white c) eqn:W; [exists (c :: a); cbn; rewrite <- E; auto|exists []; auto]. Qed.
Lemma lstrip_head s c r : lstrip is_white s = c :: r -> is_white c = false.
Proof. induction s as [|x s IH]; cbn [lstrip]; [discriminate|]. destruct (is_white x) eqn:W; auto. intros [= <- _]. exact W. Qed.

(** Only white space goes, at the two ends, and none is left there. *)
Lemma strip_ok s : exists a b, s = a ++ strip is_white s ++ b /\ Forall (fun c => is_white c = true) (a ++ b) /\
  (forall c r, strip is_white s = c :: r -> is_white c = false) /\ (forall c r, strip is_white s = r ++ [c] -> is_white c = false).
Proof.
  unfold strip. destruct (lstrip_split s) as (a & E & F). destruct (lstrip_split (rev (lstrip is_white s))) as (b & E' & F').
  assert (Eb : lstrip is_white s = rev (lstrip is_white (rev (lstrip is_white s))) ++ rev b) by (rewrite <- rev_app_distr, <- E', rev_involutive; reflexivity).
  exists a, (rev b). split; [rewrite <- Eb; exact E|]. split; [apply Forall_app; split; auto; apply Forall_rev; auto|]. split.
  - intros c r X. rewrite X in Eb. apply (lstrip_head s c (r ++ rev b)). rewrite Eb. reflexivity.
  - intros c r X. apply (f_equal (@rev N)) in X. rewrite rev_involutive, rev_unit in X. eapply lstrip_head; eauto.
Qed.
End White.

Lemma starts_with_iff sep s rest : starts_with sep s = Some rest <-> s = sep ++ rest.
Proof.
  revert s; induction sep as [|a sep IH]; intros s; cbn [starts_with app].
  - split; [intros [= ->]; auto|intros ->; auto].
  - destruct s as [|b s]; [split; discriminate|]. destruct (N.eqb_spec a b) as [->|N]; [rewrite IH; split; [intros ->; auto|intros [= ->]; auto]|].
    split; [discriminate|intros [= E _]; congruence].
Qed.

(** [sep.join(l)] *)
Fixpoint join_with (sep : str) (l : list str) : str := match l with [] => [] | [s] => s | s :: l' => s ++ sep ++ join_with sep l' end.
Lemma join_with_cons sep s l : l <> [] -> join_with sep (s :: l) = s ++ sep ++ join_with sep l.
Proof. destruct l; [congruence|reflexivity]. Qed.

Lemma split_loop_ne sep fuel acc s : split_loop sep fuel acc s <> [].
Proof. revert acc s; induction fuel as [|fuel IH]; intros acc s; cbn [split_loop]; [discriminate|]. destruct (starts_with sep s); [discriminate|]. destruct s; [discriminate|apply IH]. Qed.
Lemma split_loop_join sep : forall fuel acc s, sep <> [] -> length s < fuel -> join_with sep (split_loop sep fuel acc s) = acc ++ s.
Proof.
  induction fuel as [|fuel IH]; intros acc s Ns L; [lia|]. cbn [split_loop]. destruct (starts_with sep s) as [rest|] eqn:E.
  - apply starts_with_iff in E. rewrite join_with_cons by apply split_loop_ne. rewrite IH; auto; [cbn [app]; congruence|]. subst s. rewrite app_length in L. destruct sep; [congruence|cbn [length] in L; lia].
  - destruct s as [|c s]; [cbn; rewrite app_nil_r; reflexivity|]. cbn [length] in L. rewrite IH by (auto; lia). rewrite <- app_assoc. reflexivity.
Qed.
Lemma split_join s sep : sep <> [] -> join_with sep (py_split s sep) = s.
Proof. intros N. unfold py_split. rewrite split_loop_join; auto. Qed.

(** No piece contains the separator. *)
Lemma split_loop_free sep : forall fuel acc s, sep <> [] -> length s < fuel ->
  (forall a b, acc ++ s = a ++ sep ++ b -> length acc <= length a) ->
  forall p a b, In p (split_loop sep fuel acc s) -> p <> a ++ sep ++ b.
Proof.
  induction fuel as [|fuel IH]; intros acc s Ns L H p a b I; [lia|]. cbn [split_loop] in I. 
  assert (Lacc : acc = a ++ sep ++ b -> False).
  { intros E. specialize (H a (b ++ s)). rewrite E in H. rewrite <- !app_assoc in H. specialize (H eq_refl). rewrite !app_length in H. destruct sep; [congruence|cbn [length] in H; lia]. }
  destruct (starts_with sep s) as [rest|] eqn:E.
  - destruct I as [<-|I]; [intros X; auto|]. apply starts_with_iff in E. apply (IH [] rest) with (a := a) (b := b) in I; auto; [|intros; cbn; lia].
    subst s. rewrite app_length in L. destruct sep; [congruence|cbn [length] in L; lia].
  - destruct s as [|c s]; [destruct I as [<-|[]]; intros X; auto|]. cbn [length] in L. apply (IH (acc ++ [c]) s) with (a := a) (b := b) in I; auto; [lia|].
    intros a' b' X. rewrite <- app_assoc in X. pose proof (H a' b' X) as Y. rewrite app_length. cbn [length]. destruct (Nat.eq_dec (length acc) (length a')) as [Z|Z]; [|lia]. exfalso.
    assert (Ea : a' = acc /\ [c] ++ s = sep ++ b'). { clear - X Z. revert a' X Z. induction acc as [|x acc IH]; intros [|y a'] X Z; cbn in *; try discriminate; auto. injection X as -> X. destruct (IH a') as [-> ?]; auto. }
    destruct Ea as [_ Es]. rewrite (proj2 (starts_with_iff sep (c :: s) b') Es) in E. discriminate.
Qed.
Lemma split_free s sep p a b : sep <> [] -> In p (py_split s sep) -> p <> a ++ sep ++ b.
Proof. intros N I. unfold py_split in I. eapply split_loop_free; [exact N| | |exact I]; [lia|]. intros; cbn; lia. Qed.

(** ** n-grams *)
Section Grams.
Context {A : Type}.
Implicit Types w : list A.

Lemma skipn_nth w k : k < length w -> exists x, skipn k w = x :: skipn (S k) w.
Proof. revert k; induction w as [|y w IH]; intros [|k] L; cbn [length] in L; try lia; [exists y; reflexivity|]. destruct (IH k) as (x & E); [lia|]. exists x. exact E. Qed.
Lemma heads_ok w : forall n k, heads (map (fun i => skipn i w) (seq k n)) =
  if (k + n <=? length w) || (n =? 0) then Some (firstn n (skipn k w), map (fun i => skipn i w) (seq (S k) n)) else None.
Proof.
  induction n as [|n IH]; intros k; [rewrite orb_true_r; reflexivity|]. cbn [seq map heads]. cbn [Nat.eqb]. rewrite orb_false_r. destruct (Nat.lt_ge_cases k (length w)) as [L|L].
  - destruct (skipn_nth w k L) as (x & E). rewrite E, IH. replace (S k + n) with (k + S n) by lia. destruct n as [|n].
    + cbn [Nat.eqb]. rewrite orb_true_r. rewrite (proj2 (Nat.leb_le (k + 1) (length w))) by lia. reflexivity.
    + cbn [Nat.eqb]. rewrite orb_false_r. destruct (k + S (S n) <=? length w); reflexivity.
  - rewrite (skipn_all2 w) by lia. rewrite (proj2 (Nat.leb_gt (k + S n) (length w))) by lia. reflexivity.
Qed.
Lemma zip_loop_ok w n : 0 < n -> forall fuel k, S (length w) - n - k < fuel -> zip_loop fuel (map (fun i => skipn i w) (seq k n)) = map (fun i => firstn n (skipn i w)) (seq k (S (length w) - n - k)).
Proof.
  intros Ln. induction fuel as [|fuel IH]; intros k L; [lia|]. cbn [zip_loop]. rewrite heads_ok. rewrite (proj2 (Nat.eqb_neq n 0)), orb_false_r by lia.
  destruct (k + n <=? length w) eqn:E.
  - apply Nat.leb_le in E. rewrite IH by lia. replace (S (length w) - n - k) with (S (S (length w) - n - S k)) by lia. reflexivity.
  - apply Nat.leb_gt in E. replace (S (length w) - n - k) with 0 by lia. reflexivity.
Qed.
Lemma n_grams_ok w n : 0 < n -> n_grams_of n w = map (fun i => firstn n (skipn i w)) (seq 0 (S (length w) - n)).
Proof.
  intros L. unfold n_grams_of, zip_star. rewrite <- (Nat.sub_0_r (S (length w) - n)), <- (zip_loop_ok w n L (S (length w)) 0) by lia. destruct n as [|n]; [lia|]. cbn [seq map skipn]. reflexivity.
Qed.
End Grams.
