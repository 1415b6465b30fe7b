(** Translating and searching a text piece by piece with
    experiments/find_replace_trie.py, [Trie]: property C127. *)
From Coq Require Import ZArith NArith List Bool Permutation Lia Sorted String.
From Verif Require Import Py ListAux PyDict TrieSpec TrieModel TrieProofs TrieScan TrieFind TrieLongest NmdSpec IndexModel Props_Index Props_Trie Props_Find Ex.
Import ListNotations.
Local Open Scope string_scope.
Local Open Scope list_scope.
Open Scope nat_scope.

Section Pieces.
Context {T V : Type}.
Variable m : list T -> option V.

(** No key of the text [a ++ b] goes across the border. *)
Definition apart (a b : list T) : Prop := forall x k y, a ++ b = x ++ k ++ y -> k <> [] -> m k <> None ->
  List.length x + List.length k <= List.length a \/ List.length a <= List.length x.

Lemma apart_tail k a b : apart (k ++ a) b -> apart a b.
Proof.
  intros A x k' y E N M. destruct (A (k ++ x) k' y) as [L|L]; auto.
  - rewrite <- !app_assoc, E. reflexivity.
  - rewrite !app_length in L. left. lia.
  - rewrite !app_length in L. right. lia.
Qed.

Lemma prefix_inside (a b k y : list T) : a ++ b = k ++ y -> List.length k <= List.length a -> exists y', a = k ++ y'.
Proof.
  revert a. induction k as [|c k IH]; intros a E L; [exists a; reflexivity|]. destruct a as [|d a]; [cbn in L; lia|].
  injection E as -> E. destruct (IH a E) as (y' & ->); [cbn in L; lia|]. exists y'. reflexivity.
Qed.

Lemma longest_apart k rest v b : apart (k ++ rest) b -> longest_key m k rest v -> longest_key m k (rest ++ b) v.
Proof.
  intros A (N & M & L). split; [exact N|]. split; [exact M|]. intros k' rest' E Len.
  destruct (m k') as [v'|] eqn:Ev; [|reflexivity]. exfalso.
  destruct (A [] k' rest') as [X|X].
  - cbn [app]. rewrite E, app_assoc. reflexivity.
  - intros ->. cbn in Len. lia.
  - congruence.
  - cbn [List.length Nat.add] in X. destruct (prefix_inside (k ++ rest) b k' rest') as (y' & Ey); [rewrite <- app_assoc; auto|exact X|].
    rewrite (L k' y' (eq_sym Ey) Len) in Ev. discriminate.
  - cbn [List.length] in X. rewrite app_length in X. destruct k; [congruence|cbn in X; lia].
Qed.

Lemma none_apart x rest b : apart (x :: rest) b -> no_key m (x :: rest) -> no_key m (x :: rest ++ b).
Proof.
  intros A N k y E Nk. destruct (m k) as [v|] eqn:Ev; [|reflexivity]. exfalso. destruct (A [] k y) as [X|X]; [symmetry; exact E|exact Nk|congruence| |cbn in X; lia].
  cbn [List.length Nat.add] in X. destruct (prefix_inside (x :: rest) b k y) as (y' & Ey); [symmetry; exact E|exact X|]. rewrite (N k y' (eq_sym Ey) Nk) in Ev. discriminate.
Qed.

Lemma rewritten_pieces vt a o : rewritten m vt a o -> forall b o', apart a b -> rewritten m vt b o' -> rewritten m vt (a ++ b) (o ++ o').
Proof.
  induction 1 as [|k rest v out L R IH|x rest out N R IH]; intros b o' A R'; cbn [app].
  - exact R'.
  - rewrite <- !app_assoc. apply rw_key; [apply longest_apart; auto|]. apply IH; [eapply apart_tail; exact A|exact R'].
  - apply rw_copy; [apply none_apart; auto|]. apply IH; [apply (apart_tail [x]); exact A|exact R'].
Qed.

Definition moved {K} (d : nat) (x : nat * nat * K) : nat * nat * K := (fst (fst x) + d, snd (fst x) + d, snd x).

Lemma scanned_moved p l ms d : scanned m p l ms -> scanned m (p + d) l (map (moved d) ms).
Proof.
  induction 1 as [|p k rest v ms L R IH|p x rest ms N R IH]; cbn [map].
  - constructor.
  - unfold moved at 1. cbn [fst snd]. replace (p + List.length k + d) with (p + d + List.length k) in * by lia. econstructor; [exact L|exact IH].
  - apply sc_skip; [exact N|]. exact IH.
Qed.

Lemma scanned_pieces p a ms : scanned m p a ms -> forall b ms', apart a b -> scanned m 0 b ms' -> scanned m p (a ++ b) (ms ++ map (moved (p + List.length a)) ms').
Proof.
  induction 1 as [p|p k rest v ms L R IH|p x rest ms N R IH]; intros b ms' A R'; cbn [app].
  - cbn [List.length]. rewrite Nat.add_0_r. apply (scanned_moved 0 b ms' p R').
  - rewrite <- app_assoc. econstructor; [apply longest_apart; eauto|]. rewrite app_length, Nat.add_assoc. apply IH; [eapply apart_tail; exact A|exact R'].
  - apply sc_skip; [apply none_apart; auto|]. cbn [List.length]. replace (p + S (List.length rest)) with (S p + List.length rest) by lia. apply IH; [apply (apart_tail [x]); exact A|exact R'].
Qed.

Lemma rewritten_letters vt l : (forall k, m k <> None -> List.length k = 1) -> rewritten m vt l (flat_map (fun x => match m [x] with Some v => vt v | None => [x] end) l).
Proof.
  intros One. induction l as [|x l IH]; cbn [flat_map]; [constructor|]. destruct (m [x]) as [v|] eqn:E.
  - apply (rw_key m vt [x] l v); [|exact IH]. split; [discriminate|]. split; [exact E|]. intros k' r _ L. destruct (m k') eqn:Ek; [|reflexivity].
    rewrite (One k') in L by congruence. cbn in L. lia.
  - cbn [app]. apply rw_copy; [|exact IH]. intros k r Er Nk. destruct (m k) eqn:Ek; [|reflexivity]. specialize (One k ltac:(congruence)).
    destruct k as [|c [|c' k]]; try discriminate. injection Er as -> ->. congruence.
Qed.
End Pieces.

(** ** Tries of strings *)

(** No key of [t] that occurs in [a ++ b] begins in [a] and ends in [b]. *)
Definition no_key_across {V} (t : trie str V) (a b : str) : Prop := forall x k y, a ++ b = x ++ k ++ y -> k <> [] -> contains chars t k = true ->
  List.length (x ++ k) <= List.length a \/ List.length a <= List.length x.

Lemma chars_app a b : chars (a ++ b) = chars a ++ chars b.
Proof. apply map_app. Qed.
Lemma chars_length a : List.length (chars a) = List.length a.
Proof. apply map_length. Qed.
Lemma join_app x y : join (x ++ y) = join x ++ join y.
Proof. unfold join. apply concat_app. Qed.
Lemma join_chars a : join (chars a) = a.
Proof. unfold join, chars. induction a as [|c a IH]; cbn; [reflexivity|]. f_equal. exact IH. Qed.

Lemma across_apart {V} (t : trie str V) a b : no_key_across t a b -> apart (fun ts => look ts (root t)) (chars a) (chars b).
Proof.
  intros A x k y E Nk M. rewrite <- chars_app in E. apply map_eq_app in E. destruct E as (x' & ky & E & <- & Ek). apply map_eq_app in Ek.
  destruct Ek as (k' & y' & -> & <- & <-). rewrite !map_length. rewrite chars_length. destruct (A x' k' y' E) as [L|L].
  - intros ->. apply Nk. reflexivity.
  - unfold contains. unfold look in M. change (map (fun c => [c]) k') with (chars k') in M. destruct (walk (chars k') (root t)) as [n|]; [|congruence]. destruct (value n); [reflexivity|congruence].
  - rewrite app_length in L. auto.
  - auto.
Qed.

Lemma reached_history {V} (os : list (op str V str)) : reached chars join (fst (run chars join new_trie os)).
Proof. exists os. split; [left; apply chars_join|reflexivity]. Qed.

(** [translate] may be applied to the pieces of a text, cut where no key goes
    across. *)
Theorem translate_pieces : forall (V : Type) (value_tokens : V -> list str) (os : list (op str V str)) a b,
  let t := fst (run chars join new_trie os) in no_key_across t a b ->
  exists x y, translate chars join value_tokens t a = Ok x /\ translate chars join value_tokens t b = Ok y /\ translate chars join value_tokens t (a ++ b) = Ok (x ++ y).
Proof.
  intros V vt os a b t A. pose proof (reached_history os) as R. fold t in R. pose proof (reached_answers chars join t R) as An.
  destruct (translate_leftmost_longest chars join vt t _ R An a) as (x & Ex & Rx).
  destruct (translate_leftmost_longest chars join vt t _ R An b) as (y & Ey & Ry).
  destruct (translate_leftmost_longest chars join vt t _ R An (a ++ b)) as (z & Ez & Rz).
  exists (join x), (join y). split; [exact Ex|]. split; [exact Ey|]. rewrite Ez, <- join_app. do 2 f_equal.
  apply (rewritten_unique _ vt _ _ _ Rz). rewrite chars_app. apply rewritten_pieces; auto. apply across_apart, A.
Qed.
Print Assumptions translate_pieces.

Theorem finditer_pieces : forall (V : Type) (os : list (op str V str)) a b,
  let t := fst (run chars join new_trie os) in no_key_across t a b ->
  exists l l', finditer chars join t a false = Ok l /\ finditer chars join t b false = Ok l' /\ finditer chars join t (a ++ b) false = Ok (l ++ map (moved (List.length a)) l').
Proof.
  intros V os a b t A. pose proof (reached_history os) as R. fold t in R. pose proof (reached_answers chars join t R) as An.
  destruct (finditer_leftmost_longest chars join t _ R An a) as (x & Ex & Rx).
  destruct (finditer_leftmost_longest chars join t _ R An b) as (y & Ey & Ry).
  destruct (finditer_leftmost_longest chars join t _ R An (a ++ b)) as (z & Ez & Rz).
  eexists; eexists. split; [exact Ex|]. split; [exact Ey|]. rewrite Ez. f_equal.
  assert (Z : z = x ++ map (moved (List.length a)) y).
  { apply (scanned_unique _ _ _ _ _ Rz). rewrite chars_app, <- (chars_length a). apply (scanned_pieces _ 0); auto. apply across_apart, A. }
  rewrite Z, map_app, !map_map. reflexivity.
Qed.
Print Assumptions finditer_pieces.

(** So a text can be translated line by line if no key has a newline (or any
    other separator [sep]) in it. *)
Lemma no_separator_left {V} (t : trie str V) a sep b : (forall k, contains chars t k = true -> ~ In sep k) -> no_key_across t a (sep :: b).
Proof.
  intros H x k y E Nk C. destruct (Nat.le_gt_cases (List.length (x ++ k)) (List.length a)) as [L|L]; [auto|]. right.
  destruct (Nat.le_gt_cases (List.length a) (List.length x)) as [L'|L']; [auto|]. exfalso. apply (H k C). rewrite app_length in L.
  assert (N1 : nth_error (a ++ sep :: b) (List.length a) = Some sep) by (rewrite nth_error_app2, Nat.sub_diag by lia; reflexivity).
  rewrite E in N1. rewrite nth_error_app2 in N1 by lia. rewrite nth_error_app1 in N1 by lia. apply nth_error_In in N1. exact N1.
Qed.
Lemma no_separator_right {V} (t : trie str V) sep b : (forall k, contains chars t k = true -> ~ In sep k) -> no_key_across t [sep] b.
Proof.
  intros H x k y E Nk C. destruct x as [|c x]; [|right; cbn; lia]. exfalso. apply (H k C). destruct k as [|c k]; [congruence|]. injection E as -> E. left. reflexivity.
Qed.

Theorem translate_lines : forall (V : Type) (value_tokens : V -> list str) (os : list (op str V str)) (sep : N) a b,
  let t := fst (run chars join new_trie os) in (forall k, contains chars t k = true -> ~ In sep k) ->
  exists x y, translate chars join value_tokens t a = Ok x /\ translate chars join value_tokens t b = Ok y /\ translate chars join value_tokens t (a ++ sep :: b) = Ok (x ++ sep :: y).
Proof.
  intros V vt os sep a b t H.
  destruct (translate_pieces V vt os a (sep :: b) (no_separator_left t a sep b H)) as (x & z & Ex & Ez & E). fold t in Ex, Ez, E.
  destruct (translate_pieces V vt os [sep] b (no_separator_right t sep b H)) as (s & y & Es & Ey & E'). fold t in Es, Ey, E'.
  assert (S : translate chars join vt t [sep] = Ok [sep]).
  { pose proof (reached_history os) as R. fold t in R. rewrite (translate_without_key chars join vt t _ R (reached_answers chars join t R)); [rewrite join_chars; reflexivity|].
    intros p e k (Lt & (u & w & Eu & Lu & Le) & M). cbn [chars map] in Eu. destruct u as [|c u]; [|injection Eu as _ Eu; symmetry in Eu; apply app_eq_nil in Eu; destruct Eu as [_ Eu]; apply app_eq_nil in Eu; destruct Eu as [-> _]; cbn in Le; lia].
    destruct k as [|c k]; [cbn in Lu, Le; lia|]. injection Eu as <- Eu. symmetry in Eu. apply app_eq_nil in Eu. destruct Eu as [-> ->].
    apply (H [sep]); [|left; reflexivity]. unfold contains. unfold look in M. change (chars [sep]) with [[sep]]. unfold str in *. destruct (walk [[sep]] (root t)) as [n|]; [|congruence]. destruct (value n); [reflexivity|congruence]. }
  rewrite S in Es. injection Es as <-. change ([sep] ++ b) with (sep :: b) in E'. rewrite Ez in E'. injection E' as ->.
  exists x, y. auto.
Qed.
Print Assumptions translate_lines.

(** If every key is one character, all replacements are made at once. *)
Theorem translate_letters : forall (V : Type) (value_tokens : V -> list str) (os : list (op str V str)) text,
  let t := fst (run chars join new_trie os) in (forall k, contains chars t k = true -> List.length k = 1) ->
  translate chars join value_tokens t text = Ok (flat_map (fun c => match getitem chars t [c] with Ok v => join (value_tokens v) | Err _ => [c] end) text).
Proof.
  intros V vt os text t One. pose proof (reached_history os) as R. fold t in R. pose proof (reached_answers chars join t R) as An.
  destruct (translate_leftmost_longest chars join vt t _ R An text) as (z & Ez & Rz). rewrite Ez. f_equal.
  assert (L1 : forall k, look k (root t) <> None -> List.length k = 1).
  { intros k M. destruct (proj2 An k M) as (w & ->). rewrite chars_length. apply One. unfold contains. unfold look in M. destruct (walk (chars w) (root t)) as [n|]; [|congruence].
    destruct (value n); [reflexivity|congruence]. }
  rewrite (rewritten_unique _ vt _ _ _ Rz (rewritten_letters _ vt (chars text) L1)). clear.
  induction text as [|c text IH]; [reflexivity|]. cbn [chars map flat_map]. rewrite join_app. f_equal; [|exact IH].
  unfold getitem, look. change (chars [c]) with [[c]]. unfold str in *. destruct (walk [[c]] (root t)) as [n|]; [destruct (value n)|]; try reflexivity; unfold join; cbn; rewrite ?app_nil_r; reflexivity.
Qed.
Print Assumptions translate_letters.

(** Cutting anywhere is wrong, and a translation may contain keys again. *)
Definition short_keys : list (op str str str) := [SetItem (w_ "ab") (w_ "a")].
Theorem translate_pieces_refuted : exists (os : list (op str str str)) a b x y z,
  let t := fst (run chars join new_trie os) in
  translate chars join chars t a = Ok x /\ translate chars join chars t b = Ok y /\ translate chars join chars t (a ++ b) = Ok z /\ z <> x ++ y.
Proof. exists short_keys, (w_ "a"), (w_ "b"), (w_ "a"), (w_ "b"), (w_ "a"). vm_compute. repeat split. discriminate. Qed.
Print Assumptions translate_pieces_refuted.

Theorem translate_twice_refuted : exists (os : list (op str str str)) text x y,
  let t := fst (run chars join new_trie os) in translate chars join chars t text = Ok x /\ translate chars join chars t x = Ok y /\ x <> y.
Proof. exists short_keys, (w_ "abb"), (w_ "ab"), (w_ "a"). vm_compute. repeat split. discriminate. Qed.
Print Assumptions translate_twice_refuted.

(** ** Cases *)
Definition swap : list (op str str str) := [SetItem (w_ "a") (w_ "b"); SetItem (w_ "b") (w_ "a")].
Example pieces_case :
  no_key_across (fst (run chars join new_trie short_keys)) (w_ "aba") (w_ "abb") /\
  translate chars join chars (fst (run chars join new_trie short_keys)) (w_ "aba" ++ w_ "abb") = Ok (w_ "aa" ++ w_ "ab") /\
  finditer chars join (fst (run chars join new_trie short_keys)) (w_ "aba" ++ w_ "abb") false = Ok [(0, 2, w_ "ab"); (3, 5, w_ "ab")] /\
  translate chars join chars (fst (run chars join new_trie swap)) (w_ "abba!") = Ok (w_ "baab!").
Proof.
  split; [|vm_compute; auto]. intros x k y E Nk C.
  assert (K : k = w_ "ab").
  { assert (G : look (chars k) (root (fst (run chars join new_trie short_keys))) <> None).
    { unfold contains in C. unfold look. destruct (walk (chars k) _) as [n|]; [destruct (value n); congruence|congruence]. }
    cbn [run short_keys Props_Trie.step fst snd setitem root] in G. rewrite look_put in G. destruct (eqd (chars k) (chars (w_ "ab"))) as [F|F].
    - rewrite <- (join_chars k), F. reflexivity.
    - exfalso. apply G. cbn [root new_trie]. apply look_new. }
  subst k. vm_compute in E. destruct x as [|x1 [|x2 [|x3 x]]]; [left; cbn; lia|exfalso; discriminate|exfalso; discriminate|right; cbn; lia].
Qed.
