(** [next_valid_string], [Matcher] and [find_all_matches]. *)
From Coq Require Import ZArith NArith List Bool Lia Permutation Sorted.
From Verif Require Import Py PyDict NmdSpec IndexModel EditSpec EditModel AutoModel AutoProofs AutoLev Props_Index.
Import ListNotations.
Open Scope nat_scope.

(** ** The order on strings *)
Lemma leb_app p a b : str_leb (p ++ a) (p ++ b) = str_leb a b.
Proof. induction p as [|x p IH]; cbn [app str_leb]; auto. rewrite N.ltb_irrefl, N.eqb_refl. auto. Qed.
Lemma leb_refl a : str_leb a a = true.
Proof. rewrite <- (app_nil_r a) at 1 2. rewrite leb_app. reflexivity. Qed.
Lemma leb_prefix a b : str_leb a (a ++ b) = true.
Proof. rewrite <- (app_nil_r a) at 1. rewrite leb_app. reflexivity. Qed.
Lemma leb_lt p x y a b : (x < y)%N -> str_leb (p ++ x :: a) (p ++ y :: b) = true.
Proof. intros L. rewrite leb_app. cbn [str_leb]. apply N.ltb_lt in L. rewrite L. reflexivity. Qed.
Lemma leb_lt_not p x y a b : (x < y)%N -> str_leb (p ++ y :: b) (p ++ x :: a) = false.
Proof. intros L. rewrite leb_app. cbn [str_leb]. rewrite (proj2 (N.ltb_ge y x)) by lia. rewrite (proj2 (N.eqb_neq y x)) by lia. reflexivity. Qed.

Section Dfa.
Variable d : dfa.
Notation run s := (drun d (Some 0) s).
Definition accepts (s : str) : Prop := is_final d (run s) = true.

Hypothesis start0 : start_state d = 0.
Hypothesis only_start : forall s, run s = Some 0 -> s = [].
Hypothesis start_not_final : ~ In 0 (dfinal_states d).
Hypothesis live : forall s, s <> [] -> run s <> None -> exists t, accepts (s ++ t).
Variable longest : nat.
Hypothesis bounded : forall s, accepts s -> length s <= longest.

Lemma next_none c : next_state d None c = None.
Proof. reflexivity. Qed.
Lemma drun_app q a b : drun d q (a ++ b) = drun d (drun d q a) b.
Proof. revert q; induction a as [|x a IH]; intros q; cbn [app drun]; auto. Qed.
Lemma drun_none s : drun d None s = None.
Proof. induction s as [|c s IH]; cbn [drun]; auto. Qed.

Lemma accepts_edge p x r : accepts (p ++ x :: r) -> next_state d (run p) x <> None.
Proof. unfold accepts. rewrite drun_app. cbn [drun]. intros A E. rewrite E, drun_none in A. discriminate. Qed.

(** [c] exclusive lower bound for a character. *)
Definition above (c : option N) (x : N) : Prop := match c with Some c => (c < x)%N | None => True end.

Lemma min_fold ls : forall l, In (fold_left N.min ls l) (l :: ls) /\ forall x, In x (l :: ls) -> (fold_left N.min ls l <= x)%N.
Proof.
  induction ls as [|a ls IH]; intros l; cbn [fold_left]; [split; [simpl; auto|intros x [->|[]]; lia]|]. destruct (IH (N.min l a)) as [I M]. split.
  - destruct I as [I|I]; [|simpl; auto]. destruct (N.min_dec l a) as [E|E]; rewrite E in *; simpl; auto.
  - intros x [<-|[<-|J]]; [| |apply M; simpl; auto]; specialize (M (N.min l a) (or_introl eq_refl)); lia.
Qed.

Lemma find_next_ok q c : match c with Some c => (c < 1114111)%N | None => True end ->
  exists e, find_next_edge d q c = Ok e /\ match e with
    | Some y => above c y /\ next_state d q y <> None /\ forall x, above c x -> next_state d q x <> None -> (y <= x)%N
    | None => forall x, above c x -> next_state d q x = None
    end.
Proof.
  intros Lc. unfold find_next_edge. set (a := match c with None => 0%N | Some c => (c + 1)%N end).
  assert (Ea : match c with None => Ok 0%N | Some c => chr (c + 1) end = Ok a).
  { unfold a. destruct c as [c|]; auto. unfold chr. rewrite (proj2 (N.ltb_lt _ _)) by lia. reflexivity. }
  rewrite Ea. cbn [bind]. assert (Ab : forall x, above c x <-> (a <= x)%N) by (intros x; unfold a; destruct c; cbn; lia).
  set (ls := labels_of d q). destruct (dmem a ls) eqn:Em.
  - cbn [orb]. exists (Some a). split; auto. split; [apply Ab; lia|]. split; [|intros x X _; apply Ab; auto].
    unfold next_state. fold ls. unfold dmem in Em. destruct (dget a ls); [discriminate|discriminate].
  - cbn [orb]. destruct (default_of d q) as [j|] eqn:Ed.
    + exists (Some a). split; auto. split; [apply Ab; lia|]. split; [|intros x X _; apply Ab; auto].
      unfold next_state. destruct (dget a (labels_of d q)); [|rewrite Ed]; discriminate.
    + assert (K : forall x, next_state d q x <> None <-> In x (dkeys ls)).
      { intros x. unfold next_state. fold ls. rewrite Ed. split.
        - destruct (dget x ls) eqn:E; [|congruence]. intros _. eapply dget_Some_key; eauto.
        - intros I. destruct (dget x ls) eqn:E; [discriminate|]. apply dget_None in E. contradiction. }
      destruct (filter (fun l => (a <=? l)%N) (dkeys ls)) as [|l l0] eqn:F.
      * exists None. split; auto. intros x X. destruct (next_state d q x) eqn:E; auto. exfalso.
        assert (In x (filter (fun l => (a <=? l)%N) (dkeys ls))) as I; [|rewrite F in I; destruct I].
        apply filter_In. split; [apply K; congruence|]. apply N.leb_le, Ab, X.
      * exists (Some (fold_left N.min l0 l)). split; auto. destruct (min_fold l0 l) as [I M].
        rewrite <- F in I. apply filter_In in I. destruct I as [I L]. apply N.leb_le in L. split; [apply Ab; auto|]. split; [apply K; auto|].
        intros x X Nx. apply M. rewrite <- F. apply filter_In. split; [apply K; auto|apply N.leb_le, Ab, X].
Qed.

(** The strings an entry of the stack stands for. *)
Notation entry := (str * option nat * option N)%type.
Definition beyond (e : entry) (t : str) : Prop := let '(p, _, c) := e in exists x r, t = p ++ x :: r /\ above c x.

Definition least (P : str -> Prop) (t : str) : Prop := P t /\ forall t', P t' -> str_leb t t' = true.

Lemma descend : forall m p st, longest - length p < m -> p <> [] -> run p <> None -> ~ accepts p ->
  exists t, (forall fuel, m <= fuel -> wall d fuel ((p, run p, None) :: st) = Ok (Some t)) /\ least (fun t => accepts t /\ beyond (p, run p, None) t) t.
Proof.
  induction m as [|m IH]; intros p st Lm Np Rp Na; [lia|].
  destruct (find_next_ok (run p) None I) as (e & Ee & He).
  assert (Lv : exists x r, accepts (p ++ x :: r)).
  { destruct (live p Np Rp) as ([|x r] & A); [rewrite app_nil_r in A; contradiction|eauto]. }
  destruct Lv as (x0 & r0 & A0). destruct e as [y|]; [|exfalso; apply (accepts_edge _ _ _ A0), He; exact I].
  destruct He as (_ & Ny & My). assert (Ry : run (p ++ [y]) = next_state d (run p) y) by apply drun_snoc.
  destruct (is_final d (next_state d (run p) y)) eqn:Ef.
  - exists (p ++ [y]). split; [|split].
    + intros [|fuel] Lf; [lia|]. cbn [wall]. rewrite Ee. cbn [bind]. rewrite Ef. reflexivity.
    + split; [unfold accepts; rewrite Ry; auto|]. exists y, []. split; [reflexivity|exact I].
    + intros t' (A & x & r & -> & _). pose proof (My x I (accepts_edge _ _ _ A)) as L. destruct (N.eq_dec y x) as [->|N].
      * rewrite leb_app. cbn [str_leb]. rewrite N.ltb_irrefl, N.eqb_refl. reflexivity.
      * apply leb_lt. lia.
  - assert (Lp : length p < longest). { apply bounded in A0. rewrite app_length in A0. cbn [length] in A0. lia. }
    destruct (IH (p ++ [y]) st) as (t & Wt & (At & x & r & Et & _) & Mt).
    + rewrite app_length. cbn [length]. lia.
    + destruct p; discriminate.
    + rewrite Ry. exact Ny.
    + unfold accepts. rewrite Ry, Ef. discriminate.
    + exists t. split; [|split].
      * intros [|fuel] Lf; [lia|]. cbn [wall]. rewrite Ee. cbn [bind]. rewrite Ef, <- Ry. apply Wt. lia.
      * split; auto. exists y, (x :: r). split; [rewrite Et, <- app_assoc; reflexivity|exact I].
      * intros t' (A & x' & r' & -> & _). pose proof (My x' I (accepts_edge _ _ _ A)) as L. destruct (N.eq_dec y x') as [<-|N].
        -- destruct r' as [|x2 r2]; [exfalso; unfold accepts in A; rewrite Ry in A; congruence|]. apply Mt. split; auto. exists x2, r2. split; [rewrite <- app_assoc; reflexivity|exact I].
        -- rewrite Et, <- app_assoc. apply leb_lt. lia.
Qed.

(** Stacks: bounds can be followed by a character, and the entries nearer the
    top stand for the smaller strings. *)
Definition entry_ok (e : entry) : Prop := let '(p, q, c) := e in q = run p /\ match c with Some c => (c < 1114111)%N | None => True end.
Definition stack_ok (st : list entry) : Prop :=
  Forall entry_ok st /\ StronglySorted (fun e e' => forall t t', beyond e t -> beyond e' t' -> str_leb t t' = true) st.

Lemma wall_ok st : stack_ok st -> exists r, (forall fuel, length st + longest + 2 <= fuel -> wall d fuel st = Ok r) /\
  match r with
  | Some t => least (fun t => accepts t /\ exists e, In e st /\ beyond e t) t
  | None => forall t e, In e st -> beyond e t -> ~ accepts t
  end.
Proof.
  induction st as [|[[p q] c] st IH]; intros [F S].
  - exists None. split; [intros [|fuel] L; [lia|]; reflexivity|]. intros t e [].
  - inversion F as [|? ? Eo F']; subst. destruct Eo as [-> Lc]. inversion S as [|? ? S' So]; subst. rewrite Forall_forall in So.
    destruct (find_next_ok (run p) c Lc) as (e & Ee & He). destruct e as [y|].
    + destruct He as (Ay & Ny & My). assert (Ry : run (p ++ [y]) = next_state d (run p) y) by apply drun_snoc.
      assert (Fin : forall t, (least (fun t => accepts t /\ exists r, t = p ++ y :: r) t) -> least (fun t => accepts t /\ exists e, In e ((p, run p, c) :: st) /\ beyond e t) t).
      { intros t ((At & r & Et) & Mt). assert (Bt : beyond (p, run p, c) t) by (exists y, r; auto). split.
        - split; auto. exists (p, run p, c). split; [left; reflexivity|auto].
        - intros t' (A' & e & [<-|Ie] & B').
          + destruct B' as (x & r' & -> & Ax). pose proof (My x Ax (accepts_edge _ _ _ A')) as L. destruct (N.eq_dec y x) as [<-|N]; [apply Mt; split; eauto|].
            rewrite Et. apply leb_lt. lia.
          + eapply So; eauto. }
      destruct (is_final d (next_state d (run p) y)) eqn:Ef.
      * exists (Some (p ++ [y])). split; [intros [|fuel] L; [cbn [length] in L; lia|]; cbn [wall]; rewrite Ee; cbn [bind]; rewrite Ef; reflexivity|]. apply Fin. split.
        -- split; [unfold accepts; rewrite Ry; auto|]. exists []. reflexivity.
        -- intros t' (_ & r & ->). rewrite leb_app. cbn [str_leb]. rewrite N.ltb_irrefl, N.eqb_refl. reflexivity.
      * destruct (descend (longest + 1) (p ++ [y]) st) as (t & Wt & (At & Bt) & Mt).
        -- rewrite app_length. cbn [length]. lia.
        -- destruct p; discriminate.
        -- rewrite Ry. exact Ny.
        -- unfold accepts. rewrite Ry, Ef. discriminate.
        -- exists (Some t). split; [intros [|fuel] L; cbn [length] in L; [lia|]; cbn [wall]; rewrite Ee; cbn [bind]; rewrite Ef, <- Ry; apply Wt; lia|]. apply Fin. split.
           ++ split; auto. destruct Bt as (x & r & -> & _). exists (x :: r). rewrite <- app_assoc. reflexivity.
           ++ intros t' (A' & r & ->). apply Mt. split; auto. destruct r as [|x r]; [exfalso; unfold accepts in A'; rewrite Ry in A'; congruence|]. exists x, r. split; [rewrite <- app_assoc; reflexivity|exact I].
    + destruct (IH (conj F' S')) as (r & Wr & Hr). exists r. split; [intros [|fuel] L; cbn [length] in L; [lia|]; cbn [wall]; rewrite Ee; cbn [bind]; apply Wr; lia|].
      assert (No : forall t, beyond (p, run p, c) t -> ~ accepts t).
      { intros t (x & r' & -> & Ax) A. apply (accepts_edge _ _ _ A). apply He. exact Ax. }
      destruct r as [t|].
      * destruct Hr as ((At & e & Ie & Be) & Mt). split; [split; auto; exists e; split; [right; auto|auto]|].
        intros t' (A' & e' & [<-|Ie'] & Be'); [exfalso; eapply No; eauto|]. apply Mt. split; eauto.
      * intros t e [<-|Ie] Be; eauto.
Qed.

(** The loop over the input. *)
Lemma evaluate_ok : forall rest done st q' st', evaluate d done rest (run done) st = (q', st') ->
  (forall c, In c rest -> (c < 1114111)%N) -> Forall entry_ok st ->
  StronglySorted (fun e e' => forall t t', beyond e t -> beyond e' t' -> str_leb t t' = true) st ->
  (forall e t, In e st -> beyond e t -> forall r, str_leb (done ++ r) t = true /\ t <> done ++ r) ->
  (forall t, accepts t -> str_leb (done ++ rest) t = true -> t = done ++ rest \/ (exists x r, t = done ++ x :: r) \/ exists e, In e st /\ beyond e t) ->
  length st <= length done ->
  (is_final d q' = true <-> accepts (done ++ rest)) /\ stack_ok st' /\ length st' <= length done + length rest + 1 /\
  (forall e t, In e st' -> beyond e t -> str_leb (done ++ rest) t = true /\ t <> done ++ rest) /\
  (forall t, accepts t -> str_leb (done ++ rest) t = true -> t = done ++ rest \/ exists e, In e st' /\ beyond e t).
Proof.
  induction rest as [|c rest IH]; intros done st q' st' E Lc Fo So Hs Co Le; cbn [evaluate] in E.
  - injection E as <- <-. rewrite app_nil_r in *. split; [reflexivity|]. split; [|split; [cbn [length]; lia|split]].
    + split; constructor; auto. { split; auto. }
      apply Forall_forall. intros e' I t t' (x & r & -> & _) B'. exact (proj1 (Hs e' t' I B' (x :: r))).
    + intros e t [<-|I] B; [|specialize (Hs e t I B []); rewrite app_nil_r in Hs; exact Hs].
      destruct B as (x & r & -> & _). split; [apply leb_prefix|]. intros X. apply (f_equal (@length N)) in X. rewrite app_length in X. cbn [length] in X. lia.
    + intros t A L. destruct (Co t A L) as [->|[(x & r & ->)|(e & I & B)]]; auto; right; [exists (done, run done, None)|exists e]; split; auto; [left; reflexivity| |right; auto]. exists x, r. split; [reflexivity|exact I].
  - set (e0 := (done, run done, Some c) : entry) in *.
    assert (Ec : entry_ok e0) by (split; auto; apply Lc; simpl; auto).
    assert (B0 : forall t, beyond e0 t -> forall r, str_leb (done ++ c :: r) t = true /\ t <> done ++ c :: r).
    { intros t (x & r & -> & Ax) r'. cbn in Ax. split; [apply leb_lt; auto|]. intros X. apply app_inv_head in X. injection X as -> _. lia. }
    assert (So' : StronglySorted (fun e e' => forall t t', beyond e t -> beyond e' t' -> str_leb t t' = true) (e0 :: st)).
    { constructor; auto. apply Forall_forall. intros e' I t t' (x & r & -> & _) B'. exact (proj1 (Hs e' t' I B' (x :: r))). }
    assert (Lt : forall x r, str_leb (done ++ c :: rest) (done ++ x :: r) = true -> x = c \/ (c < x)%N).
    { intros x r L. destruct (N.lt_trichotomy c x) as [X|[X|X]]; auto. rewrite leb_lt_not in L by auto. discriminate. }
    destruct (next_state d (run done) c) as [[|j]|] eqn:En.
    + exfalso. rewrite <- drun_snoc in En. apply only_start in En. destruct done; discriminate.
    + rewrite <- En, <- drun_snoc in E. replace (done ++ c :: rest) with ((done ++ [c]) ++ rest) in * by (rewrite <- app_assoc; reflexivity).
      destruct (IH (done ++ [c]) (e0 :: st) q' st' E) as (H1 & H2 & H3 & H4); auto.
      * intros x I. apply Lc. simpl; auto.
      * intros e t [<-|I] B r; rewrite <- app_assoc; [apply B0; auto|apply (Hs e t I B)].
      * intros t A L. destruct (Co t A L) as [->|[(x & r & ->)|(e & I & B)]]; auto.
        -- destruct (Lt x r L) as [->|X]; rewrite <- app_assoc in L.
           ++ destruct r as [|x r]; [|right; left; exists x, r; rewrite <- app_assoc; reflexivity].
              left. assert (X : rest = []). { rewrite leb_app in L. cbn [app str_leb] in L. rewrite N.ltb_irrefl, N.eqb_refl in L. cbn in L. destruct rest; [auto|discriminate]. }
              rewrite X, app_nil_r. reflexivity.
           ++ right; right. exists e0. split; [left; auto|]. exists x, r. auto.
        -- right; right. exists e. split; [right; auto|auto].
      * rewrite app_length. cbn [length] in *. lia.
      * split; [exact H1|]. split; [exact H2|]. split; [rewrite app_length in H3; cbn [length] in *; lia|exact H4].
    + injection E as <- <-. assert (Na : ~ accepts (done ++ c :: rest)) by (intros A; apply (accepts_edge _ _ _ A); auto). split; [split; [discriminate|contradiction]|].
      split; [split; auto; constructor; auto|]. split; [cbn [length]; lia|]. split.
      * intros e t [<-|I] B; [apply B0; auto|apply (Hs e t I B)].
      * intros t A L. destruct (Co t A L) as [->|[(x & r & ->)|(e & I & B)]]; auto; [|right; exists e; split; [right; auto|auto]].
        destruct (Lt x r L) as [->|X]; [exfalso; apply (accepts_edge _ _ _ A); auto|]. right. exists e0. split; [left; auto|]. exists x, r. auto.
Qed.

Lemma next_valid_ok s : (forall c, In c s -> (c < 1114111)%N) -> exists r,
  (forall fuel, length s + longest + 3 <= fuel -> next_valid_string d fuel s = Ok r) /\
  match r with
  | Some t => least (fun t => accepts t /\ str_leb s t = true) t
  | None => forall t, accepts t -> str_leb s t = false
  end.
Proof.
  intros Lc. unfold next_valid_string. rewrite start0. destruct (evaluate d [] s (Some 0) []) as [q st] eqn:E.
  destruct (evaluate_ok s [] [] q st E Lc) as (H1 & H2 & H3 & H4 & H5); [constructor|constructor| | |cbn; lia|].
  - intros e t [].
  - intros [|x t] A L; [left; destruct s; [reflexivity|discriminate]|]. right; left. exists x, t. reflexivity.
  - cbn [app length] in *. destruct (is_final d q) eqn:F.
    + exists (Some s). split; auto. split; [split; [apply H1; auto|apply leb_refl]|]. intros t' [_ L]. exact L.
    + destruct (wall_ok st H2) as (r & Wr & Hr). exists r. split; [intros fuel L; apply Wr; lia|].
      assert (Ns : ~ accepts s) by (intros A; apply H1 in A; discriminate). destruct r as [t|].
      * destruct Hr as ((At & e & Ie & Be) & Mt). split; [split; auto; apply (H4 e t Ie Be)|].
        intros t' [A L]. destruct (H5 t' A L) as [->|X]; [contradiction|]. apply Mt. auto.
      * intros t A. destruct (str_leb s t) eqn:L; auto. exfalso. destruct (H5 t A L) as [->|(e & I & B)]; [contradiction|]. eapply Hr; eauto.
Qed.
End Dfa.

(** ** bisect_left and Matcher *)
Notation ascending l := (StronglySorted (fun a b => str_leb a b = true) l).

Lemma ascending_nth l : ascending l -> forall i j, i <= j < length l -> str_leb (nth i l []) (nth j l []) = true.
Proof.
  induction 1 as [|x l S IH F]; intros i j L; cbn [length] in L; [lia|]. destruct j as [|j]; [replace i with 0 by lia; apply leb_refl|]. cbn [nth].
  destruct i as [|i]; [|apply IH; lia]. rewrite Forall_forall in F. apply F. apply nth_In. lia.
Qed.

Lemma lt_leb a b : str_leb a b = false -> str_leb b a = true.
Proof. intros E. destruct (str_leb_total a b); congruence. Qed.

Lemma bisect_loop_ok a x : ascending a -> forall fuel lo hi, hi - lo < fuel -> lo <= hi <= length a ->
  exists pos, bisect_left_loop a x fuel lo hi = Ok pos /\ lo <= pos <= hi /\ (forall i, lo <= i < pos -> str_leb x (nth i a []) = false) /\ forall i, pos <= i < hi -> str_leb x (nth i a []) = true.
Proof.
  intros S. induction fuel as [|fuel IH]; intros lo hi Lf Ll; [lia|]. cbn [bisect_left_loop]. destruct (lo <? hi) eqn:E.
  - apply Nat.ltb_lt in E. set (mid := (lo + hi) / 2). assert (Lm : lo <= mid < hi).
    { unfold mid. pose proof (Nat.div_mod (lo + hi) 2). pose proof (Nat.mod_upper_bound (lo + hi) 2). lia. }
    rewrite (py_get_nat a mid []) by lia. cbn [bind]. destruct (str_leb x (nth mid a [])) eqn:Ex; cbn [negb].
    + destruct (IH lo mid) as (pos & Ep & Lp & H1 & H2); [lia|lia|]. exists pos. split; auto. split; [lia|]. split; auto.
      intros i Li. destruct (Nat.lt_ge_cases i mid) as [C|C]; [apply H2; lia|]. eapply str_leb_trans; [exact Ex|]. apply ascending_nth; auto. lia.
    + destruct (IH (Datatypes.S mid) hi) as (pos & Ep & Lp & H1 & H2); [lia|lia|]. exists pos. split; auto. split; [lia|]. split; auto.
      intros i Li. destruct (Nat.lt_ge_cases mid i) as [C|C]; [apply H1; lia|]. destruct (str_leb x (nth i a [])) eqn:Ei; auto.
      rewrite <- Ex. symmetry. eapply str_leb_trans; [exact Ei|]. apply ascending_nth; auto. lia.
  - apply Nat.ltb_ge in E. exists lo. split; auto. split; [lia|]. split; intros i Li; lia.
Qed.

(** All entries before [prev] are below [m]. *)
Lemma matcher_ok entries prev m : ascending entries -> prev <= length entries -> (forall i, i < prev -> str_leb m (nth i entries []) = false) ->
  exists pos, prev <= pos <= length entries /\ (forall i, i < pos -> str_leb m (nth i entries []) = false) /\
  (forall i, pos <= i < length entries -> str_leb m (nth i entries []) = true) /\
  matcher entries prev m = Ok (nth_error entries pos, pos).
Proof.
  intros S L Hp. destruct (bisect_loop_ok entries m S (Datatypes.S (length entries)) prev (length entries)) as (pos & E & Lp & H1 & H2); [lia|lia|].
  exists pos. split; auto. split; [|split; auto].
  - intros i Li. destruct (Nat.lt_ge_cases i prev); [auto|apply H1; lia].
  - unfold matcher, bisect_left. rewrite E. cbn [bind]. destruct (pos <? length entries) eqn:C.
    + apply Nat.ltb_lt in C. rewrite (py_get_nat entries pos []) by lia. cbn [bind]. rewrite (nth_error_nth' entries [] C). reflexivity.
    + apply Nat.ltb_ge in C. apply nth_error_None in C. rewrite C. reflexivity.
Qed.

Section Matches.
Variable d : dfa.
Hypothesis start0 : start_state d = 0.
Hypothesis only_start : forall s, drun d (Some 0) s = Some 0 -> s = [].
Hypothesis live : forall s, s <> [] -> drun d (Some 0) s <> None -> exists t, accepts d (s ++ t).
Variable longest : nat.
Hypothesis bounded : forall s, accepts d s -> length s <= longest.
Variable entries : list str.
Hypothesis sorted : ascending entries.
Hypothesis chars : forall w c, In w entries -> In c w -> (c < 1114111)%N.

Definition widest : nat := list_max (map (@length N) entries).
Lemma widest_ok w : In w entries -> length w <= widest.
Proof. intros I. pose proof (proj1 (list_max_le (map (@length N) entries) widest) (Nat.le_refl _)) as F. rewrite Forall_forall in F. apply F, in_map, I. Qed.

Definition from (m : str) : nat := length (filter (str_leb m) entries).

Notation before := (fun a b : str => str_leb a b = true /\ a <> b).

(** Twice the entries not below the candidate, plus one if it is no entry. *)
Definition left_over (m : str) : nat := 2 * from m + (if in_dec eqd m entries then 0 else 1).

Lemma from_le m m' : str_leb m m' = true -> from m' <= from m.
Proof.
  intros L. unfold from. generalize entries. intros l. induction l as [|a l IH]; cbn [filter]; auto. destruct (str_leb m' a) eqn:E.
  - rewrite (str_leb_trans _ _ _ L E). cbn [length]. lia.
  - destruct (str_leb m a); cbn [length]; lia.
Qed.
Lemma from_lt m m' : In m entries -> str_leb m m' = true -> m <> m' -> from m' < from m.
Proof.
  intros I L N. unfold from. revert I. generalize entries. intros l. induction l as [|a l IH]; intros I; [destruct I|]. cbn [filter].
  assert (G : length (filter (str_leb m') l) <= length (filter (str_leb m) l)).
  { clear IH I. induction l as [|b l IH]; cbn [filter]; auto. destruct (str_leb m' b) eqn:E; [rewrite (str_leb_trans _ _ _ L E); cbn [length]; lia|destruct (str_leb m b); cbn [length]; lia]. }
  destruct I as [->|I].
  - rewrite leb_refl. destruct (str_leb m' m) eqn:E; [exfalso; apply N, str_leb_antisym; auto|]. cbn [length]. lia.
  - specialize (IH I). destruct (str_leb m' a) eqn:E; [rewrite (str_leb_trans _ _ _ L E); cbn [length]; lia|destruct (str_leb m a); cbn [length]; lia].
Qed.

Lemma in_nth (w : str) : In w entries -> exists i, i < length entries /\ nth i entries [] = w.
Proof. intros I. apply In_nth with (d := []) in I. destruct I as (i & L & E). eauto. Qed.

Lemma leb_snoc0 m t : str_leb m t = true -> t <> m -> str_leb (m ++ [0%N]) t = true.
Proof.
  revert t; induction m as [|c m IH]; intros [|x t] L N; cbn [app str_leb] in *; try congruence.
  - destruct x; reflexivity.
  - destruct (c <? x)%N; cbn [orb] in *; auto. destruct (c =? x)%N eqn:E; cbn [andb] in *; [|discriminate]. apply N.eqb_eq in E. subst x. apply IH; auto. congruence.
Qed.

(** What the loop has found so far. *)
Definition found (out : list str) (P : str -> Prop) : Prop :=
  StronglySorted before out /\ forall w, In w out <-> In w entries /\ w <> [] /\ accepts d w /\ P w.

Lemma snoc_sorted out m : StronglySorted before out -> (forall w, In w out -> before w m) -> StronglySorted before (out ++ [m]).
Proof.
  induction 1 as [|a out S IH F]; intros H; cbn [app]; [repeat constructor|]. constructor; [apply IH; intros w I; apply H; right; auto|].
  apply Forall_app. split; auto. constructor; auto. apply H. left. auto.
Qed.

Notation call := (widest + longest + 4).

Lemma loop_matches : forall fuel m prev out, left_over m + call < fuel -> m <> [] -> accepts d m -> prev <= length entries ->
  (forall i, i < prev -> str_leb m (nth i entries []) = false) -> found out (fun w => str_leb m w = false) ->
  exists r, matches_loop (matcher entries) d fuel prev (Some m) out = Ok r /\ found r (fun _ => True).
Proof.
  assert (Ends : forall fuel prev out, 0 < fuel -> matches_loop (matcher entries) d fuel prev None out = Ok out) by (intros [|f] prev out L; [lia|reflexivity]).
  induction fuel as [|fuel IH]; intros m prev out Lf Nm Am Lp Hp [So Fo]; [lia|]. cbn [matches_loop]. destruct m as [|c0 m0] eqn:Em; [congruence|]. rewrite <- Em in *. clear Nm.
  destruct (matcher_ok entries prev m sorted Lp Hp) as (pos & Lpos & H1 & H2 & E). rewrite E. cbn [bind].
  assert (Nm : m <> []) by (rewrite Em; discriminate). clear Em c0 m0.
  destruct (nth_error entries pos) as [w|] eqn:Ew.
  - assert (Lw : pos < length entries) by (apply nth_error_Some; congruence). apply nth_error_nth with (d := []) in Ew as Enw.
    assert (Iw : In w entries) by (apply nth_error_In in Ew; auto). assert (Mw : str_leb m w = true) by (rewrite <- Enw; apply H2; lia).
    destruct w as [|cw w0] eqn:Ecw; [exfalso; destruct m; [congruence|discriminate]|]. rewrite <- Ecw in *. assert (Nw : w <> []) by (rewrite Ecw; discriminate). clear Ecw cw w0.
    destruct (eqd m w) as [Eq|Nq].
    + rewrite <- Eq in *. clear Eq w. destruct (next_valid_ok d start0 only_start live longest bounded (m ++ [0%N])) as (r & Er & Hr).
      { intros c I. apply in_app_iff in I. destruct I as [I|[<-|[]]]; [exact (chars m c Iw I)|reflexivity]. }
      rewrite Er by (rewrite app_length; cbn [length]; pose proof (widest_ok m Iw); lia). cbn [bind].
      assert (F' : forall P : str -> Prop, (forall w, accepts d w -> str_leb (m ++ [0%N]) w = true -> ~ P w) -> (forall w, str_leb m w = false -> P w) -> P m -> found (out ++ [m]) P).
      { intros P P1 P2 P3. split.
        - apply snoc_sorted; auto. intros w I. apply Fo in I. destruct I as (_ & _ & _ & L). split; [apply lt_leb; auto|]. intros ->. rewrite leb_refl in L. discriminate.
        - intros w. rewrite in_app_iff. cbn [In]. split.
          + intros [I|[<-|[]]]; [apply Fo in I; intuition|auto].
          + intros (I & Nw' & A & X). destruct (eqd w m) as [->|N']; [auto|]. left. apply Fo. repeat split; auto. destruct (str_leb m w) eqn:L; auto.
            exfalso. apply (P1 w A); auto. apply leb_snoc0; auto. }
      destruct r as [m'|].
      * destruct Hr as [[A' L'] Mi]. assert (L2 : str_leb m m' = true) by (eapply str_leb_trans; [apply (leb_prefix m [0%N])|auto]).
        assert (N2 : m <> m'). { intros <-. rewrite <- (app_nil_r m) in L' at 2. rewrite leb_app in L'. discriminate. }
        apply IH; auto; try lia.
        -- pose proof (from_lt m m' Iw L2 N2). unfold left_over in *. destruct (in_dec eqd m entries); [|contradiction]. destruct (in_dec eqd m' entries); lia.
        -- intros ->. destruct m; discriminate.
        -- intros i Li. specialize (H1 i Li). destruct (str_leb m' (nth i entries [])) eqn:X; auto. rewrite (str_leb_trans _ _ _ L2 X) in H1. discriminate.
        -- apply F'.
           ++ intros w A X Y. rewrite Mi in Y; [discriminate|auto].
           ++ intros w X. destruct (str_leb m' w) eqn:Y; auto. rewrite (str_leb_trans _ _ _ L2 Y) in X. discriminate.
           ++ destruct (str_leb m' m) eqn:Y; auto. exfalso. apply N2, str_leb_antisym; auto.
      * rewrite Ends by lia. eexists. split; [reflexivity|]. apply F'; auto. intros w A X _. rewrite Hr in X by auto. discriminate.
    + destruct (next_valid_ok d start0 only_start live longest bounded w) as (r & Er & Hr).
      { intros c I. eapply chars; eauto. }
      rewrite Er by (pose proof (widest_ok w Iw); lia). cbn [bind].
      assert (Gap : forall v, In v entries -> str_leb m v = true -> str_leb w v = true).
      { intros v I L. apply in_nth in I. destruct I as (i & Li & <-). destruct (Nat.lt_ge_cases i pos) as [C|C]; [rewrite H1 in L by auto; discriminate|].
        rewrite <- Enw. apply ascending_nth; auto. }
      destruct r as [m'|].
      * destruct Hr as [[A' L'] Mi]. assert (L2 : str_leb m m' = true) by (eapply str_leb_trans; eauto).
        assert (Nm' : ~ In m entries). { intros I. apply Nq, str_leb_antisym; auto. apply Gap; auto. apply leb_refl. }
        apply IH; auto; try lia.
        -- assert (left_over m' < left_over m); [|lia]. unfold left_over. destruct (in_dec eqd m entries); [contradiction|]. destruct (eqd w m') as [<-|N2].
           ++ pose proof (from_le m w Mw). destruct (in_dec eqd w entries); [lia|contradiction].
           ++ pose proof (from_lt w m' Iw L' N2). pose proof (from_le m w Mw). destruct (in_dec eqd m' entries); lia.
        -- intros ->. destruct w; [congruence|discriminate].
        -- intros i Li. specialize (H1 i Li). destruct (str_leb m' (nth i entries [])) eqn:X; auto. rewrite (str_leb_trans _ _ _ L2 X) in H1. discriminate.
        -- split; auto. intros v. rewrite Fo. split.
           ++ intros (I & N & A & X). repeat split; auto. destruct (str_leb m' v) eqn:Y; auto. rewrite (str_leb_trans _ _ _ L2 Y) in X. discriminate.
           ++ intros (I & N & A & X). repeat split; auto. destruct (str_leb m v) eqn:Y; auto. rewrite Mi in X; [discriminate|]. split; auto.
      * rewrite Ends by lia. eexists. split; [reflexivity|]. split; auto. intros v. rewrite Fo. split; [intuition|]. intros (I & N & A & _). repeat split; auto.
        destruct (str_leb m v) eqn:Y; auto. pose proof (Gap v I Y) as X. rewrite Hr in X by auto. discriminate.
  - exists out. split; auto. split; auto. intros v. rewrite Fo. split; [intuition|]. intros (I & N & A & _). repeat split; auto.
    apply in_nth in I. destruct I as (i & Li & <-). apply H1. apply nth_error_None in Ew. lia.
Qed.

Lemma matches_ok : exists bound r, (forall fuel, bound <= fuel ->
    (m <- next_valid_string d fuel [0%N] ;; matches_loop (matcher entries) d fuel 0 m []) = Ok r) /\ found r (fun _ => True).
Proof.
  destruct (next_valid_ok d start0 only_start live longest bounded [0%N]) as (r & Er & Hr); [intros c [<-|[]]; lia|].
  assert (Low : forall w, w <> [] -> str_leb [0%N] w = true) by (intros [|[|x] w] N; [congruence|reflexivity|reflexivity]).
  set (B := 2 * length entries + 1 + call + longest + 10). destruct r as [m|].
  - destruct Hr as [[A L] Mi]. assert (Nm : m <> []) by (intros ->; discriminate).
    assert (Lo : left_over m + call < B).
    { unfold left_over, from, B. assert (length (filter (str_leb m) entries) <= length entries).
      { clear. generalize entries. intros l. induction l as [|a l IH]; cbn [filter length]; auto. destruct (str_leb m a); cbn [length]; lia. }
      destruct (in_dec eqd m entries); lia. }
    assert (F0 : found [] (fun w => str_leb m w = false)).
    { split; [constructor|]. intros w. split; [intros []|]. intros (_ & N & A' & X). rewrite Mi in X; [discriminate|auto]. }
    destruct (loop_matches B m 0 [] Lo Nm A ltac:(lia) ltac:(intros; lia) F0) as (r & E & F). exists B, r. split; auto.
    intros fuel Lf. rewrite Er by (cbn [length]; unfold B in Lf; lia). cbn [bind].
    destruct (loop_matches fuel m 0 [] ltac:(lia) Nm A ltac:(lia) ltac:(intros; lia) F0) as (r' & E' & F'). rewrite E'. f_equal.
    clear - F F'. destruct F as [S1 M1], F' as [S2 M2]. assert (M : forall w, In w r' <-> In w r) by (intros w; rewrite M1, M2; reflexivity). clear M1 M2.
    revert r S1 M. induction S2 as [|a r' S2 IH Fa]; intros [|b r] S1 M.
    + reflexivity.
    + exfalso. apply (M b). left; auto.
    + exfalso. apply (M a). left; auto.
    + inversion S1 as [|? ? S1' Fb]; subst. rewrite Forall_forall in Fa, Fb. assert (a = b) as ->.
      { destruct (proj1 (M a)) as [X|X]; [left; auto|auto|]. destruct (proj2 (M b)) as [Y|Y]; [left; auto|auto|]. apply str_leb_antisym; [apply Fa; auto|apply Fb; auto]. }
      f_equal. apply IH; auto. intros w. split; intros I.
      * destruct (proj1 (M w)) as [X|X]; [right; auto| |auto]. subst w. apply Fa in I. destruct I. congruence.
      * destruct (proj2 (M w)) as [X|X]; [right; auto| |auto]. subst w. apply Fb in I. destruct I. congruence.
  - exists B, []. split.
    + intros fuel Lf. rewrite Er by (cbn [length]; unfold B in Lf; lia). cbn [bind]. destruct fuel; [unfold B in Lf; lia|reflexivity].
    + split; [constructor|]. intros w. split; [intros []|]. intros (_ & N & A & _). specialize (Low w N). rewrite Hr in Low by auto. discriminate.
Qed.
End Matches.
