(** [findall_longest]: the chosen matches have the greatest total length. *)
From Coq Require Import ZArith NArith List Bool Permutation Lia Sorted.
From Verif Require Import Py ListAux PyDict TrieSpec TrieModel TrieProofs TrieScan TrieFind.
Import ListNotations.

Section Longest.
Context {K : Type}.
Notation mt := (nat * nat * K)%type.

(** Disjoint, ascending. *)
Definition chain (l : list mt) : Prop := StronglySorted (fun a b => snd (fst a) <= fst (fst b)) l.
Definition weight (l : list mt) : nat := fold_right (fun a w => (snd (fst a) - fst (fst a)) + w) 0 l.

Lemma weight_app a b : weight (a ++ b) = weight a + weight b.
Proof. unfold weight. induction a as [|x a IH]; cbn; [reflexivity|]. rewrite IH. lia. Qed.

Lemma chain_app_inv a b : chain (a ++ b) -> chain a /\ chain b /\ forall x y, In x a -> In y b -> snd (fst x) <= fst (fst y).
Proof.
  unfold chain. induction a as [|x a IH]; cbn; intros S; [repeat split; auto; [constructor|intros ? ? []]|].
  inversion S as [|? ? S' F]; subst. destruct (IH S') as (A & B & C). rewrite Forall_app in F. destruct F as [F1 F2].
  split; [constructor; auto|]. split; [exact B|]. intros u y [<-|I] J; [rewrite Forall_forall in F2; auto|auto].
Qed.

Lemma chain_app a b : chain a -> chain b -> (forall x y, In x a -> In y b -> snd (fst x) <= fst (fst y)) -> chain (a ++ b).
Proof. intros A B C. apply sorted_app; auto. Qed.

(** Matches are not empty. *)
Definition proper (l : list mt) : Prop := forall x, In x l -> fst (fst x) < snd (fst x).

(** ** One cluster *)

(** After the matches [done]: [ends] is ascending from 0, each value is the
    weight of its chain (last match first), which is made of [done] and ends
    there; and no chain of [done] up to a position is heavier. *)
Definition before (ends : list nat) (x : nat) : nat := List.length (filter (fun e => e <=? x) ends).

Record dp (done : list mt) (ends : list nat) (values : list (nat * list mt)) : Prop := {
  dp_len : List.length values = List.length ends;
  dp_head : exists es, ends = 0 :: es;
  dp_sorted : StronglySorted lt ends;
  dp_real : forall i w c, nth_error values i = Some (w, c) -> w = weight (rev c) /\ chain (rev c) /\ incl c done /\
     (forall e, nth_error ends i = Some e -> forall x, In x c -> snd (fst x) <= e);
  dp_best : forall c x, chain c -> incl c done -> (forall y, In y c -> snd (fst y) <= x) ->
     exists w ch, nth_error values (before ends x - 1) = Some (w, ch) /\ weight c <= w;
  dp_ends : forall e, In e ends -> e = 0 \/ exists y, In y done /\ e = snd (fst y) }.

Lemma before_pos ends x : (exists es, ends = 0 :: es) -> 1 <= before ends x <= List.length ends.
Proof.
  intros (es & ->). unfold before. cbn [filter]. cbn [Nat.leb List.length]. split; [lia|]. apply le_n_S. 
  clear. induction es as [|e es IH]; cbn; [lia|]. destruct (e <=? x); cbn; lia.
Qed.

Lemma filter_none {A} (f : A -> bool) l : (forall x, In x l -> f x = false) -> filter f l = [].
Proof. induction l as [|a l IH]; intros X; cbn; [reflexivity|]. rewrite (X a) by (simpl; auto). apply IH. intros; apply X; simpl; auto. Qed.
Lemma filter_all {A} (f : A -> bool) l : (forall x, In x l -> f x = true) -> filter f l = l.
Proof. induction l as [|a l IH]; intros X; cbn; [reflexivity|]. rewrite (X a) by (simpl; auto). f_equal. apply IH. intros; apply X; simpl; auto. Qed.

(** In an ascending list the elements up to [x] are a prefix. *)
Lemma before_prefix ends x i e : StronglySorted lt ends -> nth_error ends i = Some e -> (e <= x <-> i < before ends x).
Proof.
  unfold before. intros S. revert i e. induction S as [|a l S IH F]; intros i e E; [destruct i; discriminate|]. cbn [filter].
  destruct (Nat.leb_spec a x) as [L|L].
  - destruct i as [|i]; cbn in E; [injection E as <-; cbn; split; lia|]. cbn [List.length]. rewrite (IH i e E). lia.
  - rewrite filter_none; [|intros y I; rewrite Forall_forall in F; specialize (F y I); apply Nat.leb_gt; lia]. cbn.
    split; [|lia]. intros Le. exfalso. destruct i as [|i]; cbn in E; [injection E as <-; lia|]. apply nth_error_In in E. rewrite Forall_forall in F. specialize (F e E). lia.
Qed.

Lemma before_snoc ends e x : before (ends ++ [e]) x = before ends x + (if e <=? x then 1 else 0).
Proof. unfold before. rewrite filter_app, app_length. cbn. destruct (e <=? x); reflexivity. Qed.

Lemma last_nth {A} (l : list A) d : l <> [] -> nth_error l (List.length l - 1) = Some (last l d).
Proof.
  intros N. rewrite (app_removelast_last d N) at 1. pose proof (app_removelast_last d N) as E. apply (f_equal (@List.length A)) in E. rewrite app_length in E. cbn in E.
  rewrite nth_error_app2 by lia. replace (List.length l - 1 - List.length (removelast l)) with 0 by lia. reflexivity.
Qed.

Lemma last_max ends d x : StronglySorted lt ends -> In x ends -> x <= last ends d.
Proof.
  induction 1 as [|a l S IH F]; [intros []|]. intros [->|I].
  - destruct l as [|b l]; [cbn; lia|]. assert (N : b :: l <> []) by discriminate. change (last (x :: b :: l) d) with (last (b :: l) d).
    rewrite Forall_forall in F. assert (In (last (b :: l) d) (b :: l)); [|specialize (F _ H); lia].
    apply nth_error_In with (n := List.length (b :: l) - 1). apply last_nth. exact N.
  - destruct l as [|b l]; [destruct I|]. change (last (a :: b :: l) d) with (last (b :: l) d). auto.
Qed.

Lemma get_value (ends : list nat) (values : list (nat * list mt)) x : List.length values = List.length ends -> (exists es, ends = 0 :: es) ->
  exists v, nth_error values (before ends x - 1) = Some v /\ py_get values (Z.of_nat (before ends x) - 1) = Ok v.
Proof.
  intros L Hd. pose proof (before_pos ends x Hd) as P. destruct (nth_error values (before ends x - 1)) as [v|] eqn:E.
  - exists v. split; auto. replace (Z.of_nat (before ends x) - 1)%Z with (Z.of_nat (before ends x - 1)) by lia.
    rewrite (py_get_nat _ _ v) by lia. f_equal. apply nth_error_nth. exact E.
  - apply nth_error_None in E. lia.
Qed.

(** The best chain that ends with a match of the group. *)
Lemma best_ok done ends values E : dp done ends values -> forall group b0 s0 bm, 
  (forall m, In m group -> snd (fst m) = E /\ fst (fst m) < E) ->
  exists b s bm', foldM (best_step ends values) group ((b0, s0), bm) = Ok ((b, s), bm') /\ b0 <= b /\
   (bm' = bm /\ b = b0 /\ s = s0 \/ exists m pc, bm' = Some (m :: pc) /\ In m group /\ b = weight (rev (m :: pc)) /\ chain (rev (m :: pc)) /\ incl pc done) /\
   (forall m c, In m group -> chain (c ++ [m]) -> incl c done -> weight (c ++ [m]) <= b).
Proof.
  intros D. assert (Pv : forall m, exists pv pm, py_get values (Z.of_nat (List.length (filter (fun e => e <=? fst (fst m)) ends)) - 1) = Ok (pv, pm) /\
     pv = weight (rev pm) /\ chain (rev pm) /\ incl pm done /\ (forall x, In x pm -> snd (fst x) <= fst (fst (m : mt))) /\
     forall c, chain (c ++ [m]) -> incl c done -> weight c <= pv).
  { intros m. destruct (get_value ends values (fst (fst m)) (dp_len _ _ _ D) (dp_head _ _ _ D)) as ([pv pm] & Ev & Eg). exists pv, pm. split; [exact Eg|].
    destruct (dp_real _ _ _ D _ _ _ Ev) as (R1 & R2 & R3 & R4). split; [exact R1|]. split; [exact R2|]. split; [exact R3|]. split.
    - intros x I. pose proof (before_pos ends (fst (fst m)) (dp_head _ _ _ D)) as P.
      destruct (nth_error ends (before ends (fst (fst m)) - 1)) as [e|] eqn:Ee; [|apply nth_error_None in Ee; lia].
      specialize (R4 e eq_refl x I). apply (before_prefix ends (fst (fst m)) _ e (dp_sorted _ _ _ D)) in Ee. lia.
    - intros c C Ic. apply chain_app_inv in C. destruct C as (C1 & _ & C3).
      destruct (dp_best _ _ _ D c (fst (fst m)) C1 Ic) as (w & ch & Ew & Lw); [intros y I; apply (C3 y m I); simpl; auto|]. rewrite Ev in Ew. injection Ew as <- _. exact Lw. }
  induction group as [|m group IH]; intros b0 s0 bm G.
  - exists b0, s0, bm. cbn. split; [reflexivity|]. split; [lia|]. split; [auto|]. intros m c [].
  - destruct (Pv m) as (pv & pm & Eg & R1 & R2 & R3 & R4 & R5). cbn [foldM]. unfold best_step at 1. unfold match_len, match_start, match_end, match_ in *. rewrite Eg. cbn [bind].
    destruct (G m) as [Ge Gs]; [simpl; auto|].
    assert (G' : forall m', In m' group -> snd (fst m') = E /\ fst (fst m') < E) by (intros; apply G; simpl; auto).
    set (nt := pv + (snd (fst m) - fst (fst m))).
    assert (Wm : nt = weight (rev (m :: pm))). { cbn [rev]. rewrite weight_app, <- R1. cbn. unfold nt. lia. }
    assert (Cm : chain (rev (m :: pm))).
    { cbn [rev]. apply chain_app; auto; [repeat constructor|]. intros x y I [<-|[]]. apply R4. apply in_rev. exact I. }
    assert (Bm : forall c, chain (c ++ [m]) -> incl c done -> weight (c ++ [m]) <= nt).
    { intros c C Ic. rewrite weight_app. cbn. specialize (R5 c C Ic). unfold nt. lia. }
    destruct ((b0 <? nt) || ((b0 =? nt) && (fst (fst m) <? s0))) eqn:Ec; cbn [bind].
    + assert (Lb : b0 <= nt). { apply orb_true_iff in Ec. destruct Ec as [X|X]; [apply Nat.ltb_lt in X; lia|]. apply andb_true_iff in X. destruct X as [X _]. apply Nat.eqb_eq in X. lia. }
      destruct (IH nt (fst (fst m)) (Some (m :: pm)) G') as (b & s & bm' & Ef & Lb' & Sh & Bst). exists b, s, bm'. split; [exact Ef|]. split; [lia|]. split.
      * right. destruct Sh as [(-> & -> & _)|(m' & pc & A & B & C)].
        -- exists m, pm. repeat split; auto. left. reflexivity.
        -- exists m', pc. split; [exact A|]. split; [right; exact B|exact C].
      * intros m' c [<-|I] C Ic; [specialize (Bm c C Ic); lia|auto].
    + assert (Lb : nt <= b0). { apply orb_false_iff in Ec. destruct Ec as [X _]. apply Nat.ltb_ge in X. exact X. }
      destruct (IH b0 s0 bm G') as (b & s & bm' & Ef & Lb' & Sh & Bst). exists b, s, bm'. split; [exact Ef|]. split; [lia|]. split.
      * destruct Sh as [X|(m' & pc & A & B & C)]; [left; exact X|]. right. exists m', pc. split; [exact A|]. split; [right; exact B|exact C].
      * intros m' c [<-|I] C Ic; [specialize (Bm c C Ic); lia|auto].
Qed.

Lemma take_end_split E (l : list mt) : exists rest, l = take_end E l ++ rest /\ skipn (List.length (take_end E l)) l = rest /\
  (forall m, In m (take_end E l) -> snd (fst m) = E) /\ (forall m r, rest = m :: r -> snd (fst m) <> E).
Proof.
  induction l as [|m l IH]; cbn [take_end].
  - exists []. cbn. repeat split; auto; [intros m []|discriminate].
  - unfold match_end at 1 2. destruct (Nat.eqb_spec (snd (fst m)) E) as [Em|Em].
    + destruct IH as (rest & A & B & C & D). exists rest. unfold match_end. rewrite (proj2 (Nat.eqb_eq _ _) Em). cbn [app List.length skipn]. split; [f_equal; exact A|]. split; [exact B|]. split; [|exact D].
      intros x [<-|I]; auto.
    + exists (m :: l). unfold match_end. rewrite (proj2 (Nat.eqb_neq _ _) Em). cbn. repeat split; auto; [intros x []|]. intros x r X. injection X as <- _. exact Em.
Qed.

Lemma chain_last_split (c : list mt) : c = [] \/ exists c' m, c = c' ++ [m].
Proof. induction c as [|m c _] using rev_ind; eauto. Qed.

Lemma loop_best : forall fuel matches done ends values, List.length matches < fuel -> dp done ends values -> proper matches -> proper done ->
  StronglySorted (fun a b => snd (fst a) <= snd (fst b)) matches ->
  (forall x y, In x done -> In y matches -> snd (fst x) < snd (fst y)) ->
  exists ends' values', longest_loop fuel matches ends values = Ok (ends', values') /\ dp (done ++ matches) ends' values'.
Proof.
  induction fuel as [|fuel IH]; intros matches done ends values Lf D Pm Pd So Lt; [lia|]. cbn [longest_loop].
  destruct matches as [|m0 ms] eqn:Em; [exists ends, values; rewrite app_nil_r; auto|]. rewrite <- Em in *.
  assert (I0 : In m0 matches) by (rewrite Em; left; reflexivity).
  set (E := match_end m0). unfold match_ in *.
  destruct (take_end_split E matches) as (rest & Hs & Hk & Hg & Hr). unfold match_ in *. set (group := take_end E matches : list mt) in *. unfold match_ in *. rewrite Hk.
  assert (Ng : group <> []). { unfold group. rewrite Em. cbn [take_end]. unfold E. rewrite Nat.eqb_refl. discriminate. }
  assert (EndsLt : forall e, In e ends -> e < E).
  { intros e Ie. destruct (dp_ends _ _ _ D e Ie) as [->|(y & Iy & ->)]; [specialize (Pm m0 I0); unfold E, match_end; lia|apply (Lt y m0 Iy I0)]. }
  assert (Ll : last ends 0 < E). { apply EndsLt. destruct (dp_head _ _ _ D) as (es & ->). apply nth_error_In with (n := List.length (0 :: es) - 1). apply last_nth. discriminate. }
  rewrite (proj2 (Nat.ltb_lt _ _) Ll). cbn [negb].
  assert (Gp : forall m, In m group -> snd (fst m) = E /\ fst (fst m) < E).
  { intros m I. split; [apply Hg; exact I|]. rewrite <- (Hg m I). apply Pm. rewrite Hs. apply in_app_iff. auto. }
  destruct (best_ok done ends values E D group 0 E None Gp) as (b & s & bm & Ef & _ & Sh & Bst).
  unfold match_ in *. rewrite Ef.
  cbn [bind].
  assert (Bp : 0 < b).
  { destruct group as [|g gs]; [congruence|]. destruct (Gp g) as [G1 G2]; [left; reflexivity|].
    specialize (Bst g [] (or_introl eq_refl)). cbn in Bst. assert (snd (fst g) - fst (fst g) + 0 <= b) by (apply Bst; [repeat constructor|intros ? []]). lia. }
  destruct Sh as [(_ & -> & _)|(m & pc & -> & Im & Eb & Cm & Ic)]; [lia|].
  destruct (last values (0, [])) as [pv pm] eqn:Elast.
  assert (Nv : values <> []). { intros ->. pose proof (dp_len _ _ _ D) as X. destruct (dp_head _ _ _ D) as (es & ->). discriminate. }
  assert (Ev : nth_error values (List.length values - 1) = Some (pv, pm)) by (rewrite <- Elast; apply last_nth; exact Nv).
  assert (Pr : proper rest) by (intros x I; apply Pm; rewrite Hs; apply in_app_iff; auto).
  assert (Pdg : proper (done ++ group)) by (intros x I; apply in_app_iff in I; destruct I as [I|I]; [auto|]; apply Pm; rewrite Hs; apply in_app_iff; auto).
  assert (Sr : StronglySorted (fun a b => snd (fst a) <= snd (fst b)) rest /\ forall x y, In x group -> In y rest -> snd (fst x) <= snd (fst y)).
  { rewrite Hs in So. clear -So. induction group as [|g gs IH]; cbn in So; [split; [exact So|intros ? ? []]|]. inversion So as [|? ? S' F]; subst. destruct (IH S') as [A B].
    split; [exact A|]. intros x y [<-|I] J; [|auto]. rewrite Forall_forall in F. apply F, in_app_iff. auto. }
  destruct Sr as [Sr Sg].
  assert (Rlt : forall y, In y rest -> E < snd (fst y)).
  { intros y I. destruct rest as [|r0 rest']; [destruct I|]. pose proof (Hr r0 rest' eq_refl) as Nr. destruct group as [|g gs]; [congruence|].
    pose proof (Sg g r0 (or_introl eq_refl) (or_introl eq_refl)) as X. rewrite (Hg g (or_introl eq_refl)) in X.
    destruct I as [<-|I]; [lia|]. inversion Sr as [|? ? _ F]; subst. rewrite Forall_forall in F. specialize (F y I). lia. }
  assert (Lt' : forall x y, In x (done ++ group) -> In y rest -> snd (fst x) < snd (fst y)).
  { intros x y I J. apply in_app_iff in I. destruct I as [I|I]; [apply Lt; auto; rewrite Hs; apply in_app_iff; auto|]. rewrite (Hg x I). auto. }
  assert (Lr : List.length rest < fuel).
  { rewrite Hs in Lf. rewrite app_length in Lf. destruct group; [congruence|]. cbn in Lf. lia. }
  (* what a chain of the old and the new matches can weigh *)
  assert (Split : forall c, chain c -> incl c (done ++ group) -> incl c done \/ exists c' m', c = c' ++ [m'] /\ In m' group /\ incl c' done).
  { intros c C I. destruct (chain_last_split c) as [->|(c' & m' & ->)]; [left; intros ? []|].
    assert (Ic' : incl c' done).
    { intros y Iy. specialize (I y (proj2 (in_app_iff _ _ _) (or_introl Iy))) as J. apply in_app_iff in J. destruct J as [J|J]; auto. exfalso.
      apply chain_app_inv in C. destruct C as (_ & _ & C). specialize (C y m' Iy (or_introl eq_refl)). rewrite (Hg y J) in C.
      assert (Jm : In m' (done ++ group)) by (apply I, in_app_iff; right; left; reflexivity). pose proof (Pdg m' Jm).
      apply in_app_iff in Jm. destruct Jm as [Jm|Jm]; [specialize (Lt m' m0 Jm I0); unfold E, match_end in C; lia|destruct (Gp m' Jm); lia]. }
    assert (Jm : In m' (done ++ group)) by (apply I, in_app_iff; right; left; reflexivity). apply in_app_iff in Jm. destruct Jm as [Jm|Jm].
    - left. intros y Iy. apply in_app_iff in Iy. destruct Iy as [Iy|[<-|[]]]; auto.
    - right. exists c', m'. auto. }
  assert (Old : forall c, chain c -> incl c done -> weight c <= pv).
  { intros c C I. destruct (dp_best _ _ _ D c E C I) as (w & ch & Ew & Lw); [intros y Iy; specialize (Lt y m0 (I y Iy) I0); unfold E, match_end; lia|].
    assert (Bf : before ends E = List.length ends). { unfold before. rewrite filter_all; auto. intros e Ie. apply Nat.leb_le. specialize (EndsLt e Ie). lia. }
    rewrite Bf, <- (dp_len _ _ _ D), Ev in Ew. injection Ew as <- _. exact Lw. }
  assert (Far : forall x, x < E -> forall c, chain c -> incl c (done ++ group) -> (forall y, In y c -> snd (fst y) <= x) -> incl c done).
  { intros x Lx c C I Le y Iy. specialize (I y Iy). apply in_app_iff in I. destruct I as [I|I]; auto. specialize (Le y Iy). rewrite (Hg y I) in Le. lia. }
  destruct (Nat.ltb_spec pv b) as [Better|NotBetter].
  - destruct (IH rest (done ++ group) (ends ++ [E]) (values ++ [(b, m :: pc)])) as (e' & v' & El & D'); auto; [|exists e', v'; split; [exact El|rewrite Hs, app_assoc; exact D']].
    pose proof (dp_len _ _ _ D) as Lv. constructor.
    + rewrite !app_length. cbn. lia.
    + destruct (dp_head _ _ _ D) as (es & ->). exists (es ++ [E]). reflexivity.
    + apply sorted_app; [apply (dp_sorted _ _ _ D)|repeat constructor|]. intros x y I [<-|[]]. auto.
    + intros i w c Ei. destruct (Nat.lt_ge_cases i (List.length values)) as [Li|Li].
      * rewrite nth_error_app1 in Ei by lia. destruct (dp_real _ _ _ D i w c Ei) as (R1 & R2 & R3 & R4). split; [exact R1|]. split; [exact R2|]. split; [apply incl_appl; exact R3|].
        intros e Ee. apply R4. rewrite nth_error_app1 in Ee by lia. exact Ee.
      * rewrite nth_error_app2 in Ei by lia. destruct (i - List.length values) as [|j] eqn:Ej; [|destruct j; discriminate]. cbn in Ei. injection Ei as <- <-.
        split; [exact Eb|]. split; [exact Cm|]. split; [intros y [<-|Iy]; apply in_app_iff; auto|].
        intros e Ee. rewrite nth_error_app2 in Ee by lia. replace (i - List.length ends) with 0 in Ee by lia. cbn in Ee. injection Ee as <-.
        intros y [<-|Iy]; [destruct (Gp _ Im); lia|]. specialize (Lt y m0 (Ic y Iy) I0). unfold E, match_end. lia.
    + intros c x C I Le. rewrite before_snoc. destruct (Nat.leb_spec E x) as [Lx|Lx].
      * assert (Bf : before ends x = List.length ends). { unfold before. rewrite filter_all; auto. intros e Ie. apply Nat.leb_le. specialize (EndsLt e Ie). lia. }
        rewrite Bf. exists b, (m :: pc). split; [rewrite nth_error_app2 by lia; replace (List.length ends + 1 - 1 - List.length values) with 0 by lia; reflexivity|].
        destruct (Split c C I) as [J|(c' & m' & -> & Im' & Ic')]; [specialize (Old c C J); lia|apply Bst; auto].
      * rewrite Nat.add_0_r. destruct (dp_best _ _ _ D c x C (Far x Lx c C I Le) Le) as (w & ch & Ew & Lw). exists w, ch. split; [|exact Lw].
        pose proof (before_pos ends x (dp_head _ _ _ D)). rewrite nth_error_app1 by lia. exact Ew.
    + intros e Ie. apply in_app_iff in Ie. destruct Ie as [Ie|[<-|[]]].
      * destruct (dp_ends _ _ _ D e Ie) as [->|(y & Iy & ->)]; [auto|]. right. exists y. split; [apply in_app_iff; auto|auto].
      * right. exists m0. split; [|reflexivity]. apply in_app_iff. right. unfold group. rewrite Em. cbn [take_end]. unfold E. rewrite Nat.eqb_refl. left. reflexivity.
  - destruct (IH rest (done ++ group) ends values) as (e' & v' & El & D'); auto; [|exists e', v'; split; [exact El|rewrite Hs, app_assoc; exact D']].
    destruct D as [D1 D2 D3 D4 D5 D6]. constructor; auto.
    + intros i w c Ei. destruct (D4 i w c Ei) as (R1 & R2 & R3 & R4). split; [exact R1|]. split; [exact R2|]. split; [apply incl_appl; exact R3|exact R4].
    + intros c x C I Le. destruct (Nat.le_gt_cases E x) as [Lx|Lx].
      * assert (Bf : before ends x = List.length ends). { unfold before. rewrite filter_all; auto. intros e Ie. apply Nat.leb_le. specialize (EndsLt e Ie). lia. }
        rewrite Bf. exists pv, pm. split; [rewrite <- D1; exact Ev|].
        destruct (Split c C I) as [J|(c' & m' & -> & Im' & Ic')]; [apply Old; auto|]. specialize (Bst m' c' Im' C Ic'). lia.
      * apply D5; auto. eapply Far; eauto.
    + intros e Ie. destruct (D6 e Ie) as [->|(y & Iy & ->)]; [auto|]. right. exists y. split; [apply in_app_iff; auto|auto].
Qed.

(** The heaviest chain of [l]. *)
Definition heaviest (l : list mt) (c : list mt) : Prop := chain c /\ incl c l /\ forall c', chain c' -> incl c' l -> weight c' <= weight c.

Lemma sorted_rev {A} (R : A -> A -> Prop) l : StronglySorted R l -> StronglySorted (fun a b => R b a) (rev l).
Proof.
  induction 1 as [|a l S IH F]; cbn; [constructor|]. apply sorted_app; [exact IH|repeat constructor|]. intros x y I [<-|[]]. rewrite Forall_forall in F. apply F, in_rev, I.
Qed.

Lemma by_end_start_total (a b : mt) : by_end_start a b = true \/ by_end_start b a = true.
Proof.
  unfold by_end_start, match_end, match_start. rewrite !orb_true_iff, !andb_true_iff, !Nat.ltb_lt, !Nat.eqb_eq, !Nat.leb_le. lia.
Qed.
Lemma by_end_start_trans (a b c : mt) : by_end_start a b = true -> by_end_start b c = true -> by_end_start a c = true.
Proof.
  unfold by_end_start, match_end, match_start. rewrite !orb_true_iff, !andb_true_iff, !Nat.ltb_lt, !Nat.eqb_eq, !Nat.leb_le. lia.
Qed.

Lemma lis_ok (l : list mt) : proper l -> exists c, longest_increasing_subsequence l = Ok c /\ heaviest l c.
Proof.
  intros P. unfold longest_increasing_subsequence, match_. destruct l as [|x l'] eqn:El.
  { exists []. split; [reflexivity|]. split; [constructor|]. split; [intros ? []|]. intros c' _ I. destruct c' as [|y c']; [auto|]. destruct (I y); simpl; auto. }
  rewrite <- El in *. clear El x l'.
  set (so := rev (isort (fun a b : mt => by_end_start b a) l)).
  assert (Pe : Permutation so l) by (unfold so; rewrite <- Permutation_rev; apply isort_perm).
  assert (So : StronglySorted (fun a b : mt => snd (fst a) <= snd (fst b)) so).
  { assert (X : StronglySorted (fun a b : mt => by_end_start a b = true) so).
    { unfold so. apply (sorted_rev (fun a b : mt => by_end_start b a = true)). apply isort_sorted.
      - intros a b. apply by_end_start_total.
      - intros a b c A B. eapply by_end_start_trans; eauto. }
    clear -X. induction X as [|a l0 X IH F]; constructor; auto. eapply Forall_impl; [|exact F]. intros b. cbv beta.
    unfold by_end_start, match_end, match_start. rewrite !orb_true_iff, !andb_true_iff, !Nat.ltb_lt, !Nat.eqb_eq, !Nat.leb_le. lia. }
  destruct (loop_best (S (List.length l)) so [] [0] [(0, [])]) as (ends & values & E & D).
  - rewrite (Permutation_length Pe). lia.
  - constructor; cbn.
    + reflexivity.
    + eauto.
    + repeat constructor.
    + intros [|i] w c X; [|destruct i; discriminate]. injection X as <- <-. cbn. split; [reflexivity|]. split; [constructor|]. split; [intros ? []|]. intros e0 _ x [].
    + intros c x _ I _. exists 0, []. cbn. split; [reflexivity|]. destruct c as [|y c]; [auto|]. destruct (I y); simpl; auto.
    + intros e [<-|[]]. auto.
  - intros x I. apply P. eapply Permutation_in; eauto.
  - intros x [].
  - exact So.
  - intros x y [].
  - match goal with |- context [longest_loop ?a ?b ?c ?d] => replace (longest_loop a b c d) with (Ok (ends, values) : result (list nat * list (nat * list mt))) by (symmetry; exact E) end.
    cbn [bind]. eexists. split; [reflexivity|]. cbn [app] in D. unfold match_ in *.
    destruct (last values (0, [])) as [pv pm] eqn:Elast. cbn [snd].
    assert (Nv : values <> []). { intros ->. pose proof (dp_len _ _ _ D) as X. destruct (dp_head _ _ _ D) as (es & ->). discriminate. }
    assert (Ev : nth_error values (List.length values - 1) = Some (pv, pm)) by (rewrite <- Elast; apply last_nth; exact Nv).
    destruct (dp_real _ _ _ D _ _ _ Ev) as (R1 & R2 & R3 & _). split; [exact R2|]. split.
    + intros y I. apply in_rev in I. apply (Permutation_in _ Pe), R3, I.
    + intros c' C I. set (X := fold_right Nat.max 0 (ends ++ map (fun y => snd (fst y)) c')).
      assert (Mx : forall y, In y (ends ++ map (fun y => snd (fst y)) c') -> y <= X).
      { unfold X. generalize (ends ++ map (fun y => snd (fst y)) c') as zs. induction zs as [|z zs IHz]; [intros ? []|]. intros y [<-|Iy]; cbn; [lia|]. specialize (IHz y Iy). lia. }
      destruct (dp_best _ _ _ D c' X C) as (w & ch & Ew & Lw).
      * intros y Iy. apply (Permutation_in _ (Permutation_sym Pe)), I, Iy.
      * intros y Iy. apply Mx, in_app_iff. right. apply (in_map (fun y => snd (fst y))). exact Iy.
      * assert (Bf : before ends X = List.length ends). { unfold before. rewrite filter_all; auto. intros e Ie. apply Nat.leb_le, Mx, in_app_iff. auto. }
        rewrite Bf, <- (dp_len _ _ _ D), Ev in Ew. injection Ew as <- _. lia.
Qed.

(** ** The clusters *)

Lemma chain_split_sets (F C : list mt) c : proper F -> proper C -> (forall x y, In x F -> In y C -> snd (fst x) <= fst (fst y)) ->
  chain c -> incl c (F ++ C) -> exists c1 c2, c = c1 ++ c2 /\ incl c1 F /\ incl c2 C.
Proof.
  intros PF PC Sep. induction c as [|a c IH]; intros Ch I; [exists [], []; repeat split; intros ? []|].
  inversion Ch as [|? ? Ch' Fa]; subst. destruct (IH Ch') as (c1 & c2 & -> & I1 & I2); [intros y Iy; apply I; right; exact Iy|].
  assert (J : In a (F ++ C)) by (apply I; left; reflexivity). apply in_app_iff in J. destruct J as [J|J].
  - exists (a :: c1), c2. repeat split; auto. intros y [<-|Iy]; auto.
  - exists [], (a :: c1 ++ c2). repeat split; [intros ? []|]. intros y [<-|Iy]; auto. assert (Z : In y (F ++ C)) by (apply I; right; exact Iy).
    apply in_app_iff in Z. destruct Z as [Z|Z]; auto. exfalso. rewrite Forall_forall in Fa. specialize (Fa y Iy). specialize (Sep y a Z J). pose proof (PF y Z). pose proof (PC a J). lia.
Qed.

Lemma heaviest_app F C c1 c2 : proper F -> proper C -> (forall x y, In x F -> In y C -> snd (fst x) <= fst (fst y)) ->
  heaviest F c1 -> heaviest C c2 -> heaviest (F ++ C) (c1 ++ c2).
Proof.
  intros PF PC Sep (A1 & A2 & A3) (B1 & B2 & B3). split; [apply chain_app; auto|]. split.
  - intros y I. apply in_app_iff in I. apply in_app_iff. destruct I; auto.
  - intros c Ch I. destruct (chain_split_sets F C c PF PC Sep Ch I) as (d1 & d2 & -> & I1 & I2). apply chain_app_inv in Ch. destruct Ch as (C1 & C2 & _).
    rewrite !weight_app. specialize (A3 d1 C1 I1). specialize (B3 d2 C2 I2). lia.
Qed.

Lemma cluster_ok : forall l F out cluster ce, proper (F ++ cluster ++ l) -> StronglySorted (fun a b : mt => fst (fst a) <= fst (fst b)) l ->
  heaviest F out -> (forall x y, In x F -> In y (cluster ++ l) -> snd (fst x) <= fst (fst y)) ->
  (forall x, In x cluster -> snd (fst x) <= ce) ->
  exists out' cluster' ce' F', foldM cluster_step l (out, cluster, ce) = Ok (out', cluster', ce') /\ F' ++ cluster' = F ++ cluster ++ l /\
    heaviest F' out' /\ (forall x y, In x F' -> In y cluster' -> snd (fst x) <= fst (fst y)).
Proof.
  induction l as [|m l IH]; intros F out cluster ce P So Ho Sep Le.
  - exists out, cluster, ce, F. rewrite app_nil_r in *. cbn. auto.
  - inversion So as [|? ? So' Fa]; subst. rewrite Forall_forall in Fa. cbn [foldM]. unfold cluster_step at 1. unfold match_start, match_end, match_ in *.
    destruct ((match cluster with [] => true | _ :: _ => false end) || (fst (fst m) <? ce)) eqn:Ec; cbn [bind].
    + destruct (IH F out (cluster ++ [m]) (Nat.max ce (snd (fst m)))) as (o' & c' & ce' & F' & E & A & B & C); auto.
      * rewrite <- app_assoc. exact P.
      * intros x y I J. apply Sep; auto. rewrite <- app_assoc in J. exact J.
      * intros x I. apply in_app_iff in I. destruct I as [I|[<-|[]]]; [specialize (Le x I)|]; lia.
      * exists o', c', ce', F'. split; [exact E|]. rewrite <- app_assoc in A. auto.
    + apply orb_false_iff in Ec. destruct Ec as [_ Ec]. apply Nat.ltb_ge in Ec.
      assert (Pc : proper cluster) by (intros x I; apply P; rewrite !in_app_iff; auto).
      assert (Pf : proper F) by (intros x I; apply P; rewrite !in_app_iff; auto).
      destruct (lis_ok cluster Pc) as (c & Elis & Hc). rewrite Elis. cbn [bind].
      destruct (IH (F ++ cluster) (out ++ c) [m] (Nat.max ce (snd (fst m)))) as (o' & c' & ce' & F' & E & A & B & C); auto.
      * rewrite <- app_assoc. exact P.
      * apply heaviest_app; auto. intros x y I J. apply Sep; auto. apply in_app_iff. auto.
      * intros x y I J. cbn [app] in J. assert (Jm : fst (fst m) <= fst (fst y)) by (destruct J as [<-|J]; [lia|auto]).
        apply in_app_iff in I. destruct I as [I|I]; [apply Sep; auto; apply in_app_iff; right; exact J|]. specialize (Le x I). lia.
      * intros x [<-|[]]. lia.
      * exists o', c', ce', F'. split; [exact E|]. rewrite <- app_assoc in A. auto.
Qed.

Lemma clusters_ok (l : list mt) : proper l -> exists out cluster ce rest,
  foldM cluster_step (isort by_start_end l) ([], [], 0) = Ok (out, cluster, ce) /\ longest_increasing_subsequence cluster = Ok rest /\ heaviest l (out ++ rest).
Proof.
  intros P. set (so := isort by_start_end l).
  assert (Pe : Permutation so l) by apply isort_perm.
  assert (So : StronglySorted (fun a b : mt => fst (fst a) <= fst (fst b)) so).
  { assert (X : StronglySorted (fun a b : mt => by_start_end a b = true) so).
    { apply isort_sorted.
      - intros a b. unfold by_start_end, match_end, match_start. rewrite !orb_true_iff, !andb_true_iff, !Nat.ltb_lt, !Nat.eqb_eq, !Nat.leb_le. lia.
      - intros a b c. unfold by_start_end, match_end, match_start. rewrite !orb_true_iff, !andb_true_iff, !Nat.ltb_lt, !Nat.eqb_eq, !Nat.leb_le. lia. }
    clear -X. induction X as [|a l0 X IH F]; constructor; auto. eapply Forall_impl; [|exact F]. intros b. cbv beta.
    unfold by_start_end, match_end, match_start. rewrite !orb_true_iff, !andb_true_iff, !Nat.ltb_lt, !Nat.eqb_eq, !Nat.leb_le. lia. }
  assert (Ps : proper so) by (intros x I; apply P; eapply Permutation_in; eauto).
  destruct (cluster_ok so [] [] [] 0) as (out & cluster & ce & F & E & A & B & C).
  - exact Ps.
  - exact So.
  - split; [constructor|]. split; [intros ? []|]. intros c _ I. destruct c as [|y c]; [auto|]. destruct (I y); simpl; auto.
  - intros x y [].
  - intros x [].
  - cbn [app] in A. assert (Pc : proper cluster) by (intros x I; apply Ps; rewrite <- A, in_app_iff; auto).
    assert (Pf : proper F) by (intros x I; apply Ps; rewrite <- A, in_app_iff; auto).
    destruct (lis_ok cluster Pc) as (rest & El & Hr). exists out, cluster, ce, rest. split; [exact E|]. split; [exact El|].
    destruct (heaviest_app F cluster out rest Pf Pc C B Hr) as (H1 & H2 & H3). unfold match_ in *. rewrite A in H2, H3. split; [exact H1|]. split.
    + intros y I. eapply Permutation_in; [exact Pe|]. auto.
    + intros c' Ch I. apply H3; auto. intros y Iy. eapply Permutation_in; [apply Permutation_sym; exact Pe|]. auto.
Qed.
End Longest.
