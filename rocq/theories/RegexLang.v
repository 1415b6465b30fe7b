(** What the expressions match. *)
From Coq Require Import ZArith NArith List Bool String Lia Sorted.
From Verif Require Import Py PyDict TrieModel TrieProofs Ex.
From Verif Require Import RegexSpec RegexModel RegexTree RegexPasses RegexSimplify RegexParse.
Import ListNotations.
Open Scope string_scope.
Open Scope list_scope.
Open Scope N_scope.

Section Lang.
Variables is_space is_word : N -> bool.
Variable fs : bool.
Notation ways := (ways is_word).
Notation den := (den is_space fs).
Notation den_set := (den_set is_space fs).
Notation rxs := (rxs is_space fs).

Inductive L : seq -> str -> Prop :=
| L_seq ps t u v : Forall2 (fun p c => den p c = true) ps u -> Lt t v -> L (Seq ps t) (u ++ v)
with Lt : tail -> str -> Prop :=
| Lt_nil : Lt Nil []
| Lt_G0 alts : Lt (G alts true) []
| Lt_K0 ks : Lt (K ks true) []
| Lt_P0 p : Lt (P p true) []
| Lt_G alts q a v : In a alts -> L a v -> Lt (G alts q) v
| Lt_K ks q k c : In k ks -> den_set k c = true -> Lt (K ks q) [c]
| Lt_P p q c : den p c = true -> Lt (P p q) [c].

(** ** The ways to match *)
Definition reads (W : str -> Prop) (l : place -> list place) : Prop :=
  forall b x z, In z (l (b, x)) <-> exists w r, x = w ++ r /\ W w /\ z = (rev w ++ b, r).

Lemma ways_cat_app l1 l2 z : ways (cat (l1 ++ l2)) z = flat_map (ways (cat l2)) (ways (cat l1) z).
Proof.
  revert z. induction l1 as [|r l1 IH]; intros z; [cbn [app cat fold_right RegexSpec.ways flat_map]; rewrite app_nil_r; reflexivity|].
  cbn [app]. change (ways (cat (r :: l1 ++ l2)) z) with (flat_map (ways (cat (l1 ++ l2))) (ways r z)).
  change (ways (cat (r :: l1)) z) with (flat_map (ways (cat l1)) (ways r z)). generalize (ways r z). intros l. induction l as [|y l IHl]; [reflexivity|].
  cbn [flat_map]. rewrite flat_map_app, IH, IHl. reflexivity.
Qed.

Lemma ways_cat1 r z : ways (cat [r]) z = ways r z.
Proof.
  change (ways (cat [r]) z) with (flat_map (fun z => [z]) (ways r z)). induction (ways r z) as [|y l IHl]; [reflexivity|]. cbn [flat_map app]. rewrite IHl. reflexivity.
Qed.

Lemma reads_chr p : reads (fun w => exists c, w = [c] /\ p c = true) (ways (Chr p)).
Proof.
  intros b x z. cbn [RegexSpec.ways snd fst]. split.
  - destruct x as [|c x]; [contradiction|]. destruct (p c) eqn:E; [|contradiction]. intros [<-|[]]. exists [c], x. repeat split. exists c. auto.
  - intros (w & r & -> & (c & -> & E) & ->). cbn [app]. rewrite E. left. reflexivity.
Qed.

Lemma reads_maybe W r q : reads W (ways r) -> reads (fun w => (q = true /\ w = []) \/ W w) (ways (maybe q r)).
Proof.
  intros R b x z. destruct q; cbn [maybe].
  - cbn [RegexSpec.ways]. rewrite in_app_iff, (R b x z). split.
    + intros [(w & r0 & E & Hw & Ez)|[<-|[]]]; [exists w, r0; auto|]. exists [], x. auto.
    + intros (w & r0 & E & [[_ ->]|Hw] & Ez); [|left; exists w, r0; auto]. right. left. cbn in *. subst. reflexivity.
  - rewrite (R b x z). split; intros (w & r0 & E & H & Ez); exists w, r0; repeat split; auto. destruct H as [[H _]|H]; [discriminate|exact H].
Qed.

Lemma reads_alternate (Ws : list (str -> Prop)) rs : rs <> [] -> Forall2 (fun W r => reads W (ways r)) Ws rs -> reads (fun w => Exists (fun W => W w) Ws) (ways (alternate rs)).
Proof.
  intros N F. induction F as [|W r Ws rs R F IH]; [congruence|]. intros b x z. destruct rs as [|r2 rs].
  - inversion F; subst. cbn [alternate]. rewrite (R b x z). split; intros (w & r0 & E & H & Ez); exists w, r0; repeat split; auto.
    inversion H as [? ? H'|? ? H']; subst; [exact H'|inversion H'].
  - change (ways (alternate (r :: r2 :: rs)) (b, x)) with (ways r (b, x) ++ ways (alternate (r2 :: rs)) (b, x)).
    rewrite in_app_iff, (R b x z), (IH ltac:(discriminate) b x z). split.
    + intros [(w & r0 & E & H & Ez)|(w & r0 & E & H & Ez)]; exists w, r0; auto.
    + intros (w & r0 & E & H & Ez). inversion H; subst; [left|right]; exists w, r0; auto.
Qed.

Lemma reads_seq W1 W2 f1 f2 : reads W1 f1 -> reads W2 f2 -> reads (fun w => exists u v, w = u ++ v /\ W1 u /\ W2 v) (fun z => flat_map f2 (f1 z)).
Proof.
  intros R1 R2 b x z. rewrite in_flat_map. split.
  - intros (y & I1 & I2). apply R1 in I1. destruct I1 as (u & r1 & -> & H1 & ->). apply R2 in I2. destruct I2 as (v & r2 & -> & H2 & ->).
    exists (u ++ v), r2. rewrite rev_app_distr, <- !app_assoc. repeat split. exists u, v. auto.
  - intros (w & r & -> & (u & v & -> & H1 & H2) & ->). exists (rev u ++ b, v ++ r). split.
    + apply R1. exists u, (v ++ r). rewrite <- app_assoc. auto.
    + apply R2. exists v, r. rewrite rev_app_distr, <- app_assoc. auto.
Qed.

Lemma reads_ext W W' f f' : (forall w, W w <-> W' w) -> (forall z, f z = f' z) -> reads W f -> reads W' f'.
Proof.
  intros E Ef R b x z. rewrite <- Ef, (R b x z). split; intros (w & r & Ex & H & Ez); exists w, r; repeat split; auto; apply E; auto.
Qed.

Lemma reads_prims ps : reads (fun w => Forall2 (fun p c => den p c = true) ps w) (ways (cat (map (fun p => Chr (den p)) ps))).
Proof.
  induction ps as [|p ps IH].
  - intros b x z. cbn. split; [intros [<-|[]]; exists [], x; auto|]. intros (w & r & -> & H & ->). inversion H. left. reflexivity.
  - eapply reads_ext; [| |exact (reads_seq _ _ _ _ (reads_chr (den p)) IH)].
    + intros w. split.
      * intros (u & v & -> & (c & -> & E) & F). constructor; auto.
      * intros F. inversion F as [|? c ? v E F']; subst. exists [c], v. repeat split; auto. exists c. auto.
    + intros z. reflexivity.
Qed.

Lemma L_inv ps t w : L (Seq ps t) w <-> exists u v, w = u ++ v /\ Forall2 (fun p c => den p c = true) ps u /\ Lt t v.
Proof. split; [intros H; inversion H; subst; eauto|]. intros (u & v & -> & F & H). constructor; auto. Qed.

Lemma Lt_G_inv alts q v : Lt (G alts q) v <-> (q = true /\ v = []) \/ Exists (fun a => L a v) alts.
Proof.
  split.
  - intros H. inversion H; subst; auto. right. apply Exists_exists. eauto.
  - intros [[-> ->]|H]; [constructor|]. apply Exists_exists in H. destruct H as (a & I & H). econstructor; eauto.
Qed.
Lemma Lt_K_inv ks q v : Lt (K ks q) v <-> (q = true /\ v = []) \/ exists c, v = [c] /\ existsb (fun p => p c) (map den_set ks) = true.
Proof.
  split.
  - intros H. inversion H as [| |? | | |? ? k c I E|]; subst; auto. right. exists c. split; auto. apply existsb_exists. exists (den_set k). split; auto. apply in_map; auto.
  - intros [[-> ->]|(c & -> & H)]; [constructor|]. apply existsb_exists in H. destruct H as (p & I & E). apply in_map_iff in I. destruct I as (k & <- & I). econstructor; eauto.
Qed.
Lemma Lt_P_inv p q v : Lt (P p q) v <-> (q = true /\ v = []) \/ exists c, v = [c] /\ den p c = true.
Proof.
  split.
  - intros H. inversion H; subst; auto. right. eauto.
  - intros [[-> ->]|(c & -> & H)]; constructor; auto.
Qed.

Lemma reads_show s : ok s -> reads (L s) (ways (cat (rxs s))).
Proof.
  induction s as [ps t IH] using seq_ind'. intros O. cbn [RegexParse.rxs].
  eapply reads_ext; [|intros z; symmetry; apply ways_cat_app|].
  { intros w. symmetry. apply L_inv. }
  apply reads_seq; [apply reads_prims|]. inversion O as [?|? ks q Nk|? p q|? alts q Na Fa]; subst.
  - intros b x z. cbn. split; [intros [<-|[]]; exists [], x; repeat split; constructor|]. intros (w & r & -> & H & ->). inversion H. left. reflexivity.
  - eapply reads_ext; [intros w; symmetry; apply Lt_K_inv|intros z; symmetry; apply ways_cat1|]. apply reads_maybe. apply reads_chr.
  - eapply reads_ext; [intros w; symmetry; apply Lt_P_inv|intros z; symmetry; apply ways_cat1|]. apply reads_maybe. apply reads_chr.
  - eapply reads_ext; [intros w; symmetry; apply Lt_G_inv|intros z; symmetry; apply ways_cat1|]. apply reads_maybe.
    eapply reads_ext; [|reflexivity|apply (reads_alternate (map L alts))].
    + intros w. cbn beta. rewrite Exists_exists. split.
      * intros (W & I & H). apply in_map_iff in I. destruct I as (a & <- & I). apply Exists_exists. eauto.
      * intros H. apply Exists_exists in H. destruct H as (a & I & H). exists (L a). split; auto. apply in_map; auto.
    + destruct alts; [congruence|discriminate].
    + clear Na O. induction alts as [|a l IHl]; [constructor|]. inversion IH; subst. inversion Fa as [|? ? [_ Oa] Fa']; subst. cbn [map]. constructor; auto.
Qed.

(** ** The rules do not change what is matched *)
Inductive allp (Q : prim -> Prop) : seq -> Prop :=
| allp_seq ps t : Forall Q ps -> allpt Q t -> allp Q (Seq ps t)
with allpt (Q : prim -> Prop) : tail -> Prop :=
| allpt_nil : allpt Q Nil
| allpt_K ks q : Forall Q ks -> allpt Q (K ks q)
| allpt_P p q : Q p -> allpt Q (P p q)
| allpt_G alts q : (forall a, In a alts -> allp Q a) -> allpt Q (G alts q).

Section Pass.
Variable Q : prim -> Prop.
Variable hitG : list prim -> list seq -> hit.
Variable hitK : list prim -> list prim -> hit.
Hypothesis HG : forall ps alts f q, hitG ps alts = Some f -> allpt Q (G alts q) -> allpt Q (f q) /\ forall v, Lt (f q) v <-> Lt (G alts q) v.
Hypothesis HK : forall ps ks f q, hitK ps ks = Some f -> allpt Q (K ks q) -> allpt Q (f q) /\ forall v, Lt (f q) v <-> Lt (K ks q) v.

Lemma pass_lang s : allp Q s -> allp Q (pass hitG hitK s) /\ forall w, L (pass hitG hitK s) w <-> L s w.
Proof.
  induction s as [ps t IH] using seq_ind'. intros A. inversion A as [? ? Ap At]; subst. cbn [pass].
  match goal with |- allp Q (Seq ps ?t0) /\ _ => enough (X : allpt Q t0 /\ forall v, Lt t0 v <-> Lt t v) end.
  { destruct X as [X1 X2]. split; [constructor; auto|]. intros w. rewrite !L_inv. split; intros (u & v & -> & F & H); exists u, v; repeat split; auto; apply X2; auto. }
  destruct t as [|alts q|ks q|p q]; try (split; [auto|tauto]).
  - destruct (hitG ps alts) as [f|] eqn:E; [eapply HG; eauto|]. inversion At as [| | |? ? Aa]; subst.
    assert (Y : forall a, In a alts -> allp Q (pass hitG hitK a) /\ forall w, L (pass hitG hitK a) w <-> L a w).
    { intros a I. rewrite Forall_forall in IH. apply IH; auto. }
    split.
    + constructor. intros a I. apply in_map_iff in I. destruct I as (a' & <- & I). apply Y; auto.
    + intros v. rewrite !Lt_G_inv, !Exists_exists. split; (intros [H|(a & I & H)]; [auto|right]).
      * apply in_map_iff in I. destruct I as (a' & <- & I). exists a'. split; auto. apply Y; auto.
      * exists (pass hitG hitK a). split; [apply in_map; auto|]. apply Y; auto.
  - destruct (hitK ps ks) as [f|] eqn:E; [eapply HK; eauto|]. split; [auto|tauto].
Qed.
End Pass.

Definition no_dot (p : prim) : Prop := p <> PDot.

Lemma den_no_dot p : no_dot p -> den_set p = den p.
Proof. destruct p as [c|]; [reflexivity|]. intros N. destruct N. reflexivity. Qed.

Lemma L_one p v : L (Seq [p] Nil) v <-> exists c, v = [c] /\ den p c = true.
Proof.
  rewrite L_inv. split.
  - intros (u & w & -> & F & H). inversion H; subst. inversion F as [|? c ? ? E F']; subst. inversion F'; subst. exists c. auto.
  - intros (c & -> & E). exists [c], []. repeat split; [repeat constructor; auto|constructor].
Qed.

Lemma simpler_lang s : allp no_dot s -> forall w, L (simpler s) w <-> L s w.
Proof.
  intros A. unfold simpler.
  assert (X1 : allp no_dot (pass1 s) /\ forall w, L (pass1 s) w <-> L s w).
  { apply pass_lang; [|discriminate|exact A]. intros ps alts f q E Aa. unfold hitG1 in E. destruct (ends_bs ps); [discriminate|].
    destruct (simples alts) as [ks|] eqn:Es; [|discriminate]. injection E as <-. destruct (simples_show _ _ Es) as (_ & -> & _).
    inversion Aa as [| | |? ? Ab]; subst.
    assert (Fk : Forall no_dot ks).
    { apply Forall_forall. intros k I. specialize (Ab (Seq [k] Nil) (in_map (fun p => Seq [p] Nil) _ _ I)). inversion Ab as [? ? Ap _]; subst. apply Forall_inv in Ap. exact Ap. }
    split; [constructor; exact Fk|]. intros v. rewrite Lt_K_inv, Lt_G_inv, Exists_exists. rewrite Forall_forall in Fk. split; (intros [H|H]; [auto|right]).
    - destruct H as (c & -> & H). apply existsb_exists in H. destruct H as (p & I & E). apply in_map_iff in I. destruct I as (k & <- & I).
      exists (Seq [k] Nil). split; [apply (in_map (fun p => Seq [p] Nil)); auto|]. apply L_one. exists c. split; auto. rewrite <- den_no_dot; auto.
    - destruct H as (a & I & H). apply in_map_iff in I. destruct I as (k & <- & I). apply L_one in H. destruct H as (c & -> & E). exists c. split; auto.
      apply existsb_exists. exists (den_set k). split; [apply in_map; auto|]. rewrite den_no_dot; auto. }
  destruct X1 as [A1 X1].
  assert (X4 : allp no_dot (pass4 (pass1 s)) /\ forall w, L (pass4 (pass1 s)) w <-> L (pass1 s) w).
  { apply pass_lang; [discriminate| |exact A1]. intros ps ks f q E Ak. unfold hitK4 in E. destruct ks as [|p [|]]; try discriminate.
    destruct (ends_bs ps || is_nl p); [discriminate|]. injection E as <-. inversion Ak as [|? ? Fk| |]; subst. apply Forall_inv in Fk.
    split; [constructor; exact Fk|]. intros v. rewrite Lt_K_inv, Lt_P_inv. cbn [map existsb]. rewrite den_no_dot by exact Fk.
    split; (intros [H|(c & -> & H)]; [auto|right; exists c; split; auto]); rewrite ?orb_false_r in *; auto. }
  destruct X4 as [A4 X4].
  assert (X5 : allp no_dot (pass5 (pass4 (pass1 s))) /\ forall w, L (pass5 (pass4 (pass1 s))) w <-> L (pass4 (pass1 s)) w).
  { apply pass_lang; [|discriminate|exact A4]. intros ps alts f q E Aa. unfold hitG5 in E. destruct alts as [|a [|]]; try discriminate.
    destruct (simple a) as [p|] eqn:Es; [|discriminate]. injection E as <-. apply simple_show in Es. destruct Es as (-> & _ & _).
    inversion Aa as [| | |? ? Ab]; subst. specialize (Ab _ (or_introl eq_refl)). inversion Ab as [? ? Ap _]; subst. apply Forall_inv in Ap.
    split; [constructor; exact Ap|]. intros v. rewrite Lt_P_inv, Lt_G_inv. split; (intros [H|H]; [auto|right]).
    - constructor. apply L_one. exact H.
    - inversion H as [? ? H'|? ? H']; subst; [|inversion H']. apply L_one. exact H'. }
  intros w. rewrite (proj2 X5), X4, X1. tauto.
Qed.

(** ** The trie *)
Section Trie.
Context {V : Type}.
Variable prims_of : str -> list prim.
Variable prims_nonempty : forall k, k <> [] -> prims_of k <> [].
Notation build := (@build V prims_of).

Inductive full_tokens : node str V -> Prop :=
| full_node v cs : Forall (fun kc => fst kc <> [] /\ full_tokens (snd kc)) cs -> full_tokens (Node v cs).

Lemma add_heads ps s : ps <> [] -> heads (add ps s) <> [].
Proof. destruct s. cbn. destruct ps; [congruence|discriminate]. Qed.
Lemma add_ok ps s : ok s -> ok (add ps s).
Proof. intros O. inversion O; subst; cbn [add]; constructor; auto. Qed.

Lemma build_ok n : full_tokens n -> ok (build n).
Proof.
  induction n as [v cs IH] using node_ind'. intros F. inversion F as [? ? Fc]; subst. cbn [RegexTree.build].
  set (alts := map (fun kc => add (prims_of (fst kc)) (build (snd kc))) cs).
  assert (A : Forall (fun a => heads a <> [] /\ ok a) alts).
  { unfold alts. apply Forall_map. rewrite Forall_forall in *. intros kc I. destruct (Fc _ I) as [N Ff]. split.
    - apply add_heads. apply prims_nonempty. exact N.
    - apply add_ok. apply IH; auto. }
  assert (G1 : forall q, alts <> [] -> ok (Seq [] (G (rev alts) q))).
  { intros q N. constructor.
    - intros E. apply N. rewrite <- (rev_involutive alts), E. reflexivity.
    - apply Forall_rev. exact A. }
  destruct alts as [|a [|a2 al]] eqn:Ea; destruct v; try (constructor; fail); try (apply G1; discriminate).
  apply Forall_inv in A. apply A.
Qed.

Lemma L_add ps s w : L (add ps s) w <-> exists u v, w = u ++ v /\ Forall2 (fun p c => den p c = true) ps u /\ L s v.
Proof.
  destruct s as [ps' t]. cbn [add]. rewrite L_inv. split.
  - intros (u & v & -> & F & H). apply Forall2_app_inv_l in F. destruct F as (u1 & u2 & F1 & F2 & ->). exists u1, (u2 ++ v). rewrite <- app_assoc. split; [reflexivity|]. split; [exact F1|].
    apply L_inv. eauto.
  - intros (u & v & -> & F & H). apply L_inv in H. destruct H as (u2 & v2 & -> & F2 & H). exists (u ++ u2), v2. rewrite <- app_assoc. split; [reflexivity|]. split; [|exact H].
    apply Forall2_app; auto.
Qed.

Definition key_matches (ts : list str) (w : str) : Prop := Forall2 (fun p c => den p c = true) (flat_map prims_of ts) w.

Lemma build_lang n : wf n -> live n -> forall w, L (build n) w <-> exists ts, look ts n <> None /\ key_matches ts w.
Proof.
  induction n as [v cs IH] using node_ind'. intros W Lv. 
  assert (Hc : forall k c, In (k, c) cs -> forall w, L (add (prims_of k) (build c)) w <-> exists ts, look ts c <> None /\ key_matches (k :: ts) w).
  { intros k c I w. assert (D : dget k cs = Some c). { apply wf_split in W. apply In_dget; [apply W|exact I]. }
    rewrite Forall_forall in IH. specialize (IH (k, c) I). cbn [snd] in IH.
    assert (Wc : wf c) by (eapply wf_child; [exact W|exact D]).
    assert (Lc : live c). { apply live_split in Lv. eapply live_child; [apply (proj2 Lv)|exact D]. }
    rewrite L_add. unfold key_matches. cbn [flat_map]. split.
    - intros (u & x & -> & F & H). apply IH in H; auto. destruct H as (ts & Hl & Hk). exists ts. split; auto. apply Forall2_app; auto.
    - intros (ts & Hl & Hk). apply Forall2_app_inv_l in Hk. destruct Hk as (u & x & F & Hk & ->). exists u, x. repeat split; auto. apply IH; eauto. }
  set (alts := map (fun kc => add (prims_of (fst kc)) (build (snd kc))) cs).
  assert (Ha : forall w, Exists (fun a => L a w) alts <-> exists k ts, look (k :: ts) (Node v cs) <> None /\ key_matches (k :: ts) w).
  { intros w. rewrite Exists_exists. unfold alts. split.
    - intros (a & I & H). apply in_map_iff in I. destruct I as ([k c] & <- & I). cbn [fst snd] in H. apply (Hc k c I) in H. destruct H as (ts & Hl & Hk).
      exists k, ts. split; auto. rewrite look_cons. cbn [children]. assert (D : dget k cs = Some c). { apply wf_split in W. apply In_dget; [apply W|exact I]. }
      rewrite D. exact Hl.
    - intros (k & ts & Hl & Hk). rewrite look_cons in Hl. cbn [children] in Hl. destruct (dget k cs) as [c|] eqn:D; [|congruence]. apply dget_In in D.
      exists (add (prims_of k) (build c)). split; [apply in_map_iff; exists (k, c); auto|]. apply (Hc k c D). eauto. }
  assert (Hs : forall w, (exists ts, look ts (Node v cs) <> None /\ key_matches ts w) <-> (terminal v = true /\ w = []) \/ Exists (fun a => L a w) alts).
  { intros w. rewrite Ha. split.
    - intros (ts & Hl & Hk). destruct ts as [|k ts]; [left|right; eauto]. rewrite look_nil in Hl. cbn [value] in Hl. split; [destruct v; [reflexivity|congruence]|]. inversion Hk. reflexivity.
    - intros [[E ->]|(k & ts & Hl & Hk)]; [|eauto]. exists []. split; [|constructor]. rewrite look_nil. cbn [value]. destruct v; [discriminate|discriminate]. }
  intros w. rewrite Hs. cbn [RegexTree.build]. fold alts.
  assert (HGq : forall q, L (Seq [] (G (rev alts) q)) w <-> (q = true /\ w = []) \/ Exists (fun a => L a w) alts).
  { intros q. rewrite L_inv. split.
    - intros (u & x & -> & F & H). inversion F; subst. cbn [app]. apply Lt_G_inv in H. destruct H as [H|H]; auto. right. apply Exists_exists in H. destruct H as (a & I & H).
      apply Exists_exists. exists a. split; auto. apply in_rev. exact I.
    - intros H. exists [], w. repeat split; auto. apply Lt_G_inv. destruct H as [H|H]; auto. right. apply Exists_exists in H. destruct H as (a & I & H).
      apply Exists_exists. exists a. split; auto. rewrite <- in_rev. exact I. }
  destruct alts as [|a [|a2 al]] eqn:Ea.
  - assert (Ec : cs = []). { destruct cs; [reflexivity|discriminate]. } subst cs.
    assert (Ev : terminal v = true). { apply live_split in Lv. destruct Lv as [[Hv|Hv] _]; [|cbn in Hv; congruence]. cbn [value] in Hv. destruct v; [reflexivity|congruence]. }
    assert (X : L (Seq [] Nil) w <-> w = []). { rewrite L_inv. split; [intros (u & x & -> & F & H); inversion F; inversion H; reflexivity|]. intros ->. exists [], []. repeat split; constructor. }
    destruct v; [|discriminate]; rewrite X; (split; [auto|]); intros [[_ H]|H]; auto; inversion H.
  - destruct v as [v|]; [apply HGq|]. cbn [terminal]. split; [intros H; right; constructor; exact H|]. intros [[H _]|H]; [discriminate|].
    inversion H as [? ? H'|? ? H']; subst; [exact H'|inversion H'].
  - destruct v as [v|]; apply HGq.
Qed.

(** Characters of the tree come from the keys. *)
Lemma build_allp (Q : prim -> Prop) (n : node str V) : wf n -> live n -> (forall ts k p, look ts n <> None -> In k ts -> In p (prims_of k) -> Q p) -> allp Q (build n).
Proof.
  induction n as [v cs IH] using node_ind'. intros W Lv HQ.
  set (alts := map (fun kc => add (prims_of (fst kc)) (build (snd kc))) cs).
  assert (Ha : forall a, In a alts -> allp Q a).
  { intros a I. apply in_map_iff in I. destruct I as ([k c] & <- & I). cbn [fst snd].
    assert (D : dget k cs = Some c). { apply wf_split in W. apply In_dget; [apply W|exact I]. }
    assert (Wc : wf c) by (eapply wf_child; [exact W|exact D]).
    assert (Lc : live c). { apply live_split in Lv. eapply live_child; [apply (proj2 Lv)|exact D]. }
    rewrite Forall_forall in IH. specialize (IH (k, c) I Wc Lc). cbn [snd] in IH.
    assert (A : allp Q (build c)). { apply IH. intros ts k' p Hl Ik Ip. apply (HQ (k :: ts) k' p); [|right; auto|auto]. rewrite look_cons. cbn [children]. rewrite D. exact Hl. }
    destruct (live_has c Lc) as (ts & Hl).
    destruct (build c) as [ps t]. inversion A as [? ? Ap At]; subst. cbn [add]. constructor; auto. apply Forall_app. split; auto.
    apply Forall_forall. intros p Ip. apply (HQ (k :: ts) k p); [|left; auto|auto]. rewrite look_cons. cbn [children]. rewrite D. exact Hl. }
  cbn [RegexTree.build]. fold alts.
  assert (HGq : forall q, allp Q (Seq [] (G (rev alts) q))).
  { intros q. constructor; [constructor|]. constructor. intros a I. apply Ha. apply in_rev. exact I. }
  destruct alts as [|a [|a2 al]] eqn:Ea; destruct v as [v|]; try apply HGq; try (constructor; constructor).
  apply Ha. left. reflexivity.
Qed.
End Trie.
End Lang.
