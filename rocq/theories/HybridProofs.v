(** [emd_1d_hybrid] and [emd_1d_old] compute the earth mover's distance. *)
From Coq Require Import ZArith QArith Qcanon List Permutation Sorted Lia Bool.
From Verif Require Import Num Py EmdSpec EmdModel EmdProofs EmdSlowProofs HybridModel FlowProofs GreedyProofs.
Import ListNotations.
Open Scope Qc_scope.

(** ** Enumeration *)
Fixpoint enum {A} (k : Z) (l : list A) : list (Z * A) :=
  match l with [] => [] | e :: l' => (k, e) :: enum (k + 1) l' end.

Lemma zlen_cons {A} (a : A) l : zlen (a :: l) = (zlen l + 1)%Z.
Proof. unfold zlen. simpl length. lia. Qed.
Lemma zlen_app {A} (l1 l2 : list A) : zlen (l1 ++ l2) = (zlen l1 + zlen l2)%Z.
Proof. unfold zlen. rewrite app_length. lia. Qed.
Lemma zlen_nil {A} : zlen (@nil A) = 0%Z. Proof. reflexivity. Qed.
Lemma zlen_0 {A} (l : list A) : zlen l = 0%Z -> l = [].
Proof. unfold zlen. destruct l; simpl; auto; lia. Qed.

Lemma enum_app {A} (l1 l2 : list A) k : enum k (l1 ++ l2) = enum k l1 ++ enum (k + zlen l1) l2.
Proof.
  revert k; induction l1 as [|a l1 IH]; intros k; simpl.
  - rewrite zlen_nil. f_equal. lia.
  - rewrite IH, zlen_cons. f_equal. f_equal. f_equal. lia.
Qed.
Lemma enum_combine {A} (l : list A) : combine (py_range 0 (zlen l)) l = enum 0 l.
Proof.
  assert (H : forall k, combine (map Z.of_nat (seq k (length l))) l = enum (Z.of_nat k) l).
  { induction l as [|a l IH]; intros k; simpl; auto. rewrite IH. f_equal. f_equal. lia. }
  unfold zlen. change 0%Z with (Z.of_nat 0) at 1. rewrite <- (Z.add_0_l (Z.of_nat (length l))).
  change 0%Z with (Z.of_nat 0) at 2. rewrite py_range_nat. apply H.
Qed.
Lemma enum_in {A} (l : list A) k e : In e (enum k l) -> (k <= fst e < k + zlen l)%Z.
Proof.
  revert k; induction l as [|a l IH]; intros k; simpl; [contradiction|]. rewrite zlen_cons.
  pose proof (zlen_nonneg l). intros [<-|H1]; [simpl; lia|]. apply IH in H1. lia.
Qed.
Lemma enum_map_snd {A} (l : list A) k : map snd (enum k l) = l.
Proof. revert k; induction l; intros k; simpl; auto. f_equal. auto. Qed.
Lemma filter_none {A} (p : A -> bool) l : (forall a, In a l -> p a = false) -> filter p l = [].
Proof. induction l; simpl; intros H; auto. rewrite H by auto. auto. Qed.

(** ** The counters *)
Definition cstep (n : Z) (b : bool) : Z := if b then (n + 1)%Z else if (0 <? n)%Z then (n - 1)%Z else n.
Definition fwc (l : list point) : Z := fold_left (fun n e => cstep n (snd e)) l 0%Z.
Fixpoint bwc (l : list point) : Z := match l with [] => 0%Z | e :: l' => cstep (bwc l') (snd e) end.

Lemma fold_cstep l : forall n, (0 <= n)%Z ->
  (0 <= fold_left (fun n (e : point) => cstep n (snd e)) l n /\
   n + net l <= fold_left (fun n (e : point) => cstep n (snd e)) l n)%Z.
Proof.
  induction l as [|[q b] l IH]; intros n Hn; simpl; [lia|].
  assert (0 <= cstep n b)%Z by (unfold cstep; destruct b; [lia|destruct (0 <? n)%Z eqn:E; lia]).
  specialize (IH (cstep n b) H). unfold cstep in *. destruct b; [lia|].
  destruct (0 <? n)%Z eqn:E; [lia|]. apply Z.ltb_ge in E. lia.
Qed.
Lemma fwc_nonneg l : (0 <= fwc l)%Z. Proof. apply fold_cstep. lia. Qed.
Lemma fwc_ok l : (fwc l <= 0)%Z -> suffix_ok l.
Proof.
  intros H l1 l2 ->.
  assert (E : fwc (l1 ++ l2) = fold_left (fun n (e : point) => cstep n (snd e)) l2 (fwc l1)) by apply fold_left_app.
  pose proof (fwc_nonneg l1) as N. destruct (fold_cstep l2 (fwc l1) N) as [_ M]. rewrite <- E in M. lia.
Qed.
Lemma bwc_nonneg l : (0 <= bwc l)%Z.
Proof.
  induction l as [|[q b] l IH]; simpl; [lia|]. unfold cstep. destruct b; [lia|destruct (0 <? bwc l)%Z eqn:E; lia].
Qed.
Lemma bwc_ok l : (bwc l <= 0)%Z -> prefix_ok l.
Proof.
  assert (H : forall l1 l2, (net l1 <= bwc (l1 ++ l2))%Z).
  { intros l1 l2. induction l1 as [|[q b] l1 IH]; simpl; [apply bwc_nonneg|].
    pose proof (bwc_nonneg (l1 ++ l2)). unfold cstep.
    destruct b; [lia|destruct (0 <? bwc (l1 ++ l2))%Z eqn:E; [lia|]]. lia. }
  intros B l1 l2 ->. specialize (H l1 l2). lia.
Qed.

(** ** The ranges *)
Definition covered (R : list (Z * Z)) (j : Z) : Prop := exists l r, In (l, r) R /\ (l < j <= r)%Z.
Definition inside (R : list (Z * Z)) (j : Z) : Prop := exists l r, In (l, r) R /\ (l <= j <= r)%Z.

Lemma covered_app_l R R' j : covered R j -> covered (R ++ R') j.
Proof. intros (l & r & H & ?). exists l, r. rewrite in_app_iff. auto. Qed.
Lemma covered_app_r R R' j : covered R' j -> covered (R ++ R') j.
Proof. intros (l & r & H & ?). exists l, r. rewrite in_app_iff. auto. Qed.
Lemma inside_app_l R R' j : inside R j -> inside (R ++ R') j.
Proof. intros (l & r & H & ?). exists l, r. rewrite in_app_iff. auto. Qed.
Lemma inside_app_r R R' j : inside R' j -> inside (R ++ R') j.
Proof. intros (l & r & H & ?). exists l, r. rewrite in_app_iff. auto. Qed.
Lemma covered_one l r j : (l < j <= r)%Z -> covered [(l, r)] j.
Proof. exists l, r. simpl. auto. Qed.
Lemma inside_one l r j : (l <= j <= r)%Z -> inside [(l, r)] j.
Proof. exists l, r. simpl. auto. Qed.
#[local] Hint Resolve covered_app_l covered_app_r inside_app_l inside_app_r covered_one inside_one : cov.

Definition finv (P : list point) (s : scan) : Prop :=
  let '(n, cur, R) := s in
  n = fwc P /\
  match cur with None => n = 0%Z | Some l => (0 < n /\ 0 <= l < zlen P)%Z end /\
  (forall l r, In (l, r) R -> (0 <= l <= r /\ r < zlen P)%Z) /\
  (forall P1 P2, P = P1 ++ P2 -> (0 < fwc P1)%Z ->
     covered R (zlen P1) \/ exists l, cur = Some l /\ (l < zlen P1)%Z) /\
  (forall P1 q P2, P = P1 ++ (q, true) :: P2 ->
     inside R (zlen P1) \/ exists l, cur = Some l /\ (l <= zlen P1)%Z).

Lemma app_snoc_cases {A} (l l1 l2 : list A) a : l ++ [a] = l1 ++ l2 ->
  (l2 = [] /\ l1 = l ++ [a]) \/ exists l2', l2 = l2' ++ [a] /\ l = l1 ++ l2'.
Proof.
  destruct l2 as [|b l2] using rev_ind; intros H.
  - left. rewrite app_nil_r in H. auto.
  - right. rewrite app_assoc in H. apply app_inj_tail in H. destruct H as [-> ->]. eauto.
Qed.

Lemma finv_step P s e : finv P s -> finv (P ++ [e]) (scan_fwd s (zlen P) (snd e)).
Proof.
  destruct s as [[n cur] R], e as [q b]. intros (Hn & Hc & HR & HC & HY). cbn [snd].
  pose proof (zlen_nonneg P) as LP.
  assert (F : fwc (P ++ [(q, b)]) = cstep n b) by (rewrite Hn; unfold fwc; rewrite fold_left_app; reflexivity).
  assert (LS : zlen (P ++ [(q, b)]) = (zlen P + 1)%Z) by (rewrite zlen_app; reflexivity).
  assert (N0 : (0 <= n)%Z) by (rewrite Hn; apply fwc_nonneg).
  assert (SPL1 : forall P1 P2, P ++ [(q, b)] = P1 ++ P2 -> P1 = P ++ [(q, b)] \/ exists P2', P = P1 ++ P2').
  { intros P1 P2 H. destruct (app_snoc_cases _ _ _ _ H) as [[_ ?]|(l & _ & ?)]; eauto. }
  assert (SPL2 : forall P1 q' P2, P ++ [(q, b)] = P1 ++ (q', true) :: P2 -> (P1 = P /\ b = true) \/ exists P2', P = P1 ++ (q', true) :: P2').
  { intros P1 q' P2 H. destruct (app_snoc_cases _ _ _ _ H) as [[? _]|(l & E & ?)]; [discriminate|].
    destruct l as [|e l]; simpl in E.
    - inversion E; subst. rewrite app_nil_r. auto.
    - inversion E; subst. right. exists l. reflexivity. }
  unfold scan_fwd. destruct b; cbn [cstep] in F; [|unfold cstep in F; destruct (0 <? n)%Z eqn:E0; [destruct (n - 1 =? 0)%Z eqn:E1|]].
  - (* y *)
    cbv beta iota delta [finv]. rewrite F, LS. split; [auto|].
    split; [destruct cur; lia|]. split; [intros l r H; apply HR in H; lia|]. split.
    + intros P1 P2 H H1. destruct (SPL1 _ _ H) as [->|(P2' & ->)].
      * right. rewrite LS. destruct cur as [l|]; eexists; split; try reflexivity; lia.
      * destruct (HC P1 P2' eq_refl H1) as [?|(l & -> & ?)]; [left; auto|right; eauto].
    + intros P1 q' P2 H. destruct (SPL2 _ _ _ H) as [[-> _]|(P2' & ->)].
      * right. destruct cur as [l|]; eexists; split; try reflexivity; lia.
      * destruct (HY P1 q' P2' eq_refl) as [?|(l & -> & ?)]; [left; auto|right; eauto].
  - (* closing *)
    apply Z.ltb_lt in E0. apply Z.eqb_eq in E1. destruct cur as [l0|]; [|lia].
    cbv beta iota delta [finv]. rewrite F, LS. split; [auto|]. split; [lia|].
    split; [intros l r H; apply in_app_iff in H; destruct H as [H|[H|[]]]; [apply HR in H; lia|inversion H; subst; lia]|]. split.
    + intros P1 P2 H H1. left. destruct (SPL1 _ _ H) as [->|(P2' & ->)]; [lia|].
      destruct (HC P1 P2' eq_refl H1) as [?|(l & E & ?)]; [auto with cov|]. inversion E; subst.
      apply covered_app_r, covered_one. rewrite zlen_app. pose proof (zlen_nonneg P2'). lia.
    + intros P1 q' P2 H. left. destruct (SPL2 _ _ _ H) as [[_ ?]|(P2' & ->)]; [discriminate|].
      destruct (HY P1 q' P2' eq_refl) as [?|(l & E & ?)]; [auto with cov|]. inversion E; subst.
      apply inside_app_r, inside_one. rewrite zlen_app. pose proof (zlen_nonneg ((q', true) :: P2')). lia.
  - (* an x that does not close *)
    cbv beta iota delta [finv]. rewrite F, LS. apply Z.ltb_lt in E0. apply Z.eqb_neq in E1. destruct cur as [l0|]; [|lia].
    split; [auto|]. split; [lia|]. split; [intros l r H; apply HR in H; lia|]. split.
    + intros P1 P2 H H1. destruct (SPL1 _ _ H) as [->|(P2' & ->)].
      * right. exists l0. split; auto. rewrite LS. lia.
      * exact (HC P1 P2' eq_refl H1).
    + intros P1 q' P2 H. destruct (SPL2 _ _ _ H) as [[_ ?]|(P2' & ->)]; [discriminate|]. exact (HY P1 q' P2' eq_refl).
  - (* an x outside *)
    cbv beta iota delta [finv]. rewrite F, LS. apply Z.ltb_ge in E0. 
    split; [auto|]. split; [destruct cur; lia|]. split; [intros l r H; apply HR in H; lia|]. split.
    + intros P1 P2 H H1. destruct (SPL1 _ _ H) as [->|(P2' & ->)]; [lia|]. exact (HC P1 P2' eq_refl H1).
    + intros P1 q' P2 H. destruct (SPL2 _ _ _ H) as [[_ ?]|(P2' & ->)]; [discriminate|]. exact (HY P1 q' P2' eq_refl).
Qed.

Lemma finv_fold rest : forall P s, finv P s ->
  finv (P ++ rest) (fold_left (fun s e => scan_fwd s (fst e) (snd (snd e))) (enum (zlen P) rest) s).
Proof.
  induction rest as [|e rest IH]; intros P s H; simpl.
  - rewrite app_nil_r. auto.
  - specialize (IH (P ++ [e]) _ (finv_step P s e H)). rewrite <- app_assoc in IH.
    replace (zlen (P ++ [e])) with (zlen P + 1)%Z in IH by (rewrite zlen_app; reflexivity). exact IH.
Qed.

Lemma forward_ranges_spec L :
  (forall l r, In (l, r) (forward_ranges L) -> (0 <= l <= r /\ r < zlen L)%Z) /\
  (forall P1 P2, L = P1 ++ P2 -> P2 <> [] -> (0 < fwc P1)%Z -> covered (forward_ranges L) (zlen P1)) /\
  (forall P1 q P2, L = P1 ++ (q, true) :: P2 -> inside (forward_ranges L) (zlen P1)).
Proof.
  assert (I : finv [] (0%Z, None, [])).
  { repeat split; auto; try contradiction.
    - intros P1 P2 H H1. symmetry in H. apply app_eq_nil in H. destruct H as [-> _]. cbv in H1. discriminate.
    - intros P1 q P2 H. symmetry in H. apply app_eq_nil in H. destruct H. discriminate. }
  apply (finv_fold L) in I. cbn [app] in I. rewrite zlen_nil in I.
  unfold forward_ranges. rewrite enum_combine. destruct (fold_left _ _ _) as [[n cur] R].
  destruct I as (Hn & Hc & HR & HC & HY). destruct cur as [l0|].
  - split; [|split].
    + intros l r H. apply in_app_iff in H. destruct H as [H|[H|[]]]; [apply HR in H; auto|]. inversion H; subst. lia.
    + intros P1 P2 -> H2 H1. destruct (HC P1 P2 eq_refl H1) as [?|(l & E & ?)]; [auto with cov|].
      inversion E; subst. apply covered_app_r, covered_one. rewrite zlen_app.
      assert (0 < zlen P2)%Z by (unfold zlen; destruct P2; [congruence|simpl length; lia]). lia.
    + intros P1 q P2 ->. destruct (HY P1 q P2 eq_refl) as [?|(l & E & ?)]; [auto with cov|].
      inversion E; subst. apply inside_app_r, inside_one. rewrite zlen_app, zlen_cons. pose proof (zlen_nonneg P2). lia.
  - split; [auto|split].
    + intros P1 P2 -> H2 H1. destruct (HC P1 P2 eq_refl H1) as [?|(l & E & ?)]; [auto|discriminate].
    + intros P1 q P2 ->. destruct (HY P1 q P2 eq_refl) as [?|(l & E & ?)]; [auto|discriminate].
Qed.

Lemma backward_fold l : forall k,
  let '(n, cur, R) := fold_right (fun e s => scan_bwd s (fst e) (snd (snd e))) (0%Z, None, []) (enum k l) in
  n = bwc l /\
  match cur with None => n = 0%Z | Some r => (0 < n /\ k <= r < k + zlen l)%Z end /\
  (forall a r, In (a, r) R -> (k <= a <= r /\ r < k + zlen l)%Z) /\
  (forall P1 P2, l = P1 ++ P2 -> (0 < bwc P2)%Z ->
     covered R (k + zlen P1) \/ exists r, cur = Some r /\ (k + zlen P1 <= r)%Z).
Proof.
  induction l as [|[q b] l IH]; intros k; simpl.
  - repeat split; auto; try contradiction.
    intros P1 P2 H H1. symmetry in H. apply app_eq_nil in H. destruct H as [_ ->]. cbv in H1. discriminate.
  - specialize (IH (k + 1)%Z). destruct (fold_right _ _ _) as [[n cur] R]. destruct IH as (Hn & Hc & HR & HC).
    pose proof (zlen_nonneg l) as Ll. assert (N0 := bwc_nonneg l). rewrite <- Hn in N0.
    assert (SPL : forall P1 P2, (q, b) :: l = P1 ++ P2 -> (P1 = [] /\ P2 = (q, b) :: l) \/ exists P1', P1 = (q, b) :: P1' /\ l = P1' ++ P2).
    { intros [|e P1] P2 H; [left; auto|]. inversion H; subst. right. eauto. }
    assert (LK : forall P1' : list point, (k + zlen ((q, b) :: P1') = k + 1 + zlen P1')%Z) by (intros; rewrite zlen_cons; lia).
    rewrite zlen_cons. unfold scan_bwd, cstep. cbn [fst snd]. rewrite <- Hn.
    destruct b; [|destruct (0 <? n)%Z eqn:E0; [destruct (n - 1 =? 0)%Z eqn:E1|]].
    + split; [auto|]. split; [destruct cur; lia|]. split; [intros a r H; apply HR in H; lia|].
      intros P1 P2 H H1. destruct (SPL _ _ H) as [[-> ->]|(P1' & -> & ->)].
      * right. rewrite zlen_nil. destruct cur as [r|]; eexists; split; try reflexivity; lia.
      * rewrite LK. destruct (HC P1' P2 eq_refl H1) as [?|(r & -> & ?)]; [left; auto|right; eauto].
    + apply Z.ltb_lt in E0. apply Z.eqb_eq in E1. destruct cur as [r0|]; [|lia].
      split; [auto|]. split; [lia|].
      split; [intros a r H; apply in_app_iff in H; destruct H as [H|[H|[]]]; [apply HR in H; lia|inversion H; subst; lia]|].
      intros P1 P2 H H1. left. destruct (SPL _ _ H) as [[-> ->]|(P1' & -> & ->)].
      * exfalso. cbn [bwc snd] in H1. unfold cstep in H1. rewrite <- Hn in H1. destruct (0 <? n)%Z eqn:E; lia.
      * rewrite LK. destruct (HC P1' P2 eq_refl H1) as [?|(r & E & ?)]; [auto with cov|]. inversion E; subst.
        apply covered_app_r, covered_one. pose proof (zlen_nonneg P1'). lia.
    + apply Z.ltb_lt in E0. apply Z.eqb_neq in E1. destruct cur as [r0|]; [|lia].
      split; [auto|]. split; [lia|]. split; [intros a r H; apply HR in H; lia|].
      intros P1 P2 H H1. destruct (SPL _ _ H) as [[-> ->]|(P1' & -> & ->)].
      * right. exists r0. split; auto. rewrite zlen_nil. lia.
      * rewrite LK. exact (HC P1' P2 eq_refl H1).
    + apply Z.ltb_ge in E0. split; [auto|]. split; [destruct cur; lia|]. split; [intros a r H; apply HR in H; lia|].
      intros P1 P2 H H1. destruct (SPL _ _ H) as [[-> ->]|(P1' & -> & ->)].
      * exfalso. cbn [bwc snd] in H1. unfold cstep in H1. rewrite <- Hn in H1. destruct (0 <? n)%Z eqn:E; lia.
      * rewrite LK. exact (HC P1' P2 eq_refl H1).
Qed.

Lemma backward_ranges_spec L :
  (forall l r, In (l, r) (backward_ranges L) -> (0 <= l <= r /\ r < zlen L)%Z) /\
  (forall P1 P2, L = P1 ++ P2 -> P1 <> [] -> (0 < bwc P2)%Z -> covered (backward_ranges L) (zlen P1)).
Proof.
  pose proof (backward_fold L 0) as I. unfold backward_ranges. rewrite enum_combine.
  rewrite <- fold_left_rev_right, rev_involutive. destruct (fold_right _ _ _) as [[n cur] R].
  destruct I as (Hn & Hc & HR & HC). destruct cur as [r0|].
  - split.
    + intros l r H. apply in_app_iff in H. destruct H as [H|[H|[]]]; [apply HR in H; auto|]. inversion H; subst. lia.
    + intros P1 P2 -> H2 H1. destruct (HC P1 P2 eq_refl H1) as [?|(r & E & ?)]; [auto with cov|].
      inversion E; subst. apply covered_app_r, covered_one.
      assert (0 < zlen P1)%Z by (unfold zlen; destruct P1; [congruence|simpl length; lia]). lia.
  - split; [intros l r H; apply HR in H; auto|].
    intros P1 P2 -> H2 H1. destruct (HC P1 P2 eq_refl H1) as [?|(r & E & ?)]; [auto|discriminate].
Qed.

(** ** Merging *)
Fixpoint chain (n last : Z) (cs : list (Z * Z)) : Prop :=
  match cs with
  | [] => True
  | (lo, hi) :: cs' => (last < lo <= hi /\ hi < n)%Z /\ chain n hi cs'
  end.
Definition contained (R C : list (Z * Z)) : Prop :=
  forall l r, In (l, r) R -> exists lo hi, In (lo, hi) C /\ (lo <= l /\ r <= hi)%Z.

Lemma merge_ranges_spec n rest : forall cur last,
  (last < fst cur <= snd cur /\ snd cur < n)%Z ->
  Forall (fun c => fst cur <= fst c <= snd c /\ snd c < n)%Z rest ->
  StronglySorted (fun a b => fst a <= fst b)%Z rest ->
  chain n last (merge_ranges cur rest) /\ contained (cur :: rest) (merge_ranges cur rest).
Proof.
  induction rest as [|[l r] rest IH]; intros [cl cr] last H1 H2 H3; cbn [merge_ranges fst snd] in *.
  - split; [simpl; auto|]. intros a b [E|[]]. inversion E; subst. exists a, b. split; [left; auto|lia].
  - apply StronglySorted_inv in H3. destruct H3 as [S3 F3]. inversion H2 as [|? ? H4 H5]; subst. cbn [fst snd] in *.
    destruct (l <=? cr)%Z eqn:E.
    + destruct (IH (cl, Z.max cr r) last) as [I1 I2]; cbn [fst snd]; auto; [lia|].
      split; auto. intros a b [Ea|[Ea|Ea]].
      * inversion Ea; subst. destruct (I2 a (Z.max b r)) as (lo & hi & ? & ?); [left; auto|]. exists lo, hi. split; auto; lia.
      * inversion Ea; subst. destruct (I2 cl (Z.max cr b)) as (lo & hi & ? & ?); [left; auto|]. exists lo, hi. split; auto; lia.
      * destruct (I2 a b) as (lo & hi & ? & ?); [right; auto|]. eauto.
    + apply Z.leb_gt in E. destruct (IH (l, r) cr) as [I1 I2]; cbn [fst snd]; auto; [lia| |].
      { rewrite Forall_forall in *. intros c Hc. specialize (F3 c Hc). specialize (H5 c Hc). lia. }
      split; [cbn [chain]; split; [lia|auto]|]. intros a b [Ea|Ea].
      * inversion Ea; subst. exists a, b. split; [left; auto|lia].
      * destruct (I2 a b) as (lo & hi & ? & ?); auto. exists lo, hi. split; [right; auto|auto].
Qed.

Lemma range_leb_total a b : range_leb a b = true \/ range_leb b a = true.
Proof. unfold range_leb. destruct a, b; cbn [fst snd]. lia. Qed.
Lemma range_leb_trans a b c : range_leb a b = true -> range_leb b c = true -> range_leb a c = true.
Proof. unfold range_leb. destruct a, b, c; cbn [fst snd]. lia. Qed.

Lemma components_spec L :
  chain (zlen L) (-1) (components L) /\
  contained (forward_ranges L ++ backward_ranges L) (components L).
Proof.
  unfold components. pose proof (isort_perm range_leb (forward_ranges L ++ backward_ranges L)) as P.
  assert (S : StronglySorted (fun a b => range_leb a b = true) (isort range_leb (forward_ranges L ++ backward_ranges L))).
  { apply isort_sorted; [apply range_leb_total|apply range_leb_trans]. }
  assert (V : forall c, In c (forward_ranges L ++ backward_ranges L) -> (0 <= fst c <= snd c /\ snd c < zlen L)%Z).
  { intros [l r] H. apply in_app_iff in H. destruct H as [H|H].
    - apply (proj1 (forward_ranges_spec L)) in H. auto.
    - apply (proj1 (backward_ranges_spec L)) in H. auto. }
  destruct (isort _ _) as [|c rest].
  - apply Permutation_nil in P. rewrite P. split; [simpl; auto|]. intros l r [].
  - apply StronglySorted_inv in S. destruct S as [S F]. rewrite Forall_forall in F.
    destruct (merge_ranges_spec (zlen L) rest c (-1)) as [H1 H2].
    + assert (Hc : In c (forward_ranges L ++ backward_ranges L)) by (rewrite <- P; left; auto). apply V in Hc. lia.
    + apply Forall_forall. intros d Hd. assert (Hd' : In d (forward_ranges L ++ backward_ranges L)) by (rewrite <- P; right; auto).
      apply V in Hd'. apply F in Hd. unfold range_leb in Hd. lia.
    + clear - S. induction S; constructor; auto. eapply Forall_impl; [|eassumption]. intros b. unfold range_leb. lia.
    + split; auto. intros l r H. apply H2. rewrite P. auto.
Qed.

(** ** Cuts outside the components *)
Lemma component_cut L P1 P2 : L = P1 ++ P2 ->
  (forall lo hi, In (lo, hi) (components L) -> ~ (lo < zlen P1 <= hi)%Z) ->
  P1 = [] \/ P2 = [] \/ (suffix_ok P1 /\ prefix_ok P2).
Proof.
  intros E H. destruct P1 as [|a P1']; [left; auto|]. destruct P2 as [|b P2']; [right; left; auto|]. right; right.
  destruct (components_spec L) as [_ C].
  assert (NC : ~ covered (forward_ranges L ++ backward_ranges L) (zlen (a :: P1'))).
  { intros (l & r & I & B). destruct (C l r I) as (lo & hi & I' & B'). apply (H lo hi I'). lia. }
  split.
  - apply fwc_ok. destruct (Z.le_gt_cases (fwc (a :: P1')) 0) as [?|G]; auto. exfalso. apply NC.
    apply covered_app_l. eapply (proj1 (proj2 (forward_ranges_spec L))); [exact E|discriminate|lia].
  - apply bwc_ok. destruct (Z.le_gt_cases (bwc (b :: P2')) 0) as [?|G]; auto. exfalso. apply NC.
    apply covered_app_r. eapply (proj2 (backward_ranges_spec L)); [exact E|discriminate|lia].
Qed.

Lemma component_y L P1 q P2 : L = P1 ++ (q, true) :: P2 -> inside (components L) (zlen P1).
Proof.
  intros E. destruct (components_spec L) as [_ C].
  destruct (proj2 (proj2 (forward_ranges_spec L)) _ _ _ E) as (l & r & I & B).
  destruct (C l r) as (lo & hi & I' & B'); [apply in_app_iff; auto|]. exists lo, hi. split; auto. lia.
Qed.

Lemma chain_in n cs : forall last lo hi, chain n last cs -> In (lo, hi) cs -> (last < lo <= hi /\ hi < n)%Z.
Proof.
  induction cs as [|[a b] cs IH]; intros last lo hi H I; [contradiction|]. destruct H as [H1 H2].
  destruct I as [E|I]; [inversion E; subst; auto|]. specialize (IH b lo hi H2 I). lia.
Qed.
Lemma chain_app n cs1 : forall last cs2, chain n last (cs1 ++ cs2) -> 
  forall lo hi lo' hi', In (lo, hi) cs1 -> In (lo', hi') cs2 -> (hi < lo')%Z.
Proof.
  induction cs1 as [|[a b] cs1 IH]; intros last cs2 H lo hi lo' hi' I1 I2; [contradiction|].
  destruct H as [H1 H2]. destruct I1 as [E|I1].
  - inversion E; subst. apply (chain_in _ _ _ lo' hi') in H2; [lia|]. apply in_app_iff; auto.
  - eapply IH; eauto.
Qed.

(** ** Sorted points *)
Lemma sorted_locs l : asc (map fst l) -> exists p, locs_sorted p l.
Proof.
  intros H. destruct l as [|e l]; [exists 0; constructor; constructor|].
  exists (fst e). unfold locs_sorted. constructor; auto. cbn [map] in *. constructor; [apply Qcle_refl|].
  apply StronglySorted_inv in H. tauto.
Qed.
Lemma asc_app_inv (l1 l2 : list Qc) : asc (l1 ++ l2) -> asc l1 /\ asc l2.
Proof.
  induction l1 as [|a l1 IH]; simpl; intros H; [split; auto; constructor|].
  apply StronglySorted_inv in H. destruct H as [H F]. apply Forall_app in F. destruct (IH H). split; auto. constructor; tauto.
Qed.
Lemma emd_cut_sorted l1 l2 : asc (map fst (l1 ++ l2)) -> close two (xs_of (l1 ++ l2)) (ys_of (l1 ++ l2)) ->
  (net (l1 ++ l2) <= 0)%Z -> suffix_ok l1 -> prefix_ok l2 ->
  emd (xs_of (l1 ++ l2)) (ys_of (l1 ++ l2)) = emd (xs_of l1) (ys_of l1) + emd (xs_of l2) (ys_of l2).
Proof. intros A. destruct (sorted_locs _ A) as [p S]. apply (emd_cut p); auto. Qed.

Lemma asc_filter (f : point -> bool) l : asc (map fst l) -> asc (map fst (filter f l)).
Proof.
  induction l as [|e l IH]; simpl; intros H; auto. apply StronglySorted_inv in H. destruct H as [H F].
  destruct (f e); auto. simpl. constructor; auto. rewrite Forall_forall in *. intros q Hq. apply F.
  apply in_map_iff in Hq. destruct Hq as (e' & <- & He). apply filter_In in He. apply in_map. tauto.
Qed.

Lemma ys_nil_suffix_ok l : ys_of l = [] -> suffix_ok l.
Proof.
  intros H l1 l2 ->. rewrite ys_of_app in H. apply app_eq_nil in H. destruct H as [_ H].
  rewrite net_len, H, zlen_nil. pose proof (zlen_nonneg (xs_of l2)). lia.
Qed.
Lemma suffix_ok_app_r l1 l2 : suffix_ok (l1 ++ l2) -> suffix_ok l2.
Proof. intros H a b ->. apply (H (l1 ++ a)). rewrite app_assoc. auto. Qed.
Lemma prefix_ok_app_l l1 l2 : prefix_ok (l1 ++ l2) -> prefix_ok l1.
Proof. intros H a b ->. apply (H a (b ++ l2)). rewrite app_assoc. auto. Qed.
Lemma prefix_ok_net l : prefix_ok l -> (net l <= 0)%Z.
Proof. intros H. apply (H l []). rewrite app_nil_r. auto. Qed.
Lemma suffix_ok_net l : suffix_ok l -> (net l <= 0)%Z.
Proof. intros H. apply (H [] l). auto. Qed.

(** ** Extracting a component *)
Lemma component_slice L A C T lo hi b : L = A ++ C ++ T -> zlen A = lo -> (zlen A + zlen C = hi + 1)%Z ->
  component L lo hi b = if b then ys_of C else xs_of C.
Proof.
  intros E L1 L2. unfold component. rewrite enum_combine, E, !enum_app, !filter_app.
  rewrite (filter_none _ (enum 0 A)), (filter_none _ (enum _ T)).
  - rewrite app_nil_r. cbn [app].
    assert (H : forall k, (lo <= k)%Z -> (k + zlen C <= hi + 1)%Z ->
      map (fun e => fst (snd e)) (filter (fun e : Z * point => (lo <=? fst e)%Z && (fst e <=? hi)%Z && eqb (snd (snd e)) b) (enum k C))
      = map fst (filter (fun e => eqb (snd e) b) C)).
    { clear. induction C as [|e C IH]; intros k H1 H2; simpl; auto. rewrite zlen_cons in H2. pose proof (zlen_nonneg C).
      replace (lo <=? k)%Z with true by lia. replace (k <=? hi)%Z with true by lia. cbn [andb].
      destruct (eqb (snd e) b); simpl; [f_equal|]; apply IH; lia. }
    rewrite H by lia. unfold xs_of, ys_of. destruct b; f_equal; apply filter_ext; intros [q []]; reflexivity.
  - intros e H. apply enum_in in H. replace (fst e <=? hi)%Z with false by lia. rewrite andb_false_r. reflexivity.
  - intros e H. apply enum_in in H. replace (lo <=? fst e)%Z with false by lia. reflexivity.
Qed.

Lemma count_x_slice L A C T lo hi : L = A ++ C ++ T -> zlen A = lo -> (zlen A + zlen C = hi)%Z ->
  count_x L lo hi = zlen (xs_of C).
Proof.
  intros E L1 L2. unfold count_x. rewrite enum_combine, E, !enum_app, !filter_app.
  rewrite (filter_none _ (enum 0 A)), (filter_none _ (enum _ T)).
  - rewrite app_nil_r. cbn [app].
    assert (H : forall k, (lo <= k)%Z -> (k + zlen C <= hi)%Z ->
      zlen (filter (fun e : Z * point => (lo <=? fst e)%Z && (fst e <? hi)%Z && negb (snd (snd e))) (enum k C))
      = zlen (filter (fun e => negb (snd e)) C)).
    { clear. induction C as [|e C IH]; intros k H1 H2; simpl; auto. rewrite zlen_cons in H2. pose proof (zlen_nonneg C).
      replace (lo <=? k)%Z with true by lia. replace (k <? hi)%Z with true by lia. cbn [andb].
      destruct (negb (snd e)); rewrite ?zlen_cons; [f_equal|]; apply IH; lia. }
    rewrite H by lia. unfold xs_of, zlen. rewrite map_length. reflexivity.
  - intros e H. apply enum_in in H. replace (fst e <? hi)%Z with false by lia. rewrite andb_false_r. reflexivity.
  - intros e H. apply enum_in in H. replace (lo <=? fst e)%Z with false by lia. reflexivity.
Qed.

Lemma no_y_length l : ys_of l = [] -> zlen (xs_of l) = zlen l.
Proof.
  induction l as [|[q []] l IH]; intros H; [reflexivity|discriminate|].
  change (ys_of ((q, false) :: l)) with (ys_of l) in H. change (xs_of ((q, false) :: l)) with (q :: xs_of l).
  rewrite !zlen_cons, IH by auto. reflexivity.
Qed.

(** ** The loop over the components *)
Lemma sub_close L (L_close : close two (xs_of L) (ys_of L)) A B C : L = A ++ B ++ C -> close two (xs_of B) (ys_of B).
Proof.
  intros ->. eapply close_sub; [exact L_close| |]; intros q H.
  - rewrite !xs_of_app, !in_app_iff. auto.
  - rewrite !ys_of_app, !in_app_iff. auto.
Qed.
Lemma sub_sorted (L : list point) (L_sorted : asc (map fst L)) A B C : L = A ++ B ++ C -> asc (map fst B).
Proof.
  intros ->. rewrite !map_app in L_sorted. apply asc_app_inv in L_sorted. destruct L_sorted as [_ S]. apply asc_app_inv in S. tauto.
Qed.

Lemma split_at {A} (l : list A) n : (0 <= n <= zlen l)%Z -> exists l1 l2, l = l1 ++ l2 /\ zlen l1 = n.
Proof.
  intros H. exists (firstn (Z.to_nat n) l), (skipn (Z.to_nat n) l). rewrite firstn_skipn. split; auto.
  unfold zlen in *. rewrite firstn_length_le; lia.
Qed.

(** What the next component looks like: a gap [G] without y, the component
    [C], and the rest [T]. *)
Lemma loop_split L (L_net : (net L <= 0)%Z) lo hi cs done last Pre Rem :
  components L = done ++ (lo, hi) :: cs -> (forall a b, In (a, b) done -> (b <= last)%Z) ->
  chain (zlen L) last ((lo, hi) :: cs) -> L = Pre ++ Rem -> zlen Pre = (last + 1)%Z ->
  exists G C T, Rem = G ++ C ++ T /\ zlen G = (lo - last - 1)%Z /\ zlen C = (hi + 1 - lo)%Z /\
    ys_of G = [] /\ (net (G ++ C ++ T) <= 0)%Z /\ (net (C ++ T) <= 0)%Z /\ (net C <= 0)%Z /\
    (G = [] \/ C ++ T = [] \/ prefix_ok (C ++ T)) /\
    (C = [] \/ T = [] \/ (suffix_ok C /\ prefix_ok T)).
Proof.
  intros HC Hd Hch HL Hlen. destruct Hch as [Hlh Hch].
  assert (LR : (zlen Rem = zlen L - last - 1)%Z) by (rewrite HL, zlen_app; lia).
  destruct (split_at Rem (lo - last - 1)) as (G & Rem1 & E1 & LG); [lia|].
  destruct (split_at Rem1 (hi + 1 - lo)) as (C & T & E2 & LC).
  { assert (zlen Rem = zlen G + zlen Rem1)%Z by (rewrite E1, zlen_app; auto). lia. }
  subst Rem1. subst Rem. exists G, C, T.
  assert (cutpoint : forall P1 P2, L = P1 ++ P2 -> zlen P1 = (last + 1)%Z \/ zlen P1 = lo \/ zlen P1 = (hi + 1)%Z ->
     P1 = [] \/ P2 = [] \/ (suffix_ok P1 /\ prefix_ok P2)).
  { intros P1 P2 EL Z1. apply (component_cut L); auto. intros a b I.
    rewrite HC in I. apply in_app_iff in I. destruct I as [I|[I|I]].
    - apply Hd in I. lia.
    - inversion I; subst. lia.
    - apply (chain_in _ _ _ a b) in Hch; auto. lia. }
  assert (cutlast : Pre = [] \/ G ++ C ++ T = [] \/ (suffix_ok Pre /\ prefix_ok (G ++ C ++ T))).
  { apply cutpoint; auto. }
  assert (cutlo : Pre ++ G = [] \/ C ++ T = [] \/ (suffix_ok (Pre ++ G) /\ prefix_ok (C ++ T))).
  { apply cutpoint; [rewrite HL, !app_assoc; auto|]. right; left. rewrite zlen_app. lia. }
  assert (cuthi : Pre ++ G ++ C = [] \/ T = [] \/ (suffix_ok (Pre ++ G ++ C) /\ prefix_ok T)).
  { apply cutpoint; [rewrite HL, <- !app_assoc; auto|]. right; right. rewrite !zlen_app. lia. }
  assert (NR : (net (G ++ C ++ T) <= 0)%Z).
  { destruct cutlast as [->|[->|[_ H]]]; [cbn [app] in HL; rewrite <- HL; auto|simpl; lia|apply prefix_ok_net; auto]. }
  assert (NCT : (net (C ++ T) <= 0)%Z).
  { destruct cutlo as [H|[->|[_ H]]]; [|simpl; lia|apply prefix_ok_net; auto].
    apply app_eq_nil in H. destruct H as [-> ->]. auto. }
  split; [auto|]. split; [auto|]. split; [auto|]. split; [|split; [auto|split; [auto|]]].
  - destruct (ys_of G) as [|y ys] eqn:E; auto. exfalso.
    assert (I : In y (ys_of G)) by (rewrite E; left; auto). unfold ys_of in I. apply in_map_iff in I.
    destruct I as ([q b] & Eq & I). apply filter_In in I. cbn [fst snd] in *. destruct I as [I ->]. subst q.
    apply in_split in I. destruct I as (R1 & R2 & ER).
    destruct (component_y L (Pre ++ R1) y (R2 ++ C ++ T)) as (a & b & I & B).
    { rewrite HL, ER, <- !app_assoc. reflexivity. }
    assert (zlen G = zlen R1 + (zlen R2 + 1))%Z by (rewrite ER, zlen_app, zlen_cons; auto).
    rewrite zlen_app in B. pose proof (zlen_nonneg R1). pose proof (zlen_nonneg R2).
    rewrite HC in I. apply in_app_iff in I. destruct I as [I|[I|I]].
    + apply Hd in I. lia.
    + inversion I; subst. lia.
    + apply (chain_in _ _ _ a b) in Hch; auto. lia.
  - split; [|split].
    + destruct cuthi as [H|[->|[H _]]].
      * apply app_eq_nil in H. destruct H as [_ H]. apply app_eq_nil in H. destruct H as [_ ->]. simpl; lia.
      * rewrite app_nil_r in NCT. auto.
      * apply suffix_ok_net. apply suffix_ok_app_r with G. apply suffix_ok_app_r with Pre. auto.
    + destruct cutlo as [H|[H|[_ H]]]; auto. apply app_eq_nil in H. tauto.
    + destruct cuthi as [H|[H|[H H']]]; auto.
      * apply app_eq_nil in H. destruct H as [_ H]. apply app_eq_nil in H. tauto.
      * right; right. split; auto. apply suffix_ok_app_r with G. apply suffix_ok_app_r with Pre. auto.
Qed.

(** Whatever the components contain, the loop never raises if its body does
    not. *)
Lemma loop_total_shape L (body : Z * Qc -> Z * Z -> result (Z * Qc)) (L_net : (net L <= 0)%Z)
  (P : Qc -> Prop)
  (body_ok : forall Pre G C T last d,
    L = Pre ++ G ++ C ++ T -> zlen Pre = (last + 1)%Z -> ys_of G = [] -> (net C <= 0)%Z -> P d ->
    exists d', body (last, d) ((last + 1 + zlen G)%Z, (last + zlen G + zlen C)%Z) = Ok ((last + zlen G + zlen C)%Z, d') /\ P d') cs :
  forall done last d Pre Rem,
  components L = done ++ cs -> (forall lo hi, In (lo, hi) done -> (hi <= last)%Z) -> chain (zlen L) last cs ->
  L = Pre ++ Rem -> zlen Pre = (last + 1)%Z -> P d ->
  exists last' d', foldM body cs (last, d) = Ok (last', d') /\ P d'.
Proof.
  induction cs as [|[lo hi] cs IH]; intros done last d Pre Rem HC Hd Hch HL Hlen Pd; [eexists _, _; split; [reflexivity|auto]|].
  destruct (loop_split L L_net lo hi cs done last Pre Rem HC Hd Hch HL Hlen) as (G & C & T & -> & LG & LC & YG & _ & _ & NC & _).
  destruct (body_ok Pre G C T last d HL Hlen YG NC Pd) as (d' & B & Pd').
  replace (last + 1 + zlen G)%Z with lo in B by lia. replace (last + zlen G + zlen C)%Z with hi in B by lia.
  cbn [foldM]. rewrite B. cbn [bind]. destruct Hch as [Hlh Hch].
  apply (IH (done ++ [(lo, hi)]) hi d' (Pre ++ G ++ C) T); auto.
  - rewrite HC, <- app_assoc. reflexivity.
  - intros a b I. apply in_app_iff in I. destruct I as [I|[I|[]]]; [apply Hd in I; lia|inversion I; subst; lia].
  - rewrite HL, <- !app_assoc. reflexivity.
  - rewrite !zlen_app. lia.
Qed.

Section Loop.
Variable L : list point.
Variable body : Z * Qc -> Z * Z -> result (Z * Qc).
Hypothesis L_sorted : asc (map fst L).
Hypothesis L_close : close two (xs_of L) (ys_of L).
Hypothesis L_net : (net L <= 0)%Z.
Hypothesis body_ok : forall Pre G C T last d,
  L = Pre ++ G ++ C ++ T -> zlen Pre = (last + 1)%Z -> ys_of G = [] -> (net C <= 0)%Z ->
  body (last, d) ((last + 1 + zlen G)%Z, (last + zlen G + zlen C)%Z) =
    Ok ((last + zlen G + zlen C)%Z, d + qz (zlen G) + emd (xs_of C) (ys_of C)).

Lemma loop_spec cs : forall done last d Pre Rem,
  components L = done ++ cs -> (forall lo hi, In (lo, hi) done -> (hi <= last)%Z) -> chain (zlen L) last cs ->
  L = Pre ++ Rem -> zlen Pre = (last + 1)%Z ->
  exists last' d' Pre' Rem', foldM body cs (last, d) = Ok (last', d') /\
    L = Pre' ++ Rem' /\ zlen Pre' = (last' + 1)%Z /\ ys_of Rem' = [] /\
    d' + qz (zlen Rem') = d + emd (xs_of Rem) (ys_of Rem).
Proof.
  induction cs as [|[lo hi] cs IH]; intros done last d Pre Rem HC Hd Hch HL Hlen.
  - exists last, d, Pre, Rem. split; [reflexivity|]. split; [auto|]. split; [auto|].
    assert (Y : ys_of Rem = []).
    { destruct (ys_of Rem) as [|y ys] eqn:E; auto. exfalso.
      assert (I : In y (ys_of Rem)) by (rewrite E; left; auto). unfold ys_of in I. apply in_map_iff in I.
      destruct I as ([q b] & Eq & I). apply filter_In in I. cbn [fst snd] in *. destruct I as [I ->]. subst q.
      apply in_split in I. destruct I as (R1 & R2 & ER).
      destruct (component_y L (Pre ++ R1) y R2) as (lo & hi & I & B).
      { rewrite HL, ER, app_assoc. reflexivity. }
      rewrite HC, app_nil_r in I. apply Hd in I. rewrite zlen_app in B. pose proof (zlen_nonneg R1). lia. }
    split; auto. rewrite Y, emd_nil_r. f_equal. rewrite <- (no_y_length _ Y). reflexivity.
  - destruct (loop_split L L_net lo hi cs done last Pre Rem HC Hd Hch HL Hlen) as (G & C & T & -> & LG & LC & YG & NR & NCT & NC & cutlo & cuthi).
    destruct Hch as [Hlh Hch].
    assert (SP1 : emd (xs_of (G ++ C ++ T)) (ys_of (G ++ C ++ T)) = qz (zlen G) + emd (xs_of (C ++ T)) (ys_of (C ++ T))).
    { assert (EG : emd (xs_of G) (ys_of G) = qz (zlen G)).
      { rewrite YG, emd_nil_r, <- (no_y_length _ YG). reflexivity. }
      rewrite <- EG. destruct cutlo as [->|[H|H]].
      - cbn [app]. change (xs_of []) with (@nil Qc). change (ys_of []) with (@nil Qc). rewrite emd_nil. ring.
      - rewrite H, app_nil_r. change (xs_of []) with (@nil Qc). change (ys_of []) with (@nil Qc). rewrite emd_nil. ring.
      - apply emd_cut_sorted; auto.
        + apply (sub_sorted L L_sorted Pre _ []). rewrite app_nil_r. auto.
        + apply (sub_close L L_close Pre _ []). rewrite app_nil_r. auto.
        + apply ys_nil_suffix_ok; auto. }
    assert (SP2 : emd (xs_of (C ++ T)) (ys_of (C ++ T)) = emd (xs_of C) (ys_of C) + emd (xs_of T) (ys_of T)).
    { destruct cuthi as [->|[->|[H H']]].
      - cbn [app]. change (xs_of []) with (@nil Qc). change (ys_of []) with (@nil Qc). rewrite emd_nil. ring.
      - rewrite app_nil_r. change (xs_of []) with (@nil Qc). change (ys_of []) with (@nil Qc). rewrite emd_nil. ring.
      - apply emd_cut_sorted; auto.
        + apply (sub_sorted L L_sorted (Pre ++ G) _ []). rewrite app_nil_r, HL, !app_assoc. auto.
        + apply (sub_close L L_close (Pre ++ G) _ []). rewrite app_nil_r, HL, !app_assoc. auto. }
    cbn [foldM]. pose proof (body_ok Pre G C T last d HL Hlen YG NC) as B.
    replace (last + 1 + zlen G)%Z with lo in B by lia. replace (last + zlen G + zlen C)%Z with hi in B by lia.
    rewrite B. cbn [bind].
    destruct (IH (done ++ [(lo, hi)]) hi (d + qz (zlen G) + emd (xs_of C) (ys_of C)) (Pre ++ G ++ C) T) as (last' & d' & Pre' & Rem' & R1 & R2 & R3 & R4 & R5); auto.
    + rewrite HC, <- app_assoc. reflexivity.
    + intros a b I. apply in_app_iff in I. destruct I as [I|[I|[]]]; [apply Hd in I; lia|inversion I; subst; lia].
    + rewrite HL, <- !app_assoc. reflexivity.
    + rewrite !zlen_app. lia.
    + exists last', d', Pre', Rem'. split; [auto|]. split; [auto|]. split; [auto|]. split; [auto|]. 
      rewrite R5, SP1, SP2. ring.
Qed.

Lemma loop_total : 
  exists last d Pre Rem, foldM body (components L) ((-1)%Z, 0) = Ok (last, d) /\
    L = Pre ++ Rem /\ zlen Pre = (last + 1)%Z /\ ys_of Rem = [] /\
    d + qz (zlen Rem) = emd (xs_of L) (ys_of L).
Proof.
  destruct (loop_spec (components L) [] (-1) 0 [] L) as (last & d & Pre & Rem & R1 & R2 & R3 & R4 & R5); auto.
  - intros ? ? [].
  - apply components_spec.
  - exists last, d, Pre, Rem. repeat split; auto. rewrite R5. ring.
Qed.
End Loop.

(** ** One component *)
Lemma sorted_rev (P Q : Qc -> Qc -> Prop) (H : forall a b, P a b -> Q b a) l : StronglySorted P l -> StronglySorted Q (rev l).
Proof.
  induction 1 as [|a l S IH F]; simpl; [constructor|].
  assert (G : forall l1, StronglySorted Q l1 -> Forall (fun b => Q b a) l1 -> StronglySorted Q (l1 ++ [a])).
  { clear. induction l1 as [|b l1 IH]; intros S F; simpl; [repeat constructor|].
    apply StronglySorted_inv in S. inversion F; subst. constructor; [apply IH; tauto|]. apply Forall_app. split; [tauto|]. repeat constructor; auto. }
  apply G; auto. apply Forall_rev. eapply Forall_impl; [|eassumption]. auto.
Qed.
Lemma asc_rev l : asc l -> dsc (rev l). Proof. apply sorted_rev. auto. Qed.
Lemma dsc_rev l : dsc l -> asc (rev l). Proof. apply sorted_rev. auto. Qed.

Lemma hybrid_body_ok L : asc (map fst L) -> close two (xs_of L) (ys_of L) ->
  forall Pre G C T last d,
  L = Pre ++ G ++ C ++ T -> zlen Pre = (last + 1)%Z -> ys_of G = [] -> (net C <= 0)%Z ->
  hybrid_component exact L (last, d) ((last + 1 + zlen G)%Z, (last + zlen G + zlen C)%Z) =
    Ok ((last + zlen G + zlen C)%Z, d + qz (zlen G) + emd (xs_of C) (ys_of C)).
Proof.
  intros SL CL Pre G C T last d HL Hlen YG NC. unfold hybrid_component.
  pose proof (zlen_nonneg G) as LG0.
  assert (D : (if (last + 1 <? last + 1 + zlen G)%Z then exact (d + qz (count_x L (last + 1) (last + 1 + zlen G))) else d) = d + qz (zlen G)).
  { destruct (last + 1 <? last + 1 + zlen G)%Z eqn:E.
    - rewrite (count_x_slice L Pre G (C ++ T)); auto; [|lia]. rewrite (no_y_length _ YG). reflexivity.
    - assert (zlen G = 0)%Z by lia. rewrite H. change (qz 0) with 0. ring. }
  rewrite D. clear D. set (d0 := d + qz (zlen G)).
  rewrite !(component_slice L (Pre ++ G) C T) by (rewrite ?zlen_app, ?HL, ?app_assoc; auto; lia).
  assert (AC : asc (map fst C)).
  { apply (sub_sorted L SL (Pre ++ G) C T). rewrite HL, <- app_assoc. reflexivity. }
  assert (CC : close two (xs_of C) (ys_of C)).
  { apply (sub_close L CL (Pre ++ G) C T). rewrite HL, <- app_assoc. reflexivity. }
  rewrite net_len in NC. unfold zlen in NC.
  assert (AX : asc (xs_of C)) by (apply asc_filter; auto). assert (AY : asc (ys_of C)) by (apply asc_filter; auto).
  set (cy := ys_of C) in *. set (cx := xs_of C) in *. clearbody cy cx.
  pose proof (greedy_small_ok cy cx d0 CC ltac:(lia) AX AY) as G1.
  destruct (greedy_small exact cy cx d0) as [[cy1 cx1] d1]. destruct G1 as (E1 & L1 & A1 & A1' & I1 & I1').
  assert (CC1 : close two (rev cx1) (rev cy1)).
  { eapply close_sub; [exact CC| |]; intros q H; rewrite <- in_rev in H; auto. }
  pose proof (greedy_large_ok (rev cy1) (rev cx1) d1 CC1 ltac:(rewrite !rev_length; auto) (asc_rev _ A1') (asc_rev _ A1)) as G2.
  destruct (greedy_large exact (rev cy1) (rev cx1) d1) as [[cy2 cx2] d2]. destruct G2 as (E2 & L2 & A2 & A2' & _ & _).
  assert (EE : d2 + emd (rev cx2) (rev cy2) = d0 + emd cx cy).
  { rewrite <- E1. rewrite (emd_perm _ _ _ _ (Permutation_sym (Permutation_rev cx2)) (Permutation_sym (Permutation_rev cy2))).
    rewrite E2. f_equal. apply emd_perm; symmetry; apply Permutation_rev. }
  rewrite <- EE. unfold zlen. rewrite !rev_length.
  destruct (Z.of_nat (length cy2) =? 0)%Z eqn:Z1.
  - destruct cy2; [|simpl in Z1; lia]. cbn [bind]. cbn [rev app]. rewrite emd_nil_r, rev_length. reflexivity.
  - destruct (Z.of_nat (length cx2) =? 0)%Z eqn:Z2; [exfalso; lia|].
    rewrite dp_fallback_exact by (apply dsc_rev; auto). reflexivity.
Qed.

Lemma slow_sorted cx cy : close 1 cx cy -> (length cy <= length cx)%nat -> asc cx -> asc cy ->
  py_min (qz (zlen cy)) (map (fun comb => py_sum exact (zip_abs exact comb cy)) (combinations (length cy) cx))
   + qz (zlen cx) - qz (zlen cy) = emd cx cy.
Proof.
  intros C Len Ax Ay. assert (H := slow_eq_emd cx cy C). unfold emd_1d_slow in H.
  assert (I : forall l, asc l -> qsort l = l).
  { intros l A. apply isort_sorted_id. clear - A. induction A; constructor; auto.
    eapply Forall_impl; [|eassumption]. intros b Hb. clear - Hb. qclra. }
  replace (Z.ltb (zlen cx) (zlen cy)) with false in H by (unfold zlen; lia). rewrite !I in H by auto.
  rewrite <- H, qz_sub. unfold exact at 3. ring.
Qed.

Lemma close_1_2 xs ys : close 1 xs ys -> close two xs ys.
Proof. intros C x y Hx Hy. specialize (C x y Hx Hy). assert (1 <= two) by (vm_compute; discriminate). clear - C H. qclra. Qed.

Lemma old_body_ok L : asc (map fst L) -> close 1 (xs_of L) (ys_of L) ->
  forall Pre G C T last d,
  L = Pre ++ G ++ C ++ T -> zlen Pre = (last + 1)%Z -> ys_of G = [] -> (net C <= 0)%Z ->
  old_component exact L (last, d) ((last + 1 + zlen G)%Z, (last + zlen G + zlen C)%Z) =
    Ok ((last + zlen G + zlen C)%Z, d + qz (zlen G) + emd (xs_of C) (ys_of C)).
Proof.
  intros SL CL1 Pre G C T last d HL Hlen YG NC. unfold old_component.
  pose proof (zlen_nonneg G) as LG0.
  assert (D : (if (last + 1 <? last + 1 + zlen G)%Z then exact (d + qz (last + 1 + zlen G - last - 1)) else d) = d + qz (zlen G)).
  { replace (last + 1 + zlen G - last - 1)%Z with (zlen G) by lia. destruct (last + 1 <? last + 1 + zlen G)%Z eqn:E; auto.
    assert (zlen G = 0)%Z by lia. rewrite H. change (qz 0) with 0. ring. }
  rewrite D. clear D. set (d0 := d + qz (zlen G)).
  rewrite !(component_slice L (Pre ++ G) C T) by (rewrite ?zlen_app, ?HL, ?app_assoc; auto; lia).
  assert (AC : asc (map fst C)).
  { apply (sub_sorted L SL (Pre ++ G) C T). rewrite HL, <- app_assoc. reflexivity. }
  assert (CC1' : close 1 (xs_of C) (ys_of C)).
  { intros x y Hx Hy. apply CL1; rewrite HL, ?xs_of_app, ?ys_of_app, !in_app_iff; auto. }
  rewrite net_len in NC. unfold zlen in NC.
  assert (AX : asc (xs_of C)) by (apply asc_filter; auto). assert (AY : asc (ys_of C)) by (apply asc_filter; auto).
  set (cy := ys_of C) in *. set (cx := xs_of C) in *. clearbody cy cx.
  assert (CC := close_1_2 _ _ CC1').
  destruct (greedy_small_old_ok cy cx d0 CC ltac:(lia) AX AY) as (r1 & R1 & G1).
  rewrite R1. cbn [bind]. destruct r1 as [[cy1 cx1] d1]. destruct G1 as (E1 & L1 & A1 & A1' & I1 & I1').
  assert (CC1 : close 1 (rev cx1) (rev cy1)).
  { intros x y Hx Hy. rewrite <- in_rev in Hx, Hy. auto. }
  destruct (greedy_large_old_ok (rev cy1) (rev cx1) d1 (close_1_2 _ _ CC1) ltac:(rewrite !rev_length; auto) (asc_rev _ A1') (asc_rev _ A1)) as (r2 & R2 & G2).
  rewrite R2. cbn [bind]. destruct r2 as [[cy2 cx2] d2]. destruct G2 as (E2 & L2 & A2 & A2' & I2 & I2').
  assert (EE : d2 + emd (rev cx2) (rev cy2) = d0 + emd cx cy).
  { rewrite <- E1. rewrite (emd_perm _ _ _ _ (Permutation_sym (Permutation_rev cx2)) (Permutation_sym (Permutation_rev cy2))).
    rewrite E2. f_equal. apply emd_perm; symmetry; apply Permutation_rev. }
  rewrite <- EE.
  assert (CC2 : close 1 (rev cx2) (rev cy2)).
  { intros x y Hx Hy. rewrite <- in_rev in Hx, Hy. auto. }
  apply dsc_rev in A2, A2'. rewrite <- (rev_length cy2), <- (rev_length cx2) in L2.
  clear - A2 A2' L2 CC2. rename L2 into Len, CC2 into CC.
  set (cy := rev cy2) in *. set (cx := rev cx2) in *. clearbody cy cx.
  destruct cy as [|y [|y' cy]].
  - cbn [bind]. rewrite emd_nil_r. reflexivity.
  - destruct (emd_single cx y (close_1_2 _ _ CC)) as (m & M1 & M2); [destruct cx; [simpl in Len; lia|discriminate]|].
    rewrite M1. cbn [bind]. rewrite M2. reflexivity.
  - cbn [bind]. rewrite <- slow_sorted by auto. reflexivity.
Qed.

(** ** The merged points *)
Lemma point_leb_total a b : point_leb a b = true \/ point_leb b a = true.
Proof.
  unfold point_leb. destruct a as [p a], b as [q b]; cbn [fst snd]. destruct (qltb p q) eqn:E1; [auto|].
  destruct (qltb q p) eqn:E2; [auto|]. assert (p = q) by (clear - E1 E2; qclra). subst q.
  rewrite (proj2 (qeqb_eq p p) eq_refl). destruct a, b; simpl; auto.
Qed.
Lemma point_leb_spec a b : point_leb a b = true <-> fst a < fst b \/ (fst a = fst b /\ (snd a = true -> snd b = true)).
Proof.
  unfold point_leb. rewrite orb_true_iff, andb_true_iff, qeqb_eq. rewrite qltb_lt.
  destruct (snd a), (snd b); simpl; intuition.
Qed.
Lemma point_leb_trans a b c : point_leb a b = true -> point_leb b c = true -> point_leb a c = true.
Proof.
  rewrite !point_leb_spec. intros [H|[H1 H2]] [H'|[H1' H2']].
  - left. clear - H H'. qclra.
  - left. rewrite <- H1'. auto.
  - left. rewrite H1. auto.
  - right. rewrite H1. auto.
Qed.

Lemma merge_points_sorted xs ys : asc (map fst (merge_points xs ys)).
Proof.
  unfold merge_points.
  assert (H := isort_sorted point_leb point_leb_total point_leb_trans (map (fun loc => (loc, false)) xs ++ map (fun loc => (loc, true)) ys)).
  induction H; simpl; constructor; auto. apply Forall_map. eapply Forall_impl; [|eassumption].
  intros b Hb. apply point_leb_spec in Hb. destruct Hb as [Hb|[Hb _]]; [clear - Hb; qclra|rewrite Hb; apply Qcle_refl].
Qed.
Lemma filter_perm {A} (f : A -> bool) l1 l2 : Permutation l1 l2 -> Permutation (filter f l1) (filter f l2).
Proof.
  induction 1; simpl; auto.
  - destruct (f x); auto.
  - destruct (f x), (f y); auto. constructor.
  - etransitivity; eauto.
Qed.
Lemma merge_points_xs xs ys : Permutation (xs_of (merge_points xs ys)) xs.
Proof.
  unfold xs_of, merge_points. rewrite (filter_perm _ _ _ (isort_perm point_leb _)), filter_app, map_app.
  assert (E1 : map fst (filter (fun e : point => negb (snd e)) (map (fun loc => (loc, false)) xs)) = xs).
  { induction xs; simpl; f_equal; auto. }
  assert (E2 : map fst (filter (fun e : point => negb (snd e)) (map (fun loc => (loc, true)) ys)) = []).
  { induction ys; simpl; auto. }
  rewrite E1, E2, app_nil_r. reflexivity.
Qed.
Lemma merge_points_ys xs ys : Permutation (ys_of (merge_points xs ys)) ys.
Proof.
  unfold ys_of, merge_points. rewrite (filter_perm _ _ _ (isort_perm point_leb _)), filter_app, map_app.
  assert (E1 : map fst (filter (fun e : point => snd e) (map (fun loc => (loc, false)) xs)) = []).
  { induction xs; simpl; auto. }
  assert (E2 : map fst (filter (fun e : point => snd e) (map (fun loc => (loc, true)) ys)) = ys).
  { induction ys; simpl; f_equal; auto. }
  rewrite E1, E2. reflexivity.
Qed.

(** ** The functions *)
Lemma single_y_exact xs y : close two xs [y] -> xs <> [] -> single_y exact xs y = Ok (emd xs [y]).
Proof.
  intros C N. destruct (emd_single xs y C N) as (m & M1 & M2). unfold single_y. rewrite M1. cbn [bind]. rewrite M2. reflexivity.
Qed.

Section Rest.
Variables xs ys : list Qc.
Hypothesis len : (length ys <= length xs)%nat.

Lemma merged_net : (net (merge_points xs ys) <= 0)%Z.
Proof.
  rewrite net_len. unfold zlen. rewrite (Permutation_length (merge_points_xs xs ys)), (Permutation_length (merge_points_ys xs ys)). lia.
Qed.
Lemma merged_close r : close r xs ys -> close r (xs_of (merge_points xs ys)) (ys_of (merge_points xs ys)).
Proof.
  intros C. eapply close_sub; [exact C| |]; intros q H.
  - rewrite <- (merge_points_xs xs ys). auto.
  - rewrite <- (merge_points_ys xs ys). auto.
Qed.

Lemma hybrid_rest_exact : close two xs ys -> hybrid_rest exact xs ys = Ok (emd xs ys).
Proof.
  intros C. unfold hybrid_rest. destruct ys as [|y [|y' ys']] eqn:E.
  - rewrite emd_nil_r. reflexivity.
  - apply single_y_exact; auto. intros ->. simpl in len. lia.
  - rewrite <- E in *. clear E y y' ys'. set (L := merge_points xs ys).
    assert (SL : asc (map fst L)) by apply merge_points_sorted.
    assert (CL := merged_close _ C). fold L in CL.
    destruct (loop_total L (hybrid_component exact L) SL CL merged_net (hybrid_body_ok L SL CL)) as (last & d & Pre & Rem & R1 & R2 & R3 & R4 & R5).
    rewrite R1. cbn [bind]. f_equal. rewrite (emd_perm _ _ _ _ (Permutation_sym (merge_points_xs xs ys)) (Permutation_sym (merge_points_ys xs ys))).
    fold L. rewrite <- R5. assert (LL : zlen L = (last + 1 + zlen Rem)%Z) by (rewrite R2, zlen_app; lia).
    destruct (last + 1 <? zlen L)%Z eqn:E.
    + rewrite (count_x_slice L Pre Rem []); [|rewrite app_nil_r; auto|auto|lia]. rewrite no_y_length by auto. reflexivity.
    + pose proof (zlen_nonneg Rem). assert (zlen Rem = 0)%Z by lia. rewrite H0. change (qz 0) with 0. ring.
Qed.

Lemma old_rest_exact : close 1 xs ys -> old_rest exact xs ys = Ok (emd xs ys).
Proof.
  intros C. unfold old_rest. destruct ys as [|y [|y' ys']] eqn:E.
  - rewrite emd_nil_r. reflexivity.
  - apply single_y_exact; [apply close_1_2; auto|]. intros ->. simpl in len. lia.
  - rewrite <- E in *. clear E y y' ys'. set (L := merge_points xs ys).
    assert (SL : asc (map fst L)) by apply merge_points_sorted.
    assert (CL := merged_close _ C). fold L in CL.
    destruct (loop_total L (old_component exact L) SL (close_1_2 _ _ CL) merged_net (old_body_ok L SL CL)) as (last & d & Pre & Rem & R1 & R2 & R3 & R4 & R5).
    rewrite R1. cbn [bind]. f_equal. rewrite (emd_perm _ _ _ _ (Permutation_sym (merge_points_xs xs ys)) (Permutation_sym (merge_points_ys xs ys))).
    fold L. rewrite <- R5. assert (LL : zlen L = (last + 1 + zlen Rem)%Z) by (rewrite R2, zlen_app; lia).
    replace (zlen L - last - 1)%Z with (zlen Rem) by lia.
    destruct (last + 1 <? zlen L)%Z eqn:E; [reflexivity|].
    pose proof (zlen_nonneg Rem). assert (zlen Rem = 0)%Z by lia. rewrite H0. change (qz 0) with 0. ring.
Qed.
End Rest.

Lemma zip_desc_exact px py : length px = length py -> close two px py ->
  py_sum exact (zip_abs exact (rev (qsort px)) (rev (qsort py))) = emd px py.
Proof.
  intros L C. unfold py_sum. rewrite py_sum_exact, zip_abs_combine, Qcplus_0_l.
  rewrite <- emd_opp.
  transitivity (emd (map Qcopp (rev (qsort px))) (map Qcopp (rev (qsort py)))).
  - rewrite emd_equal_length.
    + generalize (rev (qsort px)) (rev (qsort py)). induction l as [|a l IH]; intros [|b l0]; try reflexivity.
      cbn [map combine]. rewrite !move_cost_cons, <- IH. cbn [fst snd]. f_equal. clear. qclra.
    + apply close_opp. eapply close_sub; [exact C| |]; intros q H; rewrite <- in_rev, qsort_perm in H; auto.
    + rewrite !map_length, !rev_length, !qsort_length. auto.
    + apply dsc_opp, asc_rev, qsort_sorted.
    + apply dsc_opp, asc_rev, qsort_sorted.
  - rewrite !emd_opp. apply emd_perm; rewrite <- Permutation_rev; apply qsort_perm.
Qed.

Lemma exact_by_rest (rest : list Qc -> list Qc -> result Qc) r :
  r <= two -> (forall xs ys, (length ys <= length xs)%nat -> close r xs ys -> rest xs ys = Ok (emd xs ys)) ->
  forall px py, (length py <= length px)%nat -> close r px py ->
  match py with
  | [] => Ok (qz (zlen px))
  | [y] => single_y exact px y
  | _ =>
      let px := rev (qsort px) in
      let py := rev (qsort py) in
      if (zlen px =? zlen py)%Z then Ok (py_sum exact (zip_abs exact px py))
      else let '(xs, ys) := drop_common (rev px) (rev py) in rest xs ys
  end = Ok (emd px py).
Proof.
  intros Hr HR px py Len C.
  assert (C2 : close two px py).
  { intros x y Hx Hy. specialize (C x y Hx Hy). eapply Qcle_trans; eauto. }
  destruct py as [|y [|y' py']] eqn:E.
  - rewrite emd_nil_r. reflexivity.
  - apply single_y_exact; auto. intros ->. simpl in Len. lia.
  - rewrite <- E in *. clear E y y' py'. cbv zeta. unfold zlen at 1 2. rewrite !rev_length, !qsort_length.
    destruct (Z.of_nat (length px) =? Z.of_nat (length py))%Z eqn:E.
    + rewrite zip_desc_exact; auto. lia.
    + rewrite !rev_involutive.
      destruct (drop_common_spec _ (qsort px) (qsort py) (le_n _) (qsort_sorted px) (qsort_sorted py)) as (a & b & c & ED & P1 & P2 & Aa & Ab & _).
      rewrite ED, HR.
      * f_equal. rewrite <- (emd_common_list c). apply emd_perm; rewrite <- ?P1, <- ?P2; apply qsort_perm.
      * apply Permutation_length in P1, P2. rewrite qsort_length, app_length in P1, P2. lia.
      * eapply close_sub; [exact C| |]; intros q H.
        -- rewrite <- (qsort_perm px), P1, in_app_iff. auto.
        -- rewrite <- (qsort_perm py), P2, in_app_iff. auto.
Qed.

Lemma hybrid_exact xs ys : close two xs ys -> emd_1d_hybrid exact xs ys = Ok (emd xs ys).
Proof.
  intros C. unfold emd_1d_hybrid. destruct (Z.ltb (zlen xs) (zlen ys)) eqn:E; unfold zlen in E.
  - rewrite (emd_sym xs ys). apply (exact_by_rest (hybrid_rest exact) two); [apply Qcle_refl| |lia|apply close_sym; auto].
    intros. apply hybrid_rest_exact; auto.
  - apply (exact_by_rest (hybrid_rest exact) two); [apply Qcle_refl| |lia|auto].
    intros. apply hybrid_rest_exact; auto.
Qed.

Lemma old_exact xs ys : close 1 xs ys -> emd_1d_old exact xs ys = Ok (emd xs ys).
Proof.
  assert (1 <= two) by (vm_compute; discriminate).
  intros C. unfold emd_1d_old. destruct (Z.ltb (zlen xs) (zlen ys)) eqn:E; unfold zlen in E.
  - rewrite (emd_sym xs ys). apply (exact_by_rest (old_rest exact) 1); [auto| |lia|apply close_sym; auto].
    intros. apply old_rest_exact; auto.
  - apply (exact_by_rest (old_rest exact) 1); [auto| |lia|auto].
    intros. apply old_rest_exact; auto.
Qed.
