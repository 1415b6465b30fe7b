(** Facts about pairings, assignments and the bow loops. *)
From Coq Require Import ZArith NArith QArith Qcanon List Bool Permutation Lia FinFun.
From Verif Require Import Num Py ListAux PyDict Float64 EmdSpec EmdModel EmdProofs EmdFloatProofs NmdSpec NmdModel NmdProofs NmdFloatProofs
  IndexTop BowSpec BowModel.
Import ListNotations.
Open Scope Qc_scope.

(** *** Indices and words *)

Lemma pick_rest {A} (d : A) (a : list A) (is : list nat) : NoDup is -> Forall (fun i => (i < length a)%nat) is ->
  exists rest, Permutation a (map (fun i => nth i a d) is ++ rest).
Proof.
  intros N F. set (others := filter (fun i => if in_dec Nat.eq_dec i is then false else true) (seq 0 (length a))).
  exists (map (fun i => nth i a d) others). rewrite <- map_app.
  assert (P : Permutation (seq 0 (length a)) (is ++ others)).
  { apply NoDup_Permutation; [apply seq_NoDup| |].
    - apply NoDup_app_intro; auto; [apply NoDup_filter, seq_NoDup|]. intros i I J. unfold others in J. apply filter_In in J.
      destruct J as [_ J]. destruct (in_dec Nat.eq_dec i is); [discriminate|contradiction].
    - intros i. rewrite in_app_iff. unfold others. rewrite filter_In, in_seq. rewrite Forall_forall in F. split.
      + intros H. destruct (in_dec Nat.eq_dec i is); auto.
      + intros [H|H]; [specialize (F i H); lia|apply H]. }
  assert (E : map (fun i => nth i a d) (seq 0 (length a)) = a).
  { clear. apply nth_error_ext. intros k. rewrite nth_error_map. destruct (Nat.lt_ge_cases k (length a)) as [H|H].
    - assert (nth_error (seq 0 (length a)) k = Some k) as ->.
      { rewrite nth_error_nth' with (d := 0%nat) by (rewrite seq_length; auto). rewrite seq_nth by auto. reflexivity. }
      cbn [option_map]. symmetry. apply nth_error_nth'. exact H.
    - assert (nth_error (seq 0 (length a)) k = None) as -> by (apply nth_error_None; rewrite seq_length; auto).
      symmetry. apply nth_error_None. auto. }
  rewrite <- E at 1. apply Permutation_map. exact P.
Qed.

Lemma pick_indices {A} (d : A) (a xs la : list A) : Permutation a (xs ++ la) ->
  exists is, NoDup is /\ Forall (fun i => (i < length a)%nat) is /\ map (fun i => nth i a d) is = xs.
Proof.
  intros P. apply Permutation_nth_error in P. destruct P as (_ & f & Inj & Hf).
  assert (K : forall k, (k < length xs)%nat -> exists x, nth_error a (f k) = Some x /\ nth_error xs k = Some x).
  { intros k Hk. specialize (Hf k). rewrite nth_error_app1 in Hf by auto.
    destruct (nth_error xs k) as [x|] eqn:E; [eauto|]. apply nth_error_None in E. lia. }
  exists (map f (seq 0 (length xs))). split; [apply Injective_map_NoDup; auto; apply seq_NoDup|]. split.
  - apply Forall_forall. intros i I. apply in_map_iff in I. destruct I as (k & <- & I). apply in_seq in I.
    destruct (K k) as (x & E & _); [lia|]. apply nth_error_Some. congruence.
  - rewrite map_map. apply nth_error_ext. intros k. rewrite nth_error_map.
    destruct (Nat.lt_ge_cases k (length xs)) as [L|G].
    + assert (nth_error (seq 0 (length xs)) k = Some k) as ->.
      { rewrite nth_error_nth' with (d := 0%nat) by (rewrite seq_length; auto). rewrite seq_nth by auto. reflexivity. }
      destruct (K k L) as (x & E & ->). cbn [option_map]. f_equal. apply nth_error_nth. exact E.
    + assert (nth_error (seq 0 (length xs)) k = None) as -> by (apply nth_error_None; rewrite seq_length; auto).
      symmetry. apply nth_error_None. auto.
Qed.

Definition picked {A} (d : A) (a b : list A) (r : list nat * list nat) : list (A * A) :=
  map (fun ij => (nth (fst ij) a d, nth (snd ij) b d)) (combine (fst r) (snd r)).

Lemma map_fst_combine {A B} (l : list A) (m : list B) : length l = length m -> map fst (combine l m) = l.
Proof. revert m; induction l; intros [|b m]; simpl; intros H; try discriminate; auto. f_equal. auto. Qed.
Lemma map_snd_combine {A B} (l : list A) (m : list B) : length l = length m -> map snd (combine l m) = m.
Proof. revert m; induction l; intros [|b m]; simpl; intros H; try discriminate; auto. f_equal. auto. Qed.

Lemma valid_pairing {A} (d : A) a b r : valid_assignment (length a) (length b) r -> pairing a b (picked d a b r).
Proof.
  intros (N1 & N2 & L1 & L2 & F1 & F2). destruct r as [is js]. cbn [fst snd] in *.
  destruct (pick_rest d a is N1 F1) as (la & P1). destruct (pick_rest d b js N2 F2) as (lb & P2).
  exists la, lb. unfold picked. cbn [fst snd].
  assert (E1 : map fst (map (fun ij => (nth (fst ij) a d, nth (snd ij) b d)) (combine is js)) = map (fun i => nth i a d) is).
  { rewrite map_map. cbn [fst]. rewrite <- (map_map fst (fun i => nth i a d)). rewrite map_fst_combine by congruence. reflexivity. }
  assert (E2 : map snd (map (fun ij => (nth (fst ij) a d, nth (snd ij) b d)) (combine is js)) = map (fun i => nth i b d) js).
  { rewrite map_map. cbn [snd]. rewrite <- (map_map snd (fun i => nth i b d)). rewrite map_snd_combine by congruence. reflexivity. }
  rewrite E1, E2. split; [exact P1|]. split; [exact P2|].
  apply Permutation_length in P1, P2. rewrite app_length, map_length in P1, P2.
  destruct (Nat.le_gt_cases (length a) (length b)) as [L|G].
  - left. destruct la; auto. cbn [length] in P1. lia.
  - right. destruct lb; auto. cbn [length] in P2. lia.
Qed.

Lemma pairing_length {A} (a b : list A) ps : pairing a b ps -> length ps = Nat.min (length a) (length b).
Proof.
  intros (la & lb & P1 & P2 & H). apply Permutation_length in P1, P2. rewrite app_length, map_length in P1, P2.
  destruct H as [-> | ->]; cbn [length] in *; lia.
Qed.

Lemma pairing_valid {A} (d : A) a b ps : pairing a b ps ->
  exists r, valid_assignment (length a) (length b) r /\ picked d a b r = ps.
Proof.
  intros H. pose proof (pairing_length _ _ _ H) as L. destruct H as (la & lb & P1 & P2 & _).
  destruct (pick_indices d _ _ _ P1) as (is & N1 & F1 & E1). destruct (pick_indices d _ _ _ P2) as (js & N2 & F2 & E2).
  assert (Li : length is = length ps) by (rewrite <- (map_length fst ps), <- E1, map_length; reflexivity).
  assert (Lj : length js = length ps) by (rewrite <- (map_length snd ps), <- E2, map_length; reflexivity).
  exists (is, js). split; [repeat split; cbn [fst snd]; auto; congruence|].
  unfold picked. cbn [fst snd]. clear - E1 E2 Li Lj. revert is js E1 E2 Li Lj.
  induction ps as [|[x y] ps IH]; intros [|i is] [|j js]; simpl; intros; try discriminate; auto.
  injection E1 as E1 E1'. injection E2 as E2 E2'. rewrite E1, E2. f_equal. apply IH; auto.
Qed.

Lemma pairing_perm {A} (a a' b b' : list A) ps : Permutation a a' -> Permutation b b' -> pairing a b ps -> pairing a' b' ps.
Proof. intros P Q (la & lb & P1 & P2 & H). exists la, lb. rewrite <- P, <- Q. auto. Qed.

Lemma pairing_swap {A} (a b : list A) ps : pairing a b ps -> pairing b a (map (fun p => (snd p, fst p)) ps).
Proof.
  intros (la & lb & P1 & P2 & H). exists lb, la. rewrite !map_map. cbn [fst snd]. split; [exact P2|]. split; [exact P1|tauto].
Qed.

Lemma pair_cost_swap {A} (c : A -> A -> Qc) ps : (forall x y, c x y = c y x) ->
  pair_cost c (map (fun p => (snd p, fst p)) ps) = pair_cost c ps.
Proof. intros H. unfold pair_cost. rewrite map_map. cbn [fst snd]. apply qsum_map_ext. intros p _. apply H. Qed.

(** *** A solver exists *)

Fixpoint lists_over (k m : nat) : list (list nat) :=
  match k with O => [[]] | S k => flat_map (fun i => map (cons i) (lists_over k m)) (seq 0 m) end.

Lemma lists_over_in k m l : In l (lists_over k m) <-> length l = k /\ Forall (fun i => (i < m)%nat) l.
Proof.
  revert l. induction k as [|k IH]; intros l; cbn [lists_over].
  - split; [intros [<-|[]]; auto|]. intros [H _]. destruct l; [left; auto|discriminate].
  - rewrite in_flat_map. split.
    + intros (i & Hi & H). apply in_map_iff in H. destruct H as (l' & <- & H). apply IH in H. destruct H as [H1 H2].
      apply in_seq in Hi. split; [cbn; lia|]. constructor; auto. lia.
    + intros [H1 H2]. destruct l as [|i l]; [discriminate|]. inversion H2; subst. exists i. split; [apply in_seq; lia|].
      apply in_map, IH. split; auto.
Qed.

Fixpoint nodupb (l : list nat) : bool := match l with [] => true | a :: l => negb (existsb (Nat.eqb a) l) && nodupb l end.
Lemma nodupb_iff l : nodupb l = true <-> NoDup l.
Proof.
  induction l as [|a l IH]; cbn [nodupb]; [split; [constructor|auto]|]. rewrite andb_true_iff, IH, negb_true_iff. split.
  - intros [H1 H2]. constructor; auto. intros I. assert (existsb (Nat.eqb a) l = true); [|congruence].
    apply existsb_exists. exists a. split; auto. apply Nat.eqb_refl.
  - intros H. inversion H; subst. split; auto. destruct (existsb (Nat.eqb a) l) eqn:E; auto. apply existsb_exists in E.
    destruct E as (x & I & E). apply Nat.eqb_eq in E. subst x. contradiction.
Qed.

Fixpoint least {A} (f : A -> Qc) (x : A) (l : list A) : A :=
  match l with [] => x | y :: l => least f (if qleb (f x) (f y) then x else y) l end.
Lemma least_in {A} (f : A -> Qc) l x : In (least f x l) (x :: l).
Proof.
  revert x. induction l as [|y l IH]; intros x; cbn [least]; [left; auto|]. destruct (IH (if qleb (f x) (f y) then x else y)) as [H|H].
  - rewrite <- H. destruct (qleb (f x) (f y)); [left|right; left]; auto.
  - right. right. exact H.
Qed.
Lemma least_le {A} (f : A -> Qc) l x : forall y, In y (x :: l) -> f (least f x l) <= f y.
Proof.
  revert x. induction l as [|z l IH]; intros x y [<-|H]; cbn [least]; try apply Qcle_refl; try contradiction.
  - eapply Qcle_trans; [apply IH; left; reflexivity|]. destruct (qleb (f x) (f z)) eqn:E; [apply Qcle_refl|].
    apply qleb_nle in E. apply Qclt_le_weak. exact E.
  - destruct H as [<-|H]; [|apply IH; right; exact H].
    eapply Qcle_trans; [apply IH; left; reflexivity|]. destruct (qleb (f x) (f z)) eqn:E; [|apply Qcle_refl].
    apply qleb_le in E. exact E.
Qed.

(** Tries everything. *)
Definition brute_solver (costs : list (list Qc)) : list nat * list nat :=
  let rows := length costs in
  let cols := match costs with [] => 0%nat | row :: _ => length row end in
  let k := Nat.min rows cols in
  least (assignment_total costs) (seq 0 k, seq 0 k)
    (filter (fun r => nodupb (fst r) && nodupb (snd r)) (list_prod (lists_over k rows) (lists_over k cols))).

Lemma brute_solver_optimal : optimal_solver brute_solver.
Proof.
  assert (Cols : forall (costs : list (list Qc)) cols, Forall (fun row => length row = cols) costs -> costs <> [] ->
    match costs with [] => 0%nat | row :: _ => length row end = cols).
  { intros [|row costs] cols F H; [congruence|]. inversion F; auto. }
  assert (Cand : forall rows cols r, In r (filter (fun r => nodupb (fst r) && nodupb (snd r))
      (list_prod (lists_over (Nat.min rows cols) rows) (lists_over (Nat.min rows cols) cols))) <-> valid_assignment rows cols r).
  { intros rows cols [is js]. rewrite filter_In, in_prod_iff, !lists_over_in, andb_true_iff, !nodupb_iff. unfold valid_assignment. cbn [fst snd]. tauto. }
  assert (Diag : forall rows cols, valid_assignment rows cols (seq 0 (Nat.min rows cols), seq 0 (Nat.min rows cols))).
  { intros rows cols. repeat split; cbn [fst snd]; try apply seq_NoDup; try apply seq_length;
      apply Forall_forall; intros i I; apply in_seq in I; lia. }
  assert (Zero : forall costs : list (list Qc), costs = [] -> brute_solver costs = ([], [])) by (intros costs ->; reflexivity).
  split.
  - intros costs cols F. destruct costs as [|row costs]; [rewrite Zero by auto; apply (Diag 0%nat cols)|].
    set (cs := row :: costs) in *. assert (cs <> []) by discriminate. unfold brute_solver. cbv zeta. rewrite (Cols cs cols F H).
    destruct (least_in (assignment_total cs) (filter (fun r => nodupb (fst r) && nodupb (snd r))
      (list_prod (lists_over (Nat.min (length cs) cols) (length cs)) (lists_over (Nat.min (length cs) cols) cols)))
      (seq 0 (Nat.min (length cs) cols), seq 0 (Nat.min (length cs) cols))) as [E|I].
    + rewrite <- E. apply Diag.
    + apply Cand in I. exact I.
  - intros costs cols F r V. destruct costs as [|row costs].
    { assert (r = ([], [])) as ->; [|apply Qcle_refl]. destruct r as [is js]. destruct V as (_ & _ & L1 & L2 & _). cbn in *.
      destruct is, js; try discriminate. reflexivity. }
    set (cs := row :: costs) in *. assert (cs <> []) by discriminate. unfold brute_solver. cbv zeta. rewrite (Cols cs cols F H).
    apply least_le. right. apply Cand. exact V.
Qed.

(** *** The loops *)

Definition entry (costs : list (list Qc)) (ij : nat * nat) : Qc := nth (snd ij) (nth (fst ij) costs []) 0.

Lemma py_get_nth {A} (l : list A) (i : nat) d : (i < length l)%nat -> py_get l (Z.of_nat i) = Ok (nth i l d).
Proof. intros H. apply py_get_nat. exact H. Qed.

Lemma add_costs_fold rnd op costs cols r out : Forall (fun row => length row = cols) costs ->
  Forall (fun i => (i < length costs)%nat) (fst r) -> Forall (fun j => (j < cols)%nat) (snd r) ->
  add_costs rnd op costs r out = Ok (fold_left (fun out ij => rnd (op out (entry costs ij))) (combine (fst r) (snd r)) out).
Proof.
  intros F F1 F2. unfold add_costs. destruct r as [is js]. cbn [fst snd] in *. revert js out F2.
  induction F1 as [|i is Hi F1 IH]; intros js out F2; [reflexivity|]. destruct F2 as [|j js Hj F2]; [reflexivity|].
  cbn [combine foldM fst snd fold_left]. rewrite (py_get_nth costs i []) by auto. cbn [bind].
  assert (length (nth i costs []) = cols). { rewrite Forall_forall in F. apply F. apply nth_In. exact Hi. }
  rewrite (py_get_nth _ j 0) by lia. cbn [bind]. apply IH. exact F2.
Qed.

Lemma fold_exact_add costs l out : fold_left (fun out ij => exact (out + entry costs ij)) l out = out + qsum (map (entry costs) l).
Proof. revert out. induction l as [|ij l IH]; intros out; cbn [fold_left map qsum]; [ring|]. rewrite IH. unfold exact. ring. Qed.
Lemma fold_exact_sub costs l out : fold_left (fun out ij => exact (out - entry costs ij)) l out = out - qsum (map (entry costs) l).
Proof. revert out. induction l as [|ij l IH]; intros out; cbn [fold_left map qsum]; [ring|]. rewrite IH. unfold exact. ring. Qed.

Section Lawful.
Variable rnd : Qc -> Qc.
Hypothesis L : lawful rnd.

Lemma fold_add_range costs l : (forall ij, In ij l -> 0 <= entry costs ij <= 1) -> forall a b out,
  small (b + length l) -> qn a <= out -> out <= qn b -> small a ->
  let r := fold_left (fun out ij => rnd (out + entry costs ij)) l out in qn a <= r /\ r <= qn (b + length l).
Proof.
  induction l as [|ij l IH]; intros H a b out Sm Ha Hb Sa; cbn [fold_left length].
  - rewrite Nat.add_0_r. auto.
  - cbn [length] in Sm. destruct (H ij (or_introl eq_refl)) as [E0 E1]. replace (b + S (length l))%nat with (S b + length l)%nat in * by lia.
    apply IH; auto.
    + intros ij' I. apply H. right; auto.
    + apply (rnd_ge_qn rnd L); auto. clear - Ha E0. qclra.
    + apply (rnd_le_qn rnd L); [eapply small_le; [|exact Sm]; lia|]. rewrite qn_S. clear - Hb E1. qclra.
Qed.

Lemma fold_sub_range costs l : (forall ij, In ij l -> 0 <= entry costs ij <= 1) -> forall a b out,
  (length l <= a)%nat -> (a <= b)%nat -> small b -> qn a <= out -> out <= qn b ->
  let r := fold_left (fun out ij => rnd (out - entry costs ij)) l out in qn (a - length l) <= r /\ r <= qn b.
Proof.
  induction l as [|ij l IH]; intros H a b out Hl Hab Sm Ha Hb; cbn [fold_left length].
  - rewrite Nat.sub_0_r. auto.
  - destruct (H ij (or_introl eq_refl)) as [E0 E1]. cbn [length] in Hl. replace (a - S (length l))%nat with (a - 1 - length l)%nat by lia.
    apply IH; auto; try lia.
    + intros ij' I. apply H. right; auto.
    + apply (rnd_ge_qn rnd L); [eapply small_le; [|exact Sm]; lia|].
      assert (qn a = qn (a - 1) + 1) as Ea by (rewrite <- qn_S; f_equal; lia). clear - Ha E1 Ea. qclra.
    + apply (rnd_le_qn rnd L); auto. clear - Hb E0. qclra.
Qed.

Lemma fold_add_zero costs l : (forall ij, In ij l -> entry costs ij = 0) ->
  fold_left (fun out ij => rnd (out + entry costs ij)) l 0 = 0.
Proof.
  induction l as [|ij l IH]; intros H; cbn [fold_left]; auto. rewrite (H ij) by (left; auto).
  assert (0 + 0 = 0) as -> by ring. rewrite (rnd_0 rnd L). apply IH. intros x I. apply H. right; auto.
Qed.

End Lawful.

(** *** Costs *)

Definition wcost (n : nat) (w1 w2 : str) : Qc :=
  if (length w1 + length w2 + 6 =? 2 * n)%nat then if eqd w1 w2 then 0 else 1
  else if in_dec qc_eq_dec (sim n w1 w2) [0] then 1 else dist n w1 w2 / qn (gram_count n w1 + gram_count n w2).

Lemma wcost_spec n (w1 w2 : str) : word_cost n w1 w2 (wcost n w1 w2).
Proof.
  unfold word_cost, wcost. destruct (Nat.eqb _ _); [reflexivity|]. rewrite <- sim_zero_iff. split; intros H.
  - exists (dist n w1 w2). split; [apply dist_is_nmd|]. destruct (in_dec _ _ _) as [[E|[]]|]; [|reflexivity].
    exfalso. symmetry in E. apply sim_zero_iff in E. contradiction.
  - destruct (in_dec _ _ _) as [|X]; [reflexivity|]. exfalso. apply X. left. auto.
Qed.

Lemma word_cost_unique n w1 w2 x y : word_cost n w1 w2 x -> word_cost n w1 w2 y -> x = y.
Proof.
  unfold word_cost. destruct (Nat.eqb _ _); [congruence|]. intros [A1 A2] [B1 B2].
  destruct (qc_eq_dec (sim n w1 w2) 0) as [E|E].
  - rewrite sim_zero_iff in E. rewrite A2, B2; auto.
  - assert (Sh : share_gram n w1 w2).
    { destruct (Nat.eq_dec (shared_count n w1 w2) 0) as [Z|Z].
      - exfalso. apply E. apply sim_zero_iff. apply shared_count_zero. exact Z.
      - unfold share_gram. destruct (existsb (fun g => if in_dec eqd g (grams n w2) then true else false) (grams n w1)) eqn:Ex.
        + apply existsb_exists in Ex. destruct Ex as (g & I & Hg). exists g. split; auto. destruct (in_dec eqd g (grams n w2)); [auto|discriminate].
        + exfalso. apply Z. apply shared_count_zero. intros (g & I & J). assert (existsb (fun g => if in_dec eqd g (grams n w2) then true else false) (grams n w1) = true); [|congruence].
          apply existsb_exists. exists g. split; auto. destruct (in_dec eqd g (grams n w2)); [auto|contradiction]. }
    destruct (A1 Sh) as (d & D1 & ->), (B1 Sh) as (e & D2 & ->). apply is_nmd_unique in D1, D2. congruence.
Qed.

Lemma share_adequate n w1 w2 : share_gram n w1 w2 -> (n <= length w1 + 2)%nat /\ (n <= length w2 + 2)%nat.
Proof.
  intros (g & G1 & G2). apply in_map_iff in G1, G2. destruct G1 as (i & _ & I), G2 as (j & _ & J).
  apply in_seq in I, J. unfold gram_count in *. lia.
Qed.

Lemma wcost_sym n (w1 w2 : str) : wcost n w1 w2 = wcost n w2 w1.
Proof.
  unfold wcost. rewrite (Nat.add_comm (length w1)), sim_sym, dist_sym, (Nat.add_comm (gram_count n w1)).
  destruct (Nat.eqb _ _); auto. destruct (eqd w1 w2), (eqd w2 w1); congruence.
Qed.

Lemma wcost_range n (w1 w2 : str) : 0 <= wcost n w1 w2 <= 1.
Proof.
  assert (U : 0 <= 1 <= 1) by (split; apply qleb_le; reflexivity). assert (Z : 0 <= 0 <= 1) by (split; apply qleb_le; reflexivity).
  unfold wcost. destruct (Nat.eqb _ _); [destruct (eqd w1 w2); auto|]. destruct (in_dec _ _ _) as [|X]; auto.
  assert (P : 0 < qn (gram_count n w1 + gram_count n w2)).
  { apply qn_pos. destruct (Nat.eq_dec (gram_count n w1 + gram_count n w2) 0) as [E|]; [|lia]. exfalso. apply X. left. symmetry.
    apply sim_zero_iff. intros H. apply share_adequate in H. unfold gram_count in E. lia. }
  split; [apply qdiv_nonneg; auto; apply dist_nonneg|]. apply qdiv_le_1; auto. rewrite qn_add. apply dist_upper.
Qed.

Lemma wcost_self n (w : str) : (n <= length w + 2)%nat -> wcost n w w = 0.
Proof.
  intros H. unfold wcost. destruct (Nat.eqb _ _); [destruct (eqd w w) as [|X]; [reflexivity|contradiction X; reflexivity]|].
  destruct (in_dec _ _ _) as [[E|[]]|_].
  - exfalso. symmetry in E. apply sim_zero_iff in E. apply E. exists (gram_at n w 0). assert (In (gram_at n w 0) (grams n w)); auto.
    unfold grams. apply in_map, in_seq. unfold gram_count. lia.
  - rewrite dist_self. unfold Qcdiv. ring.
Qed.

Lemma wcost_zero n (w1 w2 : str) : (2 <= n)%nat -> clean w1 -> clean w2 -> wcost n w1 w2 = 0 -> w1 = w2.
Proof.
  intros Hn C1 C2. unfold wcost. destruct (Nat.eqb_spec (length w1 + length w2 + 6) (2 * n)) as [E|E].
  - destruct (eqd w1 w2); auto. intros H. apply (qn_inj 1 0) in H. discriminate.
  - destruct (in_dec _ _ _) as [|X]; [intros H; apply (qn_inj 1 0) in H; discriminate|]. intros H.
    assert (Sh : sim n w1 w2 <> 0) by (intros Hs; apply X; left; auto).
    assert (P : (n <= length w1 + 2 /\ n <= length w2 + 2)%nat).
    { destruct (Nat.le_gt_cases n (length w1 + 2)), (Nat.le_gt_cases n (length w2 + 2)); auto; exfalso; apply Sh, sim_zero_iff;
        intros Y; apply share_adequate in Y; lia. }
    apply (dist_zero_eq n); try lia; auto.
    apply (qdiv_inj _ 0 (qn (gram_count n w1 + gram_count n w2))); [apply qn_pos; unfold gram_count; lia|].
    rewrite H. unfold Qcdiv. ring.
Qed.

Lemma cost_exact n (w1 w2 : str) : clean w1 -> clean w2 -> (2 <= n)%nat ->
  cost exact (PInt (Z.of_nat n)) (PStr w1) (PStr w2) = Ok (wcost n w1 w2).
Proof.
  intros C1 C2 Hn. unfold cost. rewrite nmd_call by auto. unfold nmd_value, wcost.
  assert (T : (num n w1 + num n w2 = Z.of_nat (length w1 + length w2 + 6) - Z.of_nat (2 * n))%Z).
  { unfold num, zlen. lia. }
  rewrite T. destruct (Z.eqb_spec (Z.of_nat (length w1 + length w2 + 6) - Z.of_nat (2 * n)) 0) as [E|E].
  - destruct (Nat.eqb_spec (length w1 + length w2 + 6) (2 * n)) as [_|X]; [reflexivity|lia].
  - destruct (Nat.eqb_spec (length w1 + length w2 + 6) (2 * n)) as [X|_]; [lia|]. f_equal.
    assert (Zn : qz (Z.of_nat (length w1 + length w2 + 6) - Z.of_nat (2 * n)) <> 0) by (intros H; apply E; apply (qz_inj _ 0); exact H).
    destruct (in_dec _ _ _) as [[Es|[]]|X].
    + rewrite <- Es. field. exact Zn.
    + assert (P : (n <= length w1 + 2 /\ n <= length w2 + 2)%nat).
      { destruct (Nat.le_gt_cases n (length w1 + 2)), (Nat.le_gt_cases n (length w2 + 2)); auto; exfalso; apply X; left; symmetry; apply sim_zero_iff;
          intros Y; apply share_adequate in Y; lia. }
      rewrite <- T, !num_pos_count by apply P. rewrite <- Nat2Z.inj_add. change (qz (Z.of_nat ?k)) with (qn k). f_equal.
      rewrite sim_dist, qn_add. ring.
Qed.
