(** [sum] as it is since Python 3.12, and what changes in nmd/emd_1d.py and
    nmd/nmd_index.py: property C117.  Each theorem is followed by a concrete
    case. *)
From Coq Require Import ZArith NArith QArith Qcanon List Bool Permutation Lia String.
From Verif Require Import Num Py ListAux PyDict Float64 EmdSpec EmdModel EmdProofs EmdFloatProofs EmdSlowProofs HybridModel FlowProofs GreedyProofs HybridProofs HybridFloatProofs
  NmdSpec NmdModel NmdProofs NmdFloatProofs Accuracy LookupFloat IndexSpec IndexModel IndexProofs IndexLoops IndexLookupProofs IndexResult IndexTop IndexFacts Ex Props_Nmd Props_Index.
From Verif Require Import HybridAccuracy CheckModel CheckProofs TestSuiteModel TestSuiteProofs Ieee NmdIeee IndexIeee Props_Ieee Props_HybridAccuracy Props_Accuracy Props_IndexIeee.
From Verif Require Import SumExact SumModel SumLookup SumAccuracy.
Import ListNotations.
Open Scope string_scope.
Open Scope list_scope.
Open Scope Qc_scope.

Lemma double_dbl x : double x -> dbl x.
Proof.
  intros (m & e & Hm & _ & E). assert (x = qz m * p2 e) as ->; [|apply dbl_scale, dbl_int; lia].
  apply Qc_is_canon. rewrite this_mul, this_qz, this_p2. exact E.
Qed.
Lemma doubles_dbl l : Forall double l -> Forall dbl l.
Proof. apply Forall_impl. intros x. apply double_dbl. Qed.

(** ** The sum itself *)

(** Up to two summands nothing changes. *)
Theorem sum_two_same : forall l, (List.length l <= 2)%nat -> Forall double l -> py_sum_new rnd64 l = py_sum rnd64 l.
Proof. intros l Ln F. apply sum_new_two; auto. apply doubles_dbl; auto. Qed.
Print Assumptions sum_two_same.

(** Without rounding it is the sum. *)
Lemma sum_step_exact l : forall f, fold_left (sum_step exact) l (f, 0) = (f + py_sum exact l, 0).
Proof.
  induction l as [|x l IH]; intros f; cbn [fold_left]; [change (py_sum exact []) with 0; rewrite Qcplus_0_r; reflexivity|].
  rewrite exact_sum_cons, Qcplus_assoc. assert (E : sum_step exact (f, 0) x = (f + x, 0)); [|rewrite E; apply IH].
  unfold sum_step, exact. f_equal. destruct (qleb (qabs x) (qabs f)); ring.
Qed.
Theorem sum_exact_same : forall l, py_sum_new exact l = py_sum exact l.
Proof.
  intros [|x l]; [reflexivity|]. cbn [py_sum_new]. rewrite sum_step_exact. rewrite qeqb_refl, exact_sum_cons. unfold exact at 1. rewrite Qcplus_0_l. reflexivity.
Qed.
Print Assumptions sum_exact_same.

(** Up to [2^25] summands, none negative: the relative error is at most
    [2^-52]. *)
Theorem sum_relative_error : forall l, (Z.of_nat (List.length l) <= 2 ^ 25)%Z -> Forall (fun x => double x /\ 0 <= x) l ->
  let s := py_sum exact l in 0 <= py_sum_new rnd64 l /\ qabs (py_sum_new rnd64 l - s) <= f 1 (2 ^ 52) * s.
Proof.
  intros l Hn F. cbv zeta. assert (E : f 1 (2 ^ 52) = u64 + u64) by (apply qeqb_eq; vm_compute; reflexivity). rewrite E.
  apply sum_new_accurate; auto; eapply Forall_impl; try exact F; intros x [H1 H2]; auto. apply double_dbl; auto.
Qed.
Print Assumptions sum_relative_error.

(** Adding from the left does not keep that bound. *)
Theorem sum_plain_error_refuted : exists l, Forall (fun x => double x /\ 0 <= x) l /\
  ~ qabs (py_sum rnd64 l - py_sum exact l) <= f 1 (2 ^ 52) * py_sum exact l.
Proof.
  exists [1; p2 (-53); p2 (-53); p2 (-53)]. split.
  - assert (T : double (p2 (-53)) /\ 0 <= p2 (-53)) by (split; [exists 1%Z, (-53)%Z; repeat split; try lia; reflexivity|discriminate]).
    constructor; [split; [exists 1%Z, 0%Z; repeat split; try lia; reflexivity|discriminate]|]. repeat constructor; try apply T.
  - rewrite <- qleb_le. vm_compute. discriminate.
Qed.
Print Assumptions sum_plain_error_refuted.

(** Raising one of four summands can lower the compensated sum; adding from
    the left is monotone. *)
Definition falls : list Qc := map (fun m => qz m * p2 (-107)) [2 ^ 53 - 1; 2 ^ 106; 2 ^ 53; 2 ^ 53 - 2]%Z.
Definition falls' : list Qc := map (fun m => qz m * p2 (-107)) [2 ^ 53 - 1; 2 ^ 106; 2 ^ 53 + 2; 2 ^ 53 - 2]%Z.
Lemma scaled_double m e : (Z.abs m < 2 ^ 53)%Z -> (-1074 <= e <= 971)%Z -> double (qz m * p2 e).
Proof. intros Hm He. exists m, e. split; auto. split; auto. rewrite this_mul, this_qz, this_p2. reflexivity. Qed.
Lemma falls_double : Forall (fun x => double x /\ 0 <= x <= 1) (falls ++ falls').
Proof.
  assert (T : forall m e m', (Z.abs m <? 2 ^ 53)%Z && (-1074 <=? e)%Z && (e <=? 971)%Z && qeqb (qz m * p2 e) (qz m' * p2 (-107)) &&
     qleb 0 (qz m' * p2 (-107)) && qleb (qz m' * p2 (-107)) 1 = true -> double (qz m' * p2 (-107)) /\ 0 <= qz m' * p2 (-107) <= 1).
  { intros m e m' H. rewrite !andb_true_iff, !qleb_le, qeqb_eq in H. destruct H as (((((Hm & He) & He') & E) & P) & Q). split; [|split; auto].
    rewrite <- E. apply scaled_double; lia. }
  assert (A := T (2 ^ 53 - 1)%Z (-107)%Z (2 ^ 53 - 1)%Z ltac:(vm_compute; reflexivity)). assert (B := T 1%Z (-1)%Z (2 ^ 106)%Z ltac:(vm_compute; reflexivity)).
  assert (C := T 1%Z (-54)%Z (2 ^ 53)%Z ltac:(vm_compute; reflexivity)). assert (D := T (2 ^ 52 + 1)%Z (-106)%Z (2 ^ 53 + 2)%Z ltac:(vm_compute; reflexivity)).
  assert (E := T (2 ^ 53 - 2)%Z (-107)%Z (2 ^ 53 - 2)%Z ltac:(vm_compute; reflexivity)).
  unfold falls, falls'. cbn [map app]. repeat (constructor; [assumption|]). constructor.
Qed.
Theorem sum_monotone_refuted : exists a b, Forall (fun x => double x /\ 0 <= x <= 1) (a ++ b) /\ Forall2 Qcle a b /\
  py_sum_new rnd64 b < py_sum_new rnd64 a /\ mean_new rnd64 b < mean_new rnd64 a.
Proof.
  exists falls, falls'. split; [apply falls_double|]. split; [|split].
  - unfold falls, falls'. cbn [map]. repeat (constructor; [apply qleb_le; vm_compute; reflexivity|]). constructor.
  - apply Qcnot_le_lt. rewrite <- qleb_le. vm_compute. discriminate.
  - apply Qcnot_le_lt. rewrite <- qleb_le. vm_compute. discriminate.
Qed.
Print Assumptions sum_monotone_refuted.

Example sum_case : let l := map (fun k => rnd64 (f 1 k)) [3; 3; 3; 6]%positive in
  qeqb (py_sum_new rnd64 l) (py_sum rnd64 l) = false /\
  qltb (qabs (py_sum_new rnd64 l - py_sum exact l)) (qabs (py_sum rnd64 l - py_sum exact l)) = true.
Proof. vm_compute. split; reflexivity. Qed.

(** ** Lookups with at most two n-gram sizes *)
Theorem lookup_sum_same : forall casefold, (forall w, casefold (casefold w) = casefold w) ->
  forall st o word top_k normalize, reachable rnd64 casefold st -> fair o -> (zlen (n_list st) <= 2)%Z ->
  (normalize = false -> short_words st /\ few_sizes st /\ short_query casefold st word) ->
  lookup rnd64 casefold (mean_new rnd64) o st word top_k normalize = lookup rnd64 casefold (mean1 rnd64) o st word top_k normalize /\
  forall invert, lookup_v5 rnd64 casefold (mean_new rnd64) o st word top_k normalize invert =
                 lookup_v5 rnd64 casefold (mean1 rnd64) o st word top_k normalize invert.
Proof.
  intros casefold CI st o word top_k nz Re F N2 B. pose proof (reachable_inv rnd64 casefold st (rnd_0 _ rnd64_lawful) CI Re) as I.
  unfold lookup, lookup_v5. destruct (lookup_checks casefold st word top_k) as [[q k]|] eqn:E; [|split; reflexivity]. cbn [bind].
  rewrite (similarity_new casefold st I q); auto; [unfold zlen in N2; lia|].
  intros Z. destruct (B Z) as (SW & [SN SL] & SQ). split; [|split; [apply short_words_brief; auto|split; auto; apply Forall_forall; exact SN]].
  unfold lookup_checks in E. destruct word as [w| | | |]; try discriminate. cbn in SQ. destruct (zlen w =? 0)%Z; [discriminate|].
  destruct (as_int top_k); [|discriminate]. destruct (_ <=? 0)%Z; [discriminate|]. cbv zeta in E. destruct (_ || _); [discriminate|].
  assert (fold_case casefold st w = q) by congruence. subst q. exact SQ.
Qed.
Print Assumptions lookup_sum_same.

(** The same with gradual underflow. *)
Theorem lookup_sum_same_ieee : forall rnd casefold, double_rounding rnd -> (forall w, casefold (casefold w) = casefold w) ->
  forall st o word top_k normalize, reachable rnd casefold st -> fair o -> (zlen (n_list st) <= 2)%Z ->
  short_words st -> few_sizes st -> short_query casefold st word ->
  lookup rnd casefold (mean_new rnd) o st word top_k normalize = lookup rnd64 casefold (mean1 rnd64) o st word top_k normalize /\
  forall invert, lookup_v5 rnd casefold (mean_new rnd) o st word top_k normalize invert =
                 lookup_v5 rnd64 casefold (mean1 rnd64) o st word top_k normalize invert.
Proof.
  intros rnd casefold D CI st o word top_k nz Re F N2 SW SN SQ.
  destruct (lookup_ieee rnd casefold D CI st o word top_k nz Re F SW SN SQ) as [<- L5].
  pose proof (reachable_ieee rnd casefold D CI st Re SW) as Re'.
  pose proof (reachable_inv rnd casefold st (double_0 rnd D) CI Re) as I'.
  pose proof (reachable_inv rnd64 casefold st (rnd_0 _ rnd64_lawful) CI Re') as I.
  assert (X : forall invert, lookup_v5 rnd casefold (mean_new rnd) o st word top_k nz invert = lookup_v5 rnd casefold (mean1 rnd) o st word top_k nz invert /\
     lookup rnd casefold (mean_new rnd) o st word top_k nz = lookup rnd casefold (mean1 rnd) o st word top_k nz).
  { intros invert. unfold lookup, lookup_v5. destruct (lookup_checks casefold st word top_k) as [[q k]|] eqn:E; [|split; reflexivity]. cbn [bind].
    assert (Hq : (zlen q <= 2 ^ 30)%Z).
    { unfold lookup_checks in E. destruct word as [w| | | |]; try discriminate. cbn in SQ. destruct (zlen w =? 0)%Z; [discriminate|].
      destruct (as_int top_k); [|discriminate]. destruct (_ <=? 0)%Z; [discriminate|]. cbv zeta in E. destruct (_ || _); [discriminate|].
      assert (fold_case casefold st w = q) by congruence. subst q. exact SQ. }
    assert (B : lengths st q) by (split; auto; split; [apply short_words_brief; auto|]; split; [apply Forall_forall; apply SN|apply SN]).
    rewrite (similarity_new_double casefold st I q) by (auto; unfold zlen in N2; lia). split; reflexivity. }
  split; [apply (X true)|]. intros invert. rewrite <- L5. apply X.
Qed.
Print Assumptions lookup_sum_same_ieee.

(** With three sizes the scores differ. *)
Theorem lookup_sum_same_refuted : exists st word, reachable rnd64 lower st /\ zlen (n_list st) = 3%Z /\
  lookup rnd64 lower (mean_new rnd64) ord0 st word (PInt 1) true <> lookup rnd64 lower (mean1 rnd64) ord0 st word (PInt 1) true.
Proof.
  exists (built64 [2; 3; 4]%Z 0 ["cabana"]), (PStr (w_ "banana")). split; [eapply built64_reachable; vm_compute; reflexivity|]. split; [reflexivity|].
  assert (K : forall r r' : result (list (str * (Qc * Qc))), r = r' ->
     match r, r' with Ok [(_, (s, _))], Ok [(_, (s', _))] => qeqb s s' | _, _ => true end = true).
  { intros r r' <-. destruct r as [[|[w [s t]] [|]]|]; auto. apply qeqb_refl. }
  intros H. apply K in H. vm_compute in H. discriminate.
Qed.
Print Assumptions lookup_sum_same_refuted.

Example lookup_sum_case : let st := built64 [2; 4]%Z 0 ["bandana"; "banana"; "cabana"; "ananas"] in
  reachable rnd64 lower st /\ zlen (n_list st) = 2%Z /\ short_words st /\ few_sizes st /\ short_query lower st (PStr (w_ "Bananas")) /\
  match lookup rnd64 lower (mean_new rnd64) ord0 st (PStr (w_ "Bananas")) (PInt 2) false with Ok l => map fst l = [w_ "ananas"; w_ "banana"] | _ => False end.
Proof.
  cbv zeta. split; [eapply built64_reachable; vm_compute; reflexivity|]. split; [reflexivity|]. split; [|split; [|split]].
  - intros w Hw. vm_compute in Hw. repeat (destruct Hw as [<-|Hw]; [vm_compute; discriminate|]). destruct Hw.
  - split; [|vm_compute; discriminate]. intros n Hn. vm_compute in Hn. destruct Hn as [<-|[<-|[]]]; lia.
  - vm_compute. discriminate.
  - vm_compute. reflexivity.
Qed.

(** ** The distances that use [sum] *)
Lemma zip_dbl px : forall py, Forall dbl (zip_abs rnd64 px py).
Proof. induction px as [|x px IH]; intros [|y py]; cbn [zip_abs]; constructor; auto. apply dbl_abs, dbl_rnd64. Qed.
Lemma zip_len r px : forall py, (List.length (zip_abs r px py) <= List.length px)%nat.
Proof. induction px as [|x px IH]; intros [|y py]; cbn [zip_abs List.length]; try lia. specialize (IH py). lia. Qed.
Lemma zip_exact_near px : forall py, close 1 px py ->
  qabs (py_sum exact (zip_abs rnd64 px py) - py_sum exact (zip_abs exact px py)) <= u64 * py_sum exact (zip_abs exact px py) /\
  0 <= py_sum exact (zip_abs exact px py) <= qn (List.length px).
Proof.
  induction px as [|x px IH]; intros [|y py] C; cbn [zip_abs List.length]; try (change (py_sum exact []) with 0; rewrite Qcmult_0_r; split; [apply Qcle_refl|split; [apply Qcle_refl|apply qn_nonneg]]).
  rewrite !exact_sum_cons, qn_S. destruct (IH py) as (E & P & B); [eapply close_sub; [exact C|intros; right; auto..]|].
  assert (Cxy : qabs (x - y) <= 1) by (apply C; left; auto). pose proof (rnd64_accurate (x - y)) as A. change (exact (x - y)) with (x - y).
  pose proof (qabs_nonneg (x - y)) as N. set (d := x - y) in *. clearbody d. set (r := rnd64 d) in *. clearbody r.
  rewrite Qcmult_plus_distr_r. set (s := py_sum exact (zip_abs rnd64 px py)) in *. clearbody s. set (t := py_sum exact (zip_abs exact px py)) in *. clearbody t.
  revert E A. generalize (u64 * t) (u64 * qabs d). intros e1 e2 E A. split; [|split]; clear - E A P B N Cxy; qclra.
Qed.
Lemma sum_new_adds_up N : (1 <= N)%nat -> (Z.of_nat N <= 2 ^ 25)%Z -> adds_up u64 rnd64 N (py_sum_new rnd64).
Proof.
  intros N1 HN px py C Hn. pose proof (zip_len rnd64 px py) as Ln.
  destruct (sum_new_accurate (zip_abs rnd64 px py)) as [P A]; [lia|apply zip_dbl|apply zip_abs_nonneg|]. split; auto.
  destruct (zip_exact_near px py C) as (E0 & P1 & B). unfold within, HybridAccuracy.E.
  set (r := py_sum_new rnd64 (zip_abs rnd64 px py)) in *. clearbody r. set (s := py_sum exact (zip_abs rnd64 px py)) in *. clearbody s.
  set (t := py_sum exact (zip_abs exact px py)) in *. clearbody t.
  assert (U : 0 <= u64) by discriminate.
  assert (T : u64 * t <= u64 * qn (List.length px)) by (apply qmul_le_l; auto).
  assert (G : u64 * (u64 * t) <= u64 * t * Q2Qc (1 # 8)).
  { replace (u64 * (u64 * t)) with (u64 * t * u64) by ring. apply qmul_le_l; [apply qmul_nonneg; auto|discriminate]. }
  assert (Us : u64 * s <= u64 * t + u64 * (u64 * t)).
  { rewrite <- Qcmult_plus_distr_r. apply qmul_le_l; auto. revert E0. generalize (u64 * t). clear. intros. qclra. }
  rewrite Qcmult_plus_distr_l in A.
  assert (Z : u64 * qn (List.length px) + u64 * qn (List.length px) + u64 * qn (List.length px) + u64 * qn (List.length px) <= qn (2 * List.length px) * (u64 * qn (N + 1))).
  { replace (u64 * qn (List.length px) + u64 * qn (List.length px) + u64 * qn (List.length px) + u64 * qn (List.length px)) with (qn (2 * List.length px) * (u64 * qn 2)).
    - apply qmul_le_l; [apply qn_nonneg|]. apply qmul_le_l; auto. apply qn_le. lia.
    - replace (2 * List.length px)%nat with (List.length px + List.length px)%nat by lia. rewrite qn_add. change (qn 2) with (1 + 1). ring. }
  eapply Qcle_trans; [|exact Z]. assert (U0 : 0 <= u64 * t) by (apply qmul_nonneg; auto).
  revert T G Us A E0 U0. generalize (u64 * (u64 * t)) (u64 * s) (u64 * t) (u64 * qn (List.length px)). clear. intros a b c d T G Us A E0 U0. qclra.
Qed.

Section Size.
Variables xs ys : list Qc.
Let n := (List.length xs + List.length ys)%nat.
Hypothesis C : close 1 xs ys.
Hypothesis Hn : (Z.of_nat n <= 2 ^ 25)%Z.
Let err := qn (6 * n) * (u64 * qn (n + 1)).
Lemma ordered_new_err rest :
  (forall N, (1 <= N)%nat -> (Z.of_nat N <= 2 ^ 25)%Z -> rest_body u64 N rest) ->
  exists d, ordered_with rnd64 (py_sum_new rnd64) rest xs ys = Ok d /\ qabs (d - emd xs ys) <= err.
Proof.
  intros HR. destruct (Nat.eq_dec n 0) as [Z|NZ].
  - unfold n in Z. destruct xs; [|simpl in Z; lia]. destruct ys; [|simpl in Z; lia]. exists 0. split; [reflexivity|]. rewrite emd_nil. vm_compute. discriminate.
  - assert (N1 : (1 <= n)%nat) by lia.
    destruct (ordered_with_near u64 (proj1 unit_64) (proj2 unit_64) rnd64 rnd64_lawful rnd64_accurate n N1 (budget_64 n Hn) ltac:(unfold small; lia)
      (py_sum_new rnd64) rest (sum_new_adds_up n N1 Hn) (HR n N1 Hn) xs ys (le_n _) C) as (d & H & W). exists d. split; auto.
Qed.
Lemma hybrid_new_err : exists d, emd_1d_hybrid_with rnd64 (py_sum_new rnd64) xs ys = Ok d /\ qabs (d - emd xs ys) <= err.
Proof.
  rewrite hybrid_with_ordered. apply ordered_new_err. intros N N1 HN.
  apply (hybrid_rest_near u64 (proj1 unit_64) (proj2 unit_64) rnd64 rnd64_lawful rnd64_accurate N N1 (budget_64 N HN)). unfold small; lia.
Qed.
Lemma old_new_err : exists d, emd_1d_old_with rnd64 (py_sum_new rnd64) xs ys = Ok d /\ qabs (d - emd xs ys) <= err.
Proof.
  rewrite old_with_ordered. apply ordered_new_err. intros N N1 HN.
  apply (old_rest_with_near u64 (proj1 unit_64) (proj2 unit_64) rnd64 rnd64_lawful rnd64_accurate N N1 (budget_64 N HN)); [unfold small; lia|].
  apply sum_new_adds_up; auto.
Qed.
End Size.

(** The same bound as with the plain sum. *)
Theorem hybrid_sum_accurate : forall xs ys d e, (forall x y, In x xs -> In y ys -> qabs (x - y) <= 1) ->
  let n := (List.length xs + List.length ys)%nat in (Z.of_nat n <= 2 ^ 25)%Z ->
  emd_1d_hybrid_with rnd64 (py_sum_new rnd64) xs ys = Ok d -> is_emd xs ys e -> qabs (d - e) <= qn (6 * (n * (n + 1))) * f 1 (2 ^ 53).
Proof.
  intros xs ys d e C n Hn H He. rewrite <- (emd_unique xs ys e He), <- err_64.
  destruct (hybrid_new_err xs ys C Hn) as (d' & E' & B). rewrite H in E'. injection E' as <-. exact B.
Qed.
Print Assumptions hybrid_sum_accurate.
Theorem old_sum_accurate : forall xs ys d e, (forall x y, In x xs -> In y ys -> qabs (x - y) <= 1) ->
  let n := (List.length xs + List.length ys)%nat in (Z.of_nat n <= 2 ^ 25)%Z ->
  emd_1d_old_with rnd64 (py_sum_new rnd64) xs ys = Ok d -> is_emd xs ys e -> qabs (d - e) <= qn (6 * (n * (n + 1))) * f 1 (2 ^ 53).
Proof.
  intros xs ys d e C n Hn H He. rewrite <- (emd_unique xs ys e He), <- err_64.
  destruct (old_new_err xs ys C Hn) as (d' & E' & B). rewrite H in E'. injection E' as <-. exact B.
Qed.
Print Assumptions old_sum_accurate.

(** [emd_1d_slow], with either [sum]. *)
Lemma slow_err add_up xs ys e : (forall x y, In x xs -> In y ys -> qabs (x - y) <= 1) -> add_up [] = 0 ->
  (forall N, (1 <= N)%nat -> (Z.of_nat N <= 2 ^ 25)%Z -> adds_up u64 rnd64 N add_up) ->
  let n := (List.length xs + List.length ys)%nat in (Z.of_nat n <= 2 ^ 25)%Z -> is_emd xs ys e ->
  qabs (emd_1d_slow_with rnd64 add_up xs ys - e) <= qn ((2 * n + 1) * (n + 1)) * f 1 (2 ^ 53).
Proof.
  intros C Z AU n Hn He. rewrite <- (emd_unique xs ys e He). change (f 1 (2 ^ 53)) with u64.
  assert (Q : qn ((2 * n + 1) * (n + 1)) * u64 = qn (2 * n + 1) * (u64 * qn (n + 1))).
  { unfold qn at 1. rewrite Nat2Z.inj_mul.
    replace (qz (Z.of_nat (2 * n + 1) * Z.of_nat (n + 1))) with (qn (2 * n + 1) * qn (n + 1)); [ring|].
    unfold qn, qz. apply Qc_is_canon. rewrite this_mul, !this_const, inject_Z_mult. reflexivity. }
  rewrite Q. destruct (Nat.eq_dec n 0) as [Z0|NZ].
  - unfold n in *. destruct xs; [|simpl in Z0; lia]. destruct ys; [|simpl in Z0; lia]. rewrite emd_nil.
    change (emd_1d_slow_with rnd64 add_up [] []) with (rnd64 (qz 0 + py_min (qz 0) [add_up []])). rewrite Z. vm_compute. discriminate.
  - assert (N1 : (1 <= n)%nat) by lia.
    apply (slow_with_near u64 (proj1 unit_64) rnd64 rnd64_accurate n N1 add_up (AU n N1 Hn) xs ys C (le_n _)).
Qed.
Theorem slow_sum_accurate : forall xs ys e, (forall x y, In x xs -> In y ys -> qabs (x - y) <= 1) ->
  let n := (List.length xs + List.length ys)%nat in (Z.of_nat n <= 2 ^ 25)%Z -> is_emd xs ys e ->
  qabs (emd_1d_slow_with rnd64 (py_sum_new rnd64) xs ys - e) <= qn ((2 * n + 1) * (n + 1)) * f 1 (2 ^ 53) /\
  qabs (emd_1d_slow rnd64 xs ys - e) <= qn ((2 * n + 1) * (n + 1)) * f 1 (2 ^ 53).
Proof.
  intros xs ys e C n Hn He. split.
  - apply slow_err; auto. intros. apply sum_new_adds_up; auto.
  - change (emd_1d_slow rnd64 xs ys) with (emd_1d_slow_with rnd64 (py_sum rnd64) xs ys). apply slow_err; auto.
    intros N N1 HN. apply (py_sum_adds_up u64 (proj1 unit_64) rnd64 rnd64_lawful rnd64_accurate N N1 (budget_64 N HN)).
Qed.
Print Assumptions slow_sum_accurate.

(** The tests of tests/test_emd_correctness.py pass with either [sum]. *)
Theorem check_sum_accepts : forall xs ys, (List.length xs + List.length ys <= 860)%nat ->
  (forall x y, In x xs -> In y ys -> qabs (x - y) <= 1) ->
  exists d, emd_1d_old_with rnd64 (py_sum_new rnd64) xs ys = Ok d /\ check_emd_implementations_with rnd64 (py_sum_new rnd64) nano xs ys nano = Ok d.
Proof.
  intros xs ys Hn C. assert (Hn' : (Z.of_nat (List.length xs + List.length ys) <= 2 ^ 25)%Z) by lia.
  assert (B := budget_64 _ Hn').
  destruct (hybrid_new_err xs ys C Hn') as (dh & Eh & Bh), (old_new_err xs ys C Hn') as (do & Eo & Bo).
  destruct (dp_err u64 (proj1 unit_64) (proj2 unit_64) rnd64 rnd64_lawful rnd64_accurate xs ys C ltac:(unfold small; lia) B) as (dd & Ed & Bd).
  exists do. split; auto. unfold check_emd_implementations_with.
  change (emd_1d_dp_optimized rnd64 xs ys) with (emd_1d_dp rnd64 xs ys). rewrite Eo, Ed, Eh. cbn [bind].
  replace (qltb nano 0) with false by (vm_compute; reflexivity).
  pose proof (nano_enough _ Hn) as NE.
  rewrite !(isclose_ok u64 (proj1 unit_64) rnd64 rnd64_accurate xs ys) by auto. reflexivity.
Qed.
Print Assumptions check_sum_accepts.

(** The two sums do give different distances. *)
Example hybrid_sum_case : let xs := map (fun k => rnd64 (f k 11)) [1; 2; 3; 4]%Z in let ys := map (fun k => rnd64 (f k 7)) [1; 2; 3; 5]%Z in
  in_unit xs /\ in_unit ys /\
  match emd_1d_hybrid_with rnd64 (py_sum_new rnd64) xs ys, emd_1d_hybrid rnd64 xs ys, emd_1d_dp exact xs ys with
  | Ok d, Ok d', Ok e => negb (qeqb d d') && qltb (qabs (d - e)) (qabs (d' - e)) | _, _, _ => false end = true.
Proof.
  cbv zeta. split; [repeat constructor; vm_compute; discriminate|]. split; [repeat constructor; vm_compute; discriminate|]. vm_compute. reflexivity.
Qed.

(** Five points and four: none of the costs is exact. *)
Example slow_sum_case : let xs := map (fun k => rnd64 (f k 11)) [1; 2; 3; 4; 10]%Z in let ys := map (fun k => rnd64 (f k 7)) [1; 2; 3; 5]%Z in
  in_unit xs /\ in_unit ys /\
  match emd_1d_dp exact xs ys with
  | Ok e => negb (qeqb (emd_1d_slow_with rnd64 (py_sum_new rnd64) xs ys) e) && qleb (qabs (emd_1d_slow_with rnd64 (py_sum_new rnd64) xs ys - e)) (qn 4 * u64)
  | _ => false end = true.
Proof.
  cbv zeta. split; [repeat constructor; vm_compute; discriminate|]. split; [repeat constructor; vm_compute; discriminate|]. vm_compute. reflexivity.
Qed.
