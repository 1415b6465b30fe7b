(** How far binary64 results are from the true values, and what survives of
    the promises of [lookup] with normalized scores: properties C81 - C84.
    Each theorem is followed by a concrete case. *)
From Coq Require Import ZArith NArith QArith Qcanon List Bool Permutation Lia String Sorted.
From Verif Require Import Num Py ListAux PyDict Float64 EmdSpec EmdModel EmdProofs EmdFloatProofs
  NmdSpec NmdModel NmdProofs NmdFloatProofs IndexSpec IndexModel IndexProofs IndexLoops IndexLookupProofs IndexResult IndexTop
  IndexScore IndexFacts Ex Props_Nmd Props_Index.
From Verif Require Import Accuracy NmdAccuracy LookupFloat SelfFloat.
Import ListNotations.
Open Scope Qc_scope.

Lemma qn_Z z : (0 <= z)%Z -> qn (Z.to_nat z) = qz z.
Proof. intros H. unfold qn. rewrite Z2Nat.id; auto. Qed.
Lemma u64_0 : 0 <= u64. Proof. discriminate. Qed.
Lemma u64_1 : u64 <= 1. Proof. discriminate. Qed.
Lemma u64_lt : u64 < 1. Proof. reflexivity. Qed.

(** *** C81: the earth mover's distance *)
Theorem emd_1d_dp_accurate : forall xs ys d e, (Z.of_nat (List.length xs + List.length ys + 1) <= 2 ^ 52)%Z ->
  emd_1d_dp rnd64 xs ys = Ok d -> is_emd xs ys e ->
  qabs (d - e) <= qn (List.length xs + List.length ys + 1) * f 1 (2 ^ 52) * e.
Proof.
  intros xs ys d e Hk Hd He. set (k := (List.length xs + List.length ys + 1)%nat) in *.
  destruct (dp_near u64 u64_0 u64_1 rnd64 rnd64_lawful rnd64_accurate xs ys d e Hd He) as [B1 B2]. fold k in B1, B2.
  assert (E0 : 0 <= e) by (rewrite <- (emd_unique xs ys e He); apply emd_nonneg).
  assert (E2 : f 1 (2 ^ 52) = qn 2 * u64) by (apply Qc_is_canon; reflexivity).
  assert (K1 : qn 2 * (qn k * u64) <= 1).
  { assert (X : qn k <= qz (2 ^ 52)) by (unfold qn; apply (proj1 (qz_le _ _)); exact Hk).
    replace (qn 2 * (qn k * u64)) with (qn k * (qn 2 * u64)) by ring.
    eapply Qcle_trans; [apply qmul_le_r; [discriminate|exact X]|]. vm_compute. discriminate. }
  pose proof (hi_linear u64 u64_0 u64_1 k K1) as Hh. pose proof (lo_linear u64 u64_0 u64_1 k) as Hl.
  assert (X1 : d <= (1 + qn 2 * (qn k * u64)) * e) by (eapply Qcle_trans; [exact B2|]; apply qmul_le_r; auto).
  assert (X2 : (1 - qn k * u64) * e <= d) by (eapply Qcle_trans; [|exact B1]; apply qmul_le_r; auto).
  rewrite E2. assert (T : 0 <= qn k * u64 * e) by (repeat apply qmul_nonneg; auto; [apply qn_nonneg|discriminate]).
  replace (qn k * (qn 2 * u64) * e) with (qn 2 * (qn k * u64 * e)) by ring.
  replace ((1 + qn 2 * (qn k * u64)) * e) with (e + qn 2 * (qn k * u64 * e)) in X1 by ring.
  replace ((1 - qn k * u64) * e) with (e - qn k * u64 * e) in X2 by ring.
  set (t := qn k * u64 * e) in *. clearbody t. change (qn 2) with (Q2Qc 2) in *. clear - X1 X2 T. apply qabs_le; qclra.
Qed.
Print Assumptions emd_1d_dp_accurate.

(** The result is not the true value: 1/10 and 7/10 (as floats). *)
Example ex_emd_accurate : let xs := [rnd64 (f 1 10); rnd64 (f 1 3)] in let ys := [rnd64 (f 7 10); rnd64 (f 2 3)] in
  match emd_1d_dp rnd64 xs ys, emd_1d_dp exact xs ys with
  | Ok d, Ok e => negb (qeqb d e) && qleb (qabs (d - e)) (qn 5 * f 1 (2 ^ 52) * e) | _, _ => false end = true.
Proof. vm_compute. reflexivity. Qed.

(** *** C82: the n-gram mover's distance *)
(** The value asked for, in terms of the true distance [e]. *)
Definition meant (n : nat) (w1 w2 : str) (invert normalize : bool) (e : Qc) : Qc :=
  let N := qn (gram_count n w1 + gram_count n w2) in
  (if invert then N - e else e) / (if normalize then N else 1).

Theorem nmd_accurate : forall w1 w2 n invert normalize e, adequate n w1 -> adequate n w2 -> is_nmd n w1 w2 e ->
  let N := (gram_count n w1 + gram_count n w2)%nat in (Z.of_nat N <= 2 ^ 50)%Z ->
  exists x, ngram_movers_distance rnd64 (PStr w1) (PStr w2) (PInt (Z.of_nat n)) invert normalize = Ok x /\
    qabs (x - meant n w1 w2 invert normalize e) <= (if normalize then qn (3 * N + 5) else qn (N * (3 * N + 4))) * f 1 (2 ^ 53).
Proof.
  intros w1 w2 n iv nz e A1 A2 He N HN.
  assert (HU : qn 2 * (qn (N + 1) * u64) <= 1).
  { assert (X : qn (N + 1) <= qz (2 ^ 50 + 1)) by (unfold qn; apply (proj1 (qz_le _ _)); lia).
    eapply Qcle_trans; [apply qmul_le_l; [discriminate|]; apply qmul_le_r; [discriminate|exact X]|]. vm_compute. discriminate. }
  assert (SN : small N) by (unfold small; lia).
  destruct A1 as (C1 & Hn & L1), A2 as (C2 & _ & L2).
  destruct (nmd_acc u64 u64_0 u64_1 rnd64 rnd64_lawful rnd64_accurate n w1 w2 iv nz L1 L2 HU SN) as (d & t & E1 & E2 & B).
  assert (Call : forall rnd, ngram_movers_distance rnd (PStr w1) (PStr w2) (PInt (Z.of_nat n)) iv nz = nmd_body rnd w1 w2 (Z.of_nat n) iv nz).
  { intros rnd. unfold ngram_movers_distance. rewrite !check_word_clean by auto. cbn [bind]. unfold check_n. cbn [as_int].
    destruct (Z.ltb_spec (Z.of_nat n) 2); [lia|]. reflexivity. }
  exists d. split; [rewrite Call; exact E1|].
  assert (A1 : adequate n w1) by (split; auto). assert (A2 : adequate n w2) by (split; auto).
  assert (Ed : e = dist n w1 w2) by (eapply is_nmd_unique; eauto; apply dist_is_nmd). subst e.
  replace (meant n w1 w2 iv nz (dist n w1 w2)) with t; [exact B|].
  rewrite <- Call in E2. unfold meant. fold N.
  assert (Sm : sim n w1 w2 = qn N - dist n w1 w2) by (unfold N; rewrite sim_dist, qn_add; ring).
  destruct nz.
  - rewrite call_norm in E2 by auto. fold N in E2. rewrite Sm in E2. apply Ok_inj in E2. rewrite <- E2. destruct iv; reflexivity.
  - assert (Q : forall a, a / 1 = a) by (intros; field; discriminate). rewrite Q.
    destruct iv; [rewrite call_sim in E2 by auto|rewrite call_dist in E2 by auto]; apply Ok_inj in E2; rewrite <- E2; auto.
Qed.
Print Assumptions nmd_accurate.

(** Swapping the words moves the result by rounding errors only. *)
Theorem nmd_nearly_symmetric : forall w1 w2 n invert x y, adequate n w1 -> adequate n w2 ->
  let N := (gram_count n w1 + gram_count n w2)%nat in (Z.of_nat N <= 2 ^ 50)%Z ->
  ngram_movers_distance rnd64 (PStr w1) (PStr w2) (PInt (Z.of_nat n)) invert true = Ok x ->
  ngram_movers_distance rnd64 (PStr w2) (PStr w1) (PInt (Z.of_nat n)) invert true = Ok y ->
  qabs (x - y) <= qn (3 * N + 5) * f 1 (2 ^ 52).
Proof.
  intros w1 w2 n iv x y A1 A2 N HN Hx Hy.
  destruct (nmd_accurate w1 w2 n iv true (dist n w1 w2) A1 A2 (dist_is_nmd n w1 w2) HN) as (x' & Ex & Bx).
  destruct (nmd_accurate w2 w1 n iv true (dist n w2 w1) A2 A1 (dist_is_nmd n w2 w1)) as (y' & Ey & By); [unfold N in HN; lia|].
  assert (x' = x) by congruence. assert (y' = y) by congruence. subst x' y'.
  replace (gram_count n w2 + gram_count n w1)%nat with N in By by (unfold N; lia). fold N in Bx.
  assert (M : meant n w2 w1 iv true (dist n w2 w1) = meant n w1 w2 iv true (dist n w1 w2)).
  { unfold meant. rewrite (Nat.add_comm (gram_count n w2)).
    assert (dist n w2 w1 = dist n w1 w2) as ->; [|reflexivity].
    pose proof (nmd_symmetric w1 w2 (PInt (Z.of_nat n)) false false) as S. rewrite !call_dist in S by auto. congruence. }
  rewrite M in By. set (t := meant n w1 w2 iv true (dist n w1 w2)) in *. clearbody t.
  assert (f 1 (2 ^ 52) = f 1 (2 ^ 53) + f 1 (2 ^ 53)) as -> by (apply Qc_is_canon; reflexivity).
  rewrite Qcmult_plus_distr_r. set (b := qn (3 * N + 5) * f 1 (2 ^ 53)) in *. clearbody b. clear - Bx By.
  qclra.
Qed.
Print Assumptions nmd_nearly_symmetric.

(** "baa" and "aaba" in either order: not the same, but close. *)
Example ex_nearly_symmetric :
  match ngram_movers_distance rnd64 (PStr (w_ "baa")) (PStr (w_ "aaba")) (PInt 2) false true,
        ngram_movers_distance rnd64 (PStr (w_ "aaba")) (PStr (w_ "baa")) (PInt 2) false true,
        ngram_movers_distance exact (PStr (w_ "baa")) (PStr (w_ "aaba")) (PInt 2) false true with
  | Ok x, Ok y, Ok e => negb (qeqb x e && qeqb y e) && qleb (qabs (x - e)) (qn 32 * f 1 (2 ^ 53)) | _, _, _ => false end = true /\
  adequate 2 (w_ "baa") /\ adequate 2 (w_ "aaba") /\ (gram_count 2 (w_ "baa") + gram_count 2 (w_ "aaba") = 9)%nat.
Proof. split; [vm_compute; reflexivity|]. split; [solve_adequate|]. split; [solve_adequate|reflexivity]. Qed.

(** *** C83: [lookup] in binary64 with normalized scores *)

(** All sizes are at least 2, there are at most [m], and words and query are
    not too long. *)
Definition moderate (m len : Z) (st : wordlist) (q : str) : Prop :=
  (forall n, In n (n_list st) -> (2 <= n)%Z) /\ (zlen (n_list st) <= m)%Z /\
  forall w, In w (vocabulary st) -> (zlen q + zlen w <= len)%Z.

Section Lossless64.
Variable casefold : str -> str.
Variable st : wordlist.
Hypothesis I : inv rnd64 casefold st.
Variable q : str.
Hypothesis Cq : clean q.
Hypothesis Mo : moderate (2 ^ 20) 65532 st q.
Variable W : nat.
Hypothesis WZ : Z.of_nat W = 65536%Z.

Lemma W_val : qn W = qz 65536. Proof. unfold qn. rewrite WZ. reflexivity. Qed.
Lemma W_err : qn (W * (3 * W + 3)) = qz (65536 * (3 * 65536 + 3)).
Proof. unfold qn. f_equal. rewrite !Nat2Z.inj_mul, Nat2Z.inj_add, Nat2Z.inj_mul, WZ. reflexivity. Qed.

Lemma weights64 n w : In n (n_list st) -> In w (word_list st) -> (weight q n w <= W)%nat.
Proof.
  intros Hn Hw. destruct Mo as (_ & _ & H). apply vocabulary_in in Hw. specialize (H w Hw).
  pose proof (weight_le q n w ltac:(eapply NL_pos; eauto)). lia.
Qed.

Lemma separated64 : separated rnd64 (mean1 rnd64) st q true /\ forall i l, cand st q i -> bound rnd64 st q true i l -> Forall (fun x => 0 <= x) l.
Proof.
  assert (W1 : (1 <= W)%nat) by lia.
  assert (SW : small W) by (unfold small; lia).
  assert (HU : qn 2 * (qn (W + 1) * u64) <= 1) by (rewrite qn_add, W_val; vm_compute; discriminate).
  assert (G0 : 0 <= gamma u64 W) by (unfold gamma; rewrite W_err, W_val; vm_compute; discriminate).
  destruct Mo as (N2 & Lm & _).
  assert (GT : qn 4 * (qn (roundings W st) * u64) <= gamma u64 W).
  { assert (X : qn (roundings W st) <= qz (65536 + 2 * 2 ^ 20 + 4)).
    { unfold qn. apply (proj1 (qz_le _ _)). unfold roundings, zlen in *. lia. }
    eapply Qcle_trans; [apply qmul_le_l; [discriminate|]; apply qmul_le_r; [discriminate|exact X]|].
    unfold gamma. rewrite W_err, W_val. vm_compute. discriminate. }
  split.
  - eapply (separated_accurate u64 u64_0 u64_lt rnd64 rnd64_lawful rnd64_accurate W W1 SW HU G0 (mean1 rnd64) (fun _ => True)); eauto; try (apply weights64).
    intros l _. apply (mean1_near u64 u64_0 u64_1 rnd64 rnd64_accurate).
  - intros i l. eapply (low_near_nonneg u64 u64_0 u64_lt rnd64 rnd64_accurate W); eauto. apply weights64.
Qed.
End Lossless64.

Lemma moderate_size z : (0 <= z)%Z -> exists W, Z.of_nat W = z.
Proof. intros H. exists (Z.to_nat z). apply Z2Nat.id; auto. Qed.

(** What follows once pruning orders scores like bounds, for every way to
    take the mean. *)
Lemma lossless_from : forall casefold mean, (forall w, casefold (casefold w) = casefold w) ->
  forall st o word top_k nz q k R, reachable rnd64 casefold st -> fair o -> asks casefold st word top_k q k ->
  keeps rnd64 mean st q nz -> separated rnd64 mean st q nz ->
  lookup rnd64 casefold mean o st word top_k nz = Ok R ->
  (* a candidate left out scores no more than any word returned *)
  (forall w x, In w (vocabulary st) -> candidate (n_list st) (filter_n st) q w -> ~ In w (map fst R) ->
     similarity rnd64 mean (n_list st) q w nz = Ok x -> forall u s t, In (u, (s, t)) R -> x <= s) /\
  (* fewer than [top_k] words are returned only if there are fewer candidates *)
  (exists C, NoDup C /\ (forall w, In w C <-> In w (vocabulary st) /\ candidate (n_list st) (filter_n st) q w) /\
     List.length R = Nat.min (Z.to_nat k) (List.length C)).
Proof.
  intros casefold mean CI st o word top_k nz q k R Re F A M T H. pose proof rnd64_lawful as L.
  pose proof (reachable_inv rnd64 casefold st (rnd_0 rnd64 L) CI Re) as I. destruct (asks_clean _ _ _ _ _ _ A) as [Cq _].
  destruct (lookup_complete_separated rnd64 casefold mean L st I o word top_k nz q k F A M T R H)
    as (Ix & cs & -> & Nc & Hc & Ln & Ni & Hi & LL).
  split.
  - intros w x Hw Cw Nw Hx u s t Hu. rewrite vocabulary_in in Hw. destruct (in_wd st w Hw) as (j & Hj & <-).
    apply in_map_iff in Hu. destruct Hu as (r & E & Hr). unfold entry_of in E.
    assert (E2 : s = sc rnd64 mean st q nz r) by congruence. rewrite E2.
    rewrite (similarity_vec rnd64 casefold mean st I q j nz Cq Hj) in Hx. apply bind_ok in Hx. destruct Hx as (v & Hv & Ex).
    assert (x = mean v) as -> by congruence. apply (LL r j v Hr); [split; auto| |exact Hv].
    intros C. apply Nw. apply in_map_iff. exists (entry_of rnd64 mean st q nz j). split; auto. apply in_map; auto.
  - exists (map (wd st) cs). split; [|split].
    + apply NoDup_map_inj; auto. intros a b Ha Hb E. apply Hc in Ha, Hb. destruct Ha, Hb. eapply wd_inj; eauto.
    + intros w. rewrite in_map_iff, vocabulary_in. split.
      * intros (i & <- & Hi'). apply Hc in Hi'. destruct Hi'. split; auto. apply wd_in; auto.
      * intros [Hw Cw]. destruct (in_wd st w Hw) as (i & Hi' & <-). exists i. split; auto. apply Hc. split; auto.
    + rewrite !map_length. auto.
Qed.

Lemma keeps64 : forall casefold, (forall w, casefold (casefold w) = casefold w) -> forall st q, reachable rnd64 casefold st -> clean q -> moderate (2 ^ 20) 65532 st q ->
  keeps rnd64 (mean1 rnd64) st q true /\ separated rnd64 (mean1 rnd64) st q true.
Proof.
  intros casefold CI st q Re Cq Mo. pose proof rnd64_lawful as L. pose proof (reachable_inv rnd64 casefold st (rnd_0 rnd64 L) CI Re) as I.
  destruct (moderate_size 65536) as [W WZ]; [lia|]. destruct (separated64 casefold st I q Cq Mo W WZ) as [T NN].
  split; auto. apply averaging_keeps; auto. apply mean1_averaging; auto.
Qed.

Theorem lookup_lossless_binary64 : forall casefold, (forall w, casefold (casefold w) = casefold w) ->
  forall st o word top_k q k R, reachable rnd64 casefold st -> fair o -> asks casefold st word top_k q k ->
  moderate (2 ^ 20) 65532 st q ->
  lookup rnd64 casefold (mean1 rnd64) o st word top_k true = Ok R ->
  (* a candidate left out scores no more than any word returned *)
  (forall w x, In w (vocabulary st) -> candidate (n_list st) (filter_n st) q w -> ~ In w (map fst R) ->
     similarity rnd64 (mean1 rnd64) (n_list st) q w true = Ok x -> forall u s t, In (u, (s, t)) R -> x <= s) /\
  (* fewer than [top_k] words are returned only if there are fewer candidates *)
  (exists C, NoDup C /\ (forall w, In w C <-> In w (vocabulary st) /\ candidate (n_list st) (filter_n st) q w) /\
     List.length R = Nat.min (Z.to_nat k) (List.length C)).
Proof.
  intros casefold CI st o word top_k q k R Re F A Mo H.
  destruct (keeps64 casefold CI st q Re (proj1 (asks_clean _ _ _ _ _ _ A)) Mo) as [M T]. eapply lossless_from; eauto.
Qed.
Print Assumptions lookup_lossless_binary64.

(** Asking for everything returns exactly the candidates. *)
Lemma all_candidates_from : forall casefold mean, (forall w, casefold (casefold w) = casefold w) ->
  forall st o word top_k nz q k R, reachable rnd64 casefold st -> fair o -> asks casefold st word top_k q k ->
  keeps rnd64 mean st q nz -> separated rnd64 mean st q nz -> (Z.of_nat (List.length (vocabulary st)) <= k)%Z ->
  lookup rnd64 casefold mean o st word top_k nz = Ok R ->
  forall w, In w (map fst R) <-> In w (vocabulary st) /\ candidate (n_list st) (filter_n st) q w.
Proof.
  intros casefold mean CI st o word top_k nz q k R Re F A M T Hk H w. pose proof rnd64_lawful as L.
  destruct (lossless_from casefold mean CI st o word top_k nz q k R Re F A M T H) as [_ (C & Nc & Hc & Ln)].
  destruct (lookup_result_shape rnd64 casefold mean L CI st o word top_k nz q k R Re F A H) as (_ & Nr & Vr & _).
  assert (Inc : incl (map fst R) C).
  { intros u Hu. apply Hc. split; auto. apply in_map_iff in Hu. destruct Hu as ([u' [s t]] & E & Hu). cbn [fst] in E. subst u'.
    eapply lookup_scores; eauto. }
  assert (LC : (List.length C <= List.length (vocabulary st))%nat) by (apply NoDup_incl_length; auto; intros u Hu; apply Hc; auto).
  rewrite <- Hc. split; [apply Inc|].
  apply (NoDup_length_incl Nr (l' := C)); auto. rewrite map_length. lia.
Qed.

Theorem lookup_all_candidates_binary64 : forall casefold, (forall w, casefold (casefold w) = casefold w) ->
  forall st o word top_k q k R, reachable rnd64 casefold st -> fair o -> asks casefold st word top_k q k ->
  moderate (2 ^ 20) 65532 st q -> (Z.of_nat (List.length (vocabulary st)) <= k)%Z ->
  lookup rnd64 casefold (mean1 rnd64) o st word top_k true = Ok R ->
  forall w, In w (map fst R) <-> In w (vocabulary st) /\ candidate (n_list st) (filter_n st) q w.
Proof.
  intros casefold CI st o word top_k q k R Re F A Mo Hk H.
  destruct (keeps64 casefold CI st q Re (proj1 (asks_clean _ _ _ _ _ _ A)) Mo) as [M T]. eapply all_candidates_from; eauto.
Qed.
Print Assumptions lookup_all_candidates_binary64.

(** The fifth version: the [top_k] best candidates are among the results. *)
Lemma v5_lossless_from : forall casefold mean, (forall w, casefold (casefold w) = casefold w) ->
  forall st o word top_k nz invert q k R, reachable rnd64 casefold st -> fair o -> asks casefold st word top_k q k ->
  keeps rnd64 mean st q nz -> separated rnd64 mean st q nz ->
  lookup_v5 rnd64 casefold mean o st word top_k nz invert = Ok R ->
  exists B, incl B (map fst R) /\ NoDup B /\
    (exists C, NoDup C /\ (forall w, In w C <-> In w (vocabulary st) /\ candidate (n_list st) (filter_n st) q w) /\
       List.length B = Nat.min (Z.to_nat k) (List.length C)) /\
    forall b w s x, In b B -> In w (vocabulary st) -> candidate (n_list st) (filter_n st) q w -> ~ In w B ->
      similarity rnd64 mean (n_list st) q b nz = Ok s -> similarity rnd64 mean (n_list st) q w nz = Ok x -> x <= s.
Proof.
  intros casefold mean CI st o word top_k nz iv q k R Re F A M T H. pose proof rnd64_lawful as L.
  pose proof (reachable_inv rnd64 casefold st (rnd_0 rnd64 L) CI Re) as I. destruct (asks_clean _ _ _ _ _ _ A) as [Cq _].
  destruct (lookup_v5_complete_separated rnd64 casefold mean L st I o word top_k nz q k F A M T R iv H)
    as (Ix & cs & -> & Nc & Hc & Ni & HI & Iy & Inc & Ny & Ly & Ll).
  assert (P : Permutation (best qleb snd (map (v5_value rnd64 mean st q nz iv) Ix)) (map (v5_value rnd64 mean st q nz iv) Ix)) by apply best_perm.
  assert (Pf : Permutation (map fst (best qleb snd (map (v5_value rnd64 mean st q nz iv) Ix))) (map (wd st) Ix)).
  { etransitivity; [apply Permutation_map, P|]. rewrite map_map. apply Permutation_refl. }
  assert (Nw : forall l, NoDup l -> (forall i, In i l -> cand st q i) -> NoDup (map (wd st) l)).
  { intros l Nl Hl. apply NoDup_map_inj; auto. intros a b Ha Hb E. destruct (Hl a Ha), (Hl b Hb). eapply wd_inj; eauto. }
  exists (map (wd st) Iy). split; [|split; [|split]].
  + intros w Hw. apply (Permutation_in _ (Permutation_sym Pf)). apply in_map_iff in Hw. destruct Hw as (i & <- & Hi). apply in_map; auto.
  + apply Nw; auto.
  + exists (map (wd st) cs). split; [apply Nw; auto; intros; apply Hc; auto|]. split; [|rewrite !map_length; auto].
    intros w. rewrite in_map_iff, vocabulary_in. split.
    * intros (i & <- & Hi'). apply Hc in Hi'. destruct Hi'. split; auto. apply wd_in; auto.
    * intros [Hw Cw]. destruct (in_wd st w Hw) as (i & Hi' & <-). exists i. split; auto. apply Hc. split; auto.
  + intros b w s x Hb Hw Cw Nb Hs Hx. apply in_map_iff in Hb. destruct Hb as (r & <- & Hr).
    rewrite vocabulary_in in Hw. destruct (in_wd st w Hw) as (j & Hj & <-).
    assert (Hrl : (r < List.length (word_list st))%nat) by (apply Inc, HI in Hr; apply Hr).
    rewrite (similarity_sc rnd64 casefold mean st I q r nz s Cq Hrl Hs).
    rewrite (similarity_vec rnd64 casefold mean st I q j nz Cq Hj) in Hx. apply bind_ok in Hx. destruct Hx as (v & Hv & Ex).
    assert (x = mean v) as -> by congruence. apply (Ll r j v Hr); [split; auto| |exact Hv].
    intros C. apply Nb. apply in_map; auto.
Qed.

Theorem lookup_v5_lossless_binary64 : forall casefold, (forall w, casefold (casefold w) = casefold w) ->
  forall st o word top_k invert q k R, reachable rnd64 casefold st -> fair o -> asks casefold st word top_k q k ->
  moderate (2 ^ 20) 65532 st q ->
  lookup_v5 rnd64 casefold (mean1 rnd64) o st word top_k true invert = Ok R ->
  exists B, incl B (map fst R) /\ NoDup B /\
    (exists C, NoDup C /\ (forall w, In w C <-> In w (vocabulary st) /\ candidate (n_list st) (filter_n st) q w) /\
       List.length B = Nat.min (Z.to_nat k) (List.length C)) /\
    forall b w s x, In b B -> In w (vocabulary st) -> candidate (n_list st) (filter_n st) q w -> ~ In w B ->
      similarity rnd64 (mean1 rnd64) (n_list st) q b true = Ok s -> similarity rnd64 (mean1 rnd64) (n_list st) q w true = Ok x -> x <= s.
Proof.
  intros casefold CI st o word top_k iv q k R Re F A Mo H.
  destruct (keeps64 casefold CI st q Re (proj1 (asks_clean _ _ _ _ _ _ A)) Mo) as [M T]. eapply v5_lossless_from; eauto.
Qed.
Print Assumptions lookup_v5_lossless_binary64.

(** A list built in binary64. *)
Definition built64 (n : list Z) (fn : Z) (words : list string) : wordlist :=
  run rnd64 lower (fresh n fn) (map (fun s => (ord0, PStr (w_ s))) words).
Lemma built64_reachable n fn words st0 : wl_init (NIter n) (PBool false) fn = Ok st0 -> reachable rnd64 lower (built64 n fn words).
Proof.
  intros E. unfold built64. apply run_reachable.
  - unfold fresh. rewrite E. econstructor; eauto.
  - apply Forall_forall. intros c Hc. apply in_map_iff in Hc. destruct Hc as (s & <- & _). apply ord0_fair.
Qed.

(** The two best; with [top_k = 9] all candidates
    are there, and "q" is none. *)
Example ex_lossless64 : let st := built64 [2%Z; 4%Z] 2 ["abcd"; "bcda"; "abxx"; "zzab"; "q"] in
  reachable rnd64 lower st /\ moderate (2 ^ 20) 65532 st (w_ "abc") /\
  match lookup rnd64 lower (mean1 rnd64) ord0 st (PStr (w_ "abc")) (PInt 2) true with Ok R => map fst R = [w_ "abcd"; w_ "abxx"] | _ => False end /\
  match lookup rnd64 lower (mean1 rnd64) ord0 st (PStr (w_ "abc")) (PInt 9) true with
  | Ok R => map fst R = [w_ "abcd"; w_ "abxx"; w_ "zzab"; w_ "bcda"] | _ => False end.
Proof.
  cbv zeta. split; [eapply built64_reachable; vm_compute; reflexivity|]. split; [|split; vm_compute; reflexivity].
  split; [|split].
  - intros n Hn. vm_compute in Hn. destruct Hn as [<-|[<-|[]]]; lia.
  - vm_compute. discriminate.
  - intros w Hw. vm_compute in Hw. repeat (destruct Hw as [<-|Hw]; [vm_compute; discriminate|]). destruct Hw.
Qed.

(** *** C84: the query itself, in binary64 *)
Section Self64.
Variable casefold : str -> str.
Variable st : wordlist.
Hypothesis I : inv rnd64 casefold st.
Variable q : str.
Hypothesis Hq : In q (vocabulary st).
Hypothesis Pr : proper (n_list st) q.
Hypothesis Lm : (zlen (n_list st) <= 2 ^ 15)%Z.
Hypothesis Lw : forall w, In w (vocabulary st) -> (zlen q + zlen w <= 4092)%Z.
Variable W : nat.
Hypothesis WZ : Z.of_nat W = 4096%Z.

Lemma V_val : qn W = qz 4096. Proof. unfold qn. rewrite WZ. reflexivity. Qed.
Lemma V_err : qn (W * (3 * W + 3)) = qz (4096 * (3 * 4096 + 3)).
Proof. unfold qn. f_equal. rewrite !Nat2Z.inj_mul, Nat2Z.inj_add, Nat2Z.inj_mul, WZ. reflexivity. Qed.
Lemma V_sq : qn (W * W) = qz (4096 * 4096).
Proof. unfold qn. f_equal. rewrite !Nat2Z.inj_mul, WZ. reflexivity. Qed.

Lemma weights_self n w : In n (n_list st) -> In w (word_list st) -> (weight q n w <= W)%nat.
Proof.
  intros Hn Hw. apply vocabulary_in in Hw. specialize (Lw w Hw).
  pose proof (weight_le q n w ltac:(eapply NL_pos; eauto)). lia.
Qed.

(** For every way to take the mean that is accurate and takes ones to 1. *)
Variable mean : list Qc -> Qc.
Hypothesis M1 : mean (repeat 1 (List.length (n_list st))) = 1.
Hypothesis MN : forall w v, In w (vocabulary st) -> mapM (fun n => score1 rnd64 true q n w) (n_list st) = Ok v ->
  near u64 (S (List.length v)) (mean v) (avg v).

Lemma self_unique64 : similarity rnd64 mean (n_list st) q q true = Ok 1 /\
  forall w x, In w (vocabulary st) -> w <> q -> similarity rnd64 mean (n_list st) q w true = Ok x -> x < 1.
Proof.
  pose proof rnd64_lawful as L. destruct Pr as [N0 Pr']. rewrite Forall_forall in Pr'.
  pose proof Hq as Hq'. rewrite vocabulary_in in Hq'.
  assert (Cq : clean q) by (eapply words_clean; eauto).
  assert (W1 : (1 <= W)%nat) by lia. assert (SW : small W) by (unfold small; lia).
  assert (Fu : forall n w, In n (n_list st) -> In w (word_list st) -> faithful_upto rnd64 (weight q n w)).
  { intros n w Hn Hw. apply lawful_faithful; auto. pose proof (weights_self n w Hn Hw). unfold small in *. lia. }
  split.
  - unfold similarity. rewrite (mapM_ext_in _ (fun n => score1 rnd64 true q n q)) by (intros; eapply pair_score1; eauto).
    rewrite (mapM_Ok_in _ (fun _ => 1)). 2:{ intros n Hn. apply score1_self; auto. }
    cbn [bind]. f_equal. transitivity (mean (repeat 1 (List.length (n_list st)))).
    { f_equal. clear. induction (n_list st); simpl; congruence. }
    exact M1.
  - intros w x Hw N H. pose proof (MN w) as MN'. specialize (MN' ) with (1 := Hw). rewrite vocabulary_in in Hw. assert (Cw : clean w) by (eapply words_clean; eauto).
    unfold similarity in H. rewrite (mapM_ext_in _ (fun n => score1 rnd64 true q n w)) in H by (intros; eapply pair_score1; eauto).
    apply bind_ok in H. destruct H as (v & Hv & E). assert (x = mean v) as -> by congruence.
    pose proof (mapM_inv _ _ _ Hv) as B. cbn beta in B.
    assert (Ln : List.length v = List.length (n_list st)) by (clear - B; induction B; simpl; auto).
    assert (HU : qn 2 * (qn (W + 1) * u64) <= 1) by (rewrite qn_add, V_val; vm_compute; discriminate).
    assert (D0 : 0 <= / qn (W * W) - qn (W * (3 * W + 3)) * u64) by (rewrite V_err, V_sq; vm_compute; discriminate).
    apply (near_below u64 u64_0 u64_1 W W1 D0 v); auto.
    + intros ->. destruct (n_list st); [congruence|discriminate].
    + eapply Forall2_right; [|exact B]. intros n y Hn Hy. split.
      * apply (score1_nonneg rnd64 L true q n w y); auto. eapply NL_pos; eauto.
      * eapply (score_below u64 u64_0 u64_1 rnd64 L rnd64_accurate W W1 SW HU D0 q n w y); auto. apply weights_self; auto.
    + assert (X : qn (List.length v + 2) <= qz (2 ^ 15 + 2)).
      { unfold qn. apply (proj1 (qz_le _ _)). rewrite Ln. unfold zlen in *. lia. }
      eapply Qcle_lt_trans; [apply qmul_le_l; [discriminate|]; apply qmul_le_r; [discriminate|exact X]|].
      unfold delta. rewrite V_err, V_sq, V_val. vm_compute. reflexivity.
Qed.
End Self64.

Theorem lookup_self_unique_best_binary64 : forall casefold, (forall w, casefold (casefold w) = casefold w) ->
  forall st q, reachable rnd64 casefold st -> In q (vocabulary st) -> proper (n_list st) q -> moderate (2 ^ 15) 4092 st q ->
  similarity rnd64 (mean1 rnd64) (n_list st) q q true = Ok 1 /\
  forall w x, In w (vocabulary st) -> w <> q -> similarity rnd64 (mean1 rnd64) (n_list st) q w true = Ok x -> x < 1.
Proof.
  intros casefold CI st q Re Hq Pr (_ & Lm & Lw).
  pose proof (reachable_inv rnd64 casefold st (rnd_0 rnd64 rnd64_lawful) CI Re) as I.
  destruct (moderate_size 4096) as [W WZ]; [lia|]. eapply (self_unique64 casefold st I q Hq Pr Lm Lw W WZ).
  - assert (Sm : small (List.length (n_list st))) by (unfold small, zlen in *; lia).
    destruct Pr as [N0 _]. destruct (n_list st) as [|a l]; [congruence|]. apply (mean_one _ (mean1_averaging rnd64 rnd64_lawful)). exact Sm.
  - intros w v Hw Hv. pose proof (mapM_inv _ _ _ Hv) as B. cbn beta in B. apply (mean1_near u64 u64_0 u64_1 rnd64 rnd64_accurate).
    + eapply Forall2_right; [|exact B]. intros n y Hn Hy. apply (score1_nonneg rnd64 rnd64_lawful true q n w y); auto; [eapply NL_pos; eauto|].
      apply lawful_faithful; [apply rnd64_lawful|]. rewrite vocabulary_in in Hw. pose proof (weights_self casefold st I q Lw W WZ n w Hn Hw). unfold small in *. lia.
    + intros ->. destruct Pr as [N0 _]. inversion B as [E|]. symmetry in E. contradiction.
Qed.
Print Assumptions lookup_self_unique_best_binary64.

Lemma self_first_from : forall casefold mean, (forall w, casefold (casefold w) = casefold w) ->
  forall st o word top_k q k R, reachable rnd64 casefold st -> fair o -> asks casefold st word top_k q k ->
  In q (vocabulary st) -> proper (n_list st) q -> moderate (2 ^ 15) 4092 st q ->
  (filter_n st = 0 \/ 1 <= filter_n st <= zlen q + 2)%Z ->
  keeps rnd64 mean st q true -> separated rnd64 mean st q true ->
  similarity rnd64 mean (n_list st) q q true = Ok 1 ->
  (forall w x, In w (vocabulary st) -> w <> q -> similarity rnd64 mean (n_list st) q w true = Ok x -> x < 1) ->
  lookup rnd64 casefold mean o st word top_k true = Ok R ->
  exists rest, R = (q, (1, 1)) :: rest /\ forall w s t, In (w, (s, t)) rest -> w <> q /\ s < 1.
Proof.
  intros casefold mean CI st o word top_k q k R Re F A Hq Pr Mo Fi M T S1 S2 H. pose proof rnd64_lawful as L.
  destruct (lossless_from casefold mean CI st o word top_k true q k R Re F A M T H) as [LL (C & Nc & Hc & Ln)].
  destruct (lookup_result_shape rnd64 casefold mean L CI st o word top_k true q k R Re F A H) as (_ & Nr & Vr & So).
  destruct (asks_clean _ _ _ _ _ _ A) as [Cq Hk].
  pose proof (reachable_inv rnd64 casefold st (rnd_0 rnd64 L) CI Re) as I.
  assert (Q0 : q <> []) by (eapply words_nonempty; [exact I|]; rewrite vocabulary_in in Hq; auto).
  assert (Cand : candidate (n_list st) (filter_n st) q q).
  { destruct Pr as [N0 Pr]. rewrite Forall_forall in Pr. split.
    - destruct (n_list st) as [|a l]; [congruence|]. exists a. split; [left; auto|]. apply shares_self. left. apply Pr. left; auto.
    - destruct Fi as [Fi|Fi]; auto. right. apply shares_self.
      destruct (Z.eq_dec (filter_n st) 1); [right; split; auto|left; lia]. }
  assert (Inq : In q C) by (apply Hc; split; auto).
  assert (PC : (0 < List.length C)%nat) by (destruct C; [destruct Inq|simpl; lia]).
  assert (Sc : forall w s t, In (w, (s, t)) R -> (w = q -> s = 1 /\ t = 1) /\ (w <> q -> s < 1)).
  { intros w s t Hw. destruct (lookup_scores rnd64 casefold mean L CI st o word top_k true q k R Re F A H w s t Hw) as (E1 & E2 & E3 & _).
    split.
    - intros ->. split; [congruence|]. rewrite <- score1_nmd in E2 by (auto; lia).
      rewrite score1_self in E2; [congruence|auto| |].
      + apply lawful_faithful; auto. destruct Mo as (_ & _ & M3). specialize (M3 q Hq). pose proof (weight_le q 2 q ltac:(lia)). unfold small. lia.
      + unfold zlen. destruct q; [congruence|]. cbn [List.length]. lia.
    - intros N. eapply S2; eauto. }
  destruct R as [|[w [s t]] R]; [simpl in Ln; lia|].
  destruct (Sc w s t (or_introl eq_refl)) as [Sq So1].
  assert (Ew : w = q).
  { destruct (list_eq_dec N.eq_dec w q) as [|N]; auto. exfalso. pose proof (So1 N) as Hs.
    destruct (in_dec (list_eq_dec N.eq_dec) q (map fst ((w, (s, t)) :: R))) as [Hi|Hi].
    - apply in_map_iff in Hi. destruct Hi as ([q' [s' t']] & E & Hi). cbn [fst] in E. subst q'.
      destruct (Sc q s' t' Hi) as [Sq' _]. destruct (Sq' eq_refl) as [-> ->].
      destruct Hi as [E|Hi]; [congruence|]. inversion So as [|? ? So' Fa]; subst. rewrite Forall_forall in Fa. specialize (Fa _ Hi). cbn [fst snd] in Fa.
      clear - Fa Hs. destruct Fa as [Fa|[Fa _]]; [qclra|]. rewrite <- Fa in Hs. qclra.
    - pose proof (LL q 1 Hq Cand Hi S1 w s t (or_introl eq_refl)) as C1. clear - C1 Hs. qclra. }
  subst w. destruct (Sq eq_refl) as [-> ->]. exists R. split; auto.
  intros w s t Hw. inversion Nr; subst. assert (w <> q) by (intros ->; apply H2; apply in_map_iff; exists (q, (s, t)); auto).
  split; auto. apply (Sc w s t); auto. right; auto.
Qed.

Theorem lookup_self_first_binary64 : forall casefold, (forall w, casefold (casefold w) = casefold w) ->
  forall st o word top_k q k R, reachable rnd64 casefold st -> fair o -> asks casefold st word top_k q k ->
  In q (vocabulary st) -> proper (n_list st) q -> moderate (2 ^ 15) 4092 st q ->
  (filter_n st = 0 \/ 1 <= filter_n st <= zlen q + 2)%Z ->
  lookup rnd64 casefold (mean1 rnd64) o st word top_k true = Ok R ->
  exists rest, R = (q, (1, 1)) :: rest /\ forall w s t, In (w, (s, t)) rest -> w <> q /\ s < 1.
Proof.
  intros casefold CI st o word top_k q k R Re F A Hq Pr Mo Fi H.
  destruct (lookup_self_unique_best_binary64 casefold CI st q Re Hq Pr Mo) as [S1 S2].
  assert (Mo' : moderate (2 ^ 20) 65532 st q).
  { destruct Mo as (M1 & M2 & M3). split; auto. split; [lia|]. intros w Hw. specialize (M3 w Hw). lia. }
  destruct (keeps64 casefold CI st q Re (proj1 (asks_clean _ _ _ _ _ _ A)) Mo') as [M T]. eapply self_first_from; eauto.
Qed.
Print Assumptions lookup_self_first_binary64.

Example ex_self_first64 : let st := built64 [2%Z; 3%Z] 2 ["bandana"; "banana"; "cabana"] in
  reachable rnd64 lower st /\ moderate (2 ^ 15) 4092 st (w_ "banana") /\ proper (n_list st) (w_ "banana") /\ In (w_ "banana") (vocabulary st) /\
  lists (lookup rnd64 lower (mean1 rnd64) ord0 st (PStr (w_ "banana")) (PInt 1) true) [("banana"%string, (1, 1))] = true.
Proof.
  cbv zeta. split; [eapply built64_reachable; vm_compute; reflexivity|]. split; [|split; [|split]].
  - split; [|split].
    + intros n Hn. vm_compute in Hn. destruct Hn as [<-|[<-|[]]]; lia.
    + vm_compute. discriminate.
    + intros w Hw. vm_compute in Hw. repeat (destruct Hw as [<-|Hw]; [vm_compute; discriminate|]). destruct Hw.
  - split; [discriminate|]. vm_compute. repeat constructor; discriminate.
  - vm_compute. auto.
  - vm_compute. reflexivity.
Qed.
