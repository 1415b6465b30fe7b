(** The error of the compensated [sum] of Python 3.12 and later. *)
From Coq Require Import ZArith QArith Qcanon List Bool Lia Lqa.
From Verif Require Import Num Py ListAux Float64 EmdSpec EmdModel EmdProofs EmdFloatProofs Accuracy HybridAccuracy.
From Verif Require Import SumExact SumModel SumLookup.
Import ListNotations.
Open Scope Qc_scope.

Lemma abs_le a b : qabs a <= b <-> - b <= a /\ a <= b.
Proof. split; [intros H; split; qclra|intros [H1 H2]; qclra]. Qed.

Lemma exact_sum_from l : forall a, fold_left (fun a b => exact (a + b)) l a = a + py_sum exact l.
Proof.
  unfold py_sum. induction l as [|x l IH]; intros a; cbn [fold_left]; [ring|]. rewrite IH, (IH (exact (0 + x))). unfold exact. ring.
Qed.
Lemma exact_sum_cons x l : py_sum exact (x :: l) = x + py_sum exact l.
Proof. unfold py_sum at 1. cbn [fold_left]. rewrite exact_sum_from. unfold exact. ring. Qed.
Lemma exact_sum_nonneg l : Forall (fun x => 0 <= x) l -> 0 <= py_sum exact l.
Proof. induction 1; [apply Qcle_refl|]. rewrite exact_sum_cons. clear - H IHForall. set (s := py_sum exact l) in *. clearbody s. qclra. Qed.

Section Budget.
Notation u := u64.
Lemma u0 : 0 <= u. Proof. discriminate. Qed.
Variable n : nat.
Hypothesis n_small : (Z.of_nat n <= 2 ^ 25)%Z.
Variable S : Qc.
Hypothesis S0 : 0 <= S.
Let w := u * S.
Let v := qn (4 * n) * (u * w).

Lemma w0 : 0 <= w. Proof. apply qmul_nonneg; auto. apply u0. Qed.
Lemma nu : qn (4 * n) * u <= Q2Qc (1 # (2 ^ 26)).
Proof.
  apply Qcle_trans with (qz (4 * 2 ^ 25) * u).
  - apply qmul_le_r; [apply u0|]. unfold qn. apply (proj1 (qz_le _ _)). lia.
  - apply qleb_le. vm_compute. reflexivity.
Qed.
Lemma n_qz : qn n <= qz (2 ^ 25). Proof. unfold qn. apply (proj1 (qz_le _ _)). auto. Qed.
Lemma wS : qn (4 * n) * w <= S * Q2Qc (1 # 4).
Proof.
  unfold w. replace (qn (4 * n) * (u * S)) with (S * (qn (4 * n) * u)) by ring. apply qmul_le_l; auto. eapply Qcle_trans; [apply nu|]. discriminate.
Qed.
Lemma nv : qn n * v <= w * Q2Qc (1 # 2).
Proof.
  unfold v. replace (qn n * (qn (4 * n) * (u * w))) with (w * (qn n * (qn (4 * n) * u))) by ring. apply qmul_le_l; [apply w0|].
  eapply Qcle_trans with (qz (2 ^ 25) * Q2Qc (1 # (2 ^ 26))); [apply qmul_le; auto using n_qz, nu, qn_nonneg, qmul_nonneg, u0; discriminate|]. apply qleb_le. vm_compute. reflexivity.
Qed.
Lemma v0 : 0 <= v. Proof. apply qmul_nonneg; [apply qn_nonneg|]. apply qmul_nonneg; [apply u0|apply w0]. Qed.
Lemma w_S : w <= S * Q2Qc (1 # 4).
Proof. unfold w. rewrite Qcmult_comm. apply qmul_le_l; auto. discriminate. Qed.

(** After [k] additions, for the exact sum [s] so far. *)
Definition sum_inv (k : nat) (f c s : Qc) : Prop :=
  dbl f /\ 0 <= f /\ qabs (f + c - s) <= qn k * v /\ qabs c <= qn (4 * k) * w.

Lemma sum_inv_step k f c s x : (Datatypes.S k <= n)%nat -> sum_inv k f c s -> dbl x -> 0 <= x -> s + x <= S ->
  sum_inv (Datatypes.S k) (fst (sum_step rnd64 (f, c) x)) (snd (sum_step rnd64 (f, c) x)) (s + x).
Proof.
  intros Hk (Df & F0 & E & C) Dx X0 SS. rewrite sum_step_err by auto. cbn [fst snd].
  pose proof (rnd64_accurate (f + x)) as A1. set (t := rnd64 (f + x)) in *.
  assert (Dt : dbl t) by apply dbl_rnd64. assert (T0 : 0 <= t) by (apply (rnd_nonneg rnd64 rnd64_lawful); clear - F0 X0; qclra). clearbody t.
  pose proof (rnd64_accurate (c + (f + x - t))) as A2. set (c' := rnd64 (c + (f + x - t))) in *. clearbody c'.
  assert (K1 : qn k * v <= w * Q2Qc (1 # 2)) by (apply Qcle_trans with (qn n * v); [apply qmul_le_r; [apply v0|apply qn_le; lia]|apply nv]).
  assert (K2 : qn (4 * k) * w <= S * Q2Qc (1 # 4)) by (apply Qcle_trans with (qn (4 * n) * w); [apply qmul_le_r; [apply w0|apply qn_le; lia]|apply wS]).
  pose proof w_S as WS. pose proof w0 as W0.
  assert (FX : qabs (f + x) <= S + S).
  { revert E C K1 K2. generalize (qn k * v) (qn (4 * k) * w). intros a b E C K1 K2. clear - E C K1 K2 WS W0 SS F0 X0 S0. 
    assert (f + x <= S + S) by qclra. qclra. }
  assert (D : qabs (t - (f + x)) <= w + w).
  { eapply Qcle_trans; [exact A1|]. replace (w + w) with (u * (S + S)) by (unfold w; ring). apply qmul_le_l; [apply u0|auto]. }
  assert (CD : qabs (c + (f + x - t)) <= qn (4 * k) * w + (w + w)).
  { revert C D. generalize (qn (4 * k) * w) (w + w). clear. intros. qclra. }
  assert (k4 : qn (4 * k) * w + (w + w) <= qn (4 * n) * w).
  { eapply Qcle_trans with (qn (4 * k + 2) * w); [rewrite qn_add; change (qn 2) with (1 + 1); replace ((qn (4 * k) + (1 + 1)) * w) with (qn (4 * k) * w + (w + w)) by ring; apply Qcle_refl|]. apply qmul_le_r; auto. apply qn_le. lia. }
  assert (U : u * (qn (4 * n) * w) = v) by (unfold v; ring).
  assert (EU : qabs (c' - (c + (f + x - t))) <= v).
  { eapply Qcle_trans; [exact A2|]. rewrite <- U. apply qmul_le_l; [apply u0|]. eapply Qcle_trans; eauto. }
  assert (VW : v <= w).
  { unfold v. replace (qn (4 * n) * (u * w)) with (qn (4 * n) * u * w) by ring. replace w with (1 * w) at 2 by ring. apply qmul_le_r; auto. eapply Qcle_trans; [apply nu|]. discriminate. }
  unfold sum_inv. fold w v. clear U k4. clearbody v w.
  split; [exact Dt|]. split; [exact T0|]. split.
  - rewrite qn_S. replace ((qn k + 1) * v) with (v + qn k * v) by ring. revert E EU. generalize (qn k * v). clear. intros. qclra.
  - replace (4 * Datatypes.S k)%nat with (4 * k + 4)%nat by lia. rewrite qn_add. replace ((qn (4 * k) + qn 4) * w) with (qn (4 * k) * w + (w + w + (w + w))) by (change (qn 4) with (1 + 1 + (1 + 1)); ring).
    revert CD EU. generalize (qn (4 * k) * w). clear - VW W0. intros. qclra.
Qed.

Lemma sum_inv_run l : forall k f c s, (k + length l <= n)%nat -> sum_inv k f c s -> Forall dbl l -> Forall (fun x => 0 <= x) l -> s + py_sum exact l <= S ->
  let r := fold_left (sum_step rnd64) l (f, c) in sum_inv (k + length l) (fst r) (snd r) (s + py_sum exact l).
Proof.
  induction l as [|x l IH]; intros k f c s Hn I D P B; cbn [fold_left length].
  - rewrite Nat.add_0_r. change (py_sum exact []) with 0. rewrite Qcplus_0_r. exact I.
  - rewrite exact_sum_cons in *. inversion D; inversion P; subst. cbn [length] in Hn.
    assert (P0 := exact_sum_nonneg l H6). replace (k + Datatypes.S (length l))%nat with (Datatypes.S k + length l)%nat by lia.
    replace (s + (x + py_sum exact l)) with (s + x + py_sum exact l) in * by ring.
    pose proof (sum_inv_step k f c s x ltac:(lia) I H1 H5) as J. destruct (sum_step rnd64 (f, c) x) as [f' c'] eqn:E. cbn [fst snd] in J.
    apply IH; auto; [lia|]. apply J. clear - P0 B. set (t := py_sum exact l) in *. clearbody t. qclra.
Qed.
End Budget.

(** At most [2^25] doubles, none negative: the result is within two units of
    rounding of the exact sum, however many there are. *)
Lemma sum_new_accurate l : (Z.of_nat (length l) <= 2 ^ 25)%Z -> Forall dbl l -> Forall (fun x => 0 <= x) l ->
  0 <= py_sum_new rnd64 l /\ qabs (py_sum_new rnd64 l - py_sum exact l) <= (u64 + u64) * py_sum exact l.
Proof.
  intros Hn D P. destruct l as [|x l].
  - split; [apply Qcle_refl|]. change (py_sum exact []) with 0. rewrite Qcmult_0_r. apply Qcle_refl.
  - cbn [py_sum_new]. set (S := py_sum exact (x :: l)) in *. assert (S0 : 0 <= S) by (apply exact_sum_nonneg; auto).
    assert (ES : S = x + py_sum exact l) by apply exact_sum_cons. clearbody S.
    inversion D as [|? ? Dx Dl]; inversion P as [|? ? Px Pl]; subst x0 l0 x1 l1. rewrite Qcplus_0_l, Dx.
    set (n := length (x :: l)) in *.
    assert (I0 : sum_inv n S 0 x 0 x).
    { split; [auto|]. split; [auto|]. split; [replace (x + 0 - x) with 0 by ring|]; change (qabs 0) with 0; change (4 * 0)%nat with 0%nat; change (qn 0) with 0; rewrite Qcmult_0_l; apply Qcle_refl. }
    assert (B : x + py_sum exact l <= S) by (rewrite ES; apply Qcle_refl).
    pose proof (sum_inv_run n Hn S S0 l 0 x 0 x ltac:(unfold n; cbn [length]; lia) I0 Dl Pl B) as J. cbv zeta in J. rewrite <- ES in J.
    destruct (fold_left (sum_step rnd64) l (x, 0)) as [f c]. cbn [fst snd Nat.add] in J. destruct J as (Df & F0 & E & C).
    pose proof (nv n Hn S S0) as NV. pose proof (w_S S S0) as WS. pose proof (w0 S S0) as W0. set (w := u64 * S) in *.
    assert (E' : qabs (f + c - S) <= w * Q2Qc (1 # 2)).
    { eapply Qcle_trans; [exact E|]. eapply Qcle_trans; [|exact NV]. apply qmul_le_r; [apply (v0 n S S0)|apply qn_le; unfold n; cbn [length]; lia]. }
    replace ((u64 + u64) * S) with (w + w) by (unfold w; ring). clear E NV C I0.
    destruct (qeqb c 0) eqn:Q.
    + apply qeqb_eq in Q. subst c. split; [auto|]. rewrite Qcplus_0_r in E'. clear - E' W0. qclra.
    + assert (FC0 : 0 <= f + c) by (clear - E' WS W0 S0; qclra).
      split; [apply (rnd_nonneg rnd64 rnd64_lawful); auto|].
      pose proof (rnd64_accurate (f + c)) as A. set (t := rnd64 (f + c)) in *. clearbody t.
      assert (FC : qabs (f + c) <= S + S * Q2Qc (1 # 8)) by (clear - E' WS W0 S0; qclra).
      assert (A' : qabs (t - (f + c)) <= w + w * Q2Qc (1 # 8)).
      { eapply Qcle_trans; [exact A|]. replace (w + w * Q2Qc (1 # 8)) with (u64 * (S + S * Q2Qc (1 # 8))) by (unfold w; ring). apply qmul_le_l; [apply u0|auto]. }
      clear - A' E' W0. qclra.
Qed.
