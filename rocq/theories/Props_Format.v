(** Theorems about [format_bytes] and [format_seconds] of
    experiments/find_replace_trie.py: properties C94, C95. *)
From Coq Require Import ZArith NArith QArith Qround Qabs Qpower List Bool Lia String Lqa.
From Verif Require Import Py NmdSpec Float64 Accuracy Ex.
From Verif Require Import FormatModel FormatProofs.
Import ListNotations.
Open Scope list_scope.

(** ** Dividing by a power of two is exact *)

Lemma ilog2_scale q k : 0 < q -> ilog2 (q * pow2 k) = (ilog2 q + k)%Z.
Proof.
  intros P. pose proof (pow2_pos k) as Pk. destruct (ilog2_spec q P) as [A1 A2]. destruct (ilog2_spec (q * pow2 k)) as [B1 B2]; [nra|].
  assert (C1 : pow2 (ilog2 q + k) <= q * pow2 k) by (rewrite pow2_plus; apply Qmult_le_compat_r; lra).
  assert (C2 : q * pow2 k < pow2 (ilog2 q + k + 1)).
  { replace (ilog2 q + k + 1)%Z with (ilog2 q + 1 + k)%Z by lia. rewrite (pow2_plus (ilog2 q + 1)). apply Qmult_lt_compat_r; auto. }
  assert (D1 : pow2 (ilog2 q + k) < pow2 (ilog2 (q * pow2 k) + 1)) by lra. assert (D2 : pow2 (ilog2 (q * pow2 k)) < pow2 (ilog2 q + k + 1)) by lra.
  apply pow2_lt_inv in D1, D2. lia.
Qed.

Lemma rnd_pos_scale q k : 0 < q -> rnd_pos (q * pow2 k) == rnd_pos q * pow2 k.
Proof.
  intros P. unfold rnd_pos. rewrite ilog2_scale by auto. replace (ilog2 q + k - 52)%Z with (ilog2 q - 52 + k)%Z by lia.
  pose proof (pow2_pos k). pose proof (pow2_pos (ilog2 q - 52)).
  rewrite (rne_comp (q * pow2 k / pow2 (ilog2 q - 52 + k)) (q / pow2 (ilog2 q - 52))) by (rewrite pow2_plus; field; lra).
  rewrite pow2_plus. ring.
Qed.

Lemma rndQ_part z u : (0 < z <= 2 ^ 53)%Z -> rndQ (inject_Z z / inject_Z (1024 ^ Z.of_nat u)) == inject_Z z / inject_Z (1024 ^ Z.of_nat u).
Proof.
  intros L. assert (Pz : 0 < inject_Z z) by (change 0 with (inject_Z 0); rewrite <- Zlt_Qlt; lia).
  assert (E : inject_Z z / inject_Z (1024 ^ Z.of_nat u) == inject_Z z * pow2 (- (10 * Z.of_nat u))).
  { unfold Qdiv. apply Qmult_comp; [reflexivity|]. unfold pow2. rewrite Qpower_opp. apply Qinv_comp.
    change (2 ^ (10 * Z.of_nat u)) with (pow2 (10 * Z.of_nat u)). rewrite pow2_nonneg_Z by lia. rewrite Z.pow_mul_r by lia. reflexivity. }
  rewrite (rndQ_comp _ _ E), E. pose proof (pow2_pos (- (10 * Z.of_nat u))). rewrite rndQ_pos by nra. rewrite rnd_pos_scale by auto. rewrite rnd_pos_int by lia. reflexivity.
Qed.

Lemma rndQ_near a : 0 <= a -> Qabs (rndQ a - a) <= (1 # (2 ^ 53)) * a.
Proof.
  intros L. destruct (Qlt_le_dec 0 a) as [P|P].
  - rewrite rndQ_pos by auto. apply rnd_pos_err; auto.
  - assert (Z : a == 0) by lra. rewrite rndQ_zero by auto. rewrite Z. cbn. discriminate.
Qed.

(** ** format_bytes *)

Definition byte_names : list str := map w_ ["Bytes"; "KiB"; "MiB"; "GiB"; "TiB"; "PiB"; "EiB"; "ZiB"; "YiB"]%string.
Definition duration_names : list (str * str) :=
  [(w_ "second", w_ "seconds"); (w_ "minute", w_ "minutes"); (w_ "hour", w_ "hours"); (w_ "day", w_ "days")].

(** C94 The text for a size: a number with at most two decimals and the largest
    unit not above the size; the number is right to half a hundredth of the unit,
    and exact when the size is a whole number of units. *)
Theorem format_bytes_text : forall n, (2 <= Z.abs n <= 2 ^ 53)%Z -> exists text v u,
  format_bytes rndQ n = text ++ w_ " " ++ nth u byte_names [] /\ read_number text = Some v /\
  (1024 ^ Z.of_nat u <= Z.abs n < 1024 ^ Z.of_nat (S u))%Z /\ (u < 9)%nat /\
  Qabs (v * inject_Z (1024 ^ Z.of_nat u) - inject_Z (Z.abs n)) <= inject_Z (1024 ^ Z.of_nat u) * (1 # 200) /\
  ((1024 ^ Z.of_nat u | n)%Z -> v * inject_Z (1024 ^ Z.of_nat u) == inject_Z (Z.abs n)).
Proof.
  intros n L. change byte_names with byte_units. unfold format_bytes. set (z := Z.abs n) in *. destruct (Z.eqb_spec z 0); [lia|]. destruct (Z.eqb_spec z 1); [lia|].
  destruct (bytes_loop rndQ 8 0 (inject_Z z)) as [u q] eqn:R.
  destruct (bytes_loop_spec rndQ rndQ_comp z (fun u _ => rndQ_part z u ltac:(lia)) 8 0 (inject_Z z) u q eq_refl ltac:(cbn; field) R) as (L1 & E & Q1 & Q2).
  pose proof (K_pos u) as P. assert (Eq : q * inject_Z (1024 ^ Z.of_nat u) == inject_Z z) by (rewrite E; field; lra).
  assert (Pz : 0 < inject_Z z) by (change 0 with (inject_Z 0); rewrite <- Zlt_Qlt; lia).
  assert (Q0 : 0 <= q) by (rewrite E; apply Qle_shift_div_l; lra).
  destruct (with_unit_reads q (nth u byte_units []) Q0) as (text & v & T1 & T2 & T3 & T4).
  exists text, v, u. split; [exact T1|]. split; [exact T2|]. split.
  { split.
    - destruct u as [|u]; [cbn; lia|]. specialize (Q1 ltac:(lia)). rewrite Zle_Qle. rewrite <- Eq. rewrite <- (Qmult_1_l (inject_Z (1024 ^ _))) at 1. apply Qmult_le_compat_r; lra.
    - destruct (Nat.eq_dec u 8) as [->|].
      + cbn. lia.
      + specialize (Q2 ltac:(lia)). rewrite Zlt_Qlt, <- Eq. rewrite Nat2Z.inj_succ, Z.pow_succ_r by lia. rewrite inject_Z_mult. apply Qmult_lt_compat_r; auto. }
  split; [lia|]. split.
  - rewrite <- Eq. setoid_replace (v * inject_Z (1024 ^ Z.of_nat u) - q * inject_Z (1024 ^ Z.of_nat u)) with ((v - q) * inject_Z (1024 ^ Z.of_nat u)) by ring.
    rewrite Qabs_Qmult, (Qabs_pos (inject_Z _)) by lra. rewrite Qmult_comm. rewrite !(Qmult_comm (inject_Z (1024 ^ _))). apply Qmult_le_compat_r; [exact T3|lra].
  - intros (k & Ek). assert (Ez : exists k', q == inject_Z k').
    { exists (Z.abs k). rewrite E. unfold z. rewrite Ek, Z.abs_mul, (Z.abs_eq (1024 ^ _)) by (apply Z.pow_nonneg; lia). rewrite inject_Z_mult. field. lra. }
    rewrite (T4 Ez). exact Eq.
Qed.
Print Assumptions format_bytes_text.

(** The two texts that are written differently. *)
Theorem format_bytes_small : forall rnd, format_bytes rnd 0 = w_ "0 Bytes" /\ format_bytes rnd 1 = w_ "1 Byte" /\ format_bytes rnd (-1) = w_ "1 Byte".
Proof. intros rnd. repeat split. Qed.
Print Assumptions format_bytes_small.

(** The number shown is not always below 1024: a size just under the next unit
    is rounded up to 1024 of the smaller one. *)
Theorem format_bytes_refuted : exists n, format_bytes rndQ n = w_ "1024.00 KiB" /\ (Z.abs n < 1024 * 1024)%Z.
Proof. exists 1048575%Z. split; [vm_compute; reflexivity|lia]. Qed.
Print Assumptions format_bytes_refuted.

(** ** format_seconds *)

Lemma rndQ_small_int z : (0 <= z <= 1000000)%Z -> rndQ (inject_Z z) == inject_Z z.
Proof. intros L. apply rndQ_int. lia. Qed.

Definition e64 : Q := 1 # (2 ^ 53).
Lemma e64_small : 0 <= e64 <= 1 # 10000000.
Proof. split; discriminate. Qed.

Section Seconds.
(** [math.floor(math.log10(x))], whatever it answers *)
Variable log10_floor : Q -> Z.

(** C95 A duration of more than a second and less than a week is shown in the
    largest unit not above it, right to half a hundredth of the unit and the
    rounding of the divisions; the unit is in the singular for the value 1. *)
Theorem format_seconds_text : forall x, 1 < Qabs x -> Qabs x <= 604799 -> exists text v u name,
  format_seconds rndQ log10_floor x = Ok (text ++ w_ " " ++ name) /\ read_number text = Some v /\
  (exists one many, nth_error duration_names u = Some (one, many) /\ (name = many \/ name = one /\ v == 1)) /\ (u <= 3)%nat /\
  unit_size u * (1 - (1 # 1000000000000)) <= Qabs x < unit_size (S u) /\
  Qabs (v * unit_size u - Qabs x) <= unit_size u * ((1 # 200) + (1 # 1000000000000)).
Proof.
  intros x0 L1 L2. unfold format_seconds. set (x := Qabs x0) in *.
  destruct (Qeq_bool x 0) eqn:E0; [apply Qeq_bool_iff in E0; lra|]. destruct (Qeq_bool x 1) eqn:E1; [apply Qeq_bool_iff in E1; lra|].
  replace (Qle_bool 1 x) with true by (symmetry; apply Qle_bool_iff; lra). cbn [negb].
  assert (X1 : 1 <= x) by lra.
  destruct (below_week rndQ e64 e64_small rndQ_mono rndQ_small_int rndQ_near x X1 L2) as ([u q] & R). rewrite R. cbn [bind].
  destruct (seconds_loop_spec rndQ e64 e64_small rndQ_mono rndQ_small_int rndQ_near x X1 u q R) as (Lu & Q1 & Q2 & E & Lx).
  assert (Q0 : 0 <= q) by lra.
  set (name := if Qeq_bool q 1 then removelast (nth u second_units []) else nth u second_units []).
  destruct (with_unit_reads q name Q0) as (text & v & T1 & T2 & T3 & T4).
  exists text, v, u, name. split; [exact (f_equal (@Ok str) T1)|]. split; [exact T2|]. split.
  { exists (removelast (nth u second_units [])), (nth u second_units []). split; [destruct u as [|[|[|[|u']]]]; try reflexivity; lia|].
    unfold name. destruct (Qeq_bool q 1) eqn:Eq; auto. right. split; auto. apply Qeq_bool_iff in Eq. rewrite T4; auto. exists 1%Z. exact Eq. }
  split; [exact Lu|].
  assert (P : 0 < unit_size u) by (destruct u as [|[|[|[|u']]]]; cbn; try lra; lia).
  pose proof (shown_near e64 e64_small x X1 u q v Lu Q1 Q2 E T3) as S1.
  assert (S0 : Qabs (q - q) <= 1 # 200) by (setoid_replace (q - q) with 0 by ring; discriminate).
  assert (He : 301 * e64 <= 1 # 1000000000000) by discriminate.
  assert (HE : 5 * e64 * x <= 301 * e64 * unit_size u).
  { apply Qabs_Qle_condition in E. destruct E as [E _]. assert (Hx : x * (1 - 5 * e64) <= q * unit_size u) by lra.
    assert (x * (1 - 5 * (1 # 10000000)) <= x * (1 - 5 * e64)) by (rewrite !(Qmult_comm x); apply Qmult_le_compat_r; [pose proof e64_small|]; lra).
    assert (q * unit_size u <= 60 * unit_size u) by (apply Qmult_le_compat_r; lra).
    assert (X3 : x <= (60 + (1 # 5)) * unit_size u) by lra.
    assert (P5 : 0 <= 5 * e64) by discriminate.
    assert (5 * e64 * x <= 5 * e64 * ((60 + (1 # 5)) * unit_size u)) by (rewrite !(Qmult_comm (5 * e64)); apply Qmult_le_compat_r; auto).
    assert (5 * e64 * ((60 + (1 # 5)) * unit_size u) == 301 * e64 * unit_size u) by ring. lra. }
  assert (HE2 : 301 * e64 * unit_size u <= (1 # 1000000000000) * unit_size u) by (apply Qmult_le_compat_r; lra).
  split.
  - split; [|exact Lx]. apply Qabs_Qle_condition in E. destruct E as [_ E]. assert (1 * unit_size u <= q * unit_size u) by (apply Qmult_le_compat_r; lra). lra.
  - eapply Qle_trans; [exact S1|]. rewrite !(Qmult_comm (unit_size u)). apply Qmult_le_compat_r; lra.
Qed.

(** Below a second: two significant digits, if the logarithm is right. *)
Theorem format_seconds_short : forall x, 0 < Qabs x < 1 -> Qpower 10 (log10_floor (Qabs x)) <= Qabs x < Qpower 10 (log10_floor (Qabs x) + 1) ->
  exists text v, format_seconds rndQ log10_floor x = Ok (text ++ w_ " seconds") /\ read_number text = Some v /\ Qabs (v - Qabs x) <= Qabs x * (1 # 20).
Proof.
  intros x0 [L1 L2] [G1 G2]. unfold format_seconds. set (x := Qabs x0) in *. set (lg := log10_floor x) in *.
  destruct (Qeq_bool x 0) eqn:E0; [apply Qeq_bool_iff in E0; lra|]. destruct (Qeq_bool x 1) eqn:E1; [apply Qeq_bool_iff in E1; lra|].
  destruct (Qle_bool 1 x) eqn:E2; [apply Qle_bool_iff in E2; lra|]. cbn [negb]. clear E0 E1 E2.
  assert (Lg : (lg < 0)%Z).
  { destruct (Z_lt_le_dec lg 0) as [|G]; auto. exfalso. assert (1 <= Qpower 10 lg); [|lra].
    rewrite <- (Z2Nat.id lg) by exact G. induction (Z.to_nat lg) as [|k IH]; [cbn; lra|]. rewrite Nat2Z.inj_succ. unfold Z.succ. rewrite Qpower_plus by discriminate.
    change (Qpower 10 1) with 10. lra. }
  set (k := Z.to_nat (1 - lg)). assert (Lk : (0 < k)%nat) by (unfold k; lia).
  exists (percent_f k x). eexists. split; [reflexivity|]. split; [apply read_percent_f; [lra|exact Lk]|].
  assert (P : (0 < 10 ^ Z.of_nat k)%Z) by (apply Z.pow_pos_nonneg; lia).
  pose proof (floor_div_near x (10 ^ Z.of_nat k) P) as X. eapply Qle_trans; [exact X|].
  assert (E : inject_Z (10 ^ Z.of_nat k) * Qpower 10 lg == 10).
  { unfold k. rewrite Z2Nat.id by lia.
    assert (Y : inject_Z (10 ^ (1 - lg)) == Qpower 10 (1 - lg)) by (rewrite Qpower.Zpower_Qpower by lia; reflexivity).
    rewrite Y. rewrite <- Qpower_plus by discriminate. replace (1 - lg + lg)%Z with 1%Z by lia. reflexivity. }
  assert (Pk : 0 < inject_Z (10 ^ Z.of_nat k)) by (change 0 with (inject_Z 0); rewrite <- Zlt_Qlt; exact P).
  apply Qle_shift_div_r; [lra|]. assert (Y : Qpower 10 lg * inject_Z (10 ^ Z.of_nat k) <= x * inject_Z (10 ^ Z.of_nat k)) by (apply Qmult_le_compat_r; lra).
  assert (x * (1 # 20) * (2 * inject_Z (10 ^ Z.of_nat k)) == (1 # 10) * (x * inject_Z (10 ^ Z.of_nat k))) by ring. lra.
Qed.

(** Every duration of a week or more makes [format_seconds] raise. *)
Theorem format_seconds_week_refuted : forall x, 604800 <= Qabs x -> format_seconds rndQ log10_floor x = Err IndexError.
Proof.
  intros x0 L. unfold format_seconds. set (x := Qabs x0) in *.
  destruct (Qeq_bool x 0) eqn:E0; [apply Qeq_bool_iff in E0; lra|]. destruct (Qeq_bool x 1) eqn:E1; [apply Qeq_bool_iff in E1; lra|].
  replace (Qle_bool 1 x) with true by (symmetry; apply Qle_bool_iff; lra). cbn [negb].
  rewrite (week_fails rndQ rndQ_mono rndQ_small_int x L). reflexivity.
Qed.

(** It returns for every shorter one (up to a second less than a week). *)
Theorem format_seconds_total : forall x, Qabs x <= 604799 -> exists s, format_seconds rndQ log10_floor x = Ok s.
Proof.
  intros x L. destruct (Qlt_le_dec 1 (Qabs x)) as [G|G].
  - destruct (format_seconds_text x G L) as (t & v & u & n & E & _). eauto.
  - unfold format_seconds. destruct (Qeq_bool (Qabs x) 0); [eauto|]. destruct (Qeq_bool (Qabs x) 1) eqn:E1; [eauto|].
    destruct (Qle_bool 1 (Qabs x)) eqn:E2; [|cbn; eauto]. apply Qle_bool_iff in E2. exfalso. apply Qeq_bool_neq in E1. apply E1. lra.
Qed.
End Seconds.
Print Assumptions format_seconds_text.
Print Assumptions format_seconds_short.
Print Assumptions format_seconds_week_refuted.
Print Assumptions format_seconds_total.

(** A value just under the next unit is rounded up here, too. *)
Theorem format_seconds_refuted : forall lg, exists x, 1 < x /\ x < 60 /\ format_seconds rndQ lg x = Ok (w_ "60.00 seconds").
Proof. intros lg. exists (59999 # 1000). split; [reflexivity|]. split; [reflexivity|]. vm_compute. reflexivity. Qed.
Print Assumptions format_seconds_refuted.

(** Cases *)
Example format_case1 : format_bytes rndQ 123456789012 = w_ "114.98 GiB" /\ format_bytes rndQ (-2097152) = w_ "2 MiB" /\ format_bytes rndQ 1025 = w_ "1.00 KiB".
Proof. vm_compute. auto. Qed.
Example format_case2 : forall lg, format_seconds rndQ lg 61 = Ok (w_ "1.02 minutes") /\ format_seconds rndQ lg 86400 = Ok (w_ "1 day") /\ format_seconds rndQ lg (-7200) = Ok (w_ "2 hours").
Proof. intros lg. vm_compute. auto. Qed.
Example format_case3 : format_seconds rndQ (fun _ => (-2)%Z) (123 # 10000) = Ok (w_ "0.012 seconds").
Proof. vm_compute. reflexivity. Qed.
