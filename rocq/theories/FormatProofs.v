(** Proofs about [format_bytes] and [format_seconds]. *)
From Coq Require Import ZArith NArith QArith Qround Qabs List Bool Lia String Lqa.
From Verif Require Import Py NmdSpec Float64 Ex.
From Verif Require Import FormatModel.
Import ListNotations.
Open Scope list_scope.

(** ** Reading a decimal number *)

Definition is_digit (c : N) : bool := ((48 <=? c) && (c <=? 57))%N.
Fixpoint read_digits (acc : Z) (s : str) : option Z :=
  match s with
  | [] => Some acc
  | c :: s' => if is_digit c then read_digits (acc * 10 + (Z.of_N c - 48)) s' else None
  end.
Fixpoint split_dot (s : str) : str * option str :=
  match s with
  | [] => ([], None)
  | c :: s' => if (c =? 46)%N then ([], Some s') else let (a, b) := split_dot s' in (c :: a, b)
  end.
(** The number that a text denotes. *)
Definition read_number (s : str) : option Q :=
  match split_dot s with
  | ([], _) => None
  | (a, None) => option_map inject_Z (read_digits 0 a)
  | (a, Some []) => None
  | (a, Some b) => option_map (fun z => inject_Z z / inject_Z (10 ^ Z.of_nat (List.length b))) (read_digits 0 (a ++ b))
  end.

Lemma digit_is d : (0 <= d < 10)%Z -> is_digit (digit d) = true /\ (Z.of_N (digit d) - 48 = d)%Z /\ (digit d =? 46)%N = false.
Proof.
  intros L. unfold digit, is_digit. rewrite andb_true_iff, !N.leb_le, N.eqb_neq. lia.
Qed.

Lemma read_show_loop fuel : forall n acc, (0 <= n < 2 ^ Z.of_nat fuel)%Z -> (0 < fuel)%nat -> read_digits 0 (digits fuel n acc) = read_digits n acc.
Proof.
  induction fuel as [|fuel IH]; intros n acc L Lf; [lia|]. cbn [digits]. pose proof (Z.mod_pos_bound n 10 ltac:(lia)) as M.
  destruct (digit_is (n mod 10) M) as (D1 & D2 & _). destruct (Z.ltb_spec n 10).
  - cbn [read_digits]. rewrite D1, D2. f_equal. rewrite Z.mod_small by lia. lia.
  - assert (Lf2 : (0 < fuel)%nat). { destruct fuel; [cbn in L; lia|lia]. }
    rewrite IH; auto.
    + cbn [read_digits]. rewrite D1, D2. f_equal. pose proof (Z.div_mod n 10 ltac:(lia)). lia.
    + rewrite Nat2Z.inj_succ, Z.pow_succ_r in L by lia. split; [apply Z.div_pos; lia|]. apply Z.div_lt_upper_bound; lia.
Qed.

Lemma read_show_int n acc : (0 <= n)%Z -> read_digits 0 (show_int n ++ acc) = read_digits n acc.
Proof.
  intros L. assert (X : forall fuel m a b, digits fuel m a ++ b = digits fuel m (a ++ b)).
  { clear. induction fuel as [|fuel IH]; intros m a b; cbn; auto. destruct (m <? 10)%Z; cbn; auto. rewrite IH. reflexivity. }
  unfold show_int. rewrite X. cbn [app]. apply read_show_loop; [|lia]. split; auto.
  destruct (Z.eq_dec n 0) as [->|]; [cbn; lia|]. rewrite Nat2Z.inj_succ, Z2Nat.id by apply Z.log2_nonneg. apply Z.log2_spec. lia.
Qed.

Lemma digits_digits fuel : forall n acc, Forall (fun c => is_digit c = true) acc -> Forall (fun c => is_digit c = true) (digits fuel n acc).
Proof.
  induction fuel as [|fuel IH]; intros n acc F; cbn; auto. assert (Forall (fun c => is_digit c = true) (digit (n mod 10) :: acc)).
  { constructor; auto. apply digit_is. apply Z.mod_pos_bound. lia. }
  destruct (n <? 10)%Z; auto.
Qed.

Lemma digits_nonempty fuel n acc : (0 < fuel)%nat \/ acc <> [] -> digits fuel n acc <> [].
Proof.
  revert n acc. induction fuel as [|fuel IH]; intros n acc [L|L]; cbn; try lia; auto; destruct (n <? 10)%Z; try discriminate; apply IH; right; discriminate.
Qed.

Lemma show_int_digits n : Forall (fun c => is_digit c = true) (show_int n).
Proof. apply digits_digits. constructor. Qed.

Lemma show_int_nonempty n : show_int n <> [].
Proof. apply digits_nonempty. left. lia. Qed.

Lemma read_last_digits k : forall n acc a, (0 <= n)%Z -> read_digits a (last_digits k n acc) = read_digits (a * 10 ^ Z.of_nat k + n mod 10 ^ Z.of_nat k) acc.
Proof.
  induction k as [|k IH]; intros n acc a L; cbn [last_digits].
  - change (10 ^ Z.of_nat 0)%Z with 1%Z. rewrite Z.mod_1_r. f_equal. lia.
  - rewrite IH by (apply Z.div_pos; lia). cbn [read_digits]. pose proof (Z.mod_pos_bound n 10 ltac:(lia)) as M. destruct (digit_is _ M) as (D1 & D2 & _).
    rewrite D1, D2. f_equal. rewrite Nat2Z.inj_succ, Z.pow_succ_r by lia. rewrite (Z.rem_mul_r n 10) by (try lia; apply Z.pow_nonzero; lia).
    lia.
Qed.

Lemma last_digits_length k : forall n acc, List.length (last_digits k n acc) = (k + List.length acc)%nat.
Proof. induction k as [|k IH]; intros n acc; cbn [last_digits]; auto. rewrite IH. cbn. lia. Qed.

Lemma split_dot_digits a : Forall (fun c => is_digit c = true) a -> split_dot a = (a, None) /\ forall b, split_dot (a ++ w_ "." ++ b) = (a, Some b).
Proof.
  induction 1 as [|c a Hc Ha [IH1 IH2]]; cbn; auto. unfold is_digit in Hc. rewrite andb_true_iff, !N.leb_le in Hc.
  destruct (N.eqb_spec c 46); [lia|]. rewrite IH1. split; auto. intros b. specialize (IH2 b). cbn in IH2. rewrite IH2. reflexivity.
Qed.

Lemma read_percent_d q : 0 <= q -> read_number (percent_d q) = Some (inject_Z (Qfloor q)).
Proof.
  intros L. unfold percent_d, read_number. destruct (split_dot_digits _ (show_int_digits (Qfloor q))) as [-> _].
  pose proof (show_int_nonempty (Qfloor q)) as N. destruct (show_int (Qfloor q)) eqn:E; [congruence|]. rewrite <- E.
  rewrite <- (app_nil_r (show_int _)). rewrite read_show_int; [reflexivity|]. change 0%Z with (Qfloor 0). apply Qfloor_resp_le. exact L.
Qed.

Lemma read_percent_f k q : 0 <= q -> (0 < k)%nat ->
  read_number (percent_f k q) = Some (inject_Z (rne (q * inject_Z (10 ^ Z.of_nat k))) / inject_Z (10 ^ Z.of_nat k)).
Proof.
  intros L Lk. unfold percent_f. set (m := rne (q * inject_Z (10 ^ Z.of_nat k))).
  assert (P : (0 < 10 ^ Z.of_nat k)%Z) by (apply Z.pow_pos_nonneg; lia).
  assert (Lm : (0 <= m)%Z).
  { unfold m. rewrite <- (rne_int 0). apply rne_mono. change (inject_Z 0) with 0. apply Qmult_le_0_compat; auto. change 0 with (inject_Z 0). rewrite <- Zle_Qle. lia. }
  destruct k as [|k]; [lia|]. unfold read_number. destruct (split_dot_digits _ (show_int_digits (m / 10 ^ Z.of_nat (S k)))) as [_ X]. rewrite X.
  pose proof (show_int_nonempty (m / 10 ^ Z.of_nat (S k))) as N. destruct (show_int (m / 10 ^ Z.of_nat (S k))) eqn:E; [congruence|]. rewrite <- E.
  pose proof (last_digits_length (S k) m []) as Ll. destruct (last_digits (S k) m []) as [|c l] eqn:El; [discriminate|]. rewrite <- El in *. rewrite Ll, Nat.add_0_r.
  rewrite read_show_int by (apply Z.div_pos; lia). rewrite read_last_digits by lia. cbn [read_digits option_map]. do 3 f_equal.
  pose proof (Z.div_mod m (10 ^ Z.of_nat (S k)) ltac:(lia)). lia.
Qed.

Lemma floor_div_near q k : (0 < k)%Z -> Qabs (inject_Z (rne (q * inject_Z k)) / inject_Z k - q) <= 1 / (2 * inject_Z k).
Proof.
  intros P. pose proof (rne_err (q * inject_Z k)) as E. assert (Pk : 0 < inject_Z k) by (change 0 with (inject_Z 0); rewrite <- Zlt_Qlt; exact P).
  assert (X : inject_Z (rne (q * inject_Z k)) / inject_Z k - q == (inject_Z (rne (q * inject_Z k)) - q * inject_Z k) / inject_Z k) by (field; lra).
  rewrite X. apply Qabs_Qle_condition in E. apply Qabs_Qle_condition.
  assert (Y : 1 / (2 * inject_Z k) == (1 # 2) / inject_Z k) by (field; lra). rewrite Y. split.
  - setoid_replace (- ((1 # 2) / inject_Z k)) with ((- (1 # 2)) / inject_Z k) by (field; lra). apply Qmult_le_compat_r; [lra|]. apply Qlt_le_weak, Qinv_lt_0_compat, Pk.
  - apply Qmult_le_compat_r; [lra|]. apply Qlt_le_weak, Qinv_lt_0_compat, Pk.
Qed.

(** A value with its unit: two decimals at most, none for an integer. *)
Lemma with_unit_reads q unit : 0 <= q -> exists text v, with_unit q unit = text ++ w_ " " ++ unit /\ read_number text = Some v /\ Qabs (v - q) <= 1 # 200 /\
  ((exists z, q == inject_Z z) -> v == q).
Proof.
  intros L. unfold with_unit, has_decimals. destruct (Qeq_bool q (inject_Z (Qfloor q))) eqn:E; cbn [negb].
  - apply Qeq_bool_iff in E. exists (percent_d q), (inject_Z (Qfloor q)). split; auto. split; [apply read_percent_d; auto|]. split.
    + rewrite <- E. setoid_replace (q - q) with 0 by ring. discriminate.
    + intros _. symmetry. exact E.
  - exists (percent_f 2 q). eexists. split; auto. split; [apply read_percent_f; auto|]. change (10 ^ Z.of_nat 2)%Z with 100%Z. split.
    + pose proof (floor_div_near q 100 ltac:(lia)) as X. eapply Qle_trans; [exact X|]. discriminate.
    + intros (z & Ez). exfalso. apply Qeq_bool_neq in E. apply E. rewrite Ez, Qfloor_Z. reflexivity.
Qed.

(** ** format_bytes *)
Section Bytes.
Variable rnd : Q -> Q.
Hypothesis rnd_comp : forall a b, a == b -> rnd a == rnd b.
Variable z : Z.
Notation part u := (inject_Z z / inject_Z (1024 ^ Z.of_nat u)).
Hypothesis Ex : forall u, (u <= 8)%nat -> rnd (part u) == part u.

Lemma K_pos u : 0 < inject_Z (1024 ^ Z.of_nat u).
Proof. change 0 with (inject_Z 0). rewrite <- Zlt_Qlt. apply Z.pow_pos_nonneg; lia. Qed.

Lemma part_S u : part u / 1024 == part (S u).
Proof.
  pose proof (K_pos u). pose proof (K_pos (S u)). assert (X : inject_Z (1024 ^ Z.of_nat (S u)) == 1024 * inject_Z (1024 ^ Z.of_nat u)).
  { rewrite Nat2Z.inj_succ, Z.pow_succ_r by lia. rewrite inject_Z_mult. reflexivity. }
  rewrite X. field. lra.
Qed.

Lemma bytes_loop_spec fuel : forall unit num u q, (unit + fuel = 8)%nat -> num == part unit -> bytes_loop rnd fuel unit num = (u, q) ->
  (unit <= u <= 8)%nat /\ q == part u /\ ((unit < u)%nat -> 1 <= q) /\ ((u < 8)%nat -> q < 1024).
Proof.
  induction fuel as [|fuel IH]; intros unit num u q L E R; cbn [bytes_loop] in R.
  - injection R as <- <-. repeat split; auto; try lia.
  - destruct (Nat.ltb_spec unit 8); [|lia]. rewrite andb_true_r in R. destruct (Qle_bool 1024 num) eqn:C.
    + apply Qle_bool_iff in C.
      assert (E2 : rnd (rnd num / 1024) == part (S unit)).
      { rewrite <- (Ex (S unit)) by lia. apply rnd_comp. rewrite <- part_S. rewrite (rnd_comp _ _ E), Ex by lia. reflexivity. }
      destruct (IH (S unit) _ u q ltac:(lia) E2 R) as (L1 & L2 & L3 & L4). split; [lia|]. split; [exact L2|]. split; [|exact L4].
      intros _. destruct (Nat.eq_dec u (S unit)) as [->|]; [|apply L3; lia]. rewrite L2, <- part_S, <- E. apply Qle_shift_div_l; lra.
    + injection R as <- <-. split; [lia|]. split; auto. split; [intros X; lia|]. intros _. apply Qnot_le_lt. intros X. apply Qle_bool_iff in X. congruence.
Qed.
End Bytes.

(** ** format_seconds *)
Section Seconds.
Variables (rnd : Q -> Q) (e : Q).
Hypothesis e_small : 0 <= e <= 1 # 10000000.
Hypothesis rnd_mono : forall a b, a <= b -> rnd a <= rnd b.
Hypothesis rnd_int : forall z, (0 <= z <= 1000000)%Z -> rnd (inject_Z z) == inject_Z z.
Hypothesis rnd_near : forall a, 0 <= a -> Qabs (rnd a - a) <= e * a.

(** The number of seconds in each unit. *)
Definition unit_size (u : nat) : Q := nth u [1; 60; 3600; 86400; 604800] 0.

Lemma near_div (x num d c size : Q) : 0 < d -> 0 < size -> 0 <= c -> 0 <= x -> 0 <= num -> Qabs (num * size - x) <= c * x ->
  Qabs (rnd (num / d) * (size * d) - x) <= (c + e + c * e) * x.
Proof.
  intros Pd Ps Pc Px Pn E. assert (Pnd : 0 <= num / d) by (apply Qle_shift_div_l; lra).
  pose proof (rnd_near (num / d) Pnd) as R. apply Qabs_Qle_condition in E, R. destruct E as [E1 E2], R as [R1 R2].
  assert (Psd : 0 < size * d) by nra.
  assert (X : num / d * (size * d) == num * size) by (field; lra).
  assert (Y1 : (rnd (num / d) - num / d) * (size * d) <= e * (num / d) * (size * d)) by (apply Qmult_le_compat_r; lra).
  assert (Y2 : - (e * (num / d)) * (size * d) <= (rnd (num / d) - num / d) * (size * d)) by (apply Qmult_le_compat_r; lra).
  assert (Z1 : e * (num / d) * (size * d) == e * (num * size)) by (rewrite <- X; ring).
  assert (Z2 : e * (num * size) <= e * ((1 + c) * x)) by (apply Qmult_le_compat_nonneg; [lra|nra]).
  apply Qabs_Qle_condition. split.
  - assert (- (e * (num / d)) * (size * d) == - (e * (num * size))) by (rewrite <- X; ring). nra.
  - nra.
Qed.

Lemma mono_int a z : (0 <= z <= 1000000)%Z -> inject_Z z <= a -> inject_Z z <= rnd a.
Proof. intros L E. rewrite <- rnd_int by exact L. apply rnd_mono. exact E. Qed.

Lemma div_ge a d b : 0 < d -> b * d <= a -> b <= a / d.
Proof. intros P L. apply Qle_shift_div_l; auto. Qed.

Lemma seconds_loop_eq x : seconds_loop rnd 6 0 x =
  let n1 := rnd (x / 60) in let n2 := rnd (n1 / 60) in let n3 := rnd (n2 / 24) in
  if Qle_bool 60 x then if Qle_bool 60 n1 then if Qle_bool 24 n2 then if Qle_bool 7 n3 then Err IndexError else Ok (3%nat, n3) else Ok (2%nat, n2) else Ok (1%nat, n1) else Ok (0%nat, x).
Proof.
  cbv zeta. cbn [seconds_loop nth_error denominators Nat.ltb Nat.leb]. rewrite !andb_true_r. reflexivity.
Qed.

Lemma qle_false a b : Qle_bool a b = false -> b < a.
Proof. intros E. apply Qnot_le_lt. intros X. apply Qle_bool_iff in X. congruence. Qed.

Section Chain.
Variable x : Q.
Hypothesis x1 : 1 <= x.
Notation n1 := (rnd (x / 60)).
Notation n2 := (rnd (n1 / 60)).
Notation n3 := (rnd (n2 / 24)).

Lemma n1_nonneg : 0 <= n1.
Proof. change 0 with (inject_Z 0). apply mono_int; [lia|]. apply div_ge; [lra|]. change (inject_Z 0) with 0. lra. Qed.
Lemma n2_nonneg : 0 <= n2.
Proof. change 0 with (inject_Z 0). apply mono_int; [lia|]. apply div_ge; [lra|]. change (inject_Z 0) with 0. pose proof n1_nonneg. lra. Qed.

Lemma n1_ge z : (0 <= z <= 1000000)%Z -> inject_Z z * 60 <= x -> inject_Z z <= n1.
Proof. intros L E. apply mono_int; auto. apply div_ge; [lra|exact E]. Qed.
Lemma n2_ge z : (0 <= z <= 1000000)%Z -> inject_Z z * 60 <= n1 -> inject_Z z <= n2.
Proof. intros L E. apply mono_int; auto. apply div_ge; [lra|exact E]. Qed.
Lemma n3_ge z : (0 <= z <= 1000000)%Z -> inject_Z z * 24 <= n2 -> inject_Z z <= n3.
Proof. intros L E. apply mono_int; auto. apply div_ge; [lra|exact E]. Qed.

Lemma week_fails : 604800 <= x -> seconds_loop rnd 6 0 x = Err IndexError.
Proof.
  intros L. rewrite seconds_loop_eq. cbv zeta.
  assert (A1 : inject_Z 10080 <= n1) by (apply n1_ge; [lia|]; change (inject_Z 10080) with 10080; lra).
  assert (A2 : inject_Z 168 <= n2) by (apply n2_ge; [lia|]; change (inject_Z 168) with 168; change (inject_Z 10080) with 10080 in A1; lra).
  assert (A3 : inject_Z 7 <= n3) by (apply n3_ge; [lia|]; change (inject_Z 7) with 7; change (inject_Z 168) with 168 in A2; lra).
  change (inject_Z 10080) with 10080 in A1. change (inject_Z 168) with 168 in A2. change (inject_Z 7) with 7 in A3.
  replace (Qle_bool 60 x) with true by (symmetry; apply Qle_bool_iff; lra).
  replace (Qle_bool 60 n1) with true by (symmetry; apply Qle_bool_iff; lra).
  replace (Qle_bool 24 n2) with true by (symmetry; apply Qle_bool_iff; lra).
  replace (Qle_bool 7 n3) with true by (symmetry; apply Qle_bool_iff; lra). reflexivity.
Qed.

Lemma n1_near : Qabs (n1 * 60 - x) <= e * x.
Proof.
  pose proof (near_div x x 60 0 1 ltac:(lra) ltac:(lra) ltac:(lra) ltac:(lra) ltac:(lra)) as X.
  assert (Y : Qabs (x * 1 - x) <= 0 * x) by (setoid_replace (x * 1 - x) with 0 by ring; cbn; lra).
  specialize (X Y). setoid_replace (1 * 60) with 60 in X by ring. setoid_replace ((0 + e + 0 * e) * x) with (e * x) in X by ring. exact X.
Qed.
Lemma n2_near : Qabs (n2 * 3600 - x) <= 3 * e * x.
Proof.
  pose proof (near_div x n1 60 e 60 ltac:(lra) ltac:(lra) ltac:(lra) ltac:(lra) n1_nonneg n1_near) as X.
  setoid_replace (60 * 60) with 3600 in X by ring. eapply Qle_trans; [exact X|]. apply Qmult_le_compat_r; [nra|lra].
Qed.
Lemma n3_near : Qabs (n3 * 86400 - x) <= 5 * e * x.
Proof.
  assert (P : 0 <= 3 * e) by lra.
  pose proof (near_div x n2 24 (3 * e) 3600 ltac:(lra) ltac:(lra) P ltac:(lra) n2_nonneg n2_near) as X.
  setoid_replace (3600 * 24) with 86400 in X by ring. eapply Qle_trans; [exact X|]. apply Qmult_le_compat_r; [nra|lra].
Qed.

Lemma below_week : x <= 604799 -> exists r, seconds_loop rnd 6 0 x = Ok r.
Proof.
  intros L. rewrite seconds_loop_eq. cbv zeta. destruct (Qle_bool 60 x); [|eauto]. destruct (Qle_bool 60 n1); [|eauto]. destruct (Qle_bool 24 n2); [|eauto].
  destruct (Qle_bool 7 n3) eqn:E; [|eauto]. exfalso. apply Qle_bool_iff in E. pose proof n3_near as N. apply Qabs_Qle_condition in N. destruct N as [_ N].
  assert (5 * e * x <= 5 * (1 # 10000000) * x) by (apply Qmult_le_compat_r; lra). lra.
Qed.

Lemma seconds_loop_spec u q : seconds_loop rnd 6 0 x = Ok (u, q) ->
  (u <= 3)%nat /\ 1 <= q /\ q < 60 /\ Qabs (q * unit_size u - x) <= 5 * e * x /\ x < unit_size (S u).
Proof.
  rewrite seconds_loop_eq. cbv zeta. intros R.
  destruct (Qle_bool 60 x) eqn:E0.
  2:{ injection R as <- <-. apply qle_false in E0. split; [lia|]. split; [exact x1|]. split; [exact E0|]. cbn [unit_size nth]. split; [|exact E0].
      setoid_replace (x * 1 - x) with 0 by ring. cbn. nra. }
  apply Qle_bool_iff in E0. assert (B1 : inject_Z 1 <= n1) by (apply n1_ge; [lia|]; change (inject_Z 1) with 1; lra). change (inject_Z 1) with 1 in B1.
  destruct (Qle_bool 60 n1) eqn:E1.
  2:{ injection R as <- <-. apply qle_false in E1. split; [lia|]. split; [exact B1|]. split; [exact E1|]. cbn [unit_size nth]. split.
      - eapply Qle_trans; [exact n1_near|]. apply Qmult_le_compat_r; lra.
      - apply Qnot_le_lt. intros X. assert (Y : inject_Z 60 <= n1) by (apply n1_ge; [lia|]; change (inject_Z 60) with 60; lra). change (inject_Z 60) with 60 in Y. lra. }
  apply Qle_bool_iff in E1. assert (B2 : inject_Z 1 <= n2) by (apply n2_ge; [lia|]; change (inject_Z 1) with 1; lra). change (inject_Z 1) with 1 in B2.
  destruct (Qle_bool 24 n2) eqn:E2.
  2:{ injection R as <- <-. apply qle_false in E2. split; [lia|]. split; [exact B2|]. split; [lra|]. cbn [unit_size nth]. split.
      - eapply Qle_trans; [exact n2_near|]. apply Qmult_le_compat_r; lra.
      - apply Qnot_le_lt. intros X. assert (Y : inject_Z 1440 <= n1) by (apply n1_ge; [lia|]; change (inject_Z 1440) with 1440; lra). change (inject_Z 1440) with 1440 in Y.
        assert (Z : inject_Z 24 <= n2) by (apply n2_ge; [lia|]; change (inject_Z 24) with 24; lra). change (inject_Z 24) with 24 in Z. lra. }
  apply Qle_bool_iff in E2. assert (B3 : inject_Z 1 <= n3) by (apply n3_ge; [lia|]; change (inject_Z 1) with 1; lra). change (inject_Z 1) with 1 in B3.
  destruct (Qle_bool 7 n3) eqn:E3; [discriminate|].
  injection R as <- <-. pose proof (qle_false _ _ E3) as E4. split; [lia|]. split; [exact B3|]. split; [lra|]. cbn [unit_size nth]. split; [exact n3_near|].
  apply Qnot_le_lt. intros X. pose proof (week_fails X) as W. rewrite seconds_loop_eq in W. cbv zeta in W.
  replace (Qle_bool 60 x) with true in W by (symmetry; apply Qle_bool_iff; lra). replace (Qle_bool 60 n1) with true in W by (symmetry; apply Qle_bool_iff; lra).
  replace (Qle_bool 24 n2) with true in W by (symmetry; apply Qle_bool_iff; lra). rewrite E3 in W. discriminate.
Qed.

(** The value shown, in seconds *)
Lemma shown_near u q v : (u <= 3)%nat -> 1 <= q -> q < 60 -> Qabs (q * unit_size u - x) <= 5 * e * x -> Qabs (v - q) <= 1 # 200 ->
  Qabs (v * unit_size u - x) <= unit_size u * ((1 # 200) + 301 * e).
Proof.
  intros Lu Q1 Q2 E V. assert (P : 0 < unit_size u) by (destruct u as [|[|[|[|u]]]]; cbn; try lra; lia).
  set (w := unit_size u) in *. apply Qabs_Qle_condition in E, V. destruct E as [E1 E2], V as [V1 V2].
  assert (X : x * (1 - 5 * e) <= q * w) by lra. assert (X2 : x <= (60 + (1 # 5)) * w).
  { assert (x * (1 - 5 * (1 # 10000000)) <= x * (1 - 5 * e)) by (rewrite !(Qmult_comm x); apply Qmult_le_compat_r; lra).
    assert (q * w <= 60 * w) by (apply Qmult_le_compat_r; lra). lra. }
  assert (Y : 5 * e * x <= 5 * e * ((60 + (1 # 5)) * w)) by (rewrite !(Qmult_comm (5 * e)); apply Qmult_le_compat_r; lra).
  assert (Z1 : (v - q) * w <= (1 # 200) * w) by (apply Qmult_le_compat_r; lra).
  assert (Z2 : - (1 # 200) * w <= (v - q) * w) by (apply Qmult_le_compat_r; lra).
  apply Qabs_Qle_condition. split; nra.
Qed.
End Chain.
End Seconds.
