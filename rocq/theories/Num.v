(** Rational arithmetic used in place of Python numbers, and a decision
    tactic [qclra] for linear arithmetic over [Qc].

    Nothing in this file models code of /repo: it is a support library. *)
From Coq Require Import ZArith QArith Qcanon Qabs Qround List Bool Lia Lqa.
Import ListNotations.

Open Scope Qc_scope.

(** ** Comparison, minimum, maximum, absolute value on [Qc] *)

Definition qleb (a b : Qc) : bool := Qle_bool a b.
Definition qltb (a b : Qc) : bool := negb (qleb b a).
Definition qeqb (a b : Qc) : bool := Qeq_bool a b.
Definition qmin (a b : Qc) : Qc := if qleb a b then a else b.
Definition qmax (a b : Qc) : Qc := if qleb a b then b else a.
Definition qabs (a : Qc) : Qc := if qleb 0 a then a else - a.

(** Integers and naturals as rationals. *)
Definition qz (z : Z) : Qc := Q2Qc (inject_Z z).
Definition qn (n : nat) : Qc := qz (Z.of_nat n).

Lemma qleb_le a b : qleb a b = true <-> a <= b.
Proof. unfold qleb, Qcle. apply Qle_bool_iff. Qed.

Lemma qleb_nle a b : qleb a b = false <-> b < a.
Proof.
  unfold qleb, Qclt. destruct (Qle_bool a b) eqn:E.
  - apply Qle_bool_iff in E. split; [discriminate|]. intros H. exfalso.
    apply (Qlt_not_le _ _ H E).
  - split; auto. intros _. apply Qnot_le_lt. intros H.
    apply Qle_bool_iff in H. congruence.
Qed.

Lemma qltb_lt a b : qltb a b = true <-> a < b.
Proof. unfold qltb. rewrite negb_true_iff. apply qleb_nle. Qed.

Lemma qltb_nlt a b : qltb a b = false <-> b <= a.
Proof. unfold qltb. rewrite negb_false_iff. apply qleb_le. Qed.

Lemma qeqb_eq a b : qeqb a b = true <-> a = b.
Proof.
  unfold qeqb. rewrite Qeq_bool_iff. split.
  - apply Qc_is_canon.
  - intros ->. apply Qeq_refl.
Qed.

Lemma qeqb_neq a b : qeqb a b = false <-> a <> b.
Proof.
  rewrite <- qeqb_eq. destruct (qeqb a b); split; congruence.
Qed.

Lemma qc_eq_dec (a b : Qc) : {a = b} + {a <> b}.
Proof. apply Qc_eq_dec. Defined.

(** ** Transfer to [Q] *)

Lemma this_const q : (this (Q2Qc q) == q)%Q.
Proof. exact (Qred_correct q). Qed.
Lemma this_add a b : (this (a + b) == this a + this b)%Q.
Proof. exact (this_const _). Qed.
Lemma this_mul a b : (this (a * b) == this a * this b)%Q.
Proof. exact (this_const _). Qed.
Lemma this_mul_cl c a : (this (Q2Qc c * a) == c * this a)%Q.
Proof. rewrite this_mul, this_const. reflexivity. Qed.
Lemma this_mul_cr c a : (this (a * Q2Qc c) == c * this a)%Q.
Proof. rewrite this_mul, this_const. ring. Qed.
Lemma this_opp a : (this (- a) == - this a)%Q.
Proof. exact (this_const _). Qed.
Lemma this_sub a b : (this (a - b) == this a - this b)%Q.
Proof. unfold Qcminus. rewrite this_add, this_opp. reflexivity. Qed.
Lemma this_inv a : (this (/ a) == / this a)%Q.
Proof. exact (this_const _). Qed.
Lemma this_div a b : (this (a / b) == this a / this b)%Q.
Proof. unfold Qcdiv. rewrite this_mul, this_inv. reflexivity. Qed.
Lemma this_qz z : (this (qz z) == inject_Z z)%Q.
Proof. apply this_const. Qed.
Lemma this_qn z : (this (qn z) == inject_Z (Z.of_nat z))%Q.
Proof. apply this_const. Qed.

Lemma qz_add a b : qz (a + b) = qz a + qz b.
Proof. apply Qc_is_canon. rewrite this_add, !this_qz. rewrite inject_Z_plus; reflexivity. Qed.
Lemma qz_mul a b : qz (a * b) = qz a * qz b.
Proof. apply Qc_is_canon. rewrite this_mul, !this_qz. rewrite inject_Z_mult; reflexivity. Qed.
Lemma qz_opp a : qz (- a) = - qz a.
Proof. apply Qc_is_canon. rewrite this_opp, !this_qz. rewrite inject_Z_opp; reflexivity. Qed.
Lemma qz_sub a b : qz (a - b) = qz a - qz b.
Proof. unfold Z.sub. rewrite qz_add, qz_opp. reflexivity. Qed.
Lemma qz_0 : qz 0 = 0. Proof. reflexivity. Qed.
Lemma qz_1 : qz 1 = 1. Proof. reflexivity. Qed.
Lemma qn_0 : qn 0 = 0. Proof. reflexivity. Qed.
Lemma qn_1 : qn 1 = 1. Proof. reflexivity. Qed.
Lemma qn_add a b : qn (a + b) = qn a + qn b.
Proof. unfold qn. rewrite Nat2Z.inj_add. apply qz_add. Qed.
Lemma qn_mul a b : qn (a * b) = qn a * qn b.
Proof. unfold qn. rewrite Nat2Z.inj_mul. apply qz_mul. Qed.
Lemma qn_S a : qn (S a) = qn a + 1.
Proof. unfold qn. rewrite Nat2Z.inj_succ. unfold Z.succ. rewrite qz_add. reflexivity. Qed.
Lemma qz_le a b : (a <= b)%Z <-> qz a <= qz b.
Proof. unfold Qcle. rewrite !this_qz. rewrite Zle_Qle; reflexivity. Qed.
Lemma qz_lt a b : (a < b)%Z <-> qz a < qz b.
Proof. unfold Qclt. rewrite !this_qz. rewrite Zlt_Qlt; reflexivity. Qed.
Lemma qz_inj a b : qz a = qz b -> a = b.
Proof.
  intros H. assert (qz a <= qz b /\ qz b <= qz a) as [H1 H2].
  { rewrite H. split; apply Qcle_refl. }
  apply qz_le in H1, H2. lia.
Qed.
Lemma qn_le a b : (a <= b)%nat <-> qn a <= qn b.
Proof. unfold qn. rewrite <- qz_le. lia. Qed.
Lemma qn_lt a b : (a < b)%nat <-> qn a < qn b.
Proof. unfold qn. rewrite <- qz_lt. lia. Qed.
Lemma qn_inj a b : qn a = qn b -> a = b.
Proof. unfold qn. intros H. apply qz_inj in H. lia. Qed.
Lemma qn_nonneg a : 0 <= qn a.
Proof. rewrite <- qn_0. apply qn_le. lia. Qed.

(** ** The tactic [qclra]

    Every [Qc] hypothesis and goal becomes one about the underlying [Q]
    values; the value of each compound subterm is related to the values of its
    components by an additional hypothesis; then [lra] on [Q]. *)

Ltac qc_known T :=
  match goal with H : T |- _ => idtac end.

Ltac qc_pose a lem :=
  let T := type of lem in tryif qc_known T then fail else pose proof lem.

Ltac qc_step :=
  match goal with
  | |- context [this (?a + ?b)] => qc_pose (a + b) (this_add a b)
  | H : context [this (?a + ?b)] |- _ => qc_pose (a + b) (this_add a b)
  | |- context [this (?a - ?b)] => qc_pose (a - b) (this_sub a b)
  | H : context [this (?a - ?b)] |- _ => qc_pose (a - b) (this_sub a b)
  | |- context [this (Q2Qc ?a * ?b)] => qc_pose (Q2Qc a * b) (this_mul_cl a b)
  | H : context [this (Q2Qc ?a * ?b)] |- _ => qc_pose (Q2Qc a * b) (this_mul_cl a b)
  | |- context [this (?b * Q2Qc ?a)] => qc_pose (b * Q2Qc a) (this_mul_cr a b)
  | H : context [this (?b * Q2Qc ?a)] |- _ => qc_pose (b * Q2Qc a) (this_mul_cr a b)
  | |- context [this (?a * ?b)] => qc_pose (a * b) (this_mul a b)
  | H : context [this (?a * ?b)] |- _ => qc_pose (a * b) (this_mul a b)
  | |- context [this (- ?a)] => qc_pose (- a) (this_opp a)
  | H : context [this (- ?a)] |- _ => qc_pose (- a) (this_opp a)
  | |- context [this (Q2Qc ?a)] => qc_pose (Q2Qc a) (this_const a)
  | H : context [this (Q2Qc ?a)] |- _ => qc_pose (Q2Qc a) (this_const a)
  end.

Ltac qc_prep :=
  unfold qltb in *;
  repeat match goal with
  | H : qleb _ _ = true |- _ => apply qleb_le in H
  | H : qleb _ _ = false |- _ => apply qleb_nle in H
  | H : qeqb _ _ = true |- _ => apply qeqb_eq in H
  | H : qeqb _ _ = false |- _ => apply qeqb_neq in H
  | H : negb _ = true |- _ => apply negb_true_iff in H
  | H : negb _ = false |- _ => apply negb_false_iff in H
  | H : @eq Qc ?a ?b |- _ =>
      let H' := fresh H in
      assert (H' : (this a == this b)%Q) by (rewrite H; apply Qeq_refl);
      clear H
  end;
  repeat rewrite ?qn_0, ?qn_1, ?qz_0, ?qz_1, ?qn_add, ?qn_S in *.

Ltac qc_goal :=
  lazymatch goal with
  | |- @eq Qc _ _ => apply Qc_is_canon
  | |- ~ (@eq Qc _ _) => intro
  | |- ~ _ => intro
  | |- qleb _ _ = true => apply qleb_le
  | |- qleb _ _ = false => apply qleb_nle
  | |- qeqb _ _ = true => apply qeqb_eq; apply Qc_is_canon
  | |- _ => idtac
  end.

Ltac qc_split :=
  repeat match goal with
  | |- context [if qleb ?a ?b then _ else _] => let E := fresh "E" in destruct (qleb a b) eqn:E
  | H : context [if qleb ?a ?b then _ else _] |- _ => let E := fresh "E" in destruct (qleb a b) eqn:E
  end.

Ltac qclra_core :=
  qc_prep; qc_goal; qc_prep; unfold Qcle, Qclt in *; repeat qc_step;
  unfold inject_Z in *; try lra.

Ltac qclra := unfold qmin, qmax, qabs, Qcdiv in *; qc_split; solve [ exfalso; qclra_core | qclra_core ].

Goal forall a b c : Qc, a <= b -> b + c <= 0 -> a - (- c) <= 0.
Proof. intros. qclra. Qed.
Goal forall a b : Qc, qabs (a - b) = qabs (b - a).
Proof. intros. qclra. Qed.
Goal forall a b c : Qc, qabs (a - c) <= qabs (a - b) + qabs (b - c).
Proof. intros. qclra. Qed.
Goal forall n : nat, qn (S n) - 1 = qn n.
Proof. intros. qclra. Qed.
Goal forall a b : Qc, qmin a b <= qmax a b.
Proof. intros. qclra. Qed.
Goal forall a b : Qc, 1 * a <= b * Q2Qc 3 -> a - b <= Q2Qc 2 * b.
Proof. intros. qclra. Qed.
