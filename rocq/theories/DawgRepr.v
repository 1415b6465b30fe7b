(** Proofs about experiments/dawg.py (model: DawgModel.v): no [repr] of a
    character is the beginning of another one. *)
From Coq Require Import ZArith NArith List Bool Lia.
From Verif Require Import Num Py NmdSpec DawgModel.
Import ListNotations.

Lemma hex_digit_inj a b : (a < 16)%N -> (b < 16)%N -> hex_digit a = hex_digit b -> a = b.
Proof. unfold hex_digit. destruct (N.ltb_spec a 10), (N.ltb_spec b 10); lia. Qed.

Lemma hex_length k c : length (hex k c) = k.
Proof. revert c. induction k as [|k IH]; intros c; [reflexivity|]. cbn [hex]. rewrite app_length, IH. cbn. lia. Qed.

Lemma hex_inj k : forall a b, (a < 16 ^ N.of_nat k)%N -> (b < 16 ^ N.of_nat k)%N -> hex k a = hex k b -> a = b.
Proof.
  induction k as [|k IH]; intros a b Ha Hb E; [cbn in Ha, Hb; lia|]. cbn [hex] in E. apply app_inj_tail in E. destruct E as [E1 E2].
  apply hex_digit_inj in E2; [|apply N.mod_lt; lia|apply N.mod_lt; lia].
  replace (N.of_nat (S k)) with (N.succ (N.of_nat k)) in Ha, Hb by lia. rewrite N.pow_succ_r' in Ha, Hb.
  apply IH in E1; [|apply N.div_lt_upper_bound; lia|apply N.div_lt_upper_bound; lia].
  rewrite (N.div_mod a 16), (N.div_mod b 16) by lia. congruence.
Qed.

Lemma hex_split k a b s t : (a < 16 ^ N.of_nat k)%N -> (b < 16 ^ N.of_nat k)%N -> hex k a ++ s = hex k b ++ t -> a = b /\ s = t.
Proof.
  intros Ha Hb E. assert (X : hex k a = hex k b /\ s = t).
  { pose proof (f_equal (firstn k) E) as E1. pose proof (f_equal (skipn k) E) as E2.
    rewrite !firstn_app, !hex_length, Nat.sub_diag, (firstn_all2 (hex k a)), (firstn_all2 (hex k b)) in E1 by (rewrite hex_length; lia). cbn [firstn] in E1. rewrite !app_nil_r in E1.
    rewrite !skipn_app, !hex_length, Nat.sub_diag, (skipn_all2 (hex k a)), (skipn_all2 (hex k b)) in E2 by (rewrite hex_length; lia). split; [exact E1|exact E2]. }
  destruct X as [X ->]. split; auto. eapply hex_inj; eauto.
Qed.

Lemma escaped_free p a b s t : a <> 39%N -> b <> 39%N -> escaped p a ++ [39%N] ++ s = escaped p b ++ [39%N] ++ t -> a = b /\ s = t.
Proof.
  intros Na Nb. unfold escaped.
  assert (P2 : (16 ^ N.of_nat 2 = 256)%N) by reflexivity. assert (P4 : (16 ^ N.of_nat 4 = 65536)%N) by reflexivity. assert (P8 : (16 ^ N.of_nat 8 = 4294967296)%N) by reflexivity.
  assert (H2 : forall s t, (a < 256)%N -> (b < 256)%N -> hex 2 a ++ s = hex 2 b ++ t -> a = b /\ s = t) by (intros; apply (hex_split 2); auto; lia).
  assert (H4 : forall s t, (a < 65536)%N -> (b < 65536)%N -> hex 4 a ++ s = hex 4 b ++ t -> a = b /\ s = t) by (intros; apply (hex_split 4); auto; lia).
  assert (H8 : forall s t, (a < 4294967296)%N -> (b < 4294967296)%N -> hex 8 a ++ s = hex 8 b ++ t -> a = b /\ s = t) by (intros; apply (hex_split 8); auto; lia).
  rename H2 into K2, H4 into K4, H8 into K8.
  remember (hex 2 a) as a2 eqn:X1. remember (hex 4 a) as a4 eqn:X2. remember (hex 8 a) as a8 eqn:X3.
  remember (hex 2 b) as b2 eqn:X4. remember (hex 4 b) as b4 eqn:X5. remember (hex 8 b) as b8 eqn:X6.
  clear X1 X2 X3 X4 X5 X6.
  destruct (N.eqb_spec a 92); [|destruct (N.eqb_spec a 9); [|destruct (N.eqb_spec a 10); [|destruct (N.eqb_spec a 13); [|destruct (p a || (4294967296 <=? a)%N) eqn:Ea;
    [|apply orb_false_iff in Ea; destruct Ea as [_ Ea]; apply N.leb_gt in Ea; destruct (N.ltb_spec a 256); [|destruct (N.ltb_spec a 65536)]]]]]];
  (destruct (N.eqb_spec b 92); [|destruct (N.eqb_spec b 9); [|destruct (N.eqb_spec b 10); [|destruct (N.eqb_spec b 13); [|destruct (p b || (4294967296 <=? b)%N) eqn:Eb;
    [|apply orb_false_iff in Eb; destruct Eb as [_ Eb]; apply N.leb_gt in Eb; destruct (N.ltb_spec b 256); [|destruct (N.ltb_spec b 65536)]]]]]]);
  cbn [app]; intros E; injection E; intros; try discriminate; try (subst; congruence); try (split; congruence);
  match goal with
       | H : a2 ++ _ = b2 ++ _ |- _ => apply K2 in H; auto
       | H : a4 ++ _ = b4 ++ _ |- _ => apply K4 in H; auto
       | H : a8 ++ _ = b8 ++ _ |- _ => apply K8 in H; auto
       | _ => idtac
       end;
  match goal with H : _ /\ 39%N :: _ = 39%N :: _ |- _ => destruct H as [-> H]; injection H as ->; auto | _ => idtac end.
Qed.

Lemma repr_free p a b s t : py_repr p a ++ s = py_repr p b ++ t -> a = b /\ s = t.
Proof.
  unfold py_repr. destruct (N.eqb_spec a 39), (N.eqb_spec b 39); subst; cbn [app]; intros E; try discriminate.
  - injection E as ->. auto.
  - injection E as E. rewrite <- !app_assoc in E. apply escaped_free in E; auto.
Qed.
