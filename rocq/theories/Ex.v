(** Notation for the concrete cases shown beside theorems. *)
From Coq Require Import ZArith NArith QArith Qcanon List String Ascii.
From Verif Require Import Num Py.
Import ListNotations.

(** The returned value is [q]. *)
Definition is_val (r : result Qc) (q : Q) : bool :=
  match r with Ok v => qeqb v (Q2Qc q) | Err _ => false end.

(** The fraction [a/b]. *)
Definition f (a : Z) (b : positive) : Qc := Q2Qc (a # b).

(** A literal string as code points. *)
Definition w_ (s : string) : list N := map N_of_ascii (list_ascii_of_string s).

(** Two results are the same. *)
Definition same_val (a b : result Qc) : bool :=
  match a, b with Ok x, Ok y => qeqb x y | _, _ => true end.

Lemma same_val_false a b : same_val a b = false -> a <> b.
Proof.
  intros E ->. destruct b; simpl in E; [|discriminate].
  assert (qeqb a a = true) by (apply qeqb_eq; reflexivity). congruence.
Qed.
