(** Edit distance, without reference to a dynamic program. *)
From Coq Require Import ZArith QArith Qcanon List Bool.
From Verif Require Import Num EmdSpec.
Import ListNotations.
Open Scope Qc_scope.

Section Edit.
Context {A : Type}.

(** ** Scripts: a sequence read and a sequence written, left to right *)
Inductive edit :=
| Keep (x : A)
| Insert (x : A)
| Delete (x : A)
| Substitute (x y : A)
| Transpose (x y : A).

Definition reads (e : edit) : list A :=
  match e with Keep x => [x] | Insert _ => [] | Delete x => [x] | Substitute x _ => [x] | Transpose x y => [x; y] end.
Definition writes (e : edit) : list A :=
  match e with Keep x => [x] | Insert x => [x] | Delete _ => [] | Substitute _ y => [y] | Transpose x y => [y; x] end.

(** [transposition = None]: transpositions are not available. *)
Record costs := { insertion : Qc; deletion : Qc; substitution : Qc; transposition : option Qc }.

Definition available (c : costs) (e : edit) : Prop := match e with Transpose _ _ => transposition c <> None | _ => True end.
Definition edit_cost (c : costs) (e : edit) : Qc :=
  match e with
  | Keep _ => 0
  | Insert _ => insertion c
  | Delete _ => deletion c
  | Substitute _ _ => substitution c
  | Transpose _ _ => match transposition c with Some t => t | None => 0 end
  end.

Definition turns (c : costs) (script : list edit) (u v : list A) : Prop :=
  Forall (available c) script /\ flat_map reads script = u /\ flat_map writes script = v.
Definition script_cost (c : costs) (script : list edit) : Qc := qsum (map (edit_cost c) script).

(** [d] is the least cost of a script that turns [u] into [v]. *)
Definition distance (c : costs) (u v : list A) (d : Qc) : Prop :=
  (exists script, turns c script u v /\ script_cost c script = d) /\
  forall script, turns c script u v -> d <= script_cost c script.

(** Some script turns [u] into [v] at a cost of at most [d]. *)
Definition within (c : costs) (u v : list A) (d : Qc) : Prop := exists script, turns c script u v /\ script_cost c script <= d.

(** ** Edits one after the other, anywhere in the sequence *)
Inductive one_edit : list A -> list A -> Prop :=
| one_insert a x b : one_edit (a ++ b) (a ++ x :: b)
| one_delete a x b : one_edit (a ++ x :: b) (a ++ b)
| one_substitute a x y b : one_edit (a ++ x :: b) (a ++ y :: b).

(** ... including transpositions of neighbours *)
Inductive one_edit_t : list A -> list A -> Prop :=
| one_plain u v : one_edit u v -> one_edit_t u v
| one_transpose a x y b : one_edit_t (a ++ x :: y :: b) (a ++ y :: x :: b).

Inductive in_steps (step : list A -> list A -> Prop) : nat -> list A -> list A -> Prop :=
| steps_0 u : in_steps step 0 u u
| steps_S n u v w : in_steps step n u v -> step v w -> in_steps step (S n) u w.

(** [d] is the least number of steps from [u] to [v]. *)
Definition least_steps (step : list A -> list A -> Prop) (u v : list A) (d : nat) : Prop :=
  in_steps step d u v /\ forall n, in_steps step n u v -> (d <= n)%nat.
End Edit.
Arguments edit : clear implicits.

(** Every edit costs 1; without and with transpositions. *)
Definition unit_costs : costs := {| insertion := 1; deletion := 1; substitution := 1; transposition := None |}.
Definition unit_costs_t : costs := {| insertion := 1; deletion := 1; substitution := 1; transposition := Some 1 |}.
