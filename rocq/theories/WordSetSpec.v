(** What a user of [WordSet] relies on, stated without reference to ids or
    index structures: a finite map from normalized words to the spelling
    under which each was added, and a score defined by pairings of n-grams. *)
From Coq Require Import ZArith NArith QArith Qcanon List Bool.
From Verif Require Import Num Py PyDict EmdSpec NmdSpec NmdModel.
Import ListNotations.
Open Scope Qc_scope.

(** The normal form of a word: case folded if wanted, passed through the
    normalizer if there is one ([None]: it raised), and rejected if it then
    holds a NUL. *)
Definition normal_form (casefold : str -> str) (case_sensitive : bool) (normalizer : option (str -> option str))
    (w : str) : option str :=
  let w := if case_sensitive then w else casefold w in
  match match normalizer with Some f => f w | None => Some w end with
  | Some u => if in_dec N.eq_dec 0%N u then None else Some u
  | None => None
  end.

(** The calls that may change a set. *)
Inductive command := CAdd (v : pyval) | CDiscard (v : pyval) | CRemove (v : pyval) | CPop | CClear.

(** What a call returns: nothing, or the word popped. *)
Inductive answer := ANone | AWord (w : str).

(** The abstract set: normalized words with the spelling they were added
    under, in the order they were added. *)
Definition members := list (str * str).

Section Spec.
Variable norm : str -> option str.

Definition holds (m : members) (u : str) : bool := existsb (fun e => if eqd (fst e) u then true else false) m.
Definition without (m : members) (u : str) : members := filter (fun e => if eqd (fst e) u then false else true) m.

(** One call on the abstract set. *)
Definition command_spec (m : members) (c : command) : members * result answer :=
  match c with
  | CAdd (PStr w) =>
      match w with
      | [] => (m, Err ValueError)
      | _ =>
          match norm w with
          | None => (m, Err ValueError)
          | Some [] => (m, Err ValueError)
          | Some u => (if holds m u then m else m ++ [(u, w)], Ok ANone)
          end
      end
  | CDiscard (PStr w) =>
      match norm w with
      | None => (m, Err ValueError)
      | Some u => (without m u, Ok ANone)
      end
  | CRemove (PStr w) =>
      match norm w with
      | None => (m, Err ValueError)
      | Some u => if holds m u then (without m u, Ok ANone) else (m, Err KeyError)
      end
  | CAdd _ | CDiscard _ | CRemove _ => (m, Err TypeError)
  | CPop => match m with [] => (m, Err KeyError) | (_, w) :: m' => (m', Ok (AWord w)) end
  | CClear => ([], Ok ANone)
  end.

(** [v in s] *)
Definition contains_spec (m : members) (v : pyval) : result bool :=
  match v with
  | PStr w => match norm w with None => Err ValueError | Some u => Ok (holds m u) end
  | _ => Ok false
  end.

(** The content and the answers after a sequence of calls. *)
Fixpoint spec_run (m : members) (cs : list command) : members * list (result answer) :=
  match cs with
  | [] => (m, [])
  | c :: rest =>
      let '(m1, r) := command_spec m c in
      let '(m2, rs) := spec_run m1 rest in (m2, r :: rs)
  end.

End Spec.

(** ** The score *)

(** Number of n-grams of a word over all sizes. *)
Definition total_grams (ns : list nat) (w : str) : nat := list_sum (map (fun n => gram_count n w) ns).

(** [s] is the similarity of two words: one minus the sum of their n-gram
    mover's distances over all sizes, divided by the number of n-grams. *)
Definition is_score (ns : list nat) (q w : str) (s : Qc) : Prop :=
  exists d : nat -> Qc, (forall n, In n ns -> is_nmd n q w (d n)) /\
    s = 1 - qsum (map d ns) / qn (total_grams ns q + total_grams ns w).

(** The words a query is about: those sharing an n-gram of the filter size
    or, without a filter, all (unless neither word has any n-gram). *)
Definition eligible (ns : list nat) (fn : option nat) (q w : str) : Prop :=
  match fn with
  | Some n => share_gram n q w
  | None => (0 < total_grams ns q + total_grams ns w)%nat
  end.

(** [x] was added before [y]. *)
Definition before (m : members) (x y : str * str) : Prop := exists a b c, m = a ++ x :: b ++ y :: c.

(** The filter size for given sizes: 3 if it is one of them, otherwise the
    smallest if that is at most 4. *)
Definition filter_size (ns : list nat) (fn : option nat) : Prop :=
  (In 3%nat ns /\ fn = Some 3%nat) \/
  (~ In 3%nat ns /\ exists m, In m ns /\ (forall k, In k ns -> (m <= k)%nat) /\
     fn = if (m <=? 4)%nat then Some m else None).
