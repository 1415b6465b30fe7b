(** The score of a word in [ApproxWordListV5b.lookup], n-gram by n-gram. *)
From Coq Require Import ZArith NArith QArith Qcanon List Bool.
From Verif Require Import Num Py PyDict EmdModel NmdSpec IndexSpec IndexModel.
Import ListNotations.
Open Scope Qc_scope.

(** The elements of a list, each once, in order of first occurrence. *)
Fixpoint uniq (l : list str) : list str :=
  match l with
  | [] => []
  | g :: l => g :: filter (fun x => if eqd x g then false else true) (uniq l)
  end.

Section Spec.
Variable rnd : Qc -> Qc.

(** Where the n-gram [g] occurs in [w]: 0 is the first n-gram of the word, 1
    the last. *)
Definition places (n : Z) (w g : str) : list Qc :=
  map (fun e => rnd (qz (fst e) / qz (Z.max 1 (zlen (get_n_grams w n) - 1))))
    (filter (fun e => if eqd (snd e) g then true else false) (enumerate (get_n_grams w n))).

(** The n-grams of [q] that [w] has as well. *)
Definition in_common (n : Z) (q w : str) : list str :=
  filter (fun g => if in_dec eqd g (get_n_grams w n) then true else false) (uniq (get_n_grams q n)).

(** What one of them is worth: the number of its occurrences, less the
    distance between the two sets of places. *)
Definition worth (normalize : bool) (q w : str) (n : Z) (g : str) : Qc :=
  let a := places n q g in let b := places n w g in
  let d := match emd_1d_dp rnd a b with Ok d => d | Err _ => 0 end in
  let c := rnd (rnd (qz (zlen a + zlen b)) - d) in
  if normalize then rnd (c / qz (size n q + size n w)) else c.

(** Their sum. *)
Definition score5 (normalize : bool) (q w : str) (n : Z) : Qc :=
  fsum rnd (map (worth normalize q w n) (in_common n q w)).

End Spec.
