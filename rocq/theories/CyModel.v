(** Model of experiments/emd_1d_cython.pyx: [emd_1d_dp_cython], with its C
    memory.

    A pointer is [NULL] or the number of a block obtained from [malloc].  A
    cell of a block is [None] until something is stored in it.  Reading or
    writing through [NULL], through a freed pointer or outside the block,
    reading a cell that was never written, and freeing a block twice are
    undefined behaviour: the outcome [Undefined].  ([boundscheck] and
    [wraparound] are off, lines 2-3.)  Which calls of [malloc] fail is decided
    by an arbitrary function of the number of the call.

    An element of an argument is [Some q] for a number [q], and [None] for
    anything whose access or conversion to a C double raises. *)
From Coq Require Import ZArith QArith Qcanon List Bool.
From Verif Require Import Num Py EmdModel.
Import ListNotations.
Open Scope Qc_scope.

Inductive cexn := MemoryError | BadElement.

Record mem := { next : nat; blocks : nat -> option (list (option Qc)) }.

Inductive outcome (A : Type) :=
| Done (a : A) (s : mem)
| Raised (e : cexn) (s : mem)
| Undefined.
Arguments Done {A}. Arguments Raised {A}. Arguments Undefined {A}.

Definition M (A : Type) : Type := mem -> outcome A.

Definition ret {A} (a : A) : M A := fun s => Done a s.
Definition raise {A} (e : cexn) : M A := fun s => Raised e s.
Definition seqM {A B} (m : M A) (f : A -> M B) : M B := fun s =>
  match m s with
  | Done a s' => f a s'
  | Raised e s' => Raised e s'
  | Undefined => Undefined
  end.
Notation "x <~ m ;; f" := (seqM m (fun x => f)) (at level 61, m at next level, right associativity).
Notation "m ;~ f" := (seqM m (fun _ => f)) (at level 61, right associativity).

(** [try: m except: handler; raise] *)
Definition on_error {A} (m : M A) (handler : M unit) : M A := fun s =>
  match m s with
  | Raised e s' => (handler ;~ raise e) s'
  | r => r
  end.

(** [for a in l: state = f(state, a)] *)
Fixpoint loop {A S} (f : S -> A -> M S) (l : list A) (st : S) : M S :=
  match l with
  | [] => ret st
  | a :: l => st' <~ f st a ;; loop f l st'
  end.
Definition each {A} (f : A -> M unit) (l : list A) : M unit := loop (fun _ a => f a) l tt.

Definition pointer := option nat.

Definition update (b : nat -> option (list (option Qc))) (p : nat) (v : option (list (option Qc))) : nat -> option (list (option Qc)) :=
  fun i => if Nat.eqb i p then v else b i.

Section Code.
Variables (rnd : Qc -> Qc) (succeeds : nat -> bool).

(** libc's [malloc], [free] (with the guard [if p != NULL] of every call) and
    array accesses. *)
Definition malloc (n : nat) : M pointer := fun s =>
  if succeeds (next s)
  then Done (Some (next s)) {| next := S (next s); blocks := update (blocks s) (next s) (Some (repeat None n)) |}
  else Done None {| next := S (next s); blocks := blocks s |}.

Definition free (p : pointer) : M unit := fun s =>
  match p with
  | None => Done tt s
  | Some i => match blocks s i with
              | Some _ => Done tt {| next := next s; blocks := update (blocks s) i None |}
              | None => Undefined
              end
  end.

Definition load (p : pointer) (k : nat) : M Qc := fun s =>
  match p with
  | Some i => match blocks s i with
              | Some b => match nth_error b k with Some (Some v) => Done v s | _ => Undefined end
              | None => Undefined
              end
  | None => Undefined
  end.

Definition store (p : pointer) (k : nat) (v : Qc) : M unit := fun s =>
  match p with
  | Some i => match blocks s i with
              | Some b => if Nat.ltb k (length b)
                          then Done tt {| next := next s; blocks := update (blocks s) i (Some (list_set b k (Some v))) |}
                          else Undefined
              | None => Undefined
              end
  | None => Undefined
  end.

(** experiments/emd_1d_cython.pyx:56-62 and 74-80.  The conversion to double
    rounds. *)
Definition convert (p : pointer) (l : list (option Qc)) : M unit :=
  each (fun e => match snd e with Some q => store p (fst e) (rnd q) | None => raise BadElement end)
    (combine (seq 0 (length l)) l) ;~
  x_list <~ loop (fun acc i => v <~ load p i ;; ret (acc ++ [v])) (seq 0 (length l)) [] ;;
  each (fun e => store p (fst e) (snd e)) (combine (seq 0 (length l)) (qsort x_list)).

(** Lines 121-135. *)
Definition c_cell (x_ptr y_ptr prev curr : pointer) (i j : nat) : M unit :=
  xi <~ load x_ptr (i - 1) ;;
  yj <~ load y_ptr (j - 1) ;;
  p1 <~ load prev (j - 1) ;;
  p2 <~ load prev j ;;
  c1 <~ load curr (j - 1) ;;
  let match_cost := rnd (qabs (rnd (xi - yj)) + p1) in
  let leave_x_cost := rnd (1 + p2) in
  let leave_y_cost := rnd (1 + c1) in
  if qleb match_cost leave_x_cost && qleb match_cost leave_y_cost then store curr j match_cost
  else if qleb leave_x_cost match_cost && qleb leave_x_cost leave_y_cost then store curr j leave_x_cost
  else store curr j leave_y_cost.

(** Lines 115-139. *)
Definition c_row (x_ptr y_ptr : pointer) (m : nat) (rows : pointer * pointer) (i : nat) : M (pointer * pointer) :=
  let '(prev, curr) := rows in
  store curr 0 (qn i) ;~
  each (c_cell x_ptr y_ptr prev curr i) (seq 1 m) ;~
  ret (curr, prev).

(** Lines 102-107 and 148-153. *)
Definition free_arguments (swapped : bool) (x_ptr y_ptr : pointer) : M unit :=
  if swapped then free y_ptr ;~ free x_ptr else free x_ptr ;~ free y_ptr.

(** Lines 19-155.  [<double_t> j] is exact for the lengths considered. *)
Definition emd_1d_dp_cython (positions_x positions_y : list (option Qc)) : M Qc :=
  let n := length positions_x in
  x_ptr <~ malloc n ;;
  match x_ptr with None => raise MemoryError | Some _ =>
  on_error (convert x_ptr positions_x) (free x_ptr) ;~
  let m := length positions_y in
  y_ptr <~ malloc m ;;
  match y_ptr with None => free x_ptr ;~ raise MemoryError | Some _ =>
  on_error (convert y_ptr positions_y) (free x_ptr ;~ free y_ptr) ;~
  let swapped := Nat.ltb m n in
  let '(x_ptr, y_ptr) := (if swapped then (y_ptr, x_ptr) else (x_ptr, y_ptr)) in
  let '(n, m) := (if swapped then (m, n) else (n, m)) in
  prev <~ malloc (m + 1) ;;
  curr <~ malloc (m + 1) ;;
  match prev, curr with
  | Some _, Some _ =>
      each (fun j => store prev j (qn j)) (seq 0 (m + 1)) ;~
      rows <~ loop (c_row x_ptr y_ptr m) (seq 1 n) (prev, curr) ;;
      final_emd <~ load (fst rows) m ;;
      free (fst rows) ;~ free (snd rows) ;~
      free_arguments swapped x_ptr y_ptr ;~
      ret final_emd
  | _, _ =>
      free prev ;~ free curr ;~
      free_arguments swapped x_ptr y_ptr ;~
      raise MemoryError
  end
  end end.

End Code.

Definition empty_mem : mem := {| next := 0; blocks := fun _ => None |}.
