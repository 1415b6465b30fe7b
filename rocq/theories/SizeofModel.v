(** Model of experiments/sizeof.py: [deep_sizeof]. *)
From Coq Require Import ZArith NArith List Bool.
From Verif Require Import Py PyDict NmdSpec.
Import ListNotations.
Open Scope Z_scope.

(** What [deep_sizeof] can see of an object.  References (and [id]s) are
    numbers; the objects do not change while they are measured and no two
    share an id. *)
Record pyobj := {
  (** [getattr(item, 'nbytes', None)] if that is an int *)
  nbytes : option Z;
  (** [item.memory_usage(index=True, deep=True)], summed if it can be: missing
      (or any other [AttributeError]), or else an int, a value of another type,
      or another exception *)
  memory : option (result (option Z));
  (** [sys.getsizeof(item)] *)
  getsizeof : Z;
  (** [isinstance(item, NOT_ITERABLE)] *)
  flat : bool;
  (** a mapping: its keys and values *)
  mapping : option (list nat * list nat);
  (** both [__iter__] and [__getitem__]: what iteration gives *)
  elements : option (list nat);
  (** [__dict__] *)
  attr_dict : list nat * list nat;
  (** the values (or [None]) of [__slots__] *)
  slots : list nat;
  (** [dir(item)]: name, whether the class has a property, type or callable of
      that name, and the attribute *)
  attrs : list (str * bool * result nat);
}.

Section Heap.
Variable heap : nat -> pyobj.

(** experiments/sizeof.py:30-32, [add_to_stack] *)
Definition add_to_stack (sizes : dict nat Z) (stack : dict nat nat) (thing : nat) : dict nat nat :=
  if dmem thing sizes then stack else dset thing thing stack.

(** [d.popitem()]: the item inserted last *)
Definition popitem (stack : dict nat nat) : option (nat * nat * dict nat nat) :=
  match rev stack with [] => None | e :: r => Some (e, rev r) end.

(** experiments/sizeof.py:101: two underscores at the start or at the end *)
Definition magic (name : str) : bool :=
  (if eqd (firstn 2 name) [95%N; 95%N] then true else false) ||
  (if eqd (skipn (length name - 2) name) [95%N; 95%N] then true else false).

(** experiments/sizeof.py:99-102 *)
Definition push_attr (sizes : dict nat Z) (stack : dict nat nat) (a : str * bool * result nat) : result (dict nat nat) :=
  let '(name, skip, value) := a in
  if skip then Ok stack
  else if magic name then Ok stack
  else v <- value ;; Ok (add_to_stack sizes stack v).

(** experiments/sizeof.py:69-102 *)
Definition recurse (sizes : dict nat Z) (stack : dict nat nat) (item : pyobj) : result (dict nat nat) :=
  let push := fold_left (add_to_stack sizes) in
  if flat item then Ok stack else
  let stack := match mapping item with Some (ks, vs) => push vs (push ks stack) | None => stack end in
  let stack := match elements item with Some l => push l stack | None => stack end in
  let stack := push (snd (attr_dict item)) (push (fst (attr_dict item)) stack) in
  let stack := push (slots item) stack in
  foldM (push_attr sizes) (attrs item) stack.

(** experiments/sizeof.py:54-64 *)
Definition memory_usage (item : pyobj) : result (option Z) :=
  match memory item with
  | None => Ok None
  | Some (Err TypeError) => Ok None
  | Some r => r
  end.

(** experiments/sizeof.py:34-104; [None] if [fuel] rounds are not enough *)
Fixpoint size_loop (fuel : nat) (sizes : dict nat Z) (stack : dict nat nat) : result (option Z) :=
  match fuel with
  | O => Ok None
  | S fuel =>
      match popitem stack with
      | None => Ok (Some (fold_left Z.add (dvals sizes) 0))
      | Some (item_id, ref, stack) =>
          let item := heap ref in
          if dmem item_id sizes then size_loop fuel sizes stack else
          match nbytes item with
          | Some size => size_loop fuel (dset item_id size sizes) stack
          | None =>
              u <- memory_usage item ;;
              match u with
              | Some size => size_loop fuel (dset item_id size sizes) stack
              | None =>
                  let sizes := dset item_id (getsizeof item) sizes in
                  stack <- recurse sizes stack item ;;
                  size_loop fuel sizes stack
              end
          end
      end
  end.

(** experiments/sizeof.py:26-104 *)
Definition deep_sizeof (fuel : nat) (obj : nat) : result (option Z) := size_loop fuel [] [(obj, obj)].

End Heap.
