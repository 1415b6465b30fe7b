(** Model of experiments/find_replace_trie.py, [format_bytes] and
    [format_seconds].

    Numbers are rationals and every floating-point division is rounded by
    [rnd]; [%] formatting rounds the value it is given to the nearest decimal,
    half to even, as Python does. *)
From Coq Require Import ZArith NArith QArith Qround Qabs List Bool Lia String.
From Verif Require Import Py NmdSpec Float64 Ex.
Import ListNotations.
Open Scope list_scope.

(** ** [%d] and [%.kf] of a number that is not negative *)

Definition digit (d : Z) : N := Z.to_N (48 + d).
Fixpoint digits (fuel : nat) (n : Z) (acc : str) : str :=
  match fuel with
  | O => acc
  | S fuel' => let acc' := digit (n mod 10) :: acc in if (n <? 10)%Z then acc' else digits fuel' (n / 10)%Z acc'
  end.
(** [str(n)] *)
Definition show_int (n : Z) : str := digits (S (Z.to_nat (Z.log2 n))) n [].
(** the last [k] digits *)
Fixpoint last_digits (k : nat) (n : Z) (acc : str) : str :=
  match k with O => acc | S k' => last_digits k' (n / 10)%Z (digit (n mod 10) :: acc) end.

(** [%d] drops the decimals *)
Definition percent_d (q : Q) : str := show_int (Qfloor q).
Definition percent_f (k : nat) (q : Q) : str :=
  let m := rne (q * inject_Z (10 ^ Z.of_nat k)) in
  show_int (m / 10 ^ Z.of_nat k) ++ match k with O => [] | _ => w_ "." ++ last_digits k m [] end.

(** [num % 1] is not zero *)
Definition has_decimals (q : Q) : bool := negb (Qeq_bool q (inject_Z (Qfloor q))).
(** [('%.2f %s' if num % 1 else '%d %s') % (num, unit)] *)
Definition with_unit (q : Q) (unit : str) : str := (if has_decimals q then percent_f 2 q else percent_d q) ++ w_ " " ++ unit.

Section Rounded.
Variable rnd : Q -> Q.

(** experiments/find_replace_trie.py:102-104; the first division turns the
    integer into a float, which changes nothing later on *)
Fixpoint bytes_loop (fuel unit : nat) (num : Q) : nat * Q :=
  match fuel with
  | O => (unit, num)
  | S fuel' => if Qle_bool 1024 num && (unit <? 8)%nat then bytes_loop fuel' (S unit) (rnd (rnd num / 1024)) else (unit, num)
  end.

Definition byte_units : list str := map w_ ["Bytes"; "KiB"; "MiB"; "GiB"; "TiB"; "PiB"; "EiB"; "ZiB"; "YiB"]%string.

(** experiments/find_replace_trie.py:89-106 *)
Definition format_bytes (num : Z) : str :=
  let num := Z.abs num in
  if (num =? 0)%Z then w_ "0 Bytes"
  else if (num =? 1)%Z then w_ "1 Byte"
  else let (unit, q) := bytes_loop 8 0 (inject_Z num) in with_unit q (nth unit byte_units []).

(** experiments/find_replace_trie.py:126-128; [denominators[unit]] is looked up
    before [unit < 4] is asked *)
Definition denominators : list Q := [60; 60; 24; 7].
Fixpoint seconds_loop (fuel unit : nat) (num : Q) : result (nat * Q) :=
  match fuel with
  | O => Err RuntimeError
  | S fuel' => match nth_error denominators unit with
               | None => Err IndexError
               | Some d => if Qle_bool d num && (unit <? 4)%nat then seconds_loop fuel' (S unit) (rnd (num / d)) else Ok (unit, num)
               end
  end.

Definition second_units : list str := map w_ ["seconds"; "minutes"; "hours"; "days"; "weeks"]%string.

(** [int(math.floor(math.log10(num)))] *)
Variable log10_floor : Q -> Z.

(** experiments/find_replace_trie.py:109-130 *)
Definition format_seconds (num : Q) : result str :=
  let num := Qabs num in
  if Qeq_bool num 0 then Ok (w_ "0 seconds")
  else if Qeq_bool num 1 then Ok (w_ "1 second")
  else if negb (Qle_bool 1 num) then Ok (percent_f (Z.to_nat (1 - log10_floor num)) num ++ w_ " seconds")
  else
    r <- seconds_loop 6 0 num ;;
    let (unit, q) := (r : nat * Q) in
    let name := nth unit second_units [] in
    Ok (with_unit q (if Qeq_bool q 1 then removelast name else name)).
End Rounded.
