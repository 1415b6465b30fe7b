(** Model of the unicode normalizers of nmd/nmd_word_set.py:28-48 and of
    [str.casefold] (used on line 139).

    [unicodedata.normalize] is not code of the repository; it is modelled as
    the Unicode Standard defines it (annex 15 and section 3.11), for an
    arbitrary character database [ucd].  [str.casefold] maps every character
    by itself.  [unicodedata] and the package [regex] are taken to use the same
    character categories. *)
From Coq Require Import NArith List Bool Arith.
From Verif Require Import Num Py NmdSpec WordSetModel.
Import ListNotations.
Open Scope N_scope.

Record ucd := {
  decomp : N -> list N;            (* full canonical decomposition of a character *)
  kdecomp : N -> list N;           (* full compatibility decomposition *)
  ccc : N -> N;                    (* canonical combining class *)
  mark : N -> bool;                (* category M, [\p{M}] *)
  pair : N -> N -> option N;       (* primary composite of two characters *)
  fold : N -> list N               (* full case folding *)
}.

Section Uni.
Variable u : ucd.

(** [str.casefold] *)
Definition uni_casefold (s : str) : str := flat_map (fold u) s.

(** Canonical ordering: a character of class other than 0 moves left past those
    of greater class.  The list so far is reversed. *)
Fixpoint place (c : N) (acc : list N) : list N :=
  match acc with
  | [] => [c]
  | d :: rest => if negb (ccc u c =? 0) && (ccc u c <? ccc u d) then d :: place c rest else c :: acc
  end.
Definition reorder (s : list N) : list N := rev (fold_left (fun acc c => place c acc) s []).

(** Canonical composition.  [last] is the starter that may still combine,
    [held] what follows it, reversed. *)
Fixpoint compose (last : option N) (held : list N) (s : list N) : list N :=
  match s with
  | [] => match last with Some p => p :: rev held | None => [] end
  | c :: rest =>
      match last with
      | None => if ccc u c =? 0 then compose (Some c) [] rest else c :: compose None [] rest
      | Some p =>
          let blocked := match held with [] => false | h :: _ => ccc u c <=? ccc u h end in
          match (if blocked then None else pair u p c) with
          | Some q => compose (Some q) held rest
          | None => if ccc u c =? 0 then p :: rev held ++ compose (Some c) [] rest else compose last (c :: held) rest
          end
      end
  end.

(** [unicodedata.normalize('NFD', _)] *)
Definition nfd (s : str) : str := reorder (flat_map (decomp u) s).
(** nmd/nmd_word_set.py:31, [normalize_nfc] *)
Definition normalize_nfc (s : str) : str := compose None [] (nfd s).
(** nmd/nmd_word_set.py:33, [normalize_nfkc] *)
Definition normalize_nfkc (s : str) : str := compose None [] (reorder (flat_map (kdecomp u) s)).
(** nmd/nmd_word_set.py:42-48, [normalize_nfd_strip_marks] *)
Definition normalize_nfd_strip_marks (s : str) : str := filter (fun c => negb (mark u c)) (nfd s).

(** What is used of the character database; it holds for all characters of
    Unicode 14 (checked with the tables of Python). *)
Record sound : Prop := {
  s_ccc : forall c, ccc u c <> 0 -> mark u c = true;
  s_stable : forall c d, In d (decomp u c) -> decomp u d = [d];
  s_mark : forall c d, mark u c = true -> In d (decomp u c) -> mark u d = true;
  s_fold : forall c, nfd (fold u c) = nfd (uni_casefold (decomp u c))
}.

End Uni.

(** These as the argument [unicode_normalizer]; they do not raise. *)
Definition as_normalizer (f : str -> str) : nz_arg := ZCall (fun s => Some (f s)).

(** ** An excerpt of the database *)
Record row := { r_code : N; r_ccc : N; r_mark : bool; r_decomp : list N; r_kdecomp : list N; r_fold : list N }.
Definition plain_row (c : N) : row := {| r_code := c; r_ccc := 0; r_mark := false; r_decomp := [c]; r_kdecomp := [c]; r_fold := [c] |}.
Definition row_of (rows : list row) (c : N) : row :=
  match find (fun r => r_code r =? c) rows with Some r => r | None => plain_row c end.
Definition tables (rows : list row) (pairs : list (N * N * N)) : ucd := {|
  decomp := fun c => r_decomp (row_of rows c); kdecomp := fun c => r_kdecomp (row_of rows c);
  ccc := fun c => r_ccc (row_of rows c); mark := fun c => r_mark (row_of rows c);
  pair := fun a b => option_map snd (find (fun p => (fst (fst p) =? a) && (snd (fst p) =? b)) pairs);
  fold := fun c => r_fold (row_of rows c) |}.

(** The rows of UnicodeData.txt and CaseFolding.txt for: E, M, T, e with acute,
    E with acute, grave, acute, dot below, ypogegrammeni, alpha and iota with
    tonos, alpha with ypogegrammeni, and with both, the trade mark sign.
    Characters not listed are taken to be ordinary. *)
Definition excerpt : ucd := tables
  [ {| r_code := 0x45; r_ccc := 0; r_mark := false; r_decomp := [0x45]; r_kdecomp := [0x45]; r_fold := [0x65] |};
    {| r_code := 0x4D; r_ccc := 0; r_mark := false; r_decomp := [0x4D]; r_kdecomp := [0x4D]; r_fold := [0x6D] |};
    {| r_code := 0x54; r_ccc := 0; r_mark := false; r_decomp := [0x54]; r_kdecomp := [0x54]; r_fold := [0x74] |};
    {| r_code := 0xC9; r_ccc := 0; r_mark := false; r_decomp := [0x45; 0x301]; r_kdecomp := [0x45; 0x301]; r_fold := [0xE9] |};
    {| r_code := 0xE9; r_ccc := 0; r_mark := false; r_decomp := [0x65; 0x301]; r_kdecomp := [0x65; 0x301]; r_fold := [0xE9] |};
    {| r_code := 0x300; r_ccc := 230; r_mark := true; r_decomp := [0x300]; r_kdecomp := [0x300]; r_fold := [0x300] |};
    {| r_code := 0x301; r_ccc := 230; r_mark := true; r_decomp := [0x301]; r_kdecomp := [0x301]; r_fold := [0x301] |};
    {| r_code := 0x323; r_ccc := 220; r_mark := true; r_decomp := [0x323]; r_kdecomp := [0x323]; r_fold := [0x323] |};
    {| r_code := 0x345; r_ccc := 240; r_mark := true; r_decomp := [0x345]; r_kdecomp := [0x345]; r_fold := [0x3B9] |};
    {| r_code := 0x3AC; r_ccc := 0; r_mark := false; r_decomp := [0x3B1; 0x301]; r_kdecomp := [0x3B1; 0x301]; r_fold := [0x3AC] |};
    {| r_code := 0x3AF; r_ccc := 0; r_mark := false; r_decomp := [0x3B9; 0x301]; r_kdecomp := [0x3B9; 0x301]; r_fold := [0x3AF] |};
    {| r_code := 0x1FB3; r_ccc := 0; r_mark := false; r_decomp := [0x3B1; 0x345]; r_kdecomp := [0x3B1; 0x345]; r_fold := [0x3B1; 0x3B9] |};
    {| r_code := 0x1FB4; r_ccc := 0; r_mark := false; r_decomp := [0x3B1; 0x301; 0x345]; r_kdecomp := [0x3B1; 0x301; 0x345]; r_fold := [0x3AC; 0x3B9] |};
    {| r_code := 0x2122; r_ccc := 0; r_mark := false; r_decomp := [0x2122]; r_kdecomp := [0x54; 0x4D]; r_fold := [0x2122] |} ]
  [ (0x45, 0x301, 0xC9); (0x65, 0x301, 0xE9); (0x3B1, 0x301, 0x3AC); (0x3B9, 0x301, 0x3AF); (0x3B1, 0x345, 0x1FB3); (0x3AC, 0x345, 0x1FB4) ].
