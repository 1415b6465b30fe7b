(** Model of experiments/find_replace_trie.py, [Trie.process_file] and
    [Trie._yield_tokens]: a file is read, rewritten and stored under another
    name.

    The operating system is a partial map from path strings to directories and
    files of bytes; the program is a tree of system calls, so that it can be
    stopped after each of them.  A path is its string: [a//b], [./a/b] and links
    are not identified with [a/b], except that the empty path names nothing and
    that a name without slash lies in the current directory, which exists.
    Printing is left out. *)
From Coq Require Import ZArith NArith QArith List Bool Lia String.
From Verif Require Import Py PyDict TrieModel NmdSpec Ex.
Import ListNotations.
Open Scope list_scope.

Definition path := list N.
Definition bytes := list N.

Inductive entry := File (content : bytes) | Dir.
Definition fs := path -> option entry.

Definition upd (p : path) (x : option entry) (s : fs) : fs := fun q => if eqd q p then x else s q.

(** What [os.stat] sees: there is nothing under the empty path. *)
Definition stat (s : fs) (p : path) : option entry := match p with [] => None | _ => s p end.

Inductive error :=
| FileNotFoundError | FileExistsError | IsADirectoryError | NotADirectoryError
| OSError        (* any other refusal of the operating system *)
| AssertionFailed | TypeFailed | UnicodeFailed | IndexFailed | OtherFailed.

(** ** posixpath *)

Definition SLASH : N := 47%N.
Fixpoint take_while (f : N -> bool) (l : list N) : list N := match l with [] => [] | c :: l' => if f c then c :: take_while f l' else [] end.
Fixpoint drop_while (f : N -> bool) (l : list N) : list N := match l with [] => [] | c :: l' => if f c then drop_while f l' else l end.
Definition is_slash (c : N) : bool := N.eqb c SLASH.

(** [os.path.split(p)] *)
Definition path_split (p : path) : path * path :=
  let tail := rev (take_while (fun c => negb (is_slash c)) (rev p)) in
  let head := rev (drop_while (fun c => negb (is_slash c)) (rev p)) in
  (if forallb is_slash head then head else rev (drop_while is_slash (rev head)), tail).
(** [os.path.dirname(p)] *)
Definition dirname (p : path) : path := fst (path_split p).

(** ** System calls *)

Inductive act :=
| Exists (p : path) | IsDir (p : path) | MkDir (p : path) | GetSize (p : path)
| OpenWrite (p : path)               (* create or empty the file *)
| Write (p : path) (chunk : bytes)   (* at its end *)
| OpenRead (p : path)                (* the whole content *)
| Remove (p : path) | Rename (p q : path).

Inductive reply := Unit | Answer (b : bool) | Content (b : bytes).

(** The directory a new name is to be put in. *)
Definition parent_error (s : fs) (p : path) : option error :=
  match dirname p with
  | [] => match p with [] => Some FileNotFoundError | _ => None end
  | d => match s d with Some Dir => None | Some (File _) => Some NotADirectoryError | None => Some FileNotFoundError end
  end.

Definition perform (a : act) (s : fs) : (reply + error) * fs :=
  match a with
  | Exists p => (inl (Answer (match stat s p with Some _ => true | None => false end)), s)
  | IsDir p => (inl (Answer (match stat s p with Some Dir => true | _ => false end)), s)
  | MkDir p => match stat s p with
               | Some _ => (inr FileExistsError, s)
               | None => match parent_error s p with Some e => (inr e, s) | None => (inl Unit, upd p (Some Dir) s) end
               end
  | GetSize p => match stat s p with Some _ => (inl Unit, s) | None => (inr FileNotFoundError, s) end
  | OpenWrite p => match stat s p with
                   | Some Dir => (inr IsADirectoryError, s)
                   | Some (File _) => (inl Unit, upd p (Some (File [])) s)
                   | None => match parent_error s p with Some e => (inr e, s) | None => (inl Unit, upd p (Some (File [])) s) end
                   end
  | Write p chunk => match s p with Some (File b) => (inl Unit, upd p (Some (File (b ++ chunk))) s) | _ => (inr OSError, s) end
  | OpenRead p => match stat s p with
                  | Some (File b) => (inl (Content b), s)
                  | Some Dir => (inr IsADirectoryError, s)
                  | None => (inr FileNotFoundError, s)
                  end
  | Remove p => match stat s p with
                | Some (File _) => (inl Unit, upd p None s)
                | Some Dir => (inr IsADirectoryError, s)
                | None => (inr FileNotFoundError, s)
                end
  | Rename p q => match stat s p with
                  | Some x => match stat s q with
                              | Some Dir => (inr IsADirectoryError, s)
                              | _ => (inl Unit, upd p None (upd q (Some x) s))
                              end
                  | None => (inr FileNotFoundError, s)
                  end
  end.

(** ** Programs: what to do after a reply, and after an exception *)

Inductive prog :=
| Return
| Raise (e : error)
| Act (a : act) (k : reply -> prog) (h : error -> prog).

Inductive status := Running | Finished | Failed (e : error).
Definition status_of (p : prog) : status := match p with Return => Finished | Raise e => Failed e | Act _ _ _ => Running end.

(** Calls that the operating system may refuse for a reason of its own (no
    space, no permission, a broken disk): all but the two questions, whose
    Python functions answer [False] instead. *)
Definition fallible (a : act) : Prop := match a with Exists _ | IsDir _ => False | _ => True end.

(** One step; a refused write may have stored a part of the chunk. *)
Inductive step : prog * fs -> prog * fs -> Prop :=
| s_ok a k h s r s' : perform a s = (inl r, s') -> step (Act a k h, s) (k r, s')
| s_err a k h s e s' : perform a s = (inr e, s') -> step (Act a k h, s) (h e, s')
| s_refused a k h s : fallible a -> step (Act a k h, s) (h OSError, s)
| s_short p chunk n k h s b : s p = Some (File b) -> step (Act (Write p chunk) k h, s) (h OSError, upd p (Some (File (b ++ firstn n chunk))) s).

Inductive reach : prog * fs -> prog * fs -> Prop :=
| reach_here x : reach x x
| reach_step x y z : step x y -> reach y z -> reach x z.

(** The execution in which the operating system refuses nothing on its own. *)
Fixpoint exec (p : prog) (s : fs) : status * fs :=
  match p with
  | Return => (Finished, s)
  | Raise e => (Failed e, s)
  | Act a k h => match perform a s with (inl r, s') => exec (k r) s' | (inr e, s') => exec (h e) s' end
  end.

(** ** The program *)

Definition yes (r : reply) : bool := match r with Answer b => b | _ => false end.

(** [os.makedirs(name)] of the standard library, followed by [k] *)
Fixpoint makedirs (fuel : nat) (name : path) (k : prog) (h : error -> prog) : prog :=
  match fuel with
  | O => h OtherFailed
  | S fuel' =>
      let mkdir := Act (MkDir name) (fun _ => k) h in
      let (head, tail) := path_split name in
      let (head, tail) := match tail with [] => path_split head | _ => (head, tail) end in
      match head, tail with
      | _ :: _, _ :: _ =>
          Act (Exists head) (fun r =>
            if yes r then mkdir
            else let k' := if eqd tail (w_ ".") then k else mkdir in
                 makedirs fuel' head k' (fun e => match e with FileExistsError => k' | _ => h e end)) h
      | _, _ => mkdir
      end
  end.

(** [for chunk in …: _f.write(chunk)] *)
Fixpoint write_all (p : path) (chunks : list bytes) (k : prog) (h : error -> prog) : prog :=
  match chunks with
  | [] => k
  | c :: chunks' => Act (Write p c) (fun _ => write_all p chunks' k h) h
  end.

Section Program.
(** The chunks written for a file of the given content, and the exception after
    them if one is raised: [self._translate_tokens(self._yield_tokens(…))] *)
Variable stream : bytes -> list bytes * option error.
(** [format_seconds(t1 - t0)] raises *)
Variable format_fails : bool.

(** experiments/find_replace_trie.py:1078 *)
Definition temp_path (output_path : path) : path := output_path ++ w_ ".partial".

(** experiments/find_replace_trie.py:1093-1098, after the writing *)
Definition publish (output_path : path) : prog :=
  let rename := Act (Rename (temp_path output_path) output_path) (fun _ => if format_fails then Raise IndexFailed else Return) Raise in
  Act (Exists output_path) (fun r => if yes r then Act (Remove output_path) (fun _ => rename) Raise else rename) Raise.

(** experiments/find_replace_trie.py:1088-1091 *)
Definition clean_up (output_path : path) (e : error) : prog :=
  Act (Remove (temp_path output_path)) (fun _ => Raise e) Raise.

(** experiments/find_replace_trie.py:1081-1091; the generator opens the input
    when its first token is asked for, after the temporary file has been opened *)
Definition rewrite_file (input_path output_path : path) : prog :=
  let h := clean_up output_path in
  Act (OpenWrite (temp_path output_path)) (fun _ =>
  Act (OpenRead input_path) (fun r =>
    match r with
    | Content b => let (chunks, failure) := stream b in
                   write_all (temp_path output_path) chunks (match failure with None => publish output_path | Some e => h e end) h
    | _ => h OtherFailed
    end) h) h.

(** experiments/find_replace_trie.py:1077, [os.path.getsize] for the log *)
Definition sized (input_path output_path : path) : prog :=
  Act (GetSize input_path) (fun _ => rewrite_file input_path output_path) Raise.

(** experiments/find_replace_trie.py:1052-1098 *)
Definition process_file (input_path output_path : path) (overwrite : bool) : prog :=
  let d := dirname output_path in
  let go :=
    Act (IsDir d) (fun r =>
      if yes r then sized input_path output_path
      else Act (Exists d) (fun r =>
             if yes r then Raise AssertionFailed
             else makedirs (S (List.length d)) d (sized input_path output_path) Raise) Raise) Raise in
  Act (Exists output_path) (fun r => if yes r && negb overwrite then Return else go) Raise.
End Program.

(** ** The stream of a trie *)
Section Stream.
Context {T V : Type} `{EqDec T}.
Variable value_tokens : V -> list T.
(** the tokens read from a file, and the exception after them if one is raised:
    experiments/find_replace_trie.py:778-791 *)
Variable read : bytes -> list T * option error.
(** what [_f.write] stores for a token *)
Variable encode : T -> bytes + error.

Fixpoint encode_all (out : list T) (failure : option error) : list bytes * option error :=
  match out with
  | [] => ([], failure)
  | c :: out' => match encode c with
                 | inr e => ([], Some e)
                 | inl b => let (bs, f) := encode_all out' failure in (b :: bs, f)
                 end
  end.

(** The tokens that [_translate_tokens] has yielded when its input raises are
    those of the loop over the tokens; the ones after the loop do not come. *)
Definition trie_stream (t : trie T V) (b : bytes) : list bytes * option error :=
  let (tokens, failure) := read b in
  match failure with
  | None => match translate_tokens value_tokens t tokens with
            | Ok out => encode_all out None
            | Err _ => ([], Some OtherFailed)
            end
  | Some e => match foldM (translate_step value_tokens (root t)) (combine (seq 0 (List.length tokens)) tokens) ([], [], [], []) with
              | Ok (_, _, _, out) => encode_all out (Some e)
              | Err _ => ([], Some OtherFailed)
              end
  end.
End Stream.

(** ** Text files: UTF-8, universal newlines *)

(** [c.encode('utf8')], strict *)
Definition utf8_char (c : N) : option bytes :=
  (if c <? 128 then Some [c]
   else if c <? 2048 then Some [192 + c / 64; 128 + c mod 64]
   else if c <? 65536 then
     if (55296 <=? c) && (c <? 57344) then None else Some [224 + c / 4096; 128 + (c / 64) mod 64; 128 + c mod 64]
   else if c <? 1114112 then Some [240 + c / 262144; 128 + (c / 4096) mod 64; 128 + (c / 64) mod 64; 128 + c mod 64]
   else None)%N.
Fixpoint utf8 (s : str) : option bytes :=
  match s with [] => Some [] | c :: s' => match utf8_char c, utf8 s' with Some b, Some bs => Some (b ++ bs) | _, _ => None end end.

(** One character off the front of a byte string; [None] at a byte sequence
    that is not the shortest encoding of a character. *)
Definition cont (b : N) : bool := ((128 <=? b) && (b <? 192))%N.
Definition utf8_head (l : bytes) : option (N * bytes) :=
  (match l with
   | [] => None
   | a :: l1 =>
     if a <? 128 then Some (a, l1)
     else match l1 with
     | [] => None
     | b :: l2 =>
       if (194 <=? a) && (a <? 224) && cont b then Some ((a - 192) * 64 + (b - 128), l2)
       else match l2 with
       | [] => None
       | c :: l3 =>
         if (224 <=? a) && (a <? 240) && cont b && cont c then
           let x := (a - 224) * 4096 + (b - 128) * 64 + (c - 128) in
           if (x <? 2048) || ((55296 <=? x) && (x <? 57344)) then None else Some (x, l3)
         else match l3 with
         | [] => None
         | d :: l4 =>
           if (240 <=? a) && (a <? 245) && cont b && cont c && cont d then
             let x := (a - 240) * 262144 + (b - 128) * 4096 + (c - 128) * 64 + (d - 128) in
             if (x <? 65536) || (1114112 <=? x) then None else Some (x, l4)
           else None
         end
       end
     end
   end)%N.

(** [b.decode('utf8')]: the characters before the first bad byte, and whether
    there is one.  (Python decodes in blocks and may deliver fewer characters
    before it raises.) *)
Fixpoint utf8_decode (fuel : nat) (l : bytes) : str * bool :=
  match fuel with
  | O => ([], false)
  | S fuel' =>
    match l with
    | [] => ([], false)
    | _ => match utf8_head l with
           | None => ([], true)
           | Some (c, l') => let (s, bad) := utf8_decode fuel' l' in (c :: s, bad)
           end
    end
  end.

(** Reading with [newline=None]: [\r\n] and [\r] become [\n].  Writing turns
    [\n] into [os.linesep], here [\n]. *)
Fixpoint universal (s : str) : str :=
  match s with
  | [] => []
  | c :: s' => if N.eqb c 13 then 10%N :: match s' with d :: s'' => if N.eqb d 10 then universal s'' else universal s' | [] => [] end
               else c :: universal s'
  end.

(** The default tokenizer on an open text file: one token per character *)
Definition read_text (tokenizer : str -> list str) (b : bytes) : list str * option error :=
  let (s, bad) := utf8_decode (S (List.length b)) b in (tokenizer (universal s), if bad then Some UnicodeFailed else None).
Definition write_text (token : str) : bytes + error := match utf8 token with Some b => inl b | None => inr UnicodeFailed end.

(** The default tokenizer on a file opened with [encoding=None]: iterating over
    bytes gives numbers, which a binary file does not accept *)
Definition read_binary (b : bytes) : list N * option error := (b, None).
Definition write_binary (token : N) : bytes + error := inr TypeFailed.
