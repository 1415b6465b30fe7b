(** The settings of a WordSet and what its [repr] tells: property C130. *)
From Coq Require Import ZArith NArith QArith Qcanon List Bool Permutation Lia Sorted String.
From Verif Require Import Num Py ListAux PyDict Ex EmdModel NmdSpec NmdModel IndexModel DawgModel DawgRepr DawgProofs OrigProofs
  WordSetSpec WordSetModel WordSetProofs WordSetScore Props_Index Props_WordSet ReprModel.
Import ListNotations.
Open Scope string_scope.
Open Scope list_scope.

Definition stops (P : N -> Prop) (r : list N) : Prop := match r with [] => True | c :: _ => ~ P c end.

Lemma span_eq (P : N -> Prop) a : forall a' r r', Forall P a -> Forall P a' -> stops P r -> stops P r' -> a ++ r = a' ++ r' -> a = a' /\ r = r'.
Proof.
  induction a as [|c a IH]; intros [|c' a'] r r' Fa Fa' S S' E; cbn [app] in E.
  - auto.
  - exfalso. subst r. inversion Fa'; subst. apply S. auto.
  - exfalso. subst r'. inversion Fa; subst. apply S'. auto.
  - inversion Fa; inversion Fa'; subst. injection E as -> E. destruct (IH a' r r') as [-> ->]; auto.
Qed.

Notation digit := (fun c => (48 <= c < 58)%N).

Lemma items_inj l : forall l' r r', Forall (fun z => 0 < z)%Z l -> Forall (fun z => 0 < z)%Z l' ->
  (r = [41%N] \/ r = [44%N; 41%N]) -> (r' = [41%N] \/ r' = [44%N; 41%N]) ->
  flat_map (fun y => w_ ", " ++ decimal (Z.to_nat y)) l ++ r = flat_map (fun y => w_ ", " ++ decimal (Z.to_nat y)) l' ++ r' -> l = l' /\ r = r'.
Proof.
  induction l as [|z l IH]; intros [|z' l'] r r' P P' H H' E; cbn [flat_map app] in E.
  - auto.
  - exfalso. destruct H as [-> | ->]; vm_compute in E; discriminate.
  - exfalso. destruct H' as [-> | ->]; vm_compute in E; discriminate.
  - rewrite <- !app_assoc in E. apply app_inv_head in E. inversion P; inversion P'; subst.
    assert (St : forall l r, (r = [41%N] \/ r = [44%N; 41%N]) -> stops digit (flat_map (fun y => w_ ", " ++ decimal (Z.to_nat y)) l ++ r)).
    { clear. intros [|y l] r [-> | ->]; cbn; lia. }
    apply (span_eq digit) in E; auto using decimal_digits. destruct E as [E1 E2].
    apply decimal_inj in E1. assert (z = z') by lia. subst z'. destruct (IH l' r r') as [-> ->]; auto.
Qed.

Lemma tuple_inj l l' r r' : l <> [] -> l' <> [] -> Forall (fun z => 0 < z)%Z l -> Forall (fun z => 0 < z)%Z l' ->
  tuple_repr l ++ r = tuple_repr l' ++ r' -> l = l' /\ r = r'.
Proof.
  intros N N' P P' E.
  assert (Sp : forall l r, l <> [] -> exists a, tuple_repr l ++ r = a ++ 41%N :: r /\ tuple_repr l = a ++ [41%N] /\ Forall (fun c => c <> 41%N) a).
  { clear. intros [|z l] r N; [congruence|]. eexists (w_ "(" ++ decimal (Z.to_nat z) ++ flat_map (fun y => w_ ", " ++ decimal (Z.to_nat y)) l ++ (match l with [] => w_ "," | _ => [] end)).
    split; [cbn [tuple_repr]; rewrite <- !app_assoc; reflexivity|]. split; [cbn [tuple_repr]; rewrite <- !app_assoc; reflexivity|].
    assert (D : forall n, Forall (fun c => c <> 41%N) (decimal n)) by (intros n; eapply Forall_impl; [|apply decimal_digits]; intros c H; cbn in H; lia).
    apply Forall_app. split; [repeat constructor; discriminate|]. apply Forall_app. split; [apply D|]. apply Forall_app. split; [|destruct l; repeat constructor; discriminate].
    clear N. induction l as [|y l IH]; cbn [flat_map]; [constructor|]. apply Forall_app. split; [|exact IH]. apply Forall_app. split; [repeat constructor; discriminate|apply D]. }
  destruct (Sp l r N) as (a & Ea & Et & Fa), (Sp l' r' N') as (a' & Ea' & Et' & Fa'). rewrite Ea, Ea' in E.
  apply (span_eq (fun c => c <> 41%N)) in E; auto; [|cbn; congruence|cbn; congruence]. destruct E as [-> E]. injection E as ->. split; [|reflexivity].
  rewrite <- Et' in Et. clear - N N' P P' Et. destruct l as [|z l]; [congruence|]. destruct l' as [|z' l']; [congruence|]. cbn [tuple_repr] in Et. apply app_inv_head in Et.
  inversion P; inversion P'; subst.
  assert (St : forall l : list Z, stops digit (flat_map (fun y => w_ ", " ++ decimal (Z.to_nat y)) l ++ (match l with [] => w_ "," | _ => [] end) ++ w_ ")")).
  { clear. intros [|y l]; cbn; lia. }
  apply (span_eq digit) in Et; auto using decimal_digits. destruct Et as [E1 E2]. apply decimal_inj in E1. assert (z = z') by lia. subst z'.
  apply items_inj in E2; auto; [destruct E2 as [-> _]; reflexivity|destruct l; cbn; auto|destruct l'; cbn; auto].
Qed.

Lemma bool_inj b b' r r' : bool_repr b ++ r = bool_repr b' ++ r' -> b = b' /\ r = r'.
Proof. destruct b, b'; cbn; intros E; try discriminate; [injection E as ->|injection E as ->]; auto. Qed.

Lemma ending_inj x x' n n' : x ++ w_ ", " ++ w_ "size=" ++ decimal n ++ w_ ")" = x' ++ w_ ", " ++ w_ "size=" ++ decimal n' ++ w_ ")" -> x = x' /\ n = n'.
Proof.
  intros E. apply (f_equal (@rev N)) in E. rewrite !rev_app_distr in E. change (rev (w_ ")")) with [41%N] in E. rewrite <- !app_assoc in E. cbn [app] in E. injection E as E.
  apply (span_eq digit) in E.
  - destruct E as [E1 E2]. apply (f_equal (@rev N)) in E1. rewrite !rev_involutive in E1. apply decimal_inj in E1. split; [|exact E1].
    injection E2 as E2. apply (f_equal (@rev N)) in E2. rewrite !rev_involutive in E2. exact E2.
  - apply Forall_rev, decimal_digits.
  - apply Forall_rev, decimal_digits.
  - cbn. lia.
  - cbn. lia.
Qed.

Lemma reached_config rnd casefold b nz sz cs st : ws_reached rnd casefold b nz sz cs st ->
  exists st0, ws_init (PBool b) nz sz = Ok st0 /\ same_config st st0.
Proof.
  intros (st0 & calls & E & F & <- & ->). exists st0. split; [exact E|].
  destruct (ws_run_spec rnd casefold calls F st0 [] (ws_init_repr rnd casefold _ _ _ _ E)) as (l & _ & C & _). exact C.
Qed.

(** The properties give, after any calls, what the constructor was given: the
    sizes in ascending order without repetition, the case flag, the normalizer. *)
Theorem wordset_settings_fixed : forall rnd casefold b nz sz cs st, ws_reached rnd casefold b nz sz cs st ->
  case_sensitive st = b /\ ws_normalizer st = normalizer_of nz /\ ngram_sizes st <> [] /\
  exists zs, asked_sizes sz zs /\ Forall (fun z => (0 < z)%Z) zs /\ StronglySorted Z.lt (ngram_sizes st) /\ forall z, In z (ngram_sizes st) <-> In z zs.
Proof.
  intros rnd casefold b nz sz cs st H. destruct (reached_config _ _ _ _ _ _ _ H) as (st0 & E & C1 & C2 & C3 & _). unfold case_sensitive, ngram_sizes. rewrite C1, C2, C3.
  destruct (wordset_init_sizes _ _ _ _ E) as (zs & A & So & M & _ & _ & Eb & En). injection Eb as <-. split; [reflexivity|]. split; [exact En|].
  assert (X : exists zs', asked_sizes sz zs' /\ zs' <> [] /\ Forall (fun z => (0 < z)%Z) zs') by (apply (wordset_init_ok (PBool b) nz sz); exists st0; exact E).
  destruct X as (zs' & A' & Ne & P).
  assert (zs' = zs) as ->. { clear - A A'. destruct sz as [z|l|]; cbn [asked_sizes] in *; [congruence| |contradiction]. rewrite A in A'. clear A. revert zs' A'. induction zs as [|z zs IH]; intros [|z' zs'] E; try discriminate; auto. cbn in E. injection E as -> E. f_equal. apply IH, E. }
  split; [|exists zs; auto]. intros E0. destruct zs as [|z zs]; [congruence|]. rewrite E0 in M. apply (M z). left. reflexivity.
Qed.
Print Assumptions wordset_settings_fixed.

(** Two sets of one class that print alike have the same sizes, case flag,
    number of words and name of the normalizer. *)
Theorem wordset_repr_tells : forall rnd casefold b nz sz cs st b' nz' sz' cs' st' cls k k',
  ws_reached rnd casefold b nz sz cs st -> ws_reached rnd casefold b' nz' sz' cs' st' ->
  ws_repr cls k st = ws_repr cls k' st' ->
  ngram_sizes st = ngram_sizes st' /\ b = b' /\ norm_name k = norm_name k' /\ List.length (ws_iter st) = List.length (ws_iter st').
Proof.
  intros rnd casefold b nz sz cs st b' nz' sz' cs' st' cls k k' H H' E.
  destruct (wordset_settings_fixed _ _ _ _ _ _ _ H) as (B & _ & N & zs & _ & P & _ & M). destruct (wordset_settings_fixed _ _ _ _ _ _ _ H') as (B' & _ & N' & zs' & _ & P' & _ & M').
  assert (Pos : Forall (fun z => 0 < z)%Z (ngram_sizes st)) by (rewrite Forall_forall in *; intros z I; apply P, M, I).
  assert (Pos' : Forall (fun z => 0 < z)%Z (ngram_sizes st')) by (rewrite Forall_forall in *; intros z I; apply P', M', I).
  unfold ws_repr in E. apply app_inv_head in E. apply app_inv_head in E. apply app_inv_head in E. apply tuple_inj in E; auto. destruct E as [E1 E]. split; [exact E1|].
  apply app_inv_head in E. apply app_inv_head in E. apply bool_inj in E. destruct E as [E2 E]. split; [congruence|].
  apply app_inv_head in E. apply app_inv_head in E. apply ending_inj in E. destruct E as [E3 E4]. split; [exact E3|].
  assert (Ln : forall b nz sz cs st, ws_reached rnd casefold b nz sz cs st -> List.length (ws_iter st) = ws_len st).
  { clear. intros b nz sz cs st H. destruct (reached_repr _ _ _ _ _ _ _ H) as (l & ns & fn & R & _). rewrite (ws_iter_repr rnd casefold st l R), (ws_len_repr rnd casefold st l R), map_length. reflexivity. }
  rewrite (Ln _ _ _ _ _ H), (Ln _ _ _ _ _ H'). exact E4.
Qed.
Print Assumptions wordset_repr_tells.

(** The name does not tell which normalizer it is. *)
Theorem wordset_repr_normalizer_refuted : exists (f : str -> option str) st st', 
  ws_reached exact lower true ZNone (SInt 2) [CAdd (PStr (w_ "A"))] st /\ ws_reached exact lower true (ZCall f) (SInt 2) [CAdd (PStr (w_ "A"))] st' /\
  ws_repr (w_ "WordSet") KNone st = ws_repr (w_ "WordSet") (KOther (w_ "None")) st' /\
  ws_contains lower st (PStr (w_ "a")) = Ok false /\ ws_contains lower st' (PStr (w_ "a")) = Ok true.
Proof.
  exists (fun w => Some (lower w)). do 2 eexists.
  split; [eexists; exists [(ord0, CAdd (PStr (w_ "A")))]; split; [vm_compute; reflexivity|]; split; [repeat constructor; apply ord0_fair|]; split; [reflexivity|reflexivity]|].
  split; [eexists; exists [(ord0, CAdd (PStr (w_ "A")))]; split; [vm_compute; reflexivity|]; split; [repeat constructor; apply ord0_fair|]; split; [reflexivity|reflexivity]|].
  split; [vm_compute; reflexivity|]. split; vm_compute; reflexivity.
Qed.
Print Assumptions wordset_repr_normalizer_refuted.

(** ** Cases *)
Example repr_case :
  ws_repr (w_ "WordSet") KStrip (ws_built false [4; 2; 3; 2]%Z ["Apple"; "apple"; "fig"]) =
    w_ "WordSet(ngram_sizes=(2, 3, 4), case_sensitive=False, unicode_normalizer=NFD_STRIP_MARKS, size=2)" /\
  ws_repr (w_ "WordSet") KNone (ws_built true [12]%Z ["Apple"; "apple"; "fig"]) =
    w_ "WordSet(ngram_sizes=(12,), case_sensitive=True, unicode_normalizer=None, size=3)".
Proof. vm_compute. auto. Qed.
