(** How often [find_all_matches] (experiments/automata.py:241-261) asks for a
    word.  Property C124. *)
From Coq Require Import ZArith NArith List Bool Lia Permutation Sorted FinFun String.
From Verif Require Import Py PyDict NmdSpec Ex IndexModel EditSpec EditProofs EditModel EditDp EditBk AutoModel AutoProofs AutoLev AutoNext Props_Auto Props_Index.
Import ListNotations.
Local Open Scope string_scope.
Local Open Scope list_scope.
Open Scope nat_scope.

(** A [Matcher] (experiments/automata.py:281-296) together with the number of
    calls it still allows: it raises when [probes] would exceed a limit. *)
Definition limited (entries : list str) (s : nat * nat) (word : str) : result (option str * (nat * nat)) :=
  match snd s with
  | 0 => Err RuntimeError
  | Datatypes.S n => r <- matcher entries (fst s) word ;; Ok (fst r, (snd r, n))
  end.

Lemma from_mono l m m' : str_leb m m' = true -> from l m' <= from l m.
Proof.
  intros L. unfold from. induction l as [|a l IH]; cbn [filter]; auto. destruct (str_leb m' a) eqn:E.
  - rewrite (str_leb_trans _ _ _ L E). cbn [List.length]. lia.
  - destruct (str_leb m a); cbn [List.length]; lia.
Qed.
Lemma from_less l m m' : In m l -> str_leb m m' = true -> m <> m' -> from l m' < from l m.
Proof.
  intros I L N. revert I. induction l as [|a l IH]; intros I; [destruct I|]. pose proof (from_mono l m m' L) as G. unfold from in *. cbn [filter].
  destruct I as [->|I].
  - rewrite leb_refl. destruct (str_leb m' m) eqn:E; [exfalso; apply N, str_leb_antisym; auto|]. cbn [List.length]. lia.
  - specialize (IH I). destruct (str_leb m' a) eqn:E; [rewrite (str_leb_trans _ _ _ L E); cbn [List.length]; lia|destruct (str_leb m a); cbn [List.length]; lia].
Qed.

Section Probes.
Variable d : dfa.
Hypothesis start0 : start_state d = 0.
Hypothesis only_start : forall s, drun d (Some 0) s = Some 0 -> s = [].
Hypothesis live : forall s, s <> [] -> drun d (Some 0) s <> None -> exists t, accepts d (s ++ t).
Variable longest : nat.
Hypothesis bounded : forall s, accepts d s -> List.length s <= longest.
Variable entries : list str.
Hypothesis sorted : StronglySorted (fun a b => str_leb a b = true) entries.
Hypothesis chars : forall w c, In w entries -> In c w -> (c < 1114111)%N.
Variable out : list str.
Hypothesis out_ok : forall w, In w entries -> w <> [] -> accepts d w -> In w out.

Definition pool : list str := nodup eqd entries.

(** What is still to come: entries, those found once more, and the end. *)
Definition ahead (m : str) : nat := from pool m + from out m + (if in_dec eqd m entries then 0 else 1).

Lemma pool_in w : In w pool <-> In w entries.
Proof. apply nodup_In. Qed.

Notation call := (widest entries + longest + 4).

Lemma loop_probes : forall fuel m prev limit found_, ahead m + call < fuel -> ahead m <= limit -> m <> [] -> accepts d m -> prev <= List.length entries ->
  (forall i, i < prev -> str_leb m (nth i entries []) = false) ->
  matches_loop (limited entries) d fuel (prev, limit) (Some m) found_ = matches_loop (matcher entries) d fuel prev (Some m) found_.
Proof.
  assert (Ends : forall fuel prev limit o, matches_loop (limited entries) d fuel (prev, limit) None o = matches_loop (matcher entries) d fuel prev None o)
    by (intros [|f] prev limit o; reflexivity).
  induction fuel as [|fuel IH]; intros m prev limit o Lf Ll Nm Am Lp Hp; [lia|]. cbn [matches_loop]. destruct m as [|c0 m0] eqn:Em; [congruence|]. rewrite <- Em in *. clear Nm.
  destruct (matcher_ok entries prev m sorted Lp Hp) as (pos & Lpos & H1 & H2 & E).
  assert (Nm : m <> []) by (rewrite Em; discriminate). clear Em c0 m0.
  assert (exists limit', limit = Datatypes.S limit') as (limit' & ->).
  { destruct limit as [|limit']; [|eauto]. exfalso. unfold ahead in Ll. destruct (in_dec eqd m entries) as [I|]; [|lia].
    assert (0 < from pool m); [|lia]. unfold from. assert (In m (filter (str_leb m) pool)) as J by (apply filter_In; split; [apply pool_in, I|apply leb_refl]).
    destruct (filter (str_leb m) pool); [destruct J|cbn; lia]. }
  unfold limited at 1. cbn [fst snd]. rewrite E. cbn [bind fst snd].
  destruct (nth_error entries pos) as [w|] eqn:Ew; [|reflexivity].
  assert (Lw : pos < List.length entries) by (apply nth_error_Some; congruence). apply nth_error_nth with (d := []) in Ew as Enw.
  assert (Iw : In w entries) by (apply nth_error_In in Ew; auto). assert (Mw : str_leb m w = true) by (rewrite <- Enw; apply H2; lia).
  destruct w as [|cw w0] eqn:Ecw; [reflexivity|]. rewrite <- Ecw in *. assert (Nw : w <> []) by (rewrite Ecw; discriminate). clear Ecw cw w0.
  destruct (eqd m w) as [Eq|Nq].
  - rewrite <- Eq in *. clear Eq w. destruct (next_valid_ok d start0 only_start live longest bounded (m ++ [0%N])) as (r & Er & Hr).
    { intros c I. apply in_app_iff in I. destruct I as [I|[<-|[]]]; [exact (chars m c Iw I)|reflexivity]. }
    rewrite Er by (rewrite app_length; cbn [List.length]; pose proof (widest_ok entries m Iw); lia). cbn [bind].
    destruct r as [m'|]; [|apply Ends]. destruct Hr as [[A' L'] Mi].
    assert (L2 : str_leb m m' = true) by (eapply str_leb_trans; [apply (leb_prefix m [0%N])|auto]).
    assert (N2 : m <> m'). { intros <-. rewrite <- (app_nil_r m) in L' at 2. rewrite leb_app in L'. discriminate. }
    assert (D : ahead m' < ahead m).
    { pose proof (from_less pool m m' (proj2 (pool_in m) Iw) L2 N2). pose proof (from_less out m m' (out_ok m Iw Nm Am) L2 N2).
      unfold ahead. destruct (in_dec eqd m entries); [|contradiction]. destruct (in_dec eqd m' entries); lia. }
    apply IH; auto; try lia.
    + intros ->. destruct m; discriminate.
    + intros i Li. specialize (H1 i Li). destruct (str_leb m' (nth i entries [])) eqn:X; auto. rewrite (str_leb_trans _ _ _ L2 X) in H1. discriminate.
  - destruct (next_valid_ok d start0 only_start live longest bounded w) as (r & Er & Hr); [intros c I; eapply chars; eauto|].
    rewrite Er by (pose proof (widest_ok entries w Iw); lia). cbn [bind].
    destruct r as [m'|]; [|apply Ends]. destruct Hr as [[A' L'] Mi]. assert (L2 : str_leb m m' = true) by (eapply str_leb_trans; eauto).
    assert (Nm' : ~ In m entries).
    { intros I. apply Nq, str_leb_antisym; auto. apply (in_nth entries) in I. destruct I as (i & Li & Ei).
      destruct (Nat.lt_ge_cases i pos) as [C|C]; [pose proof (H1 i C) as X; rewrite Ei, leb_refl in X; discriminate|].
      rewrite <- Enw, <- Ei. apply ascending_nth; auto. }
    assert (D : ahead m' < ahead m).
    { unfold ahead. destruct (in_dec eqd m entries); [contradiction|]. pose proof (from_mono pool m w Mw). pose proof (from_mono out m m' L2).
      destruct (eqd w m') as [<-|N2].
      - destruct (in_dec eqd w entries); [lia|contradiction].
      - pose proof (from_less pool w m' (proj2 (pool_in w) Iw) L' N2). destruct (in_dec eqd m' entries); lia. }
    apply IH; auto; try lia.
    + intros ->. destruct w; [congruence|discriminate].
    + intros i Li. specialize (H1 i Li). destruct (str_leb m' (nth i entries [])) eqn:X; auto. rewrite (str_leb_trans _ _ _ L2 X) in H1. discriminate.
Qed.
End Probes.

Lemma from_length l m : from l m <= List.length l.
Proof. unfold from. induction l as [|a l IH]; cbn [filter List.length]; auto. destruct (str_leb m a); cbn [List.length]; lia. Qed.

(** The different entries other than the empty string. *)
Definition different (entries : list str) : list str := nodup eqd (remove eqd [] entries).

Lemma from_different entries m : m <> [] -> from (nodup eqd entries) m <= List.length (different entries).
Proof.
  intros N. unfold from. apply NoDup_incl_length; [apply NoDup_filter, NoDup_nodup|]. intros w I. apply filter_In in I. destruct I as [I L].
  apply nodup_In in I. apply nodup_In. apply in_in_remove; auto. intros ->. destruct m; [congruence|discriminate].
Qed.

(** The search asks at most once for every different entry, once more for every
    word found, and once at the end. *)
Theorem find_all_matches_probes : forall arrange word k entries, rearranges arrange ->
  StronglySorted (fun a b => str_leb a b = true) entries -> (forall w c, In w entries -> In c w -> (c < 1114111)%N) -> exists bound out,
  (forall w, In w out <-> In w entries /\ w <> [] /\ near word k w) /\ NoDup out /\
  forall fuel limit, bound <= fuel -> List.length (different entries) + List.length out + 1 <= limit ->
    find_all_matches (matcher entries) arrange fuel word k 0 = Ok out /\
    find_all_matches (limited entries) arrange fuel word k (0, limit) = Ok out.
Proof.
  intros arrange word k entries Ar So Lc. destruct (find_all_matches_exact arrange word k entries Ar So Lc) as (bound & out & E & M & S).
  destruct (levenshtein_dfa_facts arrange word k Ar) as (bound' & d & Ed & S0 & O & A & Lv & B).
  set (longest := List.length word + Z.to_nat k) in *.
  exists (bound + bound' + (List.length (different entries) + List.length out + 1) + (widest entries + longest + 4) + 1), out. split; [exact M|]. split.
  { clear - S. induction S as [|a l S IH F]; constructor; auto. intros I. rewrite Forall_forall in F. apply F in I. destruct I. congruence. }
  intros fuel limit Lf Ll. assert (E0 : find_all_matches (matcher entries) arrange fuel word k 0 = Ok out) by (apply E; lia). split; [exact E0|].
  rewrite <- E0. unfold find_all_matches. rewrite Ed by lia. cbn [bind].
  destruct (next_valid_ok d S0 O Lv longest B [0%N]) as (r & Er & Hr); [intros c [<-|[]]; lia|]. rewrite Er by (cbn [List.length]; lia). cbn [bind].
  destruct r as [m|]; [|destruct fuel; reflexivity]. destruct Hr as [[Am L] Mi].
  assert (Ha : ahead entries out m <= List.length (different entries) + List.length out + 1).
  { unfold ahead, pool. pose proof (from_different entries m ltac:(intros ->; discriminate)). pose proof (from_length out m). destruct (in_dec eqd m entries); lia. }
  apply (loop_probes d S0 O Lv longest B entries So Lc out); auto; try lia.
  - intros w I N Aw. apply M. split; auto. split; auto. apply A in Aw. tauto.
  - intros ->. discriminate.
Qed.
Print Assumptions find_all_matches_probes.

(** No smaller bound of this form will do: one entry, found with three calls. *)
Theorem find_all_matches_probes_best : exists word k entries out,
  (forall fuel, 40 <= fuel -> find_all_matches (matcher entries) as_is fuel word k 0 = Ok out) /\
  StronglySorted (fun a b => str_leb a b = true) entries /\ out <> [] /\
  forall fuel, 40 <= fuel -> find_all_matches (limited entries) as_is fuel word k (0, List.length (different entries) + List.length out) = Err RuntimeError.
Proof.
  exists (w_ "b"), 1%Z, [w_ "a"], [w_ "a"]. split; [|split; [repeat constructor|split; [discriminate|]]];
    intros fuel L; do 40 (destruct fuel as [|fuel]; [lia|]); vm_compute; reflexivity.
Qed.
Print Assumptions find_all_matches_probes_best.

(** Of seven different entries, one of them empty, five are found with twelve
    calls. *)
Example probes_case :
  find_all_matches (limited dictionary) backwards 100 (w_ "cat") 1 (0, 12) = Ok [w_ "bat"; w_ "cat"; w_ "cats"; w_ "coat"; w_ "hat"] /\
  find_all_matches (limited dictionary) backwards 100 (w_ "cat") 1 (0, 11) = Err RuntimeError /\ List.length (different dictionary) = 6.
Proof. vm_compute. repeat split. Qed.

(** ** The nodes of a BK-tree that a search looks at *)
Section Bk.
Context {A : Type} `{EqDec A}.
Open Scope Z_scope.

Lemma bk_insert_size (n : bk A) other n' : bk_insert n other = Ok n' -> List.length (terms n') = Datatypes.S (List.length (terms n)).
Proof.
  revert other n'. induction n as [t cs IH] using bk_ind'. intros other n' E. cbn [bk_insert] in E. destruct (levenshtein t other) as [dist|e]; [|discriminate].
  cbn [bind] in E. match type of E with (r <- ?g cs ;; _) = _ => set (go := g) in E end.
  assert (G : forall cs', go cs = Ok cs' -> List.length (terms_of cs') = Datatypes.S (List.length (terms_of cs))).
  { clear E. revert IH. induction cs as [|[d c] cs IHc]; intros IH cs'; cbn [go].
    - intros [= <-]. reflexivity.
    - inversion IH as [|? ? Hc Hcs]; subst. cbn [snd] in Hc. destruct (d =? dist).
      + destruct (bk_insert c other) as [c'|e] eqn:Ec; [|discriminate]. cbn [bind]. intros [= <-]. unfold terms_of. cbn [flat_map snd].
        rewrite !app_length, (Hc _ _ Ec). lia.
      + specialize (IHc Hcs). destruct (go cs) as [cs1|e] eqn:Eg; [|discriminate]. cbn [bind]. intros [= <-]. specialize (IHc cs1 eq_refl).
        unfold terms_of in *. cbn [flat_map snd]. rewrite !app_length, IHc. lia. }
  destruct (go cs) as [cs'|e]; [|discriminate]. cbn [bind] in E. injection E as <-. rewrite !terms_unfold. cbn [List.length]. rewrite (G cs' eq_refl). reflexivity.
Qed.

Lemma bk_build_size ws : forall (n n' : bk A), bk_build n ws = Ok n' -> List.length (terms n') = (List.length ws + List.length (terms n))%nat.
Proof.
  induction ws as [|w ws IH]; intros n n' E; cbn [bk_build] in E; [injection E as <-; reflexivity|].
  destruct (bk_insert n w) as [n1|e] eqn:E1; [|discriminate]. cbn [bind] in E. rewrite (IH _ _ E), (bk_insert_size _ _ _ E1). cbn [List.length]. lia.
Qed.

Lemma py_range_nodup a b : NoDup (py_range a b).
Proof. unfold py_range. apply FinFun.Injective_map_NoDup; [|apply seq_NoDup]. intros x y E. lia. Qed.

(** The nodes below the children asked for. *)
Definition below (cs : list (Z * bk A)) (d : Z) : Z := match dget d cs with Some c => Z.of_nat (List.length (terms c)) | None => 0 end.
Definition total (f : Z -> Z) (ds : list Z) : Z := fold_right (fun d z => f d + z) 0 ds.

Lemma total_below cs : NoDup (map fst cs) -> forall ds, NoDup ds -> total (below cs) ds <= Z.of_nat (List.length (terms_of cs)).
Proof.
  induction cs as [|[d0 c] cs IH]; intros Nk ds Nd.
  - cbn [terms_of flat_map List.length]. clear. induction ds as [|d ds IH]; cbn [total fold_right]; [lia|]. change (below [] d) with 0. unfold total in IH. lia.
  - cbn [map fst] in Nk. inversion Nk as [|? ? N0 Nk']; subst. specialize (IH Nk' ds Nd).
    assert (Hd : total (below ((d0, c) :: cs)) ds <= (if in_dec Z.eq_dec d0 ds then Z.of_nat (List.length (terms c)) else 0) + total (below cs) ds).
    { clear IH. induction Nd as [|d ds Nin Nd IHd]; cbn [total fold_right]; [destruct (in_dec _ _ _); lia|]. fold (total (below ((d0, c) :: cs)) ds). fold (total (below cs) ds).
      unfold below at 1. cbn [dget]. destruct (eqd d d0) as [->|Ne].
      - destruct (in_dec Z.eq_dec d0 ds); [contradiction|]. destruct (in_dec Z.eq_dec d0 (d0 :: ds)) as [|Nx]; [|exfalso; apply Nx; left; auto].
        assert (0 <= below cs d0) by (unfold below; destruct (dget d0 cs); lia). lia.
      - fold (below cs d). destruct (in_dec Z.eq_dec d0 ds) as [I|I]; destruct (in_dec Z.eq_dec d0 (d :: ds)) as [J|J];
          first [lia|exfalso; apply J; right; exact I|destruct J as [->|J]; [congruence|contradiction]]. }
    unfold terms_of. cbn [flat_map snd]. fold (terms_of cs). rewrite app_length. destruct (in_dec Z.eq_dec d0 ds); lia.
Qed.

Lemma bk_count n term k out count : sorted_out n -> bk_search_ n term k = Ok (out, count) ->
  Z.of_nat (List.length out) <= count <= Z.of_nat (List.length (terms n)) /\ 1 <= count.
Proof.
  revert out count. induction n as [t cs IH] using bk_ind'. intros out count S E. inversion S as [t' cs' D F Et]; subst. cbn [bk_search_] in E.
  destruct (levenshtein t term) as [dist|e]; [|discriminate]. cbn [bind] in E.
  match type of E with context [dget _ (?g cs)] => set (results := g cs) in E end.
  assert (R : results = map (fun dc => (fst dc, bk_search_ (snd dc) term k)) cs).
  { unfold results. clear. induction cs as [|[d c] cs IH]; [reflexivity|]. cbn [map fst snd]. f_equal. exact IH. }
  clearbody results. subst results.
  assert (Get : forall d, dget d (map (fun dc => (fst dc, bk_search_ (snd dc) term k)) cs) = match dget d cs with Some c => Some (bk_search_ c term k) | None => None end).
  { intros d. clear. induction cs as [|[d' c] cs IH]; [reflexivity|]. cbn [map dget fst snd]. destruct (eqd d d'); auto. }
  assert (G : forall ds out0 c0 out1 c1, foldM (fun (st : list (list A) * Z) dist_ =>
        match dget dist_ (map (fun dc => (fst dc, bk_search_ (snd dc) term k)) cs) with
        | None => Ok st
        | Some r => res <- r ;; Ok (fst st ++ fst res, snd st + snd res)
        end) ds (out0, c0) = Ok (out1, c1) -> Z.of_nat (List.length out0) <= c0 ->
      Z.of_nat (List.length out1) <= c1 /\ c0 <= c1 <= c0 + total (below cs) ds).
  { induction ds as [|d ds IHd]; intros out0 c0 out1 c1 E1 L; cbn [foldM] in E1.
    - injection E1 as <- <-. cbn [total fold_right]. lia.
    - rewrite Get in E1. cbn [total fold_right]. fold (total (below cs) ds). unfold below at 1. destruct (dget d cs) as [c|] eqn:Ed.
      + destruct (bk_search_ c term k) as [[o cn]|e] eqn:Ec; [|discriminate]. cbn [bind fst snd] in E1.
        assert (Sc : sorted_out c) by (apply dget_In in Ed; apply (F d c Ed)). apply dget_In in Ed. rewrite Forall_forall in IH.
        destruct (IH (d, c) Ed o cn Sc Ec) as [[L1 L2] L3]. cbn [snd] in *. apply IHd in E1; [|rewrite app_length; lia]. lia.
      + cbn [bind] in E1. apply IHd in E1; [|exact L]. lia. }
  apply G in E; [|destruct (dist <=? k); cbn; lia]. rewrite terms_unfold. cbn [List.length].
  pose proof (total_below cs D (py_range (Z.max 0 (dist - k)) (dist + k + 1)) (py_range_nodup _ _)). lia.
Qed.

(** [_search] returns the number of nodes it looked at: at least as many as it
    found and at most as many as there are. *)
Theorem bk_search_probes : forall (root : list A) words term k, exists tree out count,
  bk_build (bk_new root) words = Ok tree /\ bk_search_ tree term k = Ok (out, count) /\ bk_search tree term k = Ok out /\
  Z.of_nat (List.length out) <= count <= Z.of_nat (List.length words) + 1 /\ 1 <= count.
Proof.
  intros root words term k. destruct (bk_build_ok (bk_new root) words (sorted_new root)) as (tree & E & S & _).
  destruct (bk_search_ok tree term k S) as (out & count & E2 & _). exists tree, out, count. split; auto. split; auto.
  split; [unfold bk_search; rewrite E2; reflexivity|]. destruct (bk_count tree term k out count S E2) as [L1 L2].
  rewrite (bk_build_size _ _ _ E) in L1. cbn [terms bk_new List.length] in L1. lia.
Qed.
End Bk.
Print Assumptions bk_search_probes.

Example bk_probes_case : exists tree, bk_build (bk_new (w_ "coat")) (map w_ ["dog"; "cat"; "bat"; "cats"; "unrelated"; "unrelating"]) = Ok tree /\
  bk_search_ tree (w_ "cat") 1 = Ok (map w_ ["coat"; "cat"; "bat"; "cats"], 4%Z).
Proof. eexists. split; vm_compute; reflexivity. Qed.
