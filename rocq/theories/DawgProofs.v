(** Proofs about experiments/dawg.py (model: DawgModel.v): building the
    graph. *)
From Coq Require Import ZArith NArith List Bool Permutation Lia Sorted DecimalNat.
From Verif Require Import Num Py ListAux PyDict NmdSpec IndexModel Props_Index DawgModel.
Import ListNotations.

(** ** Specification *)

(** What is left of [w] after the prefix [u]. *)
Fixpoint strip (u w : str) : option str :=
  match u, w with
  | [], w => Some w
  | c :: u, d :: w => if N.eqb c d then strip u w else None
  | _ :: _, [] => None
  end.

(** The ways to complete [u] to a word. *)
Definition continuations (u : str) (ws : list str) : list str :=
  flat_map (fun w => match strip u w with Some v => [v] | None => [] end) ws.

Definition slt (a b : str) : Prop := str_leb b a = false.

(** ** Strings *)

Lemma strip_app u v : strip u (u ++ v) = Some v.
Proof. induction u as [|c u IH]; [reflexivity|]. cbn. rewrite N.eqb_refl. exact IH. Qed.
Lemma strip_some u w v : strip u w = Some v <-> w = u ++ v.
Proof.
  split; [|intros ->; apply strip_app]. revert w. induction u as [|c u IH]; intros w; cbn; [intros [= ->]; reflexivity|].
  destruct w as [|d w]; [discriminate|]. destruct (N.eqb_spec c d) as [->|]; [|discriminate]. intros H. rewrite (IH _ H). reflexivity.
Qed.
Lemma strip_none u w : strip u w = None <-> forall v, w <> u ++ v.
Proof.
  split.
  - intros H v E. apply strip_some in E. congruence.
  - intros H. destruct (strip u w) as [v|] eqn:E; auto. apply strip_some in E. exfalso. apply (H v). exact E.
Qed.

Lemma in_continuations u ws v : In v (continuations u ws) <-> In (u ++ v) ws.
Proof.
  unfold continuations. rewrite in_flat_map. split.
  - intros (w & Hw & Hv). destruct (strip u w) as [v'|] eqn:E; [|destruct Hv]. destruct Hv as [->|[]]. apply strip_some in E. rewrite <- E. exact Hw.
  - intros H. exists (u ++ v). split; auto. rewrite strip_app. left. reflexivity.
Qed.
Lemma continuations_app u ws ws' : continuations u (ws ++ ws') = continuations u ws ++ continuations u ws'.
Proof. apply flat_map_app. Qed.
Lemma continuations_nil ws : continuations [] ws = ws.
Proof. induction ws as [|w ws IH]; [reflexivity|]. unfold continuations in *. cbn [flat_map]. rewrite IH. reflexivity. Qed.
Lemma continuations_one_some u w v : w = u ++ v -> continuations u [w] = [v].
Proof. intros ->. unfold continuations. cbn [flat_map]. rewrite strip_app. reflexivity. Qed.
Lemma continuations_one_none u w : strip u w = None -> continuations u [w] = [].
Proof. intros E. unfold continuations. cbn [flat_map]. rewrite E. reflexivity. Qed.

Lemma slt_trans a b c : slt a b -> slt b c -> slt a c.
Proof.
  unfold slt. intros H1 H2. destruct (str_leb c a) eqn:E; auto. 
  assert (str_leb a b = true) by (destruct (str_leb_total a b); congruence).
  rewrite (str_leb_trans c a b E H) in H2. discriminate.
Qed.
Lemma slt_irrefl a : ~ slt a a.
Proof. unfold slt. destruct (str_leb_total a a); congruence. Qed.
Lemma slt_app p a b : slt (p ++ a) (p ++ b) <-> slt a b.
Proof. unfold slt. induction p as [|c p IH]; [reflexivity|]. cbn [app str_leb]. rewrite N.ltb_irrefl, N.eqb_refl. exact IH. Qed.
Lemma slt_cons x a y b : slt (x :: a) (y :: b) <-> (x < y)%N \/ x = y /\ slt a b.
Proof.
  unfold slt. cbn [str_leb]. destruct (N.ltb_spec y x), (N.eqb_spec y x); cbn [orb andb]; subst; split; intros H1;
    try discriminate; try lia; auto; try (left; lia); try (destruct H1 as [|[_ H1]]; [lia|auto]).
Qed.
Lemma slt_nil_l b : slt [] b <-> b <> [].
Proof. unfold slt. destruct b; cbn; split; congruence. Qed.
Lemma slt_nil_r a : ~ slt a [].
Proof. unfold slt. cbn. discriminate. Qed.

(** The common prefix of a word and the next one. *)
Lemma common_prefix w prev : slt prev w ->
  exists p s y r, prev = p ++ s /\ w = p ++ y :: r /\ length p = common_prefix_len w prev /\
    (s = [] \/ exists x s', s = x :: s' /\ (x < y)%N).
Proof.
  revert prev. induction w as [|y w IH]; intros prev H; [destruct (slt_nil_r _ H)|].
  destruct prev as [|x prev].
  - exists [], [], y, w. repeat split; auto.
  - cbn [common_prefix_len]. apply slt_cons in H. destruct (N.eqb_spec y x) as [->|N].
    + destruct H as [H|[_ H]]; [lia|]. destruct (IH _ H) as (p & s & y' & r & -> & -> & Lp & Hs).
      exists (x :: p), s, y', r. repeat split; auto. cbn [length]. congruence.
    + destruct H as [H|[H _]]; [|congruence]. exists [], (x :: prev), y, w. repeat split; auto. right. eauto.
Qed.

(** ** [sorted(edges.items())] *)

Definition asc (l : list N) : Prop := StronglySorted N.lt l.

Lemma isort_asc (es : list (N * nat)) : asc (map fst es) -> isort (fun a b => N.leb (fst a) (fst b)) es = es.
Proof.
  intros H. apply isort_sorted_id. induction es as [|e es IH]; [constructor|]. cbn [map] in H. inversion H; subst. constructor; auto.
  rewrite Forall_forall in *. intros e' He'. apply N.leb_le. apply N.lt_le_incl, H3, in_map, He'.
Qed.

Lemma sorted_edges_asc nd : asc (map fst (edges nd)) -> sorted_edges nd = edges nd.
Proof. apply isort_asc. Qed.

(** ** The string of a node determines it *)

Lemma uint_chars_digit d : Forall (fun c => (48 <= c < 58)%N) (uint_chars d).
Proof. induction d; cbn; constructor; auto; lia. Qed.
Lemma uint_chars_inj d d' : uint_chars d = uint_chars d' -> d = d'.
Proof. revert d'. induction d; intros d' H; destruct d'; try discriminate; auto; cbn in H; injection H as H; f_equal; auto. Qed.

Lemma digits_split (a b : str) c d s t : Forall (fun c => (48 <= c < 58)%N) a -> Forall (fun c => (48 <= c < 58)%N) b ->
  ~ (48 <= c < 58)%N -> ~ (48 <= d < 58)%N -> a ++ c :: s = b ++ d :: t -> a = b /\ c = d /\ s = t.
Proof.
  intros Fa. revert b. induction Fa as [|x a Hx Fa IH]; intros b Fb Hc Hd E.
  - destruct Fb as [|y b Hy Fb]; cbn in E; injection E as E1 E2; subst; [auto|contradiction].
  - destruct Fb as [|y b Hy Fb]; cbn in E; injection E as E1 E2; subst; [contradiction|].
    destruct (IH b Fb Hc Hd E2) as (-> & -> & ->). auto.
Qed.

Lemma decimal_split m n c d s t : ~ (48 <= c < 58)%N -> ~ (48 <= d < 58)%N ->
  decimal m ++ c :: s = decimal n ++ d :: t -> m = n /\ c = d /\ s = t.
Proof.
  intros Hc Hd E. unfold decimal in E. destruct (digits_split _ _ c d s t (uint_chars_digit _) (uint_chars_digit _) Hc Hd E) as (E1 & E2 & E3).
  split; auto. apply uint_chars_inj in E1. apply Unsigned.to_uint_inj. exact E1.
Qed.

Section Str.
Variables (repr : N -> str) (ident : nat -> nat).
Hypothesis repr_free : forall a b s t, repr a ++ s = repr b ++ t -> a = b /\ s = t.
Hypothesis ident_inj : forall i j, ident i = ident j -> i = j.

Definition body (e : N * nat) : str := repr (fst e) ++ [58%N; 32%N] ++ decimal (ident (snd e)).
Definition rest_text (es : list (N * nat)) : str := flat_map (fun e => 44%N :: 32%N :: body e) es.

Lemma edge_info es : es <> [] -> removelast (tl (flat_map (edge_text repr ident) es)) = match es with [] => [] | e :: es => body e ++ rest_text es end.
Proof.
  destruct es as [|e es]; [congruence|]. intros _.
  assert (H : flat_map (edge_text repr ident) (e :: es) = 32%N :: (body e ++ rest_text es) ++ [44%N]).
  { revert e. induction es as [|e' es IH]; intros e.
    - cbn [flat_map rest_text]. unfold edge_text, body. rewrite !app_nil_r. cbn [app]. rewrite <- !app_assoc. reflexivity.
    - cbn [flat_map] in *. rewrite IH. change (rest_text (e' :: es)) with (44%N :: 32%N :: body e' ++ rest_text es). unfold edge_text, body.
      repeat (rewrite <- ?app_assoc; cbn [app]). reflexivity. }
  rewrite H. cbn [tl]. apply removelast_last.
Qed.

Lemma rest_text_head es s : exists c t, rest_text es ++ 125%N :: s = c :: t /\ ~ (48 <= c < 58)%N.
Proof. destruct es; cbn; eexists; eexists; (split; [reflexivity|lia]). Qed.

Lemma body_split e e' es es' s s' : body e ++ rest_text es ++ 125%N :: s = body e' ++ rest_text es' ++ 125%N :: s' ->
  e = e' /\ rest_text es ++ 125%N :: s = rest_text es' ++ 125%N :: s'.
Proof.
  unfold body. rewrite <- !app_assoc. intros E. apply repr_free in E. destruct E as [E1 E]. cbn [app] in E. injection E as E.
  destruct (rest_text_head es s) as (c & t & Ec & Hc), (rest_text_head es' s') as (d & t' & Ed & Hd).
  rewrite Ec, Ed in *. apply decimal_split in E; auto. destruct E as (E2 & E3 & E4). apply ident_inj in E2.
  split; [destruct e, e'; cbn in *; congruence|congruence].
Qed.

Lemma rest_split es : forall es' s s', rest_text es ++ 125%N :: s = rest_text es' ++ 125%N :: s' -> es = es'.
Proof.
  induction es as [|e es IH]; intros [|e' es'] s s' E; auto; cbn [rest_text flat_map app] in E; try discriminate.
  injection E as E. rewrite <- !app_assoc in E. apply body_split in E. destruct E as [-> E]. f_equal. eapply IH. exact E.
Qed.

Lemma body_long e : (2 <= length (body e))%nat.
Proof. unfold body. rewrite !app_length. cbn [length]. lia. Qed.

Lemma node_str_inj a b : node_str repr ident a = node_str repr ident b -> terminal a = terminal b /\ sorted_edges a = sorted_edges b.
Proof.
  unfold node_str. intros E. apply app_inv_head in E. unfold text_edges in E. cbn [app] in E.
  apply decimal_split in E; [|lia|lia]. destruct E as (E1 & _ & E). split; auto. injection E as E.
  destruct (sorted_edges a) as [|e es], (sorted_edges b) as [|e' es']; auto.
  - exfalso. rewrite (edge_info (e' :: es')) in E by discriminate. apply (f_equal (@length N)) in E.
    cbn [flat_map tl removelast app] in E. rewrite !app_length in E. pose proof (body_long e'). cbn [length] in E. lia.
  - exfalso. rewrite (edge_info (e :: es)) in E by discriminate. apply (f_equal (@length N)) in E.
    cbn [flat_map tl removelast app] in E. rewrite !app_length in E. pose proof (body_long e). cbn [length] in E. lia.
  - rewrite !edge_info in E by discriminate. rewrite <- !app_assoc in E. apply body_split in E. destruct E as [-> E]. f_equal.
    eapply rest_split. exact E.
Qed.
End Str.

(** ** Languages of nodes *)

Definition node_lang (L : nat -> list str) (nd : node) : list str :=
  (if Nat.eqb (terminal nd) 0 then [] else [[]]) ++ flat_map (fun e => map (cons (fst e)) (L (snd e))) (edges nd).

Lemma node_lang_ext L L' nd : (forall e, In e (edges nd) -> L (snd e) = L' (snd e)) -> node_lang L nd = node_lang L' nd.
Proof.
  intros H. unfold node_lang. f_equal. induction (edges nd) as [|e es IH]; [reflexivity|]. cbn [flat_map].
  rewrite (H e) by (left; auto). rewrite IH; auto. intros; apply H; right; auto.
Qed.

Lemma in_node_lang_cons L nd c v : In (c :: v) (node_lang L nd) <-> exists t, In (c, t) (edges nd) /\ In v (L t).
Proof.
  unfold node_lang. rewrite in_app_iff, in_flat_map. split.
  - intros [H|(e & He & H)].
    + destruct (Nat.eqb _ _); [destruct H|destruct H as [H|[]]; discriminate].
    + apply in_map_iff in H. destruct H as (v' & E & Hv). injection E as E1 E2. subst. exists (snd e). split; auto. destruct e; auto.
  - intros (t & He & Hv). right. exists (c, t). split; auto. cbn. apply in_map. exact Hv.
Qed.
Lemma in_node_lang_nil L nd : In [] (node_lang L nd) <-> terminal nd <> 0.
Proof.
  unfold node_lang. rewrite in_app_iff. destruct (Nat.eqb_spec (terminal nd) 0) as [E|E].
  - split; [|congruence]. intros [[]|H]. apply in_flat_map in H. destruct H as (e & _ & H). apply in_map_iff in H. destruct H as (? & H & _). discriminate.
  - split; auto. intros _. left. left. reflexivity.
Qed.

(** ** Lists *)

Lemma NoDup_app_disj {A} (l m : list A) : NoDup (l ++ m) -> forall x, In x l -> In x m -> False.
Proof. intros H x. apply NoDup_app_inv in H. destruct H as (_ & _ & H). intros H1 H2. exact (H x H1 H2). Qed.

Lemma nth_error_list_set {A} (l : list A) i v j : i < length l ->
  nth_error (list_set l i v) j = if Nat.eq_dec j i then Some v else nth_error l j.
Proof.
  revert i j. induction l as [|a l IH]; intros i j H; [cbn in H; lia|]. destruct i as [|i].
  - destruct j; reflexivity.
  - cbn [list_set]. destruct j as [|j]; cbn [nth_error]; [destruct (Nat.eq_dec 0 (S i)); [lia|reflexivity]|].
    cbn [length] in H. rewrite IH by lia. destruct (Nat.eq_dec j i), (Nat.eq_dec (S j) (S i)); auto; lia.
Qed.

Lemma dset_last (l : N) (v v' : nat) (E : dict N nat) : ~ In l (map fst E) -> dset l v (E ++ [(l, v')]) = E ++ [(l, v)].
Proof.
  induction E as [|[k u] E IH]; intros H; cbn [app dset].
  - match goal with |- context [if ?d then _ else _] => destruct d end; [reflexivity|congruence].
  - match goal with |- context [if ?d then _ else _] => destruct d as [->|] end; [exfalso; apply H; left; reflexivity|].
    rewrite IH; auto. intros C. apply H. right. exact C.
Qed.

Lemma dset_new (l : N) (v : nat) (E : dict N nat) : ~ In l (map fst E) -> dset l v E = E ++ [(l, v)].
Proof. intros H. apply dset_app. apply dmem_false. exact H. Qed.

Lemma asc_snoc l x : asc (l ++ [x]) <-> asc l /\ Forall (fun y => (y < x)%N) l.
Proof.
  unfold asc. induction l as [|a l IH]; cbn [app].
  - split; [intros _; split; constructor|intros _; repeat constructor].
  - split.
    + intros H. inversion H; subst. apply IH in H2. destruct H2 as [H2 H4]. apply Forall_app in H3. destruct H3 as [H3 H5]. inversion H5; subst.
      split; constructor; auto.
    + intros [H1 H2]. inversion H1; subst. inversion H2; subst. constructor; [apply IH; auto|]. apply Forall_app. split; auto.
Qed.

(** ** The invariant of the construction *)

Section Build.
Context {D : Type}.
Variables (repr : N -> str) (ident : nat -> nat).
Hypothesis repr_free : forall a b s t, repr a ++ s = repr b ++ t -> a = b /\ s = t.
Hypothesis ident_inj : forall i j, ident i = ident j -> i = j.
Notation nstr := (node_str repr ident).

(** The prefix a node was created for; the language of a node is that of
    this prefix. *)
Definition A (addr : list str) (i : nat) : str := nth i addr [].
Definition Lg (addr : list str) (ws : list str) (i : nat) : list str := continuations (A addr i) ws.

Definition node_ok (h : heap) addr ws (i : nat) (nd : node) : Prop :=
  nth_error h i = Some nd /\ node_lang (Lg addr ws) nd = Lg addr ws i /\ asc (map fst (edges nd)) /\ leaf_count nd = None /\ final_edges nd = None /\ terminal nd <= 1.

Definition into (M : list nat) (es : list (N * nat)) : Prop := forall e, In e es -> In (snd e) M.

Definition top (root : nat) (unch : list (nat * N * nat)) : nat := match unch with (_, _, c) :: _ => c | [] => root end.

Fixpoint stack_ok (h : heap) addr ws M root (unch : list (nat * N * nat)) : Prop :=
  match unch with
  | [] => True
  | (a, l, b) :: rest =>
      a = top root rest /\ A addr b = A addr a ++ [l] /\
      (exists nd E, node_ok h addr ws a nd /\ edges nd = E ++ [(l, b)] /\ into M E) /\
      stack_ok h addr ws M root rest
  end.

Definition min_ok (h : heap) addr ws (B : str -> Prop) (mn : dict str nat) : Prop :=
  forall key m, In (key, m) mn -> exists nd, node_ok h addr ws m nd /\ key = nstr nd /\ into (map snd mn) (edges nd) /\
    A addr m <> [] /\ Lg addr ws m <> [] /\ forall w, B w -> strip (A addr m) w = None.

Definition path (root : nat) (unch : list (nat * N * nat)) : list nat := map snd unch ++ [root].

Lemma top_in_path root unch : In (top root unch) (path root unch).
Proof. unfold path. destruct unch as [|[[a l] b] r]; [left; reflexivity|]. apply in_app_iff. left. left. reflexivity. Qed.

Record built (g : dawg D) (addr : list str) (ws : list str) (B : str -> Prop) : Prop := {
  b_len : length addr = length (nodes g);
  b_nodup : NoDup (path (root g) (unchecked g) ++ map snd (minimized g));
  b_lt : Forall (fun i => i < length (nodes g)) (path (root g) (unchecked g) ++ map snd (minimized g));
  b_root : A addr (root g) = [];
  b_stack : stack_ok (nodes g) addr ws (map snd (minimized g)) (root g) (unchecked g);
  b_top : exists nd, node_ok (nodes g) addr ws (top (root g) (unchecked g)) nd /\ into (map snd (minimized g)) (edges nd);
  b_min : min_ok (nodes g) addr ws B (minimized g);
  b_wf : dwf (minimized g);
  b_prefix : exists s, previous g = A addr (top (root g) (unchecked g)) ++ s;
  b_sorted : StronglySorted slt ws;
  b_last : ws = [] /\ previous g = [] \/ exists ws', ws = ws' ++ [previous g]
}.

Lemma stack_frame h h' addr ws M root unch x nd' :
  x < length h -> h' = list_set h x nd' -> ~ In x (map (fun e => fst (fst e)) unch) ->
  stack_ok h addr ws M root unch -> stack_ok h' addr ws M root unch.
Proof.
  intros Hx -> . induction unch as [|[[a l] b] rest IH]; intros N; cbn [stack_ok]; auto.
  intros (Ea & Eb & (nd & E & (K1 & K2) & K3) & S). cbn [map In fst] in N. split; auto. split; auto. split.
  - exists nd, E. split; [split; auto|auto]. rewrite nth_error_list_set by auto. destruct (Nat.eq_dec a x); [subst; tauto|auto].
  - apply IH; tauto.
Qed.

Lemma stack_M h addr ws M M' root unch : incl M M' -> stack_ok h addr ws M root unch -> stack_ok h addr ws M' root unch.
Proof.
  intros I. induction unch as [|[[a l] b] rest IH]; cbn [stack_ok]; auto. intros (Ea & Eb & (nd & E & K1 & K2 & K3) & S).
  split; auto. split; auto. split; [|auto]. exists nd, E. split; auto. split; auto. intros e He. apply I, K3, He.
Qed.

Lemma stack_parents h addr ws M root unch : stack_ok h addr ws M root unch ->
  map (fun e => fst (fst e)) unch = tl (path root unch).
Proof.
  unfold path. induction unch as [|[[a l] b] rest IH]; [reflexivity|]. cbn [stack_ok map]. intros (-> & _ & _ & S). cbn [fst snd app tl].
  rewrite (IH S). destruct rest as [|[[a1 l1] b1] rest]; reflexivity.
Qed.

(** One round of minimization. *)
Lemma minimize_one_spec g addr ws B :
  built g addr ws B -> unchecked g <> [] -> (forall w, B w -> strip (A addr (top (root g) (unchecked g))) w = None) ->
  exists g', minimize_one repr ident g = Ok g' /\ built g' addr ws B /\ unchecked g' = tl (unchecked g) /\ root g' = root g /\
    previous g' = previous g /\ data g' = data g.
Proof.
  intros [HLen HND HLt HRoot HSt HTop HMin HWf HPre HSo HLast] Ne HB. unfold minimize_one.
  destruct (unchecked g) as [|[[a l] c] rest] eqn:Eu; [congruence|]. clear Ne.
  destruct HTop as (nd & (K1 & K2 & K3 & K4) & K5). cbn [top] in *.
  cbn [stack_ok] in HSt. destruct HSt as (Ea & Ec & (pn & E & (P1 & P2 & P3 & P4) & P5 & P6) & St).
  unfold get_node. rewrite K1. cbn [bind].
  assert (Hp : path (root g) ((a, l, c) :: rest) = c :: path (root g) rest) by reflexivity.
  rewrite Hp in HND, HLt. cbn [app] in HND, HLt. inversion HND as [|? ? Nc HND']; subst x l0. inversion HLt as [|? ? Lc HLt']; subst x l0.
  assert (Ha : In a (path (root g) rest)) by (rewrite Ea; apply top_in_path).
  assert (HaM : ~ In a (map snd (minimized g))).
  { intros C. exact (NoDup_app_disj _ _ HND' a Ha C). }
  assert (La : a < length (nodes g)). { rewrite Forall_forall in HLt'. apply HLt', in_app_iff. auto. }
  assert (Hpre' : exists s, previous g = A addr (top (root g) rest) ++ s).
  { destruct HPre as (s & Es). exists (l :: s). rewrite Es, Ec, <- Ea, <- app_assoc. reflexivity. }
  assert (Lnc : ~ In l (map fst E)).
  { rewrite P5, map_app in P3. cbn [map fst] in P3. apply asc_snoc in P3. destruct P3 as [_ P3]. rewrite Forall_forall in P3.
    intros C. apply P3 in C. lia. }
  destruct (dget (nstr nd) (minimized g)) as [m|] eqn:Em.
  - rewrite P1. cbn [bind].
    assert (Hin := dget_In _ _ _ Em). destruct (HMin _ _ Hin) as (mn & (M1 & M2 & M3 & M4) & M5 & M6 & M7 & M8 & M9).
    destruct (node_str_inj repr ident repr_free ident_inj nd mn M5) as [T1 T2].
    rewrite (sorted_edges_asc nd K3), (sorted_edges_asc mn M3) in T2.
    assert (Elang : Lg addr ws c = Lg addr ws m).
    { rewrite <- K2, <- M2. unfold node_lang. rewrite T1, T2. reflexivity. }
    rewrite P5, (dset_last l m c E Lnc).
    set (p' := {| terminal := terminal pn; edges := E ++ [(l, m)]; leaf_count := leaf_count pn; final_edges := final_edges pn |}).
    assert (Hp' : node_ok (set_node (nodes g) a p') addr ws a p').
    { split; [|split; [|split]].
      - unfold set_node. rewrite nth_error_list_set by auto. destruct (Nat.eq_dec a a); [reflexivity|congruence].
      - rewrite <- P2. unfold node_lang. rewrite P5. cbn [p' terminal edges]. rewrite !flat_map_app. cbn [flat_map fst snd]. rewrite Elang. reflexivity.
      - cbn [p' edges]. rewrite P5 in P3. rewrite map_app in *. exact P3.
      - exact P4. }
    assert (HmM : In m (map snd (minimized g))) by (apply in_map_iff; exists (nstr nd, m); auto).
    eexists. split; [reflexivity|]. split; [|repeat split; reflexivity].
    split; cbn [nodes root unchecked minimized previous]; auto.
    + unfold set_node. rewrite list_set_length. exact HLen.
    + unfold set_node. rewrite list_set_length. exact HLt'.
    + eapply stack_frame; [exact La|reflexivity| |exact St]. rewrite (stack_parents _ _ _ _ _ _ St).
      rewrite Ea. destruct rest as [|[[a1 l1] b1] rest]; [intros []|]. cbn [top path map tl app].
      inversion HND' as [|? ? X _]; subst. intros C. apply X. apply in_app_iff. left. exact C.
    + rewrite <- Ea. exists p'. split; [exact Hp'|]. cbn [p' edges]. intros e He. apply in_app_iff in He. destruct He as [He|[<-|[]]]; auto.
    + intros key m' Hm'. destruct (HMin _ _ Hm') as (nd' & (N1 & N2) & N3). exists nd'. split; [|auto]. split; [|auto].
      unfold set_node. rewrite nth_error_list_set by auto. destruct (Nat.eq_dec m' a) as [->|]; auto. exfalso. apply HaM. apply in_map_iff. exists (key, a). auto.
  - assert (Emin : dset (nstr nd) c (minimized g) = minimized g ++ [(nstr nd, c)]).
    { apply dset_app. apply dmem_false. apply dget_None. exact Em. }
    rewrite Emin.
    assert (Inc : incl (map snd (minimized g)) (map snd (minimized g ++ [(nstr nd, c)]))) by (rewrite map_app; apply incl_appl, incl_refl).
    assert (HcM : In c (map snd (minimized g ++ [(nstr nd, c)]))) by (rewrite map_app; apply in_app_iff; right; left; reflexivity).
    eexists. split; [reflexivity|]. split; [|repeat split; reflexivity].
    split; cbn [nodes root unchecked minimized previous]; auto.
    + rewrite map_app, app_assoc. apply (Permutation_NoDup (l := c :: path (root g) rest ++ map snd (minimized g))).
      * apply Permutation_cons_append.
      * constructor; auto.
    + rewrite map_app, app_assoc. apply Forall_app. split; auto. repeat constructor. exact Lc.
    + eapply stack_M; eauto.
    + rewrite <- Ea. exists pn. split; [split; auto|]. rewrite P5. intros e He. apply in_app_iff in He. destruct He as [He|[<-|[]]]; auto.
    + intros key m Hm. apply in_app_iff in Hm. destruct Hm as [Hm|[Hm|[]]].
      * destruct (HMin _ _ Hm) as (nd' & N1 & N2 & N3 & N4). exists nd'. split; auto. split; auto. split; auto. intros e He. apply Inc, N3, He.
      * injection Hm as <- <-. exists nd. split; [split; auto|]. split; auto. split; [intros e He; apply Inc, K5, He|]. split; [|split].
        -- rewrite Ec. destruct (A addr a); discriminate.
        -- destruct HPre as (s & Es). destruct HLast as [[_ Hl]|(ws' & ->)].
           ++ exfalso. rewrite Hl, Ec in Es. destruct (A addr a); discriminate.
           ++ intros C. assert (X : In s (Lg addr (ws' ++ [previous g]) c)); [|rewrite C in X; destruct X].
              apply in_continuations. rewrite <- Es. apply in_app_iff. right. left. reflexivity.
        -- exact HB.
    + rewrite <- Emin. apply dset_wf. exact HWf.
Qed.

Lemma stack_prefix h addr ws M root unch : A addr root = [] -> stack_ok h addr ws M root unch -> length (A addr (top root unch)) = length unch.
Proof.
  intros R. induction unch as [|[[a l] b] rest IH]; cbn [stack_ok top]; [intros _; rewrite R; reflexivity|].
  intros (-> & E & _ & S). rewrite E, app_length, (IH S). cbn [length]. lia.
Qed.

Lemma minimize_spec g addr ws (B : str -> Prop) k :
  built g addr ws B -> k <= length (unchecked g) ->
  (forall u w, k < length u -> length u <= length (unchecked g) -> (exists s, previous g = u ++ s) -> B w -> strip u w = None) ->
  exists g', minimize_unchecked repr ident g k = Ok g' /\ built g' addr ws B /\ length (unchecked g') = k /\ root g' = root g /\
    previous g' = previous g /\ data g' = data g /\ A addr (top (root g') (unchecked g')) = firstn k (previous g).
Proof.
  unfold minimize_unchecked. intros Hb Hk HB. remember (length (unchecked g) - k) as n eqn:En.
  revert g Hb Hk HB En. induction n as [|n IH]; intros g Hb Hk HB En.
  - exists g. split; [reflexivity|]. split; auto. assert (Lk : length (unchecked g) = k) by lia. repeat split; auto.
    destruct (b_prefix _ _ _ _ Hb) as (s & Es). pose proof (stack_prefix _ _ _ _ _ _ (b_root _ _ _ _ Hb) (b_stack _ _ _ _ Hb)) as Lp.
    rewrite Es, <- Lk, <- Lp, firstn_app, firstn_all, Nat.sub_diag. cbn [firstn]. rewrite app_nil_r. reflexivity.
  - destruct (minimize_one_spec g addr ws B Hb) as (g1 & E1 & Hb1 & U1 & R1 & P1 & D1).
    { intros C. rewrite C in En. cbn in En. lia. }
    { intros w Bw. pose proof (stack_prefix _ _ _ _ _ _ (b_root _ _ _ _ Hb) (b_stack _ _ _ _ Hb)) as Lp.
      apply HB; auto; try lia. apply (b_prefix _ _ _ _ Hb). }
    assert (Lu : length (unchecked g1) = length (unchecked g) - 1) by (rewrite U1; destruct (unchecked g); cbn; lia).
    destruct (IH g1 Hb1) as (g2 & E2 & Hb2 & L2 & R2 & P2 & D2 & T2); try lia.
    { intros u w H1 H2 H3 H4. apply HB; auto; try lia. rewrite <- P1. exact H3. }
    exists g2. cbn [repeat foldM]. rewrite E1. cbn [bind]. split; auto. split; auto. split; auto. split; [congruence|]. split; [congruence|].
    split; [congruence|]. rewrite T2, P1. reflexivity.
Qed.

(** ** Adding the letters of a new word *)

Lemma A_app addr x i : i < length addr -> A (addr ++ [x]) i = A addr i.
Proof. intros H. unfold A. apply app_nth1. exact H. Qed.
Lemma A_new addr x : A (addr ++ [x]) (length addr) = x.
Proof. unfold A. rewrite app_nth2, Nat.sub_diag by lia. reflexivity. Qed.

(** What does not depend on the nodes of the path: the minimized part. *)
Lemma stack_word h addr ws w M root unch :
  (forall m, In m M -> strip (A addr m) w = None) -> (exists s, w = A addr (top root unch) ++ s) ->
  stack_ok h addr ws M root unch -> stack_ok h addr (ws ++ [w]) M root unch.
Proof.
  intros HM. induction unch as [|[[a l] b] rest IH]; cbn [stack_ok top]; auto.
  intros (s & Es) (Ea & Eb & (nd & E & (K1 & K2 & K3) & K4 & K5) & S). split; auto. split; auto. split.
  - exists nd, E. split; auto. split; auto. split; auto. unfold node_lang in *. rewrite K4 in *.
    rewrite flat_map_app in *. cbn [flat_map fst snd] in *. rewrite app_nil_r in *.
    assert (EE : flat_map (fun e => map (cons (fst e)) (Lg addr (ws ++ [w]) (snd e))) E = flat_map (fun e => map (cons (fst e)) (Lg addr ws (snd e))) E).
    { clear - HM K5. induction E as [|e E IH]; [reflexivity|]. cbn [flat_map]. rewrite IH by (intros e' He'; apply K5; right; auto). f_equal. f_equal.
      unfold Lg. rewrite continuations_app, (continuations_one_none _ w), app_nil_r; auto. apply HM, K5. left. reflexivity. }
    rewrite EE. unfold Lg in *. rewrite !continuations_app, map_app.
    pose proof (continuations_one_some (A addr b) w s Es) as C1.
    assert (C2 : continuations (A addr a) [w] = [l :: s]) by (apply continuations_one_some; rewrite Es, Eb, <- app_assoc; reflexivity).
    unfold str in *. rewrite C1, C2.
    rewrite <- K2. cbn [map]. rewrite <- !app_assoc. reflexivity.
  - apply IH; auto. exists (l :: s). rewrite Es, Eb, Ea, <- app_assoc. reflexivity.
Qed.

Lemma stack_grow h addr ws M root unch x nd : length addr = length h ->
  Forall (fun i => i < length h) (path root unch ++ M) ->
  stack_ok h addr ws M root unch -> stack_ok (h ++ [nd]) (addr ++ [x]) ws M root unch.
Proof.
  intros HL. unfold path. induction unch as [|[[a l] b] rest IH]; cbn [stack_ok top]; auto.
  intros Hlt (Ea & Eb & (nd' & E & (K1 & K2 & K3) & K4 & K5) & S). cbn [map snd app] in Hlt. inversion Hlt as [|? ? Hb Hlt']; subst x0 l0.
  assert (Ha : a < length h).
  { rewrite Forall_forall in Hlt'. apply Hlt'. apply in_app_iff. left. rewrite Ea. apply top_in_path. }
  split; auto. split; [rewrite !A_app by lia; auto|]. split; [|auto].
  exists nd', E. split; [|auto]. split; [rewrite nth_error_app1; auto|]. split; [|auto].
  unfold Lg at 2. rewrite A_app by lia. fold (Lg addr ws a). rewrite <- K2. apply node_lang_ext. intros e He. unfold Lg. rewrite A_app; auto.
  rewrite HL. rewrite K4 in He. apply in_app_iff in He. destruct He as [He|[<-|[]]]; [|exact Hb].
  rewrite Forall_forall in Hlt'. apply Hlt', in_app_iff. right. apply K5, He.
Qed.

(** State of the loop over the letters: everything below the top is right for
    the words with [w], the top node still only for the words without. *)
Record adding (h : heap) (addr ws : list str) (w : str) (mn : dict str nat) (root : nat) (unch : list (nat * N * nat)) (r : str) : Prop := {
  a_len : length addr = length h;
  a_nodup : NoDup (path root unch ++ map snd mn);
  a_lt : Forall (fun i => i < length h) (path root unch ++ map snd mn);
  a_root : A addr root = [];
  a_stack : stack_ok h addr (ws ++ [w]) (map snd mn) root unch;
  a_top : exists nd, node_ok h addr ws (top root unch) nd /\ into (map snd mn) (edges nd) /\
      match r with [] => edges nd = [] /\ terminal nd = 0 | y :: _ => Forall (fun x => (x < y)%N) (map fst (edges nd)) end;
  a_word : w = A addr (top root unch) ++ r;
  a_fresh : match r with [] => Lg addr ws (top root unch) = [] | y :: _ => continuations (A addr (top root unch) ++ [y]) ws = [] end;
  a_min : forall m, In m (map snd mn) -> strip (A addr m) w = None
}.

Lemma add_letter_spec h addr ws w mn root unch y r : adding h addr ws w mn root unch (y :: r) ->
  exists h' unch' i', add_letter (h, unch, top root unch) y = Ok (h', unch', i') /\ i' = top root unch' /\
    adding h' (addr ++ [A addr (top root unch) ++ [y]]) ws w mn root unch' r /\
    (forall m, In m (map snd mn) -> nth_error h' m = nth_error h m) /\ length h' = S (length h) /\ length unch' = S (length unch).
Proof.
  intros [HL HN HLt HR HS (nd & (K1 & K2 & K3 & K4) & K5 & K6) HW HF HM]. unfold add_letter, get_node. rewrite K1. cbn [bind].
  set (t := top root unch) in *. set (n := length h). set (x := A addr t ++ [y]).
  assert (Ln : ~ In y (map fst (edges nd))). { intros C. rewrite Forall_forall in K6. apply K6 in C. lia. }
  rewrite (dset_new y n (edges nd) Ln).
  set (nd' := {| terminal := terminal nd; edges := edges nd ++ [(y, n)]; leaf_count := leaf_count nd; final_edges := final_edges nd |}).
  assert (Lt : t < length h). { rewrite Forall_forall in HLt. apply HLt, in_app_iff. left. apply top_in_path. }
  exists (list_set h t nd' ++ [new_node]), ((t, y, n) :: unch), n. split; [reflexivity|]. split; [reflexivity|].
  assert (Lh : length (list_set h t nd') = n) by (apply list_set_length).
  assert (Hid : forall i, In i (path root unch ++ map snd mn) -> i < n) by (rewrite Forall_forall in HLt; exact HLt).
  assert (An : A (addr ++ [x]) n = x) by (unfold n; rewrite <- HL; apply A_new).
  assert (At : A (addr ++ [x]) t = A addr t) by (apply A_app; lia).
  split.
  - split.
    + rewrite !app_length, Lh, HL. reflexivity.
    + cbn [path map snd app]. constructor; auto. intros C. apply Hid in C. lia.
    + cbn [path map snd app]. rewrite app_length, Lh. cbn [length]. constructor; [lia|]. apply Forall_forall. intros i Hi. apply Hid in Hi. lia.
    + rewrite A_app; auto. rewrite HL. apply Hid. apply in_app_iff. left. unfold path. apply in_app_iff. right. left. reflexivity.
    + cbn [stack_ok]. split; [reflexivity|]. split; [rewrite An, At; reflexivity|]. split.
      * exists nd', (edges nd). split; [|split; [reflexivity|exact K5]]. split; [|split; [|split]].
        -- rewrite nth_error_app1 by lia. rewrite nth_error_list_set by auto. destruct (Nat.eq_dec t t); [reflexivity|congruence].
        -- assert (Eo : flat_map (fun e => map (cons (fst e)) (Lg (addr ++ [x]) (ws ++ [w]) (snd e))) (edges nd) = flat_map (fun e => map (cons (fst e)) (Lg addr ws (snd e))) (edges nd)).
           { clear - HM K5 HL Hid. induction (edges nd) as [|e es IH]; [reflexivity|]. cbn [flat_map]. rewrite IH by (intros e' He'; apply K5; right; auto). f_equal. f_equal.
             unfold Lg. rewrite A_app by (rewrite HL; apply Hid, in_app_iff; right; apply K5; left; reflexivity).
             rewrite continuations_app, (continuations_one_none _ w), app_nil_r; auto. apply HM, K5. left. reflexivity. }
           unfold node_lang. cbn [nd' terminal edges]. rewrite flat_map_app, Eo, app_assoc. fold (node_lang (Lg addr ws) nd). rewrite K2.
           cbn [flat_map fst snd]. rewrite app_nil_r. unfold Lg. rewrite An, At, !continuations_app. unfold x. rewrite HF. cbn [app].
           pose proof (continuations_one_some (A addr t) w (y :: r) HW) as C1.
           assert (C2 : continuations (A addr t ++ [y]) [w] = [r]) by (apply continuations_one_some; rewrite <- app_assoc; exact HW).
           unfold str in *. rewrite C1, C2. reflexivity.
        -- cbn [nd' edges]. rewrite map_app. apply asc_snoc. auto.
        -- exact K4.
      * apply stack_grow; [rewrite Lh; exact HL|rewrite Lh; exact HLt|]. eapply stack_frame; [exact Lt|reflexivity| |exact HS].
        rewrite (stack_parents _ _ _ _ _ _ HS). unfold t. destruct unch as [|[[a1 l1] b1] rest]; [intros []|]. cbn [top path map tl app].
        cbn [path map app] in HN. inversion HN as [|? ? X _]; subst. intros C. apply X. apply in_app_iff. left. exact C.
    + cbn [top]. exists new_node. split; [|split; [intros e []|destruct r; [auto|constructor]]]. split; [|split; [|split]].
      * rewrite nth_error_app2 by lia. rewrite Lh, Nat.sub_diag. reflexivity.
      * unfold Lg at 2. rewrite An. unfold x. rewrite HF. reflexivity.
      * constructor.
      * split; [reflexivity|split; [reflexivity|cbn; lia]].
    + cbn [top]. rewrite An. unfold x. rewrite <- app_assoc. exact HW.
    + cbn [top]. destruct r as [|y' r].
      * unfold Lg. rewrite An. exact HF.
      * rewrite An. destruct (continuations (x ++ [y']) ws) as [|v vs] eqn:Ec; auto. exfalso.
        assert (C : In v (continuations (x ++ [y']) ws)) by (rewrite Ec; left; reflexivity). apply in_continuations in C.
        assert (C' : In (y' :: v) (continuations x ws)) by (apply in_continuations; rewrite <- app_assoc in C; exact C). unfold x in C'. rewrite HF in C'. destruct C'.
    + intros m Hm. rewrite A_app; auto. rewrite HL. apply Hid, in_app_iff. auto.
  - split; [|split].
    + intros m Hm. rewrite nth_error_app1 by (rewrite Lh; apply Hid, in_app_iff; auto). rewrite nth_error_list_set by auto.
      destruct (Nat.eq_dec m t) as [->|]; auto. exfalso. apply (NoDup_app_disj _ _ HN t); [apply top_in_path|exact Hm].
    + rewrite app_length, Lh. cbn [length]. unfold n. lia.
    + reflexivity.
Qed.

Lemma add_letters_spec r : forall h addr ws w mn root unch, adding h addr ws w mn root unch r ->
  exists h' unch' i' addr', foldM add_letter r (h, unch, top root unch) = Ok (h', unch', i') /\ i' = top root unch' /\
    adding h' (addr ++ addr') ws w mn root unch' [] /\ (forall m, In m (map snd mn) -> nth_error h' m = nth_error h m) /\
    length unch' = length unch + length r.
Proof.
  induction r as [|y r IH]; intros h addr ws w mn root unch Ha.
  - exists h, unch, (top root unch), []. rewrite app_nil_r, Nat.add_0_r. split; auto.
  - destruct (add_letter_spec _ _ _ _ _ _ _ _ _ Ha) as (h1 & u1 & i1 & E1 & -> & H1 & F1 & L1 & U1).
    destruct (IH _ _ _ _ _ _ _ H1) as (h2 & u2 & i2 & ad2 & E2 & -> & H2 & F2 & U2).
    exists h2, u2, (top root u2), ([A addr (top root unch) ++ [y]] ++ ad2). cbn [foldM]. rewrite E1. cbn [bind]. split; [exact E2|]. split; [reflexivity|].
    split; [rewrite app_assoc; exact H2|]. split.
    + intros m Hm. rewrite F2, F1; auto.
    + rewrite U2, U1. cbn [length]. lia.
Qed.

Lemma A_app_many addr more i : i < length addr -> A (addr ++ more) i = A addr i.
Proof. intros H. unfold A. apply app_nth1. exact H. Qed.

Lemma slt_prefix_convex u a b c : slt a b -> slt b c -> (exists s, a = u ++ s) -> (exists s, c = u ++ s) -> exists s, b = u ++ s.
Proof.
  intros H1 H2 (s & ->) (s' & ->). revert b H1 H2. induction u as [|x u IH]; intros b H1 H2; [exists b; reflexivity|].
  destruct b as [|y b]; [destruct (slt_nil_r _ H1)|]. cbn [app] in *. apply slt_cons in H1, H2.
  destruct H1 as [H1|[-> H1]], H2 as [H2|[E H2]]; try lia. destruct (IH b H1 H2) as (t & ->). exists t. reflexivity.
Qed.

(** The words later calls may insert. *)
Definition later (prev w : str) : Prop := slt prev w.
Definition from (w w' : str) : Prop := w' = w \/ slt w w'.

(** [insert] keeps the invariant, as long as nothing was finalized. *)
Lemma insert_spec (g : dawg D) addr ws w v : built g addr ws (later (previous g)) -> length (unchecked g) = length (previous g) -> slt (previous g) w ->
  exists g' addr', insert repr ident g w v = Ok g' /\ built g' addr' (ws ++ [w]) (later w) /\ length (unchecked g') = length w /\
    previous g' = w /\ data g' = data g ++ [v].
Proof.
  intros Hb HU Hw. destruct (common_prefix w (previous g) Hw) as (p & s & y & r & Ep & Ew & Lp & Hs).
  set (k := common_prefix_len w (previous g)) in *.
  assert (Hlast := b_last _ _ _ _ Hb). assert (Hso := b_sorted _ _ _ _ Hb).
  assert (Hmax : forall x, In x ws -> x = previous g \/ slt x (previous g)).
  { intros x Hx. destruct Hlast as [[-> _]|(ws' & ->)]; [destruct Hx|]. apply in_app_iff in Hx. destruct Hx as [Hx|[->|[]]]; auto. right.
    clear - Hso Hx. induction ws' as [|a ws' IH]; [destruct Hx|]. cbn [app] in Hso. inversion Hso; subst. destruct Hx as [->|Hx]; [|auto].
    rewrite Forall_forall in H2. apply H2, in_app_iff. right. left. reflexivity. }
  assert (Hb1 : built g addr ws (from w)).
  { destruct Hb. split; auto. intros key m Hm. destruct (b_min0 key m Hm) as (nd & H1 & H2 & H3 & H4 & H5 & H6). exists nd. repeat (split; auto).
    intros w' [->|Hw']; apply H6; auto. unfold later. eapply slt_trans; eauto. }
  destruct (minimize_spec g addr ws (from w) k Hb1) as (g1 & E1 & Hb2 & L1 & R1 & P1 & D1 & T1).
  { rewrite HU, Ep, app_length. lia. }
  { intros u w' Lk Lu (s1 & Es1) Hw'. apply strip_none. intros s2 Es2.
    assert (Hu : exists t, w = u ++ t).
    { destruct Hw' as [->|Hw']; [eauto|]. apply (slt_prefix_convex u (previous g) w w'); eauto. }
    destruct Hu as (t & Et).
    (* u is longer than the common prefix *)
    assert (E2 : p ++ s = u ++ s1) by congruence. assert (E3 : p ++ y :: r = u ++ t) by congruence.
    assert (Hpu : exists z u', u = p ++ z :: u').
    { rewrite <- Lp in Lk. clear - E2 Lk. revert u E2 Lk. induction p as [|c p IH]; intros u E2 Lk.
      - destruct u as [|z u]; [cbn in Lk; lia|]. exists z, u. reflexivity.
      - destruct u as [|z u]; [cbn in Lk; lia|]. cbn [app] in E2. injection E2 as <- E2. cbn [length] in Lk.
        destruct (IH u E2) as (z' & u' & ->); [lia|]. exists z', u'. reflexivity. }
    destruct Hpu as (z & u' & ->). rewrite <- !app_assoc in *. apply app_inv_head in E2, E3. cbn [app] in *. injection E3 as <- _.
    destruct Hs as [->|(x & s' & -> & Hx)]; [discriminate|]. injection E2 as <- _. lia. }
  assert (Tp : A addr (top (root g1) (unchecked g1)) = p).
  { rewrite T1, Ep, <- Lp, firstn_app, firstn_all, Nat.sub_diag. cbn [firstn]. apply app_nil_r. }
  assert (Hmin : forall m, In m (map snd (minimized g1)) -> strip (A addr m) w = None).
  { intros m Hm. apply in_map_iff in Hm. destruct Hm as ((key & m') & E & Hm). cbn in E. subst m'.
    destruct (b_min _ _ _ _ Hb2 key m Hm) as (nd & _ & _ & _ & _ & _ & H6). apply H6. left. reflexivity. }
  assert (Sk : skipn k w = y :: r).
  { rewrite Ew, <- Lp, skipn_app, skipn_all, Nat.sub_diag. reflexivity. }
  (* the labels at the branching node are smaller than the new letter *)
  assert (Hlab : forall c v0, In (p ++ c :: v0) ws -> (c < y)%N).
  { intros c v0 Hin. apply Hmax in Hin. rewrite Ep in Hin. destruct Hs as [->|(x & s' & -> & Hx)].
    - destruct Hin as [Hin|Hin]; [apply app_inv_head in Hin; discriminate|]. apply slt_app in Hin. destruct (slt_nil_r _ Hin).
    - destruct Hin as [Hin|Hin]; [apply app_inv_head in Hin; injection Hin as -> _; exact Hx|]. apply slt_app, slt_cons in Hin. destruct Hin as [Hin|[-> _]]; lia. }
  assert (Ha : adding (nodes g1) addr ws w (minimized g1) (root g1) (unchecked g1) (y :: r)).
  { destruct Hb2 as [HLen HND HLt HRoot HSt (nd & Hnd & HM) HMin HWf HPre HSo HL]. split; auto.
    - apply stack_word; auto. rewrite Tp. eauto.
    - exists nd. split; auto. split; auto. apply Forall_forall. intros c Hc. apply in_map_iff in Hc. destruct Hc as ((c' & t) & E & Hc). cbn in E. subst c'.
      assert (Hne : Lg addr ws t <> []).
      { apply HM in Hc. cbn in Hc. apply in_map_iff in Hc. destruct Hc as ((key & m) & E & Hm). cbn in E. subst m. destruct (HMin _ _ Hm) as (? & _ & _ & _ & _ & X & _). exact X. }
      destruct (Lg addr ws t) as [|v0 vs] eqn:Et; [congruence|].
      assert (Hin : In (c :: v0) (Lg addr ws (top (root g1) (unchecked g1)))).
      { destruct Hnd as (_ & Hnd & _). rewrite <- Hnd. apply in_node_lang_cons. exists t. split; auto. rewrite Et. left. reflexivity. }
      apply in_continuations in Hin. rewrite Tp in Hin. eapply Hlab. exact Hin.
    - rewrite Tp. exact Ew.
    - rewrite Tp. destruct (continuations (p ++ [y]) ws) as [|v0 vs] eqn:Ec; auto. exfalso.
      assert (C : In v0 (continuations (p ++ [y]) ws)) by (rewrite Ec; left; reflexivity). apply in_continuations in C. rewrite <- app_assoc in C.
      apply Hlab in C. lia. }
  destruct (add_letters_spec (y :: r) _ _ _ _ _ _ _ Ha) as (h2 & u2 & i2 & ad2 & E2 & -> & Hd & F2 & U2).
  unfold insert. unfold slt in Hw. rewrite Hw. unfold insert_body. fold k. rewrite E1. cbn [bind]. rewrite Sk.
  change (match unchecked g1 with [] => root g1 | (_, _, child) :: _ => child end) with (top (root g1) (unchecked g1)). rewrite E2. cbn [bind].
  destruct Hd as [HL HN HLt HR HS (nd & (K1 & K2 & K3 & K4) & K5 & K6 & K7) HW HF HM].
  unfold get_node. rewrite K1. cbn [bind]. set (t := top (root g1) u2) in *.
  set (nd' := {| terminal := 1; edges := edges nd; leaf_count := leaf_count nd; final_edges := final_edges nd |}).
  assert (Lt : t < length h2). { rewrite Forall_forall in HLt. apply HLt, in_app_iff. left. apply top_in_path. }
  eexists. exists (addr ++ ad2). split; [reflexivity|]. cbn [unchecked previous data]. split.
  2:{ split; [|split; [reflexivity|rewrite D1; reflexivity]]. rewrite U2, L1. rewrite Ew, app_length, Lp. reflexivity. }
  split; cbn [nodes root unchecked minimized previous].
  - unfold set_node. rewrite list_set_length. exact HL.
  - exact HN.
  - unfold set_node. rewrite list_set_length. exact HLt.
  - exact HR.
  - eapply stack_frame; [exact Lt|reflexivity| |exact HS].
    rewrite (stack_parents _ _ _ _ _ _ HS). unfold t. destruct u2 as [|[[a1 l1] b1] rest]; [intros []|]. cbn [top path map tl app].
    cbn [path map app] in HN. inversion HN as [|? ? X _]; subst. intros C. apply X. apply in_app_iff. left. exact C.
  - exists nd'. fold t. split; [|exact K5]. split; [|split; [|split]]; auto.
    + unfold set_node. rewrite nth_error_list_set by auto. destruct (Nat.eq_dec t t); [reflexivity|congruence].
    + unfold node_lang. cbn [nd' terminal edges Nat.eqb]. rewrite K6. cbn [flat_map app]. unfold Lg. rewrite continuations_app.
      pose proof (continuations_one_some _ w [] HW) as C1. unfold Lg in HF. unfold str in *. fold t in HF. rewrite C1, HF. reflexivity.
    + split; [apply K4|split; [apply K4|cbn; lia]].
  - intros key m Hm. destruct (b_min _ _ _ _ Hb2 key m Hm) as (mn & (M1 & M2 & M3 & M4) & M5 & M6 & M7 & M8 & M9). exists mn.
    assert (HmM : In m (map snd (minimized g1))) by (apply in_map_iff; exists (key, m); auto).
    assert (Hlt1 : forall i, In i (map snd (minimized g1)) -> i < length addr).
    { intros i Hi. rewrite (b_len _ _ _ _ Hb2). pose proof (b_lt _ _ _ _ Hb2) as X. rewrite Forall_forall in X. apply X, in_app_iff. auto. }
    assert (HLg : forall i, In i (map snd (minimized g1)) -> Lg (addr ++ ad2) (ws ++ [w]) i = Lg addr ws i).
    { intros i Hi. unfold Lg. rewrite A_app_many by auto. rewrite continuations_app, (continuations_one_none _ w), app_nil_r; auto. }
    rewrite A_app_many by auto. rewrite HLg by auto. split; [|repeat (split; auto)].
    + split; [|split; [|auto]].
      * unfold set_node. rewrite nth_error_list_set by auto. destruct (Nat.eq_dec m t) as [->|]; [|rewrite F2; auto].
        exfalso. apply (NoDup_app_disj _ _ HN t); [apply top_in_path|exact HmM].
      * rewrite HLg by auto. rewrite <- M2. apply node_lang_ext. intros e He. apply HLg, M6, He.
    + intros w' Hw'. apply M9. right. exact Hw'.
  - apply (b_wf _ _ _ _ Hb2).
  - exists []. rewrite app_nil_r. fold t. rewrite <- (app_nil_r (A _ t)). exact HW.
  - clear - Hso Hmax Hw. induction ws as [|a ws IH]; [repeat constructor|]. cbn [app]. inversion Hso; subst. constructor.
    + apply IH; auto. intros x Hx. apply Hmax. right. exact Hx.
    + apply Forall_app. split; auto. constructor; auto. destruct (Hmax a (or_introl eq_refl)) as [->|H]; [exact Hw|eapply slt_trans; eauto].
  - right. exists ws. reflexivity.
Qed.

Lemma init_spec : built (dawg_init (D := D)) [[]] [] (later []) /\ length (unchecked (dawg_init (D := D))) = length (previous (dawg_init (D := D))).
Proof.
  split; [|reflexivity]. split; cbn [dawg_init nodes root unchecked minimized previous path map app top]; auto.
  - constructor; [intros []|constructor].
  - cbn [stack_ok]. auto.
  - exists new_node. split; [|intros e []]. split; [reflexivity|]. split; [reflexivity|]. split; [constructor|split; [reflexivity|split; [reflexivity|cbn; lia]]].
  - intros key m [].
  - constructor.
  - exists []. reflexivity.
  - constructor.
Qed.
End Build.
