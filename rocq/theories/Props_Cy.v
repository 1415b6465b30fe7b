(** Theorems about experiments/emd_1d_cython.pyx: properties C66 and C67. *)
From Coq Require Import ZArith QArith Qcanon List Bool Permutation Lia.
From Verif Require Import Num Py Float64 EmdSpec EmdModel EmdProofs EmdFloatProofs CyModel CyProofs Ex.
Import ListNotations.
Open Scope Qc_scope.

(** *** C66: memory *)

(** Whatever the arguments, the rounding, and the calls of [malloc] that
    fail: nothing undefined happens and all memory is freed, whether the
    function returns or raises; it raises a MemoryError only if a call of
    [malloc] fails, and another exception only for an element that is not a
    number. *)
Theorem cython_memory_safe : forall rnd succeeds px py,
  exists s, (forall p, blocks s p = None) /\
  ((exists d, emd_1d_dp_cython rnd succeeds px py empty_mem = Done d s) \/
   emd_1d_dp_cython rnd succeeds px py empty_mem = Raised MemoryError s /\ (exists k, (k < 4)%nat /\ succeeds k = false) \/
   emd_1d_dp_cython rnd succeeds px py empty_mem = Raised BadElement s /\ (In None px \/ In None py)).
Proof.
  intros rnd succeeds px py. destruct (cython_spec rnd succeeds px py) as (s & F & E). exists s. split; [exact F|]. rewrite E.
  assert (Bad : forall l, all_numbers l = None -> In None l).
  { induction l as [|[q|] l IH]; cbn [all_numbers]; [discriminate| |left; reflexivity]. destruct (all_numbers l); [discriminate|]. right. auto. }
  destruct (succeeds 0%nat) eqn:S0; [|right; left; split; auto; exists 0%nat; split; [lia|auto]].
  destruct (all_numbers px) eqn:Ex; [|right; right; auto].
  destruct (succeeds 1%nat) eqn:S1; [|right; left; split; auto; exists 1%nat; split; [lia|auto]].
  destruct (all_numbers py) eqn:Ey; [|right; right; auto].
  destruct (succeeds 2%nat) eqn:S2; [|right; left; split; auto; exists 2%nat; split; [lia|auto]].
  destruct (succeeds 3%nat) eqn:S3; [|right; left; split; auto; exists 3%nat; split; [lia|auto]].
  left. eexists. reflexivity.
Qed.
Print Assumptions cython_memory_safe.

Definition value_of {A} (r : outcome A) : option A := match r with Done a _ => Some a | _ => None end.

Example cython_memory_case :
  let run := emd_1d_dp_cython exact in
  let px := [Some (f 7 8); Some (f 0 1); Some (f 1 2)] in let py := [Some (f 1 1); Some (f 1 4)] in
  match run (fun _ => true) px py empty_mem with Done d _ => qeqb d (f 11 8) | _ => false end = true /\
  (forall k, (k < 4)%nat -> match run (fun i => negb (Nat.eqb i k)) px py empty_mem with Raised MemoryError _ => True | _ => False end) /\
  match run (fun _ => true) px [Some (f 1 1); None] empty_mem with Raised BadElement _ => True | _ => False end.
Proof.
  intros run px py. split; [vm_compute; reflexivity|]. split; [|vm_compute; exact I].
  intros k Hk. destruct k as [|[|[|[|k]]]]; try (vm_compute; exact I). lia.
Qed.

(** *** C67: the value *)

(** For arguments that are doubles (here: not changed by the rounding) and
    enough memory, the result is that of the Python version, bit for bit. *)
Theorem cython_agrees : forall rnd succeeds qx qy,
  Forall (fun q => rnd q = q) qx -> Forall (fun q => rnd q = q) qy -> (forall k, (k < 4)%nat -> succeeds k = true) ->
  exists d s, emd_1d_dp_cython rnd succeeds (map Some qx) (map Some qy) empty_mem = Done d s /\ emd_1d_dp rnd qx qy = Ok d.
Proof.
  intros rnd succeeds qx qy Fx Fy S. destruct (cython_spec rnd succeeds (map Some qx) (map Some qy)) as (s & F & E).
  rewrite !S in E by lia. cbn [andb] in E.
  rewrite (proj2 (all_numbers_map (map Some qx) qx) eq_refl), (proj2 (all_numbers_map (map Some qy) qy) eq_refl) in E.
  assert (Id : forall l, Forall (fun q => rnd q = q) l -> map rnd l = l) by (induction 1; cbn [map]; congruence).
  rewrite !Id in E by auto. eexists. exists s. split; [exact E|]. apply emd_1d_dp_edp_swapped.
Qed.
Print Assumptions cython_agrees.

(** Exact arithmetic: the optimum. *)
Corollary cython_optimal : forall succeeds qx qy, (forall k, (k < 4)%nat -> succeeds k = true) ->
  exists d s, emd_1d_dp_cython exact succeeds (map Some qx) (map Some qy) empty_mem = Done d s /\ is_emd qx qy d.
Proof.
  intros succeeds qx qy S. destruct (cython_agrees exact succeeds qx qy) as (d & s & E & D); auto.
  { apply Forall_forall. reflexivity. } { apply Forall_forall. reflexivity. }
  exists d, s. split; [exact E|]. rewrite emd_1d_dp_exact in D. injection D as <-. apply emd_is_emd.
Qed.
Print Assumptions cython_optimal.

(** Python ints that are not doubles are rounded before the subtraction: the
    Cython version finds no difference between 2^53 and 2^53 + 1. *)
Theorem cython_integers_refuted : exists a b : Z, exists d s,
  emd_1d_dp_cython rnd64 (fun _ => true) [Some (qz a)] [Some (qz b)] empty_mem = Done d s /\ emd_1d_dp rnd64 [qz a] [qz b] <> Ok d.
Proof.
  exists (2 ^ 53)%Z, (2 ^ 53 + 1)%Z. destruct (cython_spec rnd64 (fun _ => true) [Some (qz (2 ^ 53))] [Some (qz (2 ^ 53 + 1))]) as (s & _ & E).
  cbn [all_numbers andb] in E. eexists. exists s. split; [exact E|]. intros C.
  assert (X : qeqb (edp rnd64 (rev (qsort (map rnd64 [qz (2 ^ 53)]))) (rev (qsort (map rnd64 [qz (2 ^ 53 + 1)])))) 0 = true) by (vm_compute; reflexivity).
  assert (Y : is_val (emd_1d_dp rnd64 [qz (2 ^ 53)] [qz (2 ^ 53 + 1)]) 1 = true) by (vm_compute; reflexivity).
  rewrite C in Y. cbn [List.length Nat.ltb Nat.leb] in Y. unfold is_val in Y. apply qeqb_eq in X, Y. rewrite X in Y. vm_compute in Y. discriminate.
Qed.
Print Assumptions cython_integers_refuted.

Example cython_agrees_case :
  let q := map rnd64 [f 1 3; f 2 3] in
  Forall (fun a => rnd64 a = a) q /\ value_of (emd_1d_dp_cython rnd64 (fun _ => true) (map Some q) [Some (f 1 2)] empty_mem) <> None.
Proof.
  split; [|vm_compute; discriminate]. apply Forall_forall. intros a Ha. cbn [map In] in Ha.
  destruct Ha as [<-|[<-|[]]]; apply qeqb_eq; vm_compute; reflexivity.
Qed.
