(** Property theorems about the handles of the CUDA libraries and the initial guess on the device: C94, C95. *)
From Coq Require Import List Arith ZArith Bool Lia Permutation QArith Qcanon.
From Verif Require Import Base OField M_Eig P_Eig M_Handle S_Handle P_Handle S_Par.
Import ListNotations.
Set Implicit Arguments.
Open Scope list_scope.
Open Scope nat_scope.

(** C94: a program that destroys and uses CudaHandle objects only while they exist never destroys or uses a library handle that does not exist; at every moment exactly the
    handles held by the existing objects exist, and every handle created exists or has been destroyed exactly once.  In debug it ends with an abort if a
    creation fails, and only then; in release it always runs on. *)
Theorem C94_safe : forall debug l, scoped [] l ->
  (exists s, crun debug l c_start = Ok s /\ map fst (c_objs s) = alive_after [] l /\
     (forall r, In r (c_live s) <-> exists id h, In (id, h) (c_objs s) /\ holds h r) /\
     Permutation (map snd (c_live s ++ c_gone s)) (seq 0 (c_next s)) /\ (all_created l -> length (c_used s) = calls l) /\ (debug = true -> all_created l)) \/
  (debug = true /\ ~ all_created l /\ crun debug l c_start = Abort).
Proof.
  intros debug l SC. assert (I0 : inv [] c_start) by (split; [reflexivity|split; [constructor|split; constructor]]).
  destruct (@run_spec debug l [] c_start SC I0) as [(s & E & (I1 & _ & I3 & I4) & L & AC0)|H]; [intros _ id h lb []| |right; exact H].
  left. exists s. split; [exact E|]. split; [exact I1|]. split; [|split; [exact I4|split; [intros AC; rewrite L; [cbn; lia|]; split; [intros id h lb []|exact AC]|exact AC0]]].
  intros r. split.
  - intros I. eapply Permutation_in in I; [|exact I3]. apply in_flat_map in I. destruct I as ([id h] & J & I). exists id, h. split; [exact J|apply holds_list; exact I].
  - intros (id & h & J & I). eapply Permutation_in; [apply Permutation_sym; exact I3|]. apply in_flat_map. exists (id, h). split; [exact J|apply holds_list; exact I].
Qed.

(** C94: when all objects are gone, all handles created have been destroyed, each once. *)
Theorem C94_released : forall debug l s, scoped [] l -> alive_after [] l = [] -> crun debug l c_start = Ok s ->
  c_live s = [] /\ Permutation (map snd (c_gone s)) (seq 0 (c_next s)).
Proof.
  intros debug l s SC AL E. destruct (C94_safe debug l SC) as [(s' & E' & O & L & P & _)|(_ & _ & E')]; rewrite E in E'; [|discriminate]. injection E' as <-.
  rewrite AL in O. apply map_eq_nil in O. assert (LV : c_live s = []).
  { destruct (c_live s) as [|r live]; [reflexivity|]. destruct (proj1 (L r) (or_introl eq_refl)) as (id & h & I & _). rewrite O in I. destruct I. }
  rewrite LV in P. split; [exact LV|exact P].
Qed.

(** C94: the copy constructor is deleted but the assignment is not: after an assignment a handle is destroyed twice, and the handles the object had before are never destroyed. *)
Theorem C94_assign_refuted : exists l, (forall debug, crun debug l c_start = UB) /\
  exists s, crun true (firstn 4 l) c_start = Ok s /\ c_find 0 (c_objs s) <> None /\ exists r, In r (c_live s) /\ forall id h, In (id, h) (c_objs s) -> ~ holds h r.
Proof.
  exists [CNew 0 true true true; CNew 1 true true true; CAssign 0 1; CDelete 1; CDelete 0]. split; [intros []; reflexivity|].
  eexists. split; [vm_compute; reflexivity|]. split; [discriminate|]. exists (LDn, 0). split; [right; right; left; reflexivity|]. intros id h [E|[]]. injection E as _ <-. discriminate.
Qed.
(** C94: in a release build a failed creation goes unnoticed, and the calls that need the handle do nothing. *)
Theorem C94_failure_refuted : exists l s, scoped [] l /\ crun false l c_start = Ok s /\ calls l = 1 /\ c_used s = [] /\ crun true l c_start = Abort.
Proof.
  exists [CNew 0 true true false; CUse 0 LCs; CDelete 0]. eexists. split; [cbn; intuition|]. split; [vm_compute; reflexivity|]. split; [reflexivity|]. split; reflexivity.
Qed.

Section CGuess.
  Variable K : ofield.
  (** C95: set_initial_guess on the device gives what it gives on the host, entry by entry, whatever part of the vector a process owns. *)
  Theorem C95_same_guess : forall (draw : nat -> K) is_constrained n owned, (forall g, In g owned -> g < n) ->
    @device_guess K draw is_constrained n owned = map (fun g => (g, nth g (evaluator_guess draw is_constrained n) 0%K)) owned.
  Proof.
    intros draw con n owned H. unfold device_guess. apply map_ext_in. intros g I. f_equal. rewrite rw_fill_spec. specialize (H g I).
    destruct (Nat.ltb_spec g (0 + n)); [|cbn in *; lia]. cbn [Nat.leb andb]. rewrite Nat.sub_0_r. reflexivity.
  Qed.
  (** C95: it vanishes at the constrained dofs; at the others it is the next number of the generator, whose calls count the unconstrained dofs of all processes
      before it. *)
  Theorem C95_values : forall (draw : nat -> K) is_constrained n owned g v, (forall h, In h owned -> h < n) -> In (g, v) (@device_guess K draw is_constrained n owned) ->
    v = if is_constrained g then 0%K else draw (length (filter (fun j => negb (is_constrained j)) (seq 0 g))).
  Proof.
    intros draw con n owned g v H I. rewrite C95_same_guess in I by exact H. apply in_map_iff in I. destruct I as (g' & E & I). injection E as -> <-.
    destruct (guess_from_spec K draw con n 0 0) as [_ S]. apply S. apply H. exact I.
  Qed.
End CGuess.

Print Assumptions C94_safe.
Print Assumptions C94_released.
Print Assumptions C94_assign_refuted.
Print Assumptions C94_failure_refuted.
Print Assumptions C95_same_guess.
Print Assumptions C95_values.

(** * Examples *)
(** Two objects whose lives overlap; the program of C94: six handles created and destroyed, two calls made. *)
Definition cprog : list cop := [CNew 0 true true true; CUse 0 LCs; CNew 1 true true true; CDelete 0; CUse 1 LDn; CDelete 1].
Example C94_example : scoped [] cprog /\ all_created cprog /\ alive_after [] cprog = [] /\
  exists s, crun true cprog c_start = Ok s /\ c_live s = [] /\ c_gone s = [(LDn, 3); (LSp, 4); (LCs, 5); (LDn, 0); (LSp, 1); (LCs, 2)] /\ c_used s = [(LDn, 3); (LCs, 2)].
Proof.
  split; [cbn; intuition; discriminate|]. split; [intros id dn sp cs I; cbn in I; repeat destruct I as [I|I]; try discriminate I; try (injection I as <- <- <- <-; auto); destruct I|].
  split; [reflexivity|]. eexists. split; [vm_compute; reflexivity|]. split; [reflexivity|]. split; reflexivity.
Qed.
(** Five dofs, the second is constrained, on two processes. *)
Example C95_example : map (@device_guess QcOF (fun c => Q2Qc (inject_Z (Z.of_nat c + 1)) : QcOF) (fun i => i =? 1) 5) [[0; 1; 2]; [3; 4]] =
  [[(0, Q2Qc 1); (1, Q2Qc 0); (2, Q2Qc 2)]; [(3, Q2Qc 3); (4, Q2Qc 4)]].
Proof. reflexivity. Qed.
