(** Model of CudaHandle: creation, destruction and use of the handles of the CUDA libraries; and of the initial guess on the device.  Definitions only.
    ch = source/cuda/cuda_handle.cu, hh = include/mfmg/cuda/cuda_handle.cuh, ex = include/mfmg/common/exceptions.hpp,
    ce = source/cuda/cuda_matrix_free_mesh_evaluator.cu. *)
From Coq Require Import List Arith Bool.
From Verif Require Import Base OField M_Eig.
Import ListNotations.
Set Implicit Arguments.
Open Scope list_scope.
Open Scope nat_scope.

(** The three libraries (hh:43-47). *)
Inductive lib := LDn | LSp | LCs.
(** Equality of libraries (no counterpart in /repo). *)
Definition lib_eqb (a b : lib) : bool := match a, b with LDn, LDn | LSp, LSp | LCs, LCs => true | _, _ => false end.
(** A resource of a library: the library and a number; every creation gives a new number (cusolverDnCreate, cusolverSpCreate, cusparseCreate; external). *)
Definition resource := (lib * nat)%type.
(** Equality of resources (no counterpart in /repo). *)
Definition res_eqb (a b : resource) : bool := lib_eqb (fst a) (fst b) && (snd a =? snd b).
(** The members of a CudaHandle (hh:43-47): [None] is nullptr. *)
Record handles := mkHandles { h_dn : option nat; h_sp : option nat; h_cs : option nat }.
(** What the libraries know: the next number, the resources that exist, those that have been destroyed (latest first), and those a call has used (latest
    first); what the program has: the CudaHandle objects by name. *)
Record cstate := mkC { c_next : nat; c_live : list resource; c_gone : list resource; c_used : list resource; c_objs : list (nat * handles) }.
(** Start of the program (no counterpart in /repo). *)
Definition c_start : cstate := mkC 0 [] [] [] [].

(** cusolverDnCreate and the like with ASSERT_CUSOLVER / ASSERT_CUSPARSE (ch:22-29; ex:212-228): [ok] is whether the library succeeds; a failure aborts in
    debug and leaves the nullptr of ch:18-19 in release. *)
Definition create (debug ok : bool) (l : lib) (s : cstate) : outcome (option nat * cstate) :=
  if ok then Ok (Some (c_next s), mkC (S (c_next s)) ((l, c_next s) :: c_live s) (c_gone s) (c_used s) (c_objs s))
  else if debug then Abort else Ok (None, s).
(** cusolverDnDestroy and the like, guarded by the nullptr test (ch:34-39, 41-47, 49-55).  To destroy what does not exist is undefined. *)
Definition destroy (l : lib) (p : option nat) (s : cstate) : outcome cstate :=
  match p with
  | None => Ok s
  | Some k =>
    if existsb (res_eqb (l, k)) (c_live s)
    then Ok (mkC (c_next s) (filter (fun r => negb (res_eqb (l, k) r)) (c_live s)) ((l, k) :: c_gone s) (c_used s) (c_objs s))
    else UB
  end.
(** The object with this name (no counterpart in /repo: the C++ variable). *)
Fixpoint c_find (id : nat) (objs : list (nat * handles)) : option handles :=
  match objs with [] => None | (i, h) :: r => if i =? id then Some h else c_find id r end.
(** The other objects (no counterpart in /repo). *)
Definition c_drop (id : nat) (objs : list (nat * handles)) : list (nat * handles) := filter (fun o => negb (fst o =? id)) objs.
(** Member of a library (hh:43-47). *)
Definition member (l : lib) (h : handles) : option nat := match l with LDn => h_dn h | LSp => h_sp h | LCs => h_cs h end.

(** What a program does with CudaHandle objects: the constructor (with the outcomes of the three creations), the destructor, a library call through a
    reference as solvers, evaluators and matrices make it (source/cuda/cuda_solver.cu:62-68), and the assignment the compiler provides because only the copy
    constructor is deleted (hh:35). *)
Inductive cop := CNew (id : nat) (dn sp cs : bool) | CDelete (id : nat) | CUse (id : nat) (l : lib) | CAssign (dst src : nat).

(** CudaHandle::CudaHandle, ch:17-30. *)
Definition construct_handle (debug : bool) (id : nat) (dn sp cs : bool) (s : cstate) : outcome cstate :=
  let! r1 := create debug dn LDn s in
  let! r2 := create debug sp LSp (snd r1) in
  let! r3 := create debug cs LCs (snd r2) in
  let t := snd r3 in
  Ok (mkC (c_next t) (c_live t) (c_gone t) (c_used t) ((id, mkHandles (fst r1) (fst r2) (fst r3)) :: c_objs t)).
(** CudaHandle::~CudaHandle, ch:32-56. *)
Definition destruct_handle (id : nat) (h : handles) (s : cstate) : outcome cstate :=
  let! s1 := destroy LCs (h_cs h) s in
  let! s2 := destroy LSp (h_sp h) s1 in
  let! s3 := destroy LDn (h_dn h) s2 in
  Ok (mkC (c_next s3) (c_live s3) (c_gone s3) (c_used s3) (c_drop id (c_objs s3))).
(** One step of a program (ch:17-56; source/cuda/cuda_solver.cu:62-68 for the calls).  A call with a nullptr is refused by the library: an assertion in debug,
    ignored in release. *)
Definition cstep (debug : bool) (o : cop) (s : cstate) : outcome cstate :=
  match o with
  | CNew id dn sp cs => construct_handle debug id dn sp cs s
  | CDelete id => match c_find id (c_objs s) with Some h => destruct_handle id h s | None => UB end
  | CUse id l =>
    match c_find id (c_objs s) with
    | None => UB
    | Some h =>
      match member l h with
      | None => if debug then Abort else Ok s
      | Some k => if existsb (res_eqb (l, k)) (c_live s) then Ok (mkC (c_next s) (c_live s) (c_gone s) ((l, k) :: c_used s) (c_objs s)) else UB
      end
    end
  | CAssign d src =>
    match c_find d (c_objs s), c_find src (c_objs s) with
    | Some _, Some h => Ok (mkC (c_next s) (c_live s) (c_gone s) (c_used s) (map (fun o => if fst o =? d then (d, h) else o) (c_objs s)))
    | _, _ => UB
    end
  end.
(** A program (no counterpart in /repo). *)
Fixpoint crun (debug : bool) (l : list cop) (s : cstate) : outcome cstate :=
  match l with [] => Ok s | o :: r => let! s' := cstep debug o s in crun debug r s' end.

Section DeviceGuess.
  Variable K : ofield.
  (** The loop ce:60-64 filling rw_vector: entry i and the state of the generator; [draw c] is call number c of a generator made in ce:57. *)
  Fixpoint rw_fill (draw : nat -> K) (is_constrained : nat -> bool) (k i calls : nat) (rw : nat -> K) : nat -> K :=
    match k with
    | 0 => rw
    | S k' =>
      if is_constrained i then rw_fill draw is_constrained k' (S i) calls (fun j => if j =? i then 0%K else rw j)
      else rw_fill draw is_constrained k' (S i) (S calls) (fun j => if j =? i then draw calls else rw j)
    end.
  (** CudaMatrixFreeMeshEvaluator::set_initial_guess (ce:48-67) on one rank: [n] is the global size of x (ce:55), [owned] the indices the rank stores; import
      with insert (ce:66) sets these. *)
  Definition device_guess (draw : nat -> K) (is_constrained : nat -> bool) (n : nat) (owned : list nat) : list (nat * K) :=
    let rw := rw_fill draw is_constrained n 0 0 (fun _ => 0%K) in
    map (fun g => (g, rw g)) owned.
End DeviceGuess.
