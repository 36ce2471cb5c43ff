(** Specification of device matrices as values, without pointers: independent of the functions in M_Dev (only the list of operations is shared). *)
From Coq Require Import List Arith Bool.
From Verif Require Import Base OField M_Csr M_Dev.
Import ListNotations.
Set Implicit Arguments.
Open Scope nat_scope.

Section S.
  Variable K : ofield.
  (** A matrix as the user thinks of it: default constructed, empty after a move, or holding data, with or without handle and descriptor. *)
  Inductive value : Type := VDefault | VEmpty | VMatrix (c : csr K) (handle descr : bool).
  (** The arrays have the lengths that the counts announce. *)
  Definition sound_csr (c : csr K) : Prop :=
    length (c_val c) = c_nnz c /\ length (c_col c) = c_nnz c /\ length (c_ptr c) = length (c_range c) + 1.
  (** The object with this number exists and has this value. *)
  Definition has (vs : list (option value)) (i : nat) (v : value) : Prop := nth_error vs i = Some (Some v).
  (** Device allocations that a matrix needs: buffers without elements are not allocated. *)
  Definition buffers (v : value) : nat := match v with VMatrix c _ _ => (if c_nnz c =? 0 then 0 else 2) + 1 | _ => 0 end.
  (** The same with the descriptor. *)
  Definition needs (v : value) : nat := buffers v + match v with VMatrix _ _ true => 1 | _ => 0 end.
  (** All allocations needed by the existing objects. *)
  Definition all_needs (vs : list (option value)) : nat := list_sum (map (fun o => match o with Some v => needs v | None => 0 end) vs).

  (** The effect of one operation on the values, and the number of allocations that nobody owns any more afterwards. *)
  Inductive effect (debug : bool) (gemm : csr K -> csr K -> csr K) : list (option value) -> op K -> list (option value) -> nat -> Prop :=
  | EDefault : forall vs, effect debug gemm vs ODefault (vs ++ [Some VDefault]) 0
  | ENew : forall vs c w, sound_csr c -> effect debug gemm vs (ONew c w) (vs ++ [Some (VMatrix c w w)]) 0
  | ECopy : forall vs i c w e, has vs i (VMatrix c w e) -> effect debug gemm vs (OCopy i) (vs ++ [Some (VMatrix c w true)]) 0
  | EMove : forall vs i v, has vs i v -> v <> VDefault -> effect debug gemm vs (OMove i) (upd vs i (Some VEmpty) ++ [Some v]) 0
  | EAssign : forall vs i j v w, has vs i w -> has vs j v -> v <> VDefault ->
      effect debug gemm vs (OAssign i j) (upd (upd vs i (Some v)) j (Some VEmpty)) (needs w)
  | EReinit : forall vs i v c, has vs i v -> sound_csr c -> (debug = true -> buffers v = 0) ->
      effect debug gemm vs (OReinit i c) (upd vs i (Some (VMatrix c true true))) (needs v)
  | EAttach : forall vs i c w e, has vs i (VMatrix c w e) ->
      effect debug gemm vs (OAttach i) (upd vs i (Some (VMatrix c true true))) (if e then 1 else 0)
  | EVmult : forall vs i c size, has vs i (VMatrix c true true) -> effect debug gemm vs (OVmult i size) vs (if size =? 0 then 0 else 2)
  | EMultSerial : forall vs a b c ca cb cc w w' e, has vs a (VMatrix ca true true) -> has vs b (VMatrix cb w' true) -> has vs c (VMatrix cc w e) ->
      a <> c -> b <> c -> e = true -> (debug = true -> c_m cb = c_n ca) ->
      sound_csr (gemm ca cb) -> c_m (gemm ca cb) = c_m ca -> c_n (gemm ca cb) = c_n cb -> c_range (gemm ca cb) = c_range ca ->
      c_domain (gemm ca cb) = c_domain cb ->
      effect debug gemm vs (OMult a b c None) (upd vs c (Some (VMatrix (gemm ca cb) w e))) 0
  | EMultParallel : forall vs a b c ca cb cc w w1 w2 e e1 e2 r, has vs a (VMatrix ca w1 e1) -> has vs b (VMatrix cb w2 e2) ->
      has vs c (VMatrix cc w e) -> (debug = true -> c_m cb = c_n ca) -> sound_csr r ->
      effect debug gemm vs (OMult a b c (Some r)) (upd vs c (Some (VMatrix r w e))) (buffers (VMatrix cc w e))
  | EDelete : forall vs i v, has vs i v -> effect debug gemm vs (ODelete i) (upd vs i None) 0.
  (** A whole program, with the total number of lost allocations. *)
  Inductive effects (debug : bool) (gemm : csr K -> csr K -> csr K) : list (option value) -> list (op K) -> list (option value) -> nat -> Prop :=
  | ENil : forall vs, effects debug gemm vs [] vs 0
  | ECons : forall vs o vs1 n1 ops vs2 n2, effect debug gemm vs o vs1 n1 -> effects debug gemm vs1 ops vs2 n2 ->
      effects debug gemm vs (o :: ops) vs2 (n1 + n2).

  (** The content behind a pointer: a null pointer stands for no elements. *)
  Definition values_at (h : heap K) (p : pointer) (l : list K) : Prop :=
    match p with Some id => lookup h id = Some (CVals l) /\ l <> [] | None => l = [] end.
  (** The same for indices. *)
  Definition indices_at (h : heap K) (p : pointer) (l : list nat) : Prop :=
    match p with Some id => lookup h id = Some (CInts l) /\ l <> [] | None => l = [] end.
  (** The object has this value. *)
  Definition represents (h : heap K) (d : device) (v : value) : Prop :=
    match v with
    | VDefault => d = default_device
    | VEmpty => d = moved_from
    | VMatrix c w e =>
        sound_csr c /\ values_at h (d_val d) (c_val c) /\ indices_at h (d_col d) (c_col c) /\ indices_at h (d_ptr d) (c_ptr c) /\
        d_handle d = w /\ match d_descr d with Some id => e = true /\ lookup h id = Some CDescr | None => e = false end /\
        d_lnnz d = Some (c_nnz c) /\ d_nnz d = Some (c_nnz c) /\ d_m d = c_m c /\ d_n d = c_n c /\ d_range d = c_range c /\ d_domain d = c_domain c
    end.
  (** All objects have their values. *)
  Definition all_represent (s : state K) (vs : list (option value)) : Prop :=
    length (s_objects s) = length vs /\
    forall i, match nth_error vs i with
              | Some (Some v) => exists d, nth_error (s_objects s) i = Some (Some d) /\ represents (s_heap s) d v
              | Some None => nth_error (s_objects s) i = Some None
              | None => True
              end.
  (** Number of live allocations. *)
  Definition outstanding (s : state K) : nat := length (h_cells (s_heap s)).
End S.
Arguments VDefault {K}.
Arguments VEmpty {K}.
Arguments VMatrix {K} _ _ _.
Arguments sound_csr {K} c.
Arguments has {K} vs i v.
Arguments buffers {K} v.
Arguments needs {K} v.
Arguments all_needs {K} vs.
Arguments effect {K} debug gemm _ _ _ _.
Arguments effects {K} debug gemm _ _ _ _.
Arguments represents {K} h d v.
Arguments all_represent {K} s vs.
Arguments outstanding {K} s.
Arguments values_at {K} h p l.
Arguments indices_at {K} h p l.
