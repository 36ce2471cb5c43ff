(** Specification of the hierarchy on the device: what its levels stand for, and what may change between two calls. *)
From Coq Require Import String List Arith ZArith Bool.
From Verif Require Import Base OField Mat M_Ptree M_Hier S_Hier M_Host M_SpProd S_SpProd M_Csr S_Csr M_Dev M_CudaOp S_CudaOp M_DevSolve S_DevSolve M_CudaHier.
Import ListNotations.
Set Implicit Arguments.
Open Scope nat_scope.

Section S.
  Variable K : ofield.
  Notation vec := (vec K).
  (** The vector x, distributed over the ranks. *)
  Definition spread (owned : list (list nat)) (x : vec) : dvec K := mkDvec owned (scatter owned x).
  (** Any order of the threads and any contents of the buffers, in every product. *)
  Definition any_conditions (cond : conditions K) : Prop := forall product size, any_environment size (cond product size).
  (** The same matrices and operators, possibly with more transposes. *)
  Definition keeps (s s' : cuda_state K) : Prop :=
    (exists more, u_mats s' = (u_mats s ++ more)%list) /\
    forall k o, nth_error (u_ops s) k = Some o -> exists o', nth_error (u_ops s') k = Some o' /\ o_mat o' = o_mat o.
  (** The memory of all ranks is as before. *)
  Definition memory_kept (hs hs' : list (heap K)) : Prop := Forall2 (fun h h' => same_memory h h' /\ allocator_ok h') hs hs'.
  (** A solver that computes C(b, x) and leaves the rest alone, whenever it is called after state s. *)
  Definition solver_acts (s : cuda_state K) (f : dev_solver K) (owned : list (list nat)) (n : nat) (C : vec -> vec -> vec) : Prop :=
    forall d b x, keeps s (d_ops d) -> Forall (@allocator_ok K) (d_heaps d) -> length (d_heaps d) = length owned -> length b = n -> length x = n ->
      exists hs, f (spread owned b) (spread owned x) d = Ok (spread owned (C b x), mkDevice (d_ops d) hs (d_products d)) /\
        memory_kept (d_heaps d) hs /\ length (C b x) = n.
  (** The levels consist of operators that stand for matrices, distributed smoothers and a solver, as described by [ds] and [C]. *)
  Inductive dev_describes (s : cuda_state K) (ms : list (meaning K))
    : dev_level K -> list (dev_level K) -> list (list nat) -> list (fine K) -> nat -> (vec -> vec -> vec) -> Prop :=
  | dev_coarsest : forall lv k A owned cached f nc0 C,
      dl_op lv = Some k -> nth_error ms k = Some (mkMeaning A owned owned cached true) -> nr A = nc0 -> nc A = nc0 ->
      dl_solver lv = Some f -> solver_acts s f owned nc0 C -> dev_describes s ms lv [] owned [] nc0 C
  | dev_fine : forall lv lc rest k r A R S owned owned' ca cr sm ds nc0 C,
      dl_op lv = Some k -> nth_error ms k = Some (mkMeaning A owned owned ca true) -> nr A = nc A ->
      dl_smoother lv = Some sm -> sm_op sm = k -> m_handle (sm_matrix sm) = true -> m_descr (sm_matrix sm) = true ->
      distributed_as (m_parts (sm_matrix sm)) owned S -> nr S = nc A -> nc S = nc A ->
      dl_restrictor lc = Some r -> nth_error ms r = Some (mkMeaning R owned' owned cr true) -> nc R = nc A -> nr R = top_size ds nc0 ->
      no_zero_rank owned (mtrans R) -> dev_describes s ms lc rest owned' ds nc0 C ->
      dev_describes s ms lv (lc :: rest) owned
        (mkFine (nc A) (mulvec A) (correction_step (mulvec A) (mulvec S)) (mulvec R) (mulTvec R) :: ds) nc0 C.
  (** Calls of vmult: what x and b are. *)
  Definition vmult_requests (owned : list (list nat)) (qs : list (vec * vec)) : list (dvec K * dvec K) :=
    map (fun q => (spread owned (fst q), spread owned (snd q))) qs.
  (** One step of Jacobi's method: x + D^-1 (b - A x). *)
  Definition jacobi_step (A : mat K) (b x : vec) : vec :=
    map (fun i => (nth i x 0 + (nth i b 0 - nth i (mulvec A x) 0) / ent A i i)%K) (seq 0 (nc A)).
  (** The two-grid method: k steps of Jacobi, the exact solution of the Galerkin system, k steps of Jacobi. *)
  Definition two_grid (A R : mat K) (k : nat) (b x y : vec) : Prop :=
    let x1 := iter k (jacobi_step A b) x in
    exists e, length e = nr R /\ mulvec (mmul R (mmul A (mtrans R))) e = mulvec R (vsub b (mulvec A x1)) /\
      y = iter k (jacobi_step A b) (vadd x1 (mulTvec R e)).
  (** The matrix stores the diagonal of every row, and every column once. *)
  Definition jacobi_ready (c : csr K) : Prop :=
    forall rows, csr_holds c rows ->
      (forall row, In row rows -> simple_row row) /\ forall i, i < length rows -> In i (map fst (nth i rows [])).
  (** Any order of the threads of the three kernels of the smoother and any contents of its buffers. *)
  Definition any_smoother_conditions (c : csr K) (z : smoother_conditions K) : Prop :=
    some_order (c_nnz c) (z_order1 z) /\ some_order (length (c_range c)) (z_order2 z) /\ some_order (length (c_range c) + 1) (z_order3 z) /\
    length (z_val z) = length (c_range c) /\ length (z_col z) = length (c_range c) /\ length (z_ptr z) = length (c_range c) + 1.
  (** cuSPARSE's product stores every column once per row. *)
  Definition gemm_once (L : libraries K) : Prop :=
    forall ca cb range inner domain A B, device_matrix [ca] [range] [inner] A -> device_matrix [cb] [inner] [domain] B -> nc A = nr B ->
      columns_once (x_gemm L ca cb).
  (** One step of Jacobi's method strictly reduces the energy <A e, e> of every error. *)
  Definition jacobi_reduces (A : mat K) : Prop :=
    forall e, length e = nc A -> e <> vzero (nc A) -> (energy (mulvec A) (jacobi_step A (vzero (nc A)) e) < energy (mulvec A) e)%K.
  (** The name of the coarse solver. *)
  Definition solver_name (p : ptree) : string := lower (get_string ["solver"; "type"]%string "lu_dense" p).
  (** What the user provides on one process: a matrix A with its diagonal, parameters, and a device with memory h. *)
  Record device_input (L : libraries K) (Y : solver_library K) (z : nat -> nat -> csr K -> smoother_conditions K) (global : shared_matrix K) (p : ptree)
    (d : device K) (A : mat K) (h : heap K) : Prop := {
    in_libraries : libraries_ok L;
    in_gemm : gemm_once L;
    in_solver : solver_library_ok Y;
    in_state : exists ms, state_means (d_ops d) ms;
    in_memory : d_heaps d = [h] /\ allocator_ok h;
    in_matrix : exists c, m_parts global = [c] /\ device_matrix [c] [seq 0 (nr A)] [seq 0 (nr A)] A /\ jacobi_ready c /\
      any_smoother_conditions c (z (length (u_ops (d_ops d))) 0 c);
    in_handle : m_handle global = true /\ m_descr global = true;
    in_square : nr A = nc A /\ 0 < nr A;
    in_fast_ap : pt_get parse_bool ["fast_ap"%string] false p = false;
    in_smoother : lower (get_string ["smoother"; "type"]%string "Jacobi" p) = "jacobi"%string
  }.
  (** The restriction that is computed is R, with the memory left as h'. *)
  Record restricts (restr : list (heap K) -> outcome (shared_matrix K * list (heap K))) (A R : mat K) (h h' : heap K) : Prop := {
    re_matrix : exists rm cr, restr [h] = Ok (rm, [h']) /\ m_parts rm = [cr] /\ device_matrix [cr] [seq 0 (nr R)] [seq 0 (nr A)] R /\
      m_handle rm = true /\ m_descr rm = true;
    re_memory : allocator_ok h';
    re_sizes : nc R = nr A /\ 0 < nr R;
    re_nonzero : no_zero_rank [seq 0 (nr A)] (mtrans R)
  }.
End S.
Arguments spread {K} owned x.
Arguments any_conditions {K} cond.
Arguments keeps {K} s s'.
Arguments memory_kept {K} hs hs'.
Arguments solver_acts {K} s f owned n C.
Arguments dev_describes {K} s ms _ _ _ _ _ _.
Arguments vmult_requests {K} owned qs.
Arguments jacobi_step {K} A b x.
Arguments two_grid {K} A R k b x y.
Arguments jacobi_ready {K} c.
Arguments any_smoother_conditions {K} c z.
Arguments gemm_once {K} L.
Arguments jacobi_reduces {K} A.
Arguments device_input {K} L Y z global p d A h.
Arguments restricts {K} restr A R h h'.
