(** Specification of the CUDA matrix operators: what matrix an operator stands for, and what the libraries promise. *)
From Coq Require Import List Arith Bool Sorted.
From Verif Require Import Base OField Mat M_SpProd S_SpProd M_Csr S_Csr M_CudaOp.
Import ListNotations.
Set Implicit Arguments.
Open Scope nat_scope.

(** The indices below n distributed over the ranks, in increasing order on every rank (as dealii::IndexSet lists them). *)
Definition distribution (n : nat) (parts : list (list nat)) : Prop := partition n parts /\ forall p, In p parts -> StronglySorted lt p.

Section S.
  Variable K : ofield.
  (** The device matrix with these parts is B, with rows and columns distributed as said. *)
  Record device_matrix (cs : list (csr K)) (range domain : list (list nat)) (B : mat K) : Prop := {
    dm_some : cs <> [];
    dm_holds : distributed_as cs range B;
    dm_domain : map (@c_domain K) cs = domain;
    dm_sizes : forall c, In c cs -> c_m c = nr B /\ c_n c = nc B;
    dm_rows : distribution (nr B) range;
    dm_cols : distribution (nc B) domain
  }.
  (** The same for a Trilinos matrix. *)
  Record trilinos_matrix (ts : list (trilinos K)) (range domain : list (list nat)) (B : mat K) : Prop := {
    tm_some : ts <> [];
    tm_range : map (@t_range K) ts = range;
    tm_domain : map (@t_domain K) ts = domain;
    tm_sizes : forall t, In t ts -> t_m t = nr B /\ t_n t = nc B;
    tm_layout : forall t, In t ts -> trilinos_layout t;
    tm_holds : forall t i, In t ts -> i < length (t_rows t) ->
      (forall e, In e (nth i (trilinos_rows t) []) -> fst e < nc B) /\
      forall g, g < nc B -> entry (nth i (trilinos_rows t) []) g = ent B (nth i (t_range t) 0) g;
    tm_rows : distribution (nr B) range;
    tm_cols : distribution (nc B) domain
  }.
  (** What the libraries promise. *)
  Record libraries_ok (L : libraries K) : Prop := {
    lo_fill : fill_ok (x_fill L);
    lo_transpose : forall ts range domain B, trilinos_matrix ts range domain B -> trilinos_matrix (x_transpose L ts) domain range (mtrans B);
    lo_gemm : forall ca cb range inner domain A B, device_matrix [ca] [range] [inner] A -> device_matrix [cb] [inner] [domain] B -> nc A = nr B ->
      device_matrix [x_gemm L ca cb] [range] [domain] (mmul A B);
    lo_mmult : forall ta tb range inner domain A B, trilinos_matrix ta range inner A -> trilinos_matrix tb inner domain B -> nc A = nr B ->
      trilinos_matrix (x_mmult L ta tb) range domain (mmul A B);
    (* the result of Multiply is created with the column distribution of the first matrix as row distribution *)
    lo_mmult_transpose : forall ta tb rows rows' A B, trilinos_matrix ta rows rows A -> trilinos_matrix tb rows' rows B -> nc A = nc B ->
      trilinos_matrix (x_mmult_transpose L ta tb) rows rows' (mmul A (mtrans B))
  }.
  (** Every rank owns a row that is not zero. *)
  Definition no_zero_rank (range : list (list nat)) (B : mat K) : Prop :=
    forall p, In p range -> exists i j, In i p /\ j < nc B /\ ent B i j <> f0.

  (** What an operator stands for: a matrix, its distributions, whether the transpose is cached, whether products with vectors are possible. *)
  Record meaning : Type := mkMeaning { a_mat : mat K; a_range : list (list nat); a_domain : list (list nat); a_cached : bool; a_ready : bool }.
  (** The effect of a call on the operators and what it returns. *)
  Inductive call_effect : list meaning -> call K -> list meaning -> list (list K) -> Prop :=
  | MApply : forall ms k B range domain cached env owned (x : vec K) y,
      nth_error ms k = Some (mkMeaning B range domain cached true) ->
      length x = nc B -> partition (nc B) owned -> any_environment (nc B) env -> map (@length K) y = map (@length nat) range ->
      call_effect ms (CApply k false env owned (nc B) (scatter owned x) y) ms (scatter range (mulvec B x))
  | MApplyTranspose : forall ms k B range domain cached env owned (x : vec K) y,
      nth_error ms k = Some (mkMeaning B range domain cached true) ->
      (cached = false -> no_zero_rank domain (mtrans B)) ->
      length x = nr B -> partition (nr B) owned -> any_environment (nr B) env -> map (@length K) y = map (@length nat) domain ->
      call_effect ms (CApply k true env owned (nr B) (scatter owned x) y) (upd ms k (mkMeaning B range domain true true))
        (scatter domain (mulTvec B x))
  | MTransposeFirst : forall ms k B range domain ready,
      nth_error ms k = Some (mkMeaning B range domain false ready) -> no_zero_rank domain (mtrans B) ->
      call_effect ms (CTranspose k) (upd ms k (mkMeaning B range domain true ready) ++ [mkMeaning (mtrans B) domain range false ready]) []
  | MTransposeAgain : forall ms k B range domain ready,
      nth_error ms k = Some (mkMeaning B range domain true ready) ->
      call_effect ms (CTranspose k) (upd ms k (mkMeaning (mtrans B) domain range true ready) ++ [mkMeaning B range domain false ready]) []
  | MMultiply : forall ms a b A B range inner domain ca cb ra rb,
      nth_error ms a = Some (mkMeaning A range inner ca ra) -> nth_error ms b = Some (mkMeaning B inner domain cb rb) -> nc A = nr B ->
      (length range = 1 -> ra = true /\ rb = true) -> (length range <> 1 -> no_zero_rank range (mmul A B)) ->
      call_effect ms (CMultiply a b) (ms ++ [mkMeaning (mmul A B) range domain false ra]) []
  | MMultiplyTranspose : forall ms a b A B rows cols rows' ca cb ra rb,
      nth_error ms a = Some (mkMeaning A rows cols ca ra) -> nth_error ms b = Some (mkMeaning B rows' cols cb rb) -> nc A = nc B ->
      (length rows = 1 -> ra = true /\ no_zero_rank cols (mtrans B)) ->
      (length rows <> 1 -> rows = cols /\ no_zero_rank rows (mmul A (mtrans B))) ->
      call_effect ms (CMultiplyTranspose a b) (ms ++ [mkMeaning (mmul A (mtrans B)) rows rows' false (length rows =? 1)]) [].
  (** A program. *)
  Inductive calls_effect : list meaning -> list (call K) -> list meaning -> list (list (list K)) -> Prop :=
  | MNil : forall ms, calls_effect ms [] ms []
  | MCons : forall ms c ms1 y cs ms2 ys, call_effect ms c ms1 y -> calls_effect ms1 cs ms2 ys -> calls_effect ms (c :: cs) ms2 (y :: ys).

  (** Operator o of the program stands for a. *)
  Definition operator_means (s : cuda_state K) (o : cuda_operator) (a : meaning) : Prop :=
    (exists m, nth_error (u_mats s) (o_mat o) = Some m /\ device_matrix (m_parts m) (a_range a) (a_domain a) (a_mat a) /\
               m_handle m = a_ready a /\ (a_ready a = true -> m_descr m = true)) /\
    match o_trans o with
    | None => a_cached a = false
    | Some t => a_cached a = true /\
        exists m, nth_error (u_mats s) t = Some m /\ device_matrix (m_parts m) (a_domain a) (a_range a) (mtrans (a_mat a)) /\
                  m_handle m = a_ready a /\ (a_ready a = true -> m_descr m = true)
    end.
  (** All operators do. *)
  Definition state_means (s : cuda_state K) (ms : list meaning) : Prop := Forall2 (operator_means s) (u_ops s) ms.

  (** One application: mode, thread orders and buffers, distribution of the source vector, the vector, the destination before. *)
  Record request : Type := mkRequest { q_trans : bool; q_env : nat -> list nat * list K * list K; q_owned : list (list nat); q_x : vec K; q_y : list (list K) }.
  (** The matrix it is about. *)
  Definition asked (B : mat K) (trans : bool) : mat K := if trans then mtrans B else B.
  (** Sizes and distributions fit. *)
  Definition request_ok (B : mat K) (range domain : list (list nat)) (q : request) : Prop :=
    length (q_x q) = nc (asked B (q_trans q)) /\ partition (nc (asked B (q_trans q))) (q_owned q) /\ any_environment (nc (asked B (q_trans q))) (q_env q) /\
    map (@length K) (q_y q) = map (@length nat) (if q_trans q then domain else range).
  (** The call, and what it has to return. *)
  Definition asking (k : nat) (B : mat K) (q : request) : call K :=
    CApply k (q_trans q) (q_env q) (q_owned q) (nc (asked B (q_trans q))) (scatter (q_owned q) (q_x q)) (q_y q).
  (** A x or A^T x, distributed like the rows of that matrix. *)
  Definition answer (B : mat K) (range domain : list (list nat)) (q : request) : list (list K) :=
    scatter (if q_trans q then domain else range) (mulvec (asked B (q_trans q)) (q_x q)).
End S.
Arguments device_matrix {K} cs range domain B.
Arguments trilinos_matrix {K} ts range domain B.
Arguments libraries_ok {K} L.
Arguments no_zero_rank {K} range B.
Arguments mkMeaning {K} _ _ _ _ _.
Arguments call_effect {K} _ _ _ _.
Arguments calls_effect {K} _ _ _ _.
Arguments state_means {K} s ms.
Arguments operator_means {K} s o a.
Arguments request_ok {K} B range domain q.
Arguments asking {K} k B q.
Arguments answer {K} B range domain q.
Arguments asked {K} B trans.
Arguments mkRequest {K} _ _ _ _ _.
