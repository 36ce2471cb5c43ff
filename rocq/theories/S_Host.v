(** Specification notions for choices by name, independent of the conversion to lower case used in the code. *)
From Coq Require Import String List Arith Ascii Bool.
From Verif Require Import Base M_Ptree M_Host.
Import ListNotations.
Set Implicit Arguments.

(** Two characters that are equal or the two cases of one of the 26 letters. *)
Definition ci_char (a b : ascii) : Prop :=
  a = b \/ exists k, k < 26 /\ (a = ascii_of_nat (65 + k) /\ b = ascii_of_nat (97 + k) \/ a = ascii_of_nat (97 + k) /\ b = ascii_of_nat (65 + k)).
(** Equal up to the case of letters. *)
Fixpoint ci_eq (s t : string) : Prop :=
  match s, t with
  | EmptyString, EmptyString => True
  | String a s', String b t' => ci_char a b /\ ci_eq s' t'
  | _, _ => False
  end.
(** The text stored under a path, or the default. *)
Definition text_at (p : ptree) (path : list string) (dflt : string) : string :=
  match pt_find p path with Some c => pt_data c | None => dflt end.
(** A choice among documented names: the kind belonging to the name, case ignored; an exception for every other name. *)
Definition dispatches {A} (eq : string -> string -> Prop) (table : list (string * A)) (name : string) (r : outcome A) : Prop :=
  (exists n k, In (n, k) table /\ eq name n /\ r = Ok k) \/ ((forall n k, In (n, k) table -> ~ eq name n) /\ r = Throw).

(** The documented names. *)
Definition host_smoothers : list (string * smoother_kind) :=
  [("symmetric gauss-seidel", KSsor); ("gauss-seidel", KSor); ("jacobi", KJacobi); ("ilu", KIlu)]%string.
Definition matrix_free_smoothers : list (string * smoother_kind) := [("chebyshev", KChebyshev)]%string.
Definition cuda_smoothers : list (string * smoother_kind) := [("jacobi", KJacobi)]%string.
Definition cuda_solvers (with_amgx : bool) : list (string * cuda_solver_choice) :=
  [("cholesky", KCholesky); ("lu_dense", KLuDense); ("lu_sparse_host", KLuSparseHost)]%string ++ (if with_amgx then [("amgx", KAmgx)]%string else []).
Definition evaluators (with_cuda : bool) (dim : BinNums.Z) : list (string * helpers_kind) :=
  [("DealIIMeshEvaluator", HostHelpers dim); ("DealIIMatrixFreeMeshEvaluator", MatrixFreeHelpers dim)]%string ++
  (if with_cuda then [("CudaMeshEvaluator", CudaHelpers dim)]%string else []).
Definition eigensolvers : list (string * eigensolver_kind) :=
  [("arpack", EArpack); ("lanczos", ELanczos); ("anasazi", EAnasazi); ("lapack", ELapack)]%string.
