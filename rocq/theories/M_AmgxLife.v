(** Model of the AMGX handles a CudaSolver owns: constructor, copy and destructor (source/cuda/cuda_solver.cu:204-262, 447-494,
    include/mfmg/cuda/cuda_solver.cuh:30-70). Definitions only. Built with MFMG_WITH_AMGX. *)
From Coq Require Import List Arith Bool.
From Verif Require Import Base.
Import ListNotations.
Set Implicit Arguments.
Open Scope nat_scope.

(** The kinds of handles (cuda_solver.cuh:50-55). *)
Inductive handle_kind := HConfig | HResources | HMatrix | HRhs | HSolution | HSolver.
(** Calls of the AMGX library that create or destroy something, in program order (cuda_solver.cu:231-262, 447-494). *)
Inductive amgx_call := CInitialize | CCreate (k : handle_kind) (h : nat) | CDestroy (k : handle_kind) (h : nat) | CFinalize.

(** The members that decide what the destructor does (cuda_solver.cuh:46-64); None is nullptr. *)
Record solver_object := mkSolverObject { o_amgx : bool; o_config : option nat; o_res : option nat; o_matrix : option nat; o_rhs : option nat;
                                         o_solution : option nat; o_solver : option nat }.
(** The calls made so far (last first) and the objects by their number; None once destroyed. *)
Record library := mkLibrary { l_calls : list amgx_call; l_next : nat; l_objects : list (option solver_object) }.
(** Before any solver exists (no line in /repo: the state of the process at start). *)
Definition no_library : library := mkLibrary [] 0 [].

(** A handle is destroyed if it is not nullptr (cuda_solver.cu:454, 460, 466, 472, 478, 484). *)
Definition destroy_if (k : handle_kind) (h : option nat) : list amgx_call := match h with Some x => [CDestroy k x] | None => [] end.
(** The calls of one destructor. After the solution vector the code sets the MATRIX handle to nullptr (cuda_solver.cu:447-494). *)
Definition destructor_calls (o : solver_object) : list amgx_call :=
  if o_amgx o then
    let matrix := match o_solution o with Some _ => None | None => o_matrix o end in
    destroy_if HSolver (o_solver o) ++ destroy_if HSolution (o_solution o) ++ destroy_if HRhs (o_rhs o) ++ destroy_if HMatrix matrix ++
    destroy_if HResources (o_res o) ++ destroy_if HConfig (o_config o) ++ [CFinalize]
  else [].

(** What a program does with solvers: construct one (with solver.type amgx or not), copy one with the implicit copy constructor, destroy one. *)
Inductive life_op := LNew (amgx : bool) | LCopy (i : nat) | LDelete (i : nat).
(** One step. Constructor: config, resources, matrix, rhs, solution and solver are created in this order (cuda_solver.cu:204-262); the calls of the
    library are taken to succeed and to return new handles. The copy has the same handles (cuda_solver.cuh:30-70, no user-defined copy).
    Destroying an object twice or copying a destroyed one is an error of the program and left undefined. *)
Definition life_step (s : library) (op : life_op) : outcome library :=
  match op with
  | LNew false => Ok (mkLibrary (l_calls s) (l_next s) (l_objects s ++ [Some (mkSolverObject false None None None None None None)]))
  | LNew true =>
      let h := l_next s in
      Ok (mkLibrary ([CCreate HSolver (h + 5); CCreate HSolution (h + 4); CCreate HRhs (h + 3); CCreate HMatrix (h + 2); CCreate HResources (h + 1);
                      CCreate HConfig h; CInitialize] ++ l_calls s)
                    (h + 6)
                    (l_objects s ++ [Some (mkSolverObject true (Some h) (Some (h + 1)) (Some (h + 2)) (Some (h + 3)) (Some (h + 4)) (Some (h + 5)))]))
  | LCopy i => match nth_error (l_objects s) i with
               | Some (Some o) => Ok (mkLibrary (l_calls s) (l_next s) (l_objects s ++ [Some o]))
               | _ => UB
               end
  | LDelete i => match nth_error (l_objects s) i with
                 | Some (Some o) => Ok (mkLibrary (rev (destructor_calls o) ++ l_calls s) (l_next s) (upd (l_objects s) i None))
                 | _ => UB
                 end
  end.
(** A whole program. *)
Fixpoint life (s : library) (ops : list life_op) : outcome library :=
  match ops with
  | [] => Ok s
  | op :: t => let! s' := life_step s op in life s' t
  end.
