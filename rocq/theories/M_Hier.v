(** Model of include/mfmg/common/hierarchy.hpp, level.hpp and the host operators, smoothers and solvers they use. Definitions only. *)
From Coq Require Import String List Arith ZArith Bool.
From Verif Require Import Base OField Mat M_Ptree.
Import ListNotations.
Set Implicit Arguments.
Open Scope nat_scope.

(** ** Timer *)
(** The section names used in include/mfmg/common/hierarchy.hpp:164-303. *)
Inductive section_name : Type :=
| SSetup            (* "Setup", 164 *)
| SBuildCoarse      (* "Setup: build coarse solver", 193 *)
| SBuildSmoother    (* "Setup: build smoother", 203 *)
| SBuildRestrictor  (* "Setup: build restrictor", 208 *)
| SFastAp           (* "Setup: fast_ap", 218 *)
| SAp               (* "Setup: ap", 224 *)
| SBuildMatrix      (* "Setup: build coarse matrix", 229 *)
| SApply            (* "Apply", 241 *)
| SCoarsest         (* "Apply: coarsest level", 263 *)
| SFine.            (* "Apply: fine levels", 271 *)

(** Decidable equality of section names (no counterpart in /repo). *)
Definition section_eqb (a b : section_name) : bool :=
  match a, b with
  | SSetup, SSetup | SBuildCoarse, SBuildCoarse | SBuildSmoother, SBuildSmoother | SBuildRestrictor, SBuildRestrictor
  | SFastAp, SFastAp | SAp, SAp | SBuildMatrix, SBuildMatrix | SApply, SApply | SCoarsest, SCoarsest | SFine, SFine => true
  | _, _ => false
  end.

(** What dealii::TimerOutput sees; newest event first (include/mfmg/common/hierarchy.hpp:36-47). *)
Inductive tev : Type := Enter (s : section_name) | Leave.

(** The stack of sections still open after the events of a log (external: TimerOutput::active_sections). *)
Fixpoint open_sections (log : list tev) : list section_name :=
  match log with
  | [] => []
  | Enter s :: l => s :: open_sections l
  | Leave :: l => tl (open_sections l)
  end.

(** A statement sequence that may call the timer: from the log to an outcome and the log at that point, also when the outcome is
    not a return (no counterpart in /repo). *)
Definition prog (A : Type) : Type := list tev -> outcome A * list tev.
(** return *)
Definition pret {A} (a : A) : prog A := fun l => (Ok a, l).
(** A statement without timer effects. *)
Definition plift {A} (m : outcome A) : prog A := fun l => (m, l).
(** Sequencing. *)
Definition pbind {A B} (m : prog A) (f : A -> prog B) : prog B := fun l =>
  match m l with
  | (Ok a, l') => f a l'
  | (Throw, l') => (Throw, l')
  | (Abort, l') => (Abort, l')
  | (UB, l') => (UB, l')
  | (Fuel, l') => (Fuel, l')
  end.
Notation "'do!' x ':=' m 'in' f" := (pbind m (fun x => f))
  (at level 200, x pattern, m at level 100, f at level 200, right associativity).

(** Whether a timer was passed (hierarchy.hpp:162,370) and whether deal.II is built in debug mode, in which entering a section that is
    already open, and leaving when none is open, is an error (external: TimerOutput::enter_subsection / leave_subsection). *)
Record tenv : Type := mkTenv { t_present : bool; t_debug : bool }.

(** timer_enter_subsection (include/mfmg/common/hierarchy.hpp:36-41). *)
Definition timer_enter (te : tenv) (s : section_name) : prog unit := fun l =>
  if t_present te
  then if t_debug te && existsb (section_eqb s) (open_sections l) then (Abort, l) else (Ok tt, Enter s :: l)
  else (Ok tt, l).
(** timer_leave_subsection (include/mfmg/common/hierarchy.hpp:43-47). *)
Definition timer_leave (te : tenv) : prog unit := fun l =>
  if t_present te
  then match open_sections l with
       | [] => if t_debug te then (Abort, l) else (Ok tt, Leave :: l)
       | _ => (Ok tt, Leave :: l)
       end
  else (Ok tt, l).

(** Dereference of a shared_ptr (no counterpart in /repo). *)
Definition deref {A} (p : option A) : outcome A := match p with Some a => Ok a | None => UB end.

Section Hier.
  Variable K : ofield.
  Local Open Scope K_scope.

  (** ** Operators *)
  (** Objects behind Operator<VectorType> (include/mfmg/common/operator.hpp:26-52) on the host: [TriOp], a
      DealIITrilinosMatrixOperator wrapping a matrix (source/dealii/dealii_trilinos_matrix_operator.cc:22-26); [MfOp], a
      DealIIMatrixFreeOperator of size n whose vmult is the evaluator's matrix_free_evaluate_global
      (source/dealii/dealii_matrix_free_operator.cc:24-35). *)
  Inductive op : Type :=
  | TriOp (M : mat K)
  | MfOp (n : nat) (f : vec K -> vec K).

  (** Size of build_domain_vector() (dealii_trilinos_matrix_operator.cc:98-105; dealii_matrix_free_operator.cc:103-110). *)
  Definition op_dom (o : op) : nat := match o with TriOp M => nc M | MfOp n _ => n end.
  (** Size of build_range_vector() (dealii_trilinos_matrix_operator.cc:107-114; dealii_matrix_free_operator.cc:112-117). *)
  Definition op_ran (o : op) : nat := match o with TriOp M => nr M | MfOp n _ => n end.

  (** apply(x, y, mode) (dealii_trilinos_matrix_operator.cc:28-35; dealii_matrix_free_operator.cc:62-73): the new value of y.
      A size mismatch is undefined behaviour. *)
  Definition op_apply (o : op) (trans : bool) (x y : vec K) : outcome (vec K) :=
    match o with
    | TriOp M =>
        if trans then if (length x =? nr M) && (length y =? nc M) then Ok (mulTvec M x) else UB
        else if (length x =? nc M) && (length y =? nr M) then Ok (mulvec M x) else UB
    | MfOp n f => if trans then Throw else if (length x =? n) && (length y =? n) then Ok (f x) else UB
    end%nat.

  (** matrix_transpose_matrix_multiply (include/mfmg/dealii/dealii_utils.hpp:32-81) on one rank: column j holds A applied to row j of B
      (extract_row, source/dealii/dealii_utils.cc:20-60), entries of modulus at most [eps] (1e-14 in the code) are not stored. *)
  Definition matrix_transpose_matrix_multiply (eps : K) (n : nat) (f : vec K -> vec K) (B : mat K) : mat K :=
    mkMat n (nr B) (fun i j => let value := nth i (f (row B j)) 0 in if fltb eps (fabs value) then value else 0).

  (** multiply(b) (dealii_trilinos_matrix_operator.cc:55-72; dealii_matrix_free_operator.cc:83-91). The downcast of the argument is not
      checked: a null result is dereferenced. *)
  Definition op_multiply (a b : op) : outcome op :=
    match a with
    | TriOp A => match b with TriOp B => if Nat.eqb (nc A) (nr B) then Ok (TriOp (mmul A B)) else UB | MfOp _ _ => UB end
    | MfOp _ _ => Throw
    end.
  (** multiply_transpose(b) (dealii_trilinos_matrix_operator.cc:74-96; dealii_matrix_free_operator.cc:93-111). *)
  Definition op_multiply_transpose (eps : K) (a b : op) : outcome op :=
    match b with
    | TriOp B =>
        match a with
        | TriOp A => if Nat.eqb (nc A) (nc B) then Ok (TriOp (mmul A (mtrans B))) else UB
        | MfOp n f => if Nat.eqb n (nc B) then Ok (TriOp (matrix_transpose_matrix_multiply eps n f B)) else UB
        end
    | MfOp _ _ => UB
    end.

  (** y.add(s, x) of a deal.II vector (external; hierarchy.hpp:287,303; dealii_smoother.cc:74,80). *)
  Definition vec_add (y : vec K) (s : K) (x : vec K) : outcome (vec K) :=
    if Nat.eqb (length y) (length x) then Ok (vaxpy s x y) else UB.

  (** ** Smoothers and solvers: the virtual calls apply(b, x) (include/mfmg/common/smoother.hpp, solver.hpp); the result is the new x. *)
  Definition bx_apply : Type := vec K -> vec K -> outcome (vec K).

  (** DealIISmoother::apply (source/dealii/dealii_smoother.cc:68-81) and DealIIMatrixFreeSmoother::apply
      (source/dealii/dealii_matrix_free_smoother.cc:60-74); [B] is the external preconditioner's vmult. *)
  Definition smoother_apply (a : op) (B : vec K -> vec K) : bx_apply := fun b x =>
    let r := b in
    let! r := op_apply a false x r in
    let! r := vec_add r (- (1)) b in
    let tmp := B r in
    vec_add x (- (1)) tmp.

  (** ** Levels (include/mfmg/common/level.hpp:24-77): the four shared pointers. *)
  Record level : Type := mkLevel {
    lv_op : option op;
    lv_restrictor : option op;
    lv_smoother : option bx_apply;
    lv_solver : option bx_apply
  }.
  (** A default constructed Level (level.hpp:73-76). *)
  Definition level0 : level := mkLevel None None None None.
  (** Level::set_operator (level.hpp:50). *)
  Definition set_operator (l : level) (o : op) : level := mkLevel (Some o) (lv_restrictor l) (lv_smoother l) (lv_solver l).
  (** Level::set_restrictor (level.hpp:52-55). *)
  Definition set_restrictor (l : level) (o : op) : level := mkLevel (lv_op l) (Some o) (lv_smoother l) (lv_solver l).
  (** Level::set_smoother (level.hpp:57-60). *)
  Definition set_smoother (l : level) (s : bx_apply) : level := mkLevel (lv_op l) (lv_restrictor l) (Some s) (lv_solver l).
  (** Level::set_solver (level.hpp:62). *)
  Definition set_solver (l : level) (s : bx_apply) : level := mkLevel (lv_op l) (lv_restrictor l) (lv_smoother l) (Some s).
  (** Level::build_vector (level.hpp:64-71): a vector of the size of the domain of the level operator. Without operator: ASSERT in debug
      builds, null dereference otherwise; both are [UB] here. The content is taken to be zero (deal.II initialises vectors). *)
  Definition build_vector (l : level) : outcome (vec K) := let! a := deref (lv_op l) in Ok (vzero (op_dom a)).

  (** The members of Hierarchy (hierarchy.hpp:368-372); the timer is in [tenv]. *)
  Record hierarchy : Type := mkHierarchy {
    h_levels : list level;
    h_is_preconditioner : bool;
    h_n_smoothing_steps : nat
  }.

  (** The loop calling the smoother (hierarchy.hpp:278-280, 305-307). *)
  Fixpoint smooth_loop (n : nat) (s : option bx_apply) (b x : vec K) : outcome (vec K) :=
    match n with
    | O => Ok x
    | S n' => let! f := deref s in let! x := f b x in smooth_loop n' s b x
    end.

  (** Hierarchy::apply (hierarchy.hpp:246-309). [lv] is _levels[level_index], [rest] the levels after it, so that
      level_index == num_levels - 1 is [rest = []]; [first] is level_index == 0. *)
  Fixpoint apply_levels (te : tenv) (prec : bool) (n : nat) (first : bool) (lv : level) (rest : list level) (b x : vec K) : prog (vec K) :=
    let x := if negb first || prec then map (fun _ => 0) x else x in
    match rest with
    | [] =>
        do! _ := timer_enter te SCoarsest in
        do! s := plift (deref (lv_solver lv)) in
        do! x := plift (s b x) in
        do! _ := timer_leave te in
        pret x
    | lc :: rest' =>
        do! _ := timer_enter te SFine in
        do! x := plift (smooth_loop n (lv_smoother lv) b x) in
        do! res := plift (build_vector lv) in
        do! a := plift (deref (lv_op lv)) in
        do! res := plift (op_apply a false x res) in
        do! res := plift (vec_add res (- (1)) b) in
        do! b_coarse := plift (build_vector lc) in
        do! r := plift (deref (lv_restrictor lc)) in
        do! b_coarse := plift (op_apply r false res b_coarse) in
        do! x_coarse := plift (build_vector lc) in
        do! x_coarse := apply_levels te prec n false lc rest' b_coarse x_coarse in
        do! x_correction := plift (build_vector lv) in
        do! x_correction := plift (op_apply r true x_coarse x_correction) in
        do! x := plift (vec_add x (- (1)) x_correction) in
        do! x := plift (smooth_loop n (lv_smoother lv) b x) in
        do! _ := timer_leave te in
        pret x
    end.

  (** Hierarchy::apply(b, x) from the finest level (hierarchy.hpp:246-252); _levels[0] of an empty vector is undefined. *)
  Definition hierarchy_apply (te : tenv) (h : hierarchy) (b x : vec K) : prog (vec K) :=
    match h_levels h with
    | [] => plift UB
    | lv :: rest => apply_levels te (h_is_preconditioner h) (h_n_smoothing_steps h) true lv rest b x
    end.

  (** Hierarchy::vmult (hierarchy.hpp:238-244): the new x. *)
  Definition hierarchy_vmult (te : tenv) (h : hierarchy) (x b : vec K) : prog (vec K) :=
    do! _ := timer_enter te SApply in
    do! x := hierarchy_apply te h b x in
    do! _ := timer_leave te in
    pret x.

  (** ** Construction *)
  (** The factory HierarchyHelpers<VectorType> (include/mfmg/common/hierarchy_helpers.hpp); [H] is the state of the helpers object
      (it stores the product for fast_ap) together with that of the evaluator. Every method may throw. *)
  Record helpers (H : Type) : Type := mkHelpers {
    hh_get_global_operator : H -> outcome op * H;
    hh_build_restrictor : ptree -> H -> outcome op * H;
    hh_build_smoother : op -> ptree -> H -> outcome bx_apply * H;
    hh_build_coarse_solver : op -> ptree -> H -> outcome bx_apply * H;
    hh_fast_multiply_transpose : H -> outcome op * H
  }.

  Section Construct.
    Variable H : Type.
    Variable hh : helpers H.
    Variable eps : K.
    Variable te : tenv.

    (** What the constructor changes: the levels, the helpers, the caller's parameter tree. *)
    Record cstate : Type := mkCstate { cs_levels : list level; cs_h : H; cs_params : ptree }.

    (** Calling a method of the helpers object (no counterpart in /repo). *)
    Definition call {A} (f : H -> outcome A * H) (s : cstate) : outcome A * cstate :=
      let '(r, h') := f (cs_h s) in (r, mkCstate (cs_levels s) h' (cs_params s)).

    (** The monad of the constructor: timer log and state survive an exception. *)
    Definition cprog (A : Type) : Type := cstate -> list tev -> outcome A * cstate * list tev.
    (** return *)
    Definition cret {A} (a : A) : cprog A := fun s l => (Ok a, s, l).
    (** Sequencing. *)
    Definition cbind {A B} (m : cprog A) (f : A -> cprog B) : cprog B := fun s l =>
      match m s l with
      | (Ok a, s', l') => f a s' l'
      | (Throw, s', l') => (Throw, s', l')
      | (Abort, s', l') => (Abort, s', l')
      | (UB, s', l') => (UB, s', l')
      | (Fuel, s', l') => (Fuel, s', l')
      end.
    (** A timer call. *)
    Definition ctimer (p : prog unit) : cprog unit := fun s l => let '(r, l') := p l in (r, s, l').
    (** A call of the helpers. *)
    Definition ccall {A} (f : H -> outcome A * H) : cprog A := fun s l => let '(r, s') := call f s in (r, s', l).
    (** A call without effect on the state. *)
    Definition clift {A} (m : outcome A) : cprog A := fun s l => (m, s, l).
    (** Reads the state. *)
    Definition cget {A} (f : cstate -> A) : cprog A := fun s l => (Ok (f s), s, l).
    (** _levels[i].set_...(...) *)
    Definition cset_level (i : nat) (f : level -> level) : cprog unit := fun s l =>
      match nth_error (cs_levels s) i with
      | Some lv => (Ok tt, mkCstate (upd (cs_levels s) i (f lv)) (cs_h s) (cs_params s), l)
      | None => (UB, s, l)
      end.
    (** params->put(path, value) *)
    Definition cput (path : list string) (v : string) : cprog unit := fun s l =>
      (Ok tt, mkCstate (cs_levels s) (cs_h s) (pt_put path v (cs_params s)), l).
    (** _levels[i].get_operator(), dereferenced by the caller *)
    Definition cop (i : nat) : cprog op := fun s l =>
      match nth_error (cs_levels s) i with
      | Some lv => (deref (lv_op lv), s, l)
      | None => (UB, s, l)
      end.

    (** "coarse.params.zero starting solution" (hierarchy.hpp:189). *)
    Definition key_zero_start : list string := ["coarse"; "params"; "zero starting solution"]%string.

    (** The last level (hierarchy.hpp:184-200). *)
    Definition setup_coarsest (prec : bool) (level_index : nat) : cprog unit :=
      cbind (if (level_index =? 0)%nat then cput key_zero_start (print_bool prec) else cret tt) (fun _ =>
      cbind (ctimer (timer_enter te SBuildCoarse)) (fun _ =>
      cbind (cop level_index) (fun a =>
      cbind (cget cs_params) (fun p =>
      cbind (ccall (hh_build_coarse_solver hh a p)) (fun s =>
      cbind (cset_level level_index (fun lv => set_solver lv s)) (fun _ =>
      ctimer (timer_leave te))))))).

    (** The product A R^T (hierarchy.hpp:214-227). *)
    Definition setup_ap (p : ptree) (a r : op) : cprog op :=
      if pt_get parse_bool ["fast_ap"%string] false p
      then
        cbind (ctimer (timer_enter te SFastAp)) (fun _ =>
        cbind (ccall (hh_fast_multiply_transpose hh)) (fun ap =>
        cbind (ctimer (timer_leave te)) (fun _ => cret ap)))
      else
        cbind (ctimer (timer_enter te SAp)) (fun _ =>
        cbind (clift (op_multiply_transpose eps a r)) (fun ap =>
        cbind (ctimer (timer_leave te)) (fun _ => cret ap))).

    (** A level that is not the last: smoother, restrictor and operator of the next level (hierarchy.hpp:202-233). *)
    Definition setup_fine (level_index : nat) : cprog unit :=
      cbind (ctimer (timer_enter te SBuildSmoother)) (fun _ =>
      cbind (cop level_index) (fun a =>
      cbind (cget cs_params) (fun p =>
      cbind (ccall (hh_build_smoother hh a p)) (fun s =>
      cbind (cset_level level_index (fun lv => set_smoother lv s)) (fun _ =>
      cbind (ctimer (timer_leave te)) (fun _ =>
      cbind (ctimer (timer_enter te SBuildRestrictor)) (fun _ =>
      cbind (ccall (hh_build_restrictor hh p)) (fun r =>
      cbind (cset_level (S level_index) (fun lv => set_restrictor lv r)) (fun _ =>
      cbind (ctimer (timer_leave te)) (fun _ =>
      cbind (setup_ap p a r) (fun ap =>
      cbind (ctimer (timer_enter te SBuildMatrix)) (fun _ =>
      cbind (clift (op_multiply r ap)) (fun a_coarse =>
      cbind (ctimer (timer_leave te)) (fun _ =>
      cset_level (S level_index) (fun lv => set_operator lv a_coarse))))))))))))))).

    (** The loop over the levels (hierarchy.hpp:178-234); [todo] is num_levels - level_index. *)
    Fixpoint setup_levels (prec : bool) (todo level_index : nat) : cprog unit :=
      match todo with
      | O => cret tt
      | S O => setup_coarsest prec level_index
      | S todo' => cbind (setup_fine level_index) (fun _ => setup_levels prec todo' (S level_index))
      end.

    (** _levels.resize(num_levels) (hierarchy.hpp:175): an int converted to size_t; a negative value is far beyond max_size() and
        throws std::length_error. *)
    Definition resize_levels (num_levels : Z) : outcome (list level) :=
      if (num_levels <? 0)%Z then Throw else Ok (repeat level0 (Z.to_nat num_levels)).

    (** The constructor (hierarchy.hpp:159-236). [params = None] is the default argument nullptr, which is dereferenced;
        [created] is the outcome of create_hierarchy_helpers (hierarchy.hpp:49-107,166); [mfmg_debug] is MFMG_DEBUG, which enables
        ASSERT (exceptions.hpp:42-57). The result is the hierarchy; the final state holds the caller's parameter tree. *)
    Definition construct (mfmg_debug : bool) (created : outcome unit) (params : option ptree) (h0 : H) :
      outcome hierarchy * cstate * list tev :=
      let s0 := mkCstate [] h0 (match params with Some p => p | None => Node "" [] end) in
      (cbind (ctimer (timer_enter te SSetup)) (fun _ =>
       cbind (clift created) (fun _ =>
       cbind (clift (deref params)) (fun p =>
       let prec := pt_get parse_bool ["is preconditioner"%string] true p in
       let n_smoothing_steps := Z.to_nat ((pt_get parse_int ["smoother"; "n_smoothing_steps"]%string 1%Z p) mod 2 ^ 32) in
       let num_levels := pt_get parse_int ["max levels"%string] 2%Z p in
       cbind (clift (assert_dbg mfmg_debug (0 <? num_levels)%Z)) (fun _ =>
       cbind (clift (resize_levels num_levels)) (fun lv =>
       cbind (fun s l => (Ok tt, mkCstate lv (cs_h s) (cs_params s), l)) (fun _ =>
       cbind (ccall (hh_get_global_operator hh)) (fun a =>
       cbind (cset_level 0 (fun l => set_operator l a)) (fun _ =>
       cbind (setup_levels prec (Z.to_nat num_levels) 0) (fun _ =>
       cbind (ctimer (timer_leave te)) (fun _ =>
       cbind (cget cs_levels) (fun lv =>
       cret (mkHierarchy lv prec n_smoothing_steps))))))))))))) s0 [].
  End Construct.
End Hier.
Arguments TriOp {K} M.
Arguments MfOp {K} n f.
Arguments op_dom {K} o.
Arguments op_ran {K} o.
Arguments op_apply {K} o trans x y.
Arguments op_multiply {K} a b.
Arguments op_multiply_transpose {K} eps a b.
Arguments vec_add {K} y s x.
Arguments mkLevel {K} _ _ _ _.
Arguments lv_op {K} _.
Arguments lv_restrictor {K} _.
Arguments lv_smoother {K} _.
Arguments lv_solver {K} _.
Arguments level0 {K}.
Arguments build_vector {K} l.
Arguments h_levels {K} _.
Arguments h_is_preconditioner {K} _.
Arguments h_n_smoothing_steps {K} _.
Arguments hierarchy_apply {K} te h b x _.
Arguments hierarchy_vmult {K} te h x b _.
