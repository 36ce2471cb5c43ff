(** Specification notions for the multigrid hierarchy, independent of the helpers of M_Hier. *)
From Coq Require Import String List Arith ZArith Bool.
From Verif Require Import Base OField Mat M_Ptree M_Hier.
Import ListNotations.
Set Implicit Arguments.
Open Scope nat_scope.

(** ** Timer traces, oldest event first: properly nested. *)
Inductive nested : list tev -> Prop :=
| nested_nil : nested []
| nested_sec : forall s t1 t2, nested t1 -> nested t2 -> nested (Enter s :: t1 ++ Leave :: t2).

(** Number of sections open after a trace. *)
Fixpoint depth (t : list tev) (d : nat) : nat :=
  match t with
  | [] => d
  | Enter _ :: t' => depth t' (S d)
  | Leave :: t' => depth t' (pred d)
  end.

(** ** Values read by the constructor and modes of the timer *)
(** Timer without the debug check. *)
Definition quiet (te : tenv) : Prop := t_present te && t_debug te = false.
(** Timer and hierarchy depth with which a cycle can run: no debug check, or at most two levels. *)
Definition usable (te : tenv) (n_levels : nat) : Prop := quiet te \/ (n_levels <= 2)%nat.

(** The values the constructor reads (hierarchy.hpp:168-172). *)
Definition c_prec (p : ptree) : bool := pt_get parse_bool ["is preconditioner"%string] true p.
Definition c_steps (p : ptree) : nat := Z.to_nat ((pt_get parse_int ["smoother"; "n_smoothing_steps"]%string 1%Z p) mod 2 ^ 32).
Definition c_levels (p : ptree) : Z := pt_get parse_int ["max levels"%string] 2%Z p.
Definition c_params (p : ptree) : ptree := if (c_levels p =? 1)%Z then pt_put key_zero_start (print_bool (c_prec p)) p else p.


Section Spec.
  Variable K : ofield.
  Local Open Scope K_scope.
  Notation vec := (vec K).

  (** ** What an operator, restrictor, smoother or solver object does, as plain functions on vectors of given sizes *)
  Definition op_acts (o : op K) (n m : nat) (f : vec -> vec) : Prop :=
    op_dom o = n /\ op_ran o = m /\
    forall x y, length x = n -> length y = m -> op_apply o false x y = Ok (f x) /\ length (f x) = m.
  Definition opT_acts (o : op K) (n m : nat) (g : vec -> vec) : Prop :=
    forall x y, length x = m -> length y = n -> op_apply o true x y = Ok (g x) /\ length (g x) = n.
  Definition bx_acts (s : bx_apply K) (n : nat) (f : vec -> vec -> vec) : Prop :=
    forall b x, length b = n -> length x = n -> s b x = Ok (f b x) /\ length (f b x) = n.

  (** One level above the coarsest: size, operator, smoothing step (b, x) -> x, restriction to and prolongation from the next level. *)
  Record fine : Type := mkFine {
    fn : nat;
    fA : vec -> vec;
    fS : vec -> vec -> vec;
    fR : vec -> vec;
    fP : vec -> vec
  }.
  (** Size of the first of the levels [ds] followed by a coarsest level of size [nc]. *)
  Definition top_size (ds : list fine) (nc : nat) : nat := match ds with [] => nc | d :: _ => fn d end.

  (** The levels of a hierarchy consist of objects that act as described by [ds] and, on the coarsest level, by [C]. *)
  Inductive describes : level K -> list (level K) -> list fine -> nat -> (vec -> vec -> vec) -> Prop :=
  | describes_coarsest : forall lv a s nc C,
      lv_op lv = Some a -> op_dom a = nc -> lv_solver lv = Some s -> bx_acts s nc C -> describes lv [] [] nc C
  | describes_fine : forall lv lc rest a s r d ds nc C,
      lv_op lv = Some a -> op_acts a (fn d) (fn d) (fA d) ->
      lv_smoother lv = Some s -> bx_acts s (fn d) (fS d) ->
      lv_restrictor lc = Some r -> op_acts r (fn d) (top_size ds nc) (fR d) -> opT_acts r (fn d) (top_size ds nc) (fP d) ->
      describes lc rest ds nc C -> describes lv (lc :: rest) (d :: ds) nc C.

  Fixpoint iter (k : nat) (f : vec -> vec) (x : vec) : vec := match k with O => x | S k' => iter k' f (f x) end.

  (** The V-cycle as it stands in textbooks: smooth, restrict the residual b - A x, correct, smooth. *)
  Fixpoint textbook_vcycle (k : nat) (ds : list fine) (nc : nat) (C : vec -> vec -> vec) (b x : vec) : vec :=
    match ds with
    | [] => C b x
    | d :: ds' =>
        let x1 := iter k (fS d b) x in
        let r := vsub b (fA d x1) in
        let e := textbook_vcycle k ds' nc C (fR d r) (vzero (top_size ds' nc)) in
        iter k (fS d b) (vadd x1 (fP d e))
    end.

  (** ** Properties of components *)
  (** Linear in the pair (b, x). *)
  Definition jointly_linear (n : nat) (f : vec -> vec -> vec) : Prop :=
    forall s t b c x y, length b = n -> length c = n -> length x = n -> length y = n ->
      f (vadd (vscale s b) (vscale t c)) (vadd (vscale s x) (vscale t y)) = vadd (vscale s (f b x)) (vscale t (f c y)).
  Definition maps (n m : nat) (f : vec -> vec) : Prop := forall x, length x = n -> length (f x) = m.

  (** Energy <A e, e>. *)
  Definition energy (A : vec -> vec) (e : vec) : K := dot (A e) e.

  (** The smoothing step of an operator [A] with correction [B]: x - B (A x - b). *)
  Definition correction_step (A B : vec -> vec) (b x : vec) : vec := vsub x (B (vsub (A x) b)).
  (** Its error propagation I - B A. *)
  Definition error_step (A B : vec -> vec) (e : vec) : vec := vsub e (B (A e)).

  (** All levels have linear components. *)
  Fixpoint linear_levels (ds : list fine) (nc : nat) : Prop :=
    match ds with
    | [] => True
    | d :: ds' => linear (fn d) (fn d) (fA d) /\ jointly_linear (fn d) (fS d) /\
        linear (fn d) (top_size ds' nc) (fR d) /\ linear (top_size ds' nc) (fn d) (fP d) /\ linear_levels ds' nc
    end.

  (** All levels are symmetric: operators symmetric, smoothing steps are corrections by a linear symmetric B, prolongation is the transpose of
      restriction. *)
  Fixpoint symmetric_levels (ds : list fine) (nc : nat) : Prop :=
    match ds with
    | [] => True
    | d :: ds' => linear (fn d) (fn d) (fA d) /\ self_adjoint (fn d) (fA d) /\
        (exists B, linear (fn d) (fn d) B /\ self_adjoint (fn d) B /\
           forall b x, length b = fn d -> length x = fn d -> fS d b x = correction_step (fA d) B b x) /\
        linear (fn d) (top_size ds' nc) (fR d) /\ linear (top_size ds' nc) (fn d) (fP d) /\
        adjoint (fn d) (top_size ds' nc) (fR d) (fP d) /\ symmetric_levels ds' nc
    end.

  (** The operator of the next level is R A P; [Ac] is the operator of the coarsest level. *)
  Fixpoint galerkin_levels (ds : list fine) (nc : nat) (Ac : vec -> vec) : Prop :=
    match ds with
    | [] => True
    | d :: ds' =>
        (forall x, length x = top_size ds' nc ->
           match ds' with [] => Ac x | d' :: _ => fA d' x end = fR d (fA d (fP d x))) /\
        galerkin_levels ds' nc Ac
    end.
  (** Operator of the first level. *)
  Definition top_op (ds : list fine) (Ac : vec -> vec) : vec -> vec := match ds with [] => Ac | d :: _ => fA d end.

  (** No smoothing step increases the energy norm of the error. *)
  Fixpoint stable_smoothers (ds : list fine) : Prop :=
    match ds with
    | [] => True
    | d :: ds' =>
        (forall x e, length x = fn d -> length e = fn d ->
           exists e', length e' = fn d /\ fS d (fA d x) (vadd x e) = vadd x e' /\ energy (fA d) e' <= energy (fA d) e) /\
        stable_smoothers ds'
    end.

  (** Symmetric positive definite operators; smoothers that reduce the energy of every nonzero error. *)
  Definition spd (n : nat) (A : vec -> vec) : Prop :=
    self_adjoint n A /\ forall x, length x = n -> x <> vzero n -> 0 < energy A x.
  Definition relaxes (n : nat) (A B : vec -> vec) : Prop :=
    forall r, length r = n -> r <> vzero n -> dot (A (B r)) (B r) < (1 + 1) * dot (B r) r.
  Definition good_smoother (n : nat) (A : vec -> vec) (f : vec -> vec -> vec) : Prop :=
    exists B, linear n n B /\ self_adjoint n B /\ relaxes n A B /\
      forall b x, length b = n -> length x = n -> f b x = correction_step A B b x.

  (** All level components map zero data to zero, and smoothing leaves exact solutions alone. *)
  Fixpoint zero_levels (ds : list fine) (nc : nat) : Prop :=
    match ds with
    | [] => True
    | d :: ds' => fA d (vzero (fn d)) = vzero (fn d) /\ (forall x, length x = fn d -> fS d (fA d x) x = x) /\
        fR d (vzero (fn d)) = vzero (top_size ds' nc) /\ fP d (vzero (top_size ds' nc)) = vzero (fn d) /\ zero_levels ds' nc
    end.

  (** A step that, started from any x with error e, never increases the energy of the error. *)
  Definition stable_step (n : nat) (A : vec -> vec) (f : vec -> vec -> vec) : Prop :=
    forall x e, length x = n -> length e = n -> exists e', length e' = n /\ f (A x) (vadd x e) = vadd x e' /\ energy A e' <= energy A e.

  (** Every residual that occurs on a coarser level is in the range of the operator of that level. *)
  Fixpoint solvable_levels (ds : list fine) (nc : nat) (Ac : vec -> vec) : Prop :=
    match ds with
    | [] => True
    | d :: ds' => (forall e, length e = fn d -> exists z, length z = top_size ds' nc /\ fR d (fA d e) = top_op ds' Ac z) /\ solvable_levels ds' nc Ac
    end.
  Fixpoint sym_ops (ds : list fine) (nc : nat) : Prop :=
    match ds with
    | [] => True
    | d :: ds' => linear (fn d) (fn d) (fA d) /\ self_adjoint (fn d) (fA d) /\
        linear (fn d) (top_size ds' nc) (fR d) /\ linear (top_size ds' nc) (fn d) (fP d) /\
        adjoint (fn d) (top_size ds' nc) (fR d) (fP d) /\ sym_ops ds' nc
    end.

  (** The step strictly reduces the energy of every nonzero error. *)
  Definition strict_step (n : nat) (A : vec -> vec) (f : vec -> vec -> vec) : Prop :=
    forall x e, length x = n -> length e = n -> e <> vzero n ->
      exists e', length e' = n /\ f (A x) (vadd x e) = vadd x e' /\ energy A e' < energy A e.
  (** Exact coarse solvers. *)
  Definition exact_solver (A : mat K) (C : vec -> vec -> vec) : Prop :=
    forall b x, length b = nc A -> length x = nc A -> length (C b x) = nc A /\ mulvec A (C b x) = b.


  (** The levels of [h] act as described. *)
  Definition hier_describes (h : hierarchy K) (ds : list fine) (nc : nat) (C : vec -> vec -> vec) : Prop :=
    exists lv rest, h_levels h = lv :: rest /\ describes lv rest ds nc C.
  (** A user-level call vmult(x, b), with any usable timer, returns [f b x]. *)
  Definition vmult_gives (h : hierarchy K) (n : nat) (f : vec -> vec -> vec) : Prop :=
    forall te x b l, usable te (length (h_levels h)) -> open_sections l = [] -> length x = n -> length b = n ->
      exists l', hierarchy_vmult te h x b l = (Ok (f b x), l') /\ length (f b x) = n /\ open_sections l' = [].
  Definition pos_semidef (n : nat) (A : vec -> vec) : Prop := forall x, length x = n -> 0 <= energy A x.
  Definition pos_def (n : nat) (A : vec -> vec) : Prop := forall x, length x = n -> x <> vzero n -> 0 < energy A x.
  Definition full_row_rank (R : mat K) : Prop := forall x, length x = nr R -> mulTvec R x = vzero (nc R) -> x = vzero (nr R).

  (** ** What construction has to produce *)
  Section Built.
    Variable H : Type.
    Variable hh : helpers K H.
    Variable eps : K.
    (** The product A R^T that ends up in the coarse operator: from the helpers with fast_ap, computed otherwise. *)
    Definition product_from (p : ptree) (a r : op K) (h : H) (ap : op K) (h' : H) : Prop :=
      if pt_get parse_bool ["fast_ap"%string] false p then hh_fast_multiply_transpose hh h = (Ok ap, h')
      else op_multiply_transpose eps a r = Ok ap /\ h' = h.
    (** [built p ro a h ls h']: the levels [ls], of which the first has operator [a] and restrictor [ro], hold the objects returned by the
        helpers called in order fine to coarse from state [h] to state [h'], and every coarse operator is R (A R^T). *)
    Inductive built (p : ptree) : option (op K) -> op K -> H -> list (level K) -> H -> Prop :=
    | built_last : forall ro a h s h', hh_build_coarse_solver hh a p h = (Ok s, h') ->
        built p ro a h [mkLevel (Some a) ro None (Some s)] h'
    | built_cons : forall ro a h sm h1 r h2 ap h3 ac ls h',
        hh_build_smoother hh a p h = (Ok sm, h1) -> hh_build_restrictor hh p h1 = (Ok r, h2) ->
        product_from p a r h2 ap h3 -> op_multiply r ap = Ok ac ->
        built p (Some r) ac h3 ls h' -> built p ro a h (mkLevel (Some a) ro (Some sm) None :: ls) h'.
    (** Helpers for a symmetric positive definite matrix A: symmetric reducing smoothers, restrictions of full row rank, exact coarse solves. *)
    Record spd_helpers (p : ptree) (h0 : H) (n : nat) (A : mat K) : Prop := {
      sh_op : forall a h1, hh_get_global_operator hh h0 = (Ok a, h1) -> a = TriOp A /\ nr A = n /\ nc A = n /\ spd n (mulvec A);
      sh_smoother : forall (A : mat K) h s h', nr A = nc A -> spd (nc A) (mulvec A) -> hh_build_smoother hh (TriOp A) p h = (Ok s, h') ->
        exists f, bx_acts s (nc A) f /\ good_smoother (nc A) (mulvec A) f;
      sh_restrictor : forall h (R : mat K) h', hh_build_restrictor hh p h = (Ok (TriOp R), h') ->
        forall x, length x = nr R -> mulTvec R x = vzero (nc R) -> x = vzero (nr R);
      sh_coarse : forall (A : mat K) h s h', nr A = nc A -> spd (nc A) (mulvec A) -> hh_build_coarse_solver hh (TriOp A) p h = (Ok s, h') ->
        exists C, bx_acts s (nc A) C /\ forall b x, length b = nc A -> length x = nc A -> mulvec A (C b x) = b
    }.

    (** Helpers that always return objects, whose sizes fit: a smoother and a solver for every square matrix, a restriction with as many
        columns as the current level has unknowns (with fast_ap also a product of matching shape). [J h n]: state of the helpers in which the
        current level has n unknowns. *)
    Record fitting_helpers (p : ptree) (J : H -> nat -> Prop) : Prop := {
      ft_smoother : forall (A : mat K) h, nr A = nc A -> J h (nc A) ->
        exists s h' f, hh_build_smoother hh (TriOp A) p h = (Ok s, h') /\ bx_acts s (nc A) f /\ J h' (nc A);
      ft_restrictor : forall h n, J h n -> exists R h', hh_build_restrictor hh p h = (Ok (TriOp R), h') /\ nc R = n /\
        if pt_get parse_bool ["fast_ap"%string] false p
        then exists AP h'', hh_fast_multiply_transpose hh h' = (Ok (TriOp AP), h'') /\ nr AP = n /\ nc AP = nr R /\ J h'' (nr R)
        else J h' (nr R);
      ft_coarse : forall (A : mat K) h, nr A = nc A -> J h (nc A) ->
        exists s h' C, hh_build_coarse_solver hh (TriOp A) p h = (Ok s, h') /\ bx_acts s (nc A) C
    }.

  End Built.
End Spec.
Arguments mkFine {K} fn fA fS fR fP.
Arguments fn {K} _.
Arguments fA {K} _ _.
Arguments fS {K} _ _ _.
Arguments fR {K} _ _.
Arguments fP {K} _ _.
Arguments solvable_levels {K} ds nc Ac.
Arguments iter {K} k f x.
Arguments energy {K} A e.
Arguments correction_step {K} A B b x.
Arguments error_step {K} A B e.
Arguments maps {K} n m f.
Arguments textbook_vcycle {K} k ds nc C b x.
