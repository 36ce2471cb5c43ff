(** Specification of multivectors: contents, sharing, and what each operation has to compute. *)
From Coq Require Import List Arith Bool.
From Verif Require Import Base OField Mat M_MultiVec.
Import ListNotations.
Set Implicit Arguments.
Open Scope nat_scope.

Section S.
  Variable K : ofield.
  Implicit Types (h : list (vec K)) (x y : list nat).
  (** The vector at position i of a multivector. *)
  Definition at_pos h x (i : nat) : vec K := nth (nth i x 0) h [].
  (** The contents. *)
  Definition content h x : list (vec K) := map (fun p => nth p h []) x.
  (** The vectors exist. *)
  Definition lives h x : Prop := forall p, In p x -> p < length h.
  (** All of one size. *)
  Definition sized h x (n : nat) : Prop := lives h x /\ forall p, In p x -> length (nth p h []) = n.
  (** Nothing else changed. *)
  Definition only_changes h h' x : Prop := length h' = length h /\ forall p, ~ In p x -> nth p h' [] = nth p h [].
  (** No vector in common. *)
  Definition separate x y : Prop := forall p, In p x -> ~ In p y.
  (** No vector that an earlier step writes (positions of y before i) is read in a later one (position i of x). *)
  Definition not_overtaken x y : Prop := forall i j, i < j -> j < length x -> i < length y -> nth i y 0 <> nth j x 0.

  (** alpha A B(:,j) + beta m_j. *)
  Definition combined (alpha : K) (A : list (vec K)) (B : mat K) (beta : K) (m : vec K) (j : nat) : vec K :=
    map (fun e => fadd (fmul beta (nth e m f0)) (fmul alpha (sumn (length A) (fun k => fmul (ent B k j) (nth e (nth k A []) f0))))) (seq 0 (length m)).
  (** alpha a + beta b. *)
  Definition summed (alpha : K) (a : vec K) (beta : K) (b : vec K) : vec K :=
    map (fun e => fadd (fmul alpha (nth e a f0)) (fmul beta (nth e b f0))) (seq 0 (length a)).

  (** The family of each multivector a program makes: new ones, clones and copies start one, a view belongs to that of its source. *)
  Fixpoint families (fs : list nat) (os : list (mop K)) : list nat :=
    match os with
    | [] => fs
    | VNew _ _ :: t | VClone _ _ :: t | VCopy _ _ :: t => families (fs ++ [length fs]) t
    | VView m _ :: t => families (fs ++ [nth m fs 0]) t
    | _ :: t => families fs t
    end.
  (** The multivector an operation writes to. *)
  Definition target (o : mop K) : option nat :=
    match o with
    | VTimes _ _ _ _ m | VAdd _ _ _ _ m | VScale m _ | VScaleEach m _ | VSet _ _ m | VRandom m | VInit m _ | VApply _ _ m => Some m
    | VNew _ _ | VClone _ _ | VCopy _ _ | VView _ _ => None
    end.
  (** No operation writes to a multivector of family f. *)
  Fixpoint leaves (f : nat) (fs : list nat) (os : list (mop K)) : Prop :=
    match os with
    | [] => True
    | o :: t => (forall m, target o = Some m -> nth m fs 0 <> f) /\ leaves f (families fs [o]) t
    end.
  (** The contents of multivector k of a program. *)
  Definition value (s : mstate K) (k : nat) : option (list (vec K)) := option_map (content (ms_store s)) (nth_error (ms_multis s) k).
End S.
Arguments at_pos {K} h x i.
Arguments content {K} h x.
Arguments lives {K} h x.
Arguments sized {K} h x n.
Arguments only_changes {K} h h' x.
Arguments combined {K} alpha A B beta m j.
Arguments summed {K} alpha a beta b.
Arguments families {K} fs os.
Arguments target {K} o.
Arguments leaves {K} f fs os.
Arguments value {K} s k.
