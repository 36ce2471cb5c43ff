(** Specification of distributed matrices and vectors used with M_SpProd. *)
From Coq Require Import List Arith Bool.
From Verif Require Import Base OField Mat M_SpProd.
Import ListNotations.
Set Implicit Arguments.
Open Scope nat_scope.

(** Every index below n is owned by exactly one rank, once; nothing else is owned. *)
Definition partition (n : nat) (l : list (list nat)) : Prop :=
  NoDup (concat l) /\ forall i, In i (concat l) <-> i < n.

Section S.
  Variable K : ofield.
  Local Open Scope K_scope.
  (** The distributed form of a global vector. *)
  Definition scatter (owned : list (list nat)) (x : vec K) : dist_vec K := map (map (fun i => nth i x 0)) owned.
  (** The distributed matrix d holds the entries of B: rows and columns partitioned over the same number of ranks; the stored entries of an owned
      row have distinct global columns below n and the values of B, and every other entry of that row of B is zero. *)
  Record holds (d : dist_mat K) (B : mat K) : Prop := {
    ho_m : nr B = d_m d;
    ho_n : nc B = d_n d;
    ho_range : partition (d_m d) (d_range d);
    ho_domain : partition (d_n d) (d_domain d);
    ho_ranks : length (d_domain d) = length (d_range d);
    ho_rows : forall r lj, (r < length (d_range d))%nat -> (lj < length (nth r (d_range d) []))%nat ->
      exists entries, nth_error (nth r (d_rows d) []) lj = Some entries /\
      (forall e, In e entries -> (fst e < length (nth r (d_colmap d) []))%nat /\ (nth (fst e) (nth r (d_colmap d) []) 0%nat < d_n d)%nat) /\
      NoDup (map (fun e : nat * K => nth (fst e) (nth r (d_colmap d) []) 0%nat) entries) /\
      forall k, (k < d_n d)%nat ->
        (forall e, In e entries -> nth (fst e) (nth r (d_colmap d) []) 0%nat = k -> ent B (nth lj (nth r (d_range d) []) 0%nat) k = snd e) /\
        ((forall e, In e entries -> nth (fst e) (nth r (d_colmap d) []) 0%nat <> k) -> ent B (nth lj (nth r (d_range d) []) 0%nat) k = 0)
  }.
  (** The distributed operator computes the global map f from vectors of length n to vectors of length m. *)
  Definition computes (apply : dist_vec K -> outcome (dist_vec K)) (domain range : list (list nat)) (n m : nat) (f : vec K -> vec K) : Prop :=
    forall x, length x = n -> length (f x) = m /\ apply (scatter domain x) = Ok (scatter range (f x)).
  (** Entry (i, j, v) is stored by some rank. *)
  Definition stored (C : list (list (nat * nat * K))) (i j : nat) (v : K) : Prop := In (i, j, v) (concat C).
  (** The matrix given by stored entries: 0 where nothing is stored. *)
  Definition value_of (C : list (list (nat * nat * K))) (i j : nat) : K :=
    match find (fun e : nat * nat * K => (fst (fst e) =? i)%nat && (snd (fst e) =? j)%nat) (concat C) with Some e => snd e | None => 0 end.
End S.
Arguments scatter {K} owned x.
Arguments holds {K} d B.
Arguments computes {K} apply domain range n m f.
Arguments stored {K} C i j v.
Arguments value_of {K} C i j.
