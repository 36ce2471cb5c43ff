(** Specification for the Lanczos solver, independent of M_Lanczos. *)
From Coq Require Import List Arith Bool.
From Verif Require Import Base OField Mat LinAlg.
Import ListNotations.
Set Implicit Arguments.
Open Scope nat_scope.

(** The iterations in which convergence is checked, the latest first: iteration 1; after iteration c the first iteration that exceeds c by more than
    [percent] percent of c, at the latest the last one. *)
Definition next_check (percent maxit c : nat) : nat := Nat.min maxit (c + percent * c / 100 + 1).
Inductive schedule (percent maxit : nat) : list nat -> Prop :=
| sch_first : schedule percent maxit [1]
| sch_next : forall c l, schedule percent maxit (c :: l) -> c < maxit -> schedule percent maxit (next_check percent maxit c :: c :: l).

Section S.
  Variable K : ofield.
  Local Open Scope K_scope.
  Notation vec := (vec K).

  (** Contract of std::sqrt in exact arithmetic; [sqrt_total] holds over the reals. *)
  Definition sqrt_ok (fsqrt : K -> option K) : Prop := forall x s, fsqrt x = Some s -> 0 <= s /\ s * s = x.
  Definition sqrt_total (fsqrt : K -> option K) : Prop := forall x, 0 <= x -> exists s, fsqrt x = Some s.

  Definition orthonormal (n : nat) (vs : list vec) : Prop :=
    sized_all n vs /\
    forall i j, (i < length vs)%nat -> (j < length vs)%nat -> dot (nth i vs []) (nth j vs []) = if (i =? j)%nat then 1 else 0.
  Definition span (n : nat) (vs : list vec) (x : vec) : Prop := exists cs, length cs = length vs /\ x = comb n cs vs.
  Definition independent (n : nat) (vs : list vec) : Prop :=
    forall cs, length cs = length vs -> comb n cs vs = vzero n -> cs = vzero (length vs).
  Definition orth_to (vs : list vec) (x : vec) : Prop := forall v, In v vs -> dot x v = 0.

  (** A linear subspace of the vectors of length n, and an operator that maps it into itself, linear and symmetric there. *)
  Record subspace (n : nat) (S : vec -> Prop) : Prop := {
    su_len : forall x, S x -> length x = n;
    su_add : forall x y, S x -> S y -> S (vadd x y);
    su_scale : forall s x, S x -> S (vscale s x)
  }.
  Record symmetric_on (S : vec -> Prop) (op : vec -> vec) : Prop := {
    sy_into : forall x, S x -> S (op x);
    sy_sym : forall x y, S x -> S y -> dot (op x) y = dot x (op y)
  }.

  (** The symmetric tridiagonal matrix with the given diagonals. *)
  Definition tridiag (main sub : list K) : mat K :=
    mkMat (length main) (length main)
      (fun i j => if (i =? j)%nat then nth i main 0
                  else if (j =? S i)%nat then nth i sub 0
                  else if (i =? S j)%nat then nth j sub 0
                  else 0).
  (** Contract of LAPACKE_dstev in exact arithmetic: ascending eigenvalues and an orthonormal set of eigenvectors stored one after another. *)
  Definition chunk (n i : nat) (l : list K) : list K := firstn n (skipn (n * i) l).
  Definition ascending (l : list K) : Prop := forall i j, (i <= j)%nat -> (j < length l)%nat -> nth i l 0 <= nth j l 0.
  Definition eigen_system (M : mat K) (evals evecs : list K) : Prop :=
    let n := nr M in
    length evals = n /\ length evecs = (n * n)%nat /\ ascending evals /\
    orthonormal n (map (fun i => chunk n i evecs) (seq 0 n)) /\
    forall i, (i < n)%nat -> mulvec M (chunk n i evecs) = vscale (nth i evals 0) (chunk n i evecs).
  Definition dstev_ok (dstev : list K -> list K -> outcome (list K * list K)) : Prop :=
    forall main sub evals evecs, length main = S (length sub) -> dstev main sub = Ok (evals, evecs) -> eigen_system (tridiag main sub) evals evecs.

  (** The pairs the spurious-eigenvalue filter removes. [evals2] are the eigenvalues of the matrix without its first row and column, compared only if
      [compared]. *)
  Definition close (tol2 a b : K) : Prop := b - tol2 <= a /\ a <= b + tol2.
  Definition removed (tol2 : K) (compared : bool) (evals evals2 : list K) (i : nat) : Prop :=
    (compared = true /\ (forall i', (i' < length evals)%nat -> i' <> i -> ~ close tol2 (nth i' evals 0) (nth i evals 0)) /\
       exists j, (j < length evals2)%nat /\ close tol2 (nth j evals2 0) (nth i evals 0)) \/
    (exists i', (i' < i)%nat /\ close tol2 (nth i' evals 0) (nth i evals 0)).
End S.
Arguments sqrt_ok {K} fsqrt.
Arguments sqrt_total {K} fsqrt.
Arguments orthonormal {K} n vs.
Arguments span {K} n vs x.
Arguments independent {K} n vs.
Arguments orth_to {K} vs x.
Arguments subspace {K} n S.
Arguments symmetric_on {K} S op.
Arguments tridiag {K} main sub.
Arguments close {K} tol2 a b.
Arguments removed {K} tol2 compared evals evals2 i.
Arguments chunk {K} n i l.
Arguments ascending {K} l.
Arguments eigen_system {K} M evals evecs.
Arguments dstev_ok {K} dstev.
