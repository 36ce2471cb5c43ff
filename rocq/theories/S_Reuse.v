(** Specification notions for the options of the local eigenproblems: numbers, tolerances, initial guesses. *)
From Coq Require Import String List Arith ZArith Bool.
From Verif Require Import Base OField M_Ptree S_Host M_Restr.
Import ListNotations.
Set Implicit Arguments.
Open Scope list_scope.
Open Scope nat_scope.

(** [a] is what the user asked for under [path]: the value there when its text can be read, otherwise the default. *)
Definition asked {A} (parse : string -> option A) (path : list string) (dflt : A) (p : ptree) (a : A) : Prop :=
  match pt_find p path with
  | None => a = dflt
  | Some c => parse (pt_data c) = Some a \/ parse (pt_data c) = None /\ a = dflt
  end.
(** The number of eigenvectors asked for; one by default. *)
Definition asked_number (eig : ptree) (k : nat) : Prop :=
  exists z, asked parse_int ["number of eigenvectors"%string] 1%Z eig z /\ (0 <= z < 2 ^ 31)%Z /\ k = Z.to_nat z.
(** The user asked for the vectors of one agglomerate as initial guess for the next. *)
Definition asked_reuse (eig : ptree) : Prop :=
  (exists c, pt_find eig ["type"%string] = Some c /\ pt_data c = "anasazi"%string) /\ asked parse_bool ["use_initial_guess"%string] false eig true.
Section SReuse.
  Variable K : ofield.
  Local Notation vec := (vec K).
  (** The tolerance asked for; 10^-14 by default. *)
  Definition asked_tolerance (parse_double : string -> option K) (eig : ptree) (t : K) : Prop :=
    exists d : K, (d * fpos (10 ^ 14) = f1)%K /\ asked parse_double ["tolerance"%string] d eig t.
  (** The results [cs] of the agglomerates [1], [2], ..., each starting from the vectors of the one before, the first from nothing. *)
  Definition chained (solve : nat -> list vec -> outcome (agg_result K)) (cs : list (agg_result K)) : Prop :=
    forall a c, nth_error cs a = Some c ->
      solve (S a) (match a with 0 => [] | S b => match nth_error cs b with Some c' => ag_evecs c' | None => [] end end) = Ok c.
  (** The results of the agglomerates, each starting from nothing. *)
  Definition separate (solve : nat -> list vec -> outcome (agg_result K)) (cs : list (agg_result K)) : Prop :=
    forall a c, nth_error cs a = Some c -> solve (S a) [] = Ok c.
End SReuse.
