(** Specification of the AMGX renumbering, communication maps and solve, independent of the functions in M_Amgx. *)
From Coq Require Import List Arith Bool Permutation Sorted.
From Verif Require Import Base OField Mat M_Csr S_SpProd S_Csr M_Amgx.
Import ListNotations.
Set Implicit Arguments.
Open Scope nat_scope.

(** Interior rows first, then the rows that are sent, both in increasing order. *)
Definition row_order (n : nat) (sent : list nat) : list nat :=
  filter (fun i => negb (existsb (Nat.eqb i) sent)) (seq 0 n) ++ filter (fun i => existsb (Nat.eqb i) sent) (seq 0 n).
(** The global index each new local index stands for: the owned rows in their new order, then the halo. *)
Definition new_ids (range order halo : list nat) : list nat := map (fun r => nth r range 0) order ++ halo.
(** The halo: the columns that are not owned, increasing. *)
Definition is_halo (range cols halo : list nat) : Prop :=
  StronglySorted lt halo /\ forall g, In g halo <-> In g cols /\ ~ In g range.

Section S.
  Variable K : ofield.
  (** [rows'] is the matrix with rows [rows] in the numbering [order] of the rows and [ids] of the columns: the same stored entries, with
      increasing columns in every row. *)
  Definition renumbered_as (order ids : list nat) (rows rows' : list (list (nat * K))) : Prop :=
    length rows' = length rows /\
    forall k r, nth_error order k = Some r ->
      Permutation (global_row ids (nth k rows' [])) (nth r rows []) /\
      (forall e, In e (nth k rows' []) -> fst e < length ids) /\
      StronglySorted le (map fst (nth k rows' [])) /\
      (simple_row (nth r rows []) -> sorted_row (nth k rows' [])).

  (** The matrices of all ranks: rows partitioned, increasing on every rank, columns inside the matrix. *)
  Definition distributed_rows (n : nat) (cs : list (csr K)) : Prop :=
    partition n (map (@c_range K) cs) /\
    forall c, In c cs -> c_m c = n /\ c_n c = n /\ StronglySorted lt (c_range c) /\ (exists rows, csr_holds c rows) /\ forall g, In g (c_col c) -> g < n.
  (** Rank p has a column owned by rank q. *)
  Definition needs (cs : list (csr K)) (p q : nat) : Prop :=
    p <> q /\ exists cp cq g, nth_error cs p = Some cp /\ nth_error cs q = Some cq /\ In g (c_col cp) /\ In g (c_range cq).
  (** The global indices rank q owns and rank p has as columns, increasing. *)
  Definition shared_ids (cs : list (csr K)) (p q : nat) (ids : list nat) : Prop :=
    StronglySorted lt ids /\ forall g, In g ids <-> exists cp cq, nth_error cs p = Some cp /\ nth_error cs q = Some cq /\ In g (c_col cp) /\ In g (c_range cq).

  (** The indices in [new] stand for the global indices [globals], all of them owned (below n), or all of them halo. *)
  Definition stands_for (ids : list nat) (n : nat) (own : bool) (globals new : list nat) : Prop :=
    Forall2 (fun g l => nth_error ids l = Some g /\ (l <? n) = own) globals new.
  (** What rank p gives to AMGX: the renumbered matrix, as neighbours the ranks that need its rows, and for each neighbour the new indices of the
      rows sent and of the columns received. [order] and [halo] describe the numbering. *)
  Record amgx_ready (cs : list (csr K)) (p : nat) (c : csr K) (d : amgx_data K) (order halo : list nat) : Prop := {
    ar_order : exists sent, order = row_order (length (c_range c)) sent /\
                 forall i, In i sent <-> i < length (c_range c) /\ exists q cq, q <> p /\ nth_error cs q = Some cq /\ In (nth i (c_range c) 0) (c_col cq);
    ar_halo : is_halo (c_range c) (c_col c) halo;
    ar_range : c_range (a_matrix d) = c_range c;
    ar_matrix : exists rows rows', csr_holds c rows /\ csr_holds (a_matrix d) rows' /\ renumbered_as order (new_ids (c_range c) order halo) rows rows';
    ar_row_map : Permutation (a_row_map d) (combine order (seq 0 (length (c_range c))));
    ar_neighbors : StronglySorted lt (a_neighbors d) /\ forall q, In q (a_neighbors d) <-> needs cs q p;
    ar_send_length : length (a_send d) = length (a_neighbors d);
    ar_recv_length : length (a_recv d) = length (a_neighbors d);
    ar_send : forall k q new, nth_error (a_neighbors d) k = Some q -> nth_error (a_send d) k = Some new ->
                exists globals, shared_ids cs q p globals /\ stands_for (new_ids (c_range c) order halo) (length (c_range c)) true globals new;
    ar_recv : forall k q new, nth_error (a_neighbors d) k = Some q -> nth_error (a_recv d) k = Some new ->
                exists globals, shared_ids cs p q globals /\ stands_for (new_ids (c_range c) order halo) (length (c_range c)) false globals new
  }.

  (** Entry j of the vector that rank p uses in its product: its own, or for a halo index what the rank paired with it by the maps sends in the
      same position (what AMGX does with the maps it is given). *)
  Definition halo_exchange (datas : list (amgx_data K)) (xs : list (list K)) (p j : nat) (w : K) : Prop :=
    exists dp, nth_error datas p = Some dp /\
      ((j < length (c_range (a_matrix dp)) /\ exists x, nth_error xs p = Some x /\ nth_error x j = Some w) \/
       (length (c_range (a_matrix dp)) <= j /\
        exists k t q dq k' l x recv send, nth_error (a_neighbors dp) k = Some q /\ nth_error (a_recv dp) k = Some recv /\ nth_error recv t = Some j /\
          nth_error datas q = Some dq /\ nth_error (a_neighbors dq) k' = Some p /\ nth_error (a_send dq) k' = Some send /\ nth_error send t = Some l /\
          nth_error xs q = Some x /\ nth_error x l = Some w)).
  (** [xs] solves the distributed system AMGX was given, with right-hand sides [bs]. *)
  Definition amgx_solved (datas : list (amgx_data K)) (bs xs : list (list K)) : Prop :=
    length xs = length datas /\
    forall p dp x b, nth_error datas p = Some dp -> nth_error xs p = Some x -> nth_error bs p = Some b ->
      length x = length (c_range (a_matrix dp)) /\
      forall rows, csr_holds (a_matrix dp) rows ->
        exists val : nat -> K,
          (forall row e, In row rows -> In e row -> halo_exchange datas xs p (fst e) (val (fst e))) /\
          forall i, i < length rows -> lsum (map (fun e : nat * K => fmul (snd e) (val (fst e))) (nth i rows [])) = nth i b f0.
End S.
Arguments renumbered_as {K} order ids rows rows'.
Arguments distributed_rows {K} n cs.
Arguments needs {K} cs p q.
Arguments shared_ids {K} cs p q ids.
Arguments amgx_ready {K} cs p c d order halo.
Arguments halo_exchange {K} datas xs p j w.
Arguments amgx_solved {K} datas bs xs.
