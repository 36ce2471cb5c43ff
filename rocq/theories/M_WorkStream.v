(** Model of dealii::WorkStream::run as the AMGe code uses it.  Definitions only. *)
From Coq Require Import List Arith Bool.
From Verif Require Import Base.
Import ListNotations.
Set Implicit Arguments.

Section WorkStream.
  (** Item, scratch data, copy data, and the data the copier writes to. *)
  Variables (I SC C O : Type).
  Variable worker : I -> SC -> C -> outcome (SC * C).
  Variable copier : C -> O -> outcome O.

  (** Objects alive during a run: scratch objects, copy-data objects (each with the item whose result it holds and that was not
      copied yet), the items whose worker has run, the next item to copy, and the copier's target.  External code (deal.II) reached
      from include/mfmg/dealii/amge_host.templates.hpp:509-520, 561-574 and source/dealii/dealii_hierarchy_helpers.cc:230-232.
      Simplification: one call of a worker or of the copier is atomic; the workers share no mutable data. *)
  Record ws := mkWs {
    ws_scratch : list SC;
    ws_bufs : list (C * option nat);
    ws_started : list nat;
    ws_next : nat;
    ws_out : O
  }.

  (** One call of the worker, or of the copier, with the contract of WorkStream: a worker gets some scratch object and some copy-data object
      that holds no uncopied result; every item is worked on once, in any order; the copier runs in item order.  Objects are reused as they
      are, not reset.  External code reached from amge_host.templates.hpp:509-520. *)
  Inductive ws_step (items : list I) : ws -> ws -> Prop :=
  | step_work : forall st i it s sc b c sc' c',
      nth_error items i = Some it -> ~ In i (ws_started st) ->
      nth_error (ws_scratch st) s = Some sc -> nth_error (ws_bufs st) b = Some (c, None) ->
      worker it sc c = Ok (sc', c') ->
      ws_step items st (mkWs (upd (ws_scratch st) s sc') (upd (ws_bufs st) b (c', Some i)) (i :: ws_started st) (ws_next st) (ws_out st))
  | step_copy : forall st b c o',
      nth_error (ws_bufs st) b = Some (c, Some (ws_next st)) ->
      copier c (ws_out st) = Ok o' ->
      ws_step items st (mkWs (ws_scratch st) (upd (ws_bufs st) b (c, None)) (ws_started st) (S (ws_next st)) o').

  (** Any number of steps.  External code reached from amge_host.templates.hpp:509-520. *)
  Inductive ws_steps (items : list I) : ws -> ws -> Prop :=
  | steps_refl : forall st, ws_steps items st st
  | steps_trans : forall a b c, ws_step items a b -> ws_steps items b c -> ws_steps items a c.

  (** Start: [ns] scratch objects and [nb] copy-data objects, all copies of the samples (deal.II), amge_host.templates.hpp:507-520. *)
  Definition ws_init (ns nb : nat) (sc : SC) (c : C) (o : O) : ws :=
    mkWs (repeat sc ns) (repeat (c, None) nb) [] 0 o.

  (** A complete run: all items copied.  External code reached from amge_host.templates.hpp:509-520. *)
  Definition ws_run (items : list I) (ns nb : nat) (sc : SC) (c : C) (o o' : O) : Prop :=
    exists st, ws_steps items (ws_init ns nb sc c o) st /\ ws_next st = length items /\ ws_out st = o'.

  (** The sequential run (one thread, or deal.II without threads): one scratch and one copy-data object, worker and copier alternate,
      amge_host.templates.hpp:509-520. *)
  Fixpoint ws_seq (items : list I) (sc : SC) (c : C) (o : O) : outcome O :=
    match items with
    | [] => Ok o
    | it :: rest =>
      let! (sc', c') := worker it sc c in
      let! o' := copier c' o in
      ws_seq rest sc' c' o'
    end.
End WorkStream.
