(** The real numbers of the standard library as an ordered field with total square roots, for the hypotheses [sqrt_ok] and [sqrt_total]. This file and
    the examples that use it rest on the axioms of the standard library's real numbers. *)
From Coq Require Import Reals Lra List.
From Verif Require Import Base OField LinAlg S_Lanczos.
Import ListNotations.
Set Implicit Arguments.

Definition R_leb (x y : R) : bool := if Rle_dec x y then true else false.
Definition R_eqb (x y : R) : bool := if Req_EM_T x y then true else false.
Definition ROF : ofield.
Proof.
  refine (@mkOF R 0%R 1%R Rplus Rmult Rminus Ropp Rdiv Rinv Rle R_leb R_eqb Rfield _ _ _ _ _ _ _ _).
  - intros x y. unfold R_leb. destruct (Rle_dec x y); split; intros; auto; discriminate.
  - intros x y. unfold R_eqb. destruct (Req_EM_T x y); split; intros; auto; discriminate.
  - intros. lra.
  - intros. lra.
  - intros. lra.
  - intros. lra.
  - intros. lra.
  - intros. apply Rmult_le_pos; auto.
Defined.

(** Stands in for std::sqrt (lanczos.templates.hpp:204). *)
Definition real_sqrt (x : ROF) : option ROF := if Rle_dec 0 x then Some (sqrt x) else None.
Lemma real_sqrt_ok : sqrt_ok real_sqrt.
Proof. intros x s H. unfold real_sqrt in H. destruct (Rle_dec 0 x); [|discriminate]. injection H as <-. split; [apply sqrt_pos|apply sqrt_sqrt; auto]. Qed.
Lemma real_sqrt_total : sqrt_total real_sqrt.
Proof. intros x H. unfold real_sqrt. destruct (Rle_dec 0 x) as [|N]; [eauto|destruct (N H)]. Qed.
