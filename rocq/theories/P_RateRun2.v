(** Two-grid cycles as measured by the driver. *)
From Coq Require Import String List Arith ZArith Bool Lia Field.
From Verif Require Import Base OField Mat LinAlg M_Hier S_Hier P_Hier M_Smoother P_Smoother S_HostEnd P_HostEnd S_Cheby P_Cheby2 S_Rate P_Rate M_RateRun S_RateRun P_RateRun.
Import ListNotations.
Set Implicit Arguments.
Open Scope list_scope.
Open Scope nat_scope.

Section P.
  Variable K : ofield.
  Add Field KfieldPRR2 : (f_field K).
  Local Open Scope K_scope.
  Notation vec := (vec K).
  Ltac vx := unfold OField.vec in *; vext; try ring.

  Section TwoGrid.
    Variables (A R : mat K) (B : vec -> vec) (k : nat) (h : hierarchy K) (th lambda : K).
    Hypothesis DA : nr A = nc A.
    Hypothesis SA : spd (nc A) (mulvec A).
    Hypothesis LB : linear (nc A) (nc A) B.
    Hypothesis SB : self_adjoint (nc A) B.
    Hypothesis DR : nc R = nc A.
    Hypothesis V : forall te x b l, open_sections l = [] -> length x = nc A -> length b = nc A ->
      exists y l', hierarchy_vmult te h x b l = (Ok y, l') /\ open_sections l' = [] /\ two_grid A R B k b x y.

    Lemma grid_symmetric : symmetric_cycle (nc A) (mulvec A) h.
    Proof.
      intros te te' x x' xs xs' l l' l1 l1' y y' O O' Lx Lx' Ls Ls' E E'.
      assert (LL : forall z, length z = nc A -> length (mulvec A z) = nc A) by (intros z _; rewrite mulvec_length; exact DA).
      destruct (V te _ _ _ O Lx (LL _ Ls)) as (y2 & l2 & F & _ & T). rewrite F in E. injection E as <- _.
      destruct (V te' _ _ _ O' Lx' (LL _ Ls')) as (y3 & l3 & F' & _ & T'). rewrite F' in E'. injection E' as <- _.
      apply (@two_grid_symmetric K A R B k); auto.
    Qed.
    Lemma grid_reducing : (0 < k)%nat -> smooths (nc A) (mulvec A) B th -> 0 <= th -> 0 < lambda -> approximates A R lambda ->
      reducing_cycle (nc A) (mulvec A) h (1 - th * lambda).
    Proof.
      intros Hk SM Ht Hl AX te x xs l O Lx Ls.
      assert (LL : length (mulvec A xs) = nc A) by (rewrite mulvec_length; exact DA).
      destruct (V te _ _ _ O Lx LL) as (y & l' & E & O' & T). exists y, l'. split; [exact E|]. split; [exact O'|].
      apply (@two_grid_rate K A R B th lambda k (mulvec A xs) x y xs); auto.
    Qed.
  End TwoGrid.

  (** The same cycles for a function that agrees with the matrix. *)
  Section Same.
    Variables (n : nat) (f g : vec -> vec) (h : hierarchy K) (rho : K).
    Hypothesis Hfg : forall v, length v = n -> f v = g v.
    Lemma same_reducing : reducing_cycle n g h rho -> reducing_cycle n f h rho.
    Proof.
      intros H te x xs l O Lx Ls. destruct (H te x xs l O Lx Ls) as (y & l' & E & O' & Ly & EN). exists y, l'. rewrite Hfg by exact Ls. split; [exact E|]. split; [exact O'|].
      split; [exact Ly|]. unfold energy in *. rewrite !Hfg by (unfold OField.vec in *; vlen). exact EN.
    Qed.
    Lemma same_symmetric : reducing_cycle n g h rho -> symmetric_cycle n g h -> symmetric_cycle n f h.
    Proof.
      intros HR H te te' x x' xs xs' l l' l1 l1' y y' O O' Lx Lx' Ls Ls' E E'. rewrite Hfg in E, E' by assumption.
      destruct (HR te x xs l O Lx Ls) as (z & l2 & F & _ & Ly & _). rewrite F in E. assert (Q : z = y) by (injection E as Q _; exact Q). subst z.
      rewrite !Hfg by (unfold OField.vec in *; vlen). exact (H te te' x x' xs xs' l l' l2 l1' y y' O O' Lx Lx' Ls Ls' F E').
    Qed.
  End Same.
End P.
