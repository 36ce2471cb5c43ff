(** Matrices over an ordered field. A sparse matrix of the C++ code (Trilinos, deal.II or CUDA) is represented by its numbers of
    rows and columns and its entries; entries outside the sparsity pattern are 0. No counterpart in /repo. *)
From Coq Require Import List Arith Lia Bool Field.
From Verif Require Import Base OField.
Import ListNotations.
Set Implicit Arguments.

Record mat (K : ofield) : Type := mkMat { nr : nat; nc : nat; ent : nat -> nat -> K }.
Arguments mkMat {K} nr nc ent.
Arguments nr {K} m.
Arguments nc {K} m.
Arguments ent {K} m i j.

Section Mat.
  Variable K : ofield.
  Add Field KfieldM : (f_field K).
  Local Open Scope K_scope.

  (** Product with a vector, product of the transpose with a vector. *)
  Definition mulvec (M : mat K) (x : vec K) : vec K := map (fun i => sumn (nc M) (fun j => ent M i j * nth j x 0)) (seq 0 (nr M)).
  Definition mtrans (M : mat K) : mat K := mkMat (nc M) (nr M) (fun i j => ent M j i).
  Definition mulTvec (M : mat K) (y : vec K) : vec K := mulvec (mtrans M) y.
  Definition mmul (A B : mat K) : mat K := mkMat (nr A) (nc B) (fun i j => sumn (nc A) (fun k => ent A i k * ent B k j)).
  Definition madd (A B : mat K) : mat K := mkMat (nr A) (nc A) (fun i j => ent A i j + ent B i j).
  (** Row i as a vector. *)
  Definition row (M : mat K) (i : nat) : vec K := map (fun j => ent M i j) (seq 0 (nc M)).
  (** Matrix given by its list of rows (for examples). *)
  Definition of_rows (n m : nat) (l : list (list K)) : mat K := mkMat n m (fun i j => nth j (nth i l []) 0).
  Definition meq (A B : mat K) : Prop := nr A = nr B /\ nc A = nc B /\ forall i j, (i < nr A)%nat -> (j < nc A)%nat -> ent A i j = ent B i j.

  Lemma mulvec_length : forall M x, length (mulvec M x) = nr M.
  Proof. intros. unfold mulvec. rewrite map_length, seq_length. auto. Qed.
  Lemma mulTvec_length : forall M x, length (mulTvec M x) = nc M.
  Proof. intros. apply mulvec_length. Qed.
  Lemma row_length : forall M i, length (row M i) = nc M.
  Proof. intros. unfold row. rewrite map_length, seq_length. auto. Qed.

  Lemma nth_map_seq : forall (f : nat -> K) n i, (i < n)%nat -> nth i (map f (seq 0 n)) 0 = f i.
  Proof.
    intros f n i H. rewrite nth_indep with (d' := f 0%nat) by (rewrite map_length, seq_length; auto).
    rewrite map_nth, seq_nth by auto. auto.
  Qed.
  Lemma nth_mulvec : forall M x i, (i < nr M)%nat -> nth i (mulvec M x) 0 = sumn (nc M) (fun j => ent M i j * nth j x 0).
  Proof. intros. unfold mulvec. rewrite nth_map_seq; auto. Qed.
  Lemma nth_row : forall M i j, (j < nc M)%nat -> nth j (row M i) 0 = ent M i j.
  Proof. intros. unfold row. rewrite nth_map_seq; auto. Qed.

  Lemma mulvec_linear : forall M, linear (nc M) (nr M) (mulvec M).
  Proof.
    intros M. constructor; intros.
    - apply mulvec_length.
    - apply vec_ext; rewrite ?vadd_length, ?mulvec_length; auto; [lia|]. intros i Hi.
      rewrite nth_vadd, !nth_mulvec by (rewrite ?mulvec_length; auto). rewrite <- sumn_add. apply sumn_ext. intros j Hj.
      rewrite nth_vadd by congruence. ring.
    - apply vec_ext; rewrite ?vscale_length, ?mulvec_length; auto. intros i Hi.
      rewrite nth_vscale, !nth_mulvec by auto. rewrite <- sumn_scale. apply sumn_ext. intros j Hj. rewrite nth_vscale. ring.
  Qed.
  Lemma mulTvec_linear : forall M, linear (nr M) (nc M) (mulTvec M).
  Proof. intros M. apply (mulvec_linear (mtrans M)). Qed.

  Lemma mulvec_adjoint : forall M, adjoint (nc M) (nr M) (mulvec M) (mulTvec M).
  Proof.
    intros M x y Hx Hy. rewrite (@dot_sumn K _ _ (nr M)) by (auto; apply mulvec_length).
    rewrite (@dot_sumn K _ _ (nc M)) by (auto; apply mulTvec_length).
    rewrite (sumn_ext (nr M) _ (fun i => sumn (nc M) (fun j => ent M i j * nth j x 0 * nth i y 0))).
    2:{ intros i Hi. rewrite nth_mulvec by auto. symmetry. apply sumn_scale_r. }
    rewrite sumn_swap. apply sumn_ext. intros j Hj. unfold mulTvec. rewrite nth_mulvec by auto. simpl.
    rewrite <- sumn_scale. apply sumn_ext. intros i Hi. ring.
  Qed.
  Lemma mulTvec_adjoint : forall M, adjoint (nr M) (nc M) (mulTvec M) (mulvec M).
  Proof. intros M. apply adjoint_sym. apply mulvec_adjoint. Qed.

  Lemma mulvec_mmul : forall A B x, nc A = nr B -> mulvec (mmul A B) x = mulvec A (mulvec B x).
  Proof.
    intros A B x H. apply vec_ext; rewrite ?mulvec_length; auto. intros i Hi. rewrite !nth_mulvec by auto. simpl.
    rewrite (sumn_ext (nc A) (fun j => ent A i j * nth j (mulvec B x) 0) (fun j => sumn (nc B) (fun k => ent A i j * ent B j k * nth k x 0))).
    2:{ intros j Hj. rewrite nth_mulvec by lia. rewrite <- sumn_scale. apply sumn_ext. intros k Hk. ring. }
    rewrite sumn_swap. apply sumn_ext. intros k Hk. symmetry. apply sumn_scale_r.
  Qed.
  Lemma mtrans_mmul : forall A B, nc A = nr B -> meq (mtrans (mmul A B)) (mmul (mtrans B) (mtrans A)).
  Proof.
    intros A B H. split; [|split]; auto. intros i j Hi Hj. simpl. rewrite H. apply sumn_ext. intros k Hk. ring.
  Qed.
  Lemma mulvec_meq : forall A B x, meq A B -> mulvec A x = mulvec B x.
  Proof.
    intros A B x (H1 & H2 & H3). apply vec_ext; rewrite ?mulvec_length; auto. intros i Hi. rewrite !nth_mulvec by lia.
    rewrite H2. apply sumn_ext. intros j Hj. rewrite H3; auto. lia.
  Qed.
  Lemma mulTvec_mmul : forall A B y, nc A = nr B -> mulTvec (mmul A B) y = mulTvec B (mulTvec A y).
  Proof.
    intros A B y H. unfold mulTvec. rewrite (mulvec_meq y (mtrans_mmul A B H)). apply mulvec_mmul. simpl. auto.
  Qed.
  Lemma mulvec_unit : forall M j i, (j < nc M)%nat -> (i < nr M)%nat -> nth i (mulvec M (unit_vec (nc M) j)) 0 = ent M i j.
  Proof.
    intros M j i Hj Hi. rewrite nth_mulvec by auto. rewrite (sumn_single _ j); auto.
    - rewrite nth_unit_vec, Nat.eqb_refl by auto. ring.
    - intros k Hk Hne. rewrite nth_unit_vec by auto. destruct (Nat.eqb_spec k j); [contradiction|ring].
  Qed.
  (** Entry (i, j) of A B^T is the i-th component of A applied to row j of B. *)
  Lemma mulvec_row : forall A B i j, nc A = nc B -> (i < nr A)%nat -> nth i (mulvec A (row B j)) 0 = ent (mmul A (mtrans B)) i j.
  Proof.
    intros A B i j H Hi. rewrite nth_mulvec by auto. simpl. apply sumn_ext. intros k Hk. rewrite nth_row by lia. auto.
  Qed.
  (** A matrix is symmetric iff its product is self-adjoint. *)
  Lemma self_adjoint_sym : forall M, nr M = nc M -> self_adjoint (nc M) (mulvec M) ->
    forall i j, (i < nr M)%nat -> (j < nr M)%nat -> ent M i j = ent M j i.
  Proof.
    intros M H S i j Hi Hj.
    specialize (S (unit_vec (nc M) j) (unit_vec (nc M) i) (unit_vec_length _ _ _) (unit_vec_length _ _ _)).
    rewrite dot_comm in S. rewrite !(@dot_unit K (nc M)) in S by (rewrite ?mulvec_length; lia).
    rewrite !mulvec_unit in S by lia. auto.
  Qed.
End Mat.
Arguments mulvec {K} M x.
Arguments mulTvec {K} M y.
Arguments mtrans {K} M.
Arguments mmul {K} A B.
Arguments madd {K} A B.
Arguments row {K} M i.
Arguments of_rows {K} n m l.
Arguments meq {K} A B.
#[export] Hint Rewrite mulvec_length mulTvec_length row_length : veclen.
