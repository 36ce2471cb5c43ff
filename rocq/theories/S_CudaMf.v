(** Specification of the products of matrix-free operators on the device. *)
From Coq Require Import List Arith Bool.
From Verif Require Import Base OField Mat M_SpProd S_SpProd M_Csr S_Csr M_CudaOp S_CudaOp M_CudaMf.
Import ListNotations.
Set Implicit Arguments.
Open Scope nat_scope.

Section S.
  Variable K : ofield.
  Local Open Scope K_scope.
  (** The operator computes A x into any destination of the right layout. *)
  Definition evaluates (o : mf_operator K) (owned : list (list nat)) (A : mat K) : Prop :=
    f_owned o = owned /\
    forall x y, length x = nc A -> map (@length K) y = map (@length nat) owned -> f_evaluate o (scatter owned x) y = Ok (scatter owned (mulvec A x)).
  (** The product A B^T without its entries of modulus at most eps. *)
  Definition truncated_product (eps : K) (A B : mat K) : mat K :=
    mkMat (nr A) (nr B) (fun i j => if eps <? fabs (ent (mmul A (mtrans B)) i j) then ent (mmul A (mtrans B)) i j else 0).
End S.
Arguments evaluates {K} o owned A.
Arguments truncated_product {K} eps A B.
