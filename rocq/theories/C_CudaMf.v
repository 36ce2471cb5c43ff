(** C80: matrix-free operators on the device: products with the transpose of a matrix operator. *)
From Coq Require Import List Arith Lia Bool Field Sorted ZArith QArith Qcanon.
From Verif Require Import Base OField Mat M_SpProd S_SpProd P_SpProd M_Csr S_Csr P_Csr P_Csr3 P_Csr4 C_Csr M_CudaOp S_CudaOp P_CudaOp P_CudaHier2 E_CudaOp E_Lanczos C_CudaOp
  M_CudaMf S_CudaMf P_CudaMf.
Import ListNotations.
Set Implicit Arguments.
Open Scope nat_scope.

Section C.
  Variable K : ofield.
  Add Field KfCCudaMf : (f_field K).
  Implicit Types (L : libraries K) (B : mat K).

  Lemma product_means : forall debug L eps (o : mf_operator K) s ms b A B rows owned cb rb, libraries_ok L -> state_means s ms ->
    nth_error ms b = Some (mkMeaning B rows owned cb rb) -> evaluates o owned A -> nr A = nc A -> nc A = nc B -> no_zero_rank owned (truncated_product eps A B) ->
    exists s1, mf_multiply_transpose debug L eps o s b = Ok s1 /\ state_means s1 (ms ++ [mkMeaning (truncated_product eps A B) owned rows false rb]).
  Proof.
    intros debug L eps o s ms b A B rows owned cb rb HL Hs Hb He Hsq Hn Hz. destruct (@product_trilinos K L eps o s ms b A B rows owned cb rb HL Hs Hb He Hsq Hn) as [ts [T [_ [mb [Hh E]]]]].
    destruct (to_device debug T Hz) as [cs [Ec [_ D]]]. rewrite E, Ec. cbn [bind]. eexists. split; [reflexivity|].
    unfold state_means. cbn [u_ops]. apply Forall2_snoc.
    - eapply Forall2_weaken; [|exact Hs]. intros o' a Q. apply means_more. auto.
    - split; cbn [o_mat o_trans a_cached a_mat a_range a_domain a_ready u_mats]; auto. exists (mkShared cs (m_handle mb) true). split.
      + rewrite nth_error_app2, Nat.sub_diag by lia. auto.
      + cbn [m_parts m_handle m_descr]. auto.
  Qed.

  (** Every entry is that of A B^T up to eps, and exact if it is larger. *)
  Lemma truncation_error : forall (eps : K) A B i j, (0 <= eps)%K ->
    (fabs (ent (truncated_product eps A B) i j - ent (mmul A (mtrans B)) i j) <= eps)%K /\
    ((eps < fabs (ent (mmul A (mtrans B)) i j))%K -> ent (truncated_product eps A B) i j = ent (mmul A (mtrans B)) i j).
  Proof.
    intros eps A B i j He. unfold truncated_product. cbn [ent]. destruct (fltb eps (fabs (ent (mmul A (mtrans B)) i j))) eqn:T.
    - split; auto. apply dropped_error; auto. intros Hle. apply fltb_lt in T. exfalso. apply T. auto.
    - split.
      + apply dropped_error; auto. intros Hl. apply fltb_lt in Hl. cbn [mmul ent mtrans nr nc] in *. congruence.
      + intros Hl. apply fltb_lt in Hl. cbn [mmul ent mtrans nr nc] in *. congruence.
  Qed.
  (** multiply_transpose() of a matrix-free operator for A with an operator for B: an operator, on one rank and on several, for A B^T without the entries of
      modulus at most eps, which can be applied in both modes; its entries are those of A B^T up to eps, and exact if those are larger. *)
  Theorem C80_product : forall debug L eps o s ms b A B rows owned cb qs, libraries_ok L -> (0 <= eps)%K -> state_means s ms ->
    nth_error ms b = Some (mkMeaning B rows owned cb true) -> evaluates o owned A -> nr A = nc A -> nc A = nc B ->
    no_zero_rank owned (truncated_product eps A B) -> no_zero_rank rows (mtrans (truncated_product eps A B)) ->
    (forall q, In q qs -> request_ok (truncated_product eps A B) owned rows q) ->
    exists s1 s2, mf_multiply_transpose debug L eps o s b = Ok s1 /\
      call_run debug L s1 (map (asking (length ms) (truncated_product eps A B)) qs) = Ok (s2, map (answer (truncated_product eps A B) owned rows) qs) /\
      forall i j, i < nr A -> j < nr B ->
        (fabs (ent (truncated_product eps A B) i j - ent (mmul A (mtrans B)) i j) <= eps)%K /\
        ((eps < fabs (ent (mmul A (mtrans B)) i j))%K -> ent (truncated_product eps A B) i j = ent (mmul A (mtrans B)) i j).
  Proof.
    intros debug L eps o s ms b A B rows owned cb qs HL Heps Hs Hb He Hsq Hn Hz Hz' Hq.
    destruct (@product_means debug L eps o s ms b A B rows owned cb true HL Hs Hb He Hsq Hn Hz) as [s1 [E S1]].
    destruct (@C41_applications K debug L s1 _ (length ms) (truncated_product eps A B) owned rows false qs HL S1) as [s2 E2]; auto.
    - rewrite nth_error_app2, Nat.sub_diag; auto.
    - exists s1, s2. split; auto. split; auto. intros i j _ _. apply truncation_error. auto.
  Qed.
  (** The coarse matrix of the hierarchy, R multiply (A multiply_transpose R), with a matrix-free A: an operator that can be applied in both modes; its
      entry (p, q) differs from that of R A R^T by at most eps times the sum of the moduli of row p of R. *)
  Theorem C80_galerkin : forall debug L eps o s ms r A R coarse fine cr qs, libraries_ok L -> state_means s ms ->
    nth_error ms r = Some (mkMeaning R coarse fine cr true) -> evaluates o fine A -> nr A = nc A -> nc A = nc R -> (0 <= eps)%K ->
    no_zero_rank fine (truncated_product eps A R) ->
    no_zero_rank coarse (mmul R (truncated_product eps A R)) -> no_zero_rank coarse (mtrans (mmul R (truncated_product eps A R))) ->
    (forall q, In q qs -> request_ok (mmul R (truncated_product eps A R)) coarse coarse q) ->
    (exists s1 s2, mf_multiply_transpose debug L eps o s r = Ok s1 /\
      call_run debug L s1 (CMultiply r (length ms) :: map (asking (S (length ms)) (mmul R (truncated_product eps A R))) qs) =
      Ok (s2, [] :: map (answer (mmul R (truncated_product eps A R)) coarse coarse) qs)) /\
    forall p q, p < nr R -> q < nr R ->
      (fabs (ent (mmul R (truncated_product eps A R)) p q - ent (mmul R (mmul A (mtrans R))) p q) <= sumn (nc R) (fun k => fabs (ent R p k)) * eps)%K.
  Proof.
    intros debug L eps o s ms r A R coarse fine cr qs HL Hs Hr He Hsq Hn Heps Z1 Z2 Z3 Hq. split.
    - destruct (@product_means debug L eps o s ms r A R coarse fine cr true HL Hs Hr He Hsq Hn Z1) as [s1 [E S1]].
      assert (Hr' : nth_error (ms ++ [mkMeaning (truncated_product eps A R) fine coarse false true]) r = Some (mkMeaning R coarse fine cr true))
        by (rewrite nth_error_app1; auto; eapply nth_error_lt; eauto).
      destruct (@C69_multiply K debug L s1 _ r (length ms) R (truncated_product eps A R) coarse fine coarse cr false true qs HL S1 Hr') as [s2 E2]; auto.
      + rewrite nth_error_app2, Nat.sub_diag; auto.
      + cbn [truncated_product nr]. congruence.
      + exists s1, s2. split; auto. rewrite app_length in E2. simpl length in E2. rewrite Nat.add_1_r in E2. auto.
    - intros p q Hp Hq'. cbn [mmul ent]. rewrite <- sumn_sub. rewrite <- sumn_scale_r. apply fabs_sumn. intros k Hk.
      replace (ent R p k * ent (truncated_product eps A R) k q - ent R p k * sumn (nc A) (fun k0 => ent A k k0 * ent (mtrans R) k0 q))%K
        with (ent R p k * (ent (truncated_product eps A R) k q - ent (mmul A (mtrans R)) k q))%K by (cbn [mmul ent mtrans]; ring).
      apply fabs_mul_le. apply truncation_error. auto.
  Qed.
  (** It needs an entry above eps on every rank: otherwise debug builds abort and release builds take the address of the first element of an empty vector,
      whatever the rest of the matrices is. *)
  Theorem C80_empty_rank_refuted : forall debug L eps o s ms b A B rows owned cb rb p, libraries_ok L -> state_means s ms ->
    nth_error ms b = Some (mkMeaning B rows owned cb rb) -> evaluates o owned A -> nr A = nc A -> nc A = nc B ->
    In p owned -> (forall i j, In i p -> j < nr B -> (fabs (ent (mmul A (mtrans B)) i j) <= eps)%K) ->
    mf_multiply_transpose debug L eps o s b = if debug then Abort else UB.
  Proof.
    intros debug L eps o s ms b A B rows owned cb rb p HL Hs Hb He Hsq Hn Hp Hsm.
    destruct (@product_trilinos K L eps o s ms b A B rows owned cb rb HL Hs Hb He Hsq Hn) as [ts [T [X [mb [Hh E]]]]].
    rewrite E. rewrite (@convert_some_empty K debug ts (tm_layout T) (X p Hp Hsm)). destruct debug; reflexivity.
  Qed.
  (** Only A itself can be applied: applications of the transpose, the transposed operator and the product with another operator are exceptions, for vectors on
      the device and on the host, whatever the operator; and so is everything for an evaluator that does not define the operator. *)
  Theorem C80_apply : forall (o : mf_operator K) owned A x y, evaluates o owned A -> length x = nc A -> map (@length K) y = map (@length nat) owned ->
    mf_apply o (scatter owned x) y false = Ok (scatter owned (mulvec A x)) /\ mf_apply_host o (scatter owned x) y false = Ok (scatter owned (mulvec A x)).
  Proof.
    intros o owned A x y (_ & H) Lx Ly. unfold mf_apply, mf_apply_host. rewrite (H x y Lx Ly). split; reflexivity.
  Qed.
  Theorem C80_transposed_refuted : forall (o : mf_operator K) owned A, evaluates o owned A ->
    (forall x y x' y', mf_apply o x y true <> Ok x' /\ mf_apply_host o x y true <> Ok y') /\
    (forall s b s', mf_transpose o s <> Ok s' /\ mf_multiply o s b <> Ok s') /\
    (forall x y tr z, mf_apply (@default_operator K owned) x y tr <> Ok z /\ mf_apply_host (@default_operator K owned) x y tr <> Ok z) /\ ~ evaluates (@default_operator K owned) owned A.
  Proof.
    intros o owned A _. split; [|split; [|split]].
    - intros. split; discriminate.
    - intros. split; discriminate.
    - intros x y [|] z; split; discriminate.
    - intros (_ & H). specialize (H (repeat f0 (nc A)) (map (fun p => repeat f0 (length p)) owned) (repeat_length _ _)).
      assert (X : map (@length K) (map (fun p : list nat => repeat f0 (length p)) owned) = map (@length nat) owned) by (rewrite map_map; apply map_ext; intros p; apply repeat_length).
      specialize (H X). discriminate H.
  Qed.
End C.
Print Assumptions C80_apply.
Print Assumptions C80_transposed_refuted.
Print Assumptions C80_product.
Print Assumptions C80_galerkin.
Print Assumptions C80_empty_rank_refuted.

(** The matrices of C70_example on two ranks, with A given by a function. *)
Definition mf_A : mf_operator QcOF := mkMf (fun x _ =>
  match x with
  | [[a; b]; [c]] => Ok (scatter fine (mulvec ex_A [a; b; c]))
  | _ => UB
  end) fine.
Lemma mf_A_ok : evaluates mf_A fine ex_A.
Proof. split; auto. Qed.
Definition ex_x3 : vec QcOF := [cq 1 1; cq 2 1; cq (-1) 1].
Example C80_apply_example : mf_apply mf_A (scatter fine ex_x3) (zeros_on QcOF fine) false = Ok (scatter fine (mulvec ex_A ex_x3)) /\ mf_apply mf_A (scatter fine ex_x3) (zeros_on QcOF fine) true = Throw.
Proof. split; [apply (@C80_apply QcOF mf_A fine ex_A); [apply mf_A_ok|reflexivity|reflexivity]|reflexivity]. Qed.
(** With the threshold 16 the entry 14 of A R^T is dropped. *)
Definition mf_P : mat QcOF := truncated_product (cq 16 1) ex_A ex_R.
Lemma mf_request : forall q, In q [ex_q 2 [[0]; [1]] ex_z [[cq 9 1; cq 9 1]; [cq 9 1]]] -> request_ok mf_P fine coarse q.
Proof.
  intros q [<-|[]]. split; [reflexivity|]. split; [split; simpl; [repeat constructor; simpl; lia|intros i; lia]|]. split; [apply ex_env_ok|reflexivity].
Qed.
Example C80_product_example : exists s1 s2, mf_multiply_transpose true (dense_libraries QcOF) (cq 16 1) mf_A ex_state 1 = Ok s1 /\
  call_run true (dense_libraries QcOF) s1 (map (asking 2 mf_P) [ex_q 2 [[0]; [1]] ex_z [[cq 9 1; cq 9 1]; [cq 9 1]]]) = Ok (s2, [[[cq (-20) 1; cq (-15) 1]; [cq (-24) 1]]]).
Proof.
  destruct (@C80_product QcOF true (dense_libraries QcOF) (cq 16 1) mf_A ex_state ex_meaning 1 ex_A ex_R coarse fine false
    [ex_q 2 [[0]; [1]] ex_z [[cq 9 1; cq 9 1]; [cq 9 1]]] (dense_libraries_ok QcOF)) as [s1 [s2 [E1 [E2 _]]]]; auto.
  - apply fleb_le. vm_compute. reflexivity.
  - apply ex_state_means.
  - apply mf_A_ok.
  - apply no_zero_rankb_ok. vm_compute. reflexivity.
  - apply no_zero_rankb_ok. vm_compute. reflexivity.
  - apply mf_request.
  - exists s1, s2. split; [exact E1|]. change (length ex_meaning) with 2 in E2. unfold mf_P. rewrite E2. f_equal; f_equal; vm_compute; reflexivity.
Qed.
Example C80_galerkin_example : exists s1 s2, mf_multiply_transpose true (dense_libraries QcOF) (cq 16 1) mf_A ex_state 1 = Ok s1 /\
  call_run true (dense_libraries QcOF) s1 (CMultiply 1 2 :: map (asking 3 (mmul ex_R mf_P)) [ex_q 2 [[0]; [1]] ex_z [[cq 9 1]; [cq 9 1]]]) =
  Ok (s2, [[]; [[cq (-181) 1]; [cq (-122) 1]]]).
Proof.
  destruct (@C80_galerkin QcOF true (dense_libraries QcOF) (cq 16 1) mf_A ex_state ex_meaning 1 ex_A ex_R coarse fine false
    [ex_q 2 [[0]; [1]] ex_z [[cq 9 1]; [cq 9 1]]] (dense_libraries_ok QcOF)) as [[s1 [s2 [E1 E2]]] _]; auto; try (apply no_zero_rankb_ok; vm_compute; reflexivity).
  - apply ex_state_means.
  - apply mf_A_ok.
  - apply fleb_le. vm_compute. reflexivity.
  - intros q [<-|[]]. split; [reflexivity|]. split; [split; simpl; [repeat constructor; simpl; lia|intros i; lia]|]. split; [apply ex_env_ok|reflexivity].
  - exists s1, s2. split; [exact E1|]. change (length ex_meaning) with 2 in E2. unfold mf_P. rewrite E2. f_equal; f_equal; vm_compute; reflexivity.
Qed.
(** The same computed, with the threshold of the code: nothing is dropped. *)
Example C80_computed :
  (let! s := mf_multiply_transpose true (dense_libraries QcOF) (cq 1 100000000000000) mf_A ex_state 1 in
   let! r := call_run true (dense_libraries QcOF) s [CMultiply 1 2; CApply 3 false (ex_env 2) [[0]; [1]] 2 (scatter [[0]; [1]] ex_z) [[cq 9 1]; [cq 9 1]]] in
   Ok (map (map (map this)) (snd r))) = Ok (map (map (map this)) [[]; [[cq (-153) 1]; [cq (-108) 1]]]).
Proof. vm_compute. reflexivity. Qed.
(** A threshold above all entries of the first rank. *)
Example C80_empty_rank_example : forall debug, mf_multiply_transpose debug (dense_libraries QcOF) (cq 47 1) mf_A ex_state 1 = if debug then Abort else UB.
Proof.
  intros debug. apply (@C80_empty_rank_refuted QcOF debug (dense_libraries QcOF) (cq 47 1) mf_A ex_state ex_meaning 1 ex_A ex_R coarse fine false true [0; 1]); auto.
  - apply dense_libraries_ok.
  - apply ex_state_means.
  - apply mf_A_ok.
  - simpl. auto.
  - intros i j Hi Hj. simpl in Hi. cbn [ex_R nr] in Hj. destruct Hi as [<-|[<-|[]]]; (destruct j as [|[|j]]; [| |exfalso; lia]); apply fleb_le; vm_compute; reflexivity.
Qed.
