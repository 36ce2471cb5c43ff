(** Proofs about the rate of the hierarchy on the device. *)
From Coq Require Import String List Arith Lia ZArith Bool Permutation Field.
From Verif Require Import Base OField Mat LinAlg M_Ptree M_Hier S_Hier P_Hier P_Hier2 P_HierE P_HierS M_Host M_SpProd S_SpProd M_Csr S_Csr M_Dev M_CudaOp S_CudaOp
  S_Eig S_Lanczos P_AmgeDev2 M_DevSolve S_DevSolve P_DevSolve M_Restr S_Restr M_AmgeDev S_AmgeDev P_AmgeDev4 M_CudaHier S_CudaHier P_CudaHier P_CudaHier2 P_CudaHier3
  S_FastAP S_HostEnd S_Rate P_Smoother P_Rate P_Rate2 P_Approx M_Agglo S_DevRate.
Import ListNotations.
Set Implicit Arguments.
Open Scope nat_scope.

Section P.
  Variable K : ofield.
  Add Field KfDevRate : (f_field K).
  Local Open Scope K_scope.
  Local Notation vec := (vec K).
  Ltac vx := unfold OField.vec in *; vext; try ring.

  (** ** Jacobi's method *)
  Lemma nth_inverse : forall n (A : mat K) (r : vec) i, length r = n -> (i < n)%nat -> nth i (mulvec (inverse_diagonal n A) r) 0 = finv (ent A i i) * nth i r 0.
  Proof.
    intros n A r i Lr Hi. rewrite nth_mulvec by (simpl; auto). simpl nc. rewrite (@sumn_single K n i); auto.
    - unfold inverse_diagonal. simpl ent. rewrite Nat.eqb_refl. try (rewrite (Fdiv_def (f_field K))). ring.
    - intros j Hj Hne. unfold inverse_diagonal. simpl ent. replace (i =? j)%nat with false by (symmetry; apply Nat.eqb_neq; auto). ring.
  Qed.
  Lemma jacobi_smooths : forall (A : mat K) beta dmax theta, nr A = nc A -> S_Hier.spd (nc A) (mulvec A) -> diagonal_bounds A beta dmax ->
    0 <= theta -> theta * dmax <= 1 + 1 - beta -> smooths (nc A) (mulvec A) (mulvec (inverse_diagonal (nc A) A)) theta.
  Proof.
    intros A beta dmax theta Hsq HS (HB & HD) Ht Hth e Le. set (n := nc A) in *.
    assert (HL : linear n n (mulvec A)) by (unfold n; pose proof (mulvec_linear A) as X; rewrite Hsq in X; exact X).
    destruct (diagonal_linear n A) as [B1 B2]. set (B := mulvec (inverse_diagonal n A)) in *.
    assert (Lr : length (mulvec A e) = n) by (apply (lin_len HL); auto). set (r := mulvec A e) in *.
    assert (LB : length (B r) = n) by (apply (lin_len B1); auto).
    assert (Pd : forall i, (i < n)%nat -> 0 < ent A i i) by (intros i Hi; exact (@diag_pos K A Hsq (proj2 HS) i Hi)).
    assert (E : energy (mulvec A) e - energy (mulvec A) (error_step (mulvec A) B e) = (1 + 1) * dot (B r) r - energy (mulvec A) (B r)).
    { unfold error_step. fold r. rewrite (@vsub_as_add K) by congruence. rewrite (energy_add HL (proj1 HS)) by (auto; vlen). fold r.
      unfold energy at 3 4. rewrite (lin_scale HL) by auto. rewrite !dot_scale_l, !dot_scale_r. rewrite (dot_comm (B r) r). ring. }
    rewrite E. clear E.
    assert (E1 : dot (B r) r = sumn n (fun i => finv (ent A i i) * (nth i r 0 * nth i r 0))).
    { rewrite (@dot_sumn K _ _ n LB Lr). apply sumn_ext. intros i Hi. unfold B. rewrite nth_inverse by auto. ring. }
    assert (E2 : diagonal_energy A (B r) = dot (B r) r).
    { rewrite E1. unfold diagonal_energy. fold n. apply sumn_ext. intros i Hi. unfold B. rewrite nth_inverse by auto. field. apply not_eq_sym, flt_neq, Pd; auto. }
    specialize (HB (B r) LB). rewrite E2 in HB.
    assert (E3 : theta * dot r r <= (1 + 1 - beta) * dot (B r) r).
    { rewrite E1, (@dot_sumn K _ _ n Lr Lr), <- !sumn_scale. apply sumn_le'. intros i Hi. pose proof (Pd i Hi) as P.
      assert (N : ent A i i <> 0) by (apply not_eq_sym, flt_neq; auto).
      replace (theta * (nth i r 0 * nth i r 0)) with (theta * ent A i i * (finv (ent A i i) * (nth i r 0 * nth i r 0))) by (field; auto).
      assert (Q : 0 <= finv (ent A i i) * (nth i r 0 * nth i r 0)) by (apply fle_mul; [apply flt_le, finv_pos; auto|apply fsquare_nonneg]).
      assert (Q2 : theta * ent A i i <= 1 + 1 - beta) by (eapply fle_trans; [apply fle_mul_l; [exact Ht|apply HD; exact Hi]|exact Hth]).
      apply fle_sub_0 in Q2. apply fle_sub_0.
      match goal with |- 0 <= ?u => replace u with ((1 + 1 - beta - theta * ent A i i) * (finv (ent A i i) * (nth i r 0 * nth i r 0))) by ring end. apply fle_mul; auto. }
    eapply fle_trans; [exact E3|]. apply fle_sub_0 in HB. apply fle_sub_0.
    replace ((1 + 1) * dot (B r) r - energy (mulvec A) (B r) - (1 + 1 - beta) * dot (B r) r) with (beta * dot (B r) r - energy (mulvec A) (B r)) by ring. exact HB.
  Qed.

  (** ** Complete eigensystems *)
  Section Complete.
    Variables (n : nat) (vs : list vec).
    Hypothesis HO : orthonormal n vs.
    Hypothesis HN : length vs = n.
    Local Notation V := (S_Rate.rows_matrix n vs).
    Lemma rows_square : nr V = n /\ nc V = n.
    Proof. split; auto. Qed.
    Lemma nth_rows : forall x i, length x = n -> (i < n)%nat -> nth i (mulvec V x) 0 = dot (nth i vs []) x.
    Proof.
      intros x i Lx Hi. rewrite nth_mulvec by (simpl; lia). cbn [S_Rate.rows_matrix nc ent]. destruct HO as [Sz _]. unfold sized_all in Sz. rewrite Forall_forall in Sz.
      assert (L : length (nth i vs []) = n) by (apply Sz, nth_In; lia). rewrite (@dot_sumn K _ _ n L Lx). reflexivity.
    Qed.
    Lemma rows_trans : forall c, length c = n -> mulvec V (mulTvec V c) = c.
    Proof.
      intros c Lc. apply vec_ext; [rewrite mulvec_length; simpl; lia|]. intros i Hi. rewrite mulvec_length in Hi. simpl in Hi. destruct HO as [Sz O]. unfold sized_all in Sz. rewrite Forall_forall in Sz.
      rewrite nth_rows by (try rewrite mulTvec_length; simpl; lia).
      transitivity (sumn n (fun j => (if (i =? j)%nat then 1 else 0) * nth j c 0)).
      - unfold mulTvec at 1. rewrite (@dot_sumn K _ _ n) by (try (rewrite mulvec_length; reflexivity); apply Sz, nth_In; lia).
        transitivity (sumn n (fun j => sumn n (fun k => nth j (nth i vs []) 0 * (nth j (nth k vs []) 0 * nth k c 0)))).
        { apply sumn_ext. intros j Hj. rewrite nth_mulvec by (simpl; lia). cbn [mtrans S_Rate.rows_matrix nc nr ent]. rewrite HN, <- sumn_scale. reflexivity. }
        rewrite sumn_swap. apply sumn_ext. intros k Hk. rewrite <- (O i k) by lia. rewrite (@dot_sumn K _ _ n) by (apply Sz, nth_In; lia).
        rewrite <- sumn_scale_r. apply sumn_ext. intros j Hj. ring.
      - rewrite (@sumn_single K n i) by (try lia; intros k Hk Hne; replace (i =? k)%nat with false by (symmetry; apply Nat.eqb_neq; auto); ring). rewrite Nat.eqb_refl. ring.
    Qed.
    (** Parseval. *)
    Lemma complete_sum : forall x, length x = n -> x = mulTvec V (mulvec V x).
    Proof.
      intros x Lx. assert (LT : linear n n (mulTvec V)) by (pose proof (mulTvec_linear V) as Q; simpl in Q; rewrite HN in Q; exact Q).
      destruct (@injective_onto K n (mulTvec V) LT) with (b := x) as (c & Lc & <-); auto.
      - intros y Ly E. rewrite <- (rows_trans y Ly), E. assert (LV : linear n n (mulvec V)) by (pose proof (mulvec_linear V) as Q; simpl in Q; rewrite HN in Q; exact Q). apply (lin_zero LV).
      - rewrite rows_trans by auto. reflexivity.
    Qed.
    Lemma parseval : forall x y, length x = n -> length y = n -> dot x y = sumn n (fun j => dot (nth j vs []) x * dot (nth j vs []) y).
    Proof.
      intros x y Lx Ly. rewrite (complete_sum x Lx) at 1. rewrite (@mulTvec_adjoint K) by (simpl; try rewrite mulvec_length; simpl; auto).
      rewrite (@dot_sumn K _ _ n) by (rewrite mulvec_length; simpl; auto). apply sumn_ext. intros j Hj. rewrite !nth_rows by auto. reflexivity.
    Qed.
  End Complete.

  (** The eigenvalues that are left out bound the quotient of every orthogonal vector, if there is any complete eigensystem. *)
  Lemma gap_of_discarded : forall (A : mat K) w a vs mus lambda, symmetric_matrix A -> eigen_system A w a -> orthonormal (nr A) vs ->
    (forall i, (i < length vs)%nat -> eigenpair A (nth i mus 0) (nth i vs [])) -> discarded_from A vs lambda -> gap A vs lambda.
  Proof.
    intros A w a vs mus lambda Sy ES O HE HD u Lu HU. set (n := nr A) in *. assert (Sq : n = nc A) by apply Sy. rewrite <- Sq in Lu.
    destruct ES as (_ & _ & _ & O' & HP). fold n in O', HP. set (ws := map (fun i => chunk n i a) (seq 0 n)) in *.
    assert (Lw : length ws = n) by (unfold ws; rewrite map_length, seq_length; auto).
    assert (Nw : forall j, (j < n)%nat -> nth j ws [] = chunk n j a).
    { intros j Hj. unfold ws. rewrite (nth_indep _ [] (chunk n 0 a)) by (rewrite map_length, seq_length; auto). rewrite (map_nth (fun i => chunk n i a)), seq_nth by auto. reflexivity. }
    assert (Lj : forall j, (j < n)%nat -> length (chunk n j a) = n).
    { intros j Hj. rewrite <- Nw by auto. destruct O' as [Sz _]. unfold sized_all in Sz. rewrite Forall_forall in Sz. apply Sz, nth_In. lia. }
    assert (LA : length (mulvec A u) = n) by apply mulvec_length.
    assert (E1 : dot u u = sumn n (fun j => dot (chunk n j a) u * dot (chunk n j a) u)).
    { rewrite (@parseval n ws O' Lw u u Lu Lu). apply sumn_ext. intros j Hj. rewrite Nw by auto. reflexivity. }
    assert (E2 : dot (mulvec A u) u = sumn n (fun j => nth j w 0 * (dot (chunk n j a) u * dot (chunk n j a) u))).
    { rewrite (@parseval n ws O' Lw (mulvec A u) u LA Lu). apply sumn_ext. intros j Hj. rewrite Nw by auto.
      assert (Q : dot (chunk n j a) (mulvec A u) = nth j w 0 * dot (chunk n j a) u) by (rewrite <- (@sym_dot K A) by auto; rewrite HP, dot_scale_l by auto; reflexivity).
      rewrite Q. ring. }
    rewrite E1, E2, <- sumn_scale. apply sumn_le'. intros j Hj. set (v := chunk n j a). assert (Lv : length v = n) by (apply Lj; auto).
    assert (Zs : sized_all n vs) by apply O.
    set (q := vsub v (proj n vs v)). assert (LP : length (proj n vs v) = n) by (apply proj_len; exact Zs). assert (Lq : length q = n) by (unfold q; vlen).
    assert (Eu : dot v u = dot q u).
    { unfold q. rewrite dot_sub_l by congruence. rewrite (dot_comm (proj n vs v)), (@proj_dot K) by auto.
      rewrite lsum_map_0; [ring|]. intros e Ie. rewrite (dot_comm u e), (HU e Ie). ring. }
    destruct (list_eq_dec (feq_dec K) q (vzero n)) as [Z|NZ].
    - rewrite Eu, Z, dot_zero_l. match goal with |- ?x <= ?y => replace x with (0 : K) by ring; replace y with (0 : K) by ring end. apply fle_refl.
    - assert (Oq : orth_to vs q) by (intros e Ie; rewrite dot_comm; apply rest_orth; auto).
      assert (Eq : eigenpair A (nth j w 0) q).
      { unfold eigenpair, q. pose proof (mulvec_linear A) as HL. rewrite <- Sq in HL. fold n in HL. rewrite (lin_sub HL) by auto. unfold v at 1. rewrite HP by auto. fold v.
        assert (EP : mulvec A (proj n vs v) = vscale (nth j w 0) (proj n vs v)).
        { apply vec_ext; [rewrite mulvec_length, vscale_length, LP; reflexivity|]. intros i Hi. rewrite mulvec_length in Hi. fold n in Hi.
          rewrite nth_vscale, proj_nth by auto.
          assert (R1 : nth i (mulvec A (proj n vs v)) 0 = dot (unit_vec n i) (mulvec A (proj n vs v))) by (rewrite dot_unit by (auto; apply mulvec_length); reflexivity).
          rewrite R1, <- (@sym_dot K A) by (auto; apply unit_vec_length). rewrite (@proj_dot K) by (auto; apply mulvec_length).
          rewrite <- lsum_map_scale. apply lsum_map_ext. intros e Ie. assert (Le : length e = n) by (unfold sized_all in Zs; rewrite Forall_forall in Zs; auto).
          destruct (In_nth _ _ [] Ie) as (k & Hk & Ek). pose proof (HE k Hk) as Pk. unfold eigenpair, OField.vec in Pk, Ek. rewrite Ek in Pk.
          rewrite (@sym_dot K A) by (auto; apply unit_vec_length). rewrite Pk, dot_scale_r, dot_unit by auto.
          assert (W : nth k mus 0 * dot e v = nth j w 0 * dot e v).
          { transitivity (dot (mulvec A e) v); [rewrite Pk, dot_scale_l; reflexivity|]. rewrite (@sym_dot K A) by auto. unfold v. rewrite HP, dot_scale_r by auto. reflexivity. }
          transitivity (nth k mus 0 * dot e v * nth i e 0); [ring|]. rewrite W. ring. }
        rewrite EP. vx. }
      pose proof (HD _ _ Lq NZ Eq Oq) as H. apply fle_sub_0 in H. apply fle_sub_0.
      replace (nth j w 0 * (dot v u * dot v u) - lambda * (dot v u * dot v u)) with ((nth j w 0 - lambda) * (dot v u * dot v u)) by ring.
      apply fle_mul; [exact H|apply fsquare_nonneg].
  Qed.
End P.
