(** C100: the rate of the hierarchy on the device. *)
From Coq Require Import String List Arith Lia ZArith Bool Permutation QArith Qcanon Field.
From Verif Require Import Base OField Mat LinAlg M_Ptree M_Hier S_Hier P_Hier P_Hier2 P_HierS M_Host M_SpProd S_SpProd M_Csr S_Csr P_Csr4 M_Dev M_CudaOp S_CudaOp P_CudaOp S_Eig
  S_Lanczos M_DevSolve S_DevSolve P_DevSolve M_Restr S_Restr M_AmgeDev S_AmgeDev M_CudaHier S_CudaHier P_CudaHier P_CudaHier2 P_CudaHier3
  S_FastAP S_HostEnd S_Rate P_Rate P_Approx M_Agglo S_DevRate P_DevRate P_DevRate2 E_Solve E_Lanczos E_CudaOp E_CudaHier C_Csr C_DevSolve C_AmgeDev C_CudaHier C_FastAP C_HostEnd C_Rate.
Import ListNotations.
Set Implicit Arguments.
Open Scope nat_scope.

Section C.
  Variable K : ofield.
  Add Field KfCDevRate : (f_field K).
  Local Notation vec := (vec K).

  (** C100: one step of Jacobi's method removes at least theta |r|^2 from the energy of the error with residual r, if A <= beta D for the diagonal D of A with beta < 2:
      theta = (2 - beta) / dmax for the largest diagonal entry dmax. *)
  Theorem C100_jacobi : forall (A : mat K) beta dmax theta, S_DevSolve.spd A -> diagonal_bounds A beta dmax -> (0 <= theta)%K -> (theta * dmax <= 1 + 1 - beta)%K ->
    forall e, length e = nc A ->
    (theta * dot (mulvec A e) (mulvec A e) <= energy (mulvec A) e - energy (mulvec A) (jacobi_step A (vzero (nc A)) e))%K.
  Proof.
    intros A beta dmax theta HA HB Ht Hth e Le. destruct (entries_spd HA) as [Hsq HS].
    pose proof (@jacobi_smooths K A beta dmax theta Hsq HS HB Ht Hth e Le) as Q.
    rewrite <- (@jacobi_correction K (nc A) A (vzero (nc A)) e) by (auto; apply vzero_length).
    unfold correction_step. rewrite vsub_zero_r by (rewrite mulvec_length; exact Hsq). exact Q.
  Qed.

  (** C100: the eigenvalues left out bound the quotient of every vector that is orthogonal to the eigenvectors kept; in particular the largest eigenvalue kept does. *)
  Theorem C100_gap : forall (Z : eig_library K) (A : mat K) evals vs, eig_library_ok Z -> eig_succeeds Z A -> symmetric_matrix A -> smallest_eigenvectors A evals vs ->
    (forall lambda, discarded_from A vs lambda -> gap A vs lambda) /\ forall i, i < length vs -> gap A vs (nth i evals 0%K).
  Proof.
    intros Z A evals vs HZ HS Sy [T1 T2 T3 T4 T5]. destruct (system_exists HZ Sy HS) as (w & a & ES).
    assert (G : forall lambda, discarded_from A vs lambda -> gap A vs lambda).
    { intros lambda HD. apply (@gap_of_discarded K A w a vs evals lambda Sy ES T2); auto. }
    split; [exact G|]. intros i Hi. apply G. intros mu v Lv Nv Ev Ov. apply (T5 mu v Lv Nv Ev Ov i Hi).
  Qed.

  Section Rate.
    Variables (debug acc : bool) (tol : K) (Z : eig_library K) (compress : list nat -> list (list nat) -> list (spm K) -> list (trilinos K)) (n_eig : nat).
    Variables (gds : nat -> nat -> option K) (gd : nat -> option K) (D : nat -> K) (L : libraries K) (Y : solver_library K).
    Variables (z : nat -> nat -> csr K -> smoother_conditions K) (global : shared_matrix K) (p : ptree) (d : device K) (h : heap K).
    Variables (F : fem K) (m : mesh) (xs : list (agglomerate K * mat K)) (cells : list (list nat)) (lambda beta dmax theta : K).
    Local Notation A := (assembled F m).
    Local Notation n := (f_ndofs F).
    Local Notation rho := (1 - theta * lambda)%K.
    Local Notation whole := [seq 0 n].
    Local Notation restrictor := (build_restrictor debug acc tol Z compress n_eig whole gds gd D [map fst xs]).

    (** The matrix on the device is the sum of the matrices of the cells, the matrices of the agglomerates are the sums over their cells. *)
    Hypothesis Hin : device_input L Y z global p d A h.
    Hypothesis HZ : eig_library_ok Z.
    Hypothesis HC : compress_ok compress.
    Hypothesis Htol : (0 < tol)%K.
    Hypothesis HP : problem_ok Z n_eig n whole gds gd D [(xs, h)].
    Hypothesis HF : fem_ok F.
    Hypothesis Hpsd : forall c u, (0 <= cell_energy F c u)%K.
    Hypothesis Hspd : S_DevSolve.spd A.
    Hypothesis Hcells : cells_of_agglomerates F (n_cells m) xs cells.
    (** lambda: at most every eigenvalue of an agglomerate that is left out. *)
    Hypothesis Hlam : (0 < lambda)%K.
    Hypothesis Hdisc : forall a M evals vs, In (a, M) xs -> length vs = n_eig -> smallest_eigenvectors M evals vs -> discarded_from M vs lambda.

    (** C100: the coarse space computed on the device approximates every vector as well as the discarded eigenvalues promise. *)
    Theorem C100_coarse_space : exists R rs h', restricts restrictor A R h h' /\ rank_result n_eig (xs, h) (rs, h') /\ restriction_of n D rs R /\ approximates A R lambda.
    Proof.
      destruct (@amge_restricts K debug acc tol Z compress n_eig gds gd D A xs h HZ HC Htol HP) as [R [rs [h' [PR [RR RO]]]]].
      exists R, rs, h'. split; [exact PR|]. split; [exact RR|]. split; [exact RO|].
      apply (@device_coarse K F m Z n_eig gds gd D xs h rs h' cells R lambda); auto.
      - intros g Hg. destruct (entries_spd Hspd) as [_ HS]. exact (@P_Smoother.diag_pos K A eq_refl (proj2 HS) g Hg).
      - apply flt_le. exact Hlam.
    Qed.

    Hypothesis Hlv : pt_get parse_int ["max levels"%string] 2%Z p = 2%Z.
    Hypothesis Hsol : In (solver_name p) ["cholesky"; "lu_dense"; "lu_sparse_host"]%string.
    Hypothesis Hk : 0 < c_steps p.
    (** theta: how far beta is below 2, over the largest diagonal entry. *)
    Hypothesis HB : diagonal_bounds A beta dmax.
    Hypothesis Htheta : (0 <= theta)%K.
    Hypothesis Hth : (theta * dmax <= 1 + 1 - beta)%K.

    Lemma calls : exists R rs h', rank_result n_eig (xs, h) (rs, h') /\ restriction_of n D rs R /\
      (full_row_rank R -> exists H d1 (ready : device K -> Prop), dev_construct debug L Y z restrictor global p d = Ok (H, d1) /\ ready d1 /\
        (forall d2, ready d2 -> memory_kept [h'] (d_heaps d2)) /\
        forall cond x xe d2, any_conditions cond -> ready d2 -> length x = n -> length xe = n ->
        exists y d3, dev_vmult debug L cond H (spread whole x) (spread whole (mulvec A xe)) d2 = Ok (spread whole y, d3) /\ ready d3 /\
          length y = n /\ (energy (mulvec A) (vsub xe y) <= rho * rho * energy (mulvec A) (vsub xe (if c_prec p then vzero n else x)))%K).
    Proof.
      destruct C100_coarse_space as [R [rs [h' [PR [RR [RO AX]]]]]]. exists R, rs, h'. split; [exact RR|]. split; [exact RO|]. intros HR.
      destruct (re_sizes PR) as [HR1 HR2]. destruct (entries_spd Hspd) as [_ HS].
      destruct (@construct_calls K debug L Y z restrictor global p d A R h h' Hin PR Hlv (spd_solvable Hsol (galerkin_spd Hspd HR1 HR))) as [H [d1 [ready [E [Rd [Mk V]]]]]].
      exists H, d1, ready. split; [exact E|]. split; [exact Rd|]. split; [exact Mk|]. intros cond x xe d2 HC2 R2 Lx Lxe.
      destruct (V cond x (mulvec A xe) d2 HC2 R2 Lx (mulvec_length A xe)) as [y [d3 [E3 [R3 T]]]].
      exists y, d3. split; [exact E3|]. split; [exact R3|].
      destruct (diagonal_linear n A) as [B1 B2].
      apply (@two_grid_rate K A R (mulvec (inverse_diagonal n A)) theta lambda (c_steps p) (mulvec A xe) (if c_prec p then vzero n else x) y xe); auto.
      - apply (@jacobi_smooths K A beta dmax theta eq_refl HS HB Htheta Hth).
      - destruct (c_prec p); [apply vzero_length|exact Lx].
    Qed.

    (** C100: every call of vmult on the device reduces the error, in the energy norm, at least by the factor rho = 1 - theta lambda; in any order of the threads, and whatever
        was called before. *)
    Theorem C100_rate : exists R rs h', rank_result n_eig (xs, h) (rs, h') /\ restriction_of n D rs R /\
      (full_row_rank R -> exists H d1, dev_construct debug L Y z restrictor global p d = Ok (H, d1) /\
        forall cond qs, any_conditions cond -> (forall x xe, In (x, xe) qs -> length x = n /\ length xe = n) ->
        exists ys d2, dev_vmults debug L cond H (vmult_requests whole (map (fun q => (fst q, mulvec A (snd q))) qs)) d1 = Ok (map (spread whole) ys, d2) /\
          memory_kept [h'] (d_heaps d2) /\
          Forall2 (fun q y => length y = n /\
            (energy (mulvec A) (vsub (snd q) y) <= rho * rho * energy (mulvec A) (vsub (snd q) (if c_prec p then vzero n else fst q)))%K) qs ys).
    Proof.
      destruct calls as [R [rs [h' [RR [RO V]]]]]. exists R, rs, h'. split; [exact RR|]. split; [exact RO|]. intros HR.
      destruct (V HR) as [H [d1 [ready [E [Rd [Mk V2]]]]]]. exists H, d1. split; [exact E|]. intros cond qs HC2. clear E.
      revert d1 Rd. induction qs as [|[x xe] qs IH]; intros d1 R1 Hq.
      - exists [], d1. split; [reflexivity|]. split; [exact (Mk _ R1)|constructor].
      - destruct (Hq x xe (or_introl eq_refl)) as [Lx Lxe]. destruct (V2 cond x xe d1 HC2 R1 Lx Lxe) as [y [d3 [E3 [R3 [Ly EN]]]]].
        destruct (IH d3 R3 (fun x' xe' I => Hq x' xe' (or_intror I))) as [ys [d4 [E4 [M4 F4]]]].
        exists (y :: ys), d4. split; [|split; [exact M4|constructor; auto]].
        unfold vmult_requests in *. cbn [map dev_vmults fst snd]. rewrite E3. cbn [bind]. rewrite E4. reflexivity.
    Qed.

    (** C100: as a solver ("is preconditioner" false), repeated calls on the device converge: the energy of the error after k calls is at most rho^(2k) times that at the start. *)
    Theorem C100_repeated_calls : c_prec p = false -> exists R rs h', rank_result n_eig (xs, h) (rs, h') /\ restriction_of n D rs R /\
      (full_row_rank R -> exists H d1, dev_construct debug L Y z restrictor global p d = Ok (H, d1) /\
        forall cond k x xe, any_conditions cond -> length x = n -> length xe = n ->
        exists y d2, repeated_dev_vmult debug L cond H (spread whole (mulvec A xe)) k (spread whole x) d1 = Ok (spread whole y, d2) /\ memory_kept [h'] (d_heaps d2) /\
          (energy (mulvec A) (vsub xe y) <= fpow (rho * rho) k * energy (mulvec A) (vsub xe x))%K).
    Proof.
      intros PF. destruct calls as [R [rs [h' [RR [RO V]]]]]. exists R, rs, h'. split; [exact RR|]. split; [exact RO|]. intros HR. rewrite PF in V.
      destruct (V HR) as [H [d1 [ready [E [Rd [Mk V2]]]]]]. exists H, d1. split; [exact E|]. intros cond k x xe HC2. clear E.
      revert x d1 Rd. induction k as [|k IH]; intros x d1 R1 Lx Lxe.
      - exists x, d1. split; [reflexivity|]. split; [exact (Mk _ R1)|]. cbn [fpow].
        replace (1 * energy (mulvec A) (vsub xe x))%K with (energy (mulvec A) (vsub xe x)) by ring. apply fle_refl.
      - destruct (V2 cond x xe d1 HC2 R1 Lx Lxe) as [y [d3 [E3 [R3 [Ly EN]]]]]. destruct (IH y d3 R3 Ly Lxe) as [v [d4 [E4 [M4 EN2]]]].
        exists v, d4. split; [cbn [repeated_dev_vmult]; rewrite E3; exact E4|]. split; [exact M4|]. eapply fle_trans; [exact EN2|]. cbn [fpow].
        replace (rho * rho * fpow (rho * rho) k * energy (mulvec A) (vsub xe x))%K with (fpow (rho * rho) k * (rho * rho * energy (mulvec A) (vsub xe x)))%K by ring.
        apply fle_mul_l; [|exact EN]. clear. induction k; cbn [fpow]; [apply f0_le_1|]. apply fle_mul; [apply fsquare_nonneg|exact IHk].
    Qed.

    (** C100: as a preconditioner, the spectrum of M A lies in [theta lambda, 2 - theta lambda]. *)
    Theorem C100_condition : c_prec p = true -> (theta * lambda <= 1)%K -> exists R rs h', rank_result n_eig (xs, h) (rs, h') /\ restriction_of n D rs R /\
      (full_row_rank R -> exists H d1, dev_construct debug L Y z restrictor global p d = Ok (H, d1) /\
        forall cond qs, any_conditions cond -> (forall x e, In (x, e) qs -> length x = n /\ length e = n) ->
        exists ys d2, dev_vmults debug L cond H (vmult_requests whole (map (fun q => (fst q, mulvec A (snd q))) qs)) d1 = Ok (map (spread whole) ys, d2) /\
          Forall2 (fun q y => (theta * lambda * energy (mulvec A) (snd q) <= dot y (mulvec A (snd q)))%K /\
            (dot y (mulvec A (snd q)) <= (1 + 1 - theta * lambda) * energy (mulvec A) (snd q))%K) qs ys).
    Proof.
      intros PF HL. destruct C100_rate as [R [rs [h' [RR [RO V]]]]]. exists R, rs, h'. split; [exact RR|]. split; [exact RO|]. intros HR.
      destruct (V HR) as [H [d1 [E V2]]]. exists H, d1. split; [exact E|]. intros cond qs HC2 Hq.
      destruct (V2 cond qs HC2 Hq) as [ys [d2 [E2 [_ F2]]]]. exists ys, d2. split; [exact E2|]. rewrite PF in F2. clear - F2 Hq HL Hspd. destruct (entries_spd Hspd) as [_ HS].
      induction F2 as [|[x e] y qs ys (Ly & EN) F2 IH]; constructor; [|apply IH; intros; apply Hq; right; auto]. clear IH F2. cbn [fst snd] in *.
      destruct (Hq x e (or_introl eq_refl)) as [_ Le]. apply (@spectrum_bounds K n A eq_refl HS (theta * lambda)%K e y HL); auto.
      assert (X : vsub e (vzero n) = e) by (unfold OField.vec in *; vext; ring). rewrite X in EN. exact EN.
    Qed.
  End Rate.
End C.
Print Assumptions C100_jacobi.
Print Assumptions C100_gap.
Print Assumptions C100_coarse_space.
Print Assumptions C100_rate.
Print Assumptions C100_repeated_calls.
Print Assumptions C100_condition.

(** ** Examples *)
Section XDev.
  Variable K : ofield.
  Add Field KfXDevRate : (f_field K).
  Local Open Scope K_scope.
  (** The second eigenvalue of a symmetric matrix of size 2. *)
  Lemma second_eigenvalue : forall p t s l x y a b mu u v : K, t <> 0 -> 0 + p * x + t * y = l * x -> 0 + t * x + s * y = l * y -> x * x + (y * y + 0) = 1 ->
    0 + p * a + t * b = mu * a -> 0 + t * a + s * b = mu * b -> a * x + (b * y + 0) = 0 -> ~ (a = 0 /\ b = 0) -> l <= mu -> u < v -> p + s = u + v -> p * s - t * t = u * v -> mu = v.
  Proof.
    intros p t s l x y a b mu u v Ht E1 E2 N E3 E4 O Nab Hle Huv T1 T2. destruct (@eigen_nonzero K p t s l x y Ht E1 E2 N) as [Nx Ny].
    assert (C : (l - u) * (l - v) = 0).
    { assert (Q : ((p - l) * (s - l) - t * t) * (x * y) = 0).
      { assert (Q1 : (p - l) * x = - t * y) by (transitivity (0 + p * x + t * y - l * x - t * y); [ring|]; rewrite E1; ring).
        assert (Q2 : (s - l) * y = - t * x) by (transitivity (0 + t * x + s * y - l * y - t * x); [ring|]; rewrite E2; ring).
        transitivity ((p - l) * x * ((s - l) * y) - t * t * (x * y)); [ring|]. rewrite Q1, Q2. ring. }
      destruct (@fmul_eq_0 K _ _ Q) as [Q1|Q1]; [|exfalso; destruct (@fmul_eq_0 K _ _ Q1); contradiction].
      transitivity (l * l - (u + v) * l + u * v); [ring|]. rewrite <- T1, <- T2. rewrite <- Q1. ring. }
    assert (Nb : b <> 0).
    { intros Zb. apply Nab. split; auto. rewrite Zb in O. assert (Q : a * x = 0) by (rewrite <- O; ring). destruct (@fmul_eq_0 K _ _ Q); [auto|contradiction]. }
    assert (T : mu = u + v - l).
    { rewrite <- T1. assert (Q : (p + s - l - mu) * (b * y) = 0).
      { assert (Q1 : a * x = - (b * y)) by (transitivity (a * x + (b * y + 0) - b * y); [ring|]; rewrite O; ring).
        assert (Q2 : (p - mu) * a = - t * b) by (transitivity (0 + p * a + t * b - mu * a - t * b); [ring|]; rewrite E3; ring).
        assert (Q3 : (s - l) * y = - t * x) by (transitivity (0 + t * x + s * y - l * y - t * x); [ring|]; rewrite E2; ring).
        transitivity ((s - l) * y * b + (p - mu) * (b * y)); [ring|]. rewrite Q3. replace (b * y) with (- (a * x)) by (rewrite Q1; ring).
        transitivity (- t * x * b - (p - mu) * a * x); [ring|]. rewrite Q2. ring. }
      destruct (@fmul_eq_0 K _ _ Q) as [Q1|Q1]; [|exfalso; destruct (@fmul_eq_0 K _ _ Q1); contradiction].
      transitivity (p + s - l - (p + s - l - mu)); [ring|]. rewrite Q1. ring. }
    destruct (@fmul_eq_0 K _ _ C) as [Q|Q].
    - rewrite T. transitivity (v - (l - u)); [ring|]. rewrite Q. ring.
    - exfalso. assert (El : l = v) by (transitivity (l - v + v); [ring|]; rewrite Q; ring). rewrite El in *. assert (Em : mu = u) by (rewrite T; ring). rewrite Em in Hle.
      apply (@flt_irrefl K u). eapply flt_le_trans; eauto.
  Qed.
  Lemma bounds_test3 : forall (M : mat K) beta dmax, nr M = 3%nat -> nc M = 3%nat ->
    S_DevSolve.spd (mkMat 3 3 (fun i j => (if (i =? j)%nat then beta * ent M i i else 0) - ent M i j)) -> (forall i, (i < 3)%nat -> ent M i i <= dmax) -> diagonal_bounds M beta dmax.
  Proof.
    intros M beta dmax Hr Hc H HD. split; [|rewrite Hc; exact HD]. intros x Lx. rewrite Hc in Lx.
    destruct (entries_spd H) as [_ HS]. assert (HE : 0 <= energy (mulvec (mkMat 3 3 (fun i j => (if (i =? j)%nat then beta * ent M i i else 0) - ent M i j))) x).
    { apply (@energy_nonneg K 3); auto. exact (mulvec_linear (mkMat 3 3 (fun i j => (if (i =? j)%nat then beta * ent M i i else 0) - ent M i j))). }
    destruct x as [|a [|b [|c [|? ?]]]]; try discriminate Lx. apply fle_sub_0. unfold energy, diagonal_energy in *. unfold mulvec in *. rewrite Hr, Hc.
    cbn [seq map dot sumn nth Nat.eqb nr nc ent] in *. unfold dot in *. cbn [seq map sumn nth Nat.eqb nr nc ent] in *.
    match goal with H : 0 <= ?u |- 0 <= ?v => replace v with u; [exact H|] end. simpl. ring.
  Qed.
End XDev.
Definition xdev_tree (prec : string) : ptree :=
  Node "" [("max levels"%string, Node "2" []); ("is preconditioner"%string, Node prec []); ("smoother"%string, Node "" [("type"%string, Node "Jacobi" [])])].
Definition xdev_global : shared_matrix QcOF := mkShared [whole_part hA2] true true.
Lemma xdev_input : forall prec, device_input (dense_libraries QcOF) (exact_library QcOF) ch_z xdev_global (xdev_tree prec) ch_device hA2 no_memory.
Proof.
  intros prec. constructor.
  - apply dense_libraries_ok.
  - apply dense_gemm_once.
  - apply exact_library_ok.
  - exists []. constructor.
  - split; [reflexivity|apply no_memory_ok].
  - exists (whole_part hA2). split; [reflexivity|]. split; [apply (whole_device hA2)|]. split; [apply whole_ready; reflexivity|apply ch_z_ok].
  - split; reflexivity.
  - split; [reflexivity|simpl; lia].
  - reflexivity.
  - reflexivity.
Qed.
Lemma xdev_discarded : forall evals vs, length vs = 1 -> smallest_eigenvectors ad_mat evals vs -> discarded_from ad_mat vs (dq 26 1).
Proof.
  intros evals vs Lv [T1 T2 T3 T4 T5] mu v Lm Nv Ev Ov. destruct vs as [|e [|]]; try discriminate Lv. destruct T2 as [Sz N]. specialize (N 0 0 (Nat.lt_0_succ 0) (Nat.lt_0_succ 0)).
  pose proof (T3 0 (Nat.lt_0_succ 0)) as P. pose proof (T5 mu v Lm Nv Ev Ov 0 (Nat.lt_0_succ 0)) as Hle. cbn [nth Nat.eqb] in N, P. assert (Z1 : length e = 2) by (inversion Sz; auto).
  specialize (Ov e (or_introl eq_refl)). change (nr ad_mat) with 2 in Lm, Nv.
  destruct e as [|x [|y [|]]]; try discriminate Z1. destruct v as [|a [|b [|]]]; try discriminate Lm. unfold eigenpair in P, Ev. set (l := nth 0 evals f0) in *.
  change (mulvec ad_mat [x; y]) with [(0 + dq 17 1 * x + dq (-12) 1 * y)%K; (0 + dq (-12) 1 * x + dq 10 1 * y)%K] in P. change (vscale l [x; y]) with [(l * x)%K; (l * y)%K] in P.
  change (mulvec ad_mat [a; b]) with [(0 + dq 17 1 * a + dq (-12) 1 * b)%K; (0 + dq (-12) 1 * a + dq 10 1 * b)%K] in Ev. change (vscale mu [a; b]) with [(mu * a)%K; (mu * b)%K] in Ev.
  pose proof (f_equal (fun v => nth 0 v f0) P) as P1. pose proof (f_equal (fun v => nth 1 v f0) P) as P2. pose proof (f_equal (fun v => nth 0 v f0) Ev) as E1. pose proof (f_equal (fun v => nth 1 v f0) Ev) as E2.
  cbn [nth] in P1, P2, E1, E2. change (dot [x; y] [x; y]) with (x * x + (y * y + 0))%K in N. change (dot [a; b] [x; y]) with (a * x + (b * y + 0))%K in Ov.
  assert (M : mu = dq 26 1).
  { apply (@second_eigenvalue QcOF (dq 17 1) (dq (-12) 1) (dq 10 1) l x y a b mu (dq 1 1) (dq 26 1)); auto.
    - intros Q; apply (f_equal (fun x : QcOF => Qc_eq_bool x (dq 0 1))) in Q; vm_compute in Q; discriminate.
    - intros [-> ->]. apply Nv. reflexivity.
    - apply fltb_lt; vm_compute; reflexivity. }
  rewrite M. apply fle_refl.
Qed.
Lemma xdev_cells : cells_of_agglomerates hF 2 ch_aggs [[0]; [1]].
Proof.
  assert (X : forall c, c < 2 -> patch_ok hF [c] [c; c + 1] ad_mat).
  { intros c Hc. assert (E : f_cd hF c = [c; c + 1]) by (cbn [hF f_cd]; unfold lcd; replace (c <? 2) with true by (symmetry; apply Nat.ltb_lt; exact Hc); reflexivity).
    split; [repeat constructor; simpl; lia|]. split; [reflexivity|]. split; [reflexivity|]. split.
    - intros g. split.
      + intros Hg. exists c. split; [left; reflexivity|]. rewrite E. exact Hg.
      + intros [c' [[<-|[]] Hg]]. rewrite E in Hg. exact Hg.
    - intros k l Hk Hl. cbn [length] in Hk, Hl. destruct c as [|[|c]]; [| |exfalso; lia]; (destruct k as [|[|k]]; [| |exfalso; lia]); (destruct l as [|[|l]]; [| |exfalso; lia]);
        apply Qc_is_canon; vm_compute; reflexivity. }
  split; [|apply Permutation_refl]. constructor; [apply (X 0); lia|]. constructor; [apply (X 1); lia|constructor].
Qed.
Lemma xdev_spd : S_DevSolve.spd hA2.
Proof. apply posdef_spd; [apply small_symmetric; vm_compute; reflexivity|vm_compute; reflexivity]. Qed.
Lemma xdev_bounds : diagonal_bounds hA2 (dq 193 100) (dq 27 1).
Proof.
  apply bounds_test3; auto.
  - apply posdef_spd; [apply small_symmetric; vm_compute; reflexivity|vm_compute; reflexivity].
  - intros i Hi. destruct i as [|[|[|i]]]; [| | |exfalso; lia]; apply fleb_le; vm_compute; reflexivity.
Qed.
Definition xdev_theta : QcOF := dq 7 2700.
Definition xdev_restrictor (debug : bool) := build_restrictor debug true (dq 1 1000) ad_library (@dense_compress QcOF) 1 [seq 0 3] (fun _ => ad_read) ad_read ad_diag [map fst ch_aggs].
Definition xdev_construct (debug : bool) (prec : string) :=
  dev_construct debug (dense_libraries QcOF) (exact_library QcOF) ch_z (xdev_restrictor debug) xdev_global (xdev_tree prec) ch_device.
Lemma xdev_nonneg : (0 <= xdev_theta)%K.
Proof. apply fleb_le; vm_compute; reflexivity. Qed.
Lemma xdev_fits : (xdev_theta * dq 27 1 <= 1 + 1 - dq 193 100)%K.
Proof. apply fleb_le; vm_compute; reflexivity. Qed.
Lemma xdev_lambda : (0 < dq 26 1)%K.
Proof. apply fltb_lt; vm_compute; reflexivity. Qed.
Lemma xdev_gap : forall a M evals vs, In (a, M) ch_aggs -> length vs = 1 -> smallest_eigenvectors M evals vs -> discarded_from M vs (dq 26 1).
Proof. intros a M evals vs [Q|[Q|[]]] Lv S; injection Q as <- <-; exact (xdev_discarded Lv S). Qed.
(** Two agglomerates of one cell each; the factor is 1 - 182/2700. *)
Example C100_example : forall debug cond, any_conditions cond -> exists H d1 y d2,
  xdev_construct debug "true" = Ok (H, d1) /\
  dev_vmults debug (dense_libraries QcOF) cond H (vmult_requests [seq 0 3] [(ch_x, mulvec hA2 [dq 1 1; dq 2 1; dq 3 1])]) d1 = Ok ([spread [seq 0 3] y], d2) /\
  (energy (mulvec hA2) (vsub [dq 1 1; dq 2 1; dq 3 1] y) <= dq 2518 2700 * dq 2518 2700 * energy (mulvec hA2) [dq 1 1; dq 2 1; dq 3 1])%K.
Proof.
  intros debug cond HC2.
  destruct (@C100_rate QcOF debug true (dq 1 1000) ad_library (@dense_compress QcOF) 1 (fun _ => ad_read) ad_read ad_diag (dense_libraries QcOF) (exact_library QcOF) ch_z xdev_global
    (xdev_tree "true") ch_device no_memory hF (lmesh 2) ch_aggs [[0]; [1]] (dq 26 1) (dq 193 100) (dq 27 1) xdev_theta (xdev_input "true") (eig_of_ok _) (@dense_compress_ok QcOF) ad_tol
    ch_problem_ok hfem_ok hcells xdev_spd xdev_cells xdev_lambda xdev_gap eq_refl ltac:(vm_compute; auto) ltac:(vm_compute; lia) xdev_bounds xdev_nonneg xdev_fits)
    as [R [rs [h' [H1 [H2 X]]]]].
  destruct (X (ch_spectral_rank H1 H2)) as [H [d1 [E V]]]. destruct (V cond [(ch_x, [dq 1 1; dq 2 1; dq 3 1])] HC2) as [ys [d2 [E2 [_ F2]]]].
  { intros x e [Q|[]]. injection Q as <- <-. auto. }
  inversion F2 as [|? y ? ? (Ly & B) F3 Q1 Q2]; subst. inversion F3; subst. exists H, d1, y, d2. split; [exact E|]. split; [exact E2|]. cbn [fst snd] in B.
  replace (dq 2518 2700) with (1 - xdev_theta * dq 26 1)%K by (apply Qc_is_canon; vm_compute; reflexivity).
  eapply fle_trans; [exact B|]. apply fle_refl.
Qed.
Example C100_repeated_calls_example : forall debug cond k, any_conditions cond -> exists H d1 y d2,
  xdev_construct debug "false" = Ok (H, d1) /\
  repeated_dev_vmult debug (dense_libraries QcOF) cond H (spread [seq 0 3] (mulvec hA2 [dq 1 1; dq 2 1; dq 3 1])) k (spread [seq 0 3] ch_x) d1 = Ok (spread [seq 0 3] y, d2) /\
  (energy (mulvec hA2) (vsub [dq 1 1; dq 2 1; dq 3 1] y) <=
     fpow ((1 - xdev_theta * dq 26 1) * (1 - xdev_theta * dq 26 1)) k * energy (mulvec hA2) (vsub [dq 1 1; dq 2 1; dq 3 1] ch_x))%K.
Proof.
  intros debug cond k HC2.
  destruct (@C100_repeated_calls QcOF debug true (dq 1 1000) ad_library (@dense_compress QcOF) 1 (fun _ => ad_read) ad_read ad_diag (dense_libraries QcOF) (exact_library QcOF) ch_z xdev_global
    (xdev_tree "false") ch_device no_memory hF (lmesh 2) ch_aggs [[0]; [1]] (dq 26 1) (dq 193 100) (dq 27 1) xdev_theta (xdev_input "false") (eig_of_ok _) (@dense_compress_ok QcOF) ad_tol
    ch_problem_ok hfem_ok hcells xdev_spd xdev_cells xdev_lambda xdev_gap eq_refl ltac:(vm_compute; auto) ltac:(vm_compute; lia) xdev_bounds xdev_nonneg xdev_fits eq_refl)
    as [R [rs [h' [H1 [H2 X]]]]].
  destruct (X (ch_spectral_rank H1 H2)) as [H [d1 [E V]]].
  destruct (V cond k ch_x [dq 1 1; dq 2 1; dq 3 1] HC2 eq_refl eq_refl) as [y [d2 [E2 [_ B]]]]. exists H, d1, y, d2. auto.
Qed.
Example C100_condition_example : forall debug cond e, any_conditions cond -> length e = 3 -> exists H d1 y d2,
  xdev_construct debug "true" = Ok (H, d1) /\
  dev_vmults debug (dense_libraries QcOF) cond H (vmult_requests [seq 0 3] [(ch_x, mulvec hA2 e)]) d1 = Ok ([spread [seq 0 3] y], d2) /\
  (xdev_theta * dq 26 1 * energy (mulvec hA2) e <= dot y (mulvec hA2 e))%K /\ (dot y (mulvec hA2 e) <= (1 + 1 - xdev_theta * dq 26 1) * energy (mulvec hA2) e)%K.
Proof.
  intros debug cond e HC2 Le.
  destruct (@C100_condition QcOF debug true (dq 1 1000) ad_library (@dense_compress QcOF) 1 (fun _ => ad_read) ad_read ad_diag (dense_libraries QcOF) (exact_library QcOF) ch_z xdev_global
    (xdev_tree "true") ch_device no_memory hF (lmesh 2) ch_aggs [[0]; [1]] (dq 26 1) (dq 193 100) (dq 27 1) xdev_theta (xdev_input "true") (eig_of_ok _) (@dense_compress_ok QcOF) ad_tol
    ch_problem_ok hfem_ok hcells xdev_spd xdev_cells xdev_lambda xdev_gap eq_refl ltac:(vm_compute; auto) ltac:(vm_compute; lia) xdev_bounds xdev_nonneg xdev_fits eq_refl
    ltac:(apply fleb_le; vm_compute; reflexivity))
    as [R [rs [h' [H1 [H2 X]]]]].
  destruct (X (ch_spectral_rank H1 H2)) as [H [d1 [E V]]]. destruct (V cond [(ch_x, e)] HC2) as [ys [d2 [E2 F2]]].
  { intros x e' [Q|[]]. injection Q as <- <-. auto. }
  inversion F2 as [|? y ? ? B F3 Q1 Q2]; subst. inversion F3; subst. exists H, d1, y, d2. split; [exact E|]. split; [exact E2|]. exact B.
Qed.
(** The coarse space of the example, and a step of Jacobi's method on it. *)
Example C100_coarse_space_example : forall debug, exists R rs h', restricts (xdev_restrictor debug) hA2 R no_memory h' /\
  rank_result 1 (ch_aggs, no_memory) (rs, h') /\ restriction_of 3 ad_diag rs R /\ approximates hA2 R (dq 26 1).
Proof.
  intros debug.
  exact (@C100_coarse_space QcOF debug true (dq 1 1000) ad_library (@dense_compress QcOF) 1 (fun _ => ad_read) ad_read ad_diag no_memory hF (lmesh 2) ch_aggs [[0]; [1]] (dq 26 1)
    (eig_of_ok _) (@dense_compress_ok QcOF) ad_tol ch_problem_ok hfem_ok hcells xdev_spd xdev_cells xdev_lambda xdev_gap).
Qed.
Example C100_jacobi_example :
  (xdev_theta * dot (mulvec hA2 [dq 1 1; dq 2 1; dq 3 1]) (mulvec hA2 [dq 1 1; dq 2 1; dq 3 1]) <=
     energy (mulvec hA2) [dq 1 1; dq 2 1; dq 3 1] - energy (mulvec hA2) (jacobi_step hA2 (vzero 3) [dq 1 1; dq 2 1; dq 3 1]))%K.
Proof. apply (@C100_jacobi QcOF hA2 (dq 193 100) (dq 27 1) xdev_theta xdev_spd xdev_bounds xdev_nonneg xdev_fits [dq 1 1; dq 2 1; dq 3 1] eq_refl). Qed.
Example C100_gap_example : forall evals vs, length vs = 1 -> smallest_eigenvectors ad_mat evals vs -> gap ad_mat vs (dq 26 1).
Proof.
  intros evals vs Lv S. apply (proj1 (@C100_gap QcOF ad_library ad_mat evals vs (eig_of_ok _) ad_succeeds ad_symmetric S)). exact (xdev_discarded Lv S).
Qed.

(** One cell with four dofs and the matrix I + 9 J (J full of ones): the eigenvalues are 1 (three times) and 37. *)
Section JDev.
  Variable K : ofield.
  Add Field KfJDevRate : (f_field K).
  Local Open Scope K_scope.
  Definition jform (t : K) (g h : nat) : K := if (g <? 4)%nat && (h <? 4)%nat then (if (g =? h)%nat then 1 + t else t) else 0.
  Lemma jform_energy : forall t u, sumn 4 (fun g => sumn 4 (fun h => jform t g h * u h) * u g) =
    t * ((u 0%nat + u 1%nat + u 2%nat + u 3%nat) * (u 0%nat + u 1%nat + u 2%nat + u 3%nat)) + (u 0%nat * u 0%nat + u 1%nat * u 1%nat + u 2%nat * u 2%nat + u 3%nat * u 3%nat).
  Proof. intros t u. unfold jform. cbn [sumn Nat.ltb Nat.leb Nat.eqb andb]. ring. Qed.
  Lemma jform_nonneg : forall t u, 0 <= t -> 0 <= sumn 4 (fun g => sumn 4 (fun h => jform t g h * u h) * u g).
  Proof. intros t u Ht. rewrite jform_energy. apply fadd_nonneg; [apply fle_mul; [exact Ht|apply fsquare_nonneg]|]. repeat apply fadd_nonneg; apply fsquare_nonneg. Qed.
  Lemma jform_zero : forall u : nat -> K, 0 <= sumn 4 (fun g => sumn 4 (fun h => 0 * u h) * u g).
  Proof. intros u. cbn [sumn]. match goal with |- fle ?x ?y => replace y with x by ring; apply fle_refl end. Qed.
  Lemma jform_eigen : forall t mu v, 0 <= t -> length v = 4%nat -> v <> vzero 4 -> eigenpair (mkMat 4 4 (jform t)) mu v -> 1 <= mu.
  Proof.
    intros t mu v Ht Lv Nv Ev. assert (P : 0 < dot v v) by (apply fle_neq_lt; [apply dot_nonneg|]; intros Q; apply Nv; rewrite <- Lv; apply dot_self_0; symmetry; exact Q).
    assert (E : energy (mulvec (mkMat 4 4 (jform t))) v = t * ((nth 0 v 0 + nth 1 v 0 + nth 2 v 0 + nth 3 v 0) * (nth 0 v 0 + nth 1 v 0 + nth 2 v 0 + nth 3 v 0)) + dot v v).
    { destruct v as [|a [|b [|c [|d [|? ?]]]]]; try discriminate Lv. unfold energy, mulvec, dot, jform. cbn [nr nc ent seq map sumn nth Nat.ltb Nat.leb Nat.eqb andb]. simpl. ring. }
    unfold eigenpair in Ev. unfold energy in E. rewrite Ev in E.
    assert (E2 : dot (vscale mu v) v = mu * dot v v) by (rewrite ?dot_scale_l, ?dot_vscale_l; reflexivity). rewrite E2 in E.
    apply (@fle_mul_cancel K (dot v v)); [exact P|].
    match goal with |- ?x <= ?y => replace x with (dot v v) by ring; replace y with (mu * dot v v) by ring end. rewrite E.
    apply fle_sub_0. match goal with |- 0 <= ?x => replace x with (t * ((nth 0 v 0 + nth 1 v 0 + nth 2 v 0 + nth 3 v 0) * (nth 0 v 0 + nth 1 v 0 + nth 2 v 0 + nth 3 v 0))) by ring end.
    apply fle_mul; [exact Ht|apply fsquare_nonneg].
  Qed.
  Lemma single_rank : forall (R : mat K) g, nr R = 1%nat -> (g < nc R)%nat -> ent R 0 g <> 0 -> full_row_rank R.
  Proof.
    intros R g H1 Hg N x Lx E. rewrite H1 in *. destruct x as [|a [|]]; try discriminate Lx. unfold mulTvec in E. apply (f_equal (fun v => nth g v 0)) in E.
    rewrite nth_mulvec in E by exact Hg. cbn [mtrans nr nc ent] in E. rewrite H1 in E. cbn [sumn nth] in E. unfold vzero in E. rewrite nth_repeat in E.
    assert (Q : ent R 0 g * a = 0) by (rewrite <- E; ring). destruct (@fmul_eq_0 K _ _ Q) as [|Z]; [contradiction|]. rewrite Z. reflexivity.
  Qed.
End JDev.
Definition jd_t : QcOF := dq 9 1.
Definition jd_F : fem QcOF := @mkFem QcOF 4 (fun c => if c =? 0 then [0; 1; 2; 3] else []) (fun c g h => if c =? 0 then @jform QcOF jd_t g h else f0).
Definition jd_A : mat QcOF := assembled jd_F (lmesh 1).
Definition jd_M : mat QcOF := mkMat 4 4 (@jform QcOF jd_t).
Definition jd_columns : list QcOF := [dq 10 1; dq 9 1; dq 9 1; dq 9 1; dq 9 1; dq 10 1; dq 9 1; dq 9 1; dq 9 1; dq 9 1; dq 10 1; dq 9 1; dq 9 1; dq 9 1; dq 9 1; dq 10 1].
Definition jd_vectors : list QcOF := [dq 1 2; dq 1 2; dq (-1) 2; dq (-1) 2; dq 1 2; dq (-1) 2; dq 1 2; dq (-1) 2; dq 1 2; dq (-1) 2; dq (-1) 2; dq 1 2; dq 1 2; dq 1 2; dq 1 2; dq 1 2].
Definition jd_library : eig_library QcOF := @eig_of QcOF [(jd_columns, ([dq 1 1; dq 1 1; dq 1 1; dq 37 1], jd_vectors))].
Definition jd_aggs : list (agglomerate QcOF * mat QcOF) := [((ad_env 4 1, whole_part jd_M, true, [0; 1; 2; 3]), jd_M)].
Definition jd_diag (g : nat) : QcOF := dq 10 1.
Definition jd_read (g : nat) : option QcOF := Some (jd_diag g).
Definition jd_global : shared_matrix QcOF := mkShared [whole_part jd_A] true true.
Lemma jd_pos : (0 <= jd_t)%K.
Proof. apply fleb_le; vm_compute; reflexivity. Qed.
Lemma jd_fem_ok : fem_ok jd_F.
Proof.
  intros c. cbn [jd_F f_cd f_cm f_ndofs]. destruct (Nat.eqb_spec c 0) as [->|N].
  - split; [intros g [<-|[<-|[<-|[<-|[]]]]]; lia|]. intros g h Hn. unfold jform. destruct (Nat.ltb_spec g 4); [|reflexivity]. destruct (Nat.ltb_spec h 4); [|reflexivity]. exfalso. apply Hn.
    simpl. lia.
  - split; [intros g []|]. reflexivity.
Qed.
Lemma jd_cell : forall u, cell_energy jd_F 0 u = sumn 4 (fun g => sumn 4 (fun h => @jform QcOF jd_t g h * u h) * u g)%K.
Proof. intros u. unfold cell_energy. apply sumn_ext. intros g _. apply (f_equal (fun s => (s * u g)%K)). apply sumn_ext. intros h _. reflexivity. Qed.
Lemma jd_no_cell : forall c u, c <> 0 -> cell_energy jd_F c u = sumn 4 (fun g => sumn 4 (fun h => f0 * u h) * u g)%K.
Proof.
  intros c u N. unfold cell_energy. apply sumn_ext. intros g _. apply (f_equal (fun s => (s * u g)%K)). apply sumn_ext. intros h _. apply (f_equal (fun s => (s * u h)%K)). unfold jd_F. cbn [f_cm].
  destruct (Nat.eqb_spec c 0); [contradiction|reflexivity].
Qed.
(* Coq would compute with the statement to find implicit arguments. *)
Unset Implicit Arguments.
Lemma jd_cells : forall c u, fle 0%K (cell_energy jd_F c u).
Proof.
  intros c u. destruct (Nat.eq_dec c 0) as [->|N].
  - rewrite jd_cell. apply (@jform_nonneg QcOF jd_t u jd_pos).
  - rewrite (jd_no_cell u N). apply (@jform_zero QcOF u).
Qed.
Set Implicit Arguments.
Lemma jd_spd : S_DevSolve.spd jd_A.
Proof. apply posdef_spd; [|vm_compute; reflexivity]. split; [reflexivity|]. intros i j Hi Hj. change (nr jd_A) with 4 in *.
  do 4 (destruct i as [|i]; [do 4 (destruct j as [|j]; [apply Qc_is_canon; vm_compute; reflexivity|]); exfalso; lia|]). exfalso; lia.
Qed.
Lemma jd_symmetric : symmetric_matrix jd_M.
Proof.
  split; [reflexivity|]. intros i j _ _. cbn [jd_M ent]. unfold jform. rewrite (andb_comm (j <? 4)). destruct (_ && _)%bool; auto. rewrite (Nat.eqb_sym j i). reflexivity.
Qed.
Lemma jd_patches : cells_of_agglomerates jd_F 1 jd_aggs [[0]].
Proof.
  split; [|apply Permutation_refl]. constructor; [|constructor]. cbn [fst snd]. split; [repeat constructor; simpl; lia|]. split; [reflexivity|]. split; [reflexivity|]. split.
  - intros g. split; [intros Hg; exists 0; split; [left; reflexivity|exact Hg]|]. intros [c [[<-|[]] Hg]]. exact Hg.
  - intros k l Hk Hl. cbn [length] in Hk, Hl.
    do 4 (destruct k as [|k]; [do 4 (destruct l as [|l]; [apply Qc_is_canon; vm_compute; reflexivity|]); exfalso; lia|]). exfalso; lia.
Qed.
Lemma jd_stored : forall a, length a = 16 -> meq (columns_matrix 4 a) jd_M -> a = jd_columns.
Proof.
  intros a La [_ [_ H]]. cbn [columns_matrix nr nc ent] in H. apply (nth_ext _ _ f0 f0); [exact La|]. intros i Hi. rewrite La in Hi.
  assert (E : nth i a f0 = @jform QcOF jd_t (i mod 4) (i / 4)).
  { change (@jform QcOF jd_t (i mod 4) (i / 4)) with (ent jd_M (i mod 4) (i / 4)). rewrite <- (H (i mod 4) (i / 4)); [|apply Nat.mod_upper_bound; lia|apply Nat.div_lt_upper_bound; lia].
    f_equal. rewrite (Nat.div_mod i 4) at 1 by lia. lia. }
  rewrite E. do 16 (destruct i as [|i]; [apply Qc_is_canon; vm_compute; reflexivity|]). exfalso; lia.
Qed.
Lemma jd_succeeds : eig_succeeds jd_library jd_M.
Proof. intros a b La Ha _ _. change (nr jd_M) with 4 in *. rewrite (jd_stored La Ha). vm_compute. reflexivity. Qed.
Lemma jd_problem_ok : problem_ok jd_library 1 4 [seq 0 4] (fun _ => jd_read) jd_read jd_diag [(jd_aggs, no_memory)].
Proof.
  assert (X : forall r a A, In r [(jd_aggs, no_memory)] -> In (a, A) (fst r) -> A = jd_M /\ a = (ad_env 4 1, whole_part jd_M, true, [0; 1; 2; 3])).
  { intros r a A [<-|[]] [E|[]]; injection E as <- <-; auto. }
  constructor.
  - discriminate.
  - apply first_range.
  - reflexivity.
  - intros r [<-|[]]. split; [discriminate|apply no_memory_ok].
  - intros r a A Hr Ha. destruct (X r a A Hr Ha) as [-> ->]. split; [|apply jd_succeeds]. constructor; cbn [fst snd]; auto.
    + exists (seq 0 4), (seq 0 4). apply (whole_device jd_M).
    + intros rows Hrows. apply (@whole_ready QcOF jd_M eq_refl rows Hrows).
    + apply jd_symmetric.
    + apply ad_env_ok.
    + simpl. lia.
  - intros r a A i Hr Ha Hi. destruct (X r a A Hr Ha) as [-> _]. change (nr jd_M) with 4 in Hi.
    do 4 (destruct i as [|i]; [intros Q; apply (f_equal (fun x : QcOF => Qc_eq_bool x (dq 0 1))) in Q; vm_compute in Q; discriminate|]). exfalso; lia.
  - intros r a A Hr Ha. destruct (X r a A Hr Ha) as [-> ->]. split; [repeat constructor; simpl; lia|]. intros g [<-|[<-|[<-|[<-|[]]]]]; lia.
  - intros. split; reflexivity.
  - intros g Hg. split; [intros Q; apply (f_equal (fun x : QcOF => Qc_eq_bool x (dq 0 1))) in Q; vm_compute in Q; discriminate|].
    do 4 (destruct g as [|g]; [apply Qc_is_canon; vm_compute; reflexivity|]). exfalso; lia.
Qed.
Lemma jd_input : forall prec, device_input (dense_libraries QcOF) (exact_library QcOF) ch_z jd_global (xdev_tree prec) ch_device jd_A no_memory.
Proof.
  intros prec. constructor.
  - apply dense_libraries_ok.
  - apply dense_gemm_once.
  - apply exact_library_ok.
  - exists []. constructor.
  - split; [reflexivity|apply no_memory_ok].
  - exists (whole_part jd_A). split; [reflexivity|]. split; [apply (whole_device jd_A)|]. split; [apply whole_ready; reflexivity|apply ch_z_ok].
  - split; reflexivity.
  - split; [reflexivity|simpl; lia].
  - reflexivity.
  - reflexivity.
Qed.
Lemma jd_gap : forall a M evals vs, In (a, M) jd_aggs -> length vs = 1 -> smallest_eigenvectors M evals vs -> discarded_from M vs 1%K.
Proof. intros a M evals vs [Q|[]] Lv S. injection Q as <- <-. intros mu v Lm Nv Ev _. exact (@jform_eigen QcOF jd_t mu v jd_pos Lm Nv Ev). Qed.
Lemma jd_rank : forall R rs h', rank_result 1 (jd_aggs, no_memory) (rs, h') -> restriction_of 4 jd_diag rs R -> full_row_rank R.
Proof.
  intros R rs h' [F _] [H2 [H3 HE]]. cbn [fst jd_aggs] in F. inversion F as [|? c ? ? (L1 & S & D0 & M0) F1]; subst. inversion F1; subst. clear F F1. cbn [snd fst] in *.
  destruct (ag_evecs c) as [|v [|]] eqn:EV; try discriminate L1. assert (ER : rows_of [c] = [(c, v)]) by (unfold rows_of; cbn [flat_map]; rewrite EV; reflexivity). rewrite ER in *.
  destruct (se_orthonormal S) as [Z N]. specialize (N 0 0 (Nat.lt_0_succ 0) (Nat.lt_0_succ 0)). cbn [nth Nat.eqb] in N. assert (Lv : length v = 4) by (inversion Z; auto).
  assert (HG : exists g, g < 4 /\ nth g v f0 <> f0).
  { destruct (feq_dec QcOF (nth 0 v f0) f0) as [Z0|]; [|exists 0; auto with arith]. destruct (feq_dec QcOF (nth 1 v f0) f0) as [Z1|]; [|exists 1; auto with arith].
    destruct (feq_dec QcOF (nth 2 v f0) f0) as [Z2|]; [|exists 2; auto with arith]. destruct (feq_dec QcOF (nth 3 v f0) f0) as [Z3|]; [|exists 3; auto with arith].
    exfalso. destruct v as [|a [|b [|d [|e [|]]]]]; try discriminate Lv. cbn [nth] in Z0, Z1, Z2, Z3. rewrite Z0, Z1, Z2, Z3 in N.
    apply (f_equal (fun x : QcOF => Qc_eq_bool x (dq 0 1))) in N. vm_compute in N. discriminate N. }
  destruct HG as [g [Hg Ng]]. apply (@single_rank QcOF R g); [exact H2|rewrite H3; exact Hg|].
  assert (E : ent jd_M (0 + g) (0 + g) = jd_diag g) by (destruct g as [|[|[|[|]]]]; [apply Qc_is_canon; vm_compute; reflexivity..|exfalso; lia]).
  rewrite (proj1 (HE 0 c v g eq_refl Hg) g).
  - rewrite D0. change (nr jd_M) with 4. rewrite (nth_map_lt _ (seq 0 4) f0 0) by exact Hg. rewrite seq_nth by exact Hg. intros Q. apply Ng. rewrite E in Q. etransitivity; [|exact Q].
    apply div_mul_self. unfold jd_diag. intros Q2; apply (f_equal (fun x : QcOF => Qc_eq_bool x (dq 0 1))) in Q2; vm_compute in Q2; discriminate.
  - rewrite M0. exact Hg.
  - rewrite M0. destruct g as [|[|[|[|]]]]; auto. exfalso; lia.
Qed.
Definition jd_e : list QcOF := [dq 1 1; dq 1 1; dq 1 1; dq 1 1].
Definition jd_construct (debug : bool) :=
  dev_construct debug (dense_libraries QcOF) (exact_library QcOF) ch_z (build_restrictor debug true (dq 1 1000) jd_library (@dense_compress QcOF) 1 [seq 0 4] (fun _ => jd_read) jd_read
    jd_diag [map fst jd_aggs]) jd_global (xdev_tree "true") ch_device.
Definition jd_run (debug : bool) := let! (H, d1) := jd_construct debug in
  dev_vmults debug (dense_libraries QcOF) ch_cond H (vmult_requests [seq 0 4] [(vzero 4, mulvec jd_A jd_e)]) d1.
Definition jd_test (r : outcome (list (dvec QcOF) * device QcOF)) : bool :=
  match r with Ok ([y], _) => fltb (energy (mulvec jd_A) jd_e) (energy (mulvec jd_A) (vsub jd_e (concat (v_vals y)))) | _ => false end.
(** C100: the bound on the diagonal is needed. For this matrix all the other hypotheses of C100_rate hold, but a call of vmult makes the error larger: A <= beta D only for
    beta >= 37/10, and Jacobi's method without damping diverges. *)
Theorem C100_diagonal_refuted :
  (device_input (dense_libraries QcOF) (exact_library QcOF) ch_z jd_global (xdev_tree "true") ch_device jd_A no_memory /\
   problem_ok jd_library 1 4 [seq 0 4] (fun _ => jd_read) jd_read jd_diag [(jd_aggs, no_memory)] /\ fem_ok jd_F /\ (forall c u, fle 0%K (cell_energy jd_F c u)) /\
   S_DevSolve.spd jd_A /\ cells_of_agglomerates jd_F 1 jd_aggs [[0]] /\
   (forall a M evals vs, In (a, M) jd_aggs -> length vs = 1 -> smallest_eigenvectors M evals vs -> discarded_from M vs 1%K) /\
   (forall R rs h', rank_result 1 (jd_aggs, no_memory) (rs, h') -> restriction_of 4 jd_diag rs R -> full_row_rank R)) /\
  forall debug, exists H d1 y d2, jd_construct debug = Ok (H, d1) /\
    dev_vmults debug (dense_libraries QcOF) ch_cond H (vmult_requests [seq 0 4] [(vzero 4, mulvec jd_A jd_e)]) d1 = Ok ([y], d2) /\
    (energy (mulvec jd_A) jd_e < energy (mulvec jd_A) (vsub jd_e (concat (v_vals y))))%K.
Proof.
  split.
  - split; [exact (jd_input "true")|]. split; [exact jd_problem_ok|]. split; [exact jd_fem_ok|]. split; [exact jd_cells|]. split; [exact jd_spd|]. split; [exact jd_patches|].
    split; [exact jd_gap|exact jd_rank].
  - intros debug. assert (T : jd_test (jd_run debug) = true) by (destruct debug; vm_compute; reflexivity).
    unfold jd_run in T. destruct (jd_construct debug) as [[H d1]| | | |]; try discriminate T. cbn [bind] in T. exists H, d1.
    destruct (dev_vmults _ _ _ _ _ _) as [[[|y [|? ?]] d2]| | | |]; try discriminate T. exists y, d2. split; [reflexivity|]. split; [reflexivity|]. apply fltb_lt. exact T.
Qed.
Print Assumptions C100_diagonal_refuted.
