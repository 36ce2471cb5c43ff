(** Proofs about the rate of the hierarchy on the device: the coarse space, and calls of vmult. *)
From Coq Require Import String List Arith Lia ZArith Bool Permutation Field.
From Verif Require Import Base OField Mat LinAlg M_Ptree M_Hier S_Hier P_Hier P_Hier2 P_HierE P_HierS M_Host M_SpProd S_SpProd M_Csr S_Csr P_Csr4 M_Dev M_CudaOp S_CudaOp
  S_Eig S_Lanczos P_AmgeDev2 M_DevSolve S_DevSolve P_DevSolve M_Restr S_Restr P_Restr2 M_AmgeDev S_AmgeDev P_AmgeDev4 M_CudaHier S_CudaHier P_CudaHier P_CudaHier2 P_CudaHier3
  S_FastAP S_HostEnd S_Rate P_Smoother P_Rate P_Rate2 P_Approx M_Agglo S_DevRate P_DevRate.
Import ListNotations.
Set Implicit Arguments.
Open Scope nat_scope.

Section P.
  Variable K : ofield.
  Add Field KfDevRate2 : (f_field K).
  Local Notation vec := (vec K).
  Ltac vx := unfold OField.vec in *; vext; try ring.

  (** ** The coarse space *)
  Lemma stored : forall (A : mat K), exists a, length a = nr A * nr A /\ forall i j, i < nr A -> j < nr A -> nth (i + j * nr A) a f0 = ent A i j.
  Proof.
    intros A. set (n := nr A). exists (map (fun k => ent A (k mod n) (k / n)) (seq 0 (n * n))). split; [rewrite map_length, seq_length; auto|]. intros i j Hi Hj.
    assert (Hk : i + j * n < n * n) by nia. rewrite (nth_map_lt _ (seq 0 (n * n)) f0 0) by (rewrite seq_length; auto). rewrite seq_nth by auto. simpl (0 + _).
    rewrite Nat.mod_add by lia. rewrite Nat.div_add by lia. rewrite Nat.mod_small, Nat.div_small by auto. reflexivity.
  Qed.
  Lemma system_exists : forall (Z : eig_library K) (A : mat K), eig_library_ok Z -> symmetric_matrix A -> eig_succeeds Z A -> exists w a, eigen_system A w a.
  Proof.
    intros Z A HZ Sy HS. set (n := nr A). assert (Sq : n = nc A) by apply Sy.
    destruct (stored A) as (a & La & Ha). destruct (stored (mkMat n n (fun i j => if i =? j then f1 else f0))) as (b & Lb & Hb). cbn [nr ent] in Lb, Hb. fold n in La, Ha.
    assert (MA : meq (columns_matrix n a) A) by (split; [reflexivity|]; split; [exact Sq|]; cbn [columns_matrix nr nc ent]; intros i j Hi Hj; apply Ha; auto).
    assert (IB : identity_matrix (columns_matrix n b)) by (split; [reflexivity|]; cbn [columns_matrix nr nc ent]; intros i j Hi Hj; apply Hb; auto).
    pose proof (HZ n a b La Lb (symmetric_meq (meq_sym' MA) Sy) IB) as Q. pose proof (HS a b La MA Lb IB) as Q2. fold n in Q2.
    destruct (z_sygvd Z n a b) as [[[a' b'] w] info]. cbn [snd] in Q2. destruct Q as (_ & _ & _ & Q). exists w, a'. apply (eigen_meq MA). auto.
  Qed.
  Lemma local_diagonal_cells : forall (F : fem K) (a : agglomerate K) M cells g, fem_ok F -> patch_ok F cells (snd a) M ->
    local_diagonal a M g = lsum (map (fun k => f_cm F k g g) cells).
  Proof.
    intros F a M cells g HF (Q1 & Q2 & Q3 & Q4 & Q5). unfold local_diagonal. destruct (in_dec Nat.eq_dec g (snd a)) as [J|J].
    - destruct (In_nth _ _ 0 J) as (j & Hj & <-). rewrite (@sumn_single K (nr M) j); [rewrite Nat.eqb_refl; apply Q5; auto|lia|].
      intros i Hi Hne. destruct (Nat.eqb_spec (nth i (snd a) 0) (nth j (snd a) 0)) as [E|E]; auto. exfalso. apply Hne. apply (proj1 (NoDup_nth (snd a) 0) Q1); auto; lia.
    - rewrite sumn_zero; [symmetry; apply lsum_map_0; intros k Hk; apply (proj2 (HF k)); intros (Z & _); apply J, Q4; eauto|].
      intros i Hi. destruct (Nat.eqb_spec (nth i (snd a) 0) g) as [E|E]; auto. exfalso. apply J. rewrite <- E. apply nth_In. lia.
  Qed.
  Lemma F2_nth : forall (X Y : Type) (P : X -> Y -> Prop) l l' dx dy i, Forall2 P l l' -> i < length l -> P (nth i l dx) (nth i l' dy).
  Proof. intros X Y P l l' dx dy i H. revert i. induction H; intros [|i] Hi; simpl in *; try lia; auto. apply IHForall2. lia. Qed.
  Lemma nth_all : forall (X : Type) (l : list X) d, map (fun i => nth i l d) (seq 0 (length l)) = l.
  Proof.
    intros X l d. apply nth_ext with (d := d) (d' := d); [rewrite map_length, seq_length; auto|]. intros i Hi. rewrite map_length, seq_length in Hi.
    rewrite (nth_map_lt (fun i => nth i l d) (seq 0 (length l)) d 0) by (rewrite seq_length; auto). rewrite seq_nth by auto. reflexivity.
  Qed.
  Lemma lsum_concat : forall (f : nat -> K) ls, lsum (map (fun l => lsum (map f l)) ls) = lsum (map f (concat ls)).
  Proof. intros f. induction ls as [|l ls IH]; [reflexivity|]. cbn [map lsum concat]. rewrite map_app, lsum_app, IH. reflexivity. Qed.
  Lemma lsum_perm : forall (f : nat -> K) l l', Permutation l l' -> lsum (map f l) = lsum (map f l').
  Proof. intros f l l' P. induction P; cbn [map lsum]; [reflexivity|rewrite IHP; reflexivity|ring|congruence]. Qed.

  Lemma device_coarse : forall (F : fem K) m Z k gds gd D xs h rs h' cells R lambda, fem_ok F -> (forall c u, (0 <= cell_energy F c u)%K) -> eig_library_ok Z ->
    problem_ok Z k (f_ndofs F) [seq 0 (f_ndofs F)] gds gd D [(xs, h)] -> cells_of_agglomerates F (n_cells m) xs cells ->
    (forall g, g < f_ndofs F -> (0 < ent (assembled F m) g g)%K) -> (0 <= lambda)%K ->
    (forall a A evals vs, In (a, A) xs -> length vs = k -> smallest_eigenvectors A evals vs -> discarded_from A vs lambda) ->
    rank_result k (xs, h) (rs, h') -> restriction_of (f_ndofs F) D rs R -> approximates (assembled F m) R lambda.
  Proof.
    intros F m Z k gds gd D xs h rs h' cells R lambda HF HC HZ HP (HA & HPm) HD Hl HX (HR & _) (R1 & R2 & R3). cbn [fst snd] in HR.
    pose proof (F2_length HR) as L1. pose proof (F2_length HA) as L2.
    destruct (po_rank HP (xs, h) (or_introl eq_refl)) as [Hne _]. cbn [fst] in Hne.
    assert (dx : agglomerate K * mat K) by (destruct xs as [|x0 xs']; [congruence|exact x0]).
    set (dr := mkAgg [] [] [] [] : agg_result K). set (res := fun i => nth i rs dr). set (cl := fun i => nth i cells []). set (Mof := fun i => snd (nth i xs dx)).
    set (ids := seq 0 (length xs)). assert (Er : map res ids = rs) by (unfold res, ids; etransitivity; [|apply (nth_all rs dr)]; rewrite <- L1; reflexivity).
    assert (Ec : map cl ids = cells) by (unfold cl, ids; etransitivity; [|apply (nth_all cells [])]; rewrite <- L2; reflexivity).
    assert (HI : forall i, In i ids -> i < length xs) by (intros i Hi; apply in_seq in Hi; lia).
    assert (HQ : forall i, In i ids -> let x := nth i xs dx in In (fst x, snd x) xs /\ agglomerate_result k (fst x) (snd x) (res i) /\ patch_ok F (cl i) (snd (fst x)) (snd x)).
    { intros i Hi. apply HI in Hi. cbv zeta. split; [rewrite <- surjective_pairing; apply nth_In; auto|].
      split; [exact (F2_nth dx dr HR Hi)|exact (F2_nth dx [] HA Hi)]. }
    assert (HS : forall f : nat -> K, lsum (map (fun a => lsum (map f (cl a))) ids) = lsum (map f (seq 0 (n_cells m)))).
    { intros f. transitivity (lsum (map (fun l => lsum (map f l)) cells)); [rewrite <- Ec, map_map; reflexivity|]. rewrite lsum_concat. apply lsum_perm. exact HPm. }
    assert (HDg : forall g, g < f_ndofs F -> D g = ent (assembled F m) g g).
    { intros g Hg. destruct (po_sum HP Hg) as [_ E]. cbn [flat_map fst] in E. rewrite app_nil_r in E. rewrite <- E. cbn [assembled ent]. rewrite <- HS.
      transitivity (lsum (map (fun i => local_diagonal (fst (nth i xs dx)) (snd (nth i xs dx)) g) ids)).
      - rewrite <- (nth_all xs dx) at 1. rewrite map_map. reflexivity.
      - apply lsum_map_ext. intros i Hi. destruct (HQ i Hi) as (_ & _ & Q). apply local_diagonal_cells; auto. }
    apply (@coarse_approximates K F m nat ids res cl Mof lambda HF HC); auto.
    - intros i Hi. destruct (HQ i Hi) as (Q1 & (Q2 & Q3 & Q4 & Q5) & Q6). fold (Mof i) in Q1, Q3, Q4, Q6.
      destruct (po_agglomerate HP (xs, h) _ _ (or_introl eq_refl) Q1) as [AO AS]. destruct Q3 as [T1 T2 T3 T4 T5].
      rewrite Q5. split; [exact Q6|]. split; [rewrite Q4; destruct Q6 as (_ & Q6 & _); rewrite Q6; reflexivity|]. split; [apply (ao_symmetric AO)|]. split; [exact T2|].
      split; [intros j Hj; apply T3; auto|].
      destruct (system_exists HZ (ao_symmetric AO) AS) as (w & a & ES).
      apply (@gap_of_discarded K (Mof i) w a (ag_evecs (res i)) (ag_evals (res i)) lambda (ao_symmetric AO) ES T2); [intros j Hj; apply T3; auto|].
      apply (HX _ _ (ag_evals (res i)) (ag_evecs (res i)) Q1 Q2). constructor; auto.
    - rewrite Er. exact R1.
    - rewrite Er. intros r g [c e] Hg Hr. destruct (R3 r c e g Hr Hg) as (R4 & R5). unfold r_entry. cbn [fst snd].
      assert (Ic : In c rs).
      { apply nth_error_In in Hr. unfold rows_of in Hr. apply in_flat_map in Hr. destruct Hr as (c' & Ic & Hr). apply in_map_iff in Hr. destruct Hr as (e' & E & _). injection E as <- _. exact Ic. }
      destruct (@F2_in_r _ _ _ _ _ _ HR Ic) as ((a & M) & Ix & (_ & _ & _ & Em)). cbn [fst snd] in Em.
      destruct (po_dofs HP (xs, h) a M (or_introl eq_refl) Ix) as [ND _]. rewrite <- Em in ND.
      destruct (in_dec Nat.eq_dec g (ag_map c)) as [J|J].
      + destruct (In_nth _ _ 0 J) as (j & Hj & Ej). rewrite (R4 j Hj Ej), HDg by auto. subst g. rewrite at_dof_one by auto. reflexivity.
      + rewrite (R5 J), at_dof_none by auto. reflexivity.
  Qed.

  (** ** Calls of vmult *)
  Lemma construct_calls : forall debug L Y z restr global p (d : device K) A R h h', device_input L Y z global p d A h -> restricts restr A R h h' ->
    pt_get parse_int ["max levels"%string] 2%Z p = 2%Z -> direct_solvable (solver_name p) (mmul R (mmul A (mtrans R))) ->
    exists H d1 (ready : device K -> Prop), dev_construct debug L Y z restr global p d = Ok (H, d1) /\ ready d1 /\ (forall d2, ready d2 -> memory_kept [h'] (d_heaps d2)) /\
      forall cond x b d2, any_conditions cond -> ready d2 -> length x = nr A -> length b = nr A ->
      exists y d3, dev_vmult debug L cond H (spread [seq 0 (nr A)] x) (spread [seq 0 (nr A)] b) d2 = Ok (spread [seq 0 (nr A)] y, d3) /\ ready d3 /\
        S_HostEnd.two_grid A R (mulvec (inverse_diagonal (nc A) A)) (c_steps p) b (if c_prec p then vzero (nc A) else x) y.
  Proof.
    intros debug L Y z restr global p d A R h h' P PR Hlv Hsol.
    destruct (@construct_described K debug L Y z restr global p d A R h h' P PR Hlv Hsol) as [lv [rest [s3 [ms [C [E [St [DD [C2 C3]]]]]]]]].
    pose proof (in_libraries P) as HL. destruct (in_square P) as [Hsq Hn]. destruct (re_sizes PR) as [HR1 HR2].
    eexists _, _, (steady s3 ms [h']). split; [exact E|]. split; [exact St|]. split; [intros d2 S2; apply S2|]. intros cond x b d2 HC S2 Lx Lb.
    destruct (@vmults_run K debug L cond s3 ms [h'] HL HC (c_prec p) (c_steps p) _ _ _ _ _ _ DD C2 eq_refl [(x, b)] d2 S2) as [d3 [E2 S3]].
    { cbn [top_size fn]. intros x' b' [Q|[]]. injection Q as <- <-. rewrite <- Hsq. auto. }
    cbn [top_size fn vmult_requests map dev_vmults fst snd] in E2.
    destruct (dev_vmult debug L cond _ _ _ d2) as [[v d4]| | | |]; cbn [bind] in E2; try discriminate E2. injection E2 as -> ->.
    eexists _, d3. split; [reflexivity|]. split; [exact S3|].
    set (x0 := if c_prec p then vzero (nc A) else x).
    assert (L0 : length x0 = nc A) by (unfold x0; destruct (c_prec p); [apply vzero_length|congruence]).
    cbn [textbook_vcycle fA fS fR fP fn top_size]. rewrite Hsq. set (B := mulvec (inverse_diagonal (nc A) A)). set (x1 := iter (c_steps p) (correction_step (mulvec A) B b) x0).
    set (e := C (mulvec R (vsub b (mulvec A x1))) (vzero (nr R))).
    destruct (C3 (mulvec R (vsub b (mulvec A x1))) (vzero (nr R))) as [C4 C5]; [rewrite mulvec_length; auto|apply vzero_length|]. fold e in C4, C5.
    exists e. fold x1. split; [exact C4|]. split; [|reflexivity]. rewrite <- C5. symmetry. apply galerkin_apply; congruence.
  Qed.

  (** The spectrum of a preconditioner from its rate. *)
  Lemma spectrum_bounds : forall n (A : mat K), nc A = n -> S_Hier.spd n (mulvec A) -> forall (t : K) e y, (t <= 1)%K -> length e = n -> length y = n -> nr A = n ->
    (energy (mulvec A) (vsub e y) <= (1 - t) * (1 - t) * energy (mulvec A) e)%K ->
    (t * energy (mulvec A) e <= dot y (mulvec A e))%K /\ (dot y (mulvec A e) <= (1 + 1 - t) * energy (mulvec A) e)%K.
  Proof.
    intros n A Hc HS th e y HL Le Ly Hr EN.
    assert (LA : linear n n (mulvec A)) by (pose proof (mulvec_linear A) as X; rewrite Hc, Hr in X; exact X).
    assert (Ld : length (vsub e y) = n) by (unfold OField.vec in *; vlen).
    assert (C := @energy_cs K n (mulvec A) LA HS (vsub e y) e Ld Le).
    assert (Pe : fle 0%K (energy (mulvec A) e)) by (apply (@energy_nonneg K n (mulvec A) LA HS); auto).
    assert (I : dot (mulvec A (vsub e y)) e = (energy (mulvec A) e - dot y (mulvec A e))%K).
    { rewrite (lin_sub LA) by auto. rewrite dot_sub_l by (rewrite !mulvec_length; reflexivity). unfold energy. f_equal. apply (proj1 HS); auto. }
    rewrite I in C. set (t := dot y (mulvec A e)) in *. set (n0 := energy (mulvec A) e) in *. set (rho := (1 - th)%K) in *.
    assert (Hrho : fle 0%K rho) by (apply fle_sub_0 in HL; exact HL).
    assert (S : fle ((n0 - t) * (n0 - t))%K ((rho * n0) * (rho * n0))%K).
    { eapply fle_trans; [exact C|]. replace (rho * n0 * (rho * n0))%K with (n0 * (rho * rho * n0))%K by ring.
      replace (energy (mulvec A) (vsub e y) * n0)%K with (n0 * energy (mulvec A) (vsub e y))%K by ring. apply fle_mul_l; auto. }
    assert (Pr : fle 0%K (rho * n0)%K) by (apply fle_mul; auto).
    assert (AB : forall a b : K, fle 0%K b -> fle (a * a)%K (b * b)%K -> fle a b).
    { intros a b Hb Hab. destruct (fle_dec K a b) as [Q|Q]; auto. exfalso. assert (Pa : flt 0%K a) by (eapply fle_lt_trans; eauto).
      apply (@flt_irrefl K (a * a)%K). eapply fle_lt_trans; [exact Hab|].
      apply flt_sub_0. replace (a * a - b * b)%K with ((a - b) * (a + b))%K by ring. apply fmul_pos; [apply flt_sub_0 in Q; exact Q|apply fadd_pos; auto]. }
    split.
    - assert (Q := AB _ _ Pr S). apply fle_sub_0 in Q. apply fle_sub_0. replace (t - th * n0)%K with (rho * n0 - (n0 - t))%K by (unfold rho; ring). exact Q.
    - assert (S2 : fle ((t - n0) * (t - n0))%K ((rho * n0) * (rho * n0))%K) by (replace ((t - n0) * (t - n0))%K with ((n0 - t) * (n0 - t))%K by ring; exact S).
      assert (Q := AB _ _ Pr S2). apply fle_sub_0 in Q. apply fle_sub_0. replace ((1 + 1 - th) * n0 - t)%K with (rho * n0 - (t - n0))%K by (unfold rho; ring). exact Q.
  Qed.
End P.
