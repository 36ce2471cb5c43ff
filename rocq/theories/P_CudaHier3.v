(** Proofs about the hierarchy on the device: symmetric positive definite problems. *)
From Coq Require Import String List Arith Lia ZArith Bool Field.
From Verif Require Import Base OField Mat LinAlg M_Ptree M_Hier S_Hier P_Hier P_Hier2 P_HierE P_HierS M_Host M_SpProd S_SpProd P_SpProd M_Csr S_Csr P_Csr P_Csr3 P_Csr4 M_Dev M_CudaOp
  S_CudaOp P_CudaOp S_Eig P_AmgeDev2 M_DevSolve S_DevSolve P_DevSolve S_Lanczos M_Restr S_Restr M_AmgeDev S_AmgeDev P_AmgeDev4 M_CudaHier S_CudaHier P_CudaHier P_CudaHier2.
Import ListNotations.
Set Implicit Arguments.
Open Scope nat_scope.

Section P.
  Variable K : ofield.
  Add Field KfCudaHier3 : (f_field K).
  Notation vec := (vec K).

  Lemma entries_spd : forall A : mat K, S_DevSolve.spd A -> nr A = nc A /\ S_Hier.spd (nc A) (mulvec A).
  Proof.
    intros A [S1 S2]. pose proof (proj1 S1) as Hsq. unfold square in Hsq. split; auto. split; auto.
    intros x y Hx Hy. apply sym_dot; auto; congruence.
  Qed.
  Lemma diagonal_linear : forall n (A : mat K), linear n n (mulvec (inverse_diagonal n A)) /\ self_adjoint n (mulvec (inverse_diagonal n A)).
  Proof.
    intros n A. split; [exact (@mulvec_linear K (inverse_diagonal n A))|]. intros x y Hx Hy. apply (@sym_dot K (inverse_diagonal n A)); auto. split; [reflexivity|].
    intros i j Hi Hj. simpl. destruct (Nat.eqb_spec i j) as [->|N]; [rewrite Nat.eqb_refl; auto|]. replace (j =? i) with false; auto. symmetry. apply Nat.eqb_neq. auto.
  Qed.
  Lemma jacobi_good : forall A : mat K, nr A = nc A -> S_Hier.spd (nc A) (mulvec A) -> jacobi_reduces A ->
    good_smoother (nc A) (mulvec A) (correction_step (mulvec A) (mulvec (inverse_diagonal (nr A) A))).
  Proof.
    intros A Hsq HS HJ. rewrite Hsq. destruct (diagonal_linear (nc A) A) as [B1 B2]. set (B := mulvec (inverse_diagonal (nc A) A)) in *. set (n := nc A) in *.
    assert (HL : linear n n (mulvec A)) by (unfold n; pose proof (mulvec_linear A) as X; rewrite Hsq in X; exact X).
    exists B. split; auto. split; auto. split; auto. intros r Lr Nr.
    destruct (spd_onto HL HS r Lr) as [e [Le Er]]. assert (Ne : e <> vzero n) by (intros Q; apply Nr; rewrite <- Er, Q; apply (lin_zero HL)).
    specialize (HJ e Le Ne). fold n in HJ.
    assert (Ej : jacobi_step A (vzero n) e = vsub e (B r)).
    { rewrite <- (@jacobi_correction K n A (vzero n) e); auto; [|apply vzero_length]. unfold correction_step. fold B. rewrite Er. rewrite vsub_zero_r; auto. }
    rewrite Ej in HJ. assert (LB : length (B r) = n) by (apply (lin_len B1); auto).
    assert (E : energy (mulvec A) (vsub e (B r)) = (energy (mulvec A) e - ((1 + 1) * dot (B r) r - dot (mulvec A (B r)) (B r)))%K).
    { rewrite vsub_as_add by congruence. rewrite (energy_add HL (proj1 HS)) by (auto; vlen). rewrite Er.
      unfold energy at 2. rewrite (lin_scale HL) by auto. rewrite !dot_scale_l, !dot_scale_r. rewrite (dot_comm (B r) r). ring. }
    rewrite E in HJ. apply flt_sub_0 in HJ. apply flt_sub_0.
    replace ((1 + 1) * dot (B r) r - dot (mulvec A (B r)) (B r))%K with
      (energy (mulvec A) e - (energy (mulvec A) e - ((1 + 1) * dot (B r) r - dot (mulvec A (B r)) (B r))))%K by ring. auto.
  Qed.

  Lemma galerkin_spd : forall A R : mat K, S_DevSolve.spd A -> nc R = nr A -> full_row_rank R -> S_DevSolve.spd (mmul R (mmul A (mtrans R))).
  Proof.
    intros A R HA HR HF. destruct (entries_spd HA) as [Hsq [S1 S2]]. set (Ac := mmul R (mmul A (mtrans R))).
    assert (G : forall x, mulvec Ac x = mulvec R (mulvec A (mulTvec R x))) by (intros x; apply galerkin_apply; congruence).
    assert (Sa : self_adjoint (nc Ac) (mulvec Ac)) by (apply (@galerkin_sym K A R Ac); auto; congruence).
    split.
    - split; [reflexivity|]. apply self_adjoint_sym; auto.
    - intros x Hx Nx. apply (@galerkin_pd K A R Ac); auto. congruence.
  Qed.
  Lemma spd_solvable : forall name (A : mat K), In name ["cholesky"; "lu_dense"; "lu_sparse_host"]%string -> S_DevSolve.spd A -> direct_solvable name A.
  Proof.
    intros name A Hin HA. unfold direct_solvable. pose proof (spd_regular HA). destruct Hin as [<- | [<- | [<- | []]]]; tauto.
  Qed.

  Lemma construct_spd : forall debug L Y z restr global p (d : device K) A R h h', device_input L Y z global p d A h -> restricts restr A R h h' ->
    pt_get parse_int ["max levels"%string] 2%Z p = 2%Z -> In (solver_name p) ["cholesky"; "lu_dense"; "lu_sparse_host"]%string ->
    c_prec p = true -> 0 < c_steps p -> S_DevSolve.spd A -> full_row_rank R -> jacobi_reduces A ->
    exists H d1 Mv, dev_construct debug L Y z restr global p d = Ok (H, d1) /\
      linear (nr A) (nr A) Mv /\ self_adjoint (nr A) Mv /\
      (forall b, length b = nr A -> b <> vzero (nr A) -> (0 < dot (Mv b) b)%K) /\
      (forall e, length e = nr A -> e <> vzero (nr A) -> (energy (mulvec A) (vsub e (Mv (mulvec A e))) < energy (mulvec A) e)%K) /\
      forall cond qs, any_conditions cond -> (forall x b, In (x, b) qs -> length x = nr A /\ length b = nr A) ->
      exists d2, dev_vmults debug L cond H (vmult_requests [seq 0 (nr A)] qs) d1 = Ok (map (fun q => spread [seq 0 (nr A)] (Mv (snd q))) qs, d2) /\
        memory_kept [h'] (d_heaps d2).
  Proof.
    intros debug L Y z restr global p d A R h h' P PR Hlv Hin Hp Hk HA HF HJ.
    destruct (in_square P) as [Hsq Hn]. destruct (re_sizes PR) as [HR1 HR2]. pose proof (re_nonzero PR) as Hz. set (Ac := mmul R (mmul A (mtrans R))).
    pose proof (galerkin_spd HA HR1 HF) as HAc. fold Ac in HAc.
    destruct (@construct_described K debug L Y z restr global p d A R h h' P PR Hlv (spd_solvable Hin HAc)) as [lv [rest [s3 [ms [C [E [St [DD [C2 C3]]]]]]]]].
    pose proof (in_libraries P) as HL. destruct (entries_spd HA) as [_ HS]. destruct (entries_spd HAc) as [_ HSc].
    assert (G : forall x, mulvec Ac x = mulvec R (mulvec A (mulTvec R x))) by (intros x; apply galerkin_apply; congruence).
    set (ds := [mkFine (nc A) (mulvec A) (correction_step (mulvec A) (mulvec (inverse_diagonal (nr A) A))) (mulvec R) (mulTvec R)]) in *.
    assert (Ch : chain (@spd_mat K) (@good_mat_smoother K) ds A Ac).
    { split; auto. split; [exact HS|]. exists R, Ac. split; auto. split; auto. split; [apply jacobi_good; auto|]. split; auto. split; auto. split; [congruence|]. split; auto. split; auto.
      split; auto. }
    assert (Hs : sized ds (nc Ac)).
    { change (nc Ac) with (nr R). unfold ds. cbn [sized fn fA fS fR fP top_size]. destruct (diagonal_linear (nr A) A) as [B1 _].
      split; [intros x Hx; rewrite mulvec_length; auto|]. split; [intros b x Hb Hx; unfold correction_step; rewrite vsub_length, mulvec_length; simpl nr; unfold OField.vec in *; lia|].
      split; [intros x Hx; apply mulvec_length|]. split; auto. intros x Hx. unfold mulTvec. rewrite mulvec_length. simpl. congruence. }
    assert (Cl : coarse_length (nc Ac) C) by (intros b x Hb Hx; apply C3; auto).
    destruct (@spd_cycle K (c_steps p) ds A Ac C Ch) as [M1 [M2 [M3 M4]]]; auto.
    eexists _, _, (fun b => cyc (c_steps p) ds (nc Ac) C b (vzero (nc A))). split; [exact E|]. rewrite Hsq. split; auto. split; auto. split; auto. split; auto.
    intros cond qs HC Hq.
    destruct (@vmults_run K debug L cond s3 ms [h'] HL HC (c_prec p) (c_steps p) _ _ _ _ _ _ DD C2 eq_refl qs (mkDevice s3 [h'] (d_products d)) St) as [d2 [E2 S2]].
    { unfold ds. cbn [top_size fn]. auto. }
    rewrite Hsq in E2. exists d2. split; [|apply S2]. rewrite E2. f_equal. f_equal. apply map_ext_in. intros [x b] Hi. cbn [fst snd]. rewrite Hp.
    rewrite (@cyc_textbook K (c_steps p) ds (nc Ac) C); auto.
    - apply (@symmetric_linear K ds (nc Ac)); auto. apply (@chain_symmetric K (@spd_mat K) (@good_mat_smoother K) ds A Ac Ch).
      + intros A0 P0. exact (proj1 P0).
      + intros A0 f P0 D0 (B & B1 & B2 & B3 & B4). exists B. auto.
    - unfold ds. cbn [top_size fn]. apply (Hq x b Hi).
    - unfold ds. cbn [top_size fn]. apply vzero_length.
  Qed.

  Lemma unit_nonzero : forall e : vec, dot e e = 1%K -> exists j, j < length e /\ nth j e 0%K <> 0%K.
  Proof.
    induction e as [|a e IH]; intros E.
    - exfalso. apply (F_1_neq_0 (f_field K)). symmetry. exact E.
    - destruct (feq_dec K a 0%K) as [->|N]; [|exists 0; simpl; split; auto; lia].
      destruct IH as [j [Hj Nj]]; [rewrite <- E; unfold dot; simpl; ring|]. exists (S j). simpl. split; auto. lia.
  Qed.
  (** The restriction of the eigenvectors, on one process. *)
  Lemma amge_restricts : forall debug acc (tol : K) Z compress k gds gd D (A : mat K) xs h,
    eig_library_ok Z -> compress_ok compress -> (0 < tol)%K -> problem_ok Z k (nr A) [seq 0 (nr A)] gds gd D [(xs, h)] ->
    exists R rs h', restricts (build_restrictor debug acc tol Z compress k [seq 0 (nr A)] gds gd D [map fst xs]) A R h h' /\
      rank_result k (xs, h) (rs, h') /\ restriction_of (nr A) D rs R.
  Proof.
    intros debug acc tol Z compress k gds gd D A xs h HZ HC Ht HP.
    destruct (@restrictor_run K debug acc tol Z compress k (nr A) [seq 0 (nr A)] gds gd D [(xs, h)] HZ HC Ht HP) as [parts [outs [R [E [F [DM HR]]]]]].
    inversion F as [|r o l l' Fr Fn Q1 Q2]; subst. inversion Fn; subst. destruct o as [rs h']. cbn [map concat fst snd] in *. rewrite app_nil_r in HR.
    pose proof Fr as [Frs [_ Oh]]. cbn [fst snd] in *. exists R, rs, h'. split; auto.
    destruct HR as [R1 [R2 R3]].
    destruct (po_rank HP (xs, h) (or_introl eq_refl)) as [Hne _]. cbn [fst] in Hne.
    destruct Frs as [|[a B] c xs rs Fc Frs]; [congruence|]. cbn [fst snd] in Fc.
    destruct (po_agglomerate HP (((a, B) :: xs), h) a B (or_introl eq_refl) (or_introl eq_refl)) as [AO _].
    destruct Fc as [F1 [F2 [F3 F4]]]. pose proof (ao_size AO) as Hk.
    destruct (ag_evecs c) as [|e0 es] eqn:Ee; [simpl in F1; lia|].
    assert (Hrows : nth_error (rows_of (c :: rs)) 0 = Some (c, e0)) by (unfold rows_of; simpl; rewrite Ee; reflexivity).
    destruct (se_orthonormal F2) as [O1 O2]. specialize (O2 0 0 ltac:(simpl; lia) ltac:(simpl; lia)). simpl in O2.
    assert (Le : length e0 = nr B) by (inversion O1; auto).
    destruct (unit_nonzero _ O2) as [j [Hj Nj]]. rewrite Le in Hj.
    destruct (po_dofs HP (((a, B) :: xs), h) a B (or_introl eq_refl) (or_introl eq_refl)) as [_ Hd]. set (g := nth j (snd a) 0).
    assert (Hjd : j < length (snd a)) by (rewrite (ao_dofs AO); auto). assert (Hg : g < nr A) by (apply Hd, nth_In; auto).
    destruct (R3 0 c e0 g Hrows Hg) as [R4 _]. specialize (R4 j). rewrite F4 in R4. specialize (R4 Hjd eq_refl). rewrite F3 in R4.
    rewrite (nth_map_lt _ (seq 0 (nr B)) 0%K 0) in R4 by (rewrite seq_length; auto). rewrite seq_nth in R4 by auto. simpl (0 + j) in R4.
    destruct (po_sum HP Hg) as [Dg _]. pose proof (po_diagonal HP (((a, B) :: xs), h) a B (or_introl eq_refl) (or_introl eq_refl) Hj) as Nd.
    assert (N : ent R 0 g <> 0%K).
    { rewrite R4. intros Q. apply Nj. transitivity (D g / ent B j j * (ent B j j / D g * nth j e0 0))%K; [field; auto|]. rewrite Q. ring. }
    assert (Hlen : 0 < nr R) by (rewrite R1; unfold rows_of; simpl; rewrite Ee; simpl; lia).
    assert (HnR : nr R = k * S (length xs)).
    { destruct (dm_rows DM) as [Q _]. destruct Q as [Q1 Q2]. cbn [blocks map fst length concat] in Q1, Q2. rewrite app_nil_r in Q2.
      destruct (Nat.lt_trichotomy (nr R) (k * S (length xs))) as [X|[X|X]]; auto; exfalso.
      - assert (In (nr R) (seq 0 (k * S (length xs)))) as Y by (apply in_seq; lia). apply Q2 in Y. lia.
      - assert (In (k * S (length xs)) (seq 0 (k * S (length xs)))) as Y by (apply Q2; auto). apply in_seq in Y. lia. }
    split; auto.
    - destruct (device_length DM) as [Lp _]. cbn in Lp. destruct parts as [|cr [|]]; try discriminate. exists (mkShared [cr] true true), cr. cbn [m_parts m_handle m_descr].
      unfold build_restrictor. cbn [combine]. split; [exact E|]. split; auto. split; auto. rewrite HnR. exact DM.
    - intros q [<- | []]. exists g, 0. split; [apply in_seq; lia|]. split; auto.
  Qed.
End P.
