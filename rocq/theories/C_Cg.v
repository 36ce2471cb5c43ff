(** Property theorems about conjugate gradients preconditioned with the hierarchy: C101. *)
From Coq Require Import String List Arith ZArith Bool Lia Field QArith Qcanon.
From Verif Require Import Base OField Mat LinAlg M_Ptree S_Ptree P_Ptree M_Agglo S_Agglo M_WorkStream M_Restr S_Restr M_FastAP S_FastAP M_Lanczos S_Lanczos
  M_Eig S_Eig M_Hier S_Hier P_HierE P_HierS M_Smoother P_Smoother M_Host S_Host P_Host P_HostN M_HostEnd S_HostEnd P_HostEnd E_Solve E_CudaHier E_Lanczos P_CudaHier3 C_Host C_Lanczos C_Eig C_FastAP C_HostEnd
  S_Rate P_Rate P_Rate2 P_Approx P_Cheby P_AmgeDev2 P_Perm C_Rate M_Cg S_Cg P_Cg P_Cg2 P_Cg3.
Import ListNotations.
Set Implicit Arguments.
Open Scope list_scope.
Open Scope nat_scope.

Section CCg.
  Variable K : ofield.
  Add Field KfieldCCg : (f_field K).
  Local Open Scope K_scope.
  Local Notation vec := (vec K).
  Variables (debug : bool) (n : nat) (A M : vec -> vec) (prec : vec -> vec -> prog vec) (max_steps : nat) (tol : K).
  Hypothesis LA : linear n n A.
  Hypothesis SA : spd n A.
  Hypothesis LM : linear n n M.
  Hypothesis SM : spd n M.
  Hypothesis HP : applies_operator n prec M.
  Hypothesis Htol : 0 <= tol.

  (** C101: with as many steps as unknowns allowed, the solve ends normally with a residual within the tolerance, whatever the tolerance, the start, and
      the contents of the work vectors. *)
  Theorem C101_terminates : forall h0 x b l, length h0 = n -> length x = n -> length b = n -> (n <= max_steps)%nat -> open_sections l = [] ->
    exists it y l', cg_solve debug A prec max_steps tol h0 x b l = (Ok (it, y), l') /\ (it <= n)%nat /\ length y = n /\
      dot (vsub b (A y)) (vsub b (A y)) <= tol * tol /\ open_sections l' = [].
  Proof.
    intros h0 x b l Lh Lx Lb Hn Hl. destruct (@injective_onto K n A LA (@spd_injective K n A SA) b Lb) as (xs & Lxs & <-).
    destruct (@solve_ok K debug n A M prec max_steps tol x xs 0 0 LA SA LM SM HP Lx Lxs n h0 l Hn) as (it & y & l' & E & L & Hl' & g & ds & HM & Q); auto.
    - intros x1 g ds. apply (@mid_n K n A M tol x xs 0 0); auto.
    - exists it, y, l'. split; [exact E|]. split; [exact L|]. split; [exact (m_x HM)|]. split; [|exact Hl'].
      rewrite (@mid_residual K n A M x xs 0 0 LA Lxs it y g ds HM). exact Q.
  Qed.

  Section Rate.
    Variables (a c : K).
    Hypothesis Ha : 0 < a.
    Hypothesis Hac : a < c.
    Hypothesis HS : spectrum_in n A M a c.
    Local Notation eta := ((c + a) / (c - a)).

    (** C101: Chebyshev's bound.  Whenever the solve returns after [it] steps, the energy of the error is at most 1 / T_it(eta)^2 times that of the start. *)
    Theorem C101_rate : forall h0 x xs l it y l', length h0 = n -> length x = n -> length xs = n -> open_sections l = [] ->
      cg_solve debug A prec max_steps tol h0 x (A xs) l = (Ok (it, y), l') ->
      chebT it eta * chebT it eta * energy A (vsub xs y) <= energy A (vsub xs x).
    Proof.
      intros h0 x xs l it y l' Lh Lx Lxs Hl E.
      destruct (@solve_inv K debug n A M prec max_steps tol x xs eta ((1 + 1) / (c - a)) LA SA LM SM HP Lx Lxs h0 l it y l' Hl Lh E) as (g & ds & HM & _).
      exact (@mid_rate K n A M x xs a c LA SA LM SM Lx Lxs Hac HS it y g ds HM).
    Qed.

    (** C101: the number of steps: [k] steps are enough as soon as T_k(eta) is large compared with the error of the start and the tolerance. *)
    Theorem C101_steps : forall Lambda k h0 x xs l, length h0 = n -> length x = n -> length xs = n -> open_sections l = [] ->
      (forall e, length e = n -> dot (A e) (A e) <= Lambda * energy A e) -> 0 <= Lambda ->
      (k <= max_steps)%nat -> Lambda * energy A (vsub xs x) <= tol * tol * (chebT k eta * chebT k eta) ->
      exists it y l', cg_solve debug A prec max_steps tol h0 x (A xs) l = (Ok (it, y), l') /\ (it <= k)%nat /\ length y = n /\
        dot (vsub (A xs) (A y)) (vsub (A xs) (A y)) <= tol * tol /\ open_sections l' = [].
    Proof.
      intros Lambda k h0 x xs l Lh Lx Lxs Hl HL PL Hk HB.
      assert (E1 : 1 <= eta).
      { assert (P : 0 < c - a) by (apply flt_sub_0 in Hac; exact Hac). assert (NC := pos_neq P). apply fle_sub_0. replace (eta - 1) with ((1 + 1) * a / (c - a)) by (field; exact NC).
        apply flt_le. apply fdiv_pos; [|exact P]. apply fmul_pos; [apply two_pos|exact Ha]. }
      assert (PT : 0 < chebT k eta) by (rewrite <- (proj1 (@ts_cheb K eta k)); apply ts_pos; exact E1).
      destruct (@solve_ok K debug n A M prec max_steps tol x xs eta ((1 + 1) / (c - a)) LA SA LM SM HP Lx Lxs k h0 l Hk) as (it & y & l' & E & L & Hl' & g & ds & HM & Q); auto.
      - intros x1 g ds HM. pose proof (@mid_rate K n A M x xs a c LA SA LM SM Lx Lxs Hac HS k x1 g ds HM) as R.
        pose proof (m_x HM) as Lx1. assert (Le : length (vsub xs x1) = n) by (unfold OField.vec in *; vlen). pose proof (HL _ Le) as H1.
        rewrite (lin_sub LA) in H1 by auto. rewrite (@mid_residual K n A M x xs eta ((1 + 1) / (c - a)) LA Lxs k x1 g ds HM) in H1.
        set (T2 := chebT k eta * chebT k eta) in *. assert (P2 : 0 < T2) by (apply fmul_pos; exact PT).
        apply (@fle_mul_cancel K T2); [exact P2|]. eapply fle_trans; [apply fle_mul_l; [apply flt_le; exact P2|exact H1]|].
        replace (T2 * (Lambda * energy A (vsub xs x1))) with (Lambda * (T2 * energy A (vsub xs x1))) by ring.
        eapply fle_trans; [apply fle_mul_l; [exact PL|exact R]|]. replace (T2 * (tol * tol)) with (tol * tol * T2) by ring. exact HB.
      - exists it, y, l'. split; [exact E|]. split; [exact L|]. split; [exact (m_x HM)|]. split; [|exact Hl'].
        rewrite (@mid_residual K n A M x xs eta ((1 + 1) / (c - a)) LA Lxs it y g ds HM). exact Q.
    Qed.
  End Rate.

  (** C101: the usual form: with [r] at least the square root of the condition number c / a of M A, the energy norm of the error falls, up to a factor of 2,
      by (r - 1) / (r + 1) per step. *)
  Theorem C101_rate_root : forall a c r, 0 < a -> a <= c -> spectrum_in n A M a c -> 1 < r -> c <= r * r * a ->
    forall h0 x xs l it y l', length h0 = n -> length x = n -> length xs = n -> open_sections l = [] ->
      cg_solve debug A prec max_steps tol h0 x (A xs) l = (Ok (it, y), l') ->
      fpow ((r + 1) * (r + 1)) it * energy A (vsub xs y) <= (1 + 1) * (1 + 1) * (fpow ((r - 1) * (r - 1)) it * energy A (vsub xs x)).
  Proof.
    intros a c r Ha Hac HS Hr Hc h0 x xs l it y l' Lh Lx Lxs Hl E.
    assert (P1 : 0 < r - 1) by (apply flt_sub_0 in Hr; exact Hr). assert (Pr : 0 < r) by (eapply fle_lt_trans; [apply f0_le_1|exact Hr]).
    assert (P2 : 0 < r + 1) by (apply fadd_pos; [exact Pr|apply f0_le_1]). assert (Prr : 0 < r * r) by (apply fmul_pos; exact Pr).
    assert (Pc : 0 < c) by (eapply flt_le_trans; [exact Ha|exact Hac]). assert (N1 := pos_neq P1). assert (N2 := pos_neq P2). assert (N3 := pos_neq Pr). assert (N4 := pos_neq Pc).
    set (a' := c / (r * r)). assert (Ha' : a' <= a).
    { apply (@fle_mul_cancel K (r * r)); [exact Prr|]. replace (r * r * a') with c by (unfold a'; field; exact N3). exact Hc. }
    assert (Pa' : 0 < a') by (apply fdiv_pos; [exact Pc|exact Prr]).
    assert (Hac' : a' < c).
    { apply flt_sub_0. replace (c - a') with (c * ((r - 1) * (r + 1)) / (r * r)) by (unfold a'; field; exact N3).
      apply fdiv_pos; [|exact Prr]. apply fmul_pos; [exact Pc|apply fmul_pos; auto]. }
    assert (HS' : spectrum_in n A M a' c).
    { intros e Le. destruct (HS e Le) as (H1 & H2). split; [|exact H2]. eapply fle_trans; [|exact H1].
      replace (a' * energy A e) with (energy A e * a') by ring. replace (a * energy A e) with (energy A e * a) by ring. apply fle_mul_l; [|exact Ha'].
      apply (@energy_nonneg K n A LA SA). exact Le. }
    pose proof (@C101_rate a' c Hac' HS' h0 x xs l it y l' Lh Lx Lxs Hl E) as R. set (eta := (c + a') / (c - a')) in *.
    assert (Ee : eta = (r * r + 1) / ((r - 1) * (r + 1))).
    { unfold eta, a'. field. repeat split; auto. replace (c * (r * r) - c) with (c * ((r - 1) * (r + 1))) by ring. apply pos_neq. apply fmul_pos; [exact Pc|apply fmul_pos; auto]. }
    set (z := (1 + 1) * r / ((r - 1) * (r + 1))).
    assert (E1 : 1 <= eta).
    { apply fle_sub_0. rewrite Ee. replace ((r * r + 1) / ((r - 1) * (r + 1)) - 1) with ((1 + 1) / ((r - 1) * (r + 1))) by (field; auto).
      apply flt_le. apply fdiv_pos; [apply two_pos|apply fmul_pos; auto]. }
    assert (G := @ts_grow K eta z it E1). rewrite (proj1 (@ts_cheb K eta it)) in G. set (T := chebT it eta) in *.
    assert (G2 : fpow (eta + z) it <= T + T).
    { apply G.
      - apply flt_le. apply fdiv_pos; [apply fmul_pos; [apply two_pos|exact Pr]|apply fmul_pos; auto].
      - apply fle_sub_0. rewrite Ee. unfold z. match goal with |- _ <= ?w => replace w with (0 : K) by (field; auto) end. apply fle_refl. }
    assert (Ez : eta + z = (r + 1) / (r - 1)) by (rewrite Ee; unfold z; field; auto). rewrite Ez in G2.
    assert (F1 : forall u v : K, forall k, v <> 0 -> fpow (u / v) k * fpow v k = fpow u k).
    { intros u v k NV. induction k as [|k IH]; cbn [fpow]; [ring|]. rewrite <- IH. field. exact NV. }
    assert (F2 : forall u : K, forall k, fpow (u * u) k = fpow u k * fpow u k).
    { intros u k. induction k as [|k IH]; cbn [fpow]; [ring|]. rewrite IH. ring. }
    assert (F3 : forall u : K, forall k, 0 < u -> 0 < fpow u k).
    { intros u k PU. induction k as [|k IH]; cbn [fpow]; [apply f0_lt_1|apply fmul_pos; auto]. }
    set (w := fpow (r - 1) it). assert (Pw : 0 < w) by (apply F3; exact P1).
    assert (G3 : fpow (r + 1) it <= (T + T) * w).
    { rewrite <- (@F1 (r + 1) (r - 1) it N1). fold w. replace (fpow ((r + 1) / (r - 1)) it * w) with (w * fpow ((r + 1) / (r - 1)) it) by ring.
      replace ((T + T) * w) with (w * (T + T)) by ring. apply fle_mul_l; [apply flt_le; exact Pw|exact G2]. }
    rewrite !F2. fold w. set (v := fpow (r + 1) it) in *. assert (Pv : 0 < v) by (apply F3; exact P2).
    assert (EN : 0 <= energy A (vsub xs y)).
    { apply (@energy_nonneg K n A LA SA).
      destruct (@solve_inv K debug n A M prec max_steps tol x xs 0 0 LA SA LM SM HP Lx Lxs h0 l it y l' Hl Lh E) as (g & ds & HM & _).
      pose proof (m_x HM). unfold OField.vec in *. vlen. }
    assert (G4 : v * v <= ((T + T) * w) * ((T + T) * w)).
    { eapply fle_trans; [apply fle_mul_l; [apply flt_le; exact Pv|exact G3]|]. rewrite (Rmul_comm (F_R (f_field K)) v).
      apply fle_mul_l; [eapply fle_trans; [apply flt_le; exact Pv|exact G3]|exact G3]. }
    replace (v * v * energy A (vsub xs y)) with (energy A (vsub xs y) * (v * v)) by ring.
    eapply fle_trans; [apply fle_mul_l; [exact EN|exact G4]|].
    replace (energy A (vsub xs y) * ((T + T) * w * ((T + T) * w))) with ((1 + 1) * (1 + 1) * (w * w) * (T * T * energy A (vsub xs y))) by ring.
    replace ((1 + 1) * (1 + 1) * (w * w * energy A (vsub xs x))) with ((1 + 1) * (1 + 1) * (w * w) * energy A (vsub xs x)) by ring.
    apply fle_mul_l; [|exact R]. apply fle_mul; [apply fle_mul; apply flt_le, two_pos|apply fsquare_nonneg].
  Qed.
End CCg.

Section CCgHost.
  Variable K : ofield.
  Add Field KfieldCgHost : (f_field K).
  Local Notation vec := (vec K).
  (** External code and user code, as in M_HostEnd.v. *)
  Variable parse_unsigned : string -> option Z.
  Variable parse_double : string -> option K.
  Variable lobpcg : (vec -> vec) -> Z -> K -> list vec -> bool * eigensolution K.
  Variable fsqrt : K -> option K.
  Variable dstev : list K -> list K -> outcome (list K * list K).
  Variable tol2 : K.
  Variable rand : nat -> nat -> K.
  Variable std_sort : (nat -> nat -> bool) -> list nat -> list nat.
  Variable lapack : mat K -> K -> K -> outcome (list K * list vec).
  Variable arpack : mat K -> K -> vec -> nat -> outcome (list K * list vec).
  Variable partition : partitioner_kind -> list nat.
  Variable conn : nat -> list nat.
  Variable evaluate : list nat -> list nat * mat K.
  Variable constrained : list nat -> list nat.
  Variable draws : nat -> nat -> K.
  Variables (debug dim3 : bool).
  Variable m : mesh.
  Variable F : fem K.
  Variable gd : nat -> option K.
  Local Notation A := (assembled F m).
  Local Notation run := (restrictor_run parse_unsigned parse_double lobpcg fsqrt dstev tol2 rand std_sort lapack arpack partition conn evaluate constrained draws
    debug dim3 m (f_ndofs F) gd (fun g => ent A g g)).
  Local Notation problem := (local_problem parse_double lobpcg fsqrt dstev tol2 rand std_sort lapack arpack evaluate constrained draws debug m).
  Local Notation agglomerates := (build_agglomerates parse_unsigned partition debug dim3 m).
  Local Notation fresh := (repeat 0 (n_cells m)).

  (** The hypotheses of C82, cell matrices that are positive semidefinite, and a LAPACK that finds all eigenvalues of the interval. *)
  Hypothesis Hmesh : mesh_ok debug m.
  Hypothesis Hpart : forall k, length (owned_cells m) <= length (partition k).
  Hypothesis Hserial : serial m.
  Hypothesis Hfem : fem_ok F.
  Hypothesis Heval : evaluate_ok F evaluate.
  Hypothesis Hconn : connectivity_ok F m conn.
  Hypothesis Hsym : forall c g h, f_cm F c g h = f_cm F c h g.
  Hypothesis Hpsd : forall c u, fle 0%K (cell_energy F c u).
  Hypothesis Hconstr : forall cells, constrained cells = [].
  Hypothesis Hlapack : lapack_ok lapack.
  Hypothesis Hcomplete : lapack_complete lapack.
  Hypothesis Hspd : spd (f_ndofs F) (mulvec A).
  Hypothesis Hgd : forall g, g < f_ndofs F -> gd g = Some (ent A g g).

  Section Rate.
    Variables (accepts_double : string -> bool) (mk : ptree -> outcome (mat K * mat K)) (ilu : mat K -> vec -> vec) (ml : ml_list -> mat K -> vec -> vec) (eps : K) (te0 : tenv).
    Variables (p : ptree) (R AP : mat K) (theta lambda : K).
    Hypothesis Hdef : default_two_level p.
    Hypothesis HE : forall eig, pt_find p ["eigensolver"%string] = Some eig -> eigensolver_matrix debug eig = Ok ELapack.
    Hypothesis HT : forall agg ui n, pt_find p ["agglomeration"%string] = Some agg -> agglomerates agg fresh = Ok (ui, n) ->
      (forall a, 1 <= a <= n -> touches_others m ui conn a) \/ (forall a, 1 <= a <= n -> ~ touches_others m ui conn a).
    Hypothesis Hmk : mk p = Ok (R, AP).
    Hypothesis Hrun : run fresh p R AP.
    Hypothesis Hrank : full_row_rank R.
    Hypothesis Hlam : flt 0%K lambda.
    Hypothesis Hdisc : discarded_above agglomerates problem evaluate m p lambda.
    Hypothesis Htheta : fle 0%K theta.
    Hypothesis Hbound : fle (theta * triangle_bound A)%K 1%K.
    Local Notation rho := (1 - theta * lambda)%K.
    Local Notation built h := (exists s l, construct (host_helpers accepts_double A mk ilu ml) eps te0 debug (Ok tt) (Some p) None = (Ok h, s, l)).

    (** C101: the solve of the driver with the hierarchy built from the mesh ("is preconditioner" true): it ends normally after at most as many steps as
        there are unknowns, the residual is within the tolerance, and the error falls with the square root of (2 - theta lambda) / (theta lambda). *)
    Theorem C101_driver : c_prec p = true -> fle (theta * lambda)%K 1%K -> flt 0%K theta -> exists h, built h /\
      forall te dbg tol h0 x b l, fle 0%K tol -> length h0 = f_ndofs F -> length x = f_ndofs F -> length b = f_ndofs F -> open_sections l = [] ->
        exists it y l', driver_solve te dbg (mulvec A) h tol h0 x b l = (Ok (it, y), l') /\ it <= f_ndofs F /\ open_sections l' = [] /\ length y = f_ndofs F /\
          fle (dot (vsub b (mulvec A y)) (vsub b (mulvec A y))) (tol * tol)%K /\
          forall xs r, length xs = f_ndofs F -> b = mulvec A xs -> flt 1%K r -> fle (1 + 1 - theta * lambda)%K (r * r * (theta * lambda))%K ->
            fle (fpow ((r + 1) * (r + 1))%K it * energy (mulvec A) (vsub xs y))%K
              ((1 + 1) * (1 + 1) * (fpow ((r - 1) * (r - 1))%K it * energy (mulvec A) (vsub xs x)))%K.
    Proof.
      intros PF HL PT. destruct (@C87_condition K parse_unsigned parse_double lobpcg fsqrt dstev tol2 rand std_sort lapack arpack partition conn evaluate constrained draws debug dim3 m F gd
        Hmesh Hpart Hserial Hfem Heval Hconn Hsym Hpsd Hconstr Hlapack Hcomplete Hspd Hgd accepts_double mk ilu ml eps te0 p R AP theta lambda
        Hdef HE HT Hmk Hrun Hrank Hlam Hdisc Htheta Hbound PF HL) as (h & (s & l0 & B) & V).
      exists h. split; [exists s, l0; exact B|].
      destruct Hdef as (D1 & D2 & D3 & D4).
      assert (PE : pt_find p ["eigensolver"%string] <> None /\ pt_find p ["agglomeration"%string] <> None /\ nc R = f_ndofs F).
      { destruct Hrun as (eig & agg & ? & ? & ? & ? & ? & ? & Q1 & Q2 & _ & _ & _ & -> & _). rewrite Q1, Q2. split; [discriminate|]. split; [discriminate|reflexivity]. }
      destruct PE as (PE & PA & DR).
      destruct (@C57_default_host_configuration K accepts_double A mk ilu ml eps te0 debug p eq_refl Hspd PF D1 D3) as (h' & s' & l1 & B' & Mv & LM & SM & PM & _ & VM).
      { right. split; [exact D2|]. split; [exact D4|]. split; [exact PE|]. split; [exact PA|]. exists R, AP. split; [exact Hmk|]. split; [exact DR|]. split; [exact Hrank|].
        intros HF. apply (@fast_product K parse_unsigned parse_double lobpcg fsqrt dstev tol2 rand std_sort lapack arpack partition conn evaluate constrained draws debug dim3 m F gd
          Hmesh Hpart Hserial Hfem Heval Hsym Hconstr Hlapack Hspd Hgd fresh p R AP Hrun eq_refl Hconn); auto. }
      rewrite B in B'. assert (Eh : Ok h = Ok h') by (injection B' as E1 E2 E3; rewrite E1; reflexivity). injection Eh as <-. clear B'.
      set (n := f_ndofs F) in *. assert (LA : linear n n (mulvec A)) by (exact (mulvec_linear A)).
      assert (SMv : spd n Mv) by (split; [exact SM|exact PM]).
      assert (HSp : spectrum_in n (mulvec A) Mv (theta * lambda)%K (1 + 1 - theta * lambda)%K).
      { intros e Le. destruct (V (mkTenv false false) (vzero n) e [] eq_refl (vzero_length K n) Le) as (y & l' & E & _ & E1 & E2).
        destruct (VM (mkTenv false false) (vzero n) (mulvec A e) [] eq_refl (vzero_length K n) (mulvec_length A e)) as (l2 & E3 & _).
        rewrite E in E3. injection E3 as E3 _. rewrite <- E3. split; [exact E1|exact E2]. }
      intros te dbg tol h0 x b l Ht Lh Lx Lb Hl.
      assert (HP : applies_operator n (hierarchy_vmult te h) Mv) by (intros x1 b1 l2 H1 H2 H3; apply VM; auto).
      unfold driver_solve. rewrite Lx. fold n.
      destruct (@C101_terminates K dbg n (mulvec A) Mv (hierarchy_vmult te h) n tol LA Hspd LM SMv HP h0 x b l Lh Lx Lb (le_n n) Hl) as (it & y & l' & E & Li & Ly & Hr & Hl').
      exists it, y, l'. split; [exact E|]. split; [exact Li|]. split; [exact Hl'|]. split; [exact Ly|]. split; [exact Hr|].
      intros xs r Lxs -> Hr1 Hr2.
      assert (P : flt 0%K (theta * lambda)%K) by (apply fmul_pos; [exact PT|exact Hlam]).
      apply (@C101_rate_root K dbg n (mulvec A) Mv (hierarchy_vmult te h) n tol LA Hspd LM SMv HP (theta * lambda)%K (1 + 1 - theta * lambda)%K r P) with (h0 := h0) (l := l) (l' := l'); auto.
      apply fle_sub_0. replace (1 + 1 - theta * lambda - theta * lambda)%K with ((1 - theta * lambda) + (1 - theta * lambda))%K by ring.
      apply fle_sub_0 in HL. apply fadd_nonneg; exact HL.
    Qed.
  End Rate.
End CCgHost.
Print Assumptions C101_terminates.
Print Assumptions C101_rate.
Print Assumptions C101_steps.
Print Assumptions C101_rate_root.
Print Assumptions C101_driver.

(** Ordinary example: three unknowns aggregated to one, default smoother and coarse solver; the contents of the work vector do not matter. *)
Definition cgx_params (prec : string) : ptree :=
  Node "" [("is preconditioner"%string, Node prec []); ("eigensolver"%string, Node "" []); ("agglomeration"%string, Node "" [])].
Definition cgx_A : mat QcOF := of_rows 3 3 [[q 2 1; q (-1) 1; q 0 1]; [q (-1) 1; q 2 1; q (-1) 1]; [q 0 1; q (-1) 1; q 2 1]].
Definition cgx_R : mat QcOF := of_rows 1 3 [[q 1 1; q 1 1; q 1 1]].
Definition cgx_x : vec QcOF := [q 1 1; q 0 1; q 2 1].
Definition cgx_b : vec QcOF := [q 1 1; q 1 1; q 3 1].
Definition cgx_run (prec : string) (tol : QcOF) (h0 : vec QcOF) : outcome (nat * vec QcOF) :=
  match construct (host_helpers (fun _ => false) cgx_A (fun _ => Ok (cgx_R, cgx_A)) (fun _ r => r) (fun _ _ r => r)) 0%K (mkTenv true true) true (Ok tt)
    (Some (cgx_params prec)) None with
  | (Ok h, _, _) => fst (driver_solve (mkTenv true true) true (mulvec cgx_A) h tol h0 cgx_x cgx_b [])
  | _ => UB
  end.
(** The number of steps and whether the residual is within the tolerance. *)
Definition cgx_summary (tol : QcOF) (r : outcome (nat * vec QcOF)) : outcome (nat * bool) :=
  let! r := r in let '(it, y) := r in let r := vsub cgx_b (mulvec cgx_A y) in Ok (it, fleb (dot r r) (tol * tol)%K).
Example C101_example :
  cgx_summary (q 1 10) (cgx_run "true" (q 1 10) [q 0 1; q 0 1; q 0 1]) = Ok (1, true) /\
  cgx_summary (q 1 10) (cgx_run "true" (q 1 10) [q 5 1; q 0 1; q 7 1]) = Ok (1, true) /\
  cgx_summary (q 0 1) (cgx_run "true" (q 0 1) [q 5 1; q 0 1; q 7 1]) = Ok (3, true).
Proof. split; [|split]; vm_compute; reflexivity. Qed.

(** C101 does not hold with "is preconditioner" false: vmult then starts from what its destination holds, and with some contents of the work vector the same
    solve gives up. *)
Theorem C101_solver_mode_refuted : exists (A : mat QcOF) mk p h s l te x b tol h0 h0' it y l1 l2,
  construct (host_helpers (fun _ => false) A mk (fun _ r => r) (fun _ _ r => r)) 0%K (mkTenv true true) true (Ok tt) (Some p) None = (Ok h, s, l) /\
  c_prec p = false /\ length h0 = length x /\ length h0' = length x /\
  driver_solve te true (mulvec A) h tol h0 x b [] = (Ok (it, y), l1) /\ driver_solve te true (mulvec A) h tol h0' x b [] = (Throw, l2).
Proof.
  exists cgx_A, (fun _ => Ok (cgx_R, cgx_A)), (cgx_params "false").
  assert (H : match construct (host_helpers (fun _ => false) cgx_A (fun _ => Ok (cgx_R, cgx_A)) (fun _ r => r) (fun _ _ r => r)) 0%K (mkTenv true true) true (Ok tt)
      (Some (cgx_params "false")) None with
    | (Ok h, _, _) => (match fst (driver_solve (mkTenv true true) true (mulvec cgx_A) h (q 1 10) [q 0 1; q 0 1; q 0 1] cgx_x cgx_b []) with Ok _ => true | _ => false end &&
        match fst (driver_solve (mkTenv true true) true (mulvec cgx_A) h (q 1 10) [q 5 1; q 0 1; q 7 1] cgx_x cgx_b []) with Throw => true | _ => false end)%bool
    | _ => false
    end = true) by (vm_compute; reflexivity).
  destruct (construct _ _ _ _ _ _ _) as [[[h| | | |] s] l] eqn:C; try discriminate H. clear C.
  exists h, s, l, (mkTenv true true), cgx_x, cgx_b, (q 1 10), [q 0 1; q 0 1; q 0 1], [q 5 1; q 0 1; q 7 1]. apply andb_true_iff in H. destruct H as (H1 & H2).
  destruct (driver_solve (mkTenv true true) true (mulvec cgx_A) h (q 1 10) [q 0 1; q 0 1; q 0 1] cgx_x cgx_b []) as [[[it y]| | | |] l1]; try discriminate H1.
  destruct (driver_solve (mkTenv true true) true (mulvec cgx_A) h (q 1 10) [q 5 1; q 0 1; q 7 1] cgx_x cgx_b []) as [[[? ?]| | | |] l2]; try discriminate H2.
  exists it, y, l1, l2. repeat split.
Qed.
Print Assumptions C101_solver_mode_refuted.

(** Chebyshev's bound: the matrix of C57 without preconditioner has its spectrum in [1, 3], so eta = 2; one step is enough for the tolerance 11/5. *)
Section Example101.
  Variable K : ofield.
  Add Field KfieldX101 : (f_field K).
  Local Open Scope K_scope.
  Lemma hA_spectrum : spectrum_in 2 (mulvec (hA K)) (fun b => b) 1 (1 + 1 + 1) /\
    forall e, length e = 2%nat -> dot (mulvec (hA K) e) (mulvec (hA K) e) <= (1 + 1 + 1) * energy (mulvec (hA K)) e.
  Proof.
    assert (S : spectrum_in 2 (mulvec (hA K)) (fun b => b) 1 (1 + 1 + 1)).
    { intros x Hx. destruct x as [|x0 [|x1 [|]]]; try discriminate. split; apply fle_sub_0.
      - match goal with |- _ <= ?y => replace y with ((1 + 1 + 1) * ((x0 - x1) * (x0 - x1))) by (unfold energy, mulvec, dot, hA, of_rows; cbn; ring) end.
        apply fle_mul; [apply fadd_nonneg; [apply flt_le, two_pos|apply f0_le_1]|apply fsquare_nonneg].
      - match goal with |- _ <= ?y => replace y with ((x0 + x1) * (x0 + x1)) by (unfold energy, mulvec, dot, hA, of_rows; cbn; ring) end. apply fsquare_nonneg. }
    split; [exact S|]. intros e Le. exact (proj2 (S e Le)).
  Qed.
  Lemma id_spd : spd 2 (fun b : vec K => b).
  Proof.
    split; [intros x y _ _; reflexivity|]. intros x Lx N. unfold energy. apply fle_neq_lt; [apply dot_nonneg|]. intros E. apply N. symmetry in E. apply dot_self_0 in E. rewrite Lx in E. exact E.
  Qed.
End Example101.
Example C101_steps_example : exists it y l', cg_solve true (mulvec (hA QcOF)) (fun _ b => pret b) 1 (q 11 5) [q 7 1; q 7 1] [q 0 1; q 0 1] (mulvec (hA QcOF) [q 1 1; q 2 1]) [] = (Ok (it, y), l') /\ it <= 1.
Proof.
  destruct (@C101_steps QcOF true 2 (mulvec (hA QcOF)) (fun b => b) (fun _ b => pret b) 1 (q 11 5) (mulvec_linear (hA QcOF)) (hA_spd QcOF)) with
    (a := 1%K : QcOF) (c := (1 + 1 + 1)%K : QcOF) (Lambda := (1 + 1 + 1)%K : QcOF) (k := 1) (h0 := [q 7 1; q 7 1]) (x := [q 0 1; q 0 1]) (xs := [q 1 1; q 2 1]) (l := @nil tev)
    as (it & y & l' & E & L & _); try reflexivity.
  - constructor; auto.
  - apply id_spd.
  - intros x b l Hl _ _. exists l. split; [reflexivity|exact Hl].
  - apply fltb_lt. vm_compute. reflexivity.
  - apply fltb_lt. vm_compute. reflexivity.
  - apply hA_spectrum.
  - apply hA_spectrum.
  - apply fleb_le. vm_compute. reflexivity.
  - apply fleb_le. vm_compute. reflexivity.
  - exists it, y, l'. split; [exact E|exact L].
Qed.

(** The mesh of C82 and C87: the spectrum of M A is in [26/68, 110/68], whose ratio is at most 2.1^2, so the error falls by 11/31 per step. *)
Example C101_driver_example : exists R AP h s l, hrun [0; 0] hparams R AP /\
  construct (host_helpers (fun _ => false) hA2 (fun _ => Ok (R, AP)) (fun _ r => r) (fun _ _ r => r)) 0%K (mkTenv true true) true (Ok tt) (Some hparams) None = (Ok h, s, l) /\
  forall h0 x xs, length h0 = 3 -> length x = 3 -> length xs = 3 ->
    exists it y l', driver_solve (mkTenv true true) true (mulvec hA2) h (q 1 1000000) h0 x (mulvec hA2 xs) [] = (Ok (it, y), l') /\ it <= 3 /\
      fle (fpow ((q 21 10 + 1) * (q 21 10 + 1))%K it * energy (mulvec hA2) (vsub xs y))%K
        ((1 + 1) * (1 + 1) * (fpow ((q 21 10 - 1) * (q 21 10 - 1))%K it * energy (mulvec hA2) (vsub xs x)))%K.
Proof.
  destruct (@hexists hparams eq_refl eq_refl) as (R & AP & R1). assert (FR := @hfull hparams R AP eq_refl eq_refl R1).
  destruct (@C101_driver QcOF (fun s => parse_int s) ex_parse_double ex_no_lobpcg qsqrt (fun _ _ => Fuel) (q 0 1) (fun _ _ => q 0 1) (@insertion_sort nat) hlapack ex_no_arpack (fun _ => [0; 1]) (lconn 2 (fun c => c)) (assemble_patch hF) (fun _ => []) (fun _ => ex_draw)
    true false (lmesh 2) hF hgd hmesh hpart hserial hfem_ok (@evaluate_ok_example QcOF hF)
    hconn hsym hcells (fun _ => eq_refl) (lapack_of_ok _ _) hlapack_complete hA2_spd (fun _ _ => eq_refl) (fun _ => false) (fun _ => Ok (R, AP)) (fun _ r => r) (fun _ _ r => r) 0%K (mkTenv true true)
    hparams R AP (q 1 68) (q 26 1)) as (h & (s & l & C1) & V); try exact R1; try exact FR; try reflexivity.
  - apply hdefault. auto.
  - intros eig E. injection E as <-. reflexivity.
  - intros agg ui n P B. left. intros a Ha. destruct (@hagg agg ui n P B) as (-> & ->). apply htouch. exact Ha.
  - apply fltb_lt. vm_compute. reflexivity.
  - exact (@hdisc hparams eq_refl eq_refl).
  - apply fleb_le. vm_compute. reflexivity.
  - apply fleb_le. vm_compute. reflexivity.
  - apply fleb_le. vm_compute. reflexivity.
  - apply fltb_lt. vm_compute. reflexivity.
  - exists R, AP, h, s, l. split; [exact R1|]. split; [exact C1|]. intros h0 x xs L0 Lx Lxs.
    destruct (V (mkTenv true true) true (q 1 1000000) h0 x (mulvec hA2 xs) []) as (it & y & l' & E & Li & _ & _ & _ & RT).
    + apply fleb_le. vm_compute. reflexivity.
    + exact L0.
    + exact Lx.
    + exact (mulvec_length hA2 xs).
    + reflexivity.
    + exists it, y, l'. split; [exact E|]. split; [exact Li|]. apply RT.
      * exact Lxs.
      * reflexivity.
      * apply fltb_lt. vm_compute. reflexivity.
      * apply fleb_le. vm_compute. reflexivity.
Qed.
