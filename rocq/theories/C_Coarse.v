(** Property theorems about a coarse solver that is not exact: C92. *)
From Coq Require Import String List Arith ZArith Bool Lia Field Permutation QArith Qcanon.
From Verif Require Import Base OField Mat LinAlg M_Ptree S_Ptree P_Ptree M_Agglo S_Agglo M_WorkStream M_Restr S_Restr P_Restr P_Restr2
  S_FastAP P_FastAP P_FastAP2 M_Perm S_Perm M_Lanczos S_Lanczos M_Eig S_Eig P_Eig M_Hier S_Hier P_Hier P_Hier2 P_HierC P_HierE P_HierS M_Smoother P_Smoother M_Host S_Host P_Host P_HostN M_HostEnd S_HostEnd P_HostEnd
  P_Amgx3 S_Rate P_Rate P_Approx M_Par S_Par P_Par P_Par2 P_Par3 P_Par4 M_ParEnd S_ParEnd P_ParEnd P_Local C_Host C_Restr C_Rate C_Par M_FastAP C_FastAP C_HostEnd E_Lanczos C_Lanczos C_Eig E_Solve E_CudaHier C_CudaHier P_CudaHier3 P_Rate2 P_Perm P_Lanczos9 P_AmgeDev2 C_ParEnd C_Local S_Coarse P_Coarse.
Import ListNotations.
Set Implicit Arguments.
Open Scope list_scope.
Open Scope nat_scope.

Section CCoarse.
  Variable K : ofield.
  Add Field KfieldCCoarse : (f_field K).
  Local Notation vec := (vec K).

  (** C92: a symmetric coarse solver that leaves at most the fraction [gamma] of the error is spectrally equivalent to the inverse. *)
  Theorem C92_reducing : forall (M : mat K) B gamma, nr M = nc M -> spd (nc M) (mulvec M) -> linear (nc M) (nc M) B -> self_adjoint (nc M) B -> fle 0%K gamma ->
    reducing_solver M B gamma -> near_solver M B (1 - gamma)%K (1 + gamma)%K.
  Proof. exact (@reducing_near K). Qed.

  (** C92: the direct solver is exact. *)
  Theorem C92_direct : forall M : mat K, nr M = nc M -> spd (nc M) (mulvec M) -> near_solver M (direct_solve M) 1%K 1%K.
  Proof.
    intros M D S. assert (LA : linear (nc M) (nc M) (mulvec M)) by (pose proof (mulvec_linear M) as X; rewrite D in X; exact X).
    assert (X := @direct_exact K M D S). split.
    - constructor.
      + intros x Hx. apply X; auto.
      + intros x y Hx Hy. destruct (X x Hx) as (X1 & X2). destruct (X y Hy) as (Y1 & Y2). destruct (X (vadd x y)) as (Z1 & Z2); [vlen|].
        apply (spd_inj2 LA S); auto; [vlen|]. rewrite (lin_add LA) by auto. congruence.
      + intros s x Hx. destruct (X x Hx) as (X1 & X2). destruct (X (vscale s x)) as (Z1 & Z2); [vlen|].
        apply (spd_inj2 LA S); auto; [vlen|]. rewrite (lin_scale LA) by auto. congruence.
    - split.
      + intros x y Hx Hy. destruct (X x Hx) as (X1 & X2). destruct (X y Hy) as (Y1 & Y2). rewrite <- Y2 at 1. rewrite <- X2 at 2. symmetry. apply (proj1 S); auto.
      + intros w Hw. assert (Lb : length (mulvec M w) = nc M) by (rewrite mulvec_length; exact D). destruct (X _ Lb) as (X1 & X2).
        assert (E : direct_solve M (mulvec M w) = w) by (apply (spd_inj2 LA S); auto). rewrite E. unfold energy. rewrite (dot_comm w).
        replace (1 * dot (mulvec M w) w)%K with (dot (mulvec M w) w) by ring. split; apply fle_refl.
  Qed.

  Variables (debug : bool) (A : mat K).
  Hypothesis DA : nr A = nc A.
  Hypothesis Hspd : spd (nc A) (mulvec A).
  Variables (accepts_double : string -> bool) (owned_rows : mat K -> list (list nat)) (mk : ptree -> outcome (mat K * mat K)).
  Variables (ilu : mat K -> vec -> vec) (ml : ml_list -> mat K -> vec -> vec) (eps0 : K) (te0 : tenv).
  Variables (p : ptree) (R AP : mat K) (theta delta lambda : K).
  Hypothesis Hown : forall M : mat K, nr M = nc M -> distribution (nc M) (owned_rows M).
  (** With fast_ap the product is the one of C15. *)
  Hypothesis Hfast : pt_get parse_bool ["fast_ap"%string] false p = true -> meq AP (mmul A (mtrans R)).
  Hypothesis Hmk : mk p = Ok (R, AP).
  Hypothesis PE : pt_find p ["eigensolver"%string] <> None.
  Hypothesis PA : pt_find p ["agglomeration"%string] <> None.
  Hypothesis DR : nc R = nc A.
  Hypothesis Hrank : full_row_rank R.
  Hypothesis Hlam : flt 0%K lambda.
  Hypothesis AX : approximates A R lambda.
  Hypothesis Htheta : fle 0%K theta.
  Hypothesis Hdelta : fle 0%K delta.
  Hypothesis Hdelta1 : fle delta 1%K.
  Hypothesis Hbound : forall own, In own (owned_rows A) -> fle (theta * triangle_bound (local_block A own))%K 1%K.
  Hypothesis Hweak : weakly_coupled (owned_rows A) A delta.
  Hypothesis Hsmall : fle (delta * theta * lambda)%K 1%K.
  Local Notation built h := (exists s l, construct (par_helpers accepts_double owned_rows A mk ilu ml) eps0 te0 debug (Ok tt) (Some p) None = (Ok h, s, l)).

  Section Ml.
    Variables (lst : ml_list) (alpha beta : K).
    Hypothesis Hdef : ml_two_level p.
    Hypothesis Hparams : ml_parameters accepts_double p lst.
    Hypothesis Halpha : fle 0%K alpha.
    Hypothesis Halpha1 : fle alpha 1%K.
    (** ML is asked for the matrix R A R^T only. *)
    Hypothesis Hml : forall M, meq M (mmul R (mmul A (mtrans R))) -> near_solver M (ml lst M) alpha beta.

    Lemma ml_built : exists Ac h, meq Ac (mmul R (mmul A (mtrans R))) /\ built h /\
      forall te x b l, open_sections l = [] -> length x = nc A -> length b = nc A ->
        exists y l', hierarchy_vmult te h x b l = (Ok y, l') /\ open_sections l' = [] /\
          y = inexact_two_grid A R (par_ssor_vmult (owned_rows A) A) (ml lst Ac) (c_steps p) b (if c_prec p then vzero (nc A) else x).
    Proof.
      destruct Hdef as (D1 & D2 & D3 & D4).
      assert (SK : dealii_smoother_kind p = Ok KSsor).
      { unfold dealii_smoother_kind. rewrite get_string_text. apply lower_ci in D4; [|apply no_upperb_ok; reflexivity]. rewrite D4. reflexivity. }
      assert (CK : dealii_solver_kind accepts_double p = Ok (KMl lst)).
      { destruct (C38_host_solver accepts_double p) as [(Q & _)|[(_ & Q)|(_ & Q & _)]]; [|apply Q; exact Hparams|contradiction].
        exfalso. apply lower_ci in Q; [|apply no_upperb_ok; reflexivity]. apply lower_ci in D3; [|apply no_upperb_ok; reflexivity]. congruence. }
      assert (LK : linear (nc A) (nc A) (par_ssor_vmult (owned_rows A) A)) by (apply par_linear; apply Hown; exact DA).
      destruct (@par_ml_two_level K accepts_double owned_rows A mk ilu ml lst eps0 te0 debug p KSsor R AP DA Hspd D2 SK LK CK PE PA Hmk DR Hrank Hfast) as (Ac & MA & h & s & l & CC & V).
      { intros M HM. pose proof (proj1 (Hml HM)) as X. destruct HM as (_ & E & _). simpl in E. rewrite E in X. exact X. }
      exists Ac, h. split; [exact MA|]. split; [exists s, l; exact CC|exact V].
    Qed.

    (** C92: one call of vmult reduces the error, in the energy norm, at least by [rho], the larger of 1 - alpha delta theta lambda and beta - 1. *)
    Theorem C92_rate : forall rho, fle (1 - alpha * (delta * theta * lambda))%K rho -> fle (beta - 1)%K rho ->
      exists h, built h /\ forall te x xs l, open_sections l = [] -> length x = nc A -> length xs = nc A ->
        exists y l', hierarchy_vmult te h x (mulvec A xs) l = (Ok y, l') /\ open_sections l' = [] /\ length y = nc A /\
          fle (energy (mulvec A) (vsub xs y)) (rho * rho * energy (mulvec A) (vsub xs (if c_prec p then vzero (nc A) else x)))%K.
    Proof.
      intros rho R1 R2. destruct ml_built as (Ac & h & MA & B & V). exists h. split; [exact B|]. intros te x xs l Hl Lx Lxs.
      assert (Lb : length (mulvec A xs) = nc A) by (rewrite mulvec_length; exact DA).
      destruct (V te x (mulvec A xs) l Hl Lx Lb) as (y & l' & E & O & T). exists y, l'. split; [exact E|]. split; [exact O|]. rewrite T.
      pose proof (Hown A DA) as HO.
      apply (@grid_rate K A R Ac (par_ssor_vmult (owned_rows A) A) (ml lst Ac) (delta * theta)%K lambda alpha beta (c_steps p)); auto.
      - apply par_linear; exact HO.
      - apply (@par_sym K A (owned_rows A) DA HO Hspd).
      - exact (proj1 Hdef).
      - apply fle_mul; auto.
      - exact (@par_smooths K A (owned_rows A) DA HO Hspd theta delta Htheta Hdelta Hdelta1 Hbound Hweak).
      - replace (1 - alpha * (delta * theta) * lambda)%K with (1 - alpha * (delta * theta * lambda))%K by ring. exact R1.
      - destruct (c_prec p); [apply vzero_length|exact Lx].
    Qed.
    (** C92: as a solver, repeated calls converge. *)
    Theorem C92_repeated_calls : forall rho, c_prec p = false -> fle (1 - alpha * (delta * theta * lambda))%K rho -> fle (beta - 1)%K rho ->
      exists h, built h /\ forall te x xs k l, open_sections l = [] -> length x = nc A -> length xs = nc A ->
        exists y l', repeated_vmult te h (mulvec A xs) k x l = (Ok y, l') /\ open_sections l' = [] /\
          fle (energy (mulvec A) (vsub xs y)) (fpow (rho * rho)%K k * energy (mulvec A) (vsub xs x))%K.
    Proof.
      intros rho PF R1 R2. destruct (C92_rate rho R1 R2) as (h & B & V). exists h. split; [exact B|]. exact (@repeated_rate K A h rho (c_prec p) V PF).
    Qed.
    (** C92: as a preconditioner, the spectrum of M A lies between alpha delta theta lambda and the larger of 1 and beta. *)
    Theorem C92_condition : forall t, c_prec p = true -> fle 1%K t -> fle beta t ->
      exists h, built h /\ forall te x e l, open_sections l = [] -> length x = nc A -> length e = nc A ->
        exists y l', hierarchy_vmult te h x (mulvec A e) l = (Ok y, l') /\ open_sections l' = [] /\
          fle (alpha * (delta * theta * lambda) * energy (mulvec A) e)%K (dot y (mulvec A e)) /\ fle (dot y (mulvec A e)) (t * energy (mulvec A) e)%K.
    Proof.
      intros t PF T1 T2. destruct ml_built as (Ac & h & MA & B & V). exists h. split; [exact B|]. intros te x e l Hl Lx Le.
      assert (Lb : length (mulvec A e) = nc A) by (rewrite mulvec_length; exact DA).
      destruct (V te x (mulvec A e) l Hl Lx Lb) as (y & l' & E & O & T). exists y, l'. split; [exact E|]. split; [exact O|]. rewrite T, PF.
      pose proof (Hown A DA) as HO.
      replace (alpha * (delta * theta * lambda))%K with (alpha * (delta * theta) * lambda)%K by ring.
      apply (@grid_spectrum K A R Ac (par_ssor_vmult (owned_rows A) A) (ml lst Ac) (delta * theta)%K lambda alpha beta (c_steps p)); auto.
      - apply par_linear; exact HO.
      - apply (@par_sym K A (owned_rows A) DA HO Hspd).
      - exact (proj1 Hdef).
      - apply fle_mul; auto.
      - exact (@par_smooths K A (owned_rows A) DA HO Hspd theta delta Htheta Hdelta Hdelta1 Hbound Hweak).
    Qed.
  End Ml.

  (** C92: with the direct coarse solver the preconditioner never overshoots: the spectrum of M A lies between delta theta lambda and 1. *)
  Theorem C92_direct_condition : default_two_level p -> c_prec p = true ->
    exists h, built h /\ forall te x e l, open_sections l = [] -> length x = nc A -> length e = nc A ->
      exists y l', hierarchy_vmult te h x (mulvec A e) l = (Ok y, l') /\ open_sections l' = [] /\
        fle (delta * theta * lambda * energy (mulvec A) e)%K (dot y (mulvec A e)) /\ fle (dot y (mulvec A e)) (energy (mulvec A) e).
  Proof.
    intros (D1 & D2 & D3 & D4) PF.
    assert (SK : dealii_smoother_kind p = Ok KSsor).
    { unfold dealii_smoother_kind. rewrite get_string_text. apply lower_ci in D4; [|apply no_upperb_ok; reflexivity]. rewrite D4. reflexivity. }
    assert (CK : dealii_solver_kind accepts_double p = Ok KDirect).
    { destruct (C38_host_solver accepts_double p) as [(_ & E)|[(Q & _)|(Q & _)]]; auto; [|contradiction].
      exfalso. apply lower_ci in Q; [|apply no_upperb_ok; reflexivity]. apply lower_ci in D3; [|apply no_upperb_ok; reflexivity]. congruence. }
    pose proof (Hown A DA) as HO.
    assert (LK : linear (nc A) (nc A) (par_ssor_vmult (owned_rows A) A)) by (apply par_linear; exact HO).
    destruct (@par_two_level K accepts_double owned_rows A mk ilu ml eps0 te0 debug p KSsor R AP DA Hspd D2 SK LK CK PE PA Hmk DR Hrank Hfast) as (h & s & l & CC & V).
    exists h. split; [exists s, l; exact CC|]. intros te x e l0 Hl Lx Le.
    assert (Lb : length (mulvec A e) = nc A) by (rewrite mulvec_length; exact DA).
    destruct (V te x (mulvec A e) l0 Hl Lx Lb) as (y & l' & E & O & T). exists y, l'. split; [exact E|]. split; [exact O|]. rewrite PF in T.
    set (Ac := mmul R (mmul A (mtrans R))).
    assert (MA : meq Ac (mmul R (mmul A (mtrans R)))) by (split; [reflexivity|split; reflexivity]).
    assert (DC : nr Ac = nc Ac) by reflexivity.
    assert (SC : spd (nc Ac) (mulvec Ac)) by (apply (@Ac_spd K A R Ac DA Hspd DR Hrank MA)).
    assert (Y : y = inexact_two_grid A R (par_ssor_vmult (owned_rows A) A) (direct_solve Ac) (c_steps p) (mulvec A e) (vzero (nc A))).
    { destruct T as (c & Lc & Ec & ->). unfold inexact_two_grid. do 2 f_equal. f_equal.
      assert (LA : linear (nc Ac) (nc Ac) (mulvec Ac)) by (apply (mulvec_linear Ac)).
      match type of Ec with _ = ?g => set (g0 := g) in * end. assert (Lg : length g0 = nc Ac) by (unfold g0; rewrite mulvec_length; reflexivity).
      destruct (@direct_exact K Ac DC SC g0 Lg) as (Q1 & Q2). apply (spd_inj2 LA SC); auto. transitivity g0; [|exact (eq_sym Q2)]. rewrite (@Ac_acts K A R Ac DA DR MA). exact Ec. }
    rewrite Y.
    replace (delta * theta * lambda)%K with (1 * (delta * theta) * lambda)%K by ring.
    replace (energy (mulvec A) e) with (1 * energy (mulvec A) e)%K at 2 by ring.
    apply (@grid_spectrum K A R Ac (par_ssor_vmult (owned_rows A) A) (direct_solve Ac) (delta * theta)%K lambda 1%K 1%K (c_steps p)); auto; try apply fle_refl; try apply f0_le_1.
    - apply (@par_sym K A (owned_rows A) DA HO Hspd).
    - apply fle_mul; auto.
    - exact (@par_smooths K A (owned_rows A) DA HO Hspd theta delta Htheta Hdelta Hdelta1 Hbound Hweak).
    - apply C92_direct; auto.
  Qed.
End CCoarse.
Print Assumptions C92_reducing.
Print Assumptions C92_direct.
Print Assumptions C92_rate.
Print Assumptions C92_repeated_calls.
Print Assumptions C92_condition.
Print Assumptions C92_direct_condition.

Section Scaled.
  Variable K : ofield.
  Add Field KfieldCCoarseS : (f_field K).
  Local Open Scope K_scope.
  (** A multiple of the exact solve. *)
  Lemma scaled_near : forall (M : mat K) c, nr M = nc M -> spd (nc M) (mulvec M) -> near_solver M (fun r => vscale c (direct_solve M r)) c c.
  Proof.
    intros M c D S. destruct (C92_direct D S) as (L & Sy & N). split; [|split].
    - constructor.
      + intros x Hx. pose proof (lin_len L _ Hx). vlen.
      + intros x y Hx Hy. rewrite (lin_add L) by auto. pose proof (lin_len L _ Hx). pose proof (lin_len L _ Hy). unfold OField.vec in *; vext; ring.
      + intros s x Hx. rewrite (lin_scale L) by auto. unfold OField.vec in *; vext; ring.
    - intros x y Hx Hy. rewrite dot_scale_l, dot_scale_r, (Sy x y) by auto. reflexivity.
    - intros w Hw. destruct (N w Hw) as (N1 & N2). rewrite dot_scale_l.
      assert (E : dot (direct_solve M (mulvec M w)) (mulvec M w) = energy (mulvec M) w).
      { apply fle_antisym; [eapply fle_trans; [exact N2|]|eapply fle_trans; [|exact N1]]; apply fle_sub_0; match goal with |- 0 <= ?e => replace e with (0 : K) by ring end; apply fle_refl. }
      rewrite E. split; apply fle_refl.
  Qed.
  Lemma scaled_reducing : forall (M : mat K) gamma, nr M = nc M -> spd (nc M) (mulvec M) -> reducing_solver M (fun r => vscale (1 - gamma) (direct_solve M r)) gamma.
  Proof.
    intros M gamma D S w Hw. assert (LA : linear (nc M) (nc M) (mulvec M)) by (pose proof (mulvec_linear M) as X; rewrite D in X; exact X).
    assert (Lb : length (mulvec M w) = nc M) by (rewrite mulvec_length; exact D). destruct (@direct_exact K M D S _ Lb) as (X1 & X2).
    assert (E : direct_solve M (mulvec M w) = w) by (apply (spd_inj2 LA S); auto). rewrite E.
    assert (Y : vsub w (vscale (1 - gamma) w) = vscale gamma w) by (unfold OField.vec in *; vext; ring). rewrite Y. unfold energy. rewrite (lin_scale LA) by auto. rewrite dot_scale_l, dot_scale_r.
    replace (gamma * (gamma * dot (mulvec M w) w)) with (gamma * gamma * dot (mulvec M w) w) by ring. apply fle_refl.
  Qed.
  (** Of a matrix without small eigenvalues every coarse space is good. *)
  Lemma low_approximates : forall (A R : mat K) mu, nc R = nc A -> (forall v, length v = nc A -> mu * dot v v <= energy (mulvec A) v) -> approximates A R mu.
  Proof.
    intros A R mu DR H v Hv. exists (vzero (nr R)). split; [apply vzero_length|]. rewrite (lin_zero (mulTvec_linear R)).
    assert (Z : vsub v (vzero (nc R)) = v) by (rewrite DR; unfold OField.vec in *; vext; ring). rewrite Z. auto.
  Qed.
End Scaled.

(** * Examples: the two processes of C91; ML takes nine tenths of the exact solution. *)
Unset Implicit Arguments.
Definition cparams (coarse prec : string) : ptree := Node "" [("is preconditioner"%string, leaf prec); ("eigensolver"%string, leig); ("coarse"%string, Node "" [("type"%string, leaf coarse)]);
  ("agglomeration"%string, Node "" [("partitioner"%string, leaf "metis"); ("n_agglomerates"%string, leaf "1")])].
Definition cml (c : QcOF) (_ : ml_list) (M : mat QcOF) (r : vec QcOF) : vec QcOF := vscale c (direct_solve M r).
Lemma capprox : exists R, lrun (lparams "true") R /\ nc R = 3 /\ full_row_rank R /\ approximates hA2 R (lq 5 1).
Proof.
  destruct C91_example as (R & HR & AX). exists R. split; [exact HR|]. split; [|split; [exact (lfull _ _ HR)|]].
  - destruct HR as (eig & agg & ds & ms & _ & _ & _ & _ & ->). reflexivity.
  - apply (@absorb QcOF hA2 R (lq 15 1) (lq 1 1 * fnat 2)%K (lq 1 1) (lq 5 1)).
    + exact lA_low.
    + apply fltb_lt. vm_compute. reflexivity.
    + apply fleb_le. vm_compute. reflexivity.
    + apply fleb_le. vm_compute. reflexivity.
    + exact AX.
Qed.

Section Cml.
  Variables (coarse prec : string) (c : QcOF).
  Local Notation crun R h := (exists s l, construct (par_helpers (fun _ => false) prows hA2 (fun _ => Ok (R, R)) (fun _ r => r) (cml c)) 0%K (mkTenv true true) true (Ok tt) (Some (cparams coarse prec)) None = (Ok h, s, l)).
  Lemma cnear : forall R M, nc R = 3 -> full_row_rank R -> meq M (mmul R (mmul hA2 (mtrans R))) -> near_solver M (cml c MlDefaults M) c c.
  Proof.
    intros R M DR FR HM. destruct (@Ac_dims QcOF hA2 R M HM) as (E1 & E2). apply scaled_near; [congruence|]. apply (@Ac_spd QcOF hA2 R M eq_refl hA2_spd DR FR HM).
  Qed.
  Lemma cdef_ml : coarse = "ML"%string -> ml_two_level (cparams coarse prec).
  Proof.
    intros ->. split; [vm_compute; lia|]. split; [reflexivity|]. split; apply lower_ci; [apply no_upperb_ok; reflexivity|reflexivity|apply no_upperb_ok; reflexivity|reflexivity].
  Qed.
  Lemma cdef_direct : coarse = "direct"%string -> default_two_level (cparams coarse prec).
  Proof.
    intros ->. split; [vm_compute; lia|]. split; [reflexivity|]. split; apply lower_ci; [apply no_upperb_ok; reflexivity|reflexivity|apply no_upperb_ok; reflexivity|reflexivity].
  Qed.
  Lemma cbound : forall own, In own (prows hA2) -> fle (lq 1 43 * triangle_bound (local_block hA2 own))%K 1%K.
  Proof. intros own I. change (prows hA2) with [[0]; [1; 2]] in I. destruct I as [<-|[<-|[]]]; apply fleb_le; vm_compute; reflexivity. Qed.
End Cml.
Ltac chyp := first [exact cbound|exact hA2_weak|apply cdef_ml; reflexivity|apply cdef_direct; reflexivity|apply fltb_lt; vm_compute; reflexivity|apply fleb_le; vm_compute; reflexivity].
(** The local solves keep 5 of lambda = 15, the coarse solver nine tenths of that. *)
Example C92_rate_example : exists R h s l, lrun (lparams "true") R /\
  construct (par_helpers (fun _ => false) prows hA2 (fun _ => Ok (R, R)) (fun _ r => r) (cml (lq 9 10))) 0%K (mkTenv true true) true (Ok tt) (Some (cparams "ML" "false")) None = (Ok h, s, l) /\
  forall x xs, length x = 3 -> length xs = 3 -> exists y l', hierarchy_vmult (mkTenv true true) h x (mulvec hA2 xs) [] = (Ok y, l') /\
    fle (energy (mulvec hA2) (vsub xs y)) ((1 - lq 9 10 * (lq 1 10 * lq 1 43 * lq 5 1)) * (1 - lq 9 10 * (lq 1 10 * lq 1 43 * lq 5 1)) * energy (mulvec hA2) (vsub xs x))%K.
Proof.
  destruct capprox as (R & HR & DR & FR & AX).
  destruct (@C92_rate QcOF true hA2 eq_refl hA2_spd (fun _ => false) prows (fun _ => Ok (R, R)) (fun _ r => r) (cml (lq 9 10)) 0%K (mkTenv true true) (cparams "ML" "false") R R
    (lq 1 43) (lq 1 10) (lq 5 1) prows_ok) with (lst := MlDefaults) (alpha := lq 9 10) (beta := lq 9 10) (rho := (1 - lq 9 10 * (lq 1 10 * lq 1 43 * lq 5 1))%K) as (h & (s & l & C1) & V);
    try exact FR; try exact DR; try exact AX; try reflexivity; try discriminate; try chyp.
  - intros M HM. apply (cnear (lq 9 10) R M DR FR HM).
  - exists R, h, s, l. split; [exact HR|]. split; [exact C1|]. intros x xs Hx Hxs.
    destruct (V (mkTenv true true) x xs [] eq_refl Hx Hxs) as (y & l' & E & _ & _ & EN). exists y, l'. split; [exact E|exact EN].
Qed.
Example C92_condition_example : exists R h s l, lrun (lparams "true") R /\
  construct (par_helpers (fun _ => false) prows hA2 (fun _ => Ok (R, R)) (fun _ r => r) (cml (lq 9 10))) 0%K (mkTenv true true) true (Ok tt) (Some (cparams "ML" "true")) None = (Ok h, s, l) /\
  forall x e, length x = 3 -> length e = 3 -> exists y l', hierarchy_vmult (mkTenv true true) h x (mulvec hA2 e) [] = (Ok y, l') /\
    fle (lq 9 10 * (lq 1 10 * lq 1 43 * lq 5 1) * energy (mulvec hA2) e)%K (dot y (mulvec hA2 e)) /\ fle (dot y (mulvec hA2 e)) (1 * energy (mulvec hA2) e)%K.
Proof.
  destruct capprox as (R & HR & DR & FR & AX).
  destruct (@C92_condition QcOF true hA2 eq_refl hA2_spd (fun _ => false) prows (fun _ => Ok (R, R)) (fun _ r => r) (cml (lq 9 10)) 0%K (mkTenv true true) (cparams "ML" "true") R R
    (lq 1 43) (lq 1 10) (lq 5 1) prows_ok) with (lst := MlDefaults) (alpha := lq 9 10) (beta := lq 9 10) (t := 1%K : QcOF) as (h & (s & l & C1) & V);
    try exact FR; try exact DR; try exact AX; try reflexivity; try discriminate; try chyp.
  - intros M HM. apply (cnear (lq 9 10) R M DR FR HM).
  - exists R, h, s, l. split; [exact HR|]. split; [exact C1|]. intros x e Hx He.
    destruct (V (mkTenv true true) x e [] eq_refl Hx He) as (y & l' & E & _ & N1 & N2). exists y, l'. split; [exact E|]. split; [exact N1|exact N2].
Qed.
Example C92_direct_example : exists R h s l, lrun (lparams "true") R /\
  construct (par_helpers (fun _ => false) prows hA2 (fun _ => Ok (R, R)) (fun _ r => r) (cml (lq 0 1))) 0%K (mkTenv true true) true (Ok tt) (Some (cparams "direct" "true")) None = (Ok h, s, l) /\
  forall x e, length x = 3 -> length e = 3 -> exists y l', hierarchy_vmult (mkTenv true true) h x (mulvec hA2 e) [] = (Ok y, l') /\
    fle (lq 1 10 * lq 1 43 * lq 5 1 * energy (mulvec hA2) e)%K (dot y (mulvec hA2 e)) /\ fle (dot y (mulvec hA2 e)) (energy (mulvec hA2) e)%K.
Proof.
  destruct capprox as (R & HR & DR & FR & AX).
  destruct (@C92_direct_condition QcOF true hA2 eq_refl hA2_spd (fun _ => false) prows (fun _ => Ok (R, R)) (fun _ r => r) (cml (lq 0 1)) 0%K (mkTenv true true) (cparams "direct" "true") R R
    (lq 1 43) (lq 1 10) (lq 5 1) prows_ok) as (h & (s & l & C1) & V);
    try exact FR; try exact DR; try exact AX; try reflexivity; try discriminate; try chyp.
  - exists R, h, s, l. split; [exact HR|]. split; [exact C1|]. intros x e Hx He.
    destruct (V (mkTenv true true) x e [] eq_refl Hx He) as (y & l' & E & _ & N1 & N2). exists y, l'. split; [exact E|]. split; [exact N1|exact N2].
Qed.
Example C92_reducing_example : forall M : mat QcOF, nr M = nc M -> spd (nc M) (mulvec M) ->
  near_solver M (fun r => vscale (1 - lq 1 10)%K (direct_solve M r)) (1 - lq 1 10)%K (1 + lq 1 10)%K.
Proof.
  intros M D S. destruct (@scaled_near QcOF M (1 - lq 1 10)%K D S) as (L & Sy & _). apply C92_reducing; auto.
  - apply fleb_le. vm_compute. reflexivity.
  - apply scaled_reducing; auto.
Qed.

(** C92 needs [beta]: with a coarse solver that is symmetric and positive definite but takes three times the correction, a call of vmult makes the error larger, whatever
    the quality of the coarse space. *)
Definition oR : mat QcOF := of_rows 1 3 [[lq 3 1; lq 4 1; lq 5 1]].
Definition oAc : mat QcOF := mmul oR (mmul hA2 (mtrans oR)).
Theorem C92_overshoot_refuted : exists (ml : ml_list -> mat QcOF -> vec QcOF -> vec QcOF) (R : mat QcOF) p h s l xs y l',
  ml_two_level p /\ c_prec p = false /\ full_row_rank R /\ approximates hA2 R (lq 1 1) /\
  (forall M, meq M (mmul R (mmul hA2 (mtrans R))) -> near_solver M (ml MlDefaults M) (lq 3 1) (lq 3 1)) /\
  construct (par_helpers (fun _ => false) prows hA2 (fun _ => Ok (R, R)) (fun _ r => r) ml) 0%K (mkTenv true true) true (Ok tt) (Some p) None = (Ok h, s, l) /\
  length xs = 3 /\ hierarchy_vmult (mkTenv true true) h (vzero 3) (mulvec hA2 xs) [] = (Ok y, l') /\
  flt (energy (mulvec hA2) xs) (energy (mulvec hA2) (vsub xs y)).
Proof.
  assert (FR : full_row_rank oR).
  { apply rank_test. apply posdef_spd; [apply small_symmetric; [reflexivity|vm_compute; reflexivity]|vm_compute; reflexivity]. }
  assert (NL : forall M, meq M (mmul oR (mmul hA2 (mtrans oR))) -> near_solver M (cml (lq 3 1) MlDefaults M) (lq 3 1) (lq 3 1)).
  { intros M HM. apply (cnear (lq 3 1) oR M eq_refl FR HM). }
  destruct (@ml_built QcOF true hA2 eq_refl hA2_spd (fun _ => false) prows (fun _ => Ok (oR, oR)) (fun _ r => r) (cml (lq 3 1)) 0%K (mkTenv true true) (cparams "ML" "false") oR oR prows_ok)
    with (lst := MlDefaults) (alpha := lq 3 1) (beta := lq 3 1) as (Ac & h & MA & (s & l & C1) & V); try exact FR; try exact NL; try reflexivity; try discriminate.
  { apply cdef_ml. reflexivity. }
  set (xs := [lq 3 1; lq 4 1; lq 5 1]).
  destruct (V (mkTenv true true) (vzero 3) (mulvec hA2 xs) [] eq_refl eq_refl eq_refl) as (y & l' & E & _ & T).
  exists (cml (lq 3 1)), oR, (cparams "ML" "false"), h, s, l, xs, y, l'.
  split; [apply cdef_ml; reflexivity|]. split; [reflexivity|]. split; [exact FR|]. split.
  { apply low_approximates; [reflexivity|exact lA_low]. }
  split; [exact NL|]. split; [exact C1|]. split; [reflexivity|]. split; [exact E|].
  assert (Y : inexact_two_grid hA2 oR (par_ssor_vmult (prows hA2) hA2) (cml (lq 3 1) MlDefaults Ac) 1 (mulvec hA2 xs) (vzero 3) =
    inexact_two_grid hA2 oR (par_ssor_vmult (prows hA2) hA2) (cml (lq 3 1) MlDefaults oAc) 1 (mulvec hA2 xs) (vzero 3)).
  { unfold inexact_two_grid. do 3 f_equal. unfold cml. f_equal.
    match goal with |- direct_solve Ac ?g = _ => set (g0 := g); assert (Lg : length g0 = 1) by reflexivity end.
    destruct (@Ac_dims QcOF hA2 oR Ac MA) as (D1 & D2). assert (SA := @Ac_spd QcOF hA2 oR Ac eq_refl hA2_spd eq_refl FR MA).
    assert (SO := @Ac_spd QcOF hA2 oR oAc eq_refl hA2_spd eq_refl FR (conj eq_refl (conj eq_refl (fun i j _ _ => eq_refl)))).
    change (nr oR) with 1 in D1, D2. rewrite D2 in SA.
    destruct (@direct_exact QcOF Ac ltac:(congruence)) with (b := g0) as (P1 & P2); [rewrite D2; exact SA|congruence|].
    destruct (@direct_exact QcOF oAc eq_refl SO g0 Lg) as (Q1 & Q2).
    assert (LA : linear 1 1 (mulvec oAc)) by (apply (mulvec_linear oAc)).
    apply (spd_inj2 LA SO); [congruence|exact Q1|]. rewrite Q2. transitivity (mulvec Ac (direct_solve Ac g0)); [symmetry; apply mulvec_meq; exact MA|exact P2]. }
  change (c_steps (cparams "ML" "false")) with 1 in T. change (if c_prec (cparams "ML" "false") then vzero (nc hA2) else vzero 3) with (@vzero QcOF 3) in T.
  rewrite T, Y. apply fltb_lt. vm_compute. reflexivity.
Qed.
Print Assumptions C92_overshoot_refuted.
