(** Property theorems about the threshold of the matrix-free product: C104. *)
From Coq Require Import String List Arith ZArith NArith Bool Lia Field QArith Qcanon.
From Verif Require Import Base OField Mat LinAlg M_Ptree S_Ptree P_Ptree S_Eig P_CudaHier3 M_Hier S_Hier P_Hier P_HierE P_HierS M_Smoother P_Smoother M_Host S_Host P_Host P_HostN
  M_Cheby S_Cheby P_Poly P_Cheby P_Cheby2 P_Cheby3 S_Rate P_Rate P_Local P_SpProd S_Trunc P_Trunc C_Host C_Cheby E_Lanczos C_MfRate E_Solve P_CudaHier3 S_Trunc C_RateRun.
Import ListNotations.
Set Implicit Arguments.
Open Scope list_scope.
Open Scope nat_scope.

Section C104.
  Variable K : ofield.
  Add Field KfieldC104 : (f_field K).
  Local Notation vec := (vec K).
  Variable parse_double : string -> option K.
  Variable cg : N -> nat -> (vec -> vec) -> vec -> option (K * K).
  Variable auto_degree : K -> K -> K -> N.
  Variable accepts_double : string -> bool.
  Variable mk : ptree -> outcome (mat K * mat K).
  Variable ml_vmult : ml_list -> mat K -> vec -> vec.
  (** The hypotheses of C98 without those on the rank of the restriction and on the entries of the product, which may lie below the threshold [eps].  In their place, the
      threshold is small relative to the smallest eigenvalues [mu] of the operator and [nu] of its Galerkin product.  With "fast_ap", the product of the restrictor may
      differ from A R^T by [eps] in each entry. *)
  Variables (n : nat) (f : vec -> vec) (d dinv : vec) (eps : K) (te0 : tenv) (dbg : bool) (p : ptree) (A R AP : mat K) (lo hi dmax theta lambda mu nu delta : K).
  Local Notation range := (pt_get parse_double ["smoother"; "smoothing_range"]%string 0%K p).
  Local Notation top := (fpos 12 / fpos 10 * hi)%K.
  Local Notation rho := (1 - theta * lambda + delta / (1 - delta))%K.
  Local Notation built h := (exists s l,
    construct (mf_helpers parse_double cg auto_degree n f dinv accepts_double mk ml_vmult) eps te0 dbg (Ok tt) (Some p) None = (Ok h, s, l)).
  Hypothesis Hop : is_matrix n f A.
  Hypothesis Hspd : spd n (mulvec A).
  Hypothesis Hdiag : inverse_diagonal n d dinv.
  Hypothesis Hsteps : 0 < c_steps p.
  Hypothesis Hlevels : c_levels p = 2%Z.
  Hypothesis Hcoarse : ci_eq (text_at p ["coarse"; "type"]%string "direct") "direct".
  Hypothesis Hsmoother : ci_eq (text_at p ["smoother"; "type"]%string "Chebyshev") "chebyshev".
  Hypothesis Hcg : cg 8%N n f dinv = Some (lo, hi).
  Hypothesis Hest : usable_estimate n f d range lo hi.
  Hypothesis Hdmax : flt 0%K dmax.
  Hypothesis Hbound : forall i, i < n -> fle (nth i d 0%K) dmax.
  Hypothesis Htheta : fle 0%K theta.
  Hypothesis Hgain : cheb_gain dmax (interval_low range lo top) top theta.
  Hypothesis Heig : pt_find p ["eigensolver"%string] <> None.
  Hypothesis Hagg : pt_find p ["agglomeration"%string] <> None.
  Hypothesis Hmk : mk p = Ok (R, AP).
  Hypothesis Hcols : nc R = n.
  Hypothesis Heps : fle 0%K eps.
  Hypothesis Hfast : pt_get parse_bool ["fast_ap"%string] false p = true -> within eps AP (mmul A (mtrans R)).
  Hypothesis Hmu : above n f mu.
  Hypothesis Hnu : above (nr R) (fun z => mulvec R (f (mulTvec R z))) nu.
  Hypothesis Hneg : negligible n (nr R) eps mu nu delta.
  Hypothesis Hlambda : flt 0%K lambda.
  Hypothesis Hle : fle (theta * lambda)%K 1%K.
  Hypothesis Happrox : approximates A R lambda.

  Lemma near_rate_matrix : exists h, built h /\
    forall te x xs l, open_sections l = [] -> length x = nc A -> length xs = nc A ->
      exists y l', hierarchy_vmult te h x (mulvec A xs) l = (Ok y, l') /\ open_sections l' = [] /\ length y = nc A /\
        fle (energy (mulvec A) (vsub xs y)) (rho * rho * energy (mulvec A) (vsub xs (if c_prec p then vzero (nc A) else x)))%K.
  Proof.
    assert (SK : matrix_free_smoother_kind p = Ok KChebyshev).
    { unfold matrix_free_smoother_kind. rewrite get_string_text. assert (KT := Hsmoother). apply lower_ci in KT; [|apply no_upperb_ok; reflexivity]. rewrite KT. reflexivity. }
    assert (CK : dealii_solver_kind accepts_double p = Ok KDirect).
    { destruct (C38_host_solver accepts_double p) as [(_ & E)|[(Q & _)|(Q & _)]]; auto; [|contradiction].
      exfalso. assert (CD := Hcoarse). apply lower_ci in Q; [|apply no_upperb_ok; reflexivity]. apply lower_ci in CD; [|apply no_upperb_ok; reflexivity]. congruence. }
    pose proof Hop as (D1 & D2 & D3).
    assert (M : above (nc A) (mulvec A) mu).
    { destruct Hmu as (M0 & M1). split; auto. rewrite D2. intros v Lv. specialize (M1 v Lv). unfold energy in *. rewrite D3 in M1 by auto. exact M1. }
    assert (N : above (nr R) (fun z => mulvec R (mulvec A (mulTvec R z))) nu).
    { destruct Hnu as (N0 & N1). split; auto. intros v Lv. specialize (N1 v Lv). unfold energy in *.
      rewrite D3 in N1; [exact N1|]. rewrite <- Hcols. apply (lin_len (mulTvec_linear R)). exact Lv. }
    assert (G : negligible (nc A) (nr R) eps mu nu delta) by (rewrite D2; exact Hneg).
    destruct (@mf_rate_near K parse_double cg auto_degree accepts_double mk ml_vmult eps n f dinv te0 dbg p A d lo hi dmax theta mu nu delta lambda Hop Hspd Hdiag Hsteps Hlevels CK SK Hcg Hest
      Hdmax Hbound Htheta Hgain Heig Hagg R AP Hmk Hcols Heps Hfast M N G Hlambda Hle Happrox) as (h & s & l & E & V).
    exists h. split; [exists s, l; exact E|exact V].
  Qed.

  (** C104: construction succeeds, and every call of vmult multiplies the energy norm of the error by at most 1 - theta lambda + delta/(1 - delta). *)
  Theorem C104_rate : exists h, built h /\
    forall te x xs l, open_sections l = [] -> length x = n -> length xs = n ->
      exists y l', hierarchy_vmult te h x (f xs) l = (Ok y, l') /\ open_sections l' = [] /\ length y = n /\
        fle (energy f (vsub xs y)) (rho * rho * energy f (vsub xs (if c_prec p then vzero n else x)))%K.
  Proof.
    destruct near_rate_matrix as (h & B & V). exists h. split; [exact B|]. pose proof Hop as (D1 & D2 & D3). rewrite D2 in V. intros te x xs l Ho Hx Hs.
    destruct (V te x xs l Ho Hx Hs) as (y & l' & E & O & Ly & EN). exists y, l'. rewrite D3 by auto. split; [exact E|]. split; [exact O|]. split; [exact Ly|].
    unfold energy in *. rewrite !D3; [exact EN| |]; unfold OField.vec in *; destruct (c_prec p); vlen.
  Qed.
  (** C104: [k] calls, each on the result of the one before. *)
  Theorem C104_repeated_calls : c_prec p = false -> exists h, built h /\
    forall te x xs k l, open_sections l = [] -> length x = n -> length xs = n ->
      exists y l', repeated_vmult te h (f xs) k x l = (Ok y, l') /\ open_sections l' = [] /\
        fle (energy f (vsub xs y)) (fpow (rho * rho)%K k * energy f (vsub xs x))%K.
  Proof.
    intros PF. destruct C104_rate as (h & B & V). exists h. split; [exact B|]. rewrite PF in V. intros te x xs k. revert x. induction k as [|k IH]; intros x l Hl Lx Lxs.
    - exists x, l. split; [reflexivity|]. split; [exact Hl|]. cbn [fpow].
      replace (1 * energy f (vsub xs x))%K with (energy f (vsub xs x)) by ring. apply fle_refl.
    - destruct (V te x xs l Hl Lx Lxs) as (y & l1 & E & O & Ly & EN). destruct (IH y l1 O Ly Lxs) as (z & l2 & E2 & O2 & EN2).
      exists z, l2. split; [cbn [repeated_vmult]; rewrite E; exact E2|]. split; [exact O2|]. eapply fle_trans; [exact EN2|]. cbn [fpow]. set (r := rho) in *.
      replace (r * r * fpow (r * r) k * energy f (vsub xs x))%K with (fpow (r * r) k * (r * r * energy f (vsub xs x)))%K by ring.
      apply fle_mul_l; [|exact EN]. clear. generalize (r * r)%K, (fsquare_nonneg K r). intros t Ht. induction k; cbn [fpow]; [apply f0_le_1|]. apply fle_mul; [exact Ht|exact IHk].
  Qed.
  (** C104: as a preconditioner M, <M b, b> is between 1 - rho and 1 + rho times <A^-1 b, b>, with rho = 1 - theta lambda + delta/(1 - delta). *)
  Theorem C104_condition : c_prec p = true -> exists h, built h /\
    forall te x e l, open_sections l = [] -> length x = n -> length e = n ->
      exists y l', hierarchy_vmult te h x (f e) l = (Ok y, l') /\ open_sections l' = [] /\
        fle ((1 - rho) * energy f e)%K (dot y (f e)) /\ fle (dot y (f e)) ((1 + rho) * energy f e)%K.
  Proof.
    intros PF. destruct near_rate_matrix as (h & B & V). exists h. split; [exact B|]. pose proof Hop as (D1 & D2 & D3). intros te x e l Ho Hx He. rewrite <- D2 in Hx, He.
    assert (DA : nr A = nc A) by congruence. assert (S' : spd (nc A) (mulvec A)) by (rewrite D2; exact Hspd).
    assert (Hr : fle 0%K rho).
    { apply fadd_nonneg; [apply fle_sub_0 in Hle; exact Hle|]. destruct Hneg as (N0 & N1 & _). rewrite (Fdiv_def (f_field K)). apply fle_mul; auto. apply flt_le, finv_pos. apply flt_sub_0 in N1. exact N1. }
    destruct (@condition_rate K A h rho (c_prec p) DA S' V PF Hr te x e l Ho Hx He) as (y & l' & E & O & L1 & L2). rewrite D2 in He.
    exists y, l'. unfold energy in *. rewrite D3 by auto. split; [exact E|]. split; [exact O|]. split; assumption.
  Qed.
End C104.

Print Assumptions C104_rate.
Print Assumptions C104_repeated_calls.
Print Assumptions C104_condition.

(** The threshold is absolute: for every operator and restriction, the product of a small enough multiple of the operator is zero.  The hypothesis [negligible] cannot be met for
    it, and its coarse matrix is zero. *)
Section C104s.
Variable K : ofield.
Add Field KfieldC104s : (f_field K).
Theorem C104_small_operators : forall n (f : vec K -> vec K) (A R : mat K) (eps : K), is_matrix n f A -> nc R = n -> flt 0%K eps ->
  exists s, flt 0%K s /\ exists T, op_multiply_transpose eps (MfOp n (fun x => vscale s (f x))) (TriOp R) = Ok (TriOp T) /\
    (forall i j, i < n -> j < nr R -> ent T i j = 0%K) /\
    exists C, op_multiply (TriOp R) (TriOp T) = Ok (TriOp C) /\ forall i j, i < nr R -> j < nr R -> ent C i j = 0%K.
Proof.
  intros n f A R eps (D1 & D2 & D3) DR He.
  destruct (@entries_bound K (mmul A (mtrans R))) as (M & HM & BM).
  assert (PM : flt 0%K (M + 1)%K). { apply (@flt_le_trans K _ 1%K); [apply f0_lt_1|]. apply fle_sub_0. replace (M + 1 - 1)%K with M by ring. exact HM. }
  exists (eps / (M + 1))%K. split; [apply fdiv_pos; auto|]. cbn [op_multiply_transpose]. rewrite DR, Nat.eqb_refl. eexists. split; [reflexivity|].
  assert (Z : forall i j, i < n -> j < nr R -> ent (matrix_transpose_matrix_multiply eps n (fun x => vscale (eps / (M + 1))%K (f x)) R) i j = 0%K).
  { intros i j Hi Hj. cbn [ent matrix_transpose_matrix_multiply]. cbv zeta.
    assert (LR : length (row R j) = n) by (rewrite <- DR; unfold row; vlen).
    rewrite D3 by auto. rewrite nth_vscale.
    assert (V : nth i (mulvec A (row R j)) 0%K = ent (mmul A (mtrans R)) i j).
    { rewrite nth_mulvec by lia. cbn [ent mmul mtrans]. apply sumn_ext. intros k Hk. f_equal. unfold row. rewrite D2, <- DR in Hk.
      rewrite (nth_indep _ 0%K (ent R j 0%nat)) by vlen. rewrite (map_nth (fun j0 => ent R j j0) (seq 0 (nc R)) 0%nat k). rewrite seq_nth by auto. reflexivity. }
    rewrite V. specialize (BM i j ltac:(simpl; lia) Hj).
    destruct (fltb eps (fabs (eps / (M + 1) * ent (mmul A (mtrans R)) i j))%K) eqn:Q; auto. exfalso. apply fltb_lt in Q.
    assert (P1 : fle (fabs (eps / (M + 1) * ent (mmul A (mtrans R)) i j)%K) (eps / (M + 1) * M)%K).
    { assert (Ef : fabs (eps / (M + 1))%K = (eps / (M + 1))%K) by (unfold fabs; rewrite (proj2 (@fleb_le K _ _) (flt_le (fdiv_pos He PM))); reflexivity).
      rewrite <- Ef at 2. apply fabs_mul_le; auto. }
    assert (P2 : fle (eps / (M + 1) * M)%K eps).
    { apply fle_sub_0. replace (eps - eps / (M + 1) * M)%K with (eps / (M + 1))%K by (field; apply pos_neq; auto). apply flt_le, fdiv_pos; auto. }
    exact (flt_irrefl (@flt_le_trans K _ _ _ Q (@fle_trans K _ _ _ P1 P2))). }
  split; [exact Z|]. cbn [op_multiply]. cbn [nr matrix_transpose_matrix_multiply]. rewrite DR, Nat.eqb_refl. eexists. split; [reflexivity|].
  intros i j Hi Hj. cbn [ent mmul]. apply sumn_zero. intros k Hk. rewrite DR in Hk. rewrite Z by auto. ring.
Qed.
End C104s.
Print Assumptions C104_small_operators.

(** Ordinary examples: A = [[2 t] [t 2]] with t = 1e-14; the restriction takes the first unknown, the entry t of A R^T is dropped. *)
Definition tA : mat QcOF := @of_rows QcOF 2 2 [[1 + 1; q 1 (10 ^ 14)]; [q 1 (10 ^ 14); 1 + 1]]%K.
Definition tR : mat QcOF := @of_rows QcOF 1 2 [[1; 0]]%K.
Definition tR2 : mat QcOF := @of_rows QcOF 2 2 [[1; 1]; [0; 1]]%K.
Lemma tA_sym : symmetric_matrix tA.
Proof. split; [reflexivity|]. intros i j Hi Hj. destruct i as [|[|]], j as [|[|]]; cbn in Hi, Hj; try lia; reflexivity. Qed.
Lemma tA_bounds : forall v, length v = 2 -> fle (q 1 1 * dot v v)%K (energy (mulvec tA) v) /\ fle (energy (mulvec tA) v) (q 3 1 * dot v v)%K.
Proof. apply (@bounds_ok tA (q 1 1) (q 3 1) tA_sym); vm_compute; reflexivity. Qed.
Lemma tA_spd : S_Hier.spd 2 (mulvec tA).
Proof. apply (@entries_spd QcOF tA). apply (@posdef_spd QcOF tA tA_sym). vm_compute. reflexivity. Qed.
Section Ex104.
  Add Field QcFieldC104 : (f_field QcOF).
  Local Open Scope K_scope.
  Lemma q11 : q 1 1 = (1 : QcOF). Proof. apply Qc_is_canon. reflexivity. Qed.
  Lemma tA_usable : forall r, usable_estimate 2 (mulvec tA) ex_d83 r (q 1 2) (q 3 2).
  Proof.
    intros r. split; [apply fltb_lt; vm_compute; reflexivity|]. split; [right; apply fltb_lt; vm_compute; reflexivity|].
    intros v Hv. destruct (tA_bounds _ Hv) as (_ & H). eapply fle_trans; [exact H|]. destruct v as [|a [|b [|]]]; try discriminate.
    unfold ex_d83. cbn [sumn nth]. assert (T2 : q 2 1 = (1 + 1 : QcOF)) by (apply Qc_is_canon; reflexivity). assert (T3 : q 3 1 = (1 + 1 + 1 : QcOF)) by (apply Qc_is_canon; reflexivity).
    set (h := fpos 12 / fpos 10 * q 3 2). assert (Hh : 0 <= h * (1 + 1) - (1 + 1 + 1)) by (apply fleb_le; vm_compute; reflexivity). clearbody h. rewrite T2, T3.
    assert (E : dot [a; b] [a; b] = a * a + b * b) by (unfold dot; cbn; ring). rewrite E.
    apply fle_sub_0. replace (h * (0 + (1 + 1) * a * a + (1 + 1) * b * b) - (1 + 1 + 1) * (a * a + b * b)) with ((h * (1 + 1) - (1 + 1 + 1)) * (a * a + b * b)) by ring.
    apply fle_mul; [exact Hh|]. apply fadd_nonneg; apply fsquare_nonneg.
  Qed.
  Lemma tA_approximates : approximates tA tR (q 1 1).
  Proof.
    intros v Hv. destruct (tA_bounds _ Hv) as (H & _). destruct v as [|a [|b [|]]]; try discriminate. exists [a]. split; [reflexivity|]. eapply fle_trans; [|exact H].
    assert (E : mulTvec tR [a] = [a; 0]).
    { unfold mulTvec, mulvec, mtrans, tR, of_rows. apply (@vec_ext QcOF); [reflexivity|]. intros i Hi. destruct i as [|[|i]]; [cbn; ring|cbn; ring|cbn in Hi; lia]. }
    rewrite E. apply fle_mul_l; [rewrite q11; apply f0_le_1|]. apply fle_sub_0.
    replace (dot [a; b] [a; b] - dot (vsub [a; b] [a; 0]) (vsub [a; b] [a; 0])) with (a * a) by (unfold dot, vsub; cbn; ring). apply fsquare_nonneg.
  Qed.
  Lemma tR2_rank : full_row_rank tR2.
  Proof.
    intros x Hx. destruct x as [|a [|b [|]]]; try discriminate.
    assert (E : mulTvec tR2 [a; b] = [a; a + b]).
    { unfold mulTvec, mulvec, mtrans, tR2, of_rows. apply (@vec_ext QcOF); [reflexivity|]. intros i Hi. destruct i as [|[|i]]; [cbn; ring|cbn; ring|cbn in Hi; lia]. }
    rewrite E. intros H. assert (H0 : nth 0 [a; a + b] 0 = 0) by (rewrite H; reflexivity). assert (H1 : nth 1 [a; a + b] 0 = 0) by (rewrite H; reflexivity). cbn [nth] in H0, H1.
    subst a. assert (Hb : b = 0) by (transitivity (0 + b); [ring|exact H1]). subst b. reflexivity.
  Qed.
  Lemma tA_coarse : above 1 (fun z => mulvec tR (mulvec tA (mulTvec tR z))) (q 1 1).
  Proof.
    split; [apply fltb_lt; vm_compute; reflexivity|]. intros v Hv. destruct v as [|a [|]]; try discriminate. rewrite q11.
    assert (E : energy (fun z => mulvec tR (mulvec tA (mulTvec tR z))) [a] = a * a + a * a).
    { unfold energy, mulTvec, mulvec, mtrans, tR, tA, of_rows, dot. set (t := q 1 (10 ^ 14)). clearbody t. cbn. ring. }
    rewrite E. apply fle_sub_0. replace (a * a + a * a - 1 * dot [a] [a]) with (a * a) by (unfold dot; cbn; ring). apply fsquare_nonneg.
  Qed.
End Ex104.
Local Notation ex_helpers104 R := (mf_helpers ex_parse83 ex_cg83 (fun _ _ _ => 1%N) 2 (mulvec tA) ex_dinv83 (fun _ => false) (fun _ => Ok (R, tA)) (fun _ _ r => r)).
Ltac c104 := lazymatch goal with
  | |- spd _ _ => exact tA_spd | |- usable_estimate _ _ _ _ _ _ => apply tA_usable | |- approximates _ _ _ => exact tA_approximates
  | |- above 2 _ _ => split; [apply fltb_lt; vm_compute; reflexivity|intros v Lv; exact (proj1 (tA_bounds v Lv))] | |- above _ _ _ => exact tA_coarse
  | |- negligible _ _ _ _ _ _ => split; [|split]; [apply fleb_le; vm_compute; reflexivity|apply fltb_lt; vm_compute; reflexivity|apply fleb_le; vm_compute; reflexivity]
  | |- _ = true -> _ => discriminate | |- _ => c98 end.
(** The entry t is dropped; one call leaves at most 82/100 of the energy norm of the error. *)
Example C104_example : exists h s l, construct (ex_helpers104 tR) (q 1 (10 ^ 14)) (mkTenv true true) true (Ok tt) (Some (ex_p98 "false" "3")) None = (Ok h, s, l) /\
  (ent (matrix_transpose_matrix_multiply (q 1 (10 ^ 14)) 2 (mulvec tA) tR) 1 0 = 0%K /\ ent (mmul tA (mtrans tR)) 1 0 = q 1 (10 ^ 14)) /\
  forall x xs, length x = 2 -> length xs = 2 -> exists y l', hierarchy_vmult (mkTenv true true) h x (mulvec tA xs) [] = (Ok y, l') /\
    fle (energy (mulvec tA) (vsub xs y)) (q 82 100 * q 82 100 * energy (mulvec tA) (vsub xs x))%K.
Proof.
  destruct (@C104_rate QcOF ex_parse83 ex_cg83 (fun _ _ _ => 1%N) (fun _ => false) (fun _ => Ok (tR, tA)) (fun _ _ r => r)
    2 (mulvec tA) ex_d83 ex_dinv83 (q 1 (10 ^ 14)) (mkTenv true true) true (ex_p98 "false" "3") tA tR tA (q 1 2) (q 3 2) (q 2 1) (q 100 529) (q 1 1) (q 1 1) (q 1 1) (q 2 (10 ^ 14)))
    as (h & (s & l & E) & V); [(rewrite ?ex_range98; c104) ..|].
  exists h, s, l. split; [exact E|]. split; [split; apply Qc_is_canon; vm_compute; reflexivity|]. intros x xs Hx Hs.
  destruct (V (mkTenv true true) x xs [] eq_refl Hx Hs) as (y & l' & E2 & _ & Ly & H). exists y, l'. split; [exact E2|]. eapply fle_trans; [exact H|].
  assert (Ld : length (vsub xs x) = 2) by (unfold OField.vec in *; vlen). assert (P : fle 0%K (energy (mulvec tA) (vsub xs x))).
  { destruct (tA_bounds _ Ld) as (B & _). eapply fle_trans; [|exact B]. apply fle_mul; [apply fleb_le; vm_compute; reflexivity|apply dot_nonneg]. }
  change (if c_prec (ex_p98 "false" "3") then vzero 2 else x) with x. revert P. generalize (energy (mulvec tA) (vsub xs x)). intros e P.
  match goal with |- fle (?a * e)%K (?b * e)%K => replace (a * e)%K with (e * a)%K by (apply Qcmult_comm); replace (b * e)%K with (e * b)%K by (apply Qcmult_comm) end.
  apply fle_mul_l; [exact P|]. apply fleb_le. vm_compute. reflexivity.
Qed.
(** As a preconditioner. *)
Example C104_condition_example : exists h s l, construct (ex_helpers104 tR) (q 1 (10 ^ 14)) (mkTenv true true) true (Ok tt) (Some (ex_p98 "true" "3")) None = (Ok h, s, l) /\
  forall x e, length x = 2 -> length e = 2 -> exists y l', hierarchy_vmult (mkTenv true true) h x (mulvec tA e) [] = (Ok y, l') /\
    fle ((q 100 529 - q 2 (10 ^ 14) / (1 - q 2 (10 ^ 14))) * energy (mulvec tA) e)%K (dot y (mulvec tA e)).
Proof.
  destruct (@C104_condition QcOF ex_parse83 ex_cg83 (fun _ _ _ => 1%N) (fun _ => false) (fun _ => Ok (tR, tA)) (fun _ _ r => r)
    2 (mulvec tA) ex_d83 ex_dinv83 (q 1 (10 ^ 14)) (mkTenv true true) true (ex_p98 "true" "3") tA tR tA (q 1 2) (q 3 2) (q 2 1) (q 100 529) (q 1 1) (q 1 1) (q 1 1) (q 2 (10 ^ 14)))
    as (h & (s & l & E) & V); [(rewrite ?ex_range98; c104) ..|].
  exists h, s, l. split; [exact E|]. intros x e Hx He. destruct (V (mkTenv true true) x e [] eq_refl Hx He) as (y & l' & E2 & _ & H1 & _). exists y, l'. split; [exact E2|].
  match type of H1 with fle (?a * _)%K _ => replace (q 100 529 - q 2 (10 ^ 14) / (1 - q 2 (10 ^ 14)))%K with a by (apply Qc_is_canon; vm_compute; reflexivity) end. exact H1.
Qed.
(** A multiple of the operator of C98 with a zero product. *)
Example C104_small_example : exists s, flt 0%K s /\ exists T, op_multiply_transpose (q 1 (10 ^ 14)) (MfOp 2 (fun x => vscale s (mulvec (hA QcOF) x))) (TriOp (hR QcOF)) = Ok (TriOp T) /\
  ent T 0 0 = 0%K /\ ent T 1 0 = 0%K.
Proof.
  destruct (@C104_small_operators QcOF 2 (mulvec (hA QcOF)) (hA QcOF) (hR QcOF) (q 1 (10 ^ 14))) as (s & Hs & T & E & Z & _); [(rewrite ?ex_range98; c98) ..|].
  exists s. split; [exact Hs|]. exists T. split; [exact E|]. split; apply Z; simpl; lia.
Qed.

(** With dropped entries the preconditioner of a symmetric positive definite operator need not be symmetric: <M b, c> differs from <b, M c>. *)
Theorem C104_symmetry_refuted : exists (A R : mat QcOF) mk p h s l y z l1 l2, is_matrix 2 (mulvec A) A /\ spd 2 (mulvec A) /\ inverse_diagonal 2 ex_d83 ex_dinv83 /\
  (forall r, usable_estimate 2 (mulvec A) ex_d83 r (q 1 2) (q 3 2)) /\ full_row_rank R /\ nc R = 2 /\ c_prec p = true /\ mk p = Ok (R, A) /\
  construct (mf_helpers ex_parse83 ex_cg83 (fun _ _ _ => 1%N) 2 (mulvec A) ex_dinv83 (fun _ => false) mk (fun _ _ r => r)) (q 1 (10 ^ 14)) (mkTenv true true) true (Ok tt) (Some p) None = (Ok h, s, l) /\
  hierarchy_vmult (mkTenv true true) h (vzero 2) [q 1 1; q 0 1] [] = (Ok y, l1) /\ hierarchy_vmult (mkTenv true true) h (vzero 2) [q 0 1; q 1 1] [] = (Ok z, l2) /\
  dot y [q 0 1; q 1 1] <> dot [q 1 1; q 0 1] z.
Proof.
  assert (C : match construct (ex_helpers104 tR2) (q 1 (10 ^ 14)) (mkTenv true true) true (Ok tt) (Some (ex_p98 "true" "1")) None with
    | (Ok h, _, _) => match hierarchy_vmult (mkTenv true true) h (vzero 2) [q 1 1; q 0 1] [], hierarchy_vmult (mkTenv true true) h (vzero 2) [q 0 1; q 1 1] [] with
        (Ok y, _), (Ok z, _) => negb (feqb (dot y [q 0 1; q 1 1]) (dot [q 1 1; q 0 1] z)) | _, _ => false end | _ => false end = true) by (vm_compute; reflexivity).
  revert C. destruct (construct _ _ _ _ _ _ _) as ((o & s) & l) eqn:E. destruct o as [h| | | |]; try discriminate.
  destruct (hierarchy_vmult _ _ _ [q 1 1; q 0 1] _) as (o1 & l1) eqn:E1. destruct o1 as [y| | | |]; try discriminate.
  destruct (hierarchy_vmult _ _ _ [q 0 1; q 1 1] _) as (o2 & l2) eqn:E2. destruct o2 as [z| | | |]; try discriminate. intros C.
  exists tA, tR2, (fun _ => Ok (tR2, tA)), (ex_p98 "true" "1"), h, s, l, y, z, l1, l2.
  split; [split; [reflexivity|split; reflexivity]|]. split; [exact tA_spd|]. split; [exact ex_diag83|]. split; [exact tA_usable|]. split.
  { exact tR2_rank. }
  split; [reflexivity|]. split; [reflexivity|]. split; [reflexivity|]. split; [exact E|]. split; [exact E1|]. split; [exact E2|].
  intros X. rewrite X in C. assert (Y : feqb (dot [q 1 1; q 0 1] z) (dot [q 1 1; q 0 1] z) = true) by (apply feqb_eq; reflexivity). rewrite Y in C. discriminate.
Qed.
Print Assumptions C104_symmetry_refuted.
