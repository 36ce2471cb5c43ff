(** Property theorems about the rate of convergence of matrix-free hierarchies on the host: C98. *)
From Coq Require Import String List Arith ZArith NArith Bool Lia Field QArith Qcanon.
From Verif Require Import Base OField Mat LinAlg M_Ptree S_Ptree P_Ptree M_Hier S_Hier P_Hier P_HierE P_HierS M_Smoother P_Smoother M_Host S_Host P_Host P_HostN
  M_Cheby S_Cheby P_Poly P_Cheby P_Cheby2 P_Cheby3 S_Rate P_Rate P_Local C_Host C_Cheby E_Lanczos.
Import ListNotations.
Set Implicit Arguments.
Open Scope list_scope.
Open Scope nat_scope.

Section C98.
  Variable K : ofield.
  Add Field KfieldC98 : (f_field K).
  Local Notation vec := (vec K).
  Variable parse_double : string -> option K.
  Variable cg : N -> nat -> (vec -> vec) -> vec -> option (K * K).
  Variable auto_degree : K -> K -> K -> N.

  (** C98: one step of the Chebyshev smoother, of every degree, removes at least [theta] times the square of the residual from the energy of the error.  The ends a, b of
      the interval are those of the option "smoother.smoothing_range" and of the estimate; theta = 4 a / (dmax (a + b)^2), [dmax] a bound of the diagonal. *)
  Theorem C98_smoother_gain : forall p n (A : vec -> vec) d dinv lo hi dmax theta,
    linear n n A -> spd n A -> inverse_diagonal n d dinv ->
    ci_eq (text_at p ["smoother"; "type"]%string "Chebyshev") "chebyshev" ->
    cg 8%N n A dinv = Some (lo, hi) ->
    let range := pt_get parse_double ["smoother"; "smoothing_range"]%string 0%K p in
    usable_estimate n A d range lo hi -> flt 0%K dmax -> (forall i, i < n -> fle (nth i d 0%K) dmax) ->
    let b := (fpos 12 / fpos 10 * hi)%K in cheb_gain dmax (interval_low range lo b) b theta ->
    exists s, mf_build_smoother parse_double cg auto_degree dinv (MfOp n A) p = Ok s /\
      forall e x, length e = n -> length x = n -> exists y, s (A x) (vadd x e) = Ok y /\ length y = n /\
        fle (theta * dot (A e) (A e))%K (energy A e - energy A (vsub y x))%K.
  Proof.
    intros p n A d dinv lo hi dmax theta LA SA HD KT CG range U Hd HM b Hth.
    assert (SK : matrix_free_smoother_kind p = Ok KChebyshev).
    { unfold matrix_free_smoother_kind. rewrite get_string_text. apply lower_ci in KT; [|apply no_upperb_ok; reflexivity]. rewrite KT. reflexivity. }
    unfold mf_build_smoother. rewrite SK. cbn [bind]. eexists. split; [reflexivity|].
    set (data := mf_cheb_data parse_double p). set (B := cheb_vmult cg auto_degree data n A dinv).
    assert (I8 : cd_eig_cg_n_iterations data <> 0%N) by (unfold data; rewrite iterations_read; discriminate).
    assert (CG' : cg (cd_eig_cg_n_iterations data) n A dinv = Some (lo, hi)) by (unfold data; rewrite iterations_read; exact CG).
    assert (RR : cd_smoothing_range data = range) by (unfold data; apply range_read). rewrite <- RR in U, Hth.
    destruct (@cheb_vmult_good K cg auto_degree data n A d dinv lo hi LA SA HD I8 CG' U) as (MB & _). fold B in MB.
    assert (SB := @cheb_vmult_smooths K cg auto_degree data n A d dinv lo hi dmax theta LA SA HD I8 CG' U Hd HM Hth). fold B in SB.
    intros e x He Hx. assert (Lxe : length (vadd x e) = n) by vlen. assert (LAx := lin_len LA x Hx). assert (LAe := lin_len LA e He).
    destruct (@mf_smoother_acts K n A B (lin_len LA) MB (A x) (vadd x e) LAx Lxe) as (S1 & S2).
    eexists. split; [exact S1|]. split; [exact S2|]. specialize (SB e He). assert (LB := MB _ LAe).
    replace (vsub (correction_step A B (A x) (vadd x e)) x) with (error_step A B e); [exact SB|].
    unfold correction_step, error_step. rewrite (lin_add LA) by auto. assert (X : vsub (vadd (A x) (A e)) (A x) = A e) by (unfold OField.vec in *; vext; ring). rewrite X.
    unfold OField.vec in *. vext. ring.
  Qed.

  Variable accepts_double : string -> bool.
  Variable mk : ptree -> outcome (mat K * mat K).
  Variable ml_vmult : ml_list -> mat K -> vec -> vec.
  (** The hypotheses of C84, a bound [dmax] of the diagonal, and a restriction whose range approximates every vector up to its energy over [lambda]. *)
  Variables (n : nat) (f : vec -> vec) (d dinv : vec) (eps : K) (te0 : tenv) (dbg : bool) (p : ptree) (A R AP : mat K) (lo hi dmax theta lambda : K).
  Local Notation range := (pt_get parse_double ["smoother"; "smoothing_range"]%string 0%K p).
  Local Notation top := (fpos 12 / fpos 10 * hi)%K.
  Local Notation rho := (1 - theta * lambda)%K.
  Local Notation built h := (exists s l,
    construct (mf_helpers parse_double cg auto_degree n f dinv accepts_double mk ml_vmult) eps te0 dbg (Ok tt) (Some p) None = (Ok h, s, l)).
  Hypothesis Hop : is_matrix n f A.
  Hypothesis Hspd : spd n (mulvec A).
  Hypothesis Hdiag : inverse_diagonal n d dinv.
  Hypothesis Hsteps : 0 < c_steps p.
  Hypothesis Hlevels : c_levels p = 2%Z.
  Hypothesis Hcoarse : ci_eq (text_at p ["coarse"; "type"]%string "direct") "direct".
  Hypothesis Hsmoother : ci_eq (text_at p ["smoother"; "type"]%string "Chebyshev") "chebyshev".
  Hypothesis Hcg : cg 8%N n f dinv = Some (lo, hi).
  Hypothesis Hest : usable_estimate n f d range lo hi.
  Hypothesis Hdmax : flt 0%K dmax.
  Hypothesis Hbound : forall i, i < n -> fle (nth i d 0%K) dmax.
  Hypothesis Htheta : fle 0%K theta.
  Hypothesis Hgain : cheb_gain dmax (interval_low range lo top) top theta.
  Hypothesis Heig : pt_find p ["eigensolver"%string] <> None.
  Hypothesis Hagg : pt_find p ["agglomeration"%string] <> None.
  Hypothesis Hmk : mk p = Ok (R, AP).
  Hypothesis Hcols : nc R = n.
  Hypothesis Hrank : full_row_rank R.
  Hypothesis Hproduct : if pt_get parse_bool ["fast_ap"%string] false p then meq AP (mmul A (mtrans R)) else no_small_entry eps A R.
  Hypothesis Hlambda : flt 0%K lambda.
  Hypothesis Happrox : approximates A R lambda.

  Lemma mf_rate_matrix : exists h, built h /\
    forall te x xs l, open_sections l = [] -> length x = nc A -> length xs = nc A ->
      exists y l', hierarchy_vmult te h x (mulvec A xs) l = (Ok y, l') /\ open_sections l' = [] /\ length y = nc A /\
        fle (energy (mulvec A) (vsub xs y)) (rho * rho * energy (mulvec A) (vsub xs (if c_prec p then vzero (nc A) else x)))%K.
  Proof.
    assert (SK : matrix_free_smoother_kind p = Ok KChebyshev).
    { unfold matrix_free_smoother_kind. rewrite get_string_text. assert (KT := Hsmoother). apply lower_ci in KT; [|apply no_upperb_ok; reflexivity]. rewrite KT. reflexivity. }
    assert (CK : dealii_solver_kind accepts_double p = Ok KDirect).
    { destruct (C38_host_solver accepts_double p) as [(_ & E)|[(Q & _)|(Q & _)]]; auto; [|contradiction].
      exfalso. assert (CD := Hcoarse). apply lower_ci in Q; [|apply no_upperb_ok; reflexivity]. apply lower_ci in CD; [|apply no_upperb_ok; reflexivity]. congruence. }
    destruct (@mf_rate K parse_double cg auto_degree accepts_double mk ml_vmult eps n f dinv te0 dbg p A d lo hi dmax theta lambda Hop Hspd Hdiag Hsteps Hlevels CK SK Hcg Hest
      Hdmax Hbound Htheta Hgain Heig Hagg R AP Hmk Hcols Hrank Hproduct Hlambda Happrox) as (h & s & l & E & V).
    exists h. split; [exists s, l; exact E|exact V].
  Qed.

  (** C98: every call of vmult multiplies the energy norm of the error by at most 1 - theta lambda. *)
  Theorem C98_rate : exists h, built h /\
    forall te x xs l, open_sections l = [] -> length x = n -> length xs = n ->
      exists y l', hierarchy_vmult te h x (f xs) l = (Ok y, l') /\ open_sections l' = [] /\ length y = n /\
        fle (energy f (vsub xs y)) (rho * rho * energy f (vsub xs (if c_prec p then vzero n else x)))%K.
  Proof.
    destruct mf_rate_matrix as (h & B & V). exists h. split; [exact B|]. pose proof Hop as (D1 & D2 & D3). rewrite D2 in V. intros te x xs l Ho Hx Hs.
    destruct (V te x xs l Ho Hx Hs) as (y & l' & E & O & Ly & EN). exists y, l'. rewrite D3 by auto. split; [exact E|]. split; [exact O|]. split; [exact Ly|].
    unfold energy in *. rewrite !D3; [exact EN| |]; unfold OField.vec in *; destruct (c_prec p); vlen.
  Qed.
  (** C98: [k] calls, each on the result of the one before. *)
  Theorem C98_repeated_calls : c_prec p = false -> exists h, built h /\
    forall te x xs k l, open_sections l = [] -> length x = n -> length xs = n ->
      exists y l', repeated_vmult te h (f xs) k x l = (Ok y, l') /\ open_sections l' = [] /\
        fle (energy f (vsub xs y)) (fpow (rho * rho)%K k * energy f (vsub xs x))%K.
  Proof.
    intros PF. destruct C98_rate as (h & B & V). exists h. split; [exact B|]. rewrite PF in V. intros te x xs k. revert x. induction k as [|k IH]; intros x l Hl Lx Lxs.
    - exists x, l. split; [reflexivity|]. split; [exact Hl|]. cbn [fpow].
      replace (1 * energy f (vsub xs x))%K with (energy f (vsub xs x)) by ring. apply fle_refl.
    - destruct (V te x xs l Hl Lx Lxs) as (y & l1 & E & O & Ly & EN). destruct (IH y l1 O Ly Lxs) as (z & l2 & E2 & O2 & EN2).
      exists z, l2. split; [cbn [repeated_vmult]; rewrite E; exact E2|]. split; [exact O2|]. eapply fle_trans; [exact EN2|]. cbn [fpow].
      replace (rho * rho * fpow (rho * rho) k * energy f (vsub xs x))%K with (fpow (rho * rho) k * (rho * rho * energy f (vsub xs x)))%K by ring.
      apply fle_mul_l; [|exact EN]. clear. induction k; cbn [fpow]; [apply f0_le_1|]. apply fle_mul; [apply fsquare_nonneg|exact IHk].
  Qed.
  (** C98: as a preconditioner M, the spectrum of M A lies in [theta lambda, 2 - theta lambda]. *)
  Theorem C98_condition : c_prec p = true -> fle (theta * lambda)%K 1%K -> exists h, built h /\
    forall te x e l, open_sections l = [] -> length x = n -> length e = n ->
      exists y l', hierarchy_vmult te h x (f e) l = (Ok y, l') /\ open_sections l' = [] /\
        fle (theta * lambda * energy f e)%K (dot y (f e)) /\ fle (dot y (f e)) ((1 + 1 - theta * lambda) * energy f e)%K.
  Proof.
    intros PF HL. destruct mf_rate_matrix as (h & B & V). exists h. split; [exact B|]. pose proof Hop as (D1 & D2 & D3). intros te x e l Ho Hx He. rewrite <- D2 in Hx, He.
    assert (DA : nr A = nc A) by congruence. assert (S' : spd (nc A) (mulvec A)) by (rewrite D2; exact Hspd).
    assert (Hr : fle 0%K rho) by (apply fle_sub_0 in HL; exact HL).
    destruct (@condition_rate K A h rho (c_prec p) DA S' V PF Hr te x e l Ho Hx He) as (y & l' & E & O & L1 & L2). rewrite D2 in He.
    exists y, l'. unfold energy in *. rewrite D3 by auto. split; [exact E|]. split; [exact O|].
    replace (1 - rho)%K with (theta * lambda)%K in L1 by ring. replace (1 + rho)%K with (1 + 1 - theta * lambda)%K in L2 by ring. split; assumption.
  Qed.
End C98.

Print Assumptions C98_smoother_gain.
Print Assumptions C98_rate.
Print Assumptions C98_repeated_calls.
Print Assumptions C98_condition.

(** Ordinary examples: the operator and restriction of C84. *)
Section Ex.
  Add Field QcFieldC98 : (f_field QcOF).
  Local Open Scope K_scope.
  Lemma hA_approximates : approximates (hA QcOF) (hR QcOF) (q 3 1).
  Proof.
    intros v Hv. destruct v as [|a [|b [|]]]; try discriminate. exists [(a + b) / (1 + 1)]. split; [reflexivity|].
    assert (T : (1 + 1 : QcOF) <> 0) by (apply pos_neq, two_pos).
    assert (E : mulTvec (hR QcOF) [(a + b) / (1 + 1)] = [(a + b) / (1 + 1); (a + b) / (1 + 1)]).
    { unfold mulTvec, mulvec, mtrans, hR, of_rows. cbn. f_equal; [ring|]. f_equal. ring. }
    rewrite E. assert (E2 : energy (mulvec (hA QcOF)) [a; b] = (1 + 1) * a * a - (1 + 1) * a * b + (1 + 1) * b * b).
    { unfold energy, mulvec, dot, hA, of_rows. cbn. ring. }
    rewrite E2. assert (E3 : dot (vsub [a; b] [(a + b) / (1 + 1); (a + b) / (1 + 1)]) (vsub [a; b] [(a + b) / (1 + 1); (a + b) / (1 + 1)]) = (a - b) * (a - b) / (1 + 1)).
    { unfold dot, vsub. cbn. field. exact T. }
    rewrite E3. assert (T3 : q 3 1 = (1 + 1 + 1 : QcOF)) by (apply Qc_is_canon; reflexivity). rewrite T3. apply fle_sub_0.
    replace ((1 + 1) * a * a - (1 + 1) * a * b + (1 + 1) * b * b - (1 + 1 + 1) * ((a - b) * (a - b) / (1 + 1))) with ((a + b) * (a + b) / (1 + 1)) by (field; exact T).
    rewrite (Fdiv_def (f_field QcOF)). apply fle_mul; [apply fsquare_nonneg|apply flt_le, finv_pos, two_pos].
  Qed.
  Lemma vsub_zero98 : forall y : vec QcOF, length y = 2%nat -> vsub y (vzero 2) = y.
  Proof. intros y Ly. unfold OField.vec in *. vext. ring. Qed.
End Ex.
Definition ex_p98 (prec deg : string) : ptree := Node "" [("eigensolver"%string, Node "" []); ("agglomeration"%string, Node "" []);
  ("is preconditioner"%string, Node prec []); ("smoother"%string, Node "" [("type"%string, Node "Chebyshev" []); ("degree"%string, Node deg [])])].
Local Notation ex_helpers98 := (mf_helpers ex_parse83 ex_cg83 (fun _ _ _ => 1%N) 2 (mulvec (hA QcOF)) ex_dinv83 (fun _ => false) (fun _ => Ok (hR QcOF, hA QcOF)) (fun _ _ r => r)).

Lemma ex_range98 : forall prec deg, pt_get ex_parse83 ["smoother"; "smoothing_range"]%string (0 : QcOF)%K (ex_p98 prec deg) = (0 : QcOF)%K.
Proof. reflexivity. Qed.
Lemma ex_gain98 : cheb_gain (q 2 1) (interval_low (0 : QcOF)%K (q 1 2) (fpos 12 / fpos 10 * q 3 2)%K) (fpos 12 / fpos 10 * q 3 2)%K (q 100 529).
Proof. unfold cheb_gain. apply fleb_le. vm_compute. reflexivity. Qed.
Lemma ex_dmax98 : forall i, i < 2 -> fle (nth i ex_d83 (0 : QcOF)%K) (q 2 1).
Proof. intros i Hi. destruct i as [|[|]]; [| |lia]; apply fleb_le; vm_compute; reflexivity. Qed.
Ltac c98 := lazymatch goal with
  | |- linear _ _ _ => exact hA_linear | |- spd _ _ => apply hA_spd | |- inverse_diagonal _ _ _ => exact ex_diag83 | |- usable_estimate _ _ _ _ _ _ => apply ex_usable83
  | |- cheb_gain _ _ _ _ => exact ex_gain98 | |- forall i : nat, _ => exact ex_dmax98 | |- full_row_rank _ => apply hR_rank | |- approximates _ _ _ => exact hA_approximates
  | |- ci_eq _ _ => apply lower_ci; [apply no_upperb_ok; reflexivity|vm_compute; reflexivity] | |- flt _ _ => apply fltb_lt; vm_compute; reflexivity
  | |- fle _ _ => apply fleb_le; vm_compute; reflexivity | |- is_matrix _ _ _ => split; [reflexivity|split; reflexivity] | |- _ < _ => vm_compute; lia
  | |- no_small_entry _ _ _ => exact ex_small84 | |- (if _ then _ else _) => exact ex_small84 | |- _ <> None => discriminate | |- ex_cg83 _ _ _ _ = _ => reflexivity
  | |- _ = _ => vm_compute; reflexivity end.
(** The smoother of degree 3 removes at least 100/529 times the square of the residual. *)
Example C98_smoother_gain_example : exists s, mf_build_smoother ex_parse83 ex_cg83 (fun _ _ _ => 1%N) ex_dinv83 (MfOp 2 (mulvec (hA QcOF))) (ex_p98 "true" "3") = Ok s /\
  forall e, length e = 2 -> exists y, s (vzero 2) e = Ok y /\
    fle (q 100 529 * dot (mulvec (hA QcOF) e) (mulvec (hA QcOF) e))%K (energy (mulvec (hA QcOF)) e - energy (mulvec (hA QcOF)) y)%K.
Proof.
  destruct (@C98_smoother_gain QcOF ex_parse83 ex_cg83 (fun _ _ _ => 1%N) (ex_p98 "true" "3") 2 (mulvec (hA QcOF)) ex_d83 ex_dinv83 (q 1 2) (q 3 2) (q 2 1) (q 100 529)) as (s & E & V);
    [(rewrite ?ex_range98; c98) ..|].
  exists s. split; [exact E|]. intros e He. destruct (V e (vzero 2) He eq_refl) as (y & S & Ly & H).
  assert (Z : mulvec (hA QcOF) (vzero 2) = vzero 2) by (apply (lin_zero hA_linear)). rewrite Z, (@vadd_zero_l QcOF 2) in S by auto. exists y. split; [exact S|].
  rewrite (vsub_zero98 _ Ly) in H. exact H.
Qed.
(** One call leaves at most 229/529 of the energy norm of the error, with the smoothers of degree 1 and 5. *)
Example C98_example : forall deg, In deg ["1"; "5"]%string -> exists h s l, construct ex_helpers98 (q 1 (10 ^ 14)) (mkTenv true true) true (Ok tt) (Some (ex_p98 "false" deg)) None = (Ok h, s, l) /\
  forall x xs k, length x = 2 -> length xs = 2 -> exists y l', repeated_vmult (mkTenv true true) h (mulvec (hA QcOF) xs) k x [] = (Ok y, l') /\
    fle (energy (mulvec (hA QcOF)) (vsub xs y)) (fpow (q 229 529 * q 229 529)%K k * energy (mulvec (hA QcOF)) (vsub xs x))%K.
Proof.
  intros deg Hdeg.
  destruct (@C98_repeated_calls QcOF ex_parse83 ex_cg83 (fun _ _ _ => 1%N) (fun _ => false) (fun _ => Ok (hR QcOF, hA QcOF)) (fun _ _ r => r)
    2 (mulvec (hA QcOF)) ex_d83 ex_dinv83 (q 1 (10 ^ 14)) (mkTenv true true) true (ex_p98 "false" deg) (hA QcOF) (hR QcOF) (hA QcOF) (q 1 2) (q 3 2) (q 2 1) (q 100 529) (q 3 1))
    as (h & (s & l & E) & V); [(rewrite ?ex_range98; c98) ..|].
  exists h, s, l. split; [exact E|]. intros x xs k Hx Hs. destruct (V (mkTenv true true) x xs k [] eq_refl Hx Hs) as (y & l' & E2 & _ & H). exists y, l'. split; [exact E2|].
  replace (1 - q 100 529 * q 3 1)%K with (q 229 529) in H; [exact H|]. apply Qc_is_canon. vm_compute. reflexivity.
Qed.
(** As a preconditioner: the spectrum of M A lies in [300/529, 758/529]. *)
Example C98_condition_example : exists h s l, construct ex_helpers98 (q 1 (10 ^ 14)) (mkTenv true true) true (Ok tt) (Some (ex_p98 "true" "3")) None = (Ok h, s, l) /\
  forall x e, length x = 2 -> length e = 2 -> exists y l', hierarchy_vmult (mkTenv true true) h x (mulvec (hA QcOF) e) [] = (Ok y, l') /\
    fle (q 300 529 * energy (mulvec (hA QcOF)) e)%K (dot y (mulvec (hA QcOF) e)) /\ fle (dot y (mulvec (hA QcOF) e)) (q 758 529 * energy (mulvec (hA QcOF)) e)%K.
Proof.
  destruct (@C98_condition QcOF ex_parse83 ex_cg83 (fun _ _ _ => 1%N) (fun _ => false) (fun _ => Ok (hR QcOF, hA QcOF)) (fun _ _ r => r)
    2 (mulvec (hA QcOF)) ex_d83 ex_dinv83 (q 1 (10 ^ 14)) (mkTenv true true) true (ex_p98 "true" "3") (hA QcOF) (hR QcOF) (hA QcOF) (q 1 2) (q 3 2) (q 2 1) (q 100 529) (q 3 1))
    as (h & (s & l & E) & V); [(rewrite ?ex_range98; c98) ..|].
  exists h, s, l. split; [exact E|]. intros x e Hx He. destruct (V (mkTenv true true) x e [] eq_refl Hx He) as (y & l' & E2 & _ & H1 & H2). exists y, l'. split; [exact E2|].
  replace (q 100 529 * q 3 1)%K with (q 300 529) in H1, H2 by (apply Qc_is_canon; vm_compute; reflexivity).
  replace (1 + 1 - q 300 529)%K with (q 758 529) in H2 by (apply Qc_is_canon; vm_compute; reflexivity). split; assumption.
Qed.
