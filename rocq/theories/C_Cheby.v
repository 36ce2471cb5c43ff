(** Property theorems about the matrix-free smoother and matrix-free hierarchies on the host: C83, C84. *)
From Coq Require Import String List Arith ZArith NArith Bool Lia Field QArith Qcanon.
From Verif Require Import Base OField Mat LinAlg M_Ptree S_Ptree P_Ptree M_Hier S_Hier P_Hier P_HierC P_HierE P_HierS M_Smoother P_Smoother M_Host S_Host P_Host P_HostN
  M_Cheby S_Cheby P_Poly P_Cheby P_Cheby2 C_Host P_SpProd E_Lanczos.
Import ListNotations.
Set Implicit Arguments.
Open Scope list_scope.
Open Scope nat_scope.

Section C83.
  Variable K : ofield.
  Local Notation vec := (vec K).
  Variable parse_double : string -> option K.
  Variable cg : N -> nat -> (vec -> vec) -> vec -> option (K * K).
  Variable auto_degree : K -> K -> K -> N.

  (** C83: for a symmetric positive definite operator and estimates that, with the safety factor, bound the eigenvalues, the smoother of every
      degree and range is a linear symmetric correction, and each step strictly reduces the energy of every nonzero error. *)
  Theorem C83_chebyshev_reduces_error : forall p n (A : vec -> vec) d dinv lo hi,
    linear n n A -> spd n A -> inverse_diagonal n d dinv ->
    ci_eq (text_at p ["smoother"; "type"]%string "Chebyshev") "chebyshev" ->
    cg 8%N n A dinv = Some (lo, hi) ->
    usable_estimate n A d (pt_get parse_double ["smoother"; "smoothing_range"]%string 0%K p) lo hi ->
    exists s f B, mf_build_smoother parse_double cg auto_degree dinv (MfOp n A) p = Ok s /\ bx_acts s n f /\
      linear n n B /\ self_adjoint n B /\ (forall b x, length b = n -> length x = n -> f b x = correction_step A B b x) /\
      strict_step n A f.
  Proof.
    intros p n A d dinv lo hi LA SA HD KT CG U.
    assert (SK : matrix_free_smoother_kind p = Ok KChebyshev).
    { unfold matrix_free_smoother_kind. rewrite get_string_text. apply lower_ci in KT; [|apply no_upperb_ok; reflexivity]. rewrite KT. reflexivity. }
    destruct (@smoother_get K parse_double cg auto_degree p n A d dinv lo hi) as (s & f & E & AC & G); auto.
    pose proof (good_strict LA SA G) as (ST & _). destruct G as (B & B1 & B2 & B3 & B4).
    exists s, f, B. auto 8.
  Qed.

  (** C83: the option "smoother.max_eigenvalue" has no effect. *)
  Theorem C83_max_eigenvalue_ignored : forall p v dinv a,
    same_smoother (mf_build_smoother parse_double cg auto_degree dinv a p)
      (mf_build_smoother parse_double cg auto_degree dinv a (pt_put ["smoother"; "max_eigenvalue"]%string v p)).
  Proof.
    intros p v dinv a. set (p' := pt_put _ v p).
    assert (O : forall k, k <> "max_eigenvalue"%string -> pt_find p' ["smoother"%string; k] = pt_find p ["smoother"%string; k]).
    { intros k Nk. unfold p'. apply find_put_other; intros (r & X); simpl in X; congruence. }
    assert (SK : matrix_free_smoother_kind p' = matrix_free_smoother_kind p).
    { unfold matrix_free_smoother_kind, get_string, pt_get. rewrite (O "type"%string) by discriminate. reflexivity. }
    assert (DK : cd_degree (mf_cheb_data parse_double p') = cd_degree (mf_cheb_data parse_double p)).
    { unfold mf_cheb_data, pt_get_optional. rewrite (O "degree"%string), (O "smoothing_range"%string) by discriminate.
      destruct (pt_find p ["smoother"; "degree"]%string) as [c1|]; [destruct (parse_int (pt_data c1))|];
      (destruct (pt_find p ["smoother"; "smoothing_range"]%string) as [c2|]; [destruct (parse_double (pt_data c2))|]);
      (destruct (pt_find p ["smoother"; "max_eigenvalue"]%string) as [c3|]; [destruct (parse_double (pt_data c3))|]);
      (destruct (pt_find p' ["smoother"; "max_eigenvalue"]%string) as [c4|]; [destruct (parse_double (pt_data c4))|]); reflexivity. }
    assert (RK : cd_smoothing_range (mf_cheb_data parse_double p') = cd_smoothing_range (mf_cheb_data parse_double p)).
    { rewrite !range_read. unfold pt_get. rewrite (O "smoothing_range"%string) by discriminate. reflexivity. }
    pose proof (@iterations_read K parse_double p) as I1. pose proof (@iterations_read K parse_double p') as I2.
    unfold same_smoother, mf_build_smoother. rewrite SK. destruct (matrix_free_smoother_kind p); cbn [bind]; auto. destruct a as [M|n A]; auto.
    intros b x.
    assert (Q : forall r, cheb_vmult cg auto_degree (mf_cheb_data parse_double p) n A dinv r = cheb_vmult cg auto_degree (mf_cheb_data parse_double p') n A dinv r).
    { intros r. unfold cheb_vmult, cheb_eigenvalues, cheb_alpha. rewrite I1, I2, DK, RK. reflexivity. }
    unfold smoother_apply. destruct (op_apply _ _ _ _); cbn [bind]; auto. destruct (vec_add _ _ _); cbn [bind]; auto. rewrite Q. reflexivity.
  Qed.
  (** C83: "degree" is stored in an unsigned int. Degree -1 does not mean degree 0 or an error: it is the number by which deal.II chooses the degree itself, and
      gives the smoother of the degree deal.II chooses. *)
  Theorem C83_negative_degree_refuted : forall p n (A : vec -> vec) dinv w d, pt_get_optional parse_int ["smoother"; "degree"]%string p = Some (-1)%Z ->
    (forall hi alpha, auto_degree hi alpha (pt_get parse_double ["smoother"; "smoothing_range"]%string 0%K p) = d) -> parse_int w = Some (Z.of_N d) -> (d < 2 ^ 31)%N ->
    same_smoother (mf_build_smoother parse_double cg auto_degree dinv (MfOp n A) p)
      (mf_build_smoother parse_double cg auto_degree dinv (MfOp n A) (pt_put ["smoother"; "degree"]%string w p)).
  Proof.
    intros p n A dinv w d Hp Ha Hw Hd. set (p' := pt_put _ w p).
    assert (O : forall k, k <> "degree"%string -> pt_find p' ["smoother"%string; k] = pt_find p ["smoother"%string; k]).
    { intros k Nk. unfold p'. apply find_put_other; intros (r & X); simpl in X; congruence. }
    assert (SK : matrix_free_smoother_kind p' = matrix_free_smoother_kind p).
    { unfold matrix_free_smoother_kind, get_string, pt_get. rewrite (O "type"%string) by discriminate. reflexivity. }
    assert (Hp' : pt_get_optional parse_int ["smoother"; "degree"]%string p' = Some (Z.of_N d)).
    { unfold pt_get_optional, p'. destruct (find_put_same ["smoother"; "degree"]%string w p) as (c & F1 & F2 & _). rewrite F1, F2, Hw. reflexivity. }
    assert (D1 : cd_degree (mf_cheb_data parse_double p) = (2 ^ 32 - 1)%N).
    { unfold mf_cheb_data. rewrite Hp. destruct (pt_get_optional parse_double ["smoother"; "smoothing_range"]%string p), (pt_get_optional parse_double ["smoother"; "max_eigenvalue"]%string p); reflexivity. }
    assert (D2 : cd_degree (mf_cheb_data parse_double p') = d).
    { assert (M : Z.to_N (Z.of_N d mod 2 ^ 32) = d) by (rewrite Z.mod_small by lia; apply N2Z.id).
      unfold mf_cheb_data. rewrite Hp'. destruct (pt_get_optional parse_double ["smoother"; "smoothing_range"]%string p'), (pt_get_optional parse_double ["smoother"; "max_eigenvalue"]%string p'); exact M. }
    assert (RK : cd_smoothing_range (mf_cheb_data parse_double p') = cd_smoothing_range (mf_cheb_data parse_double p)).
    { rewrite !range_read. unfold pt_get. rewrite (O "smoothing_range"%string) by discriminate. reflexivity. }
    assert (MK : cd_max_eigenvalue (mf_cheb_data parse_double p') = cd_max_eigenvalue (mf_cheb_data parse_double p)).
    { unfold mf_cheb_data, pt_get_optional. rewrite (O "smoothing_range"%string), (O "max_eigenvalue"%string) by discriminate.
      destruct (pt_find p ["smoother"; "degree"]%string) as [c1|]; [destruct (parse_int (pt_data c1))|];
      (destruct (pt_find p ["smoother"; "smoothing_range"]%string) as [c2|]; [destruct (parse_double (pt_data c2))|]);
      (destruct (pt_find p ["smoother"; "max_eigenvalue"]%string) as [c3|]; [destruct (parse_double (pt_data c3))|]);
      (destruct (pt_find p' ["smoother"; "degree"]%string) as [c4|]; [destruct (parse_int (pt_data c4))|]); reflexivity. }
    pose proof (@iterations_read K parse_double p) as I1. pose proof (@iterations_read K parse_double p') as I2.
    unfold same_smoother, mf_build_smoother. rewrite SK. destruct (matrix_free_smoother_kind p); cbn [bind]; auto.
    intros b x.
    assert (Q : forall r, cheb_vmult cg auto_degree (mf_cheb_data parse_double p) n A dinv r = cheb_vmult cg auto_degree (mf_cheb_data parse_double p') n A dinv r).
    { intros r. unfold cheb_vmult, cheb_eigenvalues, cheb_alpha. rewrite I1, I2, D1, D2, RK, MK, N.eqb_refl.
      replace (d =? 2 ^ 32 - 1)%N with false by (symmetry; apply N.eqb_neq; lia). rewrite (@range_read K parse_double p).
      destruct (if (8 =? 0)%N then _ else _) as [lo hi]. rewrite Ha. reflexivity. }
    unfold smoother_apply. destruct (op_apply _ _ _ _); cbn [bind]; auto. destruct (vec_add _ _ _); cbn [bind]; auto. rewrite Q. reflexivity.
  Qed.
End C83.

Definition q (a : Z) (b : positive) : QcOF := Q2Qc (Qmake a b).
(** Degree -1, with an automatic degree of 3, is degree 3, and another smoother than the one of degree 1. *)
Definition ex_deg83 (d : string) : ptree := Node "" [("smoother"%string, Node "" [("degree"%string, Node d [])])].
Definition ex_cgd83 (k : N) (n : nat) (A : vec QcOF -> vec QcOF) (d : vec QcOF) : option (QcOF * QcOF) := Some (q 1 2, q 3 2).
Definition ex_build83 (d : string) : outcome (bx_apply QcOF) :=
  mf_build_smoother (fun _ => None) ex_cgd83 (fun _ _ _ => 3%N) [q 1 2; q 1 2] (MfOp 2 (mulvec (hA QcOF))) (ex_deg83 d).
Definition ex_value83 (d : string) : outcome (vec QcOF) := let! s := ex_build83 d in s [q 1 1; q 0 1] [q 0 1; q 1 1].
Example C83_negative_degree_example : same_smoother (ex_build83 "-1") (ex_build83 "3") /\ ex_value83 "-1" <> ex_value83 "1".
Proof.
  split.
  - apply (@C83_negative_degree_refuted QcOF (fun _ => None) ex_cgd83 (fun _ _ _ => 3%N) (ex_deg83 "-1") 2 (mulvec (hA QcOF)) [q 1 2; q 1 2] "3" 3%N); [vm_compute; reflexivity|reflexivity|vm_compute; reflexivity|lia].
  - assert (D : match ex_value83 "-1", ex_value83 "1" with Ok a, Ok b => (nth 0 a f0 =? nth 0 b f0)%K | _, _ => true end = false) by (vm_compute; reflexivity).
    intros E. rewrite E in D. destruct (ex_value83 "1"); try discriminate D. rewrite (proj2 (@feqb_eq QcOF _ _) eq_refl) in D. discriminate D.
Qed.
(** A user who passes the largest eigenvalue gets a smoother that increases errors when the estimate, although an eigenvalue, is too small. *)
Definition ex_parse83 (s : string) : option QcOF := if String.eqb s "1.5" then Some (q 3 2) else None.
Definition ex_p83 : ptree := Node "" [("smoother"%string, Node "" [("max_eigenvalue"%string, Node "1.5" [])])].
Definition ex_d83 : vec QcOF := [q 2 1; q 2 1].
Definition ex_dinv83 : vec QcOF := [q 1 2; q 1 2].

Lemma hA_linear : linear 2 2 (mulvec (hA QcOF)).
Proof. exact (mulvec_linear (hA QcOF)). Qed.
Lemma ex_diag83 : inverse_diagonal 2 ex_d83 ex_dinv83.
Proof.
  split; [reflexivity|]. split; [reflexivity|]. intros i Hi. destruct i as [|[|]]; [| |lia]; (split; [apply fltb_lt; vm_compute; reflexivity|apply Qc_is_canon; vm_compute; reflexivity]).
Qed.
Section Bound.
  Add Field QcFieldC83 : (f_field QcOF).
  Local Open Scope K_scope.
  Lemma hA_bound : forall h : QcOF, q 3 2 <= h -> bounded_by 2 (mulvec (hA QcOF)) ex_d83 h.
  Proof.
    intros h Hh x Hx. destruct x as [|x0 [|x1 [|]]]; try discriminate.
    assert (E : energy (mulvec (hA QcOF)) [x0; x1] = (1 + 1) * x0 * x0 - (1 + 1) * x0 * x1 + (1 + 1) * x1 * x1).
    { unfold energy, mulvec, dot, hA, of_rows. cbn. ring. }
    rewrite E. unfold ex_d83. cbn [sumn nth].
    set (two := q 2 1 : QcOF). assert (T : two = 1 + 1) by (apply Qc_is_canon; reflexivity).
    assert (P : q 3 2 * two = (1 + 1 + 1 : QcOF)) by (apply Qc_is_canon; vm_compute; reflexivity).
    apply fle_trans with (q 3 2 * (0 + two * x0 * x0 + two * x1 * x1)).
    - replace (q 3 2 * (0 + two * x0 * x0 + two * x1 * x1)) with (q 3 2 * two * (x0 * x0 + x1 * x1)) by ring.
      rewrite P. apply fle_sub_0.
      replace ((1 + 1 + 1) * (x0 * x0 + x1 * x1) - ((1 + 1) * x0 * x0 - (1 + 1) * x0 * x1 + (1 + 1) * x1 * x1)) with ((x0 + x1) * (x0 + x1)) by ring.
      apply fsquare_nonneg.
    - apply fle_sub_0. replace (h * (0 + two * x0 * x0 + two * x1 * x1) - q 3 2 * (0 + two * x0 * x0 + two * x1 * x1))
        with ((h - q 3 2) * (two * (x0 * x0 + x1 * x1))) by ring.
      apply fle_mul; [apply fle_sub_0 in Hh; auto|]. rewrite T. apply fle_mul; [apply flt_le, two_pos|]. apply fadd_nonneg; apply fsquare_nonneg.
  Qed.
End Bound.

Theorem C83_max_eigenvalue_refuted : exists (cg : N -> nat -> (vec QcOF -> vec QcOF) -> vec QcOF -> option (QcOF * QcOF)) n A d dinv p mx lo hi,
  linear n n A /\ spd n A /\ inverse_diagonal n d dinv /\ cg 8%N n A dinv = Some (lo, hi) /\
  eigenvalue_of n A d lo /\ eigenvalue_of n A d hi /\
  pt_get_optional ex_parse83 ["smoother"; "max_eigenvalue"]%string p = Some mx /\ bounded_by n A d mx /\
  exists s e e', mf_build_smoother ex_parse83 cg (fun _ _ _ => 1%N) dinv (MfOp n A) p = Ok s /\
    length e = n /\ s (vzero n) e = Ok e' /\ flt (energy A e) (energy A e').
Proof.
  exists (fun _ _ _ _ => Some (q 1 2, q 1 2)), 2, (mulvec (hA QcOF)), ex_d83, ex_dinv83, ex_p83, (q 3 2), (q 1 2), (q 1 2).
  assert (EV : eigenvalue_of 2 (mulvec (hA QcOF)) ex_d83 (q 1 2)).
  { exists [q 1 1; q 1 1]. split; [reflexivity|]. split; [discriminate|]. apply veqb_eq. vm_compute. reflexivity. }
  split; [exact hA_linear|]. split; [apply hA_spd|]. split; [exact ex_diag83|]. split; [reflexivity|]. split; [exact EV|]. split; [exact EV|].
  split; [reflexivity|]. split; [apply hA_bound; apply fle_refl|].
  eexists _, [q 1 1; q (-1) 1], [q (-19) 11; q 19 11]. split; [reflexivity|]. split; [reflexivity|]. split.
  - match goal with |- ?l = Ok ?r => assert (Q : ok_with l (fun v => veqb v r) = true) by (vm_compute; reflexivity) end.
    destruct (ok_with_ex _ _ Q) as (v & E & B). rewrite E. f_equal. apply veqb_eq. exact B.
  - apply fltb_lt. vm_compute. reflexivity.
Qed.

(** Ordinary example: degree 3, exact estimates. *)
Definition ex_p83b : ptree := Node "" [("smoother"%string, Node "" [("type"%string, Node "Chebyshev" []); ("degree"%string, Node "3" [])])].
Definition ex_cg83 : N -> nat -> (vec QcOF -> vec QcOF) -> vec QcOF -> option (QcOF * QcOF) := fun _ _ _ _ => Some (q 1 2, q 3 2).
Lemma ex_usable83 : forall r, usable_estimate 2 (mulvec (hA QcOF)) ex_d83 r (q 1 2) (q 3 2).
Proof.
  intros r. split; [apply fltb_lt; vm_compute; reflexivity|]. split; [right; apply fltb_lt; vm_compute; reflexivity|].
  apply hA_bound. apply fleb_le. vm_compute. reflexivity.
Qed.
Example C83_example : exists s, mf_build_smoother ex_parse83 ex_cg83 (fun _ _ _ => 1%N) ex_dinv83 (MfOp 2 (mulvec (hA QcOF))) ex_p83b = Ok s /\
  (forall e, length e = 2 -> e <> vzero 2 -> exists e', s (vzero 2) e = Ok e' /\ flt (energy (mulvec (hA QcOF)) e') (energy (mulvec (hA QcOF)) e)) /\
  ok_with (s (vzero 2) [q 1 1; q 0 1]) (fun e => negb (veqb e (vzero 2))) = true.
Proof.
  destruct (@C83_chebyshev_reduces_error QcOF ex_parse83 ex_cg83 (fun _ _ _ => 1%N) ex_p83b 2 (mulvec (hA QcOF)) ex_d83 ex_dinv83 (q 1 2) (q 3 2))
    as (s & f & B & E & AC & _ & _ & _ & ST).
  - exact hA_linear.
  - apply hA_spd.
  - exact ex_diag83.
  - apply lower_ci; [apply no_upperb_ok; reflexivity|reflexivity].
  - reflexivity.
  - apply ex_usable83.
  - exists s. split; [exact E|]. split.
    + intros e He N. destruct (ST (vzero 2) e eq_refl He N) as (e' & He' & F & L).
      assert (Z : mulvec (hA QcOF) (vzero 2) = vzero 2) by (apply (lin_zero hA_linear)).
      rewrite Z in F. rewrite !(@vadd_zero_l QcOF 2) in F by auto. destruct (AC (vzero 2) e eq_refl He) as (S1 & _). rewrite F in S1. eauto.
    + assert (Q : ok_with (let! s := mf_build_smoother ex_parse83 ex_cg83 (fun _ _ _ => 1%N) ex_dinv83 (MfOp 2 (mulvec (hA QcOF))) ex_p83b in s (vzero 2) [q 1 1; q 0 1])
        (fun e => negb (veqb e (vzero 2))) = true) by (vm_compute; reflexivity).
      rewrite E in Q. exact Q.
Qed.

Section C84.
  Variable K : ofield.
  Add Field KfieldC84 : (f_field K).
  Local Notation vec := (vec K).
  Variable parse_double : string -> option K.
  Variable cg : N -> nat -> (vec -> vec) -> vec -> option (K * K).
  Variable auto_degree : K -> K -> K -> N.
  Variable accepts_double : string -> bool.
  Variable mk : ptree -> outcome (mat K * mat K).
  Variable ml_vmult : ml_list -> mat K -> vec -> vec.

  (** C84: a matrix-free evaluator for an SPD matrix, two levels, restriction of full row rank, usable estimates; the product A R^T is exact
      (with fast_ap) or has no entry at or below the threshold except zeros: construction succeeds and vmult applies one fixed symmetric
      positive definite operator that reduces every error. *)
  Theorem C84_matrix_free_preconditioner : forall n f dinv eps te0 dbg p A d lo hi R AP,
    is_matrix n f A -> spd n (mulvec A) -> inverse_diagonal n d dinv ->
    c_prec p = true -> (0 < c_steps p)%nat -> c_levels p = 2%Z ->
    ci_eq (text_at p ["coarse"; "type"]%string "direct") "direct" ->
    ci_eq (text_at p ["smoother"; "type"]%string "Chebyshev") "chebyshev" ->
    cg 8%N n f dinv = Some (lo, hi) -> usable_estimate n f d (pt_get parse_double ["smoother"; "smoothing_range"]%string 0%K p) lo hi ->
    pt_find p ["eigensolver"%string] <> None -> pt_find p ["agglomeration"%string] <> None ->
    mk p = Ok (R, AP) -> nc R = n -> full_row_rank R ->
    (if pt_get parse_bool ["fast_ap"%string] false p then meq AP (mmul A (mtrans R)) else no_small_entry eps A R) ->
    exists h s l, construct (mf_helpers parse_double cg auto_degree n f dinv accepts_double mk ml_vmult) eps te0 dbg (Ok tt) (Some p) None = (Ok h, s, l) /\
      exists Mv : vec -> vec, linear n n Mv /\ self_adjoint n Mv /\
        (forall b, length b = n -> b <> vzero n -> flt 0%K (dot (Mv b) b)) /\
        (forall e, length e = n -> e <> vzero n -> flt (energy f (vsub e (Mv (f e)))) (energy f e)) /\
        forall te x b l, open_sections l = [] -> length x = n -> length b = n ->
          exists l', hierarchy_vmult te h x b l = (Ok (Mv b), l') /\ open_sections l' = [].
  Proof.
    intros n f dinv eps te0 dbg p A d lo hi R AP IM S HD P ST HL CD KT CG U E1 E2 E3 DR FR PO.
    eapply mf_end_to_end; eauto.
    - destruct (C38_host_solver accepts_double p) as [(_ & E)|[(Q & _)|(Q & _)]]; auto; [|contradiction].
      exfalso. apply lower_ci in Q; [|apply no_upperb_ok; reflexivity]. apply lower_ci in CD; [|apply no_upperb_ok; reflexivity]. congruence.
    - unfold matrix_free_smoother_kind. rewrite get_string_text. apply lower_ci in KT; [|apply no_upperb_ok; reflexivity]. rewrite KT. reflexivity.
  Qed.

  (** C84: matrix-free hierarchies have exactly two levels; with another "max levels" the constructor never returns. *)
  Theorem C84_exactly_two_levels : forall n f dinv eps te0 dbg created params h0 h s l,
    construct (mf_helpers parse_double cg auto_degree n f dinv accepts_double mk ml_vmult) eps te0 dbg created params h0 = (Ok h, s, l) ->
    length (h_levels h) = 2 /\ exists p, params = Some p /\ c_levels p = 2%Z.
  Proof.
    intros n f dinv eps te0 dbg created params h0 h s l E. pose proof (@mf_two_levels_only K _ _ _ _ _ _ _ _ _ _ _ _ _ _ _ _ _ _ E) as L. split; auto.
    destruct params as [p|].
    - exists p. split; auto.
      destruct (@construct_spec K _ (mf_helpers parse_double cg auto_degree n f dinv accepts_double mk ml_vmult) eps te0 dbg created p h0) as (r & s' & l' & E' & H).
      rewrite E in E'. inversion E'; subst r s' l'. destruct H as (_ & Pz & Ln & _). lia.
    - exfalso. unfold construct in E. unfold cbind at 1 in E. unfold ctimer at 1 in E. rewrite enter_setup in E.
      unfold cbind at 1 in E. unfold clift at 1 in E. destruct created; discriminate E.
  Qed.

  (** C84: the threshold is absolute: for every matrix there is a positive factor such that, for the scaled matrix, which is as positive
      definite as the original, the hierarchy is built without complaint and its coarse operator is zero. *)
  Theorem C84_scale_refuted : forall n dinv eps te0 dbg p A R AP, nr A = n -> nc A = n -> spd n (mulvec A) -> flt 0%K eps ->
    c_levels p = 2%Z -> ci_eq (text_at p ["coarse"; "type"]%string "direct") "direct" ->
    ci_eq (text_at p ["smoother"; "type"]%string "Chebyshev") "chebyshev" ->
    pt_find p ["eigensolver"%string] <> None -> pt_find p ["agglomeration"%string] <> None ->
    mk p = Ok (R, AP) -> nc R = n -> pt_get parse_bool ["fast_ap"%string] false p = false ->
    exists s, flt 0%K s /\ spd n (mulvec (scaled s A)) /\
      exists h st l lv lc Ac, construct (mf_helpers parse_double cg auto_degree n (mulvec (scaled s A)) dinv accepts_double mk ml_vmult) eps te0 dbg (Ok tt) (Some p) None = (Ok h, st, l) /\
        h_levels h = [lv; lc] /\ lv_op lc = Some (TriOp Ac) /\ zero_matrix Ac.
  Proof.
    intros n dinv eps te0 dbg p A R AP D1 D2 S He HL CD KT E1 E2 E3 DR FF.
    destruct (@scale_kills K eps A R) as (s & Hs & Z); try congruence. exists s. split; auto. split; [rewrite <- D2 in *; apply scaled_spd; auto|].
    assert (CK : dealii_solver_kind accepts_double p = Ok KDirect).
    { destruct (C38_host_solver accepts_double p) as [(_ & E)|[(Q & _)|(Q & _)]]; auto; [|contradiction].
      exfalso. apply lower_ci in Q; [|apply no_upperb_ok; reflexivity]. apply lower_ci in CD; [|apply no_upperb_ok; reflexivity]. congruence. }
    assert (SK : matrix_free_smoother_kind p = Ok KChebyshev).
    { unfold matrix_free_smoother_kind. rewrite get_string_text. apply lower_ci in KT; [|apply no_upperb_ok; reflexivity]. rewrite KT. reflexivity. }
    destruct (@mf_built K parse_double cg auto_degree accepts_double mk ml_vmult eps n (mulvec (scaled s A)) dinv te0 dbg p HL CK SK E1 E2 R AP E3 DR FF)
      as (h & st & l & lv & lc & C & L1 & L2).
    exists h, st, l, lv, lc. eexists. split; [exact C|]. split; [exact L1|]. split; [exact L2|].
    intros i j Hi Hj. cbn [nr nc ent mmul] in *. apply sumn_zero. intros k Hk. rewrite D2 in Z. rewrite Z by (cbn [nr nc matrix_transpose_matrix_multiply] in *; congruence).
    ring.
  Qed.
End C84.

(** Ordinary examples: two unknowns aggregated to one. *)
Definition ex_p84 : ptree := Node "" [("eigensolver"%string, Node "" []); ("agglomeration"%string, Node "" [])].
Lemma ex_small84 : no_small_entry (q 1 (10 ^ 14)) (hA QcOF) (hR QcOF).
Proof.
  intros i j Hi Hj. right. cbn in Hi, Hj. assert (j = 0) by lia. subst j. destruct i as [|[|]]; [| |lia]; apply fltb_lt; vm_compute; reflexivity.
Qed.
Example C84_example : exists h s l,
  construct (mf_helpers ex_parse83 ex_cg83 (fun _ _ _ => 1%N) 2 (mulvec (hA QcOF)) ex_dinv83 (fun _ => false) (fun _ => Ok (hR QcOF, hA QcOF)) (fun _ _ r => r))
    (q 1 (10 ^ 14)) (mkTenv true true) true (Ok tt) (Some ex_p84) None = (Ok h, s, l) /\
  exists Mv, self_adjoint 2 Mv /\
    (forall e, length e = 2 -> e <> vzero 2 -> flt (energy (mulvec (hA QcOF)) (vsub e (Mv (mulvec (hA QcOF) e)))) (energy (mulvec (hA QcOF)) e)) /\
    forall x b, length x = 2 -> length b = 2 -> exists l', hierarchy_vmult (mkTenv true true) h x b [] = (Ok (Mv b), l').
Proof.
  destruct (@C84_matrix_free_preconditioner QcOF ex_parse83 ex_cg83 (fun _ _ _ => 1%N) (fun _ => false) (fun _ => Ok (hR QcOF, hA QcOF)) (fun _ _ r => r)
    2 (mulvec (hA QcOF)) ex_dinv83 (q 1 (10 ^ 14)) (mkTenv true true) true ex_p84 (hA QcOF) ex_d83 (q 1 2) (q 3 2) (hR QcOF) (hA QcOF))
    as (h & s & l & C & Mv & _ & SA & _ & ER & V); try reflexivity.
  - split; [reflexivity|]. split; reflexivity.
  - apply hA_spd.
  - exact ex_diag83.
  - vm_compute. lia.
  - apply lower_ci; [apply no_upperb_ok; reflexivity|reflexivity].
  - apply lower_ci; [apply no_upperb_ok; reflexivity|reflexivity].
  - apply ex_usable83.
  - discriminate.
  - discriminate.
  - apply hR_rank.
  - exact ex_small84.
  - exists h, s, l. split; [exact C|]. exists Mv. split; [exact SA|]. split; [exact ER|].
    intros x b Hx Hb. destruct (V (mkTenv true true) x b [] eq_refl Hx Hb) as (l' & V' & _). eauto.
Qed.
Example C84_scale_example : exists s : QcOF, flt 0%K s /\ spd 2 (mulvec (scaled s (hA QcOF))) /\
  exists h st l lv lc Ac, construct (mf_helpers ex_parse83 ex_cg83 (fun _ _ _ => 1%N) 2 (mulvec (scaled s (hA QcOF))) ex_dinv83 (fun _ => false)
    (fun _ => Ok (hR QcOF, hA QcOF)) (fun _ _ r => r)) (q 1 (10 ^ 14)) (mkTenv true true) true (Ok tt) (Some ex_p84) None = (Ok h, st, l) /\
    h_levels h = [lv; lc] /\ lv_op lc = Some (TriOp Ac) /\ zero_matrix Ac.
Proof.
  destruct (@C84_scale_refuted QcOF ex_parse83 ex_cg83 (fun _ _ _ => 1%N) (fun _ => false) (fun _ => Ok (hR QcOF, hA QcOF)) (fun _ _ r => r)
    2 ex_dinv83 (q 1 (10 ^ 14)) (mkTenv true true) true ex_p84 (hA QcOF) (hR QcOF) (hA QcOF)) as (s & H1 & H2 & H3); try reflexivity.
  - apply hA_spd.
  - apply fltb_lt. vm_compute. reflexivity.
  - apply lower_ci; [apply no_upperb_ok; reflexivity|reflexivity].
  - apply lower_ci; [apply no_upperb_ok; reflexivity|reflexivity].
  - discriminate.
  - discriminate.
  - exists s. auto.
Qed.

Print Assumptions C83_chebyshev_reduces_error.
Print Assumptions C83_max_eigenvalue_ignored.
Print Assumptions C83_max_eigenvalue_refuted.
Print Assumptions C84_matrix_free_preconditioner.
Print Assumptions C84_exactly_two_levels.
Print Assumptions C84_scale_refuted.
Print Assumptions C83_negative_degree_refuted.
