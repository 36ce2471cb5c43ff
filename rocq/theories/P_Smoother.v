(** Proofs about the smoothers. *)
From Coq Require Import List Arith Bool Lia Field.
From Verif Require Import Base OField Mat LinAlg M_Hier M_Smoother S_Hier P_Hier P_Hier2 P_HierE P_HierS.
Import ListNotations.
Set Implicit Arguments.
Open Scope nat_scope.

Section P.
  Variable K : ofield.
  Add Field KfieldSm : (f_field K).
  Local Open Scope K_scope.
  Notation vec := (vec K).
  Ltac vx := vext; try ring.

  Lemma smoother_apply_acts : forall (A : mat K) B, nr A = nc A -> maps (nc A) (nc A) B ->
    bx_acts (smoother_apply (TriOp A) B) (nc A) (correction_step (mulvec A) B).
  Proof.
    intros A B D HB b x Hb Hx. unfold smoother_apply, op_apply, bind, correction_step.
    rewrite D, Hb, Hx, Nat.eqb_refl. simpl andb. cbv iota.
    rewrite vec_add_sub by (rewrite mulvec_length; congruence).
    assert (L : length (vsub (mulvec A x) b) = nc A) by (rewrite vsub_length, mulvec_length, D, Hb; apply Nat.min_id).
    rewrite vec_add_sub by (rewrite HB; auto). split; auto. rewrite vsub_length, HB by auto. rewrite Hx. apply Nat.min_id.
  Qed.

  Section Fixed.
    Variable A : mat K.
    Hypothesis DA : nr A = nc A.
    Let n := nc A.
    Let HL : linear n n (mulvec A).
    Proof. unfold n. pose proof (mulvec_linear A) as X. rewrite DA in X. exact X. Qed.

    (** Correction of one unknown. *)
    Definition D1 (i : nat) (r : vec) : vec := vscale (nth i r 0 / ent A i i) (unit_vec n i).
    Lemma D1_linear : forall i, linear n n (D1 i).
    Proof.
      intros i. unfold D1. constructor.
      - intros x Hx. vlen.
      - intros x y Hx Hy. rewrite nth_vadd by congruence. vext. rewrite (Fdiv_def (f_field K)), (Fdiv_def (f_field K)), (Fdiv_def (f_field K)). ring.
      - intros s x Hx. rewrite nth_vscale. vext. rewrite !(Fdiv_def (f_field K)). ring.
    Qed.
    Lemma D1_sym : forall i, (i < n)%nat -> self_adjoint n (D1 i).
    Proof.
      intros i Hi x y Hx Hy. unfold D1. rewrite dot_scale_l, dot_scale_r, dot_unit by auto. rewrite dot_comm, dot_unit by auto.
      rewrite !(Fdiv_def (f_field K)). ring.
    Qed.

    Lemma nth_upd : forall (l : vec) i a j, (i < length l)%nat -> nth j (upd l i a) 0 = if Nat.eqb j i then a else nth j l 0.
    Proof.
      intros l i a j Hi. destruct (Nat.eqb_spec j i) as [->|N]; [apply nth_upd_eq; auto|apply nth_upd_neq; auto].
    Qed.
    Lemma gs_update_step : forall b x i, (i < n)%nat -> length b = n -> length x = n ->
      gs_update A b x i = correction_step (mulvec A) (D1 i) b x.
    Proof.
      intros b x i Hi Hb Hx. unfold gs_update, correction_step, D1. pose proof (lin_len HL x Hx) as LA.
      apply vec_ext; [rewrite upd_length; vlen|]. intros j Hj. rewrite upd_length in Hj.
      rewrite nth_upd by lia. rewrite !nth_vsub, nth_vscale, nth_unit_vec by (auto; vlen).
      destruct (Nat.eqb_spec j i) as [->|N]; rewrite !(Fdiv_def (f_field K)); ring.
    Qed.
    Lemma gs_sweep_run : forall order b x, Forall (fun i => (i < n)%nat) order -> length b = n -> length x = n ->
      gs_sweep A b x order = run (mulvec A) (map D1 order) b x.
    Proof.
      induction order as [|i order IH]; intros b x HO Hb Hx; [reflexivity|]. inversion HO; subst.
      cbn [map run]. unfold gs_sweep. cbn [fold_left]. rewrite gs_update_step by auto.
      apply IH; auto. apply (cstep_length HL); auto. apply D1_linear.
    Qed.

    Definition sweep (order : list nat) (r : vec) : vec := M n (mulvec A) (map D1 order) r.
    Lemma sweep_lin_all : forall order, all_lin n (map D1 order).
    Proof. intros. apply Forall_forall. intros D I. apply in_map_iff in I. destruct I as (i & <- & _). apply D1_linear. Qed.

    (** Linear for every order. *)
    Lemma M_linear : forall l, all_lin n l -> linear n n (M n (mulvec A) l).
    Proof.
      induction l as [|D l IH] using rev_ind; intros Hl.
      - constructor; intros; unfold M; simpl; [vlen|vx|vx].
      - apply Forall_app in Hl. destruct Hl as (Hl & HD). inversion HD as [|? ? HD1 _]; subst. specialize (IH Hl).
        pose proof (fun b => @M_snoc K n (mulvec A) HL D l b HD1 Hl) as E.
        constructor.
        + intros x Hx. apply (M_length HL); auto. apply Forall_app; auto.
        + intros x y Hx Hy. rewrite !E by (auto; vlen).
          pose proof (lin_len IH _ Hx) as Lx. pose proof (lin_len IH _ Hy) as Ly.
          rewrite (lin_add IH), (lin_add HL) by auto.
          pose proof (lin_len HL _ Lx) as LAx. pose proof (lin_len HL _ Ly) as LAy.
          assert (X : vsub (vadd x y) (vadd (mulvec A (M n (mulvec A) l x)) (mulvec A (M n (mulvec A) l y))) =
            vadd (vsub x (mulvec A (M n (mulvec A) l x))) (vsub y (mulvec A (M n (mulvec A) l y)))) by vx.
          rewrite X, (lin_add HD1) by vlen.
          pose proof (lin_len HD1 (vsub x (mulvec A (M n (mulvec A) l x)))) as L1. pose proof (lin_len HD1 (vsub y (mulvec A (M n (mulvec A) l y)))) as L2.
          assert (length (D (vsub x (mulvec A (M n (mulvec A) l x)))) = n) by (apply L1; vlen).
          assert (length (D (vsub y (mulvec A (M n (mulvec A) l y)))) = n) by (apply L2; vlen). vx.
        + intros s x Hx. rewrite !E by (auto; vlen). rewrite (lin_scale IH), (lin_scale HL) by (auto using (lin_len IH)).
          pose proof (lin_len IH _ Hx) as Lx. pose proof (lin_len HL _ Lx) as LAx.
          assert (X : vsub (vscale s x) (vscale s (mulvec A (M n (mulvec A) l x))) = vscale s (vsub x (mulvec A (M n (mulvec A) l x)))) by vx.
          rewrite X, (lin_scale HD1) by vlen. assert (length (D (vsub x (mulvec A (M n (mulvec A) l x)))) = n) by (apply (lin_len HD1); vlen). vx.
    Qed.

    Lemma seq_lt : Forall (fun i => (i < n)%nat) (seq 0 n).
    Proof. apply Forall_forall. intros i I. apply in_seq in I. lia. Qed.
    Lemma sym_lt : Forall (fun i => (i < n)%nat) (seq 0 n ++ rev (seq 0 n)).
    Proof. apply Forall_app. split; [apply seq_lt|apply Forall_rev; apply seq_lt]. Qed.

    Lemma ssor_sweep : forall r, length r = n -> ssor_vmult A r = sweep (seq 0 n ++ rev (seq 0 n)) r.
    Proof. intros r Hr. unfold ssor_vmult. apply gs_sweep_run; auto; [apply sym_lt|vlen]. Qed.
    Lemma sor_sweep : forall r, length r = n -> sor_vmult A r = sweep (seq 0 n) r.
    Proof. intros r Hr. unfold sor_vmult. apply gs_sweep_run; auto; [apply seq_lt|vlen]. Qed.

    (** A function equal to a linear one on vectors of the right size is linear. *)
    Lemma linear_ext : forall p m (f g : vec -> vec), (forall x, length x = p -> f x = g x) -> linear p m g -> linear p m f.
    Proof.
      intros p m f g E G. constructor; intros.
      - rewrite E by auto. apply (lin_len G); auto.
      - rewrite !E by (auto; vlen). apply (lin_add G); auto.
      - rewrite !E by (auto; vlen). apply (lin_scale G); auto.
    Qed.
    Lemma ssor_linear : linear n n (ssor_vmult A).
    Proof. apply linear_ext with (g := sweep (seq 0 n ++ rev (seq 0 n))); [apply ssor_sweep|]. apply M_linear. apply sweep_lin_all. Qed.
    Lemma sor_linear : linear n n (sor_vmult A).
    Proof. apply linear_ext with (g := sweep (seq 0 n)); [apply sor_sweep|]. apply M_linear. apply sweep_lin_all. Qed.

    Hypothesis SA : self_adjoint n (mulvec A).
    Lemma sweep_sym : forall order, Forall (fun i => (i < n)%nat) order -> adjoint n n (sweep order) (sweep (rev order)).
    Proof.
      intros order HO. unfold sweep. rewrite map_rev. apply (M_adjoint HL SA); [apply sweep_lin_all|].
      apply Forall_forall. intros D I. apply in_map_iff in I. destruct I as (i & <- & I). apply D1_sym. exact (proj1 (Forall_forall _ _) HO i I).
    Qed.
    Lemma ssor_sym : self_adjoint n (ssor_vmult A).
    Proof.
      intros x y Hx Hy. rewrite !ssor_sweep by auto. rewrite (sweep_sym sym_lt) by auto.
      rewrite rev_app_distr, rev_involutive. auto.
    Qed.

    Hypothesis PA : forall x, length x = n -> x <> vzero n -> 0 < energy (mulvec A) x.
    Lemma diag_pos : forall i, (i < n)%nat -> 0 < ent A i i.
    Proof.
      intros i Hi. assert (N : unit_vec n i <> (vzero n : vec)).
      { intros E. pose proof (f_equal (fun v => nth i v 0) E) as Q. cbv beta in Q. rewrite nth_unit_vec, nth_vzero, Nat.eqb_refl in Q by auto.
        exact (f1_neq_0 K Q). }
      pose proof (PA (unit_vec_length K n i) N) as P. unfold energy in P. rewrite dot_comm in P.
      rewrite dot_unit in P by (auto; rewrite mulvec_length; exact DA). unfold n in P. rewrite mulvec_unit in P by (auto; unfold n in *; lia). auto.
    Qed.

    Lemma D1_energy : forall i e, (i < n)%nat -> length e = n ->
      energy (mulvec A) (error_step (mulvec A) (D1 i) e) = energy (mulvec A) e - nth i (mulvec A e) 0 * nth i (mulvec A e) 0 / ent A i i.
    Proof.
      intros i e Hi He. unfold error_step. pose proof (lin_len HL e He) as LA. pose proof (lin_len (D1_linear i) _ LA) as LD.
      rewrite vsub_as_add by congruence. rewrite (energy_add HL SA) by (auto; vlen). unfold energy at 2.
      rewrite (lin_scale HL) by auto. rewrite !dot_scale_l, !dot_scale_r. unfold D1.
      rewrite (lin_scale HL) by vlen. rewrite !dot_scale_l, !dot_scale_r.
      rewrite (dot_comm (mulvec A e)), dot_unit by auto. rewrite (dot_comm (mulvec A (unit_vec n i))), dot_unit by (auto; rewrite mulvec_length; exact DA).
      replace (nth i (mulvec A (unit_vec n i)) 0) with (ent A i i) by (unfold n; rewrite mulvec_unit; auto; unfold n in *; lia).
      field. intros Z. pose proof (diag_pos Hi) as P. rewrite Z in P. exact (flt_irrefl P).
    Qed.

    (** Error after a sequence of relaxations. *)
    Definition errs (order : list nat) (e : vec) : vec := fold_left (fun e i => error_step (mulvec A) (D1 i) e) order e.
    Lemma estep_length : forall i e, length e = n -> length (error_step (mulvec A) (D1 i) e) = n.
    Proof. intros i e He. unfold error_step. pose proof (lin_len HL e He) as LA. pose proof (lin_len (D1_linear i) _ LA) as LD. vlen. Qed.
    Lemma run_errs : forall order x e, length x = n -> length e = n ->
      run (mulvec A) (map D1 order) (mulvec A x) (vadd x e) = vadd x (errs order e) /\ length (errs order e) = n.
    Proof.
      induction order as [|i order IH]; intros x e Hx He; simpl; auto.
      rewrite (@cstep_error K n (mulvec A) HL (D1 i) x e (D1_linear i)) by auto. apply IH; auto. apply estep_length; auto.
    Qed.
    Lemma errs_energy : forall order e, Forall (fun i => (i < n)%nat) order -> length e = n ->
      energy (mulvec A) (errs order e) <= energy (mulvec A) e /\
      (energy (mulvec A) (errs order e) < energy (mulvec A) e \/ Forall (fun i => nth i (mulvec A e) 0 = 0) order).
    Proof.
      induction order as [|i order IH]; intros e HO He; [simpl; split; [apply fle_refl|auto]|].
      inversion HO; subst. cbn [errs fold_left]. fold (errs order (error_step (mulvec A) (D1 i) e)).
      pose proof (estep_length i e He) as LE. destruct (IH _ H2 LE) as (I1 & I2).
      destruct (feq_dec K (nth i (mulvec A e) 0) 0) as [Z|N].
      - assert (E : error_step (mulvec A) (D1 i) e = e).
        { unfold error_step, D1. rewrite Z. vext. rewrite (Fdiv_def (f_field K)). ring. }
        rewrite E in *. split; auto. destruct I2 as [I2|I2]; auto.
      - assert (S : energy (mulvec A) (error_step (mulvec A) (D1 i) e) < energy (mulvec A) e).
        { rewrite D1_energy by auto. apply flt_sub_0. pose proof (diag_pos H1) as P.
          assert (NZ : ent A i i <> 0) by (intros Z; rewrite Z in P; exact (flt_irrefl P)).
          replace (energy (mulvec A) e - (energy (mulvec A) e - nth i (mulvec A e) 0 * nth i (mulvec A e) 0 / ent A i i)) with
            ((nth i (mulvec A e) 0 * nth i (mulvec A e) 0) * finv (ent A i i)) by (field; auto).
          apply fmul_pos; [|apply finv_pos; auto]. apply fle_neq_lt; [apply fsquare_nonneg|].
          intros Q. symmetry in Q. apply fsquare_0 in Q. auto. }
        split; [apply flt_le; eapply fle_lt_trans; eauto|left; eapply fle_lt_trans; eauto].
    Qed.

    Lemma sweep_relaxes : forall order, Forall (fun i => (i < n)%nat) order -> (forall i, (i < n)%nat -> In i order) ->
      relaxes n (mulvec A) (sweep order).
    Proof.
      intros order HO HC r Hr Nr. assert (SP : spd n (mulvec A)) by (split; auto).
      destruct (spd_onto HL SP r Hr) as (e & Le & <-).
      assert (Ne : e <> vzero n) by (intros ->; apply Nr; apply (lin_zero HL)).
      set (f := vscale (- (1)) e). assert (Lf : length f = n) by (unfold f; vlen).
      assert (Ef : mulvec A f = vscale (- (1)) (mulvec A e)) by (unfold f; rewrite (lin_scale HL); auto).
      destruct (run_errs order e f Le Lf) as (R1 & R2).
      assert (Z : vadd e f = vzero n) by (unfold f; vx). rewrite Z in R1.
      change (run (mulvec A) (map D1 order) (mulvec A e) (vzero n)) with (sweep order (mulvec A e)) in R1.
      destruct (@errs_energy order f HO Lf) as (_ & [S|S]).
      - set (y := sweep order (mulvec A e)) in *. assert (Ly : length y = n) by (rewrite R1; vlen).
        assert (Ew : errs order f = vadd y f) by (rewrite R1; transitivity (vadd (vadd e (errs order f)) (vscale (- (1)) e)); [vx|reflexivity]). rewrite Ew in S. rewrite (energy_add HL SA) in S by auto.
        apply flt_sub_0 in S. apply flt_sub_0.
        assert (E1 : dot (mulvec A y) f = - dot y (mulvec A e)). { rewrite (SA y f Ly Lf), Ef, dot_scale_r. ring. }
        rewrite E1 in S. fold (energy (mulvec A) y).
        replace ((1 + 1) * dot y (mulvec A e) - energy (mulvec A) y) with
          (energy (mulvec A) f - (energy (mulvec A) y + (1 + 1) * - dot y (mulvec A e) + energy (mulvec A) f)) by ring. auto.
      - exfalso. apply Nr. pose proof (lin_len HL e Le) as LA. apply vec_ext; [vlen|]. intros i Hi. rewrite nth_vzero.
        rewrite LA in Hi. pose proof (proj1 (Forall_forall _ _) S i (HC i Hi)) as Q. simpl in Q. rewrite Ef, nth_vscale in Q.
        transitivity (- (1) * (- (1) * nth i (mulvec A e) 0)); [ring|]. rewrite Q. ring.
    Qed.

    Lemma ssor_good : good_smoother n (mulvec A) (correction_step (mulvec A) (ssor_vmult A)).
    Proof.
      exists (ssor_vmult A). split; [apply ssor_linear|]. split; [apply ssor_sym|]. split; auto.
      intros r Hr Nr. rewrite ssor_sweep by auto. apply sweep_relaxes; auto; [apply sym_lt|].
      intros i Hi. apply in_or_app. left. apply in_seq. lia.
    Qed.
    Lemma sor_relaxes : relaxes n (mulvec A) (sor_vmult A).
    Proof.
      intros r Hr Nr. rewrite sor_sweep by auto. apply sweep_relaxes; auto; [apply seq_lt|]. intros i Hi. apply in_seq. lia.
    Qed.
  End Fixed.

  (** Jacobi. *)
  Lemma jacobi_linear : forall A : mat K, linear (nc A) (nc A) (jacobi_vmult A).
  Proof.
    intros A. assert (L : forall x, length (jacobi_vmult A x) = nc A) by (intros; unfold jacobi_vmult; rewrite map_length, seq_length; auto).
    assert (N : forall x i, (i < nc A)%nat -> nth i (jacobi_vmult A x) 0 = nth i x 0 / ent A i i) by (intros; unfold jacobi_vmult; rewrite nth_map_seq; auto).
    constructor; auto.
    - intros x y Hx Hy. apply vec_ext; [rewrite vadd_length, !L; lia|]. intros i Hi. rewrite L in Hi.
      rewrite nth_vadd by (rewrite !L; auto). rewrite !N, nth_vadd by (auto; congruence). rewrite !(Fdiv_def (f_field K)). ring.
    - intros s x Hx. apply vec_ext; [rewrite vscale_length, !L; lia|]. intros i Hi. rewrite L in Hi.
      rewrite nth_vscale. rewrite !N, nth_vscale by auto. rewrite !(Fdiv_def (f_field K)). ring.
  Qed.
  Lemma jacobi_sym : forall A : mat K, self_adjoint (nc A) (jacobi_vmult A).
  Proof.
    intros A x y Hx Hy. assert (L : forall x, length (jacobi_vmult A x) = nc A) by (intros; unfold jacobi_vmult; rewrite map_length, seq_length; auto).
    rewrite (@dot_sumn K (jacobi_vmult A x) y (nc A) (L x) Hy), (@dot_sumn K x (jacobi_vmult A y) (nc A) Hx (L y)). apply sumn_ext. intros i Hi. unfold jacobi_vmult. rewrite !nth_map_seq by auto.
    rewrite !(Fdiv_def (f_field K)). ring.
  Qed.
End P.
