(** Proofs about the smoothers on several ranks. *)
From Coq Require Import String List Arith ZArith Bool Lia Field Permutation.
From Verif Require Import Base OField Mat LinAlg M_Ptree M_Hier M_Smoother S_Hier P_Hier P_Hier2 P_HierE P_HierS P_Smoother P_Cheby P_Amgx3 P_Approx P_FastAP P_Restr2 M_Host P_Host M_Par S_Par.
Import ListNotations.
Set Implicit Arguments.
Open Scope list_scope.
Open Scope nat_scope.

Section Below.
  Variable K : ofield.
  Add Field KfieldPar0 : (f_field K).
  Local Open Scope K_scope.
  Notation vec := (vec K).
  Ltac vx := vext; try ring.
  Variable A : mat K.
  Hypothesis DA : nr A = nc A.
  Let n := nc A.
  Hypothesis SP : spd n (mulvec A).
  Let HL : linear n n (mulvec A).
  Proof. unfold n. pose proof (mulvec_linear A) as X. rewrite DA in X. exact X. Qed.
  Let SA : self_adjoint n (mulvec A) := proj1 SP.
  Let PA := proj2 SP.

  Lemma estep_adj : forall i f e, (i < n)%nat -> length f = n -> length e = n ->
    dot (mulvec A (error_step (mulvec A) (D1 A i) f)) e = dot (mulvec A f) (error_step (mulvec A) (D1 A i) e).
  Proof.
    intros i f e Hi Hf He. unfold error_step. pose proof (lin_len HL f Hf) as LF. pose proof (lin_len HL e He) as LE.
    pose proof (lin_len (D1_linear A DA i) _ LF) as DF. pose proof (lin_len (D1_linear A DA i) _ LE) as DE. fold n in DF, DE.
    rewrite (lin_sub HL) by auto. rewrite dot_sub_l, dot_sub_r by (rewrite ?(lin_len HL) by auto; congruence).
    f_equal. rewrite (SA _ _ DF He). rewrite (@D1_sym K A i Hi _ _ LF LE). reflexivity.
  Qed.
  Lemma errs_adj : forall order f e, Forall (fun i => (i < n)%nat) order -> length f = n -> length e = n ->
    dot (mulvec A (errs A (rev order) f)) e = dot (mulvec A f) (errs A order e).
  Proof.
    induction order as [|i order IH]; intros f e HO Hf He; [reflexivity|]. inversion HO; subst.
    cbn [rev]. unfold errs at 1. rewrite fold_left_app. cbn [fold_left]. fold (errs A (rev order) f).
    destruct (@run_errs K A DA (rev order) (vzero n) f (vzero_length _ _) Hf) as (_ & L).
    rewrite estep_adj by auto. rewrite IH by (auto; apply (estep_length A DA); auto).
    reflexivity.
  Qed.

  Lemma errs_opp : forall o e, length e = n -> errs A o (vscale (- (1)) e) = vscale (- (1)) (errs A o e).
  Proof.
    induction o as [|i o IH]; intros e He; [reflexivity|]. cbn [errs fold_left].
    fold (errs A o (error_step (mulvec A) (D1 A i) (vscale (- (1)) e))). fold (errs A o (error_step (mulvec A) (D1 A i) e)).
    rewrite <- IH by (apply (estep_length A DA); auto). f_equal. unfold error_step. rewrite (lin_scale HL) by auto.
    pose proof (lin_len HL e He) as LA. rewrite (lin_scale (D1_linear A DA i)) by auto.
    pose proof (lin_len (D1_linear A DA i) _ LA) as LD. fold n in LD. vx.
  Qed.
  (** The symmetric sweep never corrects too much. *)
  Lemma ssor_error : forall e, length e = n -> 0 <= dot (mulvec A (vsub e (ssor_vmult A (mulvec A e)))) e.
  Proof.
    intros e He. set (order := seq 0 n ++ rev (seq 0 n)).
    assert (E : vsub e (ssor_vmult A (mulvec A e)) = errs A order e).
    { pose proof (lin_len HL e He) as LA. rewrite (@ssor_sweep K A DA _ LA). fold n. fold order. unfold sweep. fold n.
      set (f := vscale (- (1)) e). assert (Lf : length f = n) by (unfold f; vlen).
      destruct (@run_errs K A DA order e f He Lf) as (R1 & R2).
      assert (Z : vadd e f = vzero n) by (unfold f; vx). rewrite Z in R1.
      change (run (mulvec A) (map (D1 A) order) (mulvec A e) (vzero n)) with (M n (mulvec A) (map (D1 A) order) (mulvec A e)) in R1. rewrite R1.
      destruct (@run_errs K A DA order e e He He) as (_ & R4).
      assert (O : errs A order f = vscale (- (1)) (errs A order e)).
      { apply errs_opp; auto. }
      rewrite O in *. vx. }
    rewrite E. unfold order, errs. rewrite fold_left_app. fold (errs A (seq 0 n) e). fold (errs A (rev (seq 0 n)) (errs A (seq 0 n) e)).
    destruct (@run_errs K A DA (seq 0 n) (vzero n) e (vzero_length _ _) He) as (_ & L).
    rewrite errs_adj by (auto; apply Forall_forall; intros i I; apply in_seq in I; lia).
    apply (energy_nonneg HL SP); auto.
  Qed.

  (** 0 <= X <= 1 implies X^2 <= X. *)
  Lemma ssor_below : forall r, length r = n -> dot (mulvec A (ssor_vmult A r)) (ssor_vmult A r) <= dot (ssor_vmult A r) r.
  Proof.
    intros r Hr. destruct (spd_onto HL SP r Hr) as (e & Le & <-). set (B := ssor_vmult A).
    pose proof (ssor_linear A DA) as LB. pose proof (@ssor_sym K A DA SA) as SB. fold n in LB, SB. fold B in LB, SB.
    assert (Lx : forall v, length v = n -> length (B (mulvec A v)) = n) by (intros; apply (lin_len LB); apply (lin_len HL); auto).
    assert (LA : forall v, length v = n -> length (mulvec A v) = n) by (intros; apply (lin_len HL); auto).
    assert (BP : forall v, length v = n -> 0 <= dot (B v) v).
    { intros v Hv. 
      destruct (list_eq_dec (feq_dec K) v (vzero n)) as [->|N]; [rewrite (lin_zero LB); rewrite dot_zero_l; apply fle_refl|].
      assert (R : relaxes n (mulvec A) B).
      { intros r0 Hr0 Nr0. unfold B. rewrite (@ssor_sweep K A DA r0 Hr0).
        refine (@sweep_relaxes K A DA SA PA (seq 0 n ++ rev (seq 0 n)) (sym_lt A DA) _ r0 Hr0 Nr0).
        intros i Hi. apply in_or_app. left. apply in_seq. fold n in Hi. lia. }
      specialize (R v Hv N). pose proof (energy_nonneg HL SP (B v) (lin_len LB v Hv)) as P. unfold energy in P.
      assert (Q : 0 < (1 + 1) * dot (B v) v) by (eapply fle_lt_trans; eauto).
      apply flt_le. replace (dot (B v) v) with (((1 + 1) * dot (B v) v) * finv (1 + 1)) by (field; apply two_neq).
      apply fmul_pos; auto. apply finv_pos. apply two_pos. }
    apply (@fle_sub_0 K).
    (* <X e, e> - <X e, X e> = <(1-X) X e, X e> + <X (1-X) e, (1-X) e> in the energy product *)
    set (x := B (mulvec A e)). set (y := vsub e x).
    assert (Hx : length x = n) by (apply Lx; auto). assert (Hy : length y = n) by (unfold y; vlen).
    pose proof (ssor_error x Hx) as P1. fold B in P1. pose proof (BP (mulvec A y) (LA y Hy)) as P2.
    replace (dot x (mulvec A e) - dot (mulvec A x) x) with
      (dot (mulvec A (vsub x (B (mulvec A x)))) x + dot (B (mulvec A y)) (mulvec A y)); [apply fadd_nonneg; auto|].
    set (X2 := B (mulvec A x)). assert (HX2 : length X2 = n) by (apply Lx; auto).
    assert (Ey : B (mulvec A y) = vsub x X2).
    { unfold y. rewrite (lin_sub HL) by auto. rewrite (lin_sub LB) by auto. reflexivity. }
    rewrite Ey. unfold y. rewrite !(lin_sub HL) by auto.
    pose proof (LA _ Hx) as LAx. pose proof (LA _ HX2) as LAX2. pose proof (LA _ Le) as LAe.
    rewrite dot_sub_l, dot_sub_l, !dot_sub_r by (rewrite ?vsub_length; lia).
    assert (E1 : dot (mulvec A X2) x = dot X2 (mulvec A x)) by (apply SA; auto).
    assert (E2 : dot X2 (mulvec A e) = dot (mulvec A x) x). { unfold X2. rewrite (SB _ _ LAx LAe). reflexivity. }
    assert (E3 : dot x (mulvec A x) = dot (mulvec A x) x) by (symmetry; apply SA; auto).
    rewrite E1, E2, E3. ring.
  Qed.
End Below.

Section Ranks.
  Variable K : ofield.
  Add Field KfieldPar1 : (f_field K).
  Local Open Scope K_scope.
  Notation vec := (vec K).
  Ltac vx := vext; try ring.

  Lemma nodup_app : forall T (a b : list T), NoDup (a ++ b) -> NoDup a /\ NoDup b /\ forall x, In x a -> ~ In x b.
  Proof.
    intros T a b. induction a as [|x a IH]; intros H; cbn [app] in *; [split; [constructor|]; split; auto|].
    inversion H; subst. destruct (IH H3) as (I1 & I2 & I3). split; [constructor; auto; intros C; apply H2; apply in_or_app; auto|]. split; auto.
    intros y [<-|I]; auto. intros C. apply H2. apply in_or_app. auto.
  Qed.
  Lemma gather_length : forall own (x : vec), length (gather own x) = length own.
  Proof. intros. unfold gather. apply map_length. Qed.
  Lemma gather_nth : forall own (x : vec) i, (i < length own)%nat -> nth i (gather own x) 0 = nth (nth i own 0%nat) x 0.
  Proof.
    intros own x i Hi. unfold gather. rewrite (@nth_indep _ _ i 0 ((fun g => nth g x 0) 0%nat)) by (rewrite map_length; auto).
    rewrite (map_nth (fun g => nth g x 0)). reflexivity.
  Qed.
  Lemma put_length : forall own (y x : vec), length (put_owned own y x) = length x.
  Proof. induction own as [|g own IH]; intros [|v y] x; simpl; auto. rewrite IH, upd_length. auto. Qed.
  Lemma put_other : forall own (y x : vec) g, ~ In g own -> nth g (put_owned own y x) 0 = nth g x 0.
  Proof.
    induction own as [|h own IH]; intros [|v y] x g N; simpl; auto. rewrite IH by (intros I; apply N; right; auto).
    apply nth_upd_neq. intros ->. apply N. left. auto.
  Qed.
  Lemma put_gather : forall own (y x : vec), NoDup own -> length y = length own -> Forall (fun g => (g < length x)%nat) own ->
    gather own (put_owned own y x) = y.
  Proof.
    induction own as [|h own IH]; intros [|v y] x ND L F; try discriminate; [reflexivity|].
    inversion ND; subst. inversion F; subst. cbn [put_owned gather map]. f_equal.
    - rewrite put_other by auto. apply nth_upd_eq; auto.
    - apply IH; auto. eapply Forall_impl; [|eassumption]. intros a Ha. rewrite upd_length. auto.
  Qed.

  Lemma gather_ext : forall own (x y : vec), (forall g, In g own -> nth g x 0 = nth g y 0) -> gather own x = gather own y.
  Proof. intros own x y E. unfold gather. apply map_ext_in. auto. Qed.

  Section Dist.
    Variable n : nat.
    Variable owned : list (list nat).
    Hypothesis HD : distribution n owned.

    Lemma owned_lt : forall own g, In own owned -> In g own -> (g < n)%nat.
    Proof. intros own g I J. assert (X : In g (concat owned)) by (apply in_concat; eauto). apply (Permutation_in _ HD) in X. apply in_seq in X. lia. Qed.
    Lemma owned_cover : forall g, (g < n)%nat -> exists own, In own owned /\ In g own.
    Proof.
      intros g Hg. assert (X : In g (concat owned)) by (apply (Permutation_in _ (Permutation_sym HD)); apply in_seq; lia).
      apply in_concat in X. exact X.
    Qed.
    Lemma concat_NoDup : NoDup (concat owned).
    Proof. apply (Permutation_NoDup (Permutation_sym HD)). apply seq_NoDup. Qed.
    Lemma same_owner : forall own own' g, In own owned -> In own' owned -> In g own -> In g own' -> own = own'.
    Proof.
      pose proof concat_NoDup as ND. revert ND. generalize owned. intros l. induction l as [|o l IH]; intros ND own own' g I I' J J'; [destruct I|].
      cbn [concat] in ND. apply nodup_app in ND. destruct ND as (NO & NR & DJ).
      destruct I as [<-|I], I' as [<-|I']; auto.
      - exfalso. apply (DJ g J). apply in_concat. eauto.
      - exfalso. apply (DJ g J'). apply in_concat. eauto.
      - eapply IH; eauto.
    Qed.
    Lemma owned_NoDup : forall own, In own owned -> NoDup own.
    Proof.
      pose proof concat_NoDup as ND. revert ND. generalize owned. intros l. induction l as [|o l IH]; intros ND own I; [destruct I|].
      cbn [concat] in ND. apply nodup_app in ND. destruct ND as (NO & NR & DJ). destruct I as [<-|I]; auto.
    Qed.

    (** Vectors are equal when every rank sees the same values. *)
    Lemma ranks_ext : forall x y : vec, length x = n -> length y = n -> (forall own, In own owned -> gather own x = gather own y) -> x = y.
    Proof.
      intros x y Hx Hy E. apply vec_ext; [congruence|]. intros g Hg. destruct (@owned_cover g) as (own & I & J); [congruence|].
      destruct (In_nth own g 0%nat J) as (i & Hi & <-). rewrite <- !gather_nth by auto. rewrite (E own I). auto.
    Qed.
    Lemma lsum_concat : forall (f : nat -> K) (l : list (list nat)), lsum (map f (concat l)) = lsum (map (fun own => lsum (map f own)) l).
    Proof. intros f l. induction l as [|o l IH]; [reflexivity|]. cbn [concat map lsum]. rewrite map_app, lsum_app, IH. auto. Qed.
    Lemma sum_ranks : forall f : nat -> K, sumn n f = lsum (map (fun own => lsum (map f own)) owned).
    Proof. intros f. rewrite <- lsum_concat, <- lsum_seq_sumn. apply lsum_perm. apply Permutation_map. apply Permutation_sym. exact HD. Qed.
    Lemma dot_gather : forall own (x y : vec), dot (gather own x) (gather own y) = lsum (map (fun g => nth g x 0 * nth g y 0) own).
    Proof. intros own x y. induction own as [|g own IH]; [reflexivity|]. cbn [gather map lsum]. rewrite <- IH. reflexivity. Qed.
    Lemma dot_ranks : forall x y : vec, length x = n -> length y = n -> dot x y = lsum (map (fun own => dot (gather own x) (gather own y)) owned).
    Proof.
      intros x y Hx Hy. rewrite (@dot_sumn K x y n Hx Hy), sum_ranks. apply lsum_map_ext. intros own _. symmetry. apply dot_gather.
    Qed.

    (** What every rank sees of the result. *)
    Lemma on_ranks_spec : forall (f : mat K -> vec -> vec) (A : mat K) r, nc A = n -> length r = n ->
      (forall own, In own owned -> length (f (local_block A own) (gather own r)) = length own) ->
      length (on_ranks f owned A r) = n /\ forall own, In own owned -> gather own (on_ranks f owned A r) = f (local_block A own) (gather own r).
    Proof.
      intros f A r DA Hr L. unfold on_ranks.
      assert (G : forall l (x : vec), incl l owned -> NoDup (concat l) -> length x = n ->
        let z := fold_left (fun x own => put_owned own (f (local_block A own) (gather own r)) x) l x in
        length z = n /\ (forall own, In own l -> gather own z = f (local_block A own) (gather own r)) /\
        forall g, ~ In g (concat l) -> nth g z 0 = nth g x 0).
      { induction l as [|o l IH]; intros x IN ND Hx; cbn [fold_left]; [split; auto; split; [intros own []|auto]|].
        cbn [concat] in ND. apply nodup_app in ND. destruct ND as (NO & NR & DJ).
        assert (IO : In o owned) by (apply IN; left; auto).
        set (x1 := put_owned o (f (local_block A o) (gather o r)) x).
        assert (L1 : length x1 = n) by (unfold x1; rewrite put_length; auto).
        destruct (IH x1 (fun a H => IN a (or_intror H)) NR L1) as (I1 & I2 & I3). split; [exact I1|]. split.
        - intros own [<-|I]; [|auto]. rewrite (@gather_ext o _ x1) by (intros g Hg; apply I3; auto).
          apply put_gather; auto. apply Forall_forall. intros g Hg. rewrite Hx. eapply owned_lt; eauto.
        - intros g Hg. rewrite I3 by (intros C; apply Hg; apply in_or_app; auto). apply put_other. intros C. apply Hg. apply in_or_app. auto. }
      destruct (G owned (vzero (nc A)) (incl_refl _) concat_NoDup) as (G1 & G2 & _); [vlen|]. split; auto.
    Qed.

    (** Linear and self-adjoint on every rank: the same for the whole. *)
    Lemma on_ranks_linear : forall (f : mat K -> vec -> vec) (A : mat K), nc A = n ->
      (forall own, In own owned -> linear (length own) (length own) (f (local_block A own))) -> linear n n (on_ranks f owned A).
    Proof.
      intros f A DA HF.
      assert (L : forall r own, In own owned -> length (f (local_block A own) (gather own r)) = length own).
      { intros r own I. apply (lin_len (HF own I)). apply gather_length. }
      assert (S : forall r, length r = n -> length (on_ranks f owned A r) = n) by (intros r Hr; apply on_ranks_spec; auto).
      assert (G : forall r own, length r = n -> In own owned -> gather own (on_ranks f owned A r) = f (local_block A own) (gather own r)).
      { intros r own Hr. apply (@on_ranks_spec f A r DA Hr (L r)). }
      assert (GA : forall own (x y : vec), In own owned -> length x = n -> length y = n -> gather own (vadd x y) = vadd (gather own x) (gather own y)).
      { intros own x y I Hx Hy. apply vec_ext; [rewrite vadd_length, !gather_length; lia|]. intros i Hi. rewrite gather_length in Hi.
        rewrite nth_vadd by (rewrite !gather_length; auto). rewrite !gather_nth by auto. apply nth_vadd. congruence. }
      assert (GS : forall own s (x : vec), gather own (vscale s x) = vscale s (gather own x)).
      { intros own s x. apply vec_ext; [rewrite vscale_length, !gather_length; lia|]. intros i Hi. rewrite gather_length in Hi.
        rewrite nth_vscale. rewrite !gather_nth by auto. apply nth_vscale. }
      constructor; auto.
      - intros x y Hx Hy. assert (Lxy : length (vadd x y) = n) by vlen.
        apply ranks_ext; auto. { rewrite vadd_length, !S by auto. apply Nat.min_id. }
        intros own I. rewrite (GA own (on_ranks f owned A x)) by auto. rewrite !G by auto. rewrite GA by auto. apply (lin_add (HF own I)); apply gather_length.
      - intros s x Hx. assert (Lx : length (vscale s x) = n) by vlen. apply ranks_ext; auto. { rewrite vscale_length. auto. }
        intros own I. rewrite GS, !G, GS by auto. apply (lin_scale (HF own I)). apply gather_length.
    Qed.
    Lemma on_ranks_sym : forall (f : mat K -> vec -> vec) (A : mat K), nc A = n ->
      (forall own, In own owned -> linear (length own) (length own) (f (local_block A own))) ->
      (forall own, In own owned -> self_adjoint (length own) (f (local_block A own))) -> self_adjoint n (on_ranks f owned A).
    Proof.
      intros f A DA HF HS x y Hx Hy.
      assert (L : forall r own, In own owned -> length (f (local_block A own) (gather own r)) = length own).
      { intros r own I. apply (lin_len (HF own I)). apply gather_length. }
      destruct (@on_ranks_spec f A x DA Hx (L x)) as (X1 & X2). destruct (@on_ranks_spec f A y DA Hy (L y)) as (Y1 & Y2).
      rewrite !dot_ranks by auto. apply lsum_map_ext. intros own I. rewrite X2, Y2 by auto. apply HS; auto; apply gather_length.
    Qed.

    Local Notation sameb := (sameb owned).
    Local Notation blocks := (@blocks K n owned).
    Lemma sameb_iff : forall i j, sameb i j = true <-> same_rank owned i j.
    Proof.
      intros i j. unfold sameb, same_rank. rewrite existsb_exists. split.
      - intros (own & I & T). apply andb_prop in T. destruct T as (T1 & T2). apply existsb_exists in T1, T2.
        destruct T1 as (a & Ia & Ea), T2 as (b & Ib & Eb). apply Nat.eqb_eq in Ea, Eb. subst. eauto.
      - intros (own & I & I1 & I2). exists own. split; auto. apply andb_true_intro. split; apply existsb_exists; [exists i|exists j]; (split; [assumption|apply Nat.eqb_refl]).
    Qed.
    Lemma blocks_gather : forall (A : mat K) x own, nc A = n -> length x = n -> In own owned ->
      gather own (mulvec (blocks A) x) = mulvec (local_block A own) (gather own x).
    Proof.
      intros A x own DA Hx I. apply vec_ext; [rewrite gather_length, mulvec_length; auto|]. intros i Hi. rewrite gather_length in Hi.
      rewrite gather_nth by auto. set (g := nth i own 0%nat). assert (Ig : In g own) by (apply nth_In; auto).
      pose proof (owned_lt own g I Ig) as Lg. rewrite !nth_mulvec by (cbn [nr blocks local_block]; auto). cbn [nc ent blocks local_block]. fold g.
      rewrite sum_ranks.
      transitivity (lsum (map (fun j => ent A g j * nth j x 0) own)).
      - assert (ND := concat_NoDup). revert I Ig ND. 
        assert (Z : forall own', In own' owned -> own' <> own -> In g own -> In own owned -> lsum (map (fun j => (if sameb g j then ent A g j else 0) * nth j x 0) own') = 0).
        { intros own' I' N Ig I. apply lsum_map_0. intros j Hj. destruct (sameb g j) eqn:E; [|ring]. exfalso. apply sameb_iff in E.
          destruct E as (o & O1 & O2 & O3). apply N. transitivity o; [|apply (@same_owner o own g); auto]. apply (@same_owner own' o j); auto. }
        assert (Y : In g own -> In own owned -> lsum (map (fun j => (if sameb g j then ent A g j else 0) * nth j x 0) own) = lsum (map (fun j => ent A g j * nth j x 0) own)).
        { intros Ig I. apply lsum_map_ext. intros j Hj. replace (sameb g j) with true; auto. symmetry. apply sameb_iff. exists own. auto. }
        intros I Ig _. rewrite <- (Y Ig I).
        assert (W : forall l, incl l owned -> NoDup (concat l) -> lsum (map (fun o => lsum (map (fun j => (if sameb g j then ent A g j else 0) * nth j x 0) o)) l) =
          if existsb (fun o => existsb (Nat.eqb g) o) l then lsum (map (fun j => (if sameb g j then ent A g j else 0) * nth j x 0) own) else 0).
        { induction l as [|o l IH]; intros IN ND; [reflexivity|]. cbn [map lsum existsb]. cbn [concat] in ND. apply nodup_app in ND. destruct ND as (NO & NR & DJ).
          rewrite IH by (auto; intros a Ha; apply IN; right; auto).
          destruct (existsb (Nat.eqb g) o) eqn:E.
          - apply existsb_exists in E. destruct E as (b & Ib & Eb). apply Nat.eqb_eq in Eb. subst b.
            assert (EO : o = own) by (apply (@same_owner o own g); auto; apply IN; left; auto). subst o.
            replace (existsb (fun o => existsb (Nat.eqb g) o) l) with false; [cbn [orb]; ring|].
            symmetry. apply Bool.not_true_iff_false. intros T. apply existsb_exists in T. destruct T as (o & O1 & O2).
            apply existsb_exists in O2. destruct O2 as (b & Ib' & Eb). apply Nat.eqb_eq in Eb. subst b.
            apply (DJ g Ib). apply in_concat. eauto.
          - cbn [orb]. rewrite Z; auto; [ring|apply IN; left; auto|]. intros ->.
            apply Bool.not_true_iff_false in E. apply E. apply existsb_exists. exists g. split; auto. apply Nat.eqb_refl. }
        rewrite (W owned (incl_refl _) concat_NoDup). replace (existsb (fun o => existsb (Nat.eqb g) o) owned) with true; auto.
        symmetry. apply existsb_exists. exists own. split; auto. apply existsb_exists. exists g. split; auto. apply Nat.eqb_refl.
      - rewrite (@lsum_nth K _ _ own 0%nat). apply sumn_ext. intros j Hj. rewrite gather_nth by auto. reflexivity.
    Qed.
    Lemma blocks_energy : forall (A : mat K) x, nc A = n -> length x = n ->
      energy (mulvec (blocks A)) x = lsum (map (fun own => energy (mulvec (local_block A own)) (gather own x)) owned).
    Proof.
      intros A x DA Hx. unfold energy. rewrite dot_ranks by (auto; rewrite mulvec_length; auto). apply lsum_map_ext. intros own I.
      rewrite blocks_gather by auto. reflexivity.
    Qed.
  End Dist.
End Ranks.
