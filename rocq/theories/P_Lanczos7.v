(** The result of one Lanczos run and of the cycles. *)
From Coq Require Import List Arith Lia Bool Field Sorted Permutation.
From Verif Require Import Base OField Mat LinAlg M_Perm S_Perm M_Lanczos S_Lanczos P_Span P_Deflate P_Lanczos P_Lanczos2 P_Lanczos3 P_Lanczos4 P_Lanczos5 P_Lanczos6.
Import ListNotations.
Set Implicit Arguments.
Open Scope nat_scope.

Section P.
  Variable K : ofield.
  Add Field KfLan7 : (f_field K).
  Local Open Scope K_scope.
  Notation vec := (vec K).
  Notation V vs j := (nth j vs ([] : vec)).
  Variable fsqrt : K -> option K.
  Hypothesis Hsq : sqrt_ok fsqrt.
  Variable debug : bool.
  Variable dstev : list K -> list K -> outcome (list K * list K).
  Hypothesis Hdstev : dstev_ok dstev.
  Variable tol2 : K.
  Hypothesis Ht : 0 <= tol2.
  Variable n : nat.

  (** Squares of nonnegative numbers are ordered like the numbers. *)
  Lemma fle_square : forall a b : K, 0 <= a -> a <= b -> a * a <= b * b.
  Proof.
    intros a b H1 H2. apply fle_trans with (a * b); [apply fle_mul_l; auto|]. replace (a * b) with (b * a) by ring. apply fle_mul_l; auto. apply fle_trans with a; auto.
  Qed.
  Lemma fabs_sq : forall x : K, fabs x * fabs x = x * x.
  Proof. intros x. unfold fabs. destruct (0 <=? x); ring. Qed.

  Section Run.
    Variable S : vec -> Prop.
    Variable op : vec -> vec.
    Hypothesis HS : subspace n S.
    Hypothesis Hop : symmetric_on S op.
    Variables (num maxit percent : nat) (tol : K).
    Hypothesis Hmax : (1 <= maxit)%nat.
    Hypothesis Hnum : (1 <= num)%nat.

    Lemma solve_lanczos_spec : forall guess evals ys, S guess ->
      solve_lanczos fsqrt debug dstev tol2 op num maxit tol percent guess = Ok (evals, ys) ->
      exists s k, lanczos_run fsqrt debug dstev tol2 op num maxit tol percent guess = Ok s /\
        final_inv fsqrt debug dstev tol2 num maxit percent tol (linv n S op) s k /\
        @kept_pairs K tol2 (s_main s) (s_sub s) num evals (s_evecs s) /\ evals = s_evals s /\
        length ys = num /\ forall i, (i < num)%nat -> V ys i = comb n (chunk k i (s_evecs s)) (firstn k (s_vectors s)).
    Proof.
      intros guess evals ys Sg E. unfold solve_lanczos in E.
      destruct (lanczos_run fsqrt debug dstev tol2 op num maxit tol percent guess) as [s| | | |] eqn:Er; cbn [bind] in E; try discriminate.
      destruct (run_linv _ _ _ _ _ _ _ HS Hop Hsq Hmax Sg Er) as (k & F & _).
      exists s, k. split; auto. split; auto.
      assert (L := fi_lin F).
      replace (if (s_it s <? maxit)%nat then s_it s else maxit) with k in E.
      2:{ rewrite (fi_it F). destruct (Nat.ltb_spec (s_it s) maxit); lia. }
      destruct (assert_dbg debug _); cbn [bind] in E; try discriminate.
      destruct (calc_evecs num k (s_vectors s) (s_evecs s)) as [ys'| | | |] eqn:Ec; cbn [bind] in E; try discriminate. injection E as <- <-.
      unfold calc_evecs in Ec. assert (Lv := li_len L). rewrite (rd_nth (s_vectors s) ([] : vec)) in Ec by (rewrite Lv; lia). cbn [bind] in Ec.
      assert (Sz := linv_sized HS L). assert (L0 : length (V (s_vectors s) 0) = n) by (apply sized_nth; auto; rewrite Lv; lia). rewrite L0 in Ec.
      assert (Hk := fi_k F). destruct (@calc_evecs_from_spec K num k 0 n (s_vectors s) (s_evecs s) ys' Sz ltac:(rewrite Lv; lia) Ec) as [Ly H].
      assert (Lm := li_main L). assert (Ls := li_sub L).
      destruct (@epairs_pairs K fsqrt Hsq debug dstev Hdstev tol2 Ht (s_main s) (s_sub s) num _ ltac:(lia) ltac:(lia) (fi_pairs F)) as [Z|Z].
      - exfalso. injection Z as Z1 Z2. destruct (H 0%nat ltac:(lia)) as [H1 _]. specialize (H1 ltac:(lia)). rewrite Z2 in H1. simpl in H1. nia.
      - cbn [fst snd] in Z. split; auto. split; auto. split; auto. intros i Hi. destruct (H i Hi) as [H1 H2]. simpl plus in H2. apply H2. rewrite (kp_lv Z), Lm. nia.
    Qed.

    (** One run: orthonormal vectors of the subspace, residuals, gaps. *)
    Lemma solve_lanczos_result : forall guess evals ys, S guess ->
      solve_lanczos fsqrt debug dstev tol2 op num maxit tol percent guess = Ok (evals, ys) ->
      length evals = num /\ length ys = num /\ (num <= maxit)%nat /\ orthonormal n ys /\ (forall i, (i < num)%nat -> S (V ys i)) /\
      (forall i j, (i < j)%nat -> (j < num)%nat -> nth i evals 0 + tol2 < nth j evals 0) /\
      exists s, lanczos_run fsqrt debug dstev tol2 op num maxit tol percent guess = Ok s /\
        let w := V (s_vectors s) (length (s_main s)) in
        (forall i, (i < num)%nat ->
           let c := nth (length (s_main s) - 1) (chunk (length (s_main s)) i (s_evecs s)) 0 in
           mulvec (tridiag (s_main s) (s_sub s)) (chunk (length (s_main s)) i (s_evecs s)) = vscale (nth i evals 0) (chunk (length (s_main s)) i (s_evecs s)) /\
           V ys i = comb n (chunk (length (s_main s)) i (s_evecs s)) (firstn (length (s_main s)) (s_vectors s)) /\
           vsub (op (V ys i)) (vscale (nth i evals 0) (V ys i)) = vscale c w /\
           (forall l, (l < num)%nat -> dot w (V ys l) = 0) /\ 
           dot (vscale c w) (vscale c w) = (s_beta s * c) * (s_beta s * c) /\
           ((s_it s <= maxit)%nat -> dot (vscale c w) (vscale c w) <= tol * tol)) /\
        ((s_it s <= maxit)%nat \/ length (s_main s) = maxit).
    Proof.
      intros guess evals ys Sg E. destruct (solve_lanczos_spec Sg E) as (s & k & Er & F & Kp & Ee & Ly & Hy).
      assert (L := fi_lin F). assert (Hk := fi_k F). assert (Lm := li_main L). assert (O := linv_orthonormal HS L). assert (Lk := linv_len_k L).
      assert (Kn := kp_num Kp). rewrite Lm in Kn.
      assert (Lc : forall i, (i < num)%nat -> length (chunk k i (s_evecs s)) = k). { intros i Hi. eapply chunk_length; [|exact Hi]. rewrite (kp_lv Kp), Lm. auto. }
      assert (Oc := kp_orth Kp). rewrite Lm in Oc.
      assert (Dy : forall i j, (i < num)%nat -> (j < num)%nat -> dot (V ys i) (V ys j) = if (i =? j)%nat then 1 else 0).
      { intros i j Hi Hj. rewrite !Hy by auto. rewrite (dot_combs (chunk k i (s_evecs s)) (chunk k j (s_evecs s)) O) by (rewrite Lk; auto).
        destruct Oc as [_ Oc]. specialize (Oc i j). rewrite map_length, seq_length in Oc. specialize (Oc Hi Hj).
        rewrite !(nth_map_in (fun i => chunk k i (s_evecs s)) (seq 0 num) 0%nat []) in Oc by (rewrite seq_length; auto). rewrite !seq_nth in Oc by auto. exact Oc. }
      assert (Sy : forall i, (i < num)%nat -> S (V ys i)).
      { intros i Hi. rewrite Hy by auto. apply (su_comb HS); [rewrite Lk; lia|rewrite Lk; auto|apply (linv_S_k L)]. }
      split; [apply (kp_le Kp)|]. split; auto. split; [lia|]. split.
      { split; [|rewrite Ly; auto]. apply Forall_forall. intros v Hv. destruct (in_nth_v _ _ Hv) as (j & Hj & <-). rewrite Ly in Hj. apply (su_len HS). auto. }
      split; auto. split; [apply (kp_gap Kp)|]. exists s. split; auto. cbv zeta. rewrite Lm. split.
      - intros i Hi.
        assert (Ew : forall l, (l < num)%nat -> dot (V (s_vectors s) k) (V ys l) = 0).
        { intros l Hl. rewrite Hy by auto. rewrite dot_comm. rewrite dot_comb_l by (rewrite ?Lk; auto; apply O). apply sumn_zero. intros j Hj. rewrite Lk in Hj.
          rewrite (nth_firstn_v L) by auto. rewrite dot_comm. rewrite (li_rest L) by auto. ring. }
        assert (Kq := kp_eig Kp Hi). rewrite Lm in Kq. split; [exact Kq|]. split; [apply Hy; auto|].
        assert (Lw : length (V (s_vectors s) k) = n) by (apply (su_len HS); apply (li_S L); lia).
        split; [|split; [auto|split]].
        + rewrite Hy by auto. assert (Ly' : length (comb n (chunk k i (s_evecs s)) (firstn k (s_vectors s))) = n) by (apply comb_length; apply O).
          rewrite (ritz_residual HS Hop L (nth i evals 0) (chunk k i (s_evecs s)) ltac:(lia) (Lc i Hi) Kq).
          apply vec_ext; [unfold OField.vec in *; rewrite vsub_length, vadd_length, !vscale_length, ?Ly', ?Lw; lia|].
          intros l Hl. rewrite nth_vsub, nth_vadd, !nth_vscale by (unfold OField.vec in *; rewrite ?vadd_length, ?vscale_length, ?Ly', ?Lw; lia). ring.
        + rewrite dot_scale_l, dot_scale_r. rewrite <- (li_beta L). ring.
        + intros Hc. assert (C := fi_conv F). apply Nat.leb_le in Hc. rewrite Hc in C. unfold check_convergence in C.
          destruct (k <? num)%nat; [discriminate|]. apply check_bounds_spec in C. destruct C as [_ C]. destruct (proj1 C eq_refl) as [_ C1].
          specialize (C1 i ltac:(lia)). rewrite dot_scale_l, dot_scale_r. rewrite <- (li_beta L).
          rewrite nth_chunk by lia. set (x := nth (k - 1 + k * i) (s_evecs s) 0) in *. set (b := s_beta s) in *.
          assert (Q : x * (x * (b * b)) = b * fabs x * (b * fabs x)). { replace (b * fabs x * (b * fabs x)) with (b * b * (fabs x * fabs x)) by ring. rewrite fabs_sq. ring. }
          rewrite Q. apply fle_square; auto. apply fle_mul; [apply (li_beta0 L)|apply fabs_nonneg].
      - assert (Hi := fi_it F). destruct (le_lt_dec (s_it s) maxit); [left; auto|right; lia].
    Qed.
  End Run.

  (** ** Cycles *)
  Definition complement (ds : list vec) (x : vec) : Prop := length x = n /\ orth_to ds x.
  Lemma complement_sub : forall ds, subspace n (complement ds).
  Proof.
    intros ds. constructor.
    - intros x H. apply H.
    - intros x y [L1 O1] [L2 O2]. split; [rewrite vadd_length; unfold OField.vec in *; lia|]. intros v Hv. rewrite dot_add_l by (unfold OField.vec in *; lia). rewrite O1, O2 by auto. ring.
    - intros s x [L1 O1]. split; [rewrite vscale_length; auto|]. intros v Hv. rewrite dot_scale_l, O1 by auto. ring.
  Qed.
  Lemma complement_sym : forall op ds, (forall x, length x = n -> length (op x) = n) -> (forall x y, length x = n -> length y = n -> dot (op x) y = dot x (op y)) ->
    orthonormal n ds -> symmetric_on (complement ds) (deflated_vmult op ds).
  Proof.
    intros op ds L Sy O. assert (Sz := proj1 O). constructor.
    - intros x [Lx Ox]. unfold deflated_vmult. split; [apply deflate_length; auto|apply (@deflate_orth K n); auto].
    - intros x y [Lx Ox] [Ly Oy]. unfold deflated_vmult. rewrite (deflate_dot (op x) Sz) by auto. rewrite (dot_comm x). rewrite (deflate_dot (op y) Sz) by auto.
      rewrite Sy by auto. apply dot_comm.
  Qed.

  Variable rand : nat -> nat -> K.
  Lemma perturb_length : forall v seed i, length (perturb_from rand seed i v) = length v.
  Proof. induction v; intros; simpl; auto. Qed.

  Lemma push_pairs_spec : forall k i evals (ys : list vec) ps, push_pairs k i evals ys = Ok ps ->
    length ps = k /\ forall l, (l < k)%nat -> nth l ps (0, []) = (nth (i + l) evals 0, V ys (i + l)) /\ (i + l < length evals)%nat /\ (i + l < length ys)%nat.
  Proof.
    induction k as [|k IH]; intros i evals ys ps E; cbn [push_pairs] in E.
    - injection E as <-. split; auto. intros; lia.
    - destruct (rd evals i) as [e| | | |] eqn:R1; cbn [bind] in E; try discriminate.
      destruct (rd ys i) as [v| | | |] eqn:R2; cbn [bind] in E; try discriminate.
      destruct (push_pairs k (S i) evals ys) as [r| | | |] eqn:R3; cbn [bind] in E; try discriminate. injection E as <-.
      destruct (IH _ _ _ _ R3) as [L H]. split; [simpl; lia|].
      assert (B1 : (i < length evals)%nat). { unfold rd in R1. destruct (nth_error evals _) eqn:Q in R1; [|discriminate]. eapply nth_error_lt; eauto. }
      assert (B2 : (i < length ys)%nat). { unfold rd in R2. destruct (nth_error ys _) eqn:Q in R2; [|discriminate]. eapply nth_error_lt; eauto. }
      rewrite (rd_nth evals 0 B1) in R1. rewrite (rd_nth ys ([] : vec) B2) in R2. injection R1 as R1. injection R2 as R2.
      intros [|l] Hl; simpl.
      + rewrite Nat.add_0_r. rewrite R1, R2. auto.
      + rewrite Nat.add_succ_r. apply H. lia.
  Qed.

  (** All vectors found are orthonormal, and orthogonal to the vectors deflated before. *)
  Lemma orthonormal_app : forall us vs : list vec, orthonormal n us -> orthonormal n vs -> (forall u v, In u us -> In v vs -> dot u v = 0) -> orthonormal n (us ++ vs).
  Proof.
    intros us vs [S1 O1] [S2 O2] H. split; [apply Forall_app; auto|]. intros i j Hi Hj. rewrite app_length in Hi, Hj.
    destruct (le_lt_dec (length us) i) as [A|A], (le_lt_dec (length us) j) as [B|B].
    - rewrite !app_nth2 by auto. rewrite O2 by lia. destruct (Nat.eqb_spec (i - length us) (j - length us)), (Nat.eqb_spec i j); auto; lia.
    - rewrite (app_nth2 _ _ _ A), (app_nth1 _ _ _ B). rewrite dot_comm. rewrite H by (apply nth_In; lia). destruct (Nat.eqb_spec i j); auto; lia.
    - rewrite (app_nth1 _ _ _ A), (app_nth2 _ _ _ B). rewrite H by (apply nth_In; lia). destruct (Nat.eqb_spec i j); auto; lia.
    - rewrite !app_nth1 by auto. apply O1; auto.
  Qed.

  Variable op : vec -> vec.
  Hypothesis Hlen : forall x, length x = n -> length (op x) = n.
  Hypothesis Hsym : forall x y, length x = n -> length y = n -> dot (op x) y = dot x (op y).

  Lemma orthonormal_in : forall (ys : list vec) y, orthonormal n ys -> In y ys -> length y = n.
  Proof. intros ys y [Sz _] H. apply (sized_in y Sz H). Qed.

  Lemma map_snd_pairs : forall evals (ys : list vec) num ps, push_pairs num 0 evals ys = Ok ps -> length ys = num -> length evals = num -> map snd ps = ys /\ map fst ps = evals.
  Proof.
    intros evals ys num ps E L1 L2. destruct (push_pairs_spec _ _ _ _ E) as [L H]. split.
    - apply (@list_ext _ _ _ ([] : vec)); [rewrite map_length; unfold OField.vec in *; lia|]. intros i Hi. rewrite map_length in Hi.
      rewrite (nth_map_in snd ps (0, []) []) by auto. destruct (H i ltac:(lia)) as [-> _]. auto.
    - apply (@list_ext _ _ _ 0); [rewrite map_length; lia|]. intros i Hi. rewrite map_length in Hi.
      rewrite (nth_map_in fst ps (0, []) 0) by auto. destruct (H i ltac:(lia)) as [-> _]. auto.
  Qed.

  Lemma cycles_spec : forall num maxit percent tol, (1 <= num)%nat -> (1 <= maxit)%nat ->
    forall k cycle ds guess ps, orthonormal n ds -> length guess = n ->
    cycles fsqrt debug dstev tol2 rand k cycle op num maxit tol percent ds guess = Ok ps ->
    length ps = (k * num)%nat /\ orthonormal n (map snd ps) /\ (forall p, In p ps -> orth_to ds (snd p)).
  Proof.
    intros num maxit percent tol Hn Hm. induction k as [|k IH]; intros cycle ds guess ps O Lg E; cbn [cycles] in E.
    - injection E as <-. split; auto. split; [|intros p []]. split; [constructor|]. intros i j Hi. simpl in Hi. lia.
    - set (g1 := if (0 <? cycle)%nat then set_initial_guess rand guess cycle else guess) in *.
      assert (L1 : length g1 = n). { unfold g1. destruct (0 <? cycle)%nat; auto. unfold set_initial_guess. rewrite perturb_length. auto. }
      set (g := deflate ds g1) in *. assert (Sz := proj1 O).
      assert (Cg : complement ds g). { split; [apply deflate_length; auto|apply (@deflate_orth K n); auto]. }
      destruct (solve_lanczos fsqrt debug dstev tol2 (deflated_vmult op ds) num maxit tol percent g) as [[evals ys]| | | |] eqn:Es; cbn [bind fst snd] in E; try discriminate.
      destruct (push_pairs num 0 evals ys) as [ps1| | | |] eqn:Ep; cbn [bind] in E; try discriminate.
      destruct (@solve_lanczos_result (complement ds) (deflated_vmult op ds) (complement_sub ds) (@complement_sym op ds Hlen Hsym O) num maxit percent tol Hm Hn g evals ys Cg Es) as (Le & Ly & Lmax & Oy & Sy & _).
      destruct (map_snd_pairs _ _ Ep Ly Le) as [M1 M2].
      assert (Ody : forall y, In y ys -> orth_to ds y). { intros y Hy. destruct (in_nth_v _ _ Hy) as (j & Hj & <-). apply Sy. rewrite <- Ly. auto. }
      assert (Lp1 : length ps1 = num) by (rewrite <- (map_length fst), M2; auto).
      assert (P1 : forall p, In p ps1 -> orth_to ds (snd p)). { intros p Hp. apply Ody. rewrite <- M1. apply in_map. auto. }
      destruct k as [|k].
      + cbn [cycles Nat.eqb bind] in E. injection E as <-. rewrite app_nil_r. split; [lia|]. rewrite M1. split; auto.
      + cbn [Nat.eqb] in E. destruct (@add_spec K n fsqrt Hsq debug ds ys O (proj1 Oy)) as [(ds' & Ea & O' & Ld & Fd & Sd & _)|[[Ea _]|[Ea _]]].
        2:{ rewrite Ea in E. destruct debug; discriminate. } 2:{ rewrite Ea in E. discriminate. }
        rewrite Ea in E. cbn [bind] in E.
        destruct (cycles fsqrt debug dstev tol2 rand (S k) (S cycle) op num maxit tol percent ds' g) as [r| | | |] eqn:Er; cbn [bind] in E; try discriminate.
        injection E as <-. apply IH in Er; auto; [|apply Cg]. destruct Er as (L3 & O3 & H3).
        assert (Szy : sized_all n (ds ++ ys)) by (apply Forall_app; split; [auto|apply Oy]).
        assert (Orth : forall p, In p r -> forall v, In v (ds ++ ys) -> dot (snd p) v = 0).
        { intros p Hp v Hv. apply (@orth_span K n ds'); auto; [apply O'|]. apply Sd. apply span_in; auto. }
        split; [rewrite app_length, L3; simpl; lia|]. split.
        * rewrite map_app. apply orthonormal_app; auto; [rewrite M1; auto|]. intros u v Hu Hv. rewrite M1 in Hu. apply in_map_iff in Hv. destruct Hv as (p & <- & Hp).
          rewrite dot_comm. apply Orth; auto. apply in_or_app; auto.
        * intros p Hp. apply in_app_or in Hp. destruct Hp as [Hp|Hp]; auto. intros v Hv. apply Orth; auto. apply in_or_app; auto.
  Qed.
End P.
