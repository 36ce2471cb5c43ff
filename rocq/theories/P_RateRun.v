(** Proofs about the measured convergence rate. *)
From Coq Require Import String List Arith ZArith Bool Lia Field.
From Verif Require Import Base OField Mat LinAlg M_Ptree M_Hier S_Hier P_Hier P_HierC P_HierE P_HierS M_Smoother P_Smoother M_Host S_Host M_HostEnd S_HostEnd S_Rate P_Rate M_RateRun S_RateRun.
Import ListNotations.
Set Implicit Arguments.
Open Scope list_scope.
Open Scope nat_scope.

Section P.
  Variable K : ofield.
  Add Field KfieldRateRun : (f_field K).
  Local Open Scope K_scope.
  Notation vec := (vec K).
  Ltac vx := unfold OField.vec in *; vext; try ring.

  (** The two-grid cycle acts on errors; [u]: the error after the coarse correction. *)
  Lemma two_grid_parts : forall (A R : mat K) B k x0 y xs, nr A = nc A -> spd (nc A) (mulvec A) -> linear (nc A) (nc A) B -> nc R = nc A ->
    length x0 = nc A -> length xs = nc A -> two_grid A R B k (mulvec A xs) x0 y ->
    exists c u, length c = nr R /\ u = vsub (iter k (error_step (mulvec A) B) (vsub xs x0)) (mulTvec R c) /\ length u = nc A /\
      (forall w, length w = nr R -> dot (mulvec A u) (mulTvec R w) = 0) /\ vsub xs y = iter k (error_step (mulvec A) B) u /\ length y = nc A.
  Proof.
    intros A R B k x0 y xs D SA LB DR Lx Ls (c & Lc & Ec & ->).
    assert (LA : linear (nc A) (nc A) (mulvec A)) by (pose proof (mulvec_linear A) as X; rewrite D in X; exact X).
    assert (LP : linear (nr R) (nc A) (mulTvec R)) by (rewrite <- DR; apply mulTvec_linear).
    assert (LR : linear (nc A) (nr R) (mulvec R)) by (rewrite <- DR; apply mulvec_linear).
    set (n := nc A) in *.
    set (e := vsub xs x0) in *. assert (Le : length e = n) by (unfold e; vlen).
    assert (X0 : x0 = vsub xs e) by (unfold e; vx). clearbody e. subst x0.
    rewrite (iter_error LA LB) in * by auto. set (e1 := iter k (error_step (mulvec A) B) e) in *.
    assert (Le1 : length e1 = n) by (unfold e1; apply (@iter_len K n (mulvec A) B LA LB); auto).
    pose proof (lin_len LP _ Lc) as LPc.
    exists c, (vsub e1 (mulTvec R c)). split; [exact Lc|]. split; [reflexivity|]. assert (Lf : length (vsub e1 (mulTvec R c)) = n) by vlen. split; [exact Lf|]. split.
    - intros w Lw. rewrite dot_comm.
      assert (LAf : length (mulvec A (vsub e1 (mulTvec R c))) = n) by (apply (lin_len LA); auto).
      assert (Q : dot (mulTvec R w) (mulvec A (vsub e1 (mulTvec R c))) = dot w (mulvec R (mulvec A (vsub e1 (mulTvec R c))))).
      { apply mulTvec_adjoint; auto. rewrite DR. auto. }
      rewrite Q. rewrite (lin_sub LA) by auto. rewrite (lin_sub LR) by (apply (lin_len LA); auto). rewrite Ec.
      assert (Y : vsub (mulvec A xs) (mulvec A (vsub xs e1)) = mulvec A e1).
      { rewrite (lin_sub LA) by auto. pose proof (lin_len LA _ Ls). pose proof (lin_len LA _ Le1). vx. }
      rewrite Y, vsub_self, dot_zero_r. reflexivity.
    - assert (X : vadd (vsub xs e1) (mulTvec R c) = vsub xs (vsub e1 (mulTvec R c))) by vx. rewrite X. clear X.
      rewrite (iter_error LA LB) by auto.
      assert (Lg : length (iter k (error_step (mulvec A) B) (vsub e1 (mulTvec R c))) = n) by (apply (@iter_len K n (mulvec A) B LA LB); auto).
      set (z := iter k (error_step (mulvec A) B) (vsub e1 (mulTvec R c))) in *. clearbody z. split; [vx|vlen].
  Qed.

  Lemma two_grid_symmetric : forall (A R : mat K) B k x y xs x' y' xs', nr A = nc A -> spd (nc A) (mulvec A) -> linear (nc A) (nc A) B -> self_adjoint (nc A) B -> nc R = nc A ->
    length x = nc A -> length xs = nc A -> length x' = nc A -> length xs' = nc A ->
    two_grid A R B k (mulvec A xs) x y -> two_grid A R B k (mulvec A xs') x' y' ->
    dot (mulvec A (vsub xs y)) (vsub xs' x') = dot (mulvec A (vsub xs x)) (vsub xs' y') /\ 0 <= dot (mulvec A (vsub xs y)) (vsub xs x).
  Proof.
    intros A R B k x y xs x' y' xs' D SA LB SB DR Lx Ls Lx' Ls' T T'.
    assert (LA : linear (nc A) (nc A) (mulvec A)) by (pose proof (mulvec_linear A) as X; rewrite D in X; exact X).
    destruct (@two_grid_parts A R B k x y xs D SA LB DR Lx Ls T) as (c & u & Lc & Eu & Lu & O & -> & _).
    destruct (@two_grid_parts A R B k x' y' xs' D SA LB DR Lx' Ls' T') as (c' & u' & Lc' & Eu' & Lu' & O' & -> & _).
    assert (LP : linear (nr R) (nc A) (mulTvec R)) by (rewrite <- DR; apply mulTvec_linear).
    set (n := nc A) in *. set (e := vsub xs x) in *. set (e' := vsub xs' x') in *.
    assert (Le : length e = n) by (unfold e; vlen). assert (Le' : length e' = n) by (unfold e'; vlen). clearbody e e'.
    pose proof (lin_len LP _ Lc) as LPc. pose proof (lin_len LP _ Lc') as LPc'.
    assert (Li := @iter_len K n (mulvec A) B LA LB k e Le). assert (Li' := @iter_len K n (mulvec A) B LA LB k e' Le').
    pose proof (lin_len LA _ Lu) as LAu. pose proof (lin_len LA _ Lu') as LAu'.
    assert (M : forall z z' d : vec, length z = n -> length d = nr R -> (forall w, length w = nr R -> dot (mulvec A z) (mulTvec R w) = 0) -> length z' = n ->
      dot (mulvec A z) (vsub z' (mulTvec R d)) = dot (mulvec A z) z').
    { intros z z' d Lz Ld Oz Lz'. rewrite dot_sub_r by (rewrite Lz', (lin_len LP _ Ld); auto). rewrite (Oz d Ld). ring. }
    split.
    - rewrite (@iter_sym K n (mulvec A) B LA SA LB SB) by auto. rewrite <- (M u _ c' Lu Lc' O Li'), <- Eu'.
      rewrite <- (@iter_sym K n (mulvec A) B LA SA LB SB) by auto.
      assert (E2 : dot (mulvec A (iter k (error_step (mulvec A) B) e)) u' = dot (mulvec A u') (iter k (error_step (mulvec A) B) e)).
      { rewrite (proj1 SA) by auto. apply dot_comm. }
      rewrite E2, <- (M u' _ c Lu' Lc O' Li), <- Eu. rewrite (proj1 SA) by auto. apply dot_comm.
    - rewrite (@iter_sym K n (mulvec A) B LA SA LB SB) by auto. rewrite <- (M u _ c Lu Lc O Li), <- Eu. apply (@energy_nonneg K n (mulvec A) LA SA). exact Lu.
  Qed.

  Lemma repeated_last : forall te (h : hierarchy K) b k x l,
    repeated_vmult te h b (S k) x l = match repeated_vmult te h b k x l with (Ok y, l') => hierarchy_vmult te h y b l' | r => r end.
  Proof.
    intros te h b. induction k as [|k IH]; intros x l.
    - cbn [repeated_vmult]. destruct (hierarchy_vmult te h x b l) as [[] ?]; reflexivity.
    - change (repeated_vmult te h b (S (S k)) x l) with (match hierarchy_vmult te h x b l with (Ok y, l') => repeated_vmult te h b (S k) y l' | r => r end).
      change (repeated_vmult te h b (S k) x l) with (match hierarchy_vmult te h x b l with (Ok y, l') => repeated_vmult te h b k y l' | r => r end).
      destruct (hierarchy_vmult te h x b l) as [[] ?]; try reflexivity. apply IH.
  Qed.

  Lemma loop_spec : forall te A (h : hierarchy K) b r0 (T : nat -> vec) (G : nat -> list tev),
    (forall k, hierarchy_vmult te h (T k) b (G k) = (Ok (T (S k)), G (S k))) ->
    forall n j res, rate_loop te A h b r0 n (T j) res (G j) =
      (Ok (res ++ map (fun k => xdiv (Num (dot (rhs_residual A (T k) b) (rhs_residual A (T k) b))) (Num r0)) (seq (S j) n)), G (j + n)%nat).
  Proof.
    intros te A h b r0 T G H. induction n as [|n IH]; intros j res.
    - cbn. rewrite app_nil_r, Nat.add_0_r. reflexivity.
    - cbn [rate_loop]. unfold pbind. rewrite H. rewrite IH. rewrite <- app_assoc. replace (S j + n)%nat with (j + S n)%nat by lia. reflexivity.
  Qed.

  Section Run.
    Variables (n : nat) (A : vec -> vec) (h : hierarchy K) (rho : K).
    Hypothesis LA : linear n n A.
    Hypothesis SA : spd n A.
    Hypothesis HR : reducing_cycle n A h rho.

    Section Start.
      Variables (te : tenv) (x xs : vec) (l : list tev).
      Hypothesis Hl : open_sections l = [].
      Hypothesis Lx : length x = n.
      Hypothesis Ls : length xs = n.
      Lemma run_ok : forall k, exists y l', repeated_vmult te h (A xs) k x l = (Ok y, l') /\ open_sections l' = [] /\ length y = n.
      Proof.
        induction k as [|k (y & l' & E & O & Ly)]; [exists x, l; auto|].
        destruct (HR te _ _ _ O Ly Ls) as (z & l2 & E2 & O2 & Lz & _). exists z, l2. rewrite repeated_last, E. auto.
      Qed.
      Definition tr (k : nat) : vec := match repeated_vmult te h (A xs) k x l with (Ok y, _) => y | _ => x end.
      Definition tl (k : nat) : list tev := snd (repeated_vmult te h (A xs) k x l).
      Lemma tr_ok : forall k, repeated_vmult te h (A xs) k x l = (Ok (tr k), tl k) /\ open_sections (tl k) = [] /\ length (tr k) = n.
      Proof. intros k. destruct (run_ok k) as (y & l' & E & O & Ly). unfold tr, tl. rewrite E. auto. Qed.
      Lemma tr_step : forall k, hierarchy_vmult te h (tr k) (A xs) (tl k) = (Ok (tr (S k)), tl (S k)).
      Proof.
        intros k. destruct (tr_ok k) as (E & _). destruct (tr_ok (S k)) as (E2 & _). rewrite repeated_last, E in E2. exact E2.
      Qed.
      Definition en (k : nat) : K := energy A (vsub xs (tr k)).
      Lemma err_len : forall k, length (vsub xs (tr k)) = n.
      Proof. intros k. destruct (tr_ok k) as (_ & _ & Lk). vlen. Qed.
      Lemma en_nonneg : forall k, 0 <= en k.
      Proof. intros k. apply (@energy_nonneg K n A LA SA), err_len. Qed.
      Lemma en_step : forall k, en (S k) <= rho * rho * en k.
      Proof.
        intros k. destruct (tr_ok k) as (E & O & Lk). destruct (HR te _ _ _ O Lk Ls) as (y & l' & E2 & _ & _ & EN). rewrite tr_step in E2.
        assert (Ey : Ok (tr (S k)) = Ok y) by (injection E2 as E2 _; rewrite E2; reflexivity). injection Ey as Ey. rewrite <- Ey in EN. exact EN.
      Qed.
      Lemma fpow_nonneg : forall (a : K) k, 0 <= a -> 0 <= fpow a k.
      Proof. intros a k Ha. induction k; cbn [fpow]; [apply f0_le_1|]. apply fle_mul; auto. Qed.
      Lemma en_power : forall k, en k <= fpow (rho * rho) k * en 0.
      Proof.
        induction k as [|k IH].
        - cbn [fpow]. replace (1 * en 0) with (en 0) by ring. apply fle_refl.
        - eapply fle_trans; [apply en_step|]. cbn [fpow]. replace (rho * rho * fpow (rho * rho) k * en 0) with (rho * rho * (fpow (rho * rho) k * en 0)) by ring.
          apply fle_mul_l; [apply fsquare_nonneg|exact IH].
      Qed.
      Lemma residual_error : forall k, vsub (A xs) (A (tr k)) = A (vsub xs (tr k)).
      Proof. intros k. destruct (tr_ok k) as (_ & _ & Lk). rewrite (lin_sub LA) by auto. reflexivity. Qed.
      Lemma rhs_residual_eq : forall k, rhs_residual A (tr k) (A xs) = A (vsub xs (tr k)).
      Proof.
        intros k. rewrite <- residual_error. unfold rhs_residual. destruct (tr_ok k) as (_ & _ & Lk). pose proof (lin_len LA _ Lk). pose proof (lin_len LA _ Ls). vx.
      Qed.
      Notation rr k := (residual2 A (A xs) (tr k)).
      Lemma rr_eq : forall k, rr k = dot (A (vsub xs (tr k))) (A (vsub xs (tr k))).
      Proof. intros k. unfold residual2. rewrite residual_error. reflexivity. Qed.
      Lemma rr_zero_next : forall k, rr k = 0 -> rr (S k) = 0.
      Proof.
        intros k E. rewrite rr_eq in E. apply dot_self_0 in E.
        assert (Z : en k = 0).
        { unfold en, energy. rewrite E. apply dot_zero_l. }
        assert (Z2 : en (S k) = 0).
        { apply fle_antisym; [|apply en_nonneg]. eapply fle_trans; [apply en_step|]. rewrite Z. replace (rho * rho * 0) with (0 : K) by ring. apply fle_refl. }
        rewrite rr_eq. destruct (list_eq_dec (feq_dec K) (vsub xs (tr (S k))) (vzero n)) as [Q|Q].
        - rewrite Q. pose proof (lin_zero LA) as Z0. rewrite Z0. apply dot_zero_l.
        - exfalso. pose proof (proj2 SA _ (err_len (S k)) Q) as P. unfold en in Z2. unfold energy in *. rewrite Z2 in P. exact (flt_irrefl P).
      Qed.
      Lemma rr_zero_later : forall k j, rr k = 0 -> rr (j + k)%nat = 0.
      Proof. intros k j E. induction j; [exact E|]. apply (rr_zero_next _ IHj). Qed.

      Lemma rate_value : forall N, exists v, vcycle_rate te A h (S N) x (A xs) l = (Ok v, tl (S N)) /\ reports (rr (S N)) (rr N) v.
      Proof.
        intros N. unfold vcycle_rate, pbind. set (r0 := dot (rhs_residual A x (A xs)) (rhs_residual A x (A xs))).
        assert (T0 : tr 0 = x) by reflexivity. assert (L0 : tl 0 = l) by reflexivity.
        pose proof (@loop_spec te A h (A xs) r0 tr tl tr_step (S N) 0%nat [Num 1]) as E. rewrite T0, L0 in E. rewrite E.
        assert (R0 : r0 = rr 0) by (unfold r0; rewrite <- T0 at 1 2; rewrite !rhs_residual_eq, rr_eq; reflexivity).
        set (f := fun k => xdiv (Num (dot (rhs_residual A (tr k) (A xs)) (rhs_residual A (tr k) (A xs)))) (Num r0)).
        assert (Ef : forall k, f k = xdiv (Num (rr k)) (Num (rr 0))) by (intros k; unfold f; rewrite !rhs_residual_eq, <- rr_eq, R0; reflexivity).
        exists (xdiv (nth (S N) ([Num 1] ++ map f (seq 1 (S N))) NaN) (nth (S N - 1) ([Num 1] ++ map f (seq 1 (S N))) NaN)). split; [reflexivity|].
        assert (N1 : forall k, (k < S N)%nat -> nth (S k) ([Num 1] ++ map f (seq 1 (S N))) NaN = f (S k)).
        { intros k Hk. cbn [app nth]. rewrite (nth_indep _ NaN (f 0%nat)) by (rewrite map_length, seq_length; exact Hk). rewrite map_nth, seq_nth by exact Hk. reflexivity. }
        rewrite N1 by lia. replace (S N - 1)%nat with N by lia.
        destruct (feq_dec K (rr 0) 0) as [Z|NZ].
        - left. split; [rewrite <- (Nat.add_0_r N); apply rr_zero_later; exact Z|].
          assert (F : forall k, f k = NaN).
          { intros k. rewrite Ef. cbn [xdiv]. rewrite Z. rewrite (proj2 (feqb_eq K 0 0) eq_refl).
            replace (rr k) with (0 : K) by (symmetry; rewrite <- (Nat.add_0_r k); apply rr_zero_later; exact Z). rewrite (proj2 (feqb_eq K 0 0) eq_refl). reflexivity. }
          rewrite F. destruct N; [reflexivity|]. rewrite N1 by lia. rewrite F. reflexivity.
        - assert (F : forall k, f k = Num (rr k / rr 0)).
          { intros k. rewrite Ef. cbn [xdiv]. destruct (feqb (rr 0) 0) eqn:Q; [apply feqb_eq in Q; contradiction|reflexivity]. }
          assert (G : nth N ([Num 1] ++ map f (seq 1 (S N))) NaN = Num (rr N / rr 0)).
          { destruct N as [|N']; [cbn; f_equal; field; exact NZ|]. rewrite N1 by lia. apply F. }
          rewrite G, F. cbn [xdiv]. destruct (feqb (rr N / rr 0) 0) eqn:Q.
          + apply feqb_eq in Q. assert (Z : rr N = 0) by (transitivity (rr N / rr 0 * rr 0); [field; exact NZ|rewrite Q; ring]).
            left. split; [exact Z|]. rewrite (rr_zero_next _ Z). replace (0 / rr 0) with (0 : K) by (field; exact NZ). rewrite (proj2 (feqb_eq K 0 0) eq_refl). reflexivity.
          + assert (NN : rr N <> 0).
            { intros Z. rewrite Z in Q. replace (0 / rr 0) with (0 : K) in Q by (field; exact NZ). rewrite (proj2 (feqb_eq K 0 0) eq_refl) in Q. discriminate. }
            right. split; [exact NN|]. f_equal. field. auto.
      Qed.

      Section Bounds.
        Variables mu Lam : K.
        Hypothesis Hmu : forall v, length v = n -> mu * energy A v <= dot (A v) (A v).
        Hypothesis HLam : forall v, length v = n -> dot (A v) (A v) <= Lam * energy A v.
        Hypothesis Pm : 0 < mu.
        Hypothesis PL : 0 <= Lam.
        Lemma rr_bound : forall N, mu * rr (S N) <= Lam * (rho * rho) * rr N.
        Proof.
          intros N. rewrite !rr_eq. pose proof (HLam _ (err_len (S N))) as H1. pose proof (Hmu _ (err_len N)) as H2. pose proof (en_step N) as H3. unfold en in H3.
          set (a := dot (A (vsub xs (tr (S N)))) (A (vsub xs (tr (S N))))) in *. set (b := dot (A (vsub xs (tr N))) (A (vsub xs (tr N)))) in *.
          set (p := energy A (vsub xs (tr (S N)))) in *. set (q := energy A (vsub xs (tr N))) in *.
          apply (@fle_mul_l K mu _ _ (flt_le Pm)) in H1. eapply fle_trans; [exact H1|].
          assert (P2 : 0 <= mu * Lam) by (apply fle_mul; [apply flt_le; exact Pm|exact PL]).
          apply (@fle_mul_l K _ _ _ P2) in H3. replace (mu * (Lam * p)) with (mu * Lam * p) by ring. eapply fle_trans; [exact H3|].
          assert (P3 : 0 <= Lam * (rho * rho)) by (apply fle_mul; [exact PL|apply fsquare_nonneg]).
          apply (@fle_mul_l K _ _ _ P3) in H2. replace (mu * Lam * (rho * rho * q)) with (Lam * (rho * rho) * (mu * q)) by ring. exact H2.
        Qed.
        Lemma rr_total : forall N, mu * rr N <= Lam * fpow (rho * rho) N * rr 0.
        Proof.
          intros N. rewrite !rr_eq. pose proof (HLam _ (err_len N)) as H1. pose proof (Hmu _ (err_len 0%nat)) as H2. pose proof (en_power N) as H3. unfold en in H3.
          set (a := dot (A (vsub xs (tr N))) (A (vsub xs (tr N)))) in *. set (b := dot (A (vsub xs (tr 0))) (A (vsub xs (tr 0)))) in *.
          set (p := energy A (vsub xs (tr N))) in *. set (q := energy A (vsub xs (tr 0))) in *.
          apply (@fle_mul_l K mu _ _ (flt_le Pm)) in H1. eapply fle_trans; [exact H1|].
          assert (P2 : 0 <= mu * Lam) by (apply fle_mul; [apply flt_le; exact Pm|exact PL]).
          apply (@fle_mul_l K _ _ _ P2) in H3. replace (mu * (Lam * p)) with (mu * Lam * p) by ring. eapply fle_trans; [exact H3|].
          assert (P3 : 0 <= Lam * fpow (rho * rho) N) by (apply fle_mul; [exact PL|apply fpow_nonneg, fsquare_nonneg]).
          apply (@fle_mul_l K _ _ _ P3) in H2. replace (mu * Lam * (fpow (rho * rho) N * q)) with (Lam * fpow (rho * rho) N * (mu * q)) by ring. exact H2.
        Qed.
      End Bounds.

      Hypothesis HSy : symmetric_cycle n A h.
      Lemma factors : forall k, en (S k) * en (S k) <= en k * en (S (S k)).
      Proof.
        intros k. destruct (tr_ok k) as (_ & O & Lk). destruct (tr_ok (S k)) as (_ & O1 & Lk1).
        destruct (@HSy te te (tr (S k)) (tr k) xs xs (tl (S k)) (tl k) _ _ _ _ O1 O Lk1 Lk Ls Ls (tr_step (S k)) (tr_step k)) as (E & _).
        assert (C := @energy_cs K n A LA SA (vsub xs (tr (S (S k)))) (vsub xs (tr k)) (err_len _) (err_len _)). rewrite E in C.
        unfold en. change (dot (A (vsub xs (tr (S k)))) (vsub xs (tr (S k)))) with (energy A (vsub xs (tr (S k)))) in C.
        replace (energy A (vsub xs (tr k)) * energy A (vsub xs (tr (S (S k))))) with (energy A (vsub xs (tr (S (S k)))) * energy A (vsub xs (tr k))) by ring. exact C.
      Qed.
      Lemma en_zero_later : forall k, en k = 0 -> en (S k) = 0.
      Proof.
        intros k Z. apply fle_antisym; [|apply en_nonneg]. eapply fle_trans; [apply en_step|]. rewrite Z. replace (rho * rho * 0) with (0 : K) by ring. apply fle_refl.
      Qed.
      Lemma fpow_mul : forall (a b : K) k, fpow (a * b) k = fpow a k * fpow b k.
      Proof. intros a b. induction k as [|k IH]; cbn [fpow]; [ring|]. rewrite IH. ring. Qed.
      Lemma fpow_le : forall (a b : K) k, 0 <= a -> a <= b -> fpow a k <= fpow b k.
      Proof.
        intros a b k Ha Hab. induction k as [|k IH]; cbn [fpow]; [apply fle_refl|].
        eapply fle_trans; [apply (@fle_mul_l K a _ _ Ha IH)|]. replace (a * fpow b k) with (fpow b k * a) by ring. replace (b * fpow b k) with (fpow b k * b) by ring.
        apply fle_mul_l; [apply fpow_nonneg; eapply fle_trans; [exact Ha|exact Hab]|exact Hab].
      Qed.
      Lemma mean_factor : forall k, fpow (en k) (S k) <= fpow (en (S k)) k * en 0.
      Proof.
        induction k as [|k IH]; [cbn [fpow]; replace (en 0 * 1) with (1 * en 0) by ring; apply fle_refl|].
        destruct (feq_dec K (en k) 0) as [Z|NZ].
        { cbn [fpow]. rewrite (en_zero_later _ Z). replace (0 * (0 * fpow 0 k)) with (0 : K) by ring. apply fle_mul; [apply fle_mul|]; auto using en_nonneg. apply fpow_nonneg, en_nonneg. }
        assert (Pk : 0 < en k) by (apply fle_neq_lt; [apply en_nonneg|auto]).
        assert (Pp : forall j, 0 < fpow (en k) j).
        { induction j; cbn [fpow]; [apply f0_lt_1|]. apply fmul_pos; auto. }
        apply (@fle_mul_cancel K (fpow (en k) (S k))); [apply Pp|].
        assert (F := @fpow_le _ _ (S k) (fsquare_nonneg K (en (S k))) (factors k)). rewrite !fpow_mul in F.
        assert (I2 := @fle_mul_l K (fpow (en (S k)) 2) _ _ (@fpow_nonneg _ 2 (en_nonneg (S k))) IH).
        cbn [fpow] in *. set (a := en k) in *. set (b := en (S k)) in *. set (c := en (S (S k))) in *. set (z := en 0) in *.
        set (pa := fpow a k) in *. set (pb := fpow b k) in *. set (pc := fpow c k) in *.
        eapply fle_trans; [replace (a * pa * (b * (b * pb))) with (b * pb * b * (a * pa)) by ring; apply (@fle_mul_l K (b * pb * b)); [|exact IH]|].
        - unfold pb. apply fle_mul; [apply fle_mul|]; try apply en_nonneg. apply fpow_nonneg, en_nonneg.
        - replace (b * pb * b * (pb * z)) with (z * (b * pb * (b * pb))) by ring. replace (a * pa * (c * pc * z)) with (z * (a * pa * (c * pc))) by ring.
          apply fle_mul_l; [apply en_nonneg|exact F].
      Qed.
    End Start.
  End Run.

  (** From the quotient of the energy and the square of a vector to that of the square of the residual and the energy. *)
  Lemma lower_from : forall n (A : vec -> vec) mu, linear n n A -> spd n A -> 0 < mu -> (forall v, length v = n -> mu * dot v v <= energy A v) ->
    forall v, length v = n -> mu * energy A v <= dot (A v) (A v).
  Proof.
    intros n A mu LA SA Pm H v Lv. pose proof (energy_nonneg LA SA _ Lv) as Pe.
    destruct (feq_dec K (energy A v) 0) as [Z|NZ]; [rewrite Z; replace (mu * 0) with (0 : K) by ring; apply dot_nonneg|].
    apply (@fle_mul_cancel K (energy A v)); [apply fle_neq_lt; auto|].
    pose proof (@dot_cs K (A v) v ltac:(rewrite (lin_len LA _ Lv); auto)) as C. change (dot (A v) v) with (energy A v) in C.
    apply (@fle_mul_l K mu _ _ (flt_le Pm)) in C. pose proof (H v Lv) as H1. apply (@fle_mul_l K _ _ _ (dot_nonneg (A v))) in H1.
    replace (energy A v * (mu * energy A v)) with (mu * (energy A v * energy A v)) by ring. eapply fle_trans; [exact C|].
    replace (mu * (dot (A v) (A v) * dot v v)) with (dot (A v) (A v) * (mu * dot v v)) by ring. replace (energy A v * dot (A v) (A v)) with (dot (A v) (A v) * energy A v) by ring. exact H1.
  Qed.
  Lemma upper_from : forall n (A : vec -> vec) Lam, linear n n A -> spd n A -> (forall v, length v = n -> energy A v <= Lam * dot v v) ->
    forall v, length v = n -> dot (A v) (A v) <= Lam * energy A v.
  Proof.
    intros n A Lam LA SA H v Lv. pose proof (energy_nonneg LA SA _ Lv) as Pe. pose proof (lin_len LA _ Lv) as Lw.
    pose proof (@energy_cs K n A LA SA v (A v) Lv Lw) as C. pose proof (H _ Lw) as H1. apply (@fle_mul_l K _ _ _ Pe) in H1.
    set (w := dot (A v) (A v)) in *. assert (Pw : 0 <= w) by apply dot_nonneg.
    destruct (feq_dec K w 0) as [Z|NZ].
    - rewrite Z. destruct (list_eq_dec (feq_dec K) v (vzero n)) as [Q|Q].
      + assert (E : energy A v = 0) by (rewrite Q; unfold energy; apply dot_zero_r). rewrite E. replace (Lam * 0) with (0 : K) by ring. apply fle_refl.
      + exfalso. unfold w in Z. apply dot_self_0 in Z. pose proof (proj2 SA v Lv Q) as P. unfold energy in P. rewrite Z in P. rewrite dot_zero_l in P. exact (flt_irrefl P).
    - apply (@fle_mul_cancel K w); [apply fle_neq_lt; auto|]. eapply fle_trans; [exact C|]. eapply fle_trans; [exact H1|].
      replace (energy A v * (Lam * w)) with (w * (Lam * energy A v)) by ring. apply fle_refl.
  Qed.
End P.
