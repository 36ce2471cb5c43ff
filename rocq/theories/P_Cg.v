(** Proofs about preconditioned conjugate gradients: conjugacy, optimality, Chebyshev's bound. *)
From Coq Require Import String List Arith Bool Lia Field.
From Verif Require Import Base OField Mat LinAlg M_Ptree M_Hier M_Cg S_Hier S_Cg P_Hier P_Hier2 P_HierE P_HierS P_Smoother P_Rate P_Cheby.
Import ListNotations.
Set Implicit Arguments.
Open Scope nat_scope.

Section P.
  Variable K : ofield.
  Add Field KfieldCg : (f_field K).
  Local Open Scope K_scope.
  Notation vec := (vec K).
  Ltac vx := unfold OField.vec in *; vext; try ring.

  (** ** Spans *)
  Section Span.
    Variable n : nat.
    Inductive spn (ds : list vec) : vec -> Prop :=
    | spn_zero : spn ds (vzero n)
    | spn_cons : forall c d v, In d ds -> spn ds v -> spn ds (vadd (vscale c d) v).

    Definition sized (ds : list vec) : Prop := forall d, In d ds -> length d = n.
    Lemma spn_len : forall ds v, sized ds -> spn ds v -> length v = n.
    Proof. intros ds v S H. induction H; [apply vzero_length|]. pose proof (S _ H). unfold OField.vec in *. vlen. Qed.
    Lemma spn_in : forall ds d, sized ds -> In d ds -> spn ds d.
    Proof.
      intros ds d S I. pose proof (S _ I) as L. assert (E : d = vadd (vscale 1 d) (vzero n)) by vx. rewrite E. apply spn_cons; auto. apply spn_zero.
    Qed.
    Lemma spn_add : forall ds u v, sized ds -> spn ds u -> spn ds v -> spn ds (vadd u v).
    Proof.
      intros ds u v S Hu Hv. pose proof (spn_len S Hv) as Lv. induction Hu as [|c d w I Hw IH].
      - assert (E : vadd (vzero n) v = v) by vx. rewrite E. auto.
      - pose proof (S _ I) as Ld. pose proof (spn_len S Hw) as Lw.
        assert (E : vadd (vadd (vscale c d) w) v = vadd (vscale c d) (vadd w v)) by vx. rewrite E. apply spn_cons; auto.
    Qed.
    Lemma spn_scale : forall ds c v, sized ds -> spn ds v -> spn ds (vscale c v).
    Proof.
      intros ds c v S Hv. induction Hv as [|c' d w I Hw IH].
      - assert (E : vscale c (vzero n) = vzero n) by vx. rewrite E. apply spn_zero.
      - pose proof (S _ I) as Ld. pose proof (spn_len S Hw) as Lw.
        assert (E : vscale c (vadd (vscale c' d) w) = vadd (vscale (c * c') d) (vscale c w)) by vx. rewrite E. apply spn_cons; auto.
    Qed.
    Lemma spn_sub : forall ds u v, sized ds -> spn ds u -> spn ds v -> spn ds (vsub u v).
    Proof.
      intros ds u v S Hu Hv. pose proof (spn_len S Hu) as Lu. pose proof (spn_len S Hv) as Lv.
      assert (E : vsub u v = vadd u (vscale (- (1)) v)) by vx. rewrite E. apply spn_add; auto. apply spn_scale; auto.
    Qed.
    Lemma spn_mono : forall d ds v, spn ds v -> spn (d :: ds) v.
    Proof. intros d ds v H. induction H; [apply spn_zero|apply spn_cons; [right; auto|auto]]. Qed.
    (** What a linear map does to a span. *)
    Lemma spn_map : forall f ds ds' v, linear n n f -> sized ds -> sized ds' -> (forall d, In d ds -> spn ds' (f d)) -> spn ds v -> spn ds' (f v).
    Proof.
      intros f ds ds' v Lf S S' H Hv. induction Hv as [|c d w I Hw IH].
      - rewrite (lin_zero Lf). apply spn_zero.
      - pose proof (S _ I) as Ld. pose proof (spn_len S Hw) as Lw. rewrite (lin_add Lf), (lin_scale Lf) by (auto; unfold OField.vec in *; vlen).
        apply spn_add; auto. apply spn_scale; auto.
    Qed.
    Lemma spn_orth : forall ds g v, sized ds -> length g = n -> (forall d, In d ds -> dot g d = 0) -> spn ds v -> dot g v = 0.
    Proof.
      intros ds g v S Lg H Hv. induction Hv as [|c d w I Hw IH].
      - rewrite dot_comm. rewrite (@dot_sumn K _ _ n) by (auto; apply vzero_length). apply sumn_zero. intros i _. rewrite nth_vzero. ring.
      - pose proof (S _ I) as Ld. pose proof (spn_len S Hw) as Lw. rewrite dot_comm, dot_add_l by (unfold OField.vec in *; vlen).
        rewrite dot_scale_l, (dot_comm d), (dot_comm w), H, IH by auto. ring.
    Qed.
  End Span.
  Arguments spn_orth {n ds g v} _ _ _ _.
  Arguments spn_map {n f ds ds' v} _ _ _ _ _.

  (** ** The iteration *)
  Section Iter.
    Variables (n : nat) (A M : vec -> vec) (x0 xs : vec) (eta sigma : K).
    Hypothesis LA : linear n n A.
    Hypothesis SA : spd n A.
    Hypothesis LM : linear n n M.
    Hypothesis SM : spd n M.
    Hypothesis Hx0 : length x0 = n.
    Hypothesis Hxs : length xs = n.

    Definition e0 : vec := vsub xs x0.
    Definition X (v : vec) : vec := vsub (vscale eta v) (vscale sigma (M (A v))).
    (** T_k(X) e0 and U_(k-1)(X) e0 *)
    Fixpoint uw (k : nat) : vec * vec :=
      match k with
      | O => (e0, vzero n)
      | S k' => (vsub (X (fst (uw k'))) (vsub (snd (uw k')) (X (X (snd (uw k'))))), vadd (X (snd (uw k'))) (fst (uw k')))
      end.
    (** T_k(eta) and U_(k-1)(eta) *)
    Fixpoint ts (k : nat) : K * K :=
      match k with
      | O => (1, 0)
      | S k' => (eta * fst (ts k') + (eta * eta - 1) * snd (ts k'), eta * snd (ts k') + fst (ts k'))
      end.

    Lemma e0_len : length e0 = n. Proof. unfold e0. unfold OField.vec in *. vlen. Qed.
    Lemma A_len : forall v, length v = n -> length (A v) = n. Proof. exact (lin_len LA). Qed.
    Lemma M_len : forall v, length v = n -> length (M v) = n. Proof. exact (lin_len LM). Qed.
    Arguments A_len {v} _.
    Arguments M_len {v} _.
    Lemma MA_linear : linear n n (fun v => M (A v)). Proof. exact (linear_comp LA LM). Qed.
    Lemma X_len : forall v, length v = n -> length (X v) = n.
    Proof. intros v Hv. unfold X. pose proof (M_len (A_len Hv)). unfold OField.vec in *. vlen. Qed.
    Arguments X_len {v} _.
    Lemma X_linear : linear n n X.
    Proof.
      constructor.
      - exact (@X_len).
      - intros x y Lx Ly. unfold X. pose proof (M_len (A_len Lx)). pose proof (M_len (A_len Ly)). rewrite (lin_add MA_linear) by auto. vx.
      - intros s x Lx. unfold X. pose proof (M_len (A_len Lx)). rewrite (lin_scale MA_linear) by auto. vx.
    Qed.
    Lemma uw_len : forall k, length (fst (uw k)) = n /\ length (snd (uw k)) = n.
    Proof.
      induction k as [|k (IH1 & IH2)]; cbn [uw fst snd]; [split; [apply e0_len|apply vzero_length]|].
      pose proof (X_len IH1). pose proof (X_len IH2). pose proof (X_len (X_len IH2)). unfold OField.vec in *. split; vlen.
    Qed.
    Lemma A_sym : forall u v, length u = n -> length v = n -> dot (A u) v = dot u (A v).
    Proof. exact (proj1 SA). Qed.
    Lemma M_sym : forall u v, length u = n -> length v = n -> dot (M u) v = dot u (M v).
    Proof. exact (proj1 SM). Qed.

    Arguments A_sym {u v} _ _.
    Arguments M_sym {u v} _ _.

    (** Conjugate directions. *)
    Fixpoint conj (ds : list vec) : Prop :=
      match ds with
      | [] => True
      | d :: ds' => 0 < dot (A d) d /\ (forall d', In d' ds' -> dot (A d) d' = 0) /\ conj ds'
      end.

    Record Mid (k : nat) (x g : vec) (ds : list vec) : Prop := {
      m_len : length ds = k;
      m_sized : sized n ds;
      m_x : length x = n;
      m_g : g = A (vsub x xs);
      m_orth : forall d, In d ds -> dot g d = 0;
      m_conj : conj ds;
      m_kry : spn n ds (vsub x x0);
      m_u : spn n ds (vsub (fst (uw k)) (vscale (fst (ts k)) e0));
      m_w : spn n ds (vsub (snd (uw k)) (vscale (snd (ts k)) e0));
      m_Xw : spn n ds (vsub (X (snd (uw k))) (vscale (eta * snd (ts k)) e0)) }.
    Record Full (k : nat) (x g d : vec) (gh : K) (ds : list vec) : Prop := {
      f_mid : Mid k x g ds;
      f_g : g <> vzero n;
      f_d : length d = n;
      f_gh : gh = dot g (M g);
      f_res : spn n ds (vadd (M g) d);
      f_cd : forall d', In d' ds -> dot (A d) d' = 0;
      f_kc : forall d', In d' ds -> spn n (d :: ds) (M (A d'));
      f_k0 : spn n (d :: ds) (M (A e0)) }.

    Lemma g_len : forall k x g ds, Mid k x g ds -> length g = n.
    Proof. intros k x g ds H. rewrite (m_g H). apply A_len. pose proof (m_x H). unfold OField.vec in *. vlen. Qed.
    Lemma mid_start : Mid 0 x0 (A (vsub x0 xs)) [].
    Proof.
      pose proof e0_len as L0. constructor; auto; try (intros ? []; fail); cbn [uw ts fst snd].
      - exact I.
      - assert (E : vsub x0 x0 = vzero n) by vx. rewrite E. apply spn_zero.
      - assert (E : vsub e0 (vscale 1 e0) = vzero n) by vx. rewrite E. apply spn_zero.
      - assert (E : vsub (vzero n) (vscale 0 e0) = vzero n) by vx. rewrite E. apply spn_zero.
      - rewrite (lin_zero X_linear). assert (E : vsub (vzero n) (vscale (eta * 0) e0) = vzero n) by vx. rewrite E. apply spn_zero.
    Qed.
    Lemma full_start : forall g, g = A (vsub x0 xs) -> g <> vzero n -> Full 0 x0 g (vscale (- (1)) (M g)) (dot g (M g)) [].
    Proof.
      intros g Eg Ng. pose proof mid_start as HM. rewrite <- Eg in HM. pose proof (g_len HM) as Lg. pose proof (M_len Lg) as LMg.
      constructor; auto; try (intros ? []; fail).
      - unfold OField.vec in *. vlen.
      - assert (E : vadd (M g) (vscale (- (1)) (M g)) = vzero n) by vx. rewrite E. apply spn_zero.
      - assert (E : M (A e0) = vscale (- (1)) (M g)).
        { rewrite <- (lin_scale LM) by auto. f_equal. rewrite Eg. pose proof e0_len. rewrite <- (lin_scale LA) by (unfold OField.vec in *; vlen).
          f_equal. unfold e0. vx. }
        rewrite E. apply spn_in; [|left; auto]. intros d [<-|[]]. unfold OField.vec in *. vlen.
    Qed.

    Section Step.
      Variables (k : nat) (x g d : vec) (gh : K) (ds : list vec).
      Hypothesis HF : Full k x g d gh ds.
      Let HM : Mid k x g ds := f_mid HF.
      Let Lg : length g = n := g_len HM.
      Let Ld : length d = n := f_d HF.
      Let Lx : length x = n := m_x HM.
      Let Sd : sized n ds := m_sized HM.
      Lemma sized_d : sized n (d :: ds).
      Proof. intros d' [<-|I]; [exact Ld|exact (Sd _ I)]. Qed.
      Lemma gh_pos : 0 < gh.
      Proof. rewrite (f_gh HF), dot_comm. apply (proj2 SM); [exact Lg|exact (f_g HF)]. Qed.
      Lemma g_d : dot g d = - gh.
      Proof.
        pose proof (spn_orth Sd Lg (m_orth HM) (f_res HF)) as Z. rewrite dot_comm, dot_add_l in Z by (rewrite Ld; apply M_len; exact Lg).
        rewrite (dot_comm (M g)), (dot_comm d), <- (f_gh HF) in Z. transitivity (gh + dot g d - gh); [ring|]. rewrite Z. ring.
      Qed.
      Lemma d_neq : d <> vzero n.
      Proof.
        intros E. pose proof g_d as Q. assert (Z : dot g d = 0).
        { rewrite E. apply (spn_orth Sd Lg (m_orth HM)). apply spn_zero. }
        rewrite Z in Q. pose proof gh_pos as P. assert (gh = 0) by (transitivity (- - gh); [ring|rewrite <- Q; ring]).
        rewrite H in P. exact (flt_irrefl P).
      Qed.
      Lemma dAd_pos : 0 < dot d (A d).
      Proof. rewrite dot_comm. apply (proj2 SA); [exact Ld|exact d_neq]. Qed.
      Lemma MA_maps : forall v, spn n ds v -> spn n (d :: ds) (M (A v)).
      Proof. intros v Hv. apply (spn_map MA_linear Sd sized_d (f_kc HF) Hv). Qed.
      (** X raises the degree by one. *)
      Lemma X_maps : forall v t, length v = n -> spn n ds (vsub v (vscale t e0)) -> spn n (d :: ds) (vsub (X v) (vscale (eta * t) e0)).
      Proof.
        intros v t Lv H. pose proof e0_len as L0. pose proof (M_len (A_len Lv)) as L1. pose proof (M_len (A_len L0)) as L2.
        assert (E : vsub (X v) (vscale (eta * t) e0) =
          vsub (vscale eta (vsub v (vscale t e0))) (vscale sigma (vadd (M (A (vsub v (vscale t e0)))) (vscale t (M (A e0)))))).
        { assert (E1 : M (A (vsub v (vscale t e0))) = vsub (M (A v)) (vscale t (M (A e0)))).
          { rewrite (lin_sub LA), (lin_sub LM), (lin_scale LA), (lin_scale LM); auto; try (apply A_len); unfold OField.vec in *; vlen. }
          rewrite E1. unfold X. vx. }
        rewrite E. apply spn_sub; [exact sized_d| |].
        - apply spn_scale; [exact sized_d|]. apply spn_mono. exact H.
        - apply spn_scale; [exact sized_d|]. apply spn_add; [exact sized_d|apply MA_maps; exact H|]. apply spn_scale; [exact sized_d|exact (f_k0 HF)].
      Qed.

      Let alpha : K := gh / dot d (A d).
      Let x' : vec := vadd x (vscale alpha d).
      Let g' : vec := vadd g (vscale alpha (A d)).
      Lemma g'_len : length g' = n.
      Proof. unfold g'. pose proof (A_len Ld). unfold OField.vec in *. vlen. Qed.
      Lemma alpha_eq : alpha * dot d (A d) = gh.
      Proof. unfold alpha. field. exact (pos_neq dAd_pos). Qed.
      Lemma g'_orth : forall d', In d' (d :: ds) -> dot g' d' = 0.
      Proof.
        intros d' I. unfold g'. rewrite dot_add_l by (pose proof (A_len Ld); unfold OField.vec in *; vlen). rewrite dot_scale_l. destruct I as [<-|I].
        - rewrite g_d, (dot_comm (A d)), alpha_eq. ring.
        - rewrite (m_orth HM) by auto. rewrite (f_cd HF) by auto. ring.
      Qed.
      Lemma step_mid : Mid (S k) x' g' (d :: ds).
      Proof.
        pose proof e0_len as L0. destruct (uw_len k) as (Lu & Lw). pose proof (X_len Lu) as LXu. pose proof (X_len Lw) as LXw. pose proof (X_len LXw) as LXXw.
        pose proof sized_d as SD.
        constructor.
        - cbn. rewrite (m_len HM). reflexivity.
        - exact SD.
        - unfold x'. unfold OField.vec in *. vlen.
        - unfold g'. rewrite (m_g HM), <- (lin_scale LA), <- (lin_add LA) by (auto; unfold OField.vec in *; vlen). f_equal. unfold x'. vx.
        - exact g'_orth.
        - cbn [conj]. split; [rewrite dot_comm; exact dAd_pos|]. split; [exact (f_cd HF)|exact (m_conj HM)].
        - assert (E : vsub x' x0 = vadd (vsub x x0) (vscale alpha d)) by (unfold x'; vx). rewrite E.
          apply spn_add; [exact SD|apply spn_mono; exact (m_kry HM)|]. apply spn_scale; [exact SD|]. apply spn_in; [exact SD|left; auto].
        - cbn [uw ts fst snd]. set (u := fst (uw k)) in *. set (w := snd (uw k)) in *. set (t := fst (ts k)). set (s := snd (ts k)).
          assert (E : vsub (vsub (X u) (vsub w (X (X w)))) (vscale (eta * t + (eta * eta - 1) * s) e0) =
            vadd (vsub (vsub (X u) (vscale (eta * t) e0)) (vsub w (vscale s e0))) (vsub (X (X w)) (vscale (eta * (eta * s)) e0))) by vx.
          rewrite E. apply spn_add; [exact SD| |apply X_maps; [exact LXw|exact (m_Xw HM)]].
          apply spn_sub; [exact SD|apply X_maps; [exact Lu|exact (m_u HM)]|apply spn_mono; exact (m_w HM)].
        - cbn [uw ts fst snd]. set (u := fst (uw k)) in *. set (w := snd (uw k)) in *. set (t := fst (ts k)). set (s := snd (ts k)).
          assert (E : vsub (vadd (X w) u) (vscale (eta * s + t) e0) = vadd (vsub (X w) (vscale (eta * s) e0)) (vsub u (vscale t e0))) by vx.
          rewrite E. apply spn_add; [exact SD|apply spn_mono; exact (m_Xw HM)|apply spn_mono; exact (m_u HM)].
        - cbn [uw ts fst snd]. set (u := fst (uw k)) in *. set (w := snd (uw k)) in *. set (t := fst (ts k)). set (s := snd (ts k)).
          rewrite (lin_add X_linear) by auto.
          assert (E : vsub (vadd (X (X w)) (X u)) (vscale (eta * (eta * s + t)) e0) =
            vadd (vsub (X (X w)) (vscale (eta * (eta * s)) e0)) (vsub (X u) (vscale (eta * t) e0))) by vx.
          rewrite E. apply spn_add; [exact SD|apply X_maps; [exact LXw|exact (m_Xw HM)]|apply X_maps; [exact Lu|exact (m_u HM)]].
      Qed.

      Let gh' : K := dot g' (M g').
      Let d' : vec := vsub (vscale (gh' / gh) d) (M g').
      Lemma Mg_span : spn n (d :: ds) (M g).
      Proof.
        pose proof (M_len Lg) as L1. assert (E : M g = vsub (vadd (M g) d) d) by vx. rewrite E. pose proof sized_d as SD.
        apply spn_sub; [exact SD|apply spn_mono; exact (f_res HF)|apply spn_in; [exact SD|left; auto]].
      Qed.
      Lemma MAd : M (A d) = vscale (1 / alpha) (vsub (M g') (M g)).
      Proof.
        pose proof (M_len Lg) as L1. pose proof (A_len Ld) as L2. pose proof (M_len L2) as L3.
        assert (NA : alpha <> 0). { unfold alpha. apply pos_neq. apply fdiv_pos; [exact gh_pos|exact dAd_pos]. }
        unfold g'. rewrite (lin_add LM), (lin_scale LM) by (auto; unfold OField.vec in *; vlen). unfold OField.vec in *. vext. field. exact NA.
      Qed.
      Lemma step_full : g' <> vzero n -> Full (S k) x' g' d' gh' (d :: ds).
      Proof.
        intros NG. pose proof g'_len as Lg'. pose proof (M_len Lg') as LMg'. pose proof (M_len Lg) as LMg. pose proof (A_len Ld) as LAd. pose proof (M_len LAd) as LMAd.
        pose proof sized_d as SD. assert (Ld' : length d' = n) by (unfold d'; unfold OField.vec in *; vlen).
        assert (SD' : sized n (d' :: d :: ds)) by (intros v [<-|I]; [exact Ld'|exact (SD _ I)]).
        assert (NH : gh <> 0) by (apply pos_neq; exact gh_pos). assert (NP : dot d (A d) <> 0) by (apply pos_neq; exact dAd_pos).
        assert (OM : forall v, spn n (d :: ds) v -> dot g' v = 0) by (intros v; apply (spn_orth SD Lg' g'_orth)).
        assert (AM : forall v, length v = n -> dot (A d') v = gh' / gh * dot (A d) v - dot g' (M (A v))).
        { intros v Lv. unfold d'. pose proof (A_len LMg') as L1. rewrite (lin_sub LA), (lin_scale LA) by (auto; unfold OField.vec in *; vlen).
          rewrite dot_sub_l, dot_scale_l by (unfold OField.vec in *; vlen). rewrite (A_sym LMg' Lv), (M_sym Lg' (A_len Lv)). reflexivity. }
        constructor; auto.
        - exact step_mid.
        - assert (E : vadd (M g') d' = vscale (gh' / gh) d) by (unfold d'; vx). rewrite E. apply spn_scale; [exact SD|]. apply spn_in; [exact SD|left; auto].
        - intros v [<-|I].
          + rewrite AM by exact Ld. rewrite MAd, (dot_comm g'), dot_scale_l, dot_sub_l by (unfold OField.vec in *; congruence).
            rewrite (dot_comm (M g')), (dot_comm (M g)), (OM _ Mg_span). fold gh'. rewrite (dot_comm (A d)). unfold alpha. field. split; auto.
          + rewrite AM by (apply Sd; exact I). rewrite (f_cd HF) by exact I. rewrite OM by (apply (f_kc HF); exact I). ring.
        - intros v [<-|I].
          + rewrite MAd. apply spn_scale; [exact SD'|]. apply spn_sub; [exact SD'| |apply spn_mono; exact Mg_span].
            assert (E : M g' = vsub (vscale (gh' / gh) d) d') by (unfold d'; vx). rewrite E.
            apply spn_sub; [exact SD'| |apply spn_in; [exact SD'|left; auto]]. apply spn_scale; [exact SD'|]. apply spn_in; [exact SD'|right; left; auto].
          + apply spn_mono. apply (f_kc HF). exact I.
        - apply spn_mono. exact (f_k0 HF).
      Qed.
    End Step.

    (** Conjugate directions are independent. *)
    Lemma conj_comb : forall ds d cs, sized n ds -> length d = n -> (forall d', In d' ds -> dot (A d) d' = 0) -> dot (A d) (comb n cs ds) = 0.
    Proof.
      intros ds d cs S Ld H. assert (Q : spn n ds (comb n cs ds)).
      { clear H. revert cs. induction ds as [|v ds IH]; intros cs; [destruct cs; apply spn_zero|]. destruct cs as [|c cs]; [apply spn_zero|]. cbn [comb].
        apply spn_cons; [left; auto|]. apply spn_mono. apply IH. intros w I. apply S. right. exact I. }
      exact (spn_orth S (A_len Ld) H Q).
    Qed.
    Lemma conj_indep : forall ds, sized n ds -> conj ds -> forall cs, length cs = length ds -> comb n cs ds = vzero n -> cs = vzero (length ds).
    Proof.
      induction ds as [|d ds IH]; intros S C cs L E; [destruct cs; [reflexivity|discriminate]|]. destruct cs as [|c cs]; [discriminate|].
      destruct C as (P & O & C). assert (S' : sized n ds) by (intros v I; apply S; right; exact I). pose proof (S d (or_introl eq_refl)) as Ld.
      assert (L2 : length (comb n cs ds) = n) by (apply comb_length; apply Forall_forall; exact S').
      cbn [comb] in E. assert (Z : dot (A d) (vadd (vscale c d) (comb n cs ds)) = c * dot (A d) d).
      { rewrite dot_comm, dot_add_l by (unfold OField.vec in *; vlen). rewrite dot_scale_l, (dot_comm (comb n cs ds)), conj_comb, (dot_comm d) by auto. ring. }
      rewrite E in Z. assert (Z0 : dot (A d) (vzero n) = 0) by (apply (@spn_orth n [] (A d)); [intros ? []|apply A_len; exact Ld|intros ? []|apply spn_zero]).
      rewrite Z0 in Z. symmetry in Z. apply fmul_eq_0 in Z. destruct Z as [Z|Z]; [|exfalso; exact (pos_neq P Z)]. subst c.
      assert (E2 : comb n cs ds = vzero n).
      { rewrite <- E. vx. }
      cbn [length]. unfold vzero. cbn [repeat]. f_equal. apply IH; auto.
    Qed.
    Lemma full_bound : forall k x g d gh ds, Full k x g d gh ds -> (k < n)%nat.
    Proof.
      intros k x g d gh ds HF. pose proof (f_mid HF) as HM. destruct (le_lt_dec n k) as [H|H]; [exfalso|exact H].
      assert (C : conj (d :: ds)) by exact (m_conj (step_mid HF)).
      pose proof (sized_d HF) as SD. destruct (@dependent K n (d :: ds)) as (cs & L & N & E).
      - apply Forall_forall. exact SD.
      - cbn [length]. rewrite (m_len HM). lia.
      - apply N. apply conj_indep; auto.
    Qed.

    (** ** Optimality *)
    Lemma energy_pyth : forall e z, length e = n -> length z = n -> dot (A e) z = 0 -> energy A (vadd e z) = energy A e + energy A z.
    Proof.
      intros e z Le Lz H. unfold energy. pose proof (A_len Le). pose proof (A_len Lz). rewrite (lin_add LA) by auto. rewrite dot_add_l by congruence.
      assert (H2 : dot (A z) e = 0) by (rewrite A_sym, dot_comm by auto; exact H).
      rewrite (dot_comm (A e)), (dot_comm (A z)). rewrite !dot_add_l by congruence.
      rewrite (dot_comm e (A e)), (dot_comm z (A e)), (dot_comm e (A z)), (dot_comm z (A z)), H, H2. ring.
    Qed.
    Lemma mid_optimal : forall k x g ds, Mid k x g ds ->
      fst (ts k) * fst (ts k) * energy A (vsub xs x) <= energy A (fst (uw k)).
    Proof.
      intros k x g ds HM. pose proof (m_x HM) as Lx. pose proof e0_len as L0. pose proof (g_len HM) as Lg. destruct (uw_len k) as (Lu & _).
      set (u := fst (uw k)) in *. set (t := fst (ts k)). set (e := vsub xs x). assert (Le : length e = n) by (unfold e; unfold OField.vec in *; vlen).
      assert (AE : A e = vscale (- (1)) g).
      { rewrite (m_g HM), <- (lin_scale LA) by (unfold OField.vec in *; vlen). f_equal. unfold e. vx. }
      assert (SP : spn n ds (vsub u (vscale t e))).
      { assert (E : vsub u (vscale t e) = vadd (vsub u (vscale t e0)) (vscale t (vsub x x0))) by (unfold e, e0; vx). rewrite E.
        apply spn_add; [exact (m_sized HM)|exact (m_u HM)|]. apply spn_scale; [exact (m_sized HM)|exact (m_kry HM)]. }
      assert (E : u = vadd (vscale t e) (vsub u (vscale t e))) by vx. rewrite E. rewrite energy_pyth.
      - assert (Q : energy A (vscale t e) = t * t * energy A e).
        { unfold energy. rewrite (lin_scale LA) by auto. rewrite dot_scale_l, dot_comm, dot_scale_l, dot_comm. ring. }
        rewrite Q. apply fle_sub_0. match goal with |- _ <= ?y => replace y with (energy A (vsub u (vscale t e))) by ring end.
        apply (@energy_nonneg K n A LA SA). unfold OField.vec in *. vlen.
      - unfold OField.vec in *. vlen.
      - unfold OField.vec in *. vlen.
      - rewrite (lin_scale LA), AE by auto. rewrite !dot_scale_l. rewrite (spn_orth (m_sized HM) Lg (m_orth HM) SP). ring.
    Qed.
  End Iter.
End P.
Arguments ts {K} eta k.
Arguments uw {K} n A M x0 xs eta sigma k.
Arguments X {K} A M eta sigma v.
Arguments e0 {K} x0 xs.
Arguments Mid {K} n A M x0 xs eta sigma k x g ds.
Arguments Full {K} n A M x0 xs eta sigma k x g d gh ds.
