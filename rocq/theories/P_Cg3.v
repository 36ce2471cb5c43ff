(** The loop of the conjugate gradient method. *)
From Coq Require Import String List Arith Bool Lia Field.
From Verif Require Import Base OField Mat LinAlg M_Ptree M_Hier M_Cg S_Hier S_Rate S_Cg P_Hier P_Hier2 P_HierE P_HierS P_Smoother P_Rate P_Cheby P_Cg P_Cg2.
Import ListNotations.
Set Implicit Arguments.
Open Scope nat_scope.

Section P.
  Variable K : ofield.
  Add Field KfieldCg3 : (f_field K).
  Local Open Scope K_scope.
  Notation vec := (vec K).
  Ltac vx := unfold OField.vec in *; vext; try ring.

  Section Loop.
    Variables (debug : bool) (n : nat) (A M : vec -> vec) (prec : vec -> vec -> prog vec) (max_steps : nat) (tol : K) (x0 xs : vec) (eta sigma : K).
    Hypothesis LA : linear n n A.
    Hypothesis SA : spd n A.
    Hypothesis LM : linear n n M.
    Hypothesis SM : spd n M.
    Hypothesis HP : applies_operator n prec M.
    Hypothesis Hx0 : length x0 = n.
    Hypothesis Hxs : length xs = n.
    Local Notation Mid := (P_Cg.Mid n A M x0 xs eta sigma).
    Local Notation Full := (P_Cg.Full n A M x0 xs eta sigma).

    Lemma check_success : forall k g, control_check max_steps tol k g = CSuccess -> dot g g <= tol * tol.
    Proof. intros k g. unfold control_check. destruct (fleb (dot g g) (tol * tol)) eqn:E; [intros _; apply fleb_le; exact E|]. destruct (max_steps <=? k)%nat; discriminate. Qed.
    Lemma check_other : forall k g, control_check max_steps tol k g <> CSuccess -> ~ dot g g <= tol * tol.
    Proof. intros k g. unfold control_check. destruct (fleb (dot g g) (tol * tol)) eqn:E; [congruence|]. intros _ H. apply fleb_le in H. congruence. Qed.
    Lemma zero_ok : forall g, g = vzero n -> dot g g <= tol * tol.
    Proof.
      intros g ->. replace (dot (vzero n) (vzero n : vec)) with (0 : K); [apply fsquare_nonneg|]. symmetry.
      rewrite (@dot_sumn K _ _ n) by apply vzero_length. apply sumn_zero. intros i _. rewrite nth_vzero. ring.
    Qed.

    Arguments check_success {k g} _.
    Arguments check_other {k g} _ _.
    Arguments zero_ok {g} _.

    (** One turn of the loop. *)
    Lemma loop_turn : forall fuel it x g d gh ds l, Full it x g d gh ds -> open_sections l = [] ->
      exists x' g' ds', Mid (S it) x' g' ds' /\
       (control_check max_steps tol (S it) g' = CSuccess /\ cg_loop debug A prec max_steps tol (S fuel) it x g d gh l = (Ok (S it, x'), l) \/
        control_check max_steps tol (S it) g' = CFailure /\ cg_loop debug A prec max_steps tol (S fuel) it x g d gh l = (Throw, l) \/
        control_check max_steps tol (S it) g' = CIterate /\ exists d' gh' l', Full (S it) x' g' d' gh' ds' /\ open_sections l' = [] /\
          cg_loop debug A prec max_steps tol (S fuel) it x g d gh l = cg_loop debug A prec max_steps tol fuel (S it) x' g' d' gh' l').
    Proof.
      intros fuel it x g d gh ds l HF Hl. pose proof (step_mid LA SA LM SM Hx0 Hxs HF) as HM.
      pose proof (dAd_pos LA SA LM SM Hx0 Hxs HF) as P1. pose proof (gh_pos LA SM Hx0 Hxs HF) as P2.
      eexists _, _, _. split; [exact HM|].
      assert (E1 : feqb (dot d (A d)) 0 = false) by (destruct (feqb (dot d (A d)) 0) eqn:E; auto; apply feqb_eq in E; rewrite E in P1; destruct (flt_irrefl P1)).
      assert (E2 : feqb gh 0 = false) by (destruct (feqb gh 0) eqn:E; auto; apply feqb_eq in E; rewrite E in P2; destruct (flt_irrefl P2)).
      cbn [cg_loop]. unfold pbind, plift, pret. rewrite E1. cbv beta iota zeta.
      destruct (control_check max_steps tol (S it) _) eqn:CC.
      - right. right. split; [reflexivity|]. set (g' := vadd g (vscale (gh / dot d (A d)) (A d))) in *.
        pose proof (g_len LA Hx0 Hxs HM) as Lg'. pose proof (lin_len LA _ (f_d HF)) as LAd.
        destruct (HP (A d) g' _ Hl LAd Lg') as (l' & E & Hl'). rewrite E, E2.
        eexists _, _, l'. split; [|split; [exact Hl'|reflexivity]].
        apply (step_full LA SA LM SM Hx0 Hxs HF). fold g'. intros Z. assert (H : control_check max_steps tol (S it) g' <> CSuccess) by congruence.
        apply (check_other H). apply zero_ok. exact Z.
      - left. split; reflexivity.
      - right. left. split; reflexivity.
    Qed.
    (** Whatever the loop returns is an iterate of the method. *)
    Lemma loop_inv : forall fuel it x g d gh ds l it' y l', Full it x g d gh ds -> open_sections l = [] ->
      cg_loop debug A prec max_steps tol fuel it x g d gh l = (Ok (it', y), l') -> exists g' ds', Mid it' y g' ds' /\ dot g' g' <= tol * tol.
    Proof.
      induction fuel as [|fuel IH]; intros it x g d gh ds l it' y l' HF Hl E; [discriminate|].
      destruct (loop_turn fuel _ HF Hl) as (x' & g' & ds' & HM & [(C & Q)|[(C & Q)|(C & d' & gh' & l2 & HF' & Hl2 & Q)]]); rewrite Q in E.
      - injection E as <- <- _. exists g', ds'. split; [exact HM|exact (check_success C)].
      - discriminate.
      - exact (IH _ _ _ _ _ _ _ _ _ _ HF' Hl2 E).
    Qed.
    Section Finish.
      Variable N : nat.
      Hypothesis HN : (N <= max_steps)%nat.
      Hypothesis HT : forall x g ds, Mid N x g ds -> dot g g <= tol * tol.
      Lemma loop_ok : forall fuel it x g d gh ds l, Full it x g d gh ds -> (it < N)%nat -> (max_steps <= it + fuel)%nat -> open_sections l = [] ->
        exists it' y l', cg_loop debug A prec max_steps tol fuel it x g d gh l = (Ok (it', y), l') /\ (it' <= N)%nat /\ open_sections l' = [].
      Proof.
        induction fuel as [|fuel IH]; intros it x g d gh ds l HF Hi Hf Hl; [lia|].
        destruct (loop_turn fuel _ HF Hl) as (x' & g' & ds' & HM & [(C & Q)|[(C & Q)|(C & d' & gh' & l2 & HF' & Hl2 & Q)]]); rewrite Q.
        - eexists _, _, _. split; [reflexivity|]. split; [lia|exact Hl].
        - exfalso. assert (H : control_check max_steps tol (S it) g' <> CSuccess) by congruence. pose proof (check_other H) as H2.
          destruct (Nat.eq_dec (S it) N) as [EQ|NE]; [subst N; exact (H2 (HT HM))|].
          unfold control_check in C. destruct (fleb _ _); [discriminate|]. destruct (max_steps <=? S it)%nat eqn:L; [|discriminate]. apply Nat.leb_le in L. lia.
        - assert (H : control_check max_steps tol (S it) g' <> CSuccess) by congruence. pose proof (check_other H) as H2.
          destruct (Nat.eq_dec (S it) N) as [EQ|NE]; [exfalso; subst N; exact (H2 (HT HM))|].
          apply (IH (S it) x' g' d' gh' ds'); auto; lia.
      Qed.
    End Finish.

    Lemma start_residual : (if forallb (fun t => feqb t 0) x0 then vscale (- (1)) (A xs) else vsub (A x0) (A xs)) = A (vsub x0 xs).
    Proof.
      pose proof (lin_len LA _ Hx0) as L1. pose proof (lin_len LA _ Hxs) as L2. rewrite (lin_sub LA) by auto. destruct (forallb _ x0) eqn:E; [|reflexivity].
      assert (Z : x0 = vzero n).
      { apply vec_ext; [rewrite vzero_length; exact Hx0|]. intros i Hi. rewrite nth_vzero. rewrite forallb_forall in E. apply feqb_eq. apply E. apply nth_In. exact Hi. }
      rewrite Z, (lin_zero LA). vx.
    Qed.
    Lemma solve_inv : forall h0 l it y l', open_sections l = [] -> length h0 = n ->
      cg_solve debug A prec max_steps tol h0 x0 (A xs) l = (Ok (it, y), l') ->
      exists g ds, Mid it y g ds /\ (dot g g <= tol * tol \/ max_steps = 0%nat /\ it = 0%nat).
    Proof.
      intros h0 l it y l' Hl Lh. unfold cg_solve. rewrite start_residual. set (g := A (vsub x0 xs)). pose proof (mid_start x0 xs eta sigma LA LM Hx0 Hxs) as HM. fold g in HM.
      destruct (control_check max_steps tol 0 g) eqn:C.
      - assert (H : control_check max_steps tol 0 g <> CSuccess) by congruence.
        destruct (HP h0 g _ Hl Lh (g_len LA Hx0 Hxs HM)) as (l2 & E & Hl2). unfold pbind. rewrite E. intros Q.
        assert (NG : g <> vzero n) by (intros Z; exact (check_other H (zero_ok Z))).
        destruct (loop_inv _ _ (full_start x0 xs eta sigma LA LM Hx0 Hxs eq_refl NG) Hl2 Q) as (g' & ds' & R1 & R2). exists g', ds'. auto.
      - intros Q. injection Q as <- <- _. exists g, []. split; [exact HM|left; exact (check_success C)].
      - intros Q. injection Q as <- <- _. exists g, []. split; [exact HM|right]. split; [|reflexivity].
        unfold control_check in C. destruct (fleb _ _); [discriminate|]. destruct (max_steps <=? 0)%nat eqn:L; [|discriminate]. apply Nat.leb_le in L. lia.
    Qed.
    Lemma solve_ok : forall N h0 l, (N <= max_steps)%nat -> (forall x g ds, Mid N x g ds -> dot g g <= tol * tol) -> open_sections l = [] -> length h0 = n ->
      exists it y l', cg_solve debug A prec max_steps tol h0 x0 (A xs) l = (Ok (it, y), l') /\ (it <= N)%nat /\ open_sections l' = [] /\
        exists g ds, Mid it y g ds /\ dot g g <= tol * tol.
    Proof.
      intros N h0 l HN HT Hl Lh.
      assert (R : exists it y l', cg_solve debug A prec max_steps tol h0 x0 (A xs) l = (Ok (it, y), l') /\ (it <= N)%nat /\ open_sections l' = []).
      { unfold cg_solve. rewrite start_residual. set (g := A (vsub x0 xs)). pose proof (mid_start x0 xs eta sigma LA LM Hx0 Hxs) as HM. fold g in HM.
        destruct (control_check max_steps tol 0 g) eqn:C.
        - assert (H : control_check max_steps tol 0 g <> CSuccess) by congruence.
          destruct (HP h0 g _ Hl Lh (g_len LA Hx0 Hxs HM)) as (l2 & E & Hl2). unfold pbind. rewrite E.
          assert (NG : g <> vzero n) by (intros Z; exact (check_other H (zero_ok Z))).
          apply (@loop_ok N HN HT max_steps 0%nat x0 g (vscale (- (1)) (M g)) (dot g (M g)) []); auto.
          + exact (full_start x0 xs eta sigma LA LM Hx0 Hxs eq_refl NG).
          + destruct N; [|lia]. exfalso. exact (check_other H (HT _ _ _ HM)).
        - eexists _, _, _. split; [reflexivity|]. split; [lia|exact Hl].
        - eexists _, _, _. split; [reflexivity|]. split; [lia|exact Hl]. }
      destruct R as (it & y & l' & E & L & Hl'). exists it, y, l'. do 3 (split; [assumption|]).
      destruct (solve_inv h0 _ Hl Lh E) as (g & ds & HM & [Q|(Q1 & Q2)]); exists g, ds; [auto|]. split; [exact HM|]. apply (HT y g ds). assert (N = 0)%nat by lia. subst. exact HM.
    Qed.
    Lemma mid_n : forall x g ds, Mid n x g ds -> dot g g <= tol * tol.
    Proof.
      intros x g ds HM. apply zero_ok. pose proof (g_len LA Hx0 Hxs HM) as Lg. destruct (list_eq_dec (feq_dec K) g (vzero n)) as [E|NE]; [exact E|exfalso].
      pose proof (m_x HM) as Lx. set (e := vsub xs x). assert (Le : length e = n) by (unfold e; unfold OField.vec in *; vlen).
      assert (AE : A e = vscale (- (1)) g).
      { rewrite (m_g HM), <- (lin_scale LA) by (unfold OField.vec in *; vlen). f_equal. unfold e. vx. }
      assert (NEe : e <> vzero n).
      { intros Z. apply NE. rewrite Z, (lin_zero LA) in AE. assert (G : g = vscale (- (1)) (vscale (- (1)) g)) by vx. rewrite G, <- AE. vx. }
      assert (SD : sized n (e :: ds)) by (intros v [<-|I]; [exact Le|exact (m_sized HM _ I)]).
      destruct (@dependent K n (e :: ds)) as (cs & L & NN & E).
      - apply Forall_forall. exact SD.
      - cbn [length]. rewrite (m_len HM). lia.
      - apply NN. apply (@conj_indep K n A x0 xs LA Hx0 Hxs); auto. cbn [conj]. split; [apply (proj2 SA); auto|]. split; [|exact (m_conj HM)].
        intros d I. rewrite AE, dot_scale_l, (m_orth HM) by exact I. ring.
    Qed.
    Lemma mid_residual : forall k x g ds, Mid k x g ds -> dot (vsub (A xs) (A x)) (vsub (A xs) (A x)) = dot g g.
    Proof.
      intros k x g ds HM. pose proof (m_x HM) as Lx. pose proof (lin_len LA _ Lx) as L1. pose proof (lin_len LA _ Hxs) as L2.
      rewrite (m_g HM), (lin_sub LA) by auto. assert (E : vsub (A xs) (A x) = vscale (- (1)) (vsub (A x) (A xs))) by vx.
      rewrite E, dot_scale_l, dot_comm, dot_scale_l. ring.
    Qed.
  End Loop.
End P.
