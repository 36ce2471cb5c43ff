(** The Lanczos loop: schedule of the checks and the state at the end. *)
From Coq Require Import List Arith Lia Bool Field.
From Verif Require Import Base OField Mat LinAlg M_Perm M_Lanczos S_Lanczos P_Span P_Deflate P_Lanczos P_Lanczos2.
Import ListNotations.
Set Implicit Arguments.
Open Scope nat_scope.

Lemma due_first : forall p maxit, check_due p maxit 0 1 = true.
Proof. intros. reflexivity. Qed.
Lemma due_spec : forall p maxit c it, 1 <= c -> c < it -> it <= next_check p maxit c -> c < maxit ->
  check_due p maxit c it = (it =? next_check p maxit c).
Proof.
  intros p maxit c it Hc Hi Hn Hm. unfold check_due. replace (it =? 1) with false by (symmetry; apply Nat.eqb_neq; lia). rewrite orb_false_l.
  assert (D : p * c = 100 * (p * c / 100) + p * c mod 100) by (apply Nat.div_mod; lia).
  assert (M : p * c mod 100 < 100) by (apply Nat.mod_upper_bound; lia).
  unfold next_check in *. set (q := p * c / 100) in *. set (r := p * c mod 100) in *. clearbody q r. generalize dependent (p * c). intros pc D.
  destruct (Nat.eqb_spec it maxit) as [->|N1]; [rewrite orb_true_l|rewrite orb_false_l].
  - symmetry. apply Nat.eqb_eq. lia.
  - destruct (Nat.ltb_spec pc (100 * (it - c))), (Nat.eqb_spec it (Nat.min maxit (c + q + 1))); auto; lia.
Qed.
Lemma schedule_bounds : forall p maxit c l, 1 <= maxit -> schedule p maxit (c :: l) -> 1 <= c <= maxit.
Proof.
  intros p maxit c l Hm H. remember (c :: l) as cl eqn:E. revert c l E. induction H as [|c0 l0 H IH Hc]; intros c l E; injection E as <- <-; [lia|].
  unfold next_check. lia.
Qed.

Section P.
  Variable K : ofield.
  Add Field KfLan3 : (f_field K).
  Local Open Scope K_scope.
  Notation vec := (vec K).
  Notation V vs j := (nth j vs ([] : vec)).

  Variable op : vec -> vec.
  Variable fsqrt : K -> option K.
  Variable debug : bool.
  Variable dstev : list K -> list K -> outcome (list K * list K).
  Variable tol2 : K.
  Variables (num maxit percent : nat) (tol : K).

  (** What a step does to the lists. *)
  Lemma step_shape : forall it beta vs main sub beta' vs' main' sub', lanczos_step fsqrt debug op it beta vs main sub = Ok (beta', vs', main', sub') ->
    length vs' = Datatypes.S (length vs) /\ (exists alpha, main' = main ++ [alpha]) /\ sub' = if (it =? 1)%nat then sub else sub ++ [beta].
  Proof.
    intros it beta vs main sub beta' vs' main' sub' E. unfold lanczos_step in E. destruct (assert_dbg debug _); cbn [bind] in E; try discriminate.
    destruct (rd vs _); cbn [bind] in E; try discriminate. destruct (vdiv _ _); cbn [bind] in E; try discriminate.
    destruct (wr vs _ _) as [vs1| | | |] eqn:W; cbn [bind] in E; try discriminate. unfold wr in W. destruct (it - 1 <? length vs)%nat; [|discriminate]. injection W as <-.
    destruct (it =? 1)%nat.
    - cbn [bind fst snd] in E. destruct (l2_norm _ _); cbn [bind] in E; try discriminate. injection E as <- <- <- <-.
      rewrite app_length, upd_length. split; [simpl; lia|]. split; eauto.
    - destruct (rd (upd _ _ _) _); cbn [bind fst snd] in E; try discriminate. destruct (l2_norm _ _); cbn [bind] in E; try discriminate. injection E as <- <- <- <-.
      rewrite app_length, upd_length. split; [simpl; lia|]. split; eauto.
  Qed.

  (** An invariant of the steps. *)
  Variable Inv : nat -> K -> list vec -> list K -> list K -> Prop.
  Hypothesis Inv_main : forall k beta vs main sub, Inv k beta vs main sub -> length main = k.
  Hypothesis Inv_sub : forall k beta vs main sub, Inv k beta vs main sub -> length sub = (k - 1)%nat.
  Hypothesis Inv_step : forall k beta vs main sub beta' vs' main' sub', Inv k beta vs main sub ->
    lanczos_step fsqrt debug op (Datatypes.S k) beta vs main sub = Ok (beta', vs', main', sub') -> Inv (Datatypes.S k) beta' vs' main' sub'.

  (** A check at iteration c, seen from a later state with k steps, gave the answer b. *)
  Definition checked (c k : nat) (beta : K) (main sub : list K) (b : bool) : Prop :=
    exists ep, calc_tridiag_epairs fsqrt debug dstev tol2 (firstn c main) (firstn (c - 1) sub) num = Ok ep /\
      check_convergence (if (c <? k)%nat then nth (c - 1) sub 0 else beta) c num tol (snd ep) = Ok b.

  Record head_inv (s : lanczos_state K) : Prop := {
    hi_it : (1 <= s_it s <= Datatypes.S maxit)%nat;
    hi_lin : Inv (s_it s - 1) (s_beta s) (s_vectors s) (s_main s) (s_sub s);
    hi_first : s_it s = 1%nat -> s_prev_check s = 0%nat /\ s_checks s = [];
    hi_checks : (1 < s_it s)%nat -> exists l, s_checks s = s_prev_check s :: l /\ schedule percent maxit (s_checks s) /\
        (s_prev_check s <= s_it s - 1)%nat /\
        ((s_prev_check s < maxit)%nat -> (s_it s <= next_check percent maxit (s_prev_check s))%nat) /\
        calc_tridiag_epairs fsqrt debug dstev tol2 (firstn (s_prev_check s) (s_main s)) (firstn (s_prev_check s - 1) (s_sub s)) num = Ok (s_evals s, s_evecs s);
    hi_failed : forall c, In c (s_checks s) -> checked c (s_it s - 1) (s_beta s) (s_main s) (s_sub s) false
  }.

  Record final_inv (s : lanczos_state K) (k : nat) : Prop := {
    fi_k : (1 <= k <= maxit)%nat;
    fi_lin : Inv k (s_beta s) (s_vectors s) (s_main s) (s_sub s);
    fi_it : k = Nat.min (s_it s) maxit;
    fi_sched : schedule percent maxit (s_checks s);
    fi_last : hd 0%nat (s_checks s) = k;
    fi_pairs : calc_tridiag_epairs fsqrt debug dstev tol2 (s_main s) (s_sub s) num = Ok (s_evals s, s_evecs s);
    fi_conv : check_convergence (s_beta s) k num tol (s_evecs s) = Ok (s_it s <=? maxit)%nat;
    fi_failed : forall c, In c (tl (s_checks s)) -> checked c k (s_beta s) (s_main s) (s_sub s) false
  }.

  (** Earlier checks are unaffected by a step. *)
  Lemma checked_mono : forall c k beta main sub beta' main' sub' b, (1 <= c <= k)%nat -> length main = k -> length sub = (k - 1)%nat ->
    firstn k main' = main -> firstn (k - 1) sub' = sub -> nth (k - 1) sub' 0 = beta -> checked c k beta main sub b ->
    checked c (Datatypes.S k) beta' main' sub' b.
  Proof.
    intros c k beta main sub beta' main' sub' b Hc Lm Ls Em Es Eb (ep & E1 & E2). exists ep. split.
    - rewrite <- Em, <- Es, !firstn_firstn in E1. rewrite (Nat.min_l c k), (Nat.min_l (c - 1) (k - 1)) in E1 by lia. exact E1.
    - replace (c <? Datatypes.S k)%nat with true by (symmetry; apply Nat.ltb_lt; lia).
      destruct (Nat.ltb_spec c k).
      + rewrite <- Es in E2. rewrite <- (firstn_skipn (k - 1) sub'). rewrite app_nth1; [exact E2|]. rewrite Es. lia.
      + replace c with k in * by lia. rewrite Eb. exact E2.
  Qed.

  Lemma step_lists : forall k beta vs main sub beta' vs' main' sub', Inv k beta vs main sub ->
    lanczos_step fsqrt debug op (Datatypes.S k) beta vs main sub = Ok (beta', vs', main', sub') ->
    firstn k main' = main /\ firstn (k - 1) sub' = sub /\ ((1 <= k)%nat -> nth (k - 1) sub' 0 = beta).
  Proof.
    intros k beta vs main sub beta' vs' main' sub' I E. apply step_shape in E. destruct E as (_ & (alpha & ->) & ->).
    assert (L1 := Inv_main I). assert (L2 := Inv_sub I). split; [rewrite firstn_app, L1, Nat.sub_diag; simpl; rewrite app_nil_r; apply firstn_all2; lia|].
    change (Datatypes.S k =? 1)%nat with (k =? 0)%nat. destruct (Nat.eqb_spec k 0) as [Z|Z].
    - split; [apply firstn_all2; lia|lia].
    - split; [rewrite firstn_app, L2, Nat.sub_diag; simpl; rewrite app_nil_r; apply firstn_all2; lia|]. intros _. rewrite app_nth2 by lia. rewrite L2, Nat.sub_diag. auto.
  Qed.

  Lemma firstn_self : forall T (l : list T) m, length l = m -> firstn m l = l.
  Proof. intros. apply firstn_all2. lia. Qed.

  Lemma loop_spec : forall k s s', (1 <= maxit)%nat -> head_inv s -> (s_it s + k = Datatypes.S maxit)%nat ->
    lanczos_loop fsqrt debug dstev tol2 k op num maxit tol percent s = Ok s' ->
    (k = 0%nat -> (1 < s_it s)%nat) -> exists k', final_inv s' k'.
  Proof.
    induction k as [|k IH]; intros s s' Hm I Hk E Hz; simpl in E.
    - injection E as <-. specialize (Hz eq_refl). destruct (hi_checks I Hz) as (l & C1 & C2 & C3 & C4 & C5).
      assert (Hit : s_it s = Datatypes.S maxit) by lia.
      assert (B := C2). rewrite C1 in B. apply schedule_bounds in B; auto.
      assert (P : s_prev_check s = maxit).
      { destruct (Nat.eq_dec (s_prev_check s) maxit); auto. assert (A := C4 ltac:(lia)). unfold next_check in A. lia. }
      assert (L := hi_lin I). replace (s_it s - 1)%nat with maxit in L by lia.
      exists maxit. constructor; auto; try lia.
      + rewrite C1. auto.
      + rewrite P in C5. rewrite (firstn_self _ (Inv_main L)), (firstn_self _ (Inv_sub L)) in C5. auto.
      + assert (F := hi_failed I). destruct (F maxit) as (ep & E1 & E2); [rewrite C1, P; left; auto|].
        replace (s_it s - 1)%nat with maxit in E2 by lia. rewrite Nat.ltb_irrefl in E2.
        rewrite P in C5. rewrite C5 in E1. injection E1 as <-. simpl in E2. rewrite E2. f_equal. symmetry. apply Nat.leb_gt. lia.
      + intros c Hc. assert (F := hi_failed I c). replace (s_it s - 1)%nat with maxit in F by lia. apply F. rewrite C1 in *. right. exact Hc.
    - set (it := s_it s) in *. assert (Hit : (1 <= it <= maxit)%nat) by (assert (A := hi_it I); unfold it in *; lia).
      assert (L := hi_lin I). fold it in L.
      destruct (lanczos_step fsqrt debug op it (s_beta s) (s_vectors s) (s_main s) (s_sub s)) as [st| | | |] eqn:Es; try discriminate. cbn [bind] in E.
      replace it with (Datatypes.S (it - 1)) in Es by lia.
      destruct st as [[[beta vs] main] sub]. assert (L' := Inv_step L Es). destruct (step_lists L Es) as (F3 & F4 & Sb).
      replace (Datatypes.S (it - 1)) with it in L' by lia.
      assert (Mono : forall c, In c (s_checks s) -> checked c it beta main sub false).
      { intros c Hc. assert (F := hi_failed I c Hc). fold it in F. destruct (Nat.eq_dec it 1) as [E1|E1].
        { destruct (hi_first I E1) as [_ Z]. rewrite Z in Hc. destruct Hc. }
        destruct (hi_checks I ltac:(fold it; lia)) as (l & C1 & C2 & C3 & C4 & C5).
        assert (Bc : (1 <= c <= it - 1)%nat).
        { clear - Hc C1 C2 C3 Hm. fold it in C3. rewrite C1 in Hc, C2. clear C1. revert Hc C2 C3. generalize (s_prev_check s) as p0. clear - Hm.
          intros p0 Hc C2 C3. remember (p0 :: l) as pl eqn:Epl. revert p0 l Hc C3 Epl. induction C2 as [|c0 l0 H IH Hc0]; intros p0 l Hc C3 Epl; injection Epl as <- <-.
          - destruct Hc as [<-|[]]. lia.
          - destruct Hc as [<-|Hc].
            + assert (A := schedule_bounds Hm (sch_next H Hc0)). lia.
            + apply (IH c0 l0); auto. unfold next_check in C3. lia. }
        replace it with (Datatypes.S (it - 1)) by lia. eapply checked_mono with (beta := s_beta s) (main := s_main s) (sub := s_sub s); eauto.
        apply Sb. lia. }
      destruct (check_due percent maxit (s_prev_check s) it) eqn:Ed.
      + unfold assert_dbg in E. rewrite (Inv_main L'), Nat.eqb_refl in E. simpl negb in E. rewrite andb_false_r in E. cbn [bind] in E.
        destruct (calc_tridiag_epairs fsqrt debug dstev tol2 main sub num) as [ep| | | |] eqn:Ep; try discriminate. cbn [bind] in E.
        destruct (check_convergence beta it num tol (snd ep)) as [conv| | | |] eqn:Ec; try discriminate. cbn [bind] in E.
        assert (Sch : schedule percent maxit (it :: s_checks s)).
        { destruct (Nat.eq_dec it 1) as [E1|E1].
          - destruct (hi_first I E1) as [_ Z]. rewrite Z, E1. constructor.
          - destruct (hi_checks I ltac:(fold it; lia)) as (l & C1 & C2 & C3 & C4 & C5). fold it in C3, C4.
            assert (B := C2). rewrite C1 in B. apply schedule_bounds in B; auto.
            assert (Pm : (s_prev_check s < maxit)%nat) by lia.
            rewrite due_spec in Ed by (auto; lia). apply Nat.eqb_eq in Ed. rewrite Ed. rewrite C1 in *. constructor; auto. }
        assert (CK : checked it it beta main sub conv).
        { exists ep. rewrite (firstn_self _ (Inv_main L')), (firstn_self _ (Inv_sub L')). rewrite Nat.ltb_irrefl. auto. }
        destruct conv.
        * injection E as <-. exists it. constructor; simpl; auto; try lia.
          -- rewrite <- surjective_pairing. auto.
          -- rewrite Ec. f_equal. symmetry. apply Nat.leb_le. lia.
        * apply IH in E; auto; simpl; try lia.
          constructor; simpl; try lia.
          -- replace (it - 0)%nat with it by lia. auto.
          -- intros _. exists (s_checks s). replace (it - 0)%nat with it by lia. repeat split; auto; try lia.
             ++ intros P. unfold next_check. lia.
             ++ rewrite (firstn_self _ (Inv_main L')), (firstn_self _ (Inv_sub L')). rewrite <- surjective_pairing. auto.
          -- intros c [<-|Hc]; replace (it - 0)%nat with it by lia; auto.
      + apply IH in E; auto; simpl; try lia.
        assert (E1 : it <> 1%nat). { intros E1. unfold check_due in Ed. rewrite E1 in Ed. simpl in Ed. discriminate. }
        destruct (hi_checks I ltac:(fold it; lia)) as (l & C1 & C2 & C3 & C4 & C5). fold it in C3, C4.
        assert (B := C2). rewrite C1 in B. apply schedule_bounds in B; auto.
        assert (Pm : (s_prev_check s < maxit)%nat) by lia.
        rewrite due_spec in Ed by (auto; lia). apply Nat.eqb_neq in Ed.
        constructor; simpl; try lia.
        * replace (it - 0)%nat with it by lia. auto.
        * intros _. exists l. replace (it - 0)%nat with it by lia. repeat split; auto; try lia.
          rewrite <- C5. rewrite <- F3, <- F4. rewrite !firstn_firstn. rewrite (Nat.min_l (s_prev_check s) (it - 1)), (Nat.min_l (s_prev_check s - 1) (it - 1 - 1)) by lia. auto.
        * intros c Hc. replace (it - 0)%nat with it by lia. auto.
  Qed.

  Lemma run_spec : forall guess s, (1 <= maxit)%nat -> (forall beta, fsqrt (dot guess guess) = Some beta -> Inv 0 beta [guess] [] []) ->
    lanczos_run fsqrt debug dstev tol2 op num maxit tol percent guess = Ok s -> exists k, final_inv s k.
  Proof.
    intros guess s Hm Sg E. unfold lanczos_run in E. do 3 (destruct (assert_dbg debug _); cbn [bind] in E; try discriminate E).
    unfold l2_norm, root in E. destruct (fsqrt (dot guess guess)) as [b|] eqn:Eb; [|discriminate]. cbn [bind] in E.
    eapply loop_spec; eauto; simpl; try lia. constructor; simpl; try lia; auto; try (intros ? []).
  Qed.
End P.

(** The sizes of the lists are an invariant for every operator. *)
Definition sizes {K : ofield} (k : nat) (beta : K) (vs : list (vec K)) (main sub : list K) : Prop :=
  length vs = S k /\ length main = k /\ length sub = (k - 1)%nat.
Lemma sizes_step : forall (K : ofield) fsqrt debug op k (beta : K) vs main sub beta' vs' main' sub', sizes k beta vs main sub ->
  lanczos_step fsqrt debug op (S k) beta vs main sub = Ok (beta', vs', main', sub') -> sizes (S k) beta' vs' main' sub'.
Proof.
  intros K fsqrt debug op k beta vs main sub beta' vs' main' sub' (L1 & L2 & L3) E. apply step_shape in E. destruct E as (E1 & (alpha & ->) & ->).
  unfold sizes. rewrite app_length. simpl length at 3. split; [congruence|]. split; [lia|]. change (S k =? 1) with (k =? 0). destruct (Nat.eqb_spec k 0); rewrite ?app_length; simpl; lia.
Qed.
Lemma run_sizes : forall (K : ofield) fsqrt debug dstev (tol2 : K) op num maxit tol percent guess s, 1 <= maxit ->
  lanczos_run fsqrt debug dstev tol2 op num maxit tol percent guess = Ok s -> exists k, final_inv fsqrt debug dstev tol2 num maxit percent tol sizes s k.
Proof.
  intros. eapply run_spec; eauto.
  - intros ? ? ? ? ? (A & B & C); auto.
  - intros ? ? ? ? ? (A & B & C); auto.
  - intros. eapply sizes_step; eauto.
  - intros. unfold sizes. simpl. auto.
Qed.
Section OneScale.
  Variable K : ofield.
  Add Field KfLan3b : (f_field K).
  Lemma one_scale : forall b c : K, c <> f0 -> (b = b * c * (f1 / c))%K.
  Proof. intros. field. auto. Qed.
End OneScale.

(** The first vector is the start vector scaled by a positive number. *)
Definition from_guess {K : ofield} (guess : vec K) (vs : list (vec K)) : Prop := exists b : K, (0 < b)%K /\ guess = vscale b (nth 0 vs []).
Lemma run_linv : forall (K : ofield) n S (op : vec K -> vec K) fsqrt debug dstev (tol2 : K) num maxit tol percent guess s, subspace n S -> symmetric_on S op -> sqrt_ok fsqrt ->
  1 <= maxit -> S guess ->
  lanczos_run fsqrt debug dstev tol2 op num maxit tol percent guess = Ok s -> exists k,
  final_inv fsqrt debug dstev tol2 num maxit percent tol (linv n S op) s k /\ from_guess guess (s_vectors s).
Proof.
  intros K n S op fsqrt debug dstev tol2 num maxit tol percent guess s HS Hop Hsq Hm Sg E.
  destruct (@run_spec K op fsqrt debug dstev tol2 num maxit percent tol (fun k beta vs main sub => linv n S op k beta vs main sub /\ from_guess guess vs)) with (guess := guess) (s := s) as (k & F); auto.
  - intros ? ? ? ? ? L. apply (li_main (proj1 L)).
  - intros ? ? ? ? ? L. apply (li_sub (proj1 L)).
  - intros k beta vs main sub beta' vs' main' sub' [L (b & B1 & B2)] Es. assert (St := step_inv HS (sy_into Hop) (sy_sym Hop) Hsq debug L Es).
    destruct St as (L' & Nb & F1 & F2 & _). split; auto. destruct k as [|k].
    + exists (b * beta)%K. assert (Bp : (0 < beta)%K) by (apply fle_neq_lt; [apply (li_beta0 L)|congruence]). split; [apply fmul_pos; auto|].
      rewrite F2, vscale_vscale. rewrite B2 at 1. f_equal. apply one_scale; auto.
    + exists b. split; auto. rewrite B2 at 1. f_equal. assert (L0 := li_len L). assert (L0' := li_len L'). destruct vs as [|v vs]; [simpl in L0; lia|]. destruct vs' as [|v' vs']; [simpl in L0'; lia|]. simpl in F1. injection F1 as F1 _. simpl. congruence.
  - intros b Eb. destruct (Hsq _ _ Eb) as [B0 B1]. split.
    + constructor; simpl; auto; try lia. intros j Hj. replace j with 0 by lia. auto.
    + exists 1%K. split; [apply f0_lt_1|]. simpl. symmetry. apply vscale_1.
  - exists k. split; [|apply (fi_lin F)]. destruct F. constructor; auto. tauto.
Qed.
