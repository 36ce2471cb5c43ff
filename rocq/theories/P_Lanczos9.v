(** Lanczos with deflation inside an invariant subspace: where the vectors lie, and their residuals. *)
From Coq Require Import List Arith Lia Bool Field Permutation.
From Verif Require Import Base OField Mat LinAlg M_Perm S_Perm M_Lanczos S_Lanczos P_Span P_Deflate P_Lanczos P_Lanczos2 P_Lanczos3 P_Lanczos4 P_Lanczos5 P_Lanczos6 P_Lanczos7 P_Lanczos8.
Import ListNotations.
Set Implicit Arguments.
Open Scope nat_scope.

Section P.
  Variable K : ofield.
  Add Field KfLan9 : (f_field K).
  Local Open Scope K_scope.
  Notation vec := (vec K).
  Ltac vx := unfold OField.vec in *; vext; try ring.

  (** Component of r along a unit vector y. *)
  Lemma unit_component : forall n (y r : vec), length y = n -> length r = n -> dot y y = 1 -> dot y r * dot y r <= dot r r.
  Proof.
    intros n y r Ly Lr U. apply fle_sub_0.
    assert (E : dot r r - dot y r * dot y r = dot (vaxpy (- dot y r) y r) (vaxpy (- dot y r) y r)).
    { unfold vaxpy. rewrite !dot_add_l, !dot_scale_l by (rewrite ?vscale_length; congruence).
      rewrite (dot_comm r (vadd _ _)), (dot_comm y (vadd _ _)), !dot_add_l, !dot_scale_l, U by (rewrite ?vscale_length; congruence). rewrite (dot_comm r y). ring. }
    rewrite E. apply dot_nonneg.
  Qed.

  (** More orthonormal vectors than the dimension do not exist; n of them leave no room. *)
  Lemma orthonormal_le : forall n (vs : list vec), orthonormal n vs -> (length vs <= n)%nat.
  Proof.
    intros n vs O. destruct (le_lt_dec (length vs) n) as [|Lt]; auto. exfalso. destruct (dependent (proj1 O) Lt) as (cs & L1 & N & Z). apply N. apply (orthonormal_independent O); auto.
  Qed.
  Lemma orthonormal_full : forall n (vs : list vec) w, orthonormal n vs -> (n <= length vs)%nat -> length w = n -> orth_to vs w -> w = vzero n.
  Proof.
    intros n vs w O Lv Lw Ow. assert (Sz : sized_all n (w :: vs)) by (constructor; auto; apply O).
    destruct (dependent Sz ltac:(simpl; lia)) as (cs & L1 & N & Z). destruct cs as [|c cs]; [discriminate|]. simpl in L1, Z. injection L1 as L1.
    assert (Cs : cs = vzero (length vs)).
    { apply vec_ext; [rewrite vzero_length; auto|]. intros i Hi. rewrite nth_vzero.
      assert (D : dot (vadd (vscale c w) (comb n cs vs)) (nth i vs []) = nth i cs 0).
      { rewrite dot_add_l by (rewrite vscale_length, comb_length by apply O; auto). rewrite dot_scale_l, (Ow (nth i vs [])) by (apply nth_In; unfold OField.vec in *; lia).
        rewrite (dot_comb_orthonormal cs O) by (unfold OField.vec in *; lia). ring. }
      rewrite Z in D. rewrite dot_zero_l in D. congruence. }
    subst cs. rewrite comb_zero in Z by apply O.
    assert (c <> 0). { intros ->. apply N. reflexivity. }
    apply vec_ext; [rewrite vzero_length; auto|]. intros i Hi. rewrite nth_vzero.
    apply (f_equal (fun v => nth i v 0)) in Z. rewrite nth_vadd, nth_vscale, !nth_vzero in Z by (rewrite vscale_length, vzero_length; auto).
    replace (c * nth i w 0 + 0) with (c * nth i w 0) in Z by ring. apply fmul_eq_0 in Z. destruct Z; [contradiction|auto].
  Qed.

  Variable fsqrt : K -> option K.
  Hypothesis Hsq : sqrt_ok fsqrt.
  Variable debug : bool.
  Variable dstev : list K -> list K -> outcome (list K * list K).
  Hypothesis Hdstev : dstev_ok dstev.
  Variable tol2 : K.
  Hypothesis Ht : 0 <= tol2.
  Variable n : nat.

  (** With as many iterations permitted as there are unknowns the residual is always within the tolerance. *)
  Lemma enough_iterations : forall S (op : vec -> vec) num maxit tol percent guess evals ys, subspace n S -> symmetric_on S op -> (1 <= maxit)%nat -> (1 <= num)%nat -> (n <= maxit)%nat ->
    S guess -> solve_lanczos fsqrt debug dstev tol2 op num maxit tol percent guess = Ok (evals, ys) ->
    forall i, (i < num)%nat -> let r := vsub (op (nth i ys [])) (vscale (nth i evals 0) (nth i ys [])) in S r /\ dot r r <= tol * tol.
  Proof.
    intros S op num maxit tol percent guess evals ys HS Hop Hm Hn Hnm Sg E i Hi r.
    destruct (@solve_lanczos_result K fsqrt Hsq debug dstev Hdstev tol2 Ht n S op HS Hop num maxit percent tol Hm Hn guess evals ys Sg E) as (Le & Ly & Lm & Oy & Sy & G & s & Er & Hs & Hc).
    destruct (@run_linv K n S op fsqrt debug dstev tol2 num maxit tol percent guess s HS Hop Hsq Hm Sg Er) as (k & F & _). assert (L := fi_lin F). assert (Ek := li_main L).
    assert (O := linv_orthonormal HS L). assert (Lk := linv_len_k L).
    destruct (Hs i Hi) as (_ & _ & X3 & _ & X5 & X6). subst r. rewrite X3. rewrite Ek in *.
    assert (Sw : S (nth k (s_vectors s) [])) by (apply (li_S L); lia). split; [apply (su_scale HS); auto|].
    destruct Hc as [Hc|Hc]; [apply X6; auto|].
    assert (W : nth k (s_vectors s) [] = vzero n).
    { apply (@orthonormal_full n (firstn k (s_vectors s))); auto.
      - unfold OField.vec in *; rewrite Lk. lia.
      - apply (su_len HS). auto.
      - intros v Hv. destruct (in_nth_v _ _ Hv) as (j & Hj & <-). rewrite Lk in Hj. rewrite (nth_firstn_v L) by auto. apply (li_rest L). auto. }
    rewrite W. rewrite dot_scale_l, dot_zero_l. replace (_ * 0) with (0 : K) by ring. apply fsquare_nonneg.
  Qed.

  (** ** An invariant subspace *)
  Variable S0 : vec -> Prop.
  Hypothesis HS0 : subspace n S0.
  Variable op : vec -> vec.
  Hypothesis Hop : symmetric_on S0 op.
  Variable rand : nat -> nat -> K.
  Hypothesis Hrand : forall v seed, S0 v -> S0 (set_initial_guess rand v seed).

  Definition within (ds : list vec) (x : vec) : Prop := S0 x /\ orth_to ds x.
  Lemma within_sub : forall ds, subspace n (within ds).
  Proof.
    intros ds. constructor.
    - intros x H. apply (su_len HS0). apply H.
    - intros x y [L1 O1] [L2 O2]. split; [apply (su_add HS0); auto|]. apply (su_len HS0) in L1, L2. intros v Hv. rewrite dot_add_l by (unfold OField.vec in *; lia). rewrite O1, O2 by auto. ring.
    - intros s x [L1 O1]. split; [apply (su_scale HS0); auto|]. intros v Hv. rewrite dot_scale_l, O1 by auto. ring.
  Qed.
  Lemma deflate_S0 : forall ds v, (forall d, In d ds -> S0 d) -> S0 v -> S0 (deflate ds v).
  Proof.
    induction ds as [|d ds IH]; intros v Hd Hv; simpl; auto. apply IH; [intros; apply Hd; right; auto|].
    unfold remove_component, vaxpy. apply (su_add HS0); auto. apply (su_scale HS0). apply Hd. left; auto.
  Qed.
  Lemma within_sym : forall ds, orthonormal n ds -> (forall d, In d ds -> S0 d) -> symmetric_on (within ds) (deflated_vmult op ds).
  Proof.
    intros ds O Hd. assert (Sz := proj1 O). constructor.
    - intros x [Sx Ox]. assert (So := sy_into Hop _ Sx). unfold deflated_vmult. split; [apply deflate_S0; auto|apply (@deflate_orth K n); auto; apply (su_len HS0); auto].
    - intros x y [Sx Ox] [Sy Oy]. assert (Lx := su_len HS0 _ (sy_into Hop _ Sx)). assert (Ly := su_len HS0 _ (sy_into Hop _ Sy)). unfold deflated_vmult.
      rewrite (deflate_dot (op x) Sz) by auto. rewrite (dot_comm x). rewrite (deflate_dot (op y) Sz) by auto. rewrite (sy_sym Hop) by auto. apply dot_comm.
  Qed.

  (** Subspace closed under combinations of a non-empty list. *)
  Lemma comb_S0 : forall (vs : list vec) cs, vs <> [] -> length cs = length vs -> (forall v, In v vs -> S0 v) -> S0 (comb n cs vs).
  Proof. intros vs cs H L Hv. apply (su_comb HS0); auto. destruct vs; [congruence|simpl; lia]. Qed.

  (** Projections onto the same span agree. *)
  Lemma deflate_same_span : forall (ds es : list vec) v, orthonormal n ds -> orthonormal n es -> (forall x, span n ds x <-> span n es x) -> length v = n -> deflate ds v = deflate es v.
  Proof.
    intros ds es v Od Oe Hs Lv. assert (Ld := @deflate_length K n ds v (proj1 Od) Lv). assert (Le := @deflate_length K n es v (proj1 Oe) Lv).
    set (a := deflate ds v) in *. set (b := deflate es v) in *.
    assert (Sab : span n ds (vsub a b)).
    { replace (vsub a b) with (vadd (vscale (- (1)) (vsub v a)) (vsub v b)) by (clearbody a b; vx).
      apply span_add; [apply Od| |].
      - apply span_scale; [apply Od|]. apply deflate_diff; auto; try apply Od. apply incl_refl.
      - apply Hs. apply deflate_diff; auto; try apply Oe. apply incl_refl. }
    assert (Z : dot (vsub a b) (vsub a b) = 0).
    { assert (Za : dot a (vsub a b) = 0). { apply (@orth_span K n ds); auto; [apply Od|]. apply (@deflate_orth K n); auto. }
      assert (Zb : dot b (vsub a b) = 0). { apply (@orth_span K n es); auto; [apply Oe| |apply Hs; auto]. apply (@deflate_orth K n); auto. }
      replace (vsub a b) with (vadd a (vscale (- (1)) b)) at 1 by (clearbody a b; vx). rewrite dot_add_l by (rewrite vscale_length; congruence). rewrite dot_scale_l, Za, Zb. ring. }
    apply dot_self_0 in Z. apply vec_ext; [congruence|]. intros i Hi. apply (f_equal (fun u => nth i u 0)) in Z. rewrite nth_vsub, nth_vzero in Z by congruence.
    replace (nth i a 0) with ((nth i a 0 - nth i b 0) + nth i b 0) by ring. rewrite Z. ring.
  Qed.
  (** What deflation removes, in an orthonormal basis. *)
  Lemma removed_part : forall (es : list vec) v, orthonormal n es -> length v = n -> vsub v (deflate es v) = comb n (map (fun e => dot v e) es) es.
  Proof.
    intros es v Oe Lv. assert (Lb := @deflate_length K n es v (proj1 Oe) Lv).
    destruct (@deflate_diff K n es es v (proj1 Oe) (proj1 Oe) (incl_refl _) Lv) as (cs & Lc & Ec). rewrite Ec. f_equal.
    apply vec_ext; [rewrite map_length; auto|]. intros i Hi. unfold OField.vec in *. rewrite Lc in Hi.
    rewrite (nth_map_in (fun e => dot v e) es [] 0) by auto. rewrite <- (dot_comb_orthonormal cs Oe) by auto. rewrite <- Ec.
    replace (vsub v (deflate es v)) with (vadd v (vscale (- (1)) (deflate es v))) by (vx). rewrite dot_add_l by (rewrite vscale_length; congruence).
    rewrite dot_scale_l. match goal with |- context [dot (deflate es v) ?x] => replace (dot (deflate es v) x) with (0:K) by (symmetry; apply (@deflate_orth K n es v Oe Lv); apply nth_In; auto) end. ring.
  Qed.

  Section Cycles.
    Variables num maxit percent : nat.
    Variable tol : K.
    Hypothesis Hn : (1 <= num)%nat.
    Hypothesis Hm : (1 <= maxit)%nat.
    Hypothesis Hnm : (n <= maxit)%nat.

    (** The pairs found before: orthonormal vectors spanning the deflated space, whose images hardly leave that space. *)
    Record found (prev : list (K * vec)) (ds : list vec) : Prop := {
      fo_orth : orthonormal n (map snd prev);
      fo_ds : orthonormal n ds;
      fo_span : forall x, span n ds x <-> span n (map snd prev) x;
      fo_S0 : forall p, In p prev -> S0 (snd p);
      fo_dS0 : forall d, In d ds -> S0 d;
      fo_acc : forall p y, In p prev -> S0 y -> dot y y = 1 -> orth_to (map snd prev) y -> dot y (op (snd p)) * dot y (op (snd p)) <= tol * tol
    }.

    (** Residual of a new pair. *)
    Lemma new_residual : forall prev ds e y, found prev ds -> within ds y -> dot y y = 1 ->
      (let r' := vsub (deflated_vmult op ds y) (vscale e y) in within ds r' /\ dot r' r' <= tol * tol) ->
      let r := vsub (op y) (vscale e y) in dot r r <= tol * tol * (1 + fnat (length prev)).
    Proof.
      intros prev ds e y Fo [Sy Oy] U [[Sr Or] Hr] r. assert (Ly := su_len HS0 _ Sy). assert (So := sy_into Hop _ Sy). assert (Lo := su_len HS0 _ So).
      set (r' := vsub (deflated_vmult op ds y) (vscale e y)) in *. set (es := map snd prev) in *. assert (Oe := fo_orth Fo). fold es in Oe.
      assert (Od := fo_ds Fo). assert (Oye : orth_to es y). { intros v Hv. apply (@orth_span K n ds); auto; [apply Od|]. apply (fo_span Fo). apply span_in; auto. apply Oe. }
      assert (Ed : deflate ds (op y) = deflate es (op y)). { apply deflate_same_span; auto. apply (fo_span Fo). }
      set (z := vsub (op y) (deflate es (op y))). assert (Ez : z = comb n (map (fun e => dot (op y) e) es) es) by (apply removed_part; auto).
      assert (Ldf : length (deflate es (op y)) = n) by (apply deflate_length; auto; apply Oe).
      assert (Er : r = vadd r' z). { unfold r, r', z, deflated_vmult. rewrite Ed. set (d := deflate es (op y)) in *. clearbody d. vx. }
      assert (Lr' : length r' = n) by (apply (su_len HS0); auto). assert (Lz : length z = n) by (unfold z; unfold OField.vec in *; rewrite vsub_length; lia).
      assert (Sz : span n es z). { rewrite Ez. exists (map (fun e => dot (op y) e) es). split; [apply map_length|auto]. }
      assert (Z1 : dot r' z = 0). { apply (@orth_span K n ds); auto; [apply Od|]. apply (fo_span Fo). auto. }
      assert (Z2 : dot z z <= tol * tol * fnat (length prev)).
      { rewrite Ez. rewrite (dot_combs _ _ Oe) by apply map_length.
        assert (Gen : forall ps, incl ps prev -> dot (map (fun e => dot (op y) e) (map snd ps)) (map (fun e => dot (op y) e) (map snd ps)) <= tol * tol * fnat (length ps)).
        { induction ps as [|p ps IH]; intros I.
          - cbn [map length fnat dot]. replace (tol * tol * 0) with (0 : K) by ring. apply fle_refl.
          - cbn [map length fnat dot]. replace (tol * tol * (fnat (length ps) + 1)) with (tol * tol + tol * tol * fnat (length ps)) by ring. apply fle_add2.
            + assert (Hp : In p prev) by (apply I; left; auto). rewrite (sy_sym Hop _ _ Sy (fo_S0 Fo _ Hp)). apply (fo_acc Fo); auto.
            + apply IH. intros q Hq. apply I. right; auto. }
        apply Gen. apply incl_refl. }
      assert (Q : dot r r = dot r' r' + dot z z).
      { rewrite Er. rewrite dot_add_l by congruence. rewrite (dot_comm r' (vadd _ _)), (dot_comm z (vadd _ _)), !dot_add_l by congruence. rewrite (dot_comm z r'), Z1. ring. }
      rewrite Q. replace (tol * tol * (1 + fnat (length prev))) with (tol * tol + tol * tol * fnat (length prev)) by ring. apply fle_add2; auto.
    Qed.

    Lemma cycles_acc : forall k cycle prev ds guess ps, found prev ds -> S0 guess ->
      cycles fsqrt debug dstev tol2 rand k cycle op num maxit tol percent ds guess = Ok ps ->
      length ps = (k * num)%nat /\
      forall p, In p ps -> S0 (snd p) /\
        let r := vsub (op (snd p)) (vscale (fst p) (snd p)) in dot r r <= tol * tol * (1 + fnat (length prev + (k - 1) * num)).
    Proof.
      induction k as [|k IH]; intros cycle prev ds guess ps Fo Sg E; cbn [cycles] in E.
      - injection E as <-. split; auto. intros p [].
      - set (g1 := if (0 <? cycle)%nat then set_initial_guess rand guess cycle else guess) in *.
        assert (S1 : S0 g1). { unfold g1. destruct (0 <? cycle)%nat; auto. }
        set (g := deflate ds g1) in *. assert (Od := fo_ds Fo). assert (Sz := proj1 Od).
        assert (Cg : within ds g). { split; [apply deflate_S0; auto; apply (fo_dS0 Fo)|apply (@deflate_orth K n); auto; apply (su_len HS0); auto]. }
        destruct (solve_lanczos fsqrt debug dstev tol2 (deflated_vmult op ds) num maxit tol percent g) as [[evals ys]| | | |] eqn:Es; cbn [bind fst snd] in E; try discriminate.
        destruct (push_pairs num 0 evals ys) as [ps1| | | |] eqn:Ep; cbn [bind] in E; try discriminate.
        assert (Wsym := within_sym Od (fo_dS0 Fo)).
        destruct (@solve_lanczos_result K fsqrt Hsq debug dstev Hdstev tol2 Ht n (within ds) (deflated_vmult op ds) (within_sub ds) Wsym num maxit percent tol Hm Hn g evals ys Cg Es) as (Le & Ly & Lmax & Oy & Sy & _).
        assert (Acc := @enough_iterations (within ds) (deflated_vmult op ds) num maxit tol percent g evals ys (within_sub ds) Wsym Hm Hn Hnm Cg Es).
        destruct (map_snd_pairs _ _ Ep Ly Le) as [M1 M2]. destruct (push_pairs_spec _ _ _ _ Ep) as [Lp1 Hp1].
        assert (W1 : forall p, In p ps1 -> within ds (snd p) /\ dot (snd p) (snd p) = 1 /\ (let r' := vsub (deflated_vmult op ds (snd p)) (vscale (fst p) (snd p)) in within ds r' /\ dot r' r' <= tol * tol)).
        { intros p Hp. destruct (In_nth _ _ (0, []) Hp) as (i & Hi & Ei). assert (Hi' : (i < num)%nat) by (rewrite <- Lp1; exact Hi). clear Hi. rename Hi' into Hi. destruct (Hp1 i Hi) as (Q & _). assert (Q' : p = (nth i evals 0, nth i ys [])) by (rewrite <- Ei; exact Q). rewrite Q'. clear Q Q' Ei. cbn [fst snd]. split; [apply Sy; auto|]. split.
          - destruct Oy as [_ Oy]. rewrite Oy by (unfold OField.vec in *; lia). rewrite Nat.eqb_refl. auto.
          - apply Acc. auto. }
        assert (R1 : forall p, In p ps1 -> let r := vsub (op (snd p)) (vscale (fst p) (snd p)) in dot r r <= tol * tol * (1 + fnat (length prev))).
        { intros p Hp. destruct (W1 p Hp) as (A & B & C). apply (@new_residual prev ds); auto. }
        assert (Mono : forall a b, (a <= b)%nat -> tol * tol * (1 + fnat a) <= tol * tol * (1 + fnat b)).
        { intros a b Hab. apply fle_mul_l; [apply fsquare_nonneg|]. apply fle_add2; [apply fle_refl|apply fnat_le; auto]. }
        destruct k as [|k].
        + cbn [cycles Nat.eqb bind] in E. injection E as <-. rewrite app_nil_r. split; [lia|]. intros p Hp. split; [apply W1; auto|]. replace (length prev + (1 - 1) * num)%nat with (length prev) by lia. apply R1; auto.
        + cbn [Nat.eqb] in E. destruct (@add_spec K n fsqrt Hsq debug ds ys Od (proj1 Oy)) as [(ds' & Ea & O' & Ld & Fd & Sd & _)|[[Ea _]|[Ea _]]].
          2:{ rewrite Ea in E. destruct debug; discriminate. } 2:{ rewrite Ea in E. discriminate. }
          rewrite Ea in E. cbn [bind] in E.
          destruct (cycles fsqrt debug dstev tol2 rand (S k) (S cycle) op num maxit tol percent ds' g) as [r| | | |] eqn:Er; cbn [bind] in E; try discriminate.
          injection E as <-.
          assert (Szy : sized_all n (ds ++ ys)) by (apply Forall_app; split; [auto|apply Oy]).
          assert (Opy : forall u v, In u (map snd prev) -> In v ys -> dot u v = 0).
          { intros u v Hu Hv. rewrite dot_comm. destruct (in_nth_v _ _ Hv) as (j & Hj & <-). apply (@orth_span K n ds); [apply Od|apply Sy; rewrite <- Ly; auto|]. apply (fo_span Fo). apply span_in; auto. apply (fo_orth Fo). }
          assert (Fo' : found (prev ++ ps1) ds').
          { constructor.
            - rewrite map_app, M1. apply orthonormal_app; auto. apply (fo_orth Fo).
            - auto.
            - intros x. rewrite Sd. rewrite map_app, M1. 
              assert (S2 : sized_all n (map snd prev ++ ys)) by (apply Forall_app; split; [apply (fo_orth Fo)|apply Oy]).
              split; apply span_sub; auto; intros u Hu; apply in_app_or in Hu; destruct Hu as [Hu|Hu].
              + apply (@span_incl K n (map snd prev ++ ys) (map snd prev)); auto; [apply incl_appl; apply incl_refl|]. apply (fo_span Fo). apply span_in; auto.
              + apply span_in; auto. apply in_or_app; auto.
              + apply (@span_incl K n (ds ++ ys) ds); auto; [apply incl_appl; apply incl_refl|]. apply (fo_span Fo). apply span_in; auto. apply (fo_orth Fo).
              + apply span_in; auto. apply in_or_app; auto.
            - intros p Hp. apply in_app_or in Hp. destruct Hp as [Hp|Hp]; [apply (fo_S0 Fo); auto|apply W1; auto].
            - intros d Hd. assert (Hs : span n (ds ++ ys) d) by (apply Sd; apply span_in; auto; apply O'). destruct Hs as (cs & Lc & ->). apply comb_S0; auto.
              + intros Z. apply app_eq_nil in Z. destruct Z as [_ Z]. rewrite Z in Ly. simpl in Ly. lia.
              + intros v Hv. apply in_app_or in Hv. destruct Hv as [Hv|Hv]; [apply (fo_dS0 Fo); auto|]. destruct (in_nth_v _ _ Hv) as (j & Hj & <-). apply Sy. rewrite <- Ly. auto.
            - intros p y Hp Syy U Oy'. rewrite map_app, M1 in Oy'.
              apply in_app_or in Hp. destruct Hp as [Hp|Hp].
              + apply (fo_acc Fo); auto. intros v Hv. apply Oy'. apply in_or_app; auto.
              + destruct (W1 p Hp) as ((Sp & Op) & Up & (Srp & _) & Hr). assert (Lop := su_len HS0 _ (sy_into Hop _ Sp)). assert (Lpv := su_len HS0 _ Sp). assert (Lyy := su_len HS0 _ Syy).
                assert (Lr' := su_len HS0 _ Srp).
                assert (Oyd : orth_to ds y). { intros v Hv. apply (@orth_span K n (map snd prev)); [apply (fo_orth Fo)| |apply (fo_span Fo); apply span_in; auto]. intros u Hu. apply Oy'. apply in_or_app; auto. }
                assert (Oyp : dot y (snd p) = 0). { apply Oy'. apply in_or_app. right. rewrite <- M1. apply in_map. auto. }
                set (r' := vsub (deflated_vmult op ds (snd p)) (vscale (fst p) (snd p))) in *.
                assert (Ey : dot y (op (snd p)) = dot y r').
                { rewrite (dot_comm y r'). unfold r', deflated_vmult. assert (Ldd := @deflate_length K n ds (op (snd p)) Sz Lop).
                  replace (vsub (deflate ds (op (snd p))) (vscale (fst p) (snd p))) with (vadd (deflate ds (op (snd p))) (vscale (- fst p) (snd p))) by (set (d := deflate ds (op (snd p))) in *; clearbody d; vx).
                  rewrite dot_add_l by (rewrite vscale_length; congruence). rewrite dot_scale_l. rewrite (deflate_dot (op (snd p)) Sz) by auto. rewrite (dot_comm (snd p) y), Oyp. rewrite (dot_comm (op (snd p)) y). ring. }
                rewrite Ey. apply fle_trans with (dot r' r'); auto. apply (@unit_component n); auto. }
          assert (Sg' : S0 g) by apply Cg.
          destruct (IH _ _ _ _ _ Fo' Sg' Er) as (L3 & H3). split; [rewrite app_length, L3; simpl; lia|].
          rewrite app_length, Lp1 in H3. intros p Hp. apply in_app_or in Hp. destruct Hp as [Hp|Hp].
          * split; [apply W1; auto|]. cbv zeta. eapply fle_trans; [apply R1; auto|]. apply Mono. lia.
          * destruct (H3 p Hp) as [A B]. split; auto. cbv zeta in *. eapply fle_trans; [exact B|]. apply Mono. simpl. lia.
    Qed.
  End Cycles.
End P.
