(** Spans, independence, orthonormal systems. *)
From Coq Require Import List Arith Lia Bool Field Permutation.
From Verif Require Import Base OField Mat LinAlg S_Lanczos.
Import ListNotations.
Set Implicit Arguments.
Open Scope nat_scope.

Section Span.
  Variable K : ofield.
  Add Field KfSpan : (f_field K).
  Local Open Scope K_scope.
  Notation vec := (vec K).
  Ltac vx := unfold OField.vec in *; vext; try ring.

  Lemma sized_nth : forall n (vs : list vec) i, sized_all n vs -> (i < length vs)%nat -> length (nth i vs []) = n.
  Proof. intros n vs i H Hi. exact (proj1 (Forall_forall _ _) H _ (nth_In vs [] Hi)). Qed.
  Lemma sized_in : forall n (vs : list vec) v, sized_all n vs -> In v vs -> length v = n.
  Proof. intros n vs v H Hv. exact (proj1 (Forall_forall _ _) H v Hv). Qed.

  Lemma comb_add : forall n vs (a b : list K), sized_all n vs -> length a = length vs -> length b = length vs ->
    comb n (vadd a b) vs = vadd (comb n a vs) (comb n b vs).
  Proof.
    intros n vs a b H. revert a b. induction H as [|v vs Hv H IH]; intros [|x a] [|y b] Ha Hb; try discriminate.
    - simpl. rewrite vadd_zero_l by vlen. auto.
    - simpl in Ha, Hb. injection Ha as Ha. injection Hb as Hb. change (comb n (vadd (x :: a) (y :: b)) (v :: vs)) with (vadd (vscale (x + y) v) (comb n (vadd a b) vs)).
      cbn [comb]. rewrite IH by auto.
      pose proof (comb_length a H). pose proof (comb_length b H). vx.
  Qed.
  Lemma comb_scale : forall n s vs (a : list K), sized_all n vs -> length a = length vs ->
    comb n (vscale s a) vs = vscale s (comb n a vs).
  Proof.
    intros n s vs a H. revert a. induction H as [|v vs Hv H IH]; intros [|x a] Ha; try discriminate.
    - simpl. vx.
    - simpl in Ha. injection Ha as Ha. change (comb n (vscale s (x :: a)) (v :: vs)) with (vadd (vscale (s * x) v) (comb n (vscale s a) vs)).
      cbn [comb]. rewrite IH by auto.
      pose proof (comb_length a H). vx.
  Qed.
  Lemma comb_unit : forall n (vs : list vec) i, sized_all n vs -> (i < length vs)%nat -> comb n (unit_vec (length vs) i) vs = nth i vs [].
  Proof.
    intros n vs i H. revert i. induction H as [|v vs Hv H IH]; intros [|i] Hi; simpl in Hi; try lia; cbn [length unit_vec comb nth].
    - rewrite comb_zero by auto. vx.
    - rewrite IH by lia. assert (L : length (nth i vs []) = n) by (apply (sized_nth H); lia). vx.
  Qed.

  Lemma span_len : forall n vs (x : vec), sized_all n vs -> span n vs x -> length x = n.
  Proof. intros n vs x H (cs & _ & ->). apply comb_length. auto. Qed.
  Lemma span_zero : forall n (vs : list vec), sized_all n vs -> span n vs (vzero n).
  Proof. intros n vs H. exists (vzero (length vs)). split; [vlen|]. rewrite comb_zero; auto. Qed.
  Lemma span_nth : forall n (vs : list vec) i, sized_all n vs -> (i < length vs)%nat -> span n vs (nth i vs [] : vec).
  Proof. intros n vs i H Hi. exists (unit_vec (length vs) i). split; [vlen|]. rewrite comb_unit; auto. Qed.
  Lemma span_in : forall n vs (v : vec), sized_all n vs -> In v vs -> span n vs v.
  Proof. intros n vs v H Hv. destruct (In_nth _ _ [] Hv) as (i & Hi & <-). apply span_nth; auto. Qed.
  Lemma span_add : forall n vs (x y : vec), sized_all n vs -> span n vs x -> span n vs y -> span n vs (vadd x y).
  Proof. intros n vs x y H (a & La & ->) (b & Lb & ->). exists (vadd a b). split; [vlen|]. rewrite comb_add; auto. Qed.
  Lemma span_scale : forall n vs s (x : vec), sized_all n vs -> span n vs x -> span n vs (vscale s x).
  Proof. intros n vs s x H (a & La & ->). exists (vscale s a). split; [vlen|]. rewrite comb_scale; auto. Qed.
  Lemma span_axpy : forall n vs s (x y : vec), sized_all n vs -> span n vs x -> span n vs y -> span n vs (vaxpy s x y).
  Proof. intros. unfold vaxpy. apply span_add; auto. apply span_scale; auto. Qed.
  Lemma span_comb : forall n vs us (cs : list K), sized_all n vs -> (forall u, In u us -> span n vs u) -> span n vs (comb n cs us).
  Proof.
    intros n vs us cs H. revert cs. induction us as [|u us IH]; intros [|c cs] Hu; simpl; try (apply span_zero; auto).
    apply span_add; auto. apply span_scale; auto. apply Hu. left; auto. apply IH. intros; apply Hu; right; auto.
  Qed.
  Lemma span_sub : forall n vs us, sized_all n vs -> (forall u, In u us -> span n vs u) -> forall x : vec, span n us x -> span n vs x.
  Proof. intros n vs us H Hu x (cs & _ & ->). apply span_comb; auto. Qed.
  Lemma span_incl : forall n (vs us : list vec), sized_all n vs -> incl us vs -> forall x : vec, span n us x -> span n vs x.
  Proof. intros n vs us H I. apply span_sub; auto. intros u Hu. apply span_in; auto. Qed.

  Lemma dot_comb_l : forall n cs vs (x : vec), sized_all n vs -> length cs = length vs ->
    dot (comb n cs vs) x = sumn (length vs) (fun j => nth j cs 0 * dot (nth j vs []) x).
  Proof.
    intros n cs vs x H. revert cs. induction H as [|v vs Hv H IH]; intros [|c cs] HL; try discriminate.
    - simpl. apply dot_zero_l.
    - simpl in HL. injection HL as HL. cbn [length]. rewrite sumn_shift. cbn [comb nth].
      pose proof (comb_length cs H). rewrite dot_add_l by vlen. rewrite dot_scale_l. rewrite IH by auto. auto.
  Qed.
  (** A vector orthogonal to a set is orthogonal to its span. *)
  Lemma orth_span : forall n vs (x y : vec), sized_all n vs -> orth_to vs x -> span n vs y -> dot x y = 0.
  Proof.
    intros n vs x y H O (cs & HL & ->). rewrite dot_comm. rewrite dot_comb_l by auto. apply sumn_zero. intros j Hj.
    rewrite dot_comm. rewrite O by (apply nth_In; auto). ring.
  Qed.
  (** Coefficients of a combination of orthonormal vectors. *)
  Lemma dot_comb_orthonormal : forall n cs (vs : list vec) i, orthonormal n vs -> length cs = length vs -> (i < length vs)%nat ->
    dot (comb n cs vs) (nth i vs []) = nth i cs 0.
  Proof.
    intros n cs vs i (H & O) HL Hi. rewrite dot_comb_l by auto. rewrite (sumn_single _ i).
    - rewrite O, Nat.eqb_refl by auto. ring.
    - auto.
    - intros j Hj Hn. rewrite O by auto. destruct (Nat.eqb_spec j i); [contradiction|]. ring.
  Qed.
  (** Products of combinations of orthonormal vectors are products of the coefficients. *)
  Lemma dot_combs : forall n (a b : list K) vs, orthonormal n vs -> length a = length vs -> length b = length vs ->
    dot (comb n a vs) (comb n b vs) = dot a b.
  Proof.
    intros n a b vs H Ha Hb. destruct H as [S O]. rewrite dot_comm. rewrite dot_comb_l by auto.
    rewrite (@dot_sumn K a b (length vs)) by auto. apply sumn_ext. intros j Hj. rewrite dot_comm.
    rewrite dot_comb_orthonormal; auto. ring. split; auto.
  Qed.
  Lemma orthonormal_independent : forall n (vs : list vec), orthonormal n vs -> independent n vs.
  Proof.
    intros n vs H cs HL E. apply vec_ext; [vlen|]. intros i Hi. rewrite nth_vzero.
    rewrite <- (@dot_comb_orthonormal n cs vs i H HL) by lia. rewrite E. apply dot_zero_l.
  Qed.
  Lemma independent_nonzero : forall n (vs : list vec) i, sized_all n vs -> independent n vs -> (i < length vs)%nat -> nth i vs [] <> vzero n.
  Proof.
    intros n vs i S H Hi E. rewrite <- (comb_unit S Hi) in E. apply H in E; [|vlen].
    assert (X : nth i (unit_vec (length vs) i) 0 = (0 : K)) by (rewrite E; apply nth_vzero).
    rewrite nth_unit_vec, Nat.eqb_refl in X by auto. apply (f1_neq_0 K). auto.
  Qed.

  (** m independent vectors in the span of m vectors: those are independent too. *)
  Lemma independent_transfer : forall n (us vs : list vec), sized_all n us -> sized_all n vs -> length us = length vs ->
    independent n us -> (forall u, In u us -> span n vs u) -> independent n vs.
  Proof.
    intros n us vs Su Sv L I Sp.
    assert (G : exists M : list (list K), length M = length us /\ sized_all (length vs) M /\
              forall i, (i < length us)%nat -> nth i us [] = comb n (nth i M []) vs).
    { clear L I. induction us as [|u us IH].
      - exists []. split; auto. split; [constructor|]. simpl. intros; lia.
      - inversion Su as [|? ? Su1 Su2]. destruct IH as (M & M1 & M2 & M3); auto. { intros; apply Sp; right; auto. }
        destruct (Sp u (or_introl eq_refl)) as (c & C1 & C2). exists (c :: M). split; [simpl; auto|]. split; [constructor; auto|].
        intros [|i] Hi; simpl; auto. apply M3. simpl in Hi. lia. }
    destruct G as (M & M1 & M2 & M3).
    set (m := length vs) in *.
    assert (Lin : linear m m (fun x => comb m x M)).
    { constructor.
      - intros x Hx. apply comb_length. auto.
      - intros x y Hx Hy. apply comb_add; auto; unfold OField.vec in *; lia.
      - intros s x Hx. apply comb_scale; auto; unfold OField.vec in *; lia. }
    assert (Key : forall x : vec, length x = m -> comb n x us = comb n (comb m x M) vs).
    { clear I Lin Sp. intros x Hx.
      assert (GG : forall (x : vec) us M, length x = length us -> length M = length us -> sized_all m M -> sized_all n us ->
                  (forall i, (i < length us)%nat -> nth i us [] = comb n (nth i M []) vs) -> comb n x us = comb n (comb m x M) vs).
      { clear - Sv. induction x as [|c x IH]; intros [|u us] [|r M] Hx HM SM Su HH; try discriminate; simpl.
        - rewrite comb_zero; auto.
        - inversion SM; subst. inversion Su; subst. rewrite comb_add by (auto; rewrite ?vscale_length, ?comb_length; auto).
          rewrite comb_scale by auto. f_equal.
          + f_equal. apply (HH 0%nat). simpl. lia.
          + apply IH; auto. intros i Hi. apply (HH (S i)). simpl. lia. }
      apply GG; auto. unfold OField.vec in *; lia. }
    intros cs Hc E.
    destruct (injective_onto Lin) with (b := cs) as (x & Hx & Ex); auto.
    { intros x Hx E0. rewrite <- L. apply I; [unfold OField.vec in *; lia|]. rewrite Key by auto. rewrite E0. apply comb_zero. auto. }
    assert (X : x = vzero m). { rewrite <- L. apply I; [unfold OField.vec in *; lia|]. rewrite Key by auto. rewrite Ex. auto. }
    rewrite <- Ex, X. apply comb_zero. auto.
  Qed.
End Span.
