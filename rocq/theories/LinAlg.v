(** Finite-dimensional linear algebra over an ordered field: linear dependence, injective maps are onto. *)
From Coq Require Import List Arith Bool Lia Field.
From Verif Require Import Base OField Mat.
Import ListNotations.
Set Implicit Arguments.
Open Scope nat_scope.

Section LinAlg.
  Variable K : ofield.
  Add Field KfieldLA : (f_field K).
  Local Open Scope K_scope.
  Notation vec := (vec K).
  Ltac vx := vext; try ring.

  (** Linear combination of vectors of length n. *)
  Fixpoint comb (n : nat) (cs : list K) (vs : list vec) : vec :=
    match cs, vs with
    | c :: cs', v :: vs' => vadd (vscale c v) (comb n cs' vs')
    | _, _ => vzero n
    end.
  Definition sized_all (n : nat) (vs : list vec) : Prop := Forall (fun v => length v = n) vs.

  Lemma comb_length : forall n cs vs, sized_all n vs -> length (comb n cs vs) = n.
  Proof.
    induction cs; intros [|v vs] H; simpl; try apply vzero_length. inversion H; subst. rewrite vadd_length, vscale_length, IHcs by auto.
    apply Nat.min_id.
  Qed.
  Lemma comb_app : forall n cs1 vs1 cs2 vs2, length cs1 = length vs1 -> sized_all n vs1 -> sized_all n vs2 ->
    comb n (cs1 ++ cs2) (vs1 ++ vs2) = vadd (comb n cs1 vs1) (comb n cs2 vs2).
  Proof.
    induction cs1; intros [|v vs1] cs2 vs2 HL H1 H2; simpl in *; try discriminate.
    - rewrite vadd_zero_l; auto. apply comb_length; auto.
    - inversion H1; subst. rewrite IHcs1 by (auto; lia).
      pose proof (comb_length cs1 H4) as X. pose proof (comb_length cs2 H2) as Y. vx.
  Qed.
  Lemma comb_zero : forall n vs k, sized_all n vs -> comb n (vzero k) vs = vzero n.
  Proof.
    intros n vs k. revert vs. induction k; intros [|v vs] H; simpl; auto. inversion H; subst. change (repeat (0 : K) k) with (vzero k : vec). rewrite IHk by auto. vx.
  Qed.
  Lemma nth_comb : forall n cs vs i, sized_all n vs -> length cs = length vs ->
    nth i (comb n cs vs) 0 = sumn (length vs) (fun j => nth j cs 0 * nth i (nth j vs []) 0).
  Proof.
    induction cs; intros [|v vs] i H HL; simpl length; try discriminate.
    - simpl. apply nth_vzero.
    - inversion H; subst. rewrite sumn_shift. cbn [comb nth]. pose proof (comb_length cs H3). rewrite nth_vadd, nth_vscale by vlen.
      rewrite IHcs by auto. auto.
  Qed.
  Lemma lin_comb : forall n m f, linear n m f -> forall cs vs, sized_all n vs -> f (comb n cs vs) = comb m cs (map f vs).
  Proof.
    intros n m f H. induction cs; intros [|v vs] S; simpl; try apply (lin_zero H). inversion S; subst.
    rewrite (lin_add H) by (rewrite ?vscale_length, ?comb_length; auto). rewrite (lin_scale H) by auto. rewrite IHcs by auto. auto.
  Qed.
  Lemma comb_units : forall n (c : vec), length c = n -> comb n c (map (unit_vec n) (seq 0 n)) = c.
  Proof.
    intros n c H.
    assert (S : sized_all n (map (unit_vec n) (seq 0 n))).
    { apply Forall_forall. intros v I. apply in_map_iff in I. destruct I as (i & <- & _). apply unit_vec_length. }
    apply vec_ext; rewrite comb_length by auto; auto. intros i Hi.
    rewrite nth_comb by (auto; vlen). rewrite map_length, seq_length.
    assert (N : forall j, (j < n)%nat -> nth j (map (unit_vec n) (seq 0 n)) [] = (unit_vec n j : vec)).
    { intros j Hj. transitivity (nth j (map (unit_vec n) (seq 0 n)) (unit_vec n 0 : vec)); [apply nth_indep; rewrite map_length, seq_length; auto|]. rewrite map_nth, seq_nth by auto. auto. }
    rewrite (@sumn_single K n i); auto.
    - rewrite N, nth_unit_vec by auto. rewrite Nat.eqb_refl. ring.
    - intros j Hj Hn. rewrite N, nth_unit_vec by auto. destruct (Nat.eqb_spec i j); [congruence|ring].
  Qed.

  Lemma comb_hd0 : forall n cs vs, Forall (fun v => length v = S n /\ hd 0 v = 0) vs -> comb (S n) cs vs = 0 :: comb n cs (map (@tl K) vs).
  Proof.
    induction cs; intros [|v vs] H; simpl; auto. inversion H; subst. destruct H2 as (L & E). destruct v as [|x v]; [discriminate|].
    simpl in E. subst x. rewrite IHcs by auto. cbn [vscale map tl]. unfold vadd. cbn [vmap2]. f_equal. ring.
  Qed.

  Lemma comb_shift : forall n (v : vec) (t : vec -> K) cs vs, length v = n -> sized_all n vs -> length cs = length vs ->
    exists s, comb n cs (map (fun u => vsub u (vscale (t u) v)) vs) = vadd (comb n cs vs) (vscale s v).
  Proof.
    intros n v t cs vs Hv. revert cs. induction vs as [|u vs IH]; intros [|c cs] H HL; try discriminate.
    - exists 0. simpl. vx.
    - inversion H; subst. destruct (IH cs) as (s & E); auto. exists (s - c * t u). simpl. rewrite E.
      pose proof (comb_length cs H3). vx.
  Qed.

  (** More vectors than dimensions are linearly dependent. *)
  Lemma dependent : forall n vs, sized_all n vs -> (n < length vs)%nat ->
    exists cs, length cs = length vs /\ cs <> vzero (length vs) /\ comb n cs vs = vzero n.
  Proof.
    induction n as [|n IH]; intros vs HS HL.
    - destruct vs as [|v vs]; [simpl in HL; lia|]. exists (1 :: vzero (length vs)). split; [simpl; rewrite vzero_length; auto|].
      split; [simpl; unfold vzero; simpl; intros E; inversion E as [E1]; exact (f1_neq_0 K E1)|].
      pose proof (@comb_length 0%nat (1 :: vzero (length vs)) (v :: vs) HS) as E. destruct (comb _ _ _); [auto|discriminate].
    - destruct (Exists_dec (fun v => hd 0 v <> 0) vs) as [E|E].
      { intros v. destruct (feq_dec K (hd 0 v) 0); [right|left]; auto. }
      + apply Exists_exists in E. destruct E as (v & Iv & Nv). apply in_split in Iv. destruct Iv as (l1 & l2 & ->).
        apply Forall_app in HS. destruct HS as (S1 & S2). inversion S2 as [|? ? Lv S3]; subst.
        rewrite app_length in HL. simpl in HL.
        set (t := fun u : vec => hd 0 u / hd 0 v). set (w := map (fun u => vsub u (vscale (t u) v)) (l1 ++ l2)).
        assert (S12 : sized_all (S n) (l1 ++ l2)) by (apply Forall_app; auto).
        assert (Hw : Forall (fun u => length u = S n /\ hd 0 u = 0) w).
        { apply Forall_forall. intros u Iu. apply in_map_iff in Iu. destruct Iu as (u0 & <- & I0).
          pose proof (proj1 (Forall_forall _ _) S12 u0 I0) as L0. simpl in L0. split; [vlen|].
          destruct u0 as [|a u0]; [discriminate|]. destruct v as [|b v]; [discriminate|]. simpl in *. unfold t. simpl. field. auto. }
        destruct (IH (map (@tl K) w)) as (cs & C1 & C2 & C3).
        { apply Forall_forall. intros u Iu. apply in_map_iff in Iu. destruct Iu as (u0 & <- & I0).
          pose proof (proj1 (Forall_forall _ _) Hw u0 I0) as (L0 & _). destruct u0; [discriminate|]. simpl in *. lia. }
        { unfold w. rewrite !map_length, app_length. lia. }
        unfold w in C1, C2. rewrite !map_length in C1, C2. rewrite app_length in C1, C2.
        pose proof (@comb_hd0 n cs w Hw) as E0. rewrite C3 in E0. unfold w in E0.
        destruct (@comb_shift (S n) v t cs (l1 ++ l2) Lv S12) as (s & Es); [rewrite app_length; auto|]. rewrite E0 in Es.
        exists (firstn (length l1) cs ++ s :: skipn (length l1) cs).
        assert (F1 : length (firstn (length l1) cs) = length l1) by (rewrite firstn_length; lia).
        assert (F2 : length (skipn (length l1) cs) = length l2) by (rewrite skipn_length; lia).
        split; [rewrite !app_length; simpl; rewrite F1, F2; auto|]. split.
        * intros X. apply C2. rewrite <- (firstn_skipn (length l1) cs).
          assert (Y : forall A (x : A) n1 n2 a b c, length a = n1 -> a ++ b :: c = repeat x (n1 + S n2) -> a ++ c = repeat x (n1 + n2)).
          { induction n1; intros n2 [|a0 a] b c HLa HE; simpl in *; try discriminate.
            - inversion HE. auto.
            - inversion HE. f_equal. eapply IHn1; eauto. }
          unfold vzero. apply Y with (b := s); auto. rewrite X. unfold vzero. rewrite app_length. auto.
        * rewrite comb_app by (auto; constructor; auto). simpl comb.
          rewrite <- (firstn_skipn (length l1) cs) in Es. rewrite comb_app in Es by auto.
          pose proof (comb_length (firstn (length l1) cs) S1) as K1. pose proof (comb_length (skipn (length l1) cs) S3) as K2.
          transitivity (vadd (vadd (comb (S n) (firstn (length l1) cs) l1) (comb (S n) (skipn (length l1) cs) l2)) (vscale s v)); [vx|].
          rewrite <- Es. reflexivity.
      + assert (Hw : Forall (fun v => length v = S n /\ hd 0 v = 0) vs).
        { apply Forall_forall. intros v I. split; [exact (proj1 (Forall_forall _ _) HS v I)|].
          destruct (feq_dec K (hd 0 v) 0); auto. exfalso. apply E. apply Exists_exists. eauto. }
        destruct (IH (map (@tl K) vs)) as (cs & C1 & C2 & C3).
        { apply Forall_forall. intros u Iu. apply in_map_iff in Iu. destruct Iu as (u0 & <- & I0).
          pose proof (proj1 (Forall_forall _ _) Hw u0 I0) as (L0 & _). destruct u0; [discriminate|]. simpl in *. lia. }
        { rewrite map_length. eapply Nat.lt_trans; [|exact HL]. auto. }
        rewrite map_length in *. exists cs. split; auto. split; auto. rewrite comb_hd0 by auto. rewrite C3. reflexivity.
  Qed.

  (** An injective linear map of a space to itself is onto. *)
  Lemma injective_onto : forall n f, linear n n f -> (forall x : vec, length x = n -> f x = vzero n -> x = vzero n) ->
    forall b : vec, length b = n -> exists x, length x = n /\ f x = b.
  Proof.
    intros n f H Inj b Hb. set (us := map (unit_vec n) (seq 0 n) : list vec).
    assert (Su : sized_all n us).
    { apply Forall_forall. intros v I. apply in_map_iff in I. destruct I as (i & <- & _). apply unit_vec_length. }
    assert (Lu : length us = n) by (unfold us; rewrite map_length, seq_length; auto).
    destruct (@dependent n (b :: map f us)) as (cs & C1 & C2 & C3).
    { constructor; auto. apply Forall_forall. intros v I. apply in_map_iff in I. destruct I as (u & <- & I).
      apply (lin_len H). exact (proj1 (Forall_forall _ _) Su u I). }
    { simpl. rewrite map_length, Lu. auto. }
    simpl in C1. rewrite map_length, Lu in C1. destruct cs as [|d c]; [discriminate|]. simpl in C1. injection C1 as Lc.
    simpl in C3. rewrite <- (lin_comb H) in C3 by auto. unfold us in C3. rewrite comb_units in C3 by auto.
    pose proof (lin_len H c Lc) as Lf.
    destruct (feq_dec K d 0) as [->|Nd].
    - exfalso. apply C2. simpl. rewrite map_length, Lu. unfold vzero. simpl. f_equal. apply Inj; auto.
      rewrite <- C3. vx.
    - exists (vscale (- finv d) c). split; [vlen|]. rewrite (lin_scale H) by auto.
      assert (E : f c = vscale (- d) b).
      { apply vec_ext; [vlen|]. intros i Hi. pose proof (f_equal (fun v => nth i v 0) C3) as E. cbv beta in E.
        rewrite nth_vadd, !nth_vscale, nth_vzero in E by vlen. rewrite nth_vscale.
        transitivity ((d * nth i b 0 + nth i (f c) 0) - d * nth i b 0); [ring|]. rewrite E. ring. }
      rewrite E. vext. field. auto.
  Qed.
End LinAlg.
