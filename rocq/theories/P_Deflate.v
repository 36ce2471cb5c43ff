(** Proofs about deflation (M_Lanczos, first part). *)
From Coq Require Import List Arith Lia Bool Field Permutation.
From Verif Require Import Base OField Mat LinAlg M_Perm M_Lanczos S_Lanczos P_Span.
Import ListNotations.
Set Implicit Arguments.
Open Scope nat_scope.

Lemma swap_ok : forall T (l : list T) d a b, a < length l -> b < length l ->
  swap l a b = Ok (upd (upd l a (nth b l d)) b (nth a l d)).
Proof.
  intros T l d a b Ha Hb. unfold swap, rd, wr. rewrite !(nth_error_nth_lt l d) by auto. simpl.
  destruct (Nat.ltb_spec a (length l)); [|lia]. simpl. rewrite upd_length. destruct (Nat.ltb_spec b (length l)); [|lia]. auto.
Qed.
Lemma upd_split : forall T (l : list T) d i x, i < length l -> upd l i x = firstn i l ++ x :: skipn (S i) l /\ l = firstn i l ++ nth i l d :: skipn (S i) l.
Proof.
  induction l; intros d i x Hi; simpl in Hi; [lia|]. destruct i; cbn; auto. destruct (IHl d i x) as [E1 E2]; [lia|]. rewrite E1. split; auto.
  f_equal. auto.
Qed.
Lemma swap_perm : forall T (l : list T) d a b, a < length l -> b < length l ->
  Permutation l (upd (upd l a (nth b l d)) b (nth a l d)).
Proof.
  intros T l d. 
  assert (G : forall a b, a < b -> b < length l -> Permutation l (upd (upd l a (nth b l d)) b (nth a l d))).
  { induction l as [|x l IH]; intros a b Hab Hb; simpl in Hb; [lia|]. destruct b; [lia|]. destruct a; cbn.
    - destruct (upd_split l d x (i := b)) as [E1 E2]; [lia|]. rewrite E1. rewrite E2 at 1.
      transitivity (nth b l d :: x :: firstn b l ++ skipn (S b) l).
      + transitivity (x :: nth b l d :: firstn b l ++ skipn (S b) l); [|apply perm_swap]. constructor. symmetry. apply Permutation_middle.
      + constructor. apply Permutation_middle.
    - constructor. apply IH; lia. }
  intros a b Ha Hb. destruct (lt_eq_lt_dec a b) as [[H|H]|H].
  - apply G; auto.
  - subst b. destruct (upd_split (upd l a (nth a l d)) d (nth a l d) (i := a)) as [E1 E2]; [rewrite upd_length; auto|].
    replace (upd (upd l a (nth a l d)) a (nth a l d)) with l; auto. apply (@list_ext _ _ _ d); rewrite ?upd_length; auto.
    intros i Hi. destruct (Nat.eq_dec i a) as [->|N]; [rewrite nth_upd_eq by (rewrite upd_length; auto); auto|].
    rewrite !nth_upd_neq by auto. auto.
  - replace (upd (upd l a (nth b l d)) b (nth a l d)) with (upd (upd l b (nth a l d)) a (nth b l d)); [apply G; auto|].
    apply (@list_ext _ _ _ d); rewrite ?upd_length; auto. intros i Hi.
    assert (Nab : a <> b) by lia.
    destruct (Nat.eq_dec i a) as [E|N]; destruct (Nat.eq_dec i b) as [E'|N']; try lia; try subst i;
      repeat first [rewrite nth_upd_eq by (rewrite ?upd_length; auto) | rewrite nth_upd_neq by auto]; auto.
Qed.
Lemma rd_nth : forall T (l : list T) d i, i < length l -> rd l i = Ok (nth i l d).
Proof. intros. unfold rd. rewrite (nth_error_nth_lt l d) by auto. auto. Qed.
Lemma wr_ok : forall T (l : list T) i x, i < length l -> wr l i x = Ok (upd l i x).
Proof. intros. unfold wr. destruct (Nat.ltb_spec i (length l)); [auto|lia]. Qed.

Section P.
  Variable K : ofield.
  Add Field KfDef : (f_field K).
  Local Open Scope K_scope.
  Notation vec := (vec K).
  Ltac vx := unfold OField.vec in *; vext; try ring.
  Implicit Types (v x y d : vec) (ds vs arr : list vec).

  Lemma remove_length : forall n v d, length v = n -> length d = n -> length (remove_component v d) = n.
  Proof. intros. unfold remove_component. vlen. Qed.
  Lemma dot_remove : forall n v d x, length v = n -> length d = n -> dot (remove_component v d) x = dot v x - dot v d * dot d x.
  Proof.
    intros n v d x Hv Hd. unfold remove_component, vaxpy. rewrite dot_add_l by vlen. rewrite dot_scale_l. ring.
  Qed.
  Lemma deflate_length : forall n ds v, sized_all n ds -> length v = n -> length (deflate ds v) = n.
  Proof.
    intros n ds v S. revert v. induction S; simpl; intros; auto. apply IHS. apply remove_length; auto.
  Qed.
  (** Deflation does not change products with vectors orthogonal to all deflation vectors. *)
  Lemma deflate_dot : forall n ds v x, sized_all n ds -> length v = n -> orth_to ds x -> dot (deflate ds v) x = dot v x.
  Proof.
    intros n ds v x S. revert v. induction S as [|d ds Hd S IH]; simpl; intros v Hv O; auto.
    rewrite IH; [|apply remove_length; auto|intros u Hu; apply O; right; auto].
    rewrite (@dot_remove n) by auto. rewrite (dot_comm d x). rewrite (O d) by (left; auto). ring.
  Qed.
  Lemma orthonormal_tl : forall n d ds, orthonormal n (d :: ds) -> orthonormal n ds /\ dot d d = 1 /\ length d = n /\ orth_to ds d.
  Proof.
    intros n d ds (S & O). inversion S; subst. split; [split; auto|split; [|split; auto]].
    - intros i j Hi Hj. apply (O (Datatypes.S i) (Datatypes.S j)); unfold OField.vec in *; simpl; lia.
    - apply (O 0%nat 0%nat); unfold OField.vec in *; simpl; lia.
    - intros v Hv. destruct (In_nth _ _ [] Hv) as (i & Hi & <-). apply (O 0%nat (Datatypes.S i)); unfold OField.vec in *; simpl; lia.
  Qed.
  (** The deflated vector is orthogonal to every deflation vector. *)
  Lemma deflate_orth : forall n ds v, orthonormal n ds -> length v = n -> orth_to ds (deflate ds v).
  Proof.
    induction ds as [|d ds IH]; intros v O Hv u Hu; [destruct Hu|]. destruct (orthonormal_tl O) as (O' & N & Ld & Od). simpl.
    assert (Lr : length (remove_component v d) = n) by (apply remove_length; auto).
    destruct Hu as [<-|Hu]; [|apply IH; auto].
    rewrite (@deflate_dot n) by (auto; apply O'). rewrite (@dot_remove n) by auto. rewrite N. ring.
  Qed.
  (** What deflation removes lies in the span. *)
  Lemma deflate_diff : forall n ds vs v, sized_all n ds -> sized_all n vs -> incl ds vs -> length v = n -> span n vs (vsub v (deflate ds v)).
  Proof.
    intros n ds vs v S. revert v. induction S as [|d ds Hd S IH]; simpl; intros v Sv I Hv.
    - rewrite vsub_self. rewrite Hv. apply span_zero; auto.
    - assert (Lr : length (remove_component v d) = n) by (apply remove_length; auto).
      specialize (IH (remove_component v d) Sv (fun u Hu => I u (or_intror Hu)) Lr).
      replace (vsub v (deflate ds (remove_component v d)))
        with (vadd (vscale (dot v d) d) (vsub (remove_component v d) (deflate ds (remove_component v d)))).
      + apply span_add; auto. apply span_scale; auto. apply span_in; auto. apply I. left; auto.
      + assert (Ld : length (deflate ds (remove_component v d)) = n) by (apply deflate_length; auto).
        set (w := deflate ds (remove_component v d)) in *. clearbody w. unfold remove_component in *. vx.
  Qed.
  Lemma deflate_fixed : forall n ds v, sized_all n ds -> length v = n -> orth_to ds v -> deflate ds v = v.
  Proof.
    intros n ds v S. induction S as [|d ds Hd S IH]; simpl; intros Hv O; auto.
    assert (E : remove_component v d = v).
    { unfold remove_component. rewrite (O d) by (left; auto). vx. }
    rewrite E. apply IH; auto. intros u Hu. apply O. right; auto.
  Qed.
  Lemma deflate_linear : forall n ds, sized_all n ds -> linear n n (deflate ds).
  Proof.
    intros n ds S. constructor.
    - intros x Hx. apply deflate_length; auto.
    - induction S as [|d ds Hd S IH]; simpl; intros x y Hx Hy; auto.
      rewrite <- IH by (apply remove_length; auto). f_equal. unfold remove_component. rewrite dot_add_l by vlen. vx.
    - induction S as [|d ds Hd S IH]; simpl; intros s x Hx; auto.
      rewrite <- IH by (apply remove_length; auto). f_equal. unfold remove_component. rewrite dot_scale_l. vx.
  Qed.
  Lemma deflate_selfadj : forall n ds x y, orthonormal n ds -> length x = n -> length y = n -> dot (deflate ds x) y = dot x (deflate ds y).
  Proof.
    intros n ds x y O Hx Hy. pose proof (proj1 O) as S.
    assert (G : forall x y, length x = n -> length y = n -> dot (deflate ds x) y = dot (deflate ds x) (deflate ds y)).
    { intros a b La Lb. assert (Ld : length (deflate ds b) = n) by (apply deflate_length; auto).
      assert (Z : dot (deflate ds a) (vsub b (deflate ds b)) = 0).
      { apply (@orth_span K n ds); auto. apply (@deflate_orth n); auto. apply deflate_diff; auto. apply incl_refl. }
      rewrite dot_sub_r in Z by (unfold OField.vec in *; congruence). replace (dot (deflate ds a) b) with ((dot (deflate ds a) b - dot (deflate ds a) (deflate ds b)) + dot (deflate ds a) (deflate ds b)) by ring.
      rewrite Z. ring. }
    rewrite (G x y) by auto. rewrite (dot_comm x). rewrite (G y x) by auto. apply dot_comm.
  Qed.

  (** ** add_deflation_vecs *)
  Section Add.
    Variable n N0 m : nat.
    Notation A arr p := (nth p arr ([] : vec)).
    Notation P perm a := (nth a perm 0%nat).
    Definition perm_ok (perm : list nat) : Prop := Permutation perm (seq N0 m).
    Lemma perm_len : forall perm, perm_ok perm -> length perm = m.
    Proof. intros perm H. apply Permutation_length in H. rewrite seq_length in H. auto. Qed.
    Lemma perm_range : forall perm a, perm_ok perm -> (a < m)%nat -> (N0 <= P perm a < N0 + m)%nat.
    Proof.
      intros perm a H Ha. assert (I : In (P perm a) perm) by (apply nth_In; rewrite (perm_len H); auto).
      apply (Permutation_in _ H) in I. apply in_seq in I. lia.
    Qed.
    Lemma perm_inj : forall perm a b, perm_ok perm -> (a < m)%nat -> (b < m)%nat -> P perm a = P perm b -> a = b.
    Proof.
      intros perm a b H Ha Hb E. assert (ND : NoDup perm) by (eapply Permutation_NoDup; [symmetry; exact H|apply seq_NoDup]).
      apply (proj1 (NoDup_nth perm 0%nat) ND); auto; rewrite (perm_len H); auto.
    Qed.
    Lemma perm_onto : forall perm p, perm_ok perm -> (N0 <= p < N0 + m)%nat -> exists a, (a < m)%nat /\ P perm a = p.
    Proof.
      intros perm p H Hp. assert (I : In p perm). { apply (Permutation_in _ (Permutation_sym H)). apply in_seq. lia. }
      destruct (In_nth _ _ 0%nat I) as (a & Ha & E). rewrite (perm_len H) in Ha. eauto.
    Qed.

    Lemma find_longest_spec : forall k arr i j perm best, perm_ok perm -> length arr = (N0 + m)%nat -> (i <= j)%nat -> (j + k = m)%nat ->
      (j = i -> best < 0) -> ((i < j)%nat -> best = dot (A arr (P perm i)) (A arr (P perm i))) -> (i < m)%nat ->
      exists perm' best', find_longest k arr i j perm best = Ok (perm', best') /\ perm_ok perm' /\
        (forall a, (a < i)%nat -> P perm' a = P perm a) /\
        (best' = dot (A arr (P perm' i)) (A arr (P perm' i)) \/ (k = 0%nat /\ j = i)).
    Proof.
      induction k; intros arr i j perm best HP HL Hij Hjk H1 H2 Him; cbn [find_longest].
      - exists perm, best. split; auto. split; auto. split; auto. destruct (Nat.eq_dec j i); auto. left. apply H2. lia.
      - rewrite (rd_nth perm 0%nat) by (rewrite (perm_len HP); lia). simpl.
        pose proof (@perm_range perm j HP) as R. rewrite (rd_nth arr []) by lia. simpl.
        set (v := A arr (P perm j)) in *.
        destruct (best <? dot v v) eqn:E.
        + rewrite (@swap_ok _ perm 0%nat) by (rewrite (perm_len HP); lia). simpl.
          set (perm1 := upd (upd perm i (P perm j)) j (P perm i)).
          assert (HP1 : perm_ok perm1).
          { unfold perm_ok. transitivity perm; auto. symmetry. apply swap_perm; rewrite (perm_len HP); lia. }
          assert (Pi : P perm1 i = P perm j).
          { unfold perm1. destruct (Nat.eq_dec i j) as [->|N].
            - rewrite nth_upd_eq by (rewrite upd_length, (perm_len HP); lia). auto.
            - rewrite nth_upd_neq by auto. rewrite nth_upd_eq by (rewrite (perm_len HP); lia). auto. }
          destruct (IHk arr i (S j) perm1 (dot v v)) as (perm' & best' & F & Q1 & Q2 & Q3); auto; try lia.
          { intros _. rewrite Pi. auto. }
          exists perm', best'. split; auto. split; auto. split.
          * intros a Ha. rewrite Q2 by auto. unfold perm1. rewrite !nth_upd_neq by lia. auto.
          * destruct Q3 as [Q3|[_ Q3]]; [auto|lia].
        + assert (Hij' : (i < j)%nat).
          { destruct (Nat.eq_dec i j) as [->|N]; [|lia]. exfalso. apply fltb_ge in E. apply (H1 eq_refl).
            eapply fle_trans; [|exact E]. apply dot_nonneg. }
          destruct (IHk arr i (S j) perm best) as (perm' & best' & F & Q1 & Q2 & Q3); auto; try lia.
          exists perm', best'. split; auto. split; auto. split; auto. destruct Q3 as [Q3|[_ Q3]]; [auto|lia].
    Qed.

    (** Replacing one vector by a combination of itself (nonzero factor) and another one keeps the span. *)
    Lemma sized_upd : forall arr p w, sized_all n arr -> length w = n -> sized_all n (upd arr p w).
    Proof.
      intros arr p w S Hw. apply Forall_forall. intros u Hu. destruct (In_nth _ _ [] Hu) as (q & Hq & <-). rewrite upd_length in Hq.
      destruct (Nat.eq_dec q p) as [->|N]; [rewrite nth_upd_eq by auto; auto|]. rewrite nth_upd_neq by auto. apply (sized_nth S). auto.
    Qed.
    Lemma span_upd : forall arr p q s a, sized_all n arr -> (p < length arr)%nat -> (q < length arr)%nat -> q <> p -> s <> 0 ->
      let arr' := upd arr p (vaxpy a (A arr q) (vscale s (A arr p))) in
      sized_all n arr' /\ forall x, span n arr' x <-> span n arr x.
    Proof.
      intros arr p q s a S Hp Hq Hqp Hs arr'. pose proof (sized_nth S Hp) as Lp. pose proof (sized_nth S Hq) as Lq.
      assert (S' : sized_all n arr') by (apply sized_upd; auto; vlen).
      split; auto. intros x. split; apply span_sub; auto; intros u Hu; destruct (In_nth _ _ [] Hu) as (i & Hi & <-).
      - unfold arr' in *. rewrite upd_length in Hi. destruct (Nat.eq_dec i p) as [->|N].
        + rewrite nth_upd_eq by auto. apply span_axpy; auto; [apply span_nth; auto|]. apply span_scale; auto. apply span_nth; auto.
        + rewrite nth_upd_neq by auto. apply span_nth; auto.
      - destruct (Nat.eq_dec i p) as [->|N].
        + assert (E : vscale (1 / s) (vaxpy (- a) (A arr' q) (A arr' p)) = A arr p).
          { unfold arr'. rewrite nth_upd_eq by auto. rewrite nth_upd_neq by auto.
            set (u := A arr p) in *. set (w := A arr q) in *. clearbody u w. unfold vaxpy. vx. field. auto. }
          refine (eq_ind _ (span n arr') _ _ E).
          apply span_scale; auto. apply span_axpy; auto; apply span_nth; auto; unfold arr'; rewrite upd_length; auto.
        + assert (E : A arr' i = A arr i) by (unfold arr'; rewrite nth_upd_neq by auto; auto).
          refine (eq_ind _ (span n arr') _ _ E). apply span_nth; auto. unfold arr'; rewrite upd_length; auto.
    Qed.

    Lemma orthogonalise_later_spec : forall k arr i j perm, perm_ok perm -> length arr = (N0 + m)%nat -> sized_all n arr -> (i < j)%nat -> (j + k = m)%nat -> (i < m)%nat ->
      exists arr', orthogonalise_later k arr i j perm = Ok arr' /\ length arr' = (N0 + m)%nat /\ sized_all n arr' /\
        (forall x, span n arr' x <-> span n arr x) /\
        (forall p, (forall a, (j <= a < m)%nat -> p <> P perm a) -> A arr' p = A arr p) /\
        (forall a, (j <= a < m)%nat -> A arr' (P perm a) = vaxpy (- dot (A arr (P perm i)) (A arr (P perm a))) (A arr (P perm i)) (A arr (P perm a))).
    Proof.
      induction k; intros arr i j perm HP HL S Hij Hjk Him; cbn [orthogonalise_later].
      - exists arr. split; auto. split; auto. split; auto. split; [tauto|]. split; auto. intros; lia.
      - rewrite !(rd_nth perm 0%nat) by (rewrite (perm_len HP); lia). simpl.
        pose proof (@perm_range perm j HP) as Rj. pose proof (@perm_range perm i HP) as Ri.
        rewrite !(rd_nth arr []) by lia. simpl. rewrite wr_ok by lia. simpl.
        assert (Nij : P perm i <> P perm j). { intros E. apply perm_inj in E; auto; lia. }
        pose proof (sized_nth S (i := P perm i)) as Li. pose proof (sized_nth S (i := P perm j)) as Lj.
        destruct (@span_upd arr (P perm j) (P perm i) 1 (- dot (A arr (P perm i)) (A arr (P perm j)))) as [S1 Sp1]; auto; try lia.
        { apply f1_neq_0. }
        rewrite vscale_1 in S1, Sp1.
        set (arr1 := upd arr (P perm j) (vaxpy (- dot (A arr (P perm i)) (A arr (P perm j))) (A arr (P perm i)) (A arr (P perm j)))) in *.
        assert (A1 : forall p, p <> P perm j -> A arr1 p = A arr p) by (intros; unfold arr1; rewrite nth_upd_neq; auto).
        assert (A2 : A arr1 (P perm j) = vaxpy (- dot (A arr (P perm i)) (A arr (P perm j))) (A arr (P perm i)) (A arr (P perm j))).
        { unfold arr1. rewrite nth_upd_eq; auto. lia. }
        destruct (IHk arr1 i (Datatypes.S j) perm) as (arr' & E & L' & S' & Sp & B1 & B2); auto; try lia.
        { unfold arr1. rewrite upd_length. auto. }
        exists arr'. split; auto. split; auto. split; auto. split; [intros x; rewrite Sp; auto|]. split.
        + intros p Hp. rewrite B1. { apply A1. apply Hp. lia. } intros a Ha. apply Hp. lia.
        + intros a Ha. destruct (Nat.eq_dec a j) as [->|N].
          * rewrite B1; auto. intros b Hb E'. apply perm_inj in E'; auto; lia.
          * rewrite B2 by lia. rewrite !A1; auto; intros E'; apply perm_inj in E'; auto; lia.
    Qed.

    Variable ds orig : list vec.
    Hypothesis Hds : length ds = N0.
    Definition done (i : nat) (perm : list nat) (p : nat) : Prop := (p < N0)%nat \/ exists a, (a < i)%nat /\ p = P perm a.
    Record inv (i : nat) (arr : list vec) (perm : list nat) : Prop := {
      in_len : length arr = (N0 + m)%nat;
      in_sized : sized_all n arr;
      in_perm : perm_ok perm;
      in_old : firstn N0 arr = ds;
      in_done : forall p q, done i perm p -> done i perm q -> dot (A arr p) (A arr q) = if (p =? q)%nat then 1 else 0;
      in_rest : forall p a, done i perm p -> (i <= a < m)%nat -> dot (A arr p) (A arr (P perm a)) = 0;
      in_span : forall x, span n arr x <-> span n orig x
    }.
    Lemma done_lt : forall i perm p, perm_ok perm -> (i <= m)%nat -> done i perm p -> (p < N0 + m)%nat.
    Proof. intros i perm p HP Hi [H|(a & Ha & ->)]; [lia|]. pose proof (@perm_range perm a HP). lia. Qed.
    Lemma done_not_rest : forall i perm p a, perm_ok perm -> (i <= a < m)%nat -> done i perm p -> p <> P perm a.
    Proof.
      intros i perm p a HP Ha [H|(b & Hb & ->)] E.
      - pose proof (@perm_range perm a HP). lia.
      - apply perm_inj in E; auto; lia.
    Qed.

    Variable fsqrt : K -> option K.
    Hypothesis Hsq : sqrt_ok fsqrt.
    Variable debug : bool.

    (** One pass of the loop: it fails exactly when the longest remaining vector is zero. *)
    Lemma pass_inv : forall i arr perm perm1, inv i arr perm -> (i < m)%nat -> perm_ok perm1 -> (forall a, (a < i)%nat -> P perm1 a = P perm a) -> inv i arr perm1.
    Proof.
      intros i arr perm perm1 V Hi HP HE.
      assert (D : forall p, done i perm1 p -> done i perm p).
      { intros p [H|(a & Ha & ->)]; [left; auto|right]. exists a. split; auto. }
      destruct V as [V1 V2 V3 V4 V5 V6 V7]. constructor; auto. intros p a Hp Ha.
      pose proof (@perm_range perm1 a HP ltac:(lia)) as R. destruct (perm_onto V3 R) as (b & Hb & Eb). rewrite <- Eb. apply V6; auto.
      split; auto. destruct (le_lt_dec i b); auto. exfalso. rewrite <- HE in Eb by auto. apply perm_inj in Eb; auto; lia.
    Qed.

    Lemma pass_step : forall i arr perm s, inv i arr perm -> (i < m)%nat -> s <> 0 -> s * s = dot (A arr (P perm i)) (A arr (P perm i)) ->
      exists arr', (let! vi' := vdiv (A arr (P perm i)) s in
                    let! arr := wr arr (P perm i) vi' in
                    orthogonalise_later (m - (i + 1)) arr i (i + 1) perm) = Ok arr' /\ inv (i + 1) arr' perm.
    Proof.
      intros i arr perm s V Hi Hs Hss. destruct V as [V1 V2 V3 V4 V5 V6 V7].
      pose proof (@perm_range perm i V3 Hi) as Ri. assert (Lp : (P perm i < length arr)%nat) by lia.
      pose proof (sized_nth V2 Lp) as Lv.
      unfold vdiv. destruct (s =? 0) eqn:E0; [apply feqb_eq in E0; contradiction|]. simpl. rewrite wr_ok by lia. simpl.
      set (v := A arr (P perm i)) in *. set (arr1 := upd arr (P perm i) (vscale (1 / s) v)).
      assert (Hs1 : 1 / s <> 0). { intros E. apply (f1_neq_0 K). replace (1 : K) with (1 / s * s) by (field; auto). rewrite E. ring. }
      assert (S1 : sized_all n arr1) by (apply sized_upd; auto; vlen).
      assert (A1 : forall p, p <> P perm i -> A arr1 p = A arr p) by (intros; unfold arr1; rewrite nth_upd_neq; auto).
      assert (A2 : A arr1 (P perm i) = vscale (1 / s) v) by (unfold arr1; rewrite nth_upd_eq; auto).
      assert (Sp1 : forall x, span n arr1 x <-> span n arr x).
      { intros x. split; apply span_sub; auto; intros u Hu; destruct (In_nth _ _ [] Hu) as (q & Hq & <-).
        - unfold arr1 in Hq. rewrite upd_length in Hq. destruct (Nat.eq_dec q (P perm i)) as [->|N].
          + refine (eq_ind_r (span n arr) _ A2). apply span_scale; auto. apply span_nth; auto.
          + refine (eq_ind_r (span n arr) _ (A1 q N)). apply span_nth; auto.
        - destruct (Nat.eq_dec q (P perm i)) as [->|N].
          + assert (Ev : vscale s (A arr1 (P perm i)) = A arr (P perm i)).
            { rewrite A2. rewrite vscale_vscale. replace (s * (1 / s)) with (1 : K) by (field; auto). apply vscale_1. }
            refine (eq_ind _ (span n arr1) _ _ Ev). apply span_scale; auto. apply span_nth; auto. unfold arr1. rewrite upd_length. auto.
          + refine (eq_ind _ (span n arr1) _ _ (A1 q N)). apply span_nth; auto. unfold arr1. rewrite upd_length. auto. }
      destruct (@orthogonalise_later_spec (m - (i + 1)) arr1 i (i + 1) perm) as (arr' & E & L' & S' & Sp & B1 & B2); auto; try lia.
      { unfold arr1. rewrite upd_length. auto. }
      exists arr'. split; auto.
      (* the new unit vector *)
      assert (U : A arr' (P perm i) = vscale (1 / s) v).
      { rewrite B1; auto. intros a Ha E'. apply perm_inj in E'; auto; lia. }
      assert (UU : dot (vscale (1 / s) v) (vscale (1 / s) v) = 1).
      { rewrite dot_scale_l, dot_scale_r. fold v in Hss. rewrite <- Hss. field. auto. }
      assert (Old : forall p, done i perm p -> A arr' p = A arr p).
      { intros p Hp. rewrite B1, A1; auto.
        - apply (@done_not_rest i perm); auto; lia.
        - intros a Ha. apply (@done_not_rest i perm); auto; lia. }
      assert (Split : forall p, done (i + 1) perm p -> done i perm p \/ p = P perm i).
      { intros p [H|(a & Ha & ->)]; [left; left; auto|]. destruct (Nat.eq_dec a i) as [->|N]; auto. left. right. exists a. split; auto. lia. }
      constructor; auto.
      - rewrite <- V4. apply (@list_ext _ _ _ []); rewrite !firstn_length; [lia|]. intros p Hp.
        assert (Hp' : (p < N0)%nat) by lia.
        assert (X : forall l : list vec, nth p (firstn N0 l) [] = nth p l []).
        { intros l. rewrite <- (firstn_skipn N0 l) at 2. destruct (le_lt_dec (length l) N0).
          - rewrite skipn_all2, app_nil_r by auto. auto.
          - rewrite app_nth1; auto. rewrite firstn_length. lia. }
        rewrite !X. apply Old. left. auto.
      - intros p q Hp Hq. apply Split in Hp, Hq. destruct Hp as [Hp|Ep], Hq as [Hq|Eq].
        + rewrite !Old by auto. apply V5; auto.
        + subst q. rewrite U, (Old p) by auto. rewrite dot_scale_r. unfold v. rewrite V6 by (auto; lia).
          assert (p <> P perm i) by (apply (@done_not_rest i perm); auto; lia). destruct (Nat.eqb_spec p (P perm i)); [contradiction|]. ring.
        + subst p. rewrite U, (Old q) by auto. rewrite dot_scale_l. rewrite dot_comm. unfold v. rewrite V6 by (auto; lia).
          assert (q <> P perm i) by (apply (@done_not_rest i perm); auto; lia). destruct (Nat.eqb_spec (P perm i) q); [congruence|]. ring.
        + subst p q. rewrite U, Nat.eqb_refl. exact UU.
      - intros p a Hp Ha. rewrite B2 by auto. rewrite A2.
        assert (Na : P perm a <> P perm i) by (intros E'; apply perm_inj in E'; auto; lia). rewrite A1 by auto.
        assert (La : length (A arr (P perm a)) = n). { apply (sized_nth V2). pose proof (@perm_range perm a V3). lia. }
        set (w := A arr (P perm a)) in *. unfold vaxpy. rewrite dot_add_r by vlen. rewrite dot_scale_r.
        apply Split in Hp. destruct Hp as [Hp| ->].
        + rewrite (Old p) by auto. unfold w at 1. rewrite V6 by (auto; lia).
          rewrite (dot_scale_r (1 / s) v (A arr p)). unfold v at 2. rewrite V6 by (auto; lia). ring.
        + rewrite U. rewrite UU. ring.
      - intros x. rewrite Sp, Sp1. auto.
    Qed.

    Lemma bind3 : forall X Y Z W (mx : outcome X) (f : X -> outcome Y) (g : Y -> outcome Z) (h : Z -> outcome W),
      bind mx (fun a => bind (f a) (fun b => bind (g b) h)) = bind (bind mx (fun a => bind (f a) g)) h.
    Proof. intros. destruct mx as [a| | | |]; simpl; auto. destruct (f a); simpl; auto. Qed.

    Hypothesis Horig : length orig = (N0 + m)%nat.
    Hypothesis Sorig : sized_all n orig.
    Lemma inv_independent : forall i arr perm, inv i arr perm -> independent n orig -> independent n arr.
    Proof.
      intros i arr perm V I. destruct V as [V1 V2 V3 V4 V5 V6 V7]. apply independent_transfer with orig; auto.
      { unfold OField.vec in *. lia. } intros u Hu. apply V7. apply span_in; auto.
    Qed.
    Lemma inv_final : forall arr perm, inv m arr perm -> orthonormal n arr.
    Proof.
      intros arr perm V. destruct V as [V1 V2 V3 V4 V5 V6 V7]. split; auto.
      assert (D : forall p, (p < length arr)%nat -> done m perm p).
      { intros p Hp. destruct (le_lt_dec N0 p) as [Hn|Hn]; [|left; auto]. right. destruct (@perm_onto perm p V3) as (a & Ha & <-); [lia|]. eauto. }
      intros i j Hi Hj. apply V5; auto.
    Qed.
    Lemma loop_spec : forall k i arr perm, inv i arr perm -> (i + k = m)%nat ->
      (exists arr' perm', orthonormalise fsqrt debug k m i arr perm = Ok arr' /\ inv m arr' perm') \/
      (orthonormalise fsqrt debug k m i arr perm = (if debug then Abort else UB) /\ ~ independent n orig) \/
      (orthonormalise fsqrt debug k m i arr perm = Fuel /\ ~ sqrt_total fsqrt).
    Proof.
      induction k; intros i arr perm V Hk; cbn [orthonormalise].
      - left. exists arr, perm. split; auto. replace m with i by lia. auto.
      - assert (Hi : (i < m)%nat) by lia.
        destruct (@find_longest_spec (m - i) arr i i perm (- (1))) as (perm1 & best & F & Q1 & Q2 & Q3); auto; try lia; try apply V.
        { intros _. apply flt_sub_0. replace (0 - - (1)) with (1 : K) by ring. apply f0_lt_1. }
        destruct Q3 as [Q3|[Q3 _]]; [|lia]. rewrite F. simpl.
        assert (V1 : inv i arr perm1) by (apply pass_inv with perm; auto).
        unfold root. destruct (fsqrt best) as [s|] eqn:Es.
        2:{ right. right. simpl. split; auto. intros T. destruct (T best) as (s & E); [|congruence]. rewrite Q3. apply dot_nonneg. }
        simpl. destruct (Hsq Es) as [Hs0 Hss]. rewrite Q3 in Hss.
        pose proof (@perm_range perm1 i Q1 Hi) as Ri. pose proof (in_len V1) as HL.
        destruct (s =? 0) eqn:E0.
        + right. left. apply feqb_eq in E0. subst s.
          assert (Z : nth (nth i perm1 0%nat) arr [] = vzero n).
          { rewrite <- (sized_nth (in_sized V1) (i := nth i perm1 0%nat)) by lia. apply dot_self_0. etransitivity; [symmetry; exact Hss|]. ring. }
          split.
          * unfold assert_dbg. destruct debug; simpl; auto. rewrite (rd_nth perm1 0%nat) by (rewrite (perm_len Q1); auto). simpl.
            rewrite (rd_nth arr []) by lia. simpl. unfold vdiv. replace (0 =? 0) with true; auto. symmetry. apply feqb_eq. auto.
          * intros I. apply (inv_independent V1) in I. revert Z. apply independent_nonzero; auto; [apply V1|lia].
        + assert (Hs : s <> 0). { intros ->. assert (feqb (0 : K) 0 = true) by (apply feqb_eq; auto). congruence. }
          destruct (pass_step V1 Hi Hs Hss) as (arr' & E & V2).
          unfold assert_dbg. simpl. rewrite andb_false_r. simpl.
          rewrite (rd_nth perm1 0%nat) by (rewrite (perm_len Q1); auto). simpl. rewrite (rd_nth arr []) by lia. simpl.
          rewrite bind3. rewrite E. simpl. apply IHk; auto. lia.
    Qed.
  End Add.

  Section Top.
    Variable n : nat.
    Variable fsqrt : K -> option K.
    Hypothesis Hsq : sqrt_ok fsqrt.
    Variable debug : bool.

    Lemma deflated_span : forall ds vecs, sized_all n ds -> sized_all n vecs ->
      forall x, span n (ds ++ map (deflate ds) vecs) x <-> span n (ds ++ vecs) x.
    Proof.
      intros ds vecs Sd Sv.
      assert (S1 : sized_all n (ds ++ vecs)) by (apply Forall_app; auto).
      assert (S2 : sized_all n (ds ++ map (deflate ds) vecs)).
      { apply Forall_app; split; auto. apply Forall_forall. intros u Hu. apply in_map_iff in Hu. destruct Hu as (w & <- & Hw).
        apply deflate_length; auto. apply (sized_in w Sv); auto. }
      assert (I1 : incl ds (ds ++ vecs)) by (intros u Hu; apply in_or_app; auto).
      assert (I2 : incl ds (ds ++ map (deflate ds) vecs)) by (intros u Hu; apply in_or_app; auto).
      intros x. split; apply span_sub; auto; intros u Hu; apply in_app_or in Hu; destruct Hu as [Hu|Hu].
      - apply span_in; auto.
      - apply in_map_iff in Hu. destruct Hu as (w & <- & Hw). pose proof (sized_in w Sv Hw) as Lw.
        assert (E : vadd w (vscale (- (1)) (vsub w (deflate ds w))) = deflate ds w).
        { pose proof (@deflate_length n ds w Sd Lw). set (z := deflate ds w) in *. clearbody z. vx. }
        rewrite <- E. apply span_add; auto. { apply span_in; auto. apply in_or_app; auto. } apply span_scale; auto. apply deflate_diff; auto.
      - apply span_in; auto.
      - pose proof (sized_in u Sv Hu) as Lw.
        assert (E : vadd (deflate ds u) (vsub u (deflate ds u)) = u).
        { pose proof (@deflate_length n ds u Sd Lw). set (z := deflate ds u) in *. clearbody z. vx. }
        rewrite <- E. apply span_add; auto. { apply span_in; auto. apply in_or_app. right. apply in_map. auto. } apply deflate_diff; auto.
    Qed.

    Lemma add_spec : forall ds vecs, orthonormal n ds -> sized_all n vecs ->
      (exists ds', add_deflation_vecs fsqrt debug ds vecs = Ok ds' /\ orthonormal n ds' /\ length ds' = (length ds + length vecs)%nat /\
                   firstn (length ds) ds' = ds /\ (forall x, span n ds' x <-> span n (ds ++ vecs) x) /\ independent n (ds ++ vecs)) \/
      (add_deflation_vecs fsqrt debug ds vecs = (if debug then Abort else UB) /\ ~ independent n (ds ++ vecs)) \/
      (add_deflation_vecs fsqrt debug ds vecs = Fuel /\ ~ sqrt_total fsqrt).
    Proof.
      intros ds vecs O Sv. pose proof (proj1 O) as Sd.
      assert (S2 : sized_all n (ds ++ map (deflate ds) vecs)).
      { apply Forall_app; split; auto. apply Forall_forall. intros u Hu. apply in_map_iff in Hu. destruct Hu as (w & <- & Hw).
        apply deflate_length; auto. apply (sized_in w Sv); auto. }
      assert (S1 : sized_all n (ds ++ vecs)) by (apply Forall_app; auto).
      assert (V : inv n (length ds) (length vecs) ds (ds ++ vecs) 0 (ds ++ map (deflate ds) vecs) (seq (length ds) (length vecs))).
      { constructor; auto.
        - rewrite app_length, map_length. auto.
        - unfold perm_ok. apply Permutation_refl.
        - rewrite firstn_app, Nat.sub_diag. simpl. rewrite app_nil_r. apply firstn_all.
        - intros p q [Hp|(a & Ha & _)] [Hq|(b & Hb & _)]; try lia. rewrite !app_nth1 by auto. apply O; auto.
        - intros p a [Hp|(b & Hb & _)] Ha; [|lia]. rewrite seq_nth by lia. rewrite app_nth1 by auto.
          rewrite app_nth2 by lia. replace (length ds + a - length ds)%nat with a by lia.
          rewrite nth_indep with (l := map (deflate ds) vecs) (d' := deflate ds []) by (rewrite map_length; lia). rewrite map_nth. rewrite dot_comm.
          apply (@deflate_orth n); auto; [|apply nth_In; auto]. apply (sized_nth Sv). lia.
        - apply deflated_span; auto. }
      assert (L : length (ds ++ vecs) = (length ds + length vecs)%nat) by apply app_length.
      unfold add_deflation_vecs.
      destruct (loop_spec eq_refl Hsq debug L S1 (length vecs) V) as [(arr' & perm' & E & V')|[E|E]]; auto.
      left. exists arr'. pose proof (inv_final eq_refl L V') as O'. split; auto. split; auto. split; [apply (in_len V')|]. split; [apply (in_old V')|].
      split; [apply (in_span V')|]. pose proof (in_len V') as L'.
      apply independent_transfer with arr'; auto.
      - apply O'.
      - unfold OField.vec in *. lia.
      - apply orthonormal_independent. auto.
      - intros u Hu. apply (in_span V'). apply span_in; auto. apply O'.
    Qed.
  End Top.
End P.
