(** The matrix form of the Lanczos recurrence and the residual of Ritz pairs. *)
From Coq Require Import List Arith Lia Bool Field.
From Verif Require Import Base OField Mat LinAlg M_Perm M_Lanczos S_Lanczos P_Span P_Deflate P_Lanczos.
Import ListNotations.
Set Implicit Arguments.
Open Scope nat_scope.

Section P.
  Variable K : ofield.
  Add Field KfLan2 : (f_field K).
  Local Open Scope K_scope.
  Notation vec := (vec K).
  Notation V vs j := (nth j vs ([] : vec)).

  Lemma in_nth_v : forall (l : list vec) (v : vec), In v l -> exists j, (j < length l)%nat /\ nth j l ([] : vec) = v.
  Proof. intros l v H. exact (In_nth l v [] H). Qed.

  Lemma sumn_delta : forall m k (f : nat -> K), sumn m (fun l => if (l =? k)%nat then f l else 0) = if (k <? m)%nat then f k else 0.
  Proof.
    intros m k f. destruct (Nat.ltb_spec k m).
    - rewrite (@sumn_single K m k) by (auto; intros i Hi N; destruct (Nat.eqb_spec i k); congruence). rewrite Nat.eqb_refl. auto.
    - apply sumn_zero. intros i Hi. destruct (Nat.eqb_spec i k); [lia|auto].
  Qed.

  Lemma sumn_tridiag : forall (main sub : list K) j (x : nat -> K), (j < length main)%nat ->
    sumn (length main) (fun l => ent (tridiag main sub) l j * x l) =
    (if (j =? 0)%nat then 0 else nth (j - 1) sub 0 * x (j - 1)%nat) + nth j main 0 * x j +
    (if (S j <? length main)%nat then nth j sub 0 * x (S j) else 0).
  Proof.
    intros main sub j x Hj.
    rewrite (@sumn_ext K (length main) _ (fun l => ((if (l =? j - 1)%nat then (if (j =? 0)%nat then 0 else nth (j - 1) sub 0 * x (j - 1)%nat) else 0) +
      (if (l =? j)%nat then nth j main 0 * x j else 0)) + (if (l =? S j)%nat then nth j sub 0 * x (S j) else 0))).
    - rewrite !sumn_add. rewrite !sumn_delta. replace (j - 1 <? length main)%nat with true by (symmetry; apply Nat.ltb_lt; lia).
      replace (j <? length main)%nat with true by (symmetry; apply Nat.ltb_lt; lia). reflexivity.
    - intros l Hl. unfold tridiag. simpl ent.
      destruct (Nat.eqb_spec l j) as [->|N1].
      + destruct (Nat.eqb_spec j (j - 1)) as [E|N].
        * assert (j = 0)%nat by lia. subst j. simpl. ring.
        * replace (j =? S j)%nat with false by (symmetry; apply Nat.eqb_neq; lia). ring.
      + destruct (Nat.eqb_spec j (S l)) as [->|N2].
        * replace (S l - 1)%nat with l by lia. rewrite Nat.eqb_refl. simpl Nat.eqb. replace (l =? S (S l))%nat with false by (symmetry; apply Nat.eqb_neq; lia). ring.
        * destruct (Nat.eqb_spec l (j - 1)) as [E|N3].
          -- destruct (Nat.eqb_spec j 0) as [->|]; [simpl in E; lia|lia].
          -- destruct (Nat.eqb_spec l (S j)) as [->|N4]; ring.
  Qed.

  Section Inv.
    Variable n : nat.
    Variable S : vec -> Prop.
    Variable op : vec -> vec.
    Hypothesis HS : subspace n S.
    Hypothesis Hop : symmetric_on S op.

    Lemma op_len : forall x, S x -> length (op x) = n.
    Proof. intros. apply (su_len HS). apply (sy_into Hop); auto. Qed.

    (** A vector of the subspace that is orthogonal to the whole subspace is zero. *)
    Lemma su_zero : forall x, S x -> (forall z, S z -> dot x z = 0) -> x = vzero n.
    Proof. intros x Sx H. rewrite <- (su_len HS _ Sx). apply dot_self_0. apply H; auto. Qed.

    (** Symmetric on a subspace implies linear there. *)
    Lemma op_add : forall x y, S x -> S y -> op (vadd x y) = vadd (op x) (op y).
    Proof.
      intros x y Sx Sy. assert (Sxy : S (vadd x y)) by (apply (su_add HS); auto).
      assert (L1 := op_len Sx). assert (L2 := op_len Sy). assert (L3 := op_len Sxy). assert (L4 := su_len HS _ Sx). assert (L5 := su_len HS _ Sy).
      set (d := vaxpy (- (1)) (vadd (op x) (op y)) (op (vadd x y))).
      assert (Sd : S d). { unfold d, vaxpy. apply (su_add HS); [apply (sy_into Hop); auto|]. apply (su_scale HS). apply (su_add HS); apply (sy_into Hop); auto. }
      assert (Z : d = vzero n).
      { apply su_zero; auto. intros z Sz. unfold d, vaxpy.
        rewrite dot_add_l by (rewrite vscale_length, vadd_length; lia). rewrite dot_scale_l. rewrite dot_add_l by lia.
        rewrite !(sy_sym Hop) by auto. rewrite dot_add_l by lia. ring. }
      unfold d in Z. apply vec_ext; [rewrite vadd_length; lia|]. intros i Hi.
      assert (E : nth i (vaxpy (- (1)) (vadd (op x) (op y)) (op (vadd x y))) 0 = 0) by (rewrite Z; apply nth_vzero).
      unfold vaxpy in E. rewrite nth_vadd in E by (rewrite ?vscale_length, ?vadd_length; lia). rewrite nth_vscale in E.
      rewrite nth_vadd in * by lia.
      replace (nth i (op (vadd x y)) 0) with (nth i (op (vadd x y)) 0 + - (1) * (nth i (op x) 0 + nth i (op y) 0) + (nth i (op x) 0 + nth i (op y) 0)) by ring.
      rewrite E. ring.
    Qed.
    Lemma op_scale : forall s x, S x -> op (vscale s x) = vscale s (op x).
    Proof.
      intros s x Sx. assert (Sxy : S (vscale s x)) by (apply (su_scale HS); auto).
      assert (L1 := op_len Sx). assert (L3 := op_len Sxy). assert (L4 := su_len HS _ Sx).
      set (d := vaxpy (- (1)) (vscale s (op x)) (op (vscale s x))).
      assert (Sd : S d). { unfold d, vaxpy. apply (su_add HS); [apply (sy_into Hop); auto|]. apply (su_scale HS). apply (su_scale HS); apply (sy_into Hop); auto. }
      assert (Z : d = vzero n).
      { apply su_zero; auto. intros z Sz. unfold d, vaxpy.
        rewrite dot_add_l by (rewrite !vscale_length; lia). rewrite !dot_scale_l.
        rewrite !(sy_sym Hop) by auto. rewrite dot_scale_l. ring. }
      unfold d in Z. apply vec_ext; [rewrite vscale_length; lia|]. intros i Hi.
      assert (E : nth i (vaxpy (- (1)) (vscale s (op x)) (op (vscale s x))) 0 = 0) by (rewrite Z; apply nth_vzero).
      unfold vaxpy in E. rewrite nth_vadd in E by (rewrite ?vscale_length; lia). rewrite !nth_vscale in *.
      replace (nth i (op (vscale s x)) 0) with (nth i (op (vscale s x)) 0 + - (1) * (s * nth i (op x) 0) + s * nth i (op x) 0) by ring.
      rewrite E. ring.
    Qed.
    Lemma su_comb : forall cs vs, (0 < length vs)%nat -> length cs = length vs -> (forall v, In v vs -> S v) -> S (comb n cs vs).
    Proof.
      assert (G : forall cs vs, S (vzero n) -> length cs = length vs -> (forall v, In v vs -> S v) -> S (comb n cs vs)).
      { induction cs; intros [|v vs] Z L H; simpl in *; auto; try lia. apply (su_add HS); [apply (su_scale HS); auto|auto]. }
      intros cs vs P L H. apply G; auto. destruct vs as [|v vs]; [simpl in P; lia|].
      assert (E : vzero n = vscale 0 v). { assert (L' := su_len HS _ (H v (or_introl eq_refl))). apply vec_ext; [rewrite vscale_length, vzero_length; auto|].
        intros i Hi. rewrite nth_vscale, nth_vzero. ring. }
      rewrite E. apply (su_scale HS). apply H. left; auto.
    Qed.
    Lemma op_comb : forall cs vs, (0 < length vs)%nat -> length cs = length vs -> (forall v, In v vs -> S v) -> op (comb n cs vs) = comb n cs (map op vs).
    Proof.
      assert (Z : forall v, S v -> S (vzero n) /\ op (vzero n) = vzero n).
      { intros v Sv. assert (E : vzero n = vscale 0 v). { assert (L' := su_len HS _ Sv). apply vec_ext; [rewrite vscale_length, vzero_length; auto|].
          intros i Hi. rewrite nth_vscale, nth_vzero. ring. }
        assert (Sz : S (vzero n)) by (rewrite E; apply (su_scale HS); auto). split; auto.
        rewrite E at 1. rewrite op_scale by auto. assert (L1 := op_len Sv). apply vec_ext; [rewrite vscale_length, vzero_length; auto|].
        intros i Hi. rewrite nth_vscale, nth_vzero. ring. }
      assert (G : forall cs vs, S (vzero n) -> op (vzero n) = vzero n -> length cs = length vs -> (forall v, In v vs -> S v) -> S (comb n cs vs) /\ op (comb n cs vs) = comb n cs (map op vs)).
      { induction cs; intros [|v vs] Z0 Z1 L H; simpl in *; auto; try lia. destruct (IHcs vs) as [A B]; auto.
        split; [apply (su_add HS); auto; apply (su_scale HS); auto|]. rewrite op_add by (auto; apply (su_scale HS); auto). rewrite op_scale by auto. rewrite B. auto. }
      intros cs vs P L H. destruct vs as [|v vs]; [simpl in P; lia|]. destruct (Z v) as [A B]; [apply H; left; auto|]. apply G; auto.
    Qed.

    Variables (k : nat) (beta : K) (vs : list vec) (main sub : list K).
    Hypothesis L : linv n S op k beta vs main sub.

    Lemma linv_sized : sized_all n vs.
    Proof.
      apply Forall_forall. intros v Hv. destruct (in_nth_v _ _ Hv) as (j & Hj & <-). apply (su_len HS). apply (li_S L). pose proof (li_len L) as E. unfold OField.vec in *. lia.
    Qed.
    Lemma linv_sized_k : sized_all n (firstn k vs).
    Proof. apply Forall_forall. intros v Hv. assert (A := linv_sized). unfold sized_all in A. rewrite Forall_forall in A. apply A. rewrite <- (firstn_skipn k vs). apply in_or_app; auto. Qed.
    Lemma linv_len_k : length (firstn k vs) = k.
    Proof. rewrite firstn_length. pose proof (li_len L) as E. unfold OField.vec in *. lia. Qed.
    Lemma nth_firstn_v : forall j, (j < k)%nat -> V (firstn k vs) j = V vs j.
    Proof. intros j Hj. rewrite <- (firstn_skipn k vs) at 2. rewrite app_nth1; auto. rewrite linv_len_k. auto. Qed.
    Lemma linv_S_k : forall v, In v (firstn k vs) -> S v.
    Proof. intros v Hv. destruct (in_nth_v _ _ Hv) as (j & Hj & <-). rewrite linv_len_k in Hj. rewrite nth_firstn_v by auto. apply (li_S L). lia. Qed.
    Lemma linv_orthonormal : orthonormal n (firstn k vs).
    Proof.
      split; [apply linv_sized_k|]. intros i j Hi Hj. rewrite linv_len_k in *. rewrite !nth_firstn_v by auto. apply (li_orth L); auto.
    Qed.

    (** A v_j is column j of V T, plus the remainder for the last vector. *)
    Lemma column_form : forall j i, (j < k)%nat -> (i < n)%nat ->
      nth i (op (V vs j)) 0 = sumn k (fun l => ent (tridiag main sub) l j * nth i (V vs l) 0) + (if (Datatypes.S j =? k)%nat then nth i (V vs k) 0 else 0).
    Proof.
      intros j i Hj Hi. rewrite (li_rec L Hj). unfold three_term.
      assert (L1 : forall j, (j <= k)%nat -> length (V vs j) = n) by (intros; apply (su_len HS); apply (li_S L); auto).
      assert (L2 : length (if (j =? 0)%nat then vzero n else vscale (nth (j - 1) sub 0) (V vs (j - 1))) = n).
      { destruct (Nat.eqb_spec j 0); [apply vzero_length|]. rewrite vscale_length. apply L1. lia. }
      assert (L3 : length (if (Datatypes.S j <? k)%nat then vscale (nth j sub 0) (V vs (Datatypes.S j)) else V vs k) = n).
      { destruct (Nat.ltb_spec (Datatypes.S j) k); [rewrite vscale_length|]; apply L1; lia. }
      rewrite nth_vadd by (unfold OField.vec in *; rewrite ?vadd_length, ?vscale_length, ?L2, ?L3, ?L1; lia).
      rewrite nth_vadd by (unfold OField.vec in *; rewrite ?vscale_length, ?L2, ?L1; lia).
      rewrite nth_vscale. rewrite <- (li_main L) at 3. rewrite sumn_tridiag by (rewrite (li_main L); auto). rewrite (li_main L).
      destruct (Nat.ltb_spec (Datatypes.S j) k) as [C|C].
      - replace (Datatypes.S j =? k)%nat with false by (symmetry; apply Nat.eqb_neq; lia). rewrite nth_vscale.
        destruct (Nat.eqb_spec j 0); rewrite ?nth_vzero, ?nth_vscale; ring.
      - replace (Datatypes.S j =? k)%nat with true by (symmetry; apply Nat.eqb_eq; lia).
        destruct (Nat.eqb_spec j 0); rewrite ?nth_vzero, ?nth_vscale; ring.
    Qed.
    Lemma matrix_form : forall j, (j < k)%nat ->
      op (V vs j) = vadd (comb n (map (fun l => ent (tridiag main sub) l j) (seq 0 k)) (firstn k vs)) (if (Datatypes.S j =? k)%nat then V vs k else vzero n).
    Proof.
      intros j Hj. assert (Lj : length (op (V vs j)) = n) by (apply op_len; apply (li_S L); lia).
      assert (Lk : length (V vs k) = n) by (apply (su_len HS); apply (li_S L); lia).
      assert (Lr : length (if (Datatypes.S j =? k)%nat then V vs k else vzero n) = n). { destruct (Nat.eqb_spec (Datatypes.S j) k); auto. apply vzero_length. }
      assert (Lc : length (comb n (map (fun l => ent (tridiag main sub) l j) (seq 0 k)) (firstn k vs)) = n) by (apply comb_length; apply linv_sized_k).
      apply vec_ext; [rewrite vadd_length; unfold OField.vec in *; lia|]. intros i Hi. rewrite Lj in Hi. rewrite column_form by auto.
      rewrite nth_vadd by (unfold OField.vec in *; lia). rewrite nth_comb by (rewrite ?map_length, ?seq_length, ?linv_len_k; auto; apply linv_sized_k).
      f_equal.
      - rewrite linv_len_k. apply sumn_ext. intros l Hl. f_equal.
        + symmetry. rewrite (@nth_indep _ _ _ 0 (ent (tridiag main sub) 0 j)) by (rewrite map_length, seq_length; auto).
          rewrite (map_nth (fun l => ent (tridiag main sub) l j)). rewrite seq_nth by auto. auto.
        + rewrite nth_firstn_v by auto. auto.
      - destruct (Nat.eqb_spec (Datatypes.S j) k); auto. rewrite nth_vzero. auto.
    Qed.

    (** The residual of a Ritz pair. *)
    Lemma ritz_residual : forall th s, (0 < k)%nat -> length s = k -> mulvec (tridiag main sub) s = vscale th s ->
      op (comb n s (firstn k vs)) = vadd (vscale th (comb n s (firstn k vs))) (vscale (nth (k - 1) s 0) (V vs k)).
    Proof.
      intros th s Hk Ls Es. assert (Lm := li_main L).
      rewrite op_comb by (rewrite ?linv_len_k; auto; apply linv_S_k).
      assert (Sz : sized_all n (map op (firstn k vs))).
      { apply Forall_forall. intros v Hv. apply in_map_iff in Hv. destruct Hv as (u & <- & Hu). apply op_len. apply linv_S_k. auto. }
      assert (Lc : length (comb n s (firstn k vs)) = n) by (apply comb_length; apply linv_sized_k).
      assert (Lc' : length (comb n s (map op (firstn k vs))) = n) by (apply comb_length; auto).
      assert (Lk : length (V vs k) = n) by (apply (su_len HS); apply (li_S L); lia).
      apply vec_ext; [rewrite vadd_length, !vscale_length; unfold OField.vec in *; lia|]. intros i Hi.
      assert (Hi' : (i < n)%nat) by (rewrite <- Lc'; exact Hi). clear Hi. rename Hi' into Hi.
      assert (Q1 : length s = length (map op (firstn k vs))) by (rewrite map_length, linv_len_k; auto).
      assert (Q2 : length s = length (firstn k vs)) by (rewrite linv_len_k; auto).
      rewrite (nth_comb _ i Sz Q1). rewrite <- Q1.
      rewrite nth_vadd by (rewrite !vscale_length; unfold OField.vec in *; lia). rewrite !nth_vscale. rewrite (nth_comb _ i linv_sized_k Q2).
      rewrite <- Q2. rewrite Ls.
      rewrite (@sumn_ext K k _ (fun j => sumn k (fun l => ent (tridiag main sub) l j * nth j s 0 * nth i (V vs l) 0) + (if (j =? k - 1)%nat then nth j s 0 * nth i (V vs k) 0 else 0))).
      - rewrite sumn_add, sumn_swap, sumn_delta. replace (k - 1 <? k)%nat with true by (symmetry; apply Nat.ltb_lt; lia). f_equal.
        rewrite <- sumn_scale. apply sumn_ext. intros l Hl. rewrite nth_firstn_v by auto. rewrite sumn_scale_r.
        assert (E : nth l (mulvec (tridiag main sub) s) 0 = th * nth l s 0) by (rewrite Es; apply nth_vscale).
        rewrite nth_mulvec in E by (simpl; lia). simpl nc in E. rewrite Lm in E. rewrite E. ring.
      - intros j Hj. rewrite (@nth_indep _ _ _ ([] : list K) (op (V vs 0))) by (rewrite map_length, linv_len_k; auto).
        rewrite (@nth_indep _ _ _ (op (V vs 0)) (op [])) by (rewrite map_length, linv_len_k; auto).
        rewrite (map_nth op). rewrite nth_firstn_v by auto. rewrite column_form by auto.
        replace (Datatypes.S j =? k)%nat with (j =? k - 1)%nat by (destruct (Nat.eqb_spec j (k - 1)), (Nat.eqb_spec (Datatypes.S j) k); auto; lia).
        rewrite (@sumn_ext K k (fun l => ent (tridiag main sub) l j * nth j s 0 * nth i (V vs l) 0) (fun l => nth j s 0 * (ent (tridiag main sub) l j * nth i (V vs l) 0))) by (intros; ring).
        rewrite sumn_scale. destruct (j =? k - 1)%nat; ring.
    Qed.
  End Inv.
End P.
