(** Proofs about the Lanczos recurrence (M_Lanczos, lanczos_step and lanczos_loop). *)
From Coq Require Import List Arith Lia Bool Field.
From Verif Require Import Base OField Mat LinAlg M_Perm M_Lanczos S_Lanczos P_Span P_Deflate.
Import ListNotations.
Set Implicit Arguments.
Open Scope nat_scope.

Lemma firstn_upd : forall T k (l : list T) x, firstn k (upd l k x) = firstn k l.
Proof. induction k; intros [|a l] x; simpl; auto. f_equal. apply IHk. Qed.

Section P.
  Variable K : ofield.
  Add Field KfLan : (f_field K).
  Local Open Scope K_scope.
  Notation vec := (vec K).
  Ltac vx := unfold OField.vec in *; vext; try ring.
  Notation V vs j := (nth j vs ([] : vec)).

  Variable n : nat.
  Variable S : vec -> Prop.
  Variable op : vec -> vec.
  Hypothesis HS : subspace n S.
  Hypothesis Hop : forall x, S x -> S (op x).
  Hypothesis Hsym : forall x y, S x -> S y -> dot (op x) y = dot x (op y).

  Lemma su_axpy : forall s x y, S x -> S y -> S (vaxpy s x y).
  Proof. intros. unfold vaxpy. apply (su_add HS); auto. apply (su_scale HS); auto. Qed.

  (** The right hand side of the three-term recurrence for vector j after k steps. *)
  Definition three_term (k : nat) (vs : list vec) (main sub : list K) (j : nat) : vec :=
    vadd (vadd (if (j =? 0)%nat then vzero n else vscale (nth (j - 1) sub 0) (V vs (j - 1))) (vscale (nth j main 0) (V vs j)))
         (if (Datatypes.S j <? k)%nat then vscale (nth j sub 0) (V vs (Datatypes.S j)) else V vs k).

  (** The state after k steps: k normalised vectors and the remainder, which is vs[k]. *)
  Record linv (k : nat) (beta : K) (vs : list vec) (main sub : list K) : Prop := {
    li_len : length vs = Datatypes.S k;
    li_main : length main = k;
    li_sub : length sub = (k - 1)%nat;
    li_S : forall j, (j <= k)%nat -> S (V vs j);
    li_orth : forall i j, (i < k)%nat -> (j < k)%nat -> dot (V vs i) (V vs j) = if (i =? j)%nat then 1 else 0;
    li_rest : forall j, (j < k)%nat -> dot (V vs k) (V vs j) = 0;
    li_beta0 : 0 <= beta;
    li_beta : beta * beta = dot (V vs k) (V vs k);
    li_rec : forall j, (j < k)%nat -> op (V vs j) = three_term k vs main sub j
  }.

  Variable fsqrt : K -> option K.
  Hypothesis Hsq : sqrt_ok fsqrt.
  Variable debug : bool.

  Lemma three_term_dot : forall k vs main sub j x, (j < k)%nat -> (forall j, (j <= k)%nat -> length (V vs j) = n) ->
    dot (three_term k vs main sub j) x =
    (if (j =? 0)%nat then 0 else nth (j - 1) sub 0 * dot (V vs (j - 1)) x) + nth j main 0 * dot (V vs j) x +
    (if (Datatypes.S j <? k)%nat then nth j sub 0 * dot (V vs (Datatypes.S j)) x else dot (V vs k) x).
  Proof.
    intros k vs main sub j x Hj HL. unfold three_term.
    assert (L1 : length (V vs j) = n) by (apply HL; lia).
    assert (L2 : length (if (j =? 0)%nat then vzero n else vscale (nth (j - 1) sub 0) (V vs (j - 1))) = n).
    { destruct (Nat.eqb_spec j 0); [apply vzero_length|]. rewrite vscale_length. apply HL. lia. }
    assert (L3 : length (if (Datatypes.S j <? k)%nat then vscale (nth j sub 0) (V vs (Datatypes.S j)) else V vs k) = n).
    { destruct (Nat.ltb_spec (Datatypes.S j) k); [rewrite vscale_length|]; apply HL; lia. }
    rewrite dot_add_l by (unfold OField.vec in *; rewrite ?vadd_length, ?vscale_length, ?L1, ?L2, ?L3; lia).
    rewrite dot_add_l by (unfold OField.vec in *; rewrite ?vadd_length, ?vscale_length, ?L1, ?L2, ?L3; lia).
    rewrite dot_scale_l. f_equal; [f_equal|].
    - destruct (Nat.eqb_spec j 0); [apply dot_zero_l|apply dot_scale_l].
    - destruct (Nat.ltb_spec (Datatypes.S j) k); [apply dot_scale_l|auto].
  Qed.

  (** One step. *)
  Lemma step_inv : forall k beta vs main sub st, linv k beta vs main sub ->
    lanczos_step fsqrt debug op (Datatypes.S k) beta vs main sub = Ok st ->
    let '(beta', vs', main', sub') := st in linv (Datatypes.S k) beta' vs' main' sub' /\ beta <> 0 /\
      firstn k vs' = firstn k vs /\ V vs' k = vscale (1 / beta) (V vs k) /\ firstn k main' = main /\ firstn (k - 1) sub' = sub.
  Proof.
    intros k beta vs main sub st L E. destruct L as [L1 L2 L3 L4 L5 L6 L7 L8 L9].
    unfold lanczos_step in E. unfold assert_dbg in E.
    destruct (beta =? 0) eqn:E0.
    { destruct debug; simpl in E; [discriminate|]. replace (k - 0)%nat with k in E by lia.
      rewrite (rd_nth vs []) in E by lia. simpl in E. unfold vdiv in E. rewrite E0 in E. discriminate. }
    assert (Hb : beta <> 0). { intros ->. assert (feqb (0 : K) 0 = true) by (apply feqb_eq; auto). congruence. }
    simpl negb in E. rewrite andb_false_r in E. cbn [bind] in E.
    replace (Datatypes.S k - 1)%nat with k in E by lia. replace (Datatypes.S k - 2)%nat with (k - 1)%nat in E by lia.
    rewrite (rd_nth vs []) in E by lia. cbn [bind] in E. unfold vdiv in E. rewrite E0 in E. cbn [bind] in E.
    rewrite wr_ok in E by lia. cbn [bind] in E.
    set (v := vscale (1 / beta) (V vs k)) in *. set (vs1 := upd vs k v) in *.
    assert (Sv : S v) by (apply (su_scale HS); apply L4; lia).
    assert (Lv : length v = n) by (apply (su_len HS); auto).
    assert (Sw : S (op v)) by auto. assert (Lw : length (op v) = n) by (apply (su_len HS); auto).
    assert (V1 : forall j, j <> k -> V vs1 j = V vs j) by (intros; unfold vs1; apply nth_upd_neq; auto).
    assert (Vk : V vs1 k = v) by (unfold vs1; apply nth_upd_eq; lia).
    assert (LV : forall j, (j <= k)%nat -> length (V vs j) = n) by (intros; apply (su_len HS); auto).
    assert (vv : dot v v = 1). { unfold v. rewrite dot_scale_l, dot_scale_r. rewrite <- L8. field. auto. }
    assert (vj : forall j, (j < k)%nat -> dot v (V vs j) = 0). { intros j Hj. unfold v. rewrite dot_scale_l. rewrite L6 by auto. ring. }
    (* the product minus the component of the previous vector *)
    set (w2 := if (k =? 0)%nat then op v else vaxpy (- beta) (V vs (k - 1)) (op v)) in *.
    set (sub2 := if (k =? 0)%nat then sub else sub ++ [beta]) in *.
    assert (E' : (let alpha := dot v w2 in let w := vaxpy (- alpha) v w2 in
                  let! beta' := l2_norm fsqrt w in Ok (beta', vs1 ++ [w], main ++ [alpha], sub2)) = Ok st).
    { unfold w2, sub2. change (Datatypes.S k =? 1)%nat with (k =? 0)%nat in E. destruct (Nat.eqb_spec k 0) as [Z|Z].
      - cbn [bind fst snd] in E. exact E.
      - rewrite (rd_nth vs1 []) in E by (unfold vs1; rewrite upd_length; lia). rewrite V1 in E by lia. cbn [bind fst snd] in E. exact E. }
    clear E. rename E' into E. cbv zeta in E.
    assert (Sw2 : S w2). { unfold w2. destruct (Nat.eqb_spec k 0); auto. apply su_axpy; auto. apply L4. lia. }
    assert (Lw2 : length w2 = n) by (apply (su_len HS); auto).
    set (alpha := dot v w2) in *. set (w := vaxpy (- alpha) v w2) in *.
    assert (Sw3 : S w) by (apply su_axpy; auto). assert (Lw3 : length w = n) by (apply (su_len HS); auto).
    unfold l2_norm, root in E. destruct (fsqrt (dot w w)) as [beta'|] eqn:Eq; [|discriminate]. cbn [bind] in E. injection E as <-.
    destruct (Hsq Eq) as [B0 B1].
    assert (L1' : length vs1 = Datatypes.S k) by (unfold vs1; rewrite upd_length; auto).
    assert (Vn : forall j, (j <= k)%nat -> V (vs1 ++ [w]) j = V vs1 j) by (intros; apply app_nth1; lia).
    assert (Vw : V (vs1 ++ [w]) (Datatypes.S k) = w). { rewrite app_nth2 by lia. replace (Datatypes.S k - length vs1)%nat with 0%nat by lia. auto. }
    assert (sub_nth : forall j, (j < k - 1)%nat -> nth j sub2 0 = nth j sub 0).
    { intros j Hj. unfold sub2. destruct (Nat.eqb_spec k 0); auto. apply app_nth1. lia. }
    assert (sub_last : (0 < k)%nat -> nth (k - 1) sub2 0 = beta).
    { intros Hk. unfold sub2. destruct (Nat.eqb_spec k 0); [lia|]. rewrite app_nth2 by lia. rewrite L3, Nat.sub_diag. auto. }
    assert (main_nth : forall j, (j < k)%nat -> nth j (main ++ [alpha]) 0 = nth j main 0) by (intros; apply app_nth1; lia).
    assert (main_last : nth k (main ++ [alpha]) 0 = alpha). { rewrite app_nth2 by lia. rewrite L2, Nat.sub_diag. auto. }
    (* recurrence for the new vector *)
    assert (R : op v = vadd (vadd (if (k =? 0)%nat then vzero n else vscale beta (V vs (k - 1))) (vscale alpha v)) w).
    { unfold w, w2. clearbody alpha. destruct (Nat.eqb_spec k 0) as [Z|Z].
      - vx.
      - assert (length (V vs (k - 1)) = n) by (apply LV; lia). vx. }
    (* orthogonality of the remainder *)
    assert (wv : dot w v = 0).
    { unfold w, vaxpy. rewrite dot_add_l by (rewrite vscale_length; congruence). rewrite dot_scale_l, vv. unfold alpha. rewrite (dot_comm v w2). ring. }
    assert (wj : forall j, (j < k)%nat -> dot w (V vs j) = 0).
    { intros j Hj. unfold w, vaxpy. rewrite dot_add_l by (rewrite vscale_length; congruence). rewrite dot_scale_l, vj by auto.
      assert (D : dot (op v) (V vs j) = if (j =? k - 1)%nat then beta else 0).
      { rewrite Hsym by (auto; apply L4; lia). rewrite dot_comm. rewrite L9 by auto. rewrite three_term_dot by auto.
        assert (T1 : (if (j =? 0)%nat then 0 else nth (j - 1) sub 0 * dot (V vs (j - 1)) v) = 0).
        { destruct (Nat.eqb_spec j 0); auto. rewrite (dot_comm (V vs (j - 1)) v), vj by lia. ring. }
        rewrite T1. rewrite (dot_comm (V vs j) v), vj by auto.
        destruct (Nat.ltb_spec (Datatypes.S j) k).
        - rewrite (dot_comm (V vs (Datatypes.S j)) v), vj by auto. destruct (Nat.eqb_spec j (k - 1)); [lia|]. ring.
        - destruct (Nat.eqb_spec j (k - 1)); [|lia]. unfold v. rewrite dot_scale_r. rewrite <- L8. field. auto. }
      unfold w2. destruct (Nat.eqb_spec k 0); [lia|]. unfold vaxpy.
      rewrite dot_add_l by (rewrite vscale_length, LV; auto; lia). rewrite dot_scale_l, D. rewrite L5 by lia. rewrite (Nat.eqb_sym (k - 1) j).
      destruct (Nat.eqb_spec j (k - 1)); ring. }
    split; [|split; [auto|split; [|split; [|split]]]].
    - constructor; auto.
      + rewrite app_length. simpl. lia.
      + rewrite app_length. simpl. lia.
      + unfold sub2. destruct (Nat.eqb_spec k 0); [subst; simpl in *; lia|]. rewrite app_length. simpl. lia.
      + intros j Hj. destruct (Nat.eq_dec j (Datatypes.S k)) as [->|N]; [rewrite Vw; auto|]. rewrite Vn by lia.
        destruct (Nat.eq_dec j k) as [->|N']; [rewrite Vk; auto|]. rewrite V1 by auto. apply L4. lia.
      + intros i j Hi Hj. rewrite !Vn by lia. destruct (Nat.eq_dec i k) as [->|Ni], (Nat.eq_dec j k) as [->|Nj].
        * rewrite Vk, Nat.eqb_refl. auto.
        * rewrite Vk, V1 by auto. rewrite vj by lia. destruct (Nat.eqb_spec k j); [lia|auto].
        * rewrite Vk, V1 by auto. rewrite dot_comm, vj by lia. destruct (Nat.eqb_spec i k); [lia|auto].
        * rewrite !V1 by auto. apply L5; lia.
      + intros j Hj. rewrite Vw, Vn by lia. destruct (Nat.eq_dec j k) as [->|N]; [rewrite Vk; auto|]. rewrite V1 by auto. apply wj. lia.
      + rewrite Vw. auto.
      + intros j Hj. rewrite Vn by lia. destruct (Nat.eq_dec j k) as [->|N].
        * rewrite Vk, R. unfold three_term. rewrite (Nat.ltb_irrefl (Datatypes.S k)). rewrite Vw, !Vn by lia. rewrite Vk, main_last. f_equal. f_equal.
          destruct (Nat.eqb_spec k 0); auto. rewrite V1 by lia. rewrite sub_last by lia. auto.
        * rewrite V1 by auto. rewrite L9 by lia. unfold three_term. rewrite main_nth by lia.
          replace (Datatypes.S j <? Datatypes.S k)%nat with true by (symmetry; apply Nat.ltb_lt; lia).
          rewrite !(Vn j) by lia. rewrite (Vn (j - 1)%nat) by lia. rewrite !(V1 j) by lia. rewrite (V1 (j - 1)%nat) by lia. f_equal; [f_equal|].
          -- destruct (Nat.eqb_spec j 0); auto. rewrite sub_nth by lia. auto.
          -- rewrite Vn by lia. destruct (Nat.ltb_spec (Datatypes.S j) k).
             ++ rewrite V1 by lia. rewrite sub_nth by lia. auto.
             ++ replace (Datatypes.S j) with k by lia. rewrite Vk. replace j with (k - 1)%nat by lia. rewrite sub_last by lia.
                unfold v. rewrite vscale_vscale. replace (beta * (1 / beta)) with (1 : K) by (field; auto). rewrite vscale_1. auto.
    - rewrite firstn_app. replace (k - length vs1)%nat with 0%nat by lia. simpl. rewrite app_nil_r. unfold vs1.
      apply firstn_upd.
    - rewrite Vn by lia. rewrite Vk. auto.
    - rewrite firstn_app. rewrite L2, Nat.sub_diag. simpl. rewrite app_nil_r. apply firstn_all2. lia.
    - unfold sub2. destruct (Nat.eqb_spec k 0); [destruct sub; [destruct (k - 1)%nat; auto|simpl in L3; lia]|].
      rewrite firstn_app. rewrite L3, Nat.sub_diag. simpl. rewrite app_nil_r. apply firstn_all2. lia.
  Qed.
End P.
