(** The kept eigenpairs of the tridiagonal matrix and the vectors computed from them. *)
From Coq Require Import List Arith Lia Bool Field Sorted.
From Verif Require Import Base OField Mat LinAlg M_Perm M_Lanczos S_Lanczos P_Span P_Deflate P_Lanczos P_Lanczos2 P_Lanczos3 P_Lanczos4.
Import ListNotations.
Set Implicit Arguments.
Open Scope nat_scope.

Lemma skipn_plus : forall T a b (l : list T), skipn a (skipn b l) = skipn (b + a) l.
Proof. induction b; intros l; simpl; auto. destruct l; auto. destruct a; auto. Qed.
Lemma filter_seq_sorted : forall f m a, StronglySorted lt (filter f (seq a m)).
Proof.
  intros f m. induction m; intros a; simpl; [constructor|]. destruct (f a); auto. constructor; auto.
  apply Forall_forall. intros x Hx. apply filter_In in Hx. destruct Hx as [Hx _]. apply in_seq in Hx. lia.
Qed.
Lemma sorted_nth_lt : forall (l : list nat) i j, StronglySorted lt l -> i < j < length l -> nth i l 0 < nth j l 0.
Proof.
  intros l i j H. revert i j. induction H as [|a l H IH F]; intros i j Hij; simpl in *; [lia|].
  destruct j as [|j]; [lia|]. destruct i as [|i]; simpl.
  - rewrite Forall_forall in F. apply F. apply nth_In. lia.
  - apply IH. lia.
Qed.
Lemma sorted_firstn : forall m l, StronglySorted lt l -> StronglySorted lt (firstn m l).
Proof.
  induction m; intros l H; simpl; [constructor|]. destruct H as [|a l H F]; [constructor|]. constructor; auto.
  apply Forall_forall. intros x Hx. rewrite Forall_forall in F. apply F. rewrite <- (firstn_skipn m l). apply in_or_app. auto.
Qed.
Lemma nth_map_in : forall A B (f : A -> B) l i da db, i < length l -> nth i (map f l) db = f (nth i l da).
Proof. intros. rewrite (@nth_indep _ _ _ db (f da)) by (rewrite map_length; auto). apply map_nth. Qed.

Section P.
  Variable K : ofield.
  Add Field KfLan5 : (f_field K).
  Local Open Scope K_scope.
  Notation vec := (vec K).
  Notation V vs j := (nth j vs ([] : vec)).

  (** ** The purge *)
  Lemma purge_spec_from : forall n bad (e v : list K), length e = n -> length v = (n * n)%nat -> forall k se sv, (k <= n)%nat ->
    purge k n bad (firstn k e ++ se) (firstn (n * k) v ++ sv) =
    (map (fun i => nth i e 0) (filter (fun i => negb (bad i)) (seq 0 k)) ++ se,
     concat (map (fun i => chunk n i v) (filter (fun i => negb (bad i)) (seq 0 k))) ++ sv).
  Proof.
    intros n bad e v Le Lv. induction k as [|k IH]; intros se sv Hk.
    - rewrite Nat.mul_0_r. reflexivity.
    - rewrite seq_S, filter_app, !map_app, concat_app. simpl plus.
      assert (F1 : firstn (S k) e = firstn k e ++ [nth k e 0]).
      { clear - Hk Le. revert e k n Hk Le. induction e as [|a e IH]; intros k n Hk Le; simpl in *; [lia|]. destruct k; simpl; auto. f_equal. apply (IH k (length e)); lia. }
      assert (F2 : firstn (n * S k) v = firstn (n * k) v ++ chunk n k v).
      { unfold chunk. rewrite <- (firstn_skipn (n * k) v) at 1. rewrite firstn_app. rewrite firstn_length. rewrite Lv.
        rewrite (Nat.min_l (n * k) (n * n)) by nia. replace (n * S k - n * k)%nat with n by nia. f_equal. rewrite firstn_firstn. f_equal. nia. }
      assert (L1 : length (firstn k e) = k) by (rewrite firstn_length; lia).
      assert (L2 : length (firstn (n * k) v) = (n * k)%nat) by (rewrite firstn_length, Lv; nia).
      assert (L3 : length (chunk n k v) = n). { unfold chunk. rewrite firstn_length, skipn_length, Lv. nia. }
      rewrite F1, F2. cbn [purge filter]. destruct (bad k) eqn:B; cbn [negb map concat].
      + rewrite !app_nil_r. unfold erase. rewrite <- !app_assoc.
        replace (firstn k (firstn k e ++ [nth k e 0] ++ se)) with (firstn k e).
        2:{ rewrite firstn_app, L1, Nat.sub_diag. simpl. rewrite app_nil_r. rewrite firstn_firstn. f_equal. lia. }
        replace (skipn (k + 1) (firstn k e ++ [nth k e 0] ++ se)) with se.
        2:{ rewrite app_assoc, skipn_app. rewrite skipn_all2 by (rewrite app_length; simpl; lia). rewrite app_length. simpl length. rewrite L1, Nat.sub_diag. auto. }
        replace (firstn (n * k) (firstn (n * k) v ++ chunk n k v ++ sv)) with (firstn (n * k) v).
        2:{ rewrite firstn_app, L2, Nat.sub_diag. simpl. rewrite app_nil_r. rewrite firstn_firstn. f_equal. lia. }
        replace (skipn (n * (k + 1)) (firstn (n * k) v ++ chunk n k v ++ sv)) with sv.
        2:{ rewrite app_assoc, skipn_app. rewrite skipn_all2 by (rewrite app_length, L2, L3; nia). rewrite app_length, L2, L3.
            replace (n * (k + 1) - (n * k + n))%nat with 0%nat by nia. auto. }
        apply IH. lia.
      + rewrite !app_nil_r. rewrite <- !app_assoc. simpl app. apply IH. lia.
  Qed.
  Lemma purge_spec : forall n bad (e v : list K), length e = n -> length v = (n * n)%nat ->
    let kept := filter (fun i => negb (bad i)) (seq 0 n) in
    purge n n bad e v = (map (fun i => nth i e 0) kept, concat (map (fun i => chunk n i v) kept)).
  Proof.
    intros n bad e v Le Lv kept. assert (A := @purge_spec_from n bad e v Le Lv n [] [] (le_n n)).
    rewrite !app_nil_r in A. rewrite (firstn_all2 e), (firstn_all2 v) in A by lia. exact A.
  Qed.

  (** ** Flat arrays of vectors *)
  Lemma skipn_concat : forall n (cs : list vec) i, Forall (fun c => length c = n) cs -> (i <= length cs)%nat -> skipn (n * i) (concat cs) = concat (skipn i cs).
  Proof.
    induction cs as [|c cs IH]; intros i F Hi; simpl in Hi.
    - destruct i; [|lia]. rewrite Nat.mul_0_r. auto.
    - inversion F; subst. destruct i as [|i]; [rewrite Nat.mul_0_r; auto|]. simpl concat at 1. simpl skipn at 2.
      replace (length c * S i)%nat with (length c + length c * i)%nat by lia. rewrite <- skipn_plus. rewrite skipn_app, skipn_all, Nat.sub_diag. simpl. apply IH; auto. lia.
  Qed.
  Lemma chunk_concat : forall n (cs : list vec) i, Forall (fun c => length c = n) cs -> (i < length cs)%nat -> chunk n i (concat cs) = V cs i.
  Proof.
    intros n cs i F Hi. unfold chunk. rewrite skipn_concat by (auto; lia).
    assert (E : skipn i cs = V cs i :: skipn (S i) cs).
    { clear F. revert i Hi. induction cs as [|c cs IH]; intros [|i] Hi; simpl in *; try lia; auto. apply IH. lia. }
    assert (L : length (V cs i) = n) by (rewrite Forall_forall in F; apply F; apply nth_In; auto).
    change (@skipn (list K) i cs) with (@skipn vec i cs). rewrite E. simpl concat. rewrite firstn_app. rewrite <- L, Nat.sub_diag. rewrite firstn_all. simpl. apply app_nil_r.
  Qed.
  Lemma chunk_length : forall n i m (l : list K), length l = (n * m)%nat -> (i < m)%nat -> length (chunk n i l) = n.
  Proof. intros n i m l L Hi. unfold chunk. rewrite firstn_length, skipn_length, L. nia. Qed.
  Lemma concat_len : forall n (cs : list vec), Forall (fun c => length c = n) cs -> length (concat cs) = (n * length cs)%nat.
  Proof. induction 1; simpl; [lia|]. unfold OField.vec in *. rewrite app_length, IHForall. lia. Qed.
  Lemma nth_chunk : forall n i j (l : list K), (j < n)%nat -> nth j (chunk n i l) 0 = nth (j + n * i) l 0.
  Proof.
    intros n i j l Hj. unfold chunk.
    assert (A : forall m (l' : list K), (j < m)%nat -> nth j (firstn m l') 0 = nth j l' 0).
    { intros m l' H. rewrite <- (firstn_skipn m l') at 2. destruct (le_lt_dec (length l') j) as [C|C].
      - rewrite !nth_overflow; auto; [|rewrite firstn_length; lia]. rewrite firstn_skipn. auto.
      - symmetry. apply app_nth1. rewrite firstn_length. lia. }
    rewrite A by auto. clear A. assert (B : forall a b (l' : list K), nth a (skipn b l') 0 = nth (a + b) l' 0).
    { intros a b. induction b; intros l'; simpl; [rewrite Nat.add_0_r; auto|]. rewrite Nat.add_succ_r. destruct l'; simpl; auto. destruct a; auto. }
    apply B.
  Qed.

  Variable fsqrt : K -> option K.
  Hypothesis Hsq : sqrt_ok fsqrt.

  Lemma root_one : forall s, fsqrt 1 = Some s -> s = 1.
  Proof.
    intros s E. destruct (Hsq E) as [S0 S1]. assert (Z : (s - 1) * (s + 1) = 0) by (replace ((s - 1) * (s + 1)) with (s * s - 1) by ring; rewrite S1; ring).
    apply fmul_eq_0 in Z. destruct Z as [Z|Z].
    - replace s with (s - 1 + 1) by ring. rewrite Z. ring.
    - exfalso. assert (G : 0 < s + 1). { apply fle_lt_trans with s; auto. apply flt_sub_0. replace (s + 1 - s) with (1 : K) by ring. apply f0_lt_1. }
      rewrite Z in G. apply (@flt_irrefl K 0 G).
  Qed.
  Lemma vdiv_one : forall v : vec, vdiv v 1 = Ok v.
  Proof.
    intros v. unfold vdiv. assert (N : ((1 : K) =? 0) = false). { destruct ((1 : K) =? 0) eqn:E; auto. apply feqb_eq in E. destruct (f1_neq_0 _ E). }
    rewrite N. f_equal. replace (1 / 1) with (1 : K) by (field; apply f1_neq_0). apply vscale_1.
  Qed.

  (** Unit vectors pass the normalisation unchanged. *)
  Lemma save_spec : forall n (cs : list vec), Forall (fun c => length c = n /\ dot c c = 1) cs -> forall k i, (i + k <= length cs)%nat ->
    save_normalised fsqrt k n i (concat cs) = if (k =? 0)%nat then Ok [] else match fsqrt 1 with Some _ => Ok (concat (firstn k (skipn i cs))) | None => Fuel end.
  Proof.
    intros n cs F. assert (F' : Forall (fun c => length c = n) cs) by (eapply Forall_impl; [|exact F]; simpl; tauto).
    induction k as [|k IH]; intros i Hi; [reflexivity|]. cbn [save_normalised Nat.eqb].
    change (firstn n (skipn (n * i) (concat cs))) with (chunk n i (concat cs)). rewrite chunk_concat by (auto; lia).
    assert (U : dot (V cs i) (V cs i) = 1) by (rewrite Forall_forall in F; apply F; apply nth_In; lia).
    rewrite U. unfold root. destruct (fsqrt 1) as [s|] eqn:Es; auto. cbn [bind]. rewrite (root_one Es), vdiv_one. cbn [bind].
    rewrite IH by lia.
    assert (E : skipn i cs = V cs i :: skipn (S i) cs).
    { clear - Hi. assert (Hi' : (i < length cs)%nat) by lia. clear Hi. revert i Hi'. induction cs as [|c cs IH]; intros [|i] Hi; simpl in *; try lia; auto. apply IH. lia. }
    unfold OField.vec in *. rewrite E. destruct k; simpl; auto.
  Qed.
End P.
