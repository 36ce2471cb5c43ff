(** Proofs about M_Eig. *)
From Coq Require Import String List Arith Lia Bool Field ZArith Permutation.
From Verif Require Import Base OField Mat LinAlg M_Ptree M_Host M_Perm S_Perm M_Restr M_Lanczos S_Lanczos M_Eig S_Eig P_Span P_Deflate P_Lanczos5 P_Lanczos7 P_Lanczos8 P_Lanczos9.
Import ListNotations.
Set Implicit Arguments.
Open Scope list_scope.
Open Scope nat_scope.

Lemma rd_out : forall T (l : list T) i, length l <= i -> rd l i = UB.
Proof. intros T l i H. unfold rd. apply nth_error_None in H. rewrite H. auto. Qed.
Lemma rd_inv : forall T (l : list T) i x, rd l i = Ok x -> nth_error l i = Some x /\ i < length l.
Proof. intros T l i x H. unfold rd in H. destruct (nth_error l i) eqn:E; [|discriminate]. injection H as ->. split; auto. eapply nth_error_lt; eauto. Qed.
Lemma wr_out : forall T (l : list T) i x, length l <= i -> wr l i x = UB.
Proof. intros T l i x H. unfold wr. destruct (Nat.ltb_spec i (length l)); auto; lia. Qed.

Lemma skipn_skipn_S : forall T i k (l : list T), skipn k (skipn (S i) l) = skipn (S i + k) l.
Proof. intros T i k l. revert k. generalize (S i). intros m. revert l. induction m as [|m IH]; intros [|a l] k; simpl; auto. destruct k; auto. Qed.

Section P.
  Variable K : ofield.
  Add Field KfEig : (f_field K).
  Local Open Scope K_scope.
  Notation vec := (vec K).
  Ltac vx := unfold OField.vec in *; vext; try ring.

  (** ** Guesses *)
  Lemma guess_from_spec : forall draw con k i calls, length (guess_from (K := K) draw con k i calls) = k /\
    forall l, (l < k)%nat -> nth l (guess_from draw con k i calls) 0 = if con (i + l)%nat then 0 else draw (calls + length (filter (fun j => negb (con j)) (seq i l)))%nat.
  Proof.
    intros draw con k. induction k as [|k IH]; intros i calls; cbn [guess_from]; [split; auto; intros; lia|].
    destruct (con i) eqn:Ci.
    - destruct (IH (S i) calls) as [L H]. split; [simpl; lia|]. intros [|l] Hl; simpl.
      + rewrite Nat.add_0_r, Ci. auto.
      + rewrite H by lia. replace (S i + l)%nat with (i + S l)%nat by lia. rewrite Ci. simpl. auto.
    - destruct (IH (S i) (S calls)) as [L H]. split; [simpl; lia|]. intros [|l] Hl; simpl.
      + rewrite Nat.add_0_r, Ci. f_equal; lia.
      + rewrite H by lia. replace (S i + l)%nat with (i + S l)%nat by lia. rewrite Ci. simpl. destruct (con (i + S l)%nat); auto; try (f_equal; lia).
  Qed.

  Lemma perturb_nth : forall rand seed (v : vec) i j, nth j (perturb_from rand seed i v) 0 = if (j <? length v)%nat then (1 + rand seed (i + j)%nat) * nth j v 0 else 0.
  Proof.
    intros rand seed v. induction v as [|x v IH]; intros i j; cbn [perturb_from].
    - destruct j; auto.
    - destruct j as [|j]; simpl; [rewrite Nat.add_0_r; auto|]. rewrite IH. rewrite Nat.add_succ_r. reflexivity.
  Qed.

  Lemma copy_lobpcg_ok : forall k i (vs : list vec), (i + k <= length vs)%nat -> copy_lobpcg k i vs = Ok (firstn k (skipn i vs)).
  Proof.
    induction k as [|k IH]; intros i vs H; cbn [copy_lobpcg]; auto. rewrite (rd_nth vs ([] : vec)) by (unfold OField.vec in *; lia). cbn [bind]. rewrite IH by (unfold OField.vec in *; lia). cbn [bind].
    assert (E : skipn i vs = nth i vs [] :: skipn (S i) vs).
    { clear IH. assert (Hi : (i < length vs)%nat) by (unfold OField.vec in *; lia). clear H. revert i Hi. induction vs; intros [|i] Hi; simpl in *; try lia; auto. apply IHvs. lia. }
    rewrite E. reflexivity.
  Qed.
  Lemma copy_lobpcg_short : forall k i (vs : list vec), (length vs < i + k)%nat -> (i <= length vs)%nat -> copy_lobpcg k i vs = UB.
  Proof.
    induction k as [|k IH]; intros i vs H Hi; cbn [copy_lobpcg]; [lia|]. destruct (Nat.eq_dec i (length vs)) as [->|N].
    - rewrite rd_out by auto. auto.
    - rewrite (rd_nth vs ([] : vec)) by (unfold OField.vec in *; lia). cbn [bind]. rewrite IH by (unfold OField.vec in *; lia). auto.
  Qed.

  (** The repaired entry. *)
  Definition repaired (g x : K) : K := if g =? 0 then 0 else if x =? 0 then g else x.
  Lemma repair_entry_ok : forall (g : K) i (v : vec), (i < length v)%nat -> repair_entry g i v = Ok (upd v i (repaired g (nth i v 0))).
  Proof.
    intros g i v Hi. unfold repair_entry, repaired. destruct (feqb g 0); [apply wr_ok; auto|]. rewrite (rd_nth v 0) by auto. cbn [bind].
    destruct (feqb (nth i v 0) 0); [apply wr_ok; auto|]. f_equal. apply (@list_ext _ _ _ 0); [rewrite upd_length; auto|]. intros j Hj.
    destruct (Nat.eq_dec j i) as [->|N]; [rewrite nth_upd_eq by auto; auto|rewrite nth_upd_neq by auto; auto].
  Qed.
  Lemma repair_all_ok : forall (g : K) i (vs : list vec), (forall v, In v vs -> (i < length v)%nat) -> repair_all g i vs = Ok (map (fun v => upd v i (repaired g (nth i v 0))) vs).
  Proof.
    intros g i. induction vs as [|v vs IH]; intros H; cbn [repair_all map]; auto. rewrite repair_entry_ok by (apply H; left; auto). cbn [bind]. rewrite IH by (intros; apply H; right; auto). auto.
  Qed.
  Lemma repair_from_ok : forall k i (g : vec) (vs : list vec), (i + k = length g)%nat -> (forall v, In v vs -> length v = length g) ->
    exists ws, repair_from k i g vs = Ok ws /\ length ws = length vs /\
      forall j, (j < length vs)%nat -> length (nth j ws []) = length g /\
        forall l, (l < length g)%nat -> nth l (nth j ws []) 0 = if (l <? i)%nat then nth l (nth j vs []) 0 else repaired (nth l g 0) (nth l (nth j vs []) 0).
  Proof.
    induction k as [|k IH]; intros i g vs Hi Hv; cbn [repair_from].
    - exists vs. split; auto. split; auto. intros j Hj. split; [apply Hv; apply nth_In; auto|]. intros l Hl. destruct (Nat.ltb_spec l i); auto; lia.
    - rewrite (rd_nth g 0) by lia. cbn [bind]. rewrite repair_all_ok by (intros v Hv'; rewrite (Hv v Hv'); lia). cbn [bind].
      set (vs1 := map (fun v => upd v i (repaired (nth i g 0) (nth i v 0))) vs).
      destruct (IH (S i) g vs1 ltac:(lia)) as (ws & E & Lw & H).
      { intros v Hv'. apply in_map_iff in Hv'. destruct Hv' as (u & <- & Hu). rewrite upd_length. auto. }
      exists ws. split; [exact E|]. unfold vs1 in Lw, H. rewrite map_length in Lw, H. split; auto. intros j Hj. destruct (H j Hj) as [L1 H1]. split; auto. intros l Hl. rewrite H1 by auto.
      rewrite (nth_map_in (fun v => upd v i (repaired (nth i g 0) (nth i v 0))) vs [] []) by auto.
      assert (Lj : length (nth j vs []) = length g) by (apply Hv; apply nth_In; auto).
      destruct (Nat.eq_dec l i) as [->|N].
      + rewrite nth_upd_eq by (unfold OField.vec in *; lia). destruct (Nat.ltb_spec i (S i)); [|lia]. destruct (Nat.ltb_spec i i); [lia|auto].
      + rewrite nth_upd_neq by auto. destruct (Nat.ltb_spec l (S i)), (Nat.ltb_spec l i); auto; lia.
  Qed.

  (** ** The shift *)
  Lemma existsb_mem : forall i C, existsb (Nat.eqb i) C = true <-> In i C.
  Proof.
    intros i C. rewrite existsb_exists. split.
    - intros (x & Hx & E). apply Nat.eqb_eq in E. subst. auto.
    - intros H. exists i. split; auto. apply Nat.eqb_refl.
  Qed.
  (** On vectors that vanish at the constrained dofs the shifted matrix acts as A plus the average. *)
  Lemma shifted_action : forall (A : mat K) C (v : vec), square A -> length v = nr A -> vanishes C v -> mulvec (shifted A C) v = vadd (mulvec A v) (vscale (average_diagonal A) v).
  Proof.
    intros A C v Sq Lv Hv. apply vec_ext; [rewrite vadd_length, vscale_length, !mulvec_length; simpl; lia|].
    intros i Hi. rewrite mulvec_length in Hi. simpl in Hi. rewrite nth_vadd, nth_vscale, !nth_mulvec by (rewrite ?vscale_length, ?mulvec_length; simpl; auto). simpl nc.
    assert (E : forall j, (j < nc A)%nat -> ent (shifted A C) i j * nth j v 0 = ent A i j * nth j v 0 + (if (j =? i)%nat then average_diagonal A * nth i v 0 else 0)).
    { intros j Hj. simpl. rewrite (Nat.eqb_sym j i). destruct (Nat.eqb_spec i j) as [<-|N]; [|ring]. destruct (existsb (Nat.eqb i) C) eqn:M; [|ring].
      apply existsb_mem in M. rewrite (Hv i M). ring. }
    rewrite (sumn_ext _ _ _ E), sumn_add. f_equal. rewrite (sumn_single _ i); [rewrite Nat.eqb_refl; auto|unfold square in Sq; lia|]. intros k _ N. destruct (Nat.eqb_spec k i); [contradiction|auto].
  Qed.
  Lemma shifted_symmetric : forall (A : mat K) C, symmetric_matrix A -> symmetric_matrix (shifted A C).
  Proof.
    intros A C [Sq Sy]. split; [exact Sq|]. intros i j Hi Hj. simpl in *. rewrite (Nat.eqb_sym j i). destruct (Nat.eqb_spec i j) as [->|]; auto.
  Qed.
  Lemma shifted_constrained_row : forall (A : mat K) C c (v : vec), square A -> decoupled A C -> In c C -> (c < nr A)%nat -> nth c (mulvec (shifted A C) v) 0 = fpos 200 * nth c v 0.
  Proof.
    intros A C c v Sq D Hc Hl. rewrite nth_mulvec by auto. simpl nc. rewrite (sumn_single _ c); [|unfold square in Sq; lia|].
    - simpl. rewrite Nat.eqb_refl. apply existsb_mem in Hc. rewrite Hc. auto.
    - intros j Hj N. simpl. destruct (Nat.eqb_spec c j); [congruence|]. destruct (D c j Hc ltac:(auto)) as [-> _]. ring.
  Qed.

  (** Vectors vanishing at the constrained dofs: a subspace, invariant under the shifted matrix and the perturbation. *)
  Definition free (n : nat) (C : list nat) (v : vec) : Prop := length v = n /\ vanishes C v.
  Lemma free_sub : forall n C, subspace n (free n C).
  Proof.
    intros n C. constructor.
    - intros x [H _]. auto.
    - intros x y [L1 V1] [L2 V2]. split; [rewrite vadd_length; unfold OField.vec in *; lia|]. intros i Hi. rewrite nth_vadd by congruence. rewrite V1, V2 by auto. ring.
    - intros s x [L1 V1]. split; [rewrite vscale_length; auto|]. intros i Hi. rewrite nth_vscale, V1 by auto. ring.
  Qed.
  Lemma free_invariant : forall (A : mat K) C, symmetric_matrix A -> decoupled A C -> symmetric_on (free (nr A) C) (mulvec (shifted A C)).
  Proof.
    intros A C Sy D. assert (Sb := shifted_symmetric C Sy). destruct Sb as [Sq Sb]. constructor.
    - intros x [L V]. split; [rewrite mulvec_length; reflexivity|]. intros i Hi. destruct (le_lt_dec (nr A) i) as [Ge|Lt].
      + apply nth_overflow. rewrite mulvec_length. auto.
      + rewrite shifted_constrained_row; auto; try (apply Sy). rewrite (V i Hi). ring.
    - intros x y [Lx _] [Ly _]. rewrite (@mulvec_adjoint K (shifted A C) x y) by (unfold square in Sq; simpl in *; congruence). f_equal. unfold mulTvec. apply mulvec_meq. split; [|split]; simpl; auto.
      intros i j Hi Hj. apply (Sb j i); unfold square in Sq; simpl in *; lia.
  Qed.
  Lemma free_perturb : forall n C rand (v : vec) seed, free n C v -> free n C (set_initial_guess rand v seed).
  Proof.
    intros n C rand v seed [L V]. split; [unfold set_initial_guess; rewrite perturb_length; auto|]. intros i Hi. unfold set_initial_guess. rewrite perturb_nth, (V i Hi). destruct (i <? length v)%nat; ring.
  Qed.
  Lemma initial_free : forall draw (A : mat K) C, free (nr A) C (initial_vector draw A C).
  Proof.
    intros draw A C. unfold initial_vector, evaluator_guess. destruct (guess_from_spec draw (fun i => existsb (Nat.eqb i) C) (nr A) 0 0) as [L H]. split; auto.
    intros i Hi. destruct (le_lt_dec (nr A) i) as [Ge|Lt]; [apply nth_overflow; unfold OField.vec in *; lia|]. rewrite H by auto. simpl. apply existsb_mem in Hi. rewrite Hi. auto.
  Qed.

  Lemma shift_back_spec : forall k i (avg : K) l r, shift_back k i avg l = Ok r -> length r = length l /\ (k = 0%nat \/ (i + k <= length l)%nat) /\
    forall j, nth j r 0 = if (i <=? j)%nat && (j <? i + k)%nat then nth j l 0 - avg else nth j l 0.
  Proof.
    induction k as [|k IH]; intros i avg l r E; cbn [shift_back] in E.
    - injection E as <-. split; auto. split; auto. intros j. destruct (Nat.leb_spec i j), (Nat.ltb_spec j (i + 0)); auto; lia.
    - destruct (le_lt_dec (length l) i) as [Ge|Lt]; [rewrite rd_out in E by auto; discriminate|].
      rewrite (rd_nth l 0 Lt) in E. cbn [bind] in E. rewrite wr_ok in E by auto. cbn [bind] in E. destruct (IH _ _ _ _ E) as (L & B & H). rewrite upd_length in L, B. split; auto. split; [right; lia|].
      intros j. rewrite H. destruct (Nat.eq_dec j i) as [->|N].
      + rewrite nth_upd_eq by auto. destruct (Nat.leb_spec (S i) i); [lia|]. destruct (Nat.leb_spec i i); [|lia]. destruct (Nat.ltb_spec i (i + S k)); [auto|lia].
      + rewrite nth_upd_neq by auto. destruct (Nat.leb_spec (S i) j), (Nat.leb_spec i j), (Nat.ltb_spec j (S i + k)), (Nat.ltb_spec j (i + S k)); auto; lia.
  Qed.
  Lemma shift_back_ok : forall k i (avg : K) l, (i + k <= length l)%nat -> exists r, shift_back k i avg l = Ok r.
  Proof.
    induction k as [|k IH]; intros i avg l H; cbn [shift_back]; [eauto|]. rewrite (rd_nth l 0) by lia. cbn [bind]. rewrite wr_ok by lia. cbn [bind]. apply IH. rewrite upd_length. lia.
  Qed.

  (** Residuals of A and of the shifted matrix. *)
  Lemma residual_shift : forall (A : mat K) C (v : vec) lambda, square A -> length v = nr A -> vanishes C v -> residual A lambda v = residual (shifted A C) (lambda + average_diagonal A) v.
  Proof.
    intros A C v lambda Sq Lv Hv. unfold residual. rewrite shifted_action by auto. assert (L := mulvec_length A v). set (w := mulvec A v) in *. clearbody w. rewrite <- L in Lv. vx.
  Qed.
  Lemma eigenpair_residual : forall (A : mat K) lambda (v : vec), square A -> length v = nr A -> eigenpair A lambda v <-> residual A lambda v = vzero (nr A).
  Proof.
    intros A lambda v Sq Lv. unfold eigenpair, residual. assert (L := mulvec_length A v). set (w := mulvec A v) in *. clearbody w. split.
    - intros ->. rewrite vsub_self. rewrite vscale_length. congruence.
    - intros E. apply vec_ext; [rewrite vscale_length; congruence|]. intros i Hi. apply (f_equal (fun u => nth i u 0)) in E. rewrite nth_vsub, nth_vzero in E by (rewrite vscale_length; congruence).
      replace (nth i w 0) with ((nth i w 0 - nth i (vscale lambda v) 0) + nth i (vscale lambda v) 0) by ring. rewrite E. ring.
  Qed.

  (** ** Anasazi *)
  Lemma wr_upd_firstn : forall T (l : list T) (s : list T) i x, (i < length l)%nat -> (i < length s)%nat -> nth_error s i = Some x -> firstn i l = firstn i s -> upd l i x = firstn (S i) s ++ skipn (S i) l.
  Proof.
    intros T l. induction l as [|a l IH]; intros s i x Hl Hs E F; simpl in Hl; [lia|]. destruct s as [|b s]; [simpl in Hs; lia|]. destruct i as [|i]; simpl in *.
    - injection E as ->. auto.
    - injection F as -> F. f_equal. apply IH; auto; lia.
  Qed.
  Lemma extract_ok : forall debug (s : eigensolution K) k i evals evecs, (i + k = length (so_evals s))%nat -> (length (so_evals s) <= length (so_evecs s))%nat ->
    (debug = true -> length (so_index s) = length (so_evals s) /\ forall z, In z (so_index s) -> z = 0%Z) -> (i + k <= length evals)%nat -> (i + k <= length evecs)%nat ->
    firstn i evals = firstn i (so_evals s) -> firstn i evecs = firstn i (so_evecs s) ->
    extract_from debug s k i evals evecs = Ok (so_evals s ++ skipn (i + k) evals, firstn (i + k) (so_evecs s) ++ skipn (i + k) evecs).
  Proof.
    intros debug s k. induction k as [|k IH]; intros i evals evecs H1 H2 Hd H3 H4 F1 F2; cbn [extract_from].
    - rewrite !Nat.add_0_r in *. f_equal. f_equal.
      + rewrite <- (firstn_skipn i evals) at 1. rewrite F1. f_equal. rewrite H1. apply firstn_all.
      + rewrite <- (firstn_skipn i evecs) at 1. rewrite F2. auto.
    - assert (D : (if debug then let! ix := rd (so_index s) i in assert_dbg true (Z.eqb ix 0) else Ok tt) = Ok tt).
      { destruct debug; auto. destruct (Hd eq_refl) as [Li Hz]. rewrite (rd_nth (so_index s) 0%Z) by lia. cbn [bind]. rewrite (Hz (nth i (so_index s) 0%Z)) by (apply nth_In; lia). auto. }
      rewrite D. cbn [bind]. rewrite (rd_nth (so_evals s) 0) by lia. cbn [bind]. rewrite wr_ok by lia. cbn [bind].
      rewrite (rd_nth (so_evecs s) ([] : vec)) by (unfold OField.vec in *; lia). cbn [bind]. rewrite wr_ok by lia. cbn [bind].
      assert (U1 : upd evals i (nth i (so_evals s) 0) = firstn (S i) (so_evals s) ++ skipn (S i) evals).
      { apply wr_upd_firstn; auto; try lia. apply nth_error_nth_lt. lia. }
      assert (U2 : upd evecs i (nth i (so_evecs s) []) = firstn (S i) (so_evecs s) ++ skipn (S i) evecs).
      { apply wr_upd_firstn; auto; try (unfold OField.vec in *; lia). apply nth_error_nth_lt. unfold OField.vec in *; lia. }
      assert (P1 : forall T (a b : list T) m, length a = m -> firstn m (a ++ b) = a) by (intros T a b m <-; rewrite firstn_app, Nat.sub_diag, firstn_all; simpl; apply app_nil_r).
      assert (L1 : length (firstn (S i) (so_evals s)) = S i) by (rewrite firstn_length; lia).
      assert (L2 : length (firstn (S i) (so_evecs s)) = S i) by (rewrite firstn_length; unfold OField.vec in *; lia).
      rewrite (IH (S i)); try lia; try (rewrite upd_length; lia); auto.
      + replace (i + S k)%nat with (S i + k)%nat by lia. f_equal. f_equal; f_equal.
        * rewrite U1. rewrite skipn_app, L1. rewrite skipn_all2 by lia. rewrite app_nil_l. replace (S i + k - S i)%nat with k by lia. apply skipn_skipn_S.
        * rewrite U2. rewrite skipn_app, L2. rewrite skipn_all2 by lia. rewrite app_nil_l. replace (S i + k - S i)%nat with k by lia. apply skipn_skipn_S.
      + rewrite U1. apply P1. auto.
      + rewrite U2. apply P1. auto.
  Qed.
  Lemma extract_long : forall (s : eigensolution K) k i evals evecs debug, (i + k = length (so_evals s))%nat -> (length evals < i + k)%nat -> (i <= length evals)%nat ->
    (debug = true -> length (so_index s) = length (so_evals s) /\ forall z, In z (so_index s) -> z = 0%Z) ->
    (length (so_evals s) <= length (so_evecs s))%nat -> length evals = length evecs -> extract_from debug s k i evals evecs = UB.
  Proof.
    intros s k. induction k as [|k IH]; intros i evals evecs debug H1 H2 H3 Hd H4 H5; cbn [extract_from]; [lia|].
    assert (D : (if debug then let! ix := rd (so_index s) i in assert_dbg true (Z.eqb ix 0) else Ok tt) = Ok tt).
    { destruct debug; auto. destruct (Hd eq_refl) as [Li Hz]. rewrite (rd_nth (so_index s) 0%Z) by lia. cbn [bind]. rewrite (Hz (nth i (so_index s) 0%Z)) by (apply nth_In; lia). auto. }
    rewrite D. cbn [bind]. rewrite (rd_nth (so_evals s) 0) by lia. cbn [bind]. destruct (Nat.eq_dec i (length evals)) as [->|N]; [rewrite wr_out by auto; auto|].
    rewrite wr_ok by lia. cbn [bind]. rewrite (rd_nth (so_evecs s) ([] : vec)) by (unfold OField.vec in *; lia). cbn [bind]. rewrite wr_ok by lia. cbn [bind].
    apply IH; rewrite ?upd_length; auto; lia.
  Qed.

  (** ** LAPACK *)
  Lemma read_first_ok : forall T k i (l : list T), (i + k <= length l)%nat -> read_first k i l = Ok (firstn k (skipn i l)).
  Proof.
    intros T k. induction k as [|k IH]; intros i l H; cbn [read_first]; auto. destruct l as [|d l'] eqn:El; [simpl in H; lia|]. rewrite <- El in *. clear El l'.
    rewrite (rd_nth l d) by lia. cbn [bind]. rewrite IH by lia. cbn [bind].
    assert (E : skipn i l = nth i l d :: skipn (S i) l).
    { assert (Hi : (i < length l)%nat) by lia. clear IH H. revert i Hi. induction l; intros [|i] Hi; simpl in *; try lia; auto. apply IHl. lia. }
    rewrite E. reflexivity.
  Qed.
  Lemma read_first_short : forall T k i (l : list T), (length l < i + k)%nat -> (i <= length l)%nat -> read_first k i l = UB.
  Proof.
    intros T k. induction k as [|k IH]; intros i l H Hi; cbn [read_first]; [lia|]. destruct (Nat.eq_dec i (length l)) as [->|N]; [rewrite rd_out by auto; auto|].
    destruct l as [|d l'] eqn:El; [simpl in *; lia|]. rewrite <- El in *. clear El l'. rewrite (rd_nth l d) by lia. cbn [bind]. rewrite IH by lia. auto.
  Qed.

  (** ** Lanczos *)
  Section Lan.
    Variable fsqrt : K -> option K.
    Hypothesis Hsq : sqrt_ok fsqrt.
    Variable debug : bool.
    Variable dstev : list K -> list K -> outcome (list K * list K).
    Hypothesis Hdstev : dstev_ok dstev.
    Variable tol2 : K.
    Hypothesis Ht : 0 <= tol2.
    Variable n : nat.
    Variable S0 : vec -> Prop.
    Hypothesis HS0 : subspace n S0.
    Variable op : vec -> vec.
    Hypothesis Hop : symmetric_on S0 op.
    Variable rand : nat -> nat -> K.
    Hypothesis Hrand : forall v seed, S0 v -> S0 (set_initial_guess rand v seed).
    Variable std_sort : (nat -> nat -> bool) -> list nat -> list nat.
    Hypothesis Hsort : std_sort_contract std_sort.

    Lemma found_nil : forall tol, found n S0 op tol [] [].
    Proof.
      intros tol. assert (O : orthonormal n ([] : list vec)). { split; [constructor|]. intros i j Hi. simpl in Hi. lia. }
      constructor; simpl; auto; try tauto.
    Qed.
    Lemma solve_acc : forall (is_deflated : bool) (n_eig per ncyc maxit : nat) (tol : K) (percent : nat) (guess : vec) (r : list (K * vec)),
      (1 <= maxit)%nat -> (n <= maxit)%nat -> S0 guess ->
      let m := if is_deflated then per else n_eig in let c := if is_deflated then ncyc else 1%nat in (1 <= m)%nat -> (n_eig <= c * m)%nat ->
      solve fsqrt debug dstev tol2 rand std_sort op is_deflated n_eig per ncyc maxit tol percent guess = Ok r ->
      length r = n_eig /\ forall p, In p r -> S0 (snd p) /\ let v := vsub (op (snd p)) (vscale (fst p) (snd p)) in dot v v <= tol * tol * (1 + fnat ((c - 1) * m)).
    Proof.
      intros is_deflated n_eig per ncyc maxit tol percent guess r Hm Hnm Sg m c H1 Hcut E. unfold solve in E. fold m c in E.
      destruct (assert_dbg debug _); cbn [bind] in E; try discriminate. destruct (assert_dbg debug _); cbn [bind] in E; try discriminate.
      destruct (cycles fsqrt debug dstev tol2 rand c 0 op m maxit tol percent [] guess) as [ps| | | |] eqn:Ec; cbn [bind] in E; try discriminate.
      destruct (@cycles_acc K fsqrt Hsq debug dstev Hdstev tol2 Ht n S0 HS0 op Hop rand Hrand m maxit percent tol H1 Hm Hnm c 0 [] [] guess ps (found_nil tol) Sg Ec) as (Lp & Hp).
      simpl length in Hp. rewrite Nat.add_0_l in Hp.
      set (q := resize ps n_eig (0, [])) in *. assert (Lq : length q = n_eig) by apply resize_length.
      assert (Iq : forall p, In p q -> In p ps). { intros p. unfold q. rewrite resize_cut by lia. intros H. rewrite <- (firstn_skipn n_eig ps). apply in_or_app. auto. }
      destruct (Nat.ltb_spec 1 c) as [C|C]; injection E as <-.
      - destruct (@sort_pairs K std_sort q (0, []) n_eig Hsort Lq) as [P _]. split; [rewrite (Permutation_length P); auto|]. intros p H. apply Hp. apply Iq. eapply Permutation_in; eauto.
      - split; auto.
    Qed.
  End Lan.

  (** ** The branches of compute_local_eigenvectors *)
  Lemma std_copy_spec : forall T (src dst r : list T), std_copy src dst = Ok r -> length r = length dst /\ (length src <= length dst)%nat /\ firstn (length src) r = src.
  Proof.
    intros T src dst r E. unfold std_copy in E. destruct (Nat.leb_spec (length src) (length dst)); [|discriminate]. injection E as <-. rewrite app_length, skipn_length. split; [lia|]. split; auto.
    rewrite firstn_app, firstn_all, Nat.sub_diag. simpl. apply app_nil_r.
  Qed.
  Section Wrap.
    Variable fsqrt : K -> option K.
    Variable dstev : list K -> list K -> outcome (list K * list K).
    Variable tol2 : K.
    Variable rand : nat -> nat -> K.
    Variable std_sort : (nat -> nat -> bool) -> list nat -> list nat.
    Hypothesis Hsort : std_sort_contract std_sort.

    Lemma solve_length : forall debug op is_deflated n_eig per ncyc maxit (tol : K) percent guess r,
      solve fsqrt debug dstev tol2 rand std_sort op is_deflated n_eig per ncyc maxit tol percent guess = Ok r -> length r = n_eig.
    Proof.
      intros debug op is_deflated n_eig per ncyc maxit tol percent guess r E. unfold solve in E.
      destruct (assert_dbg debug _); cbn [bind] in E; try discriminate. destruct (assert_dbg debug _); cbn [bind] in E; try discriminate.
      destruct (cycles _ _ _ _ _ _ _ _ _ _ _ _ _ _) as [ps| | | |]; cbn [bind] in E; try discriminate.
      assert (Lq : length (resize ps n_eig (0, [])) = n_eig) by apply resize_length.
      destruct (1 <? _)%nat; injection E as <-; auto.
      destruct (@sort_pairs K std_sort (resize ps n_eig (0, [])) (0, []) n_eig Hsort Lq) as [P _]. rewrite (Permutation_length P). auto.
    Qed.
    Lemma lanczos_wrapper_inv : forall debug op n_eig tolerance params guess evals0 evals evecs, length evals0 = n_eig ->
      lanczos_wrapper fsqrt dstev tol2 rand std_sort debug op n_eig tolerance params guess evals0 = Ok (evals, evecs) ->
      let is_deflated := pt_get parse_bool ["is_deflated"%string] false params in
      exists c m r, (if is_deflated then exists cz mz, pt_require parse_int ["num_cycles"%string] params = Ok cz /\ pt_require parse_int ["num_eigenpairs_per_cycle"%string] params = Ok mz /\ c = Z.to_nat cz /\ m = Z.to_nat mz
                     else c = 1%nat /\ m = n_eig) /\
        solve fsqrt debug dstev tol2 rand std_sort op is_deflated n_eig m c (Z.to_nat (pt_get parse_int ["max_iterations"%string] 200%Z params)) (fmax tolerance lanczos_min_tolerance)
          (Z.to_nat (pt_get parse_int ["percent_overshoot"%string] 5%Z params)) guess = Ok r /\ evals = map fst r /\ evecs = map snd r /\ length r = n_eig.
    Proof.
      intros debug op n_eig tolerance params guess evals0 evals evecs L0 E is_deflated. unfold lanczos_wrapper in E. cbv zeta in E. fold is_deflated in E.
      destruct (if is_deflated then _ else _) as [[c m]| | | |] eqn:Ecm in E; cbn [bind fst snd] in E; try discriminate.
      destruct (solve _ _ _ _ _ _ _ _ _ _ _ _ _ _ _) as [r| | | |] eqn:Es in E; cbn [bind] in E; try discriminate.
      assert (Lr := solve_length _ _ _ _ _ _ _ _ _ _ Es).
      destruct (assert_dbg debug _); cbn [bind] in E; try discriminate. destruct (std_copy (map fst r) evals0) as [e1| | | |] eqn:Ec; cbn [bind] in E; try discriminate. injection E as <- <-.
      apply std_copy_spec in Ec. destruct Ec as (A1 & A2 & A3). rewrite map_length in A2, A3. exists c, m, r. split.
      - destruct is_deflated.
        + destruct (pt_require parse_int ["num_cycles"%string] params) as [cz| | | |]; cbn [bind] in Ecm; try discriminate.
          destruct (pt_require parse_int ["num_eigenpairs_per_cycle"%string] params) as [mz| | | |]; cbn [bind] in Ecm; try discriminate. injection Ecm as <- <-. eauto 8.
        + injection Ecm as <- <-. auto.
      - split; [exact Es|]. split; [|split; auto]. rewrite <- A3. symmetry. apply firstn_all2. lia.
    Qed.
  End Wrap.
End P.
