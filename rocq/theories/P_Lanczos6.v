(** What one call of details_solve_lanczos returns. *)
From Coq Require Import List Arith Lia Bool Field Sorted.
From Verif Require Import Base OField Mat LinAlg M_Perm M_Lanczos S_Lanczos P_Span P_Deflate P_Lanczos P_Lanczos2 P_Lanczos3 P_Lanczos4 P_Lanczos5.
Import ListNotations.
Set Implicit Arguments.
Open Scope nat_scope.

Section P.
  Variable K : ofield.
  Add Field KfLan6 : (f_field K).
  Local Open Scope K_scope.
  Notation vec := (vec K).
  Notation V vs j := (nth j vs ([] : vec)).
  Variable fsqrt : K -> option K.
  Hypothesis Hsq : sqrt_ok fsqrt.
  Variable debug : bool.
  Variable dstev : list K -> list K -> outcome (list K * list K).
  Hypothesis Hdstev : dstev_ok dstev.
  Variable tol2 : K.
  Hypothesis Ht : 0 <= tol2.

  Lemma eigen_chunks : forall M (e v : list K), eigen_system M e v -> forall l, (forall i, In i l -> (i < nr M)%nat) ->
    Forall (fun c : vec => length c = nr M /\ dot c c = 1) (map (fun i => chunk (nr M) i v) l).
  Proof.
    intros M e v (L1 & L2 & _ & (S1 & S2) & _) l Hl. apply Forall_forall. intros c Hc. apply in_map_iff in Hc. destruct Hc as (i & <- & Hi). apply Hl in Hi.
    split; [eapply chunk_length; eauto|]. assert (A := S2 i i). rewrite map_length, seq_length in A. specialize (A Hi Hi). rewrite Nat.eqb_refl in A.
    rewrite (nth_map_in (fun i => chunk (nr M) i v) (seq 0 (nr M)) 0%nat []) in A by (rewrite seq_length; auto). rewrite seq_nth in A by auto. exact A.
  Qed.

  (** The eigenpairs of the tridiagonal matrix after the filter. *)
  Definition pairs_kept (main sub : list K) (num : nat) (e0 v0 e2 : list K) (kept : list nat) : Prop :=
    let n := length main in
    let compared := (1 <=? n - 1)%nat && (num <=? n - 1)%nat in
    StronglySorted lt kept /\ (forall i, In i kept <-> (i < n)%nat /\ ~ removed tol2 compared e0 e2 i).

  Lemma epairs_spec : forall main sub num ep, (1 <= length main)%nat -> length sub = (length main - 1)%nat ->
    calc_tridiag_epairs fsqrt debug dstev tol2 main sub num = Ok ep -> (num <= length main)%nat ->
    exists e0 v0 e2 kept, dstev main sub = Ok (e0, v0) /\
      ((1 <=? length main - 1)%nat && (num <=? length main - 1)%nat = true -> exists v2, dstev (tl main) (tl sub) = Ok (e2, v2)) /\
      pairs_kept main sub num e0 v0 e2 kept /\
      if (length kept <? num)%nat then ep = ([], [])
      else ep = (map (fun i => nth i e0 0) (firstn num kept), concat (map (fun i => chunk (length main) i v0) (firstn num kept))).
  Proof.
    intros main sub num ep Hn Ls E Hnum. unfold calc_tridiag_epairs in E. destruct (assert_dbg debug _); cbn [bind] in E; try discriminate.
    destruct (assert_dbg debug _); cbn [bind] in E; try discriminate. replace (length main <? num)%nat with false in E by (symmetry; apply Nat.ltb_ge; lia).
    destruct (dstev main sub) as [ev| | | |] eqn:Ed; cbn [bind] in E; try discriminate. destruct ev as [e0 v0]. cbn [fst snd] in E.
    assert (ES : eigen_system (tridiag main sub) e0 v0) by (apply Hdstev; auto; lia).
    assert (ES' := ES). destruct ES as (L1 & L2 & A & _). simpl nr in *.
    unfold find_spurious in E. set (compared := (1 <=? length main - 1)%nat && (num <=? length main - 1)%nat) in *.
    assert (X : exists e2, (compared = true -> exists v2, dstev (tl main) (tl sub) = Ok (e2, v2)) /\ ascending e2 /\
      (let kept := purge (length main) (length main) (fun i => nth i (if compared then spurious_from tol2 (length main) e0 e2 0 0 else repeat false (length main)) false || negb (is_marked tol2 e0 i)) e0 v0 in
      if (length (fst kept) <? num)%nat then Ok ([], []) else let! evecs := save_normalised fsqrt num (length main) 0 (snd kept) in Ok (firstn num (fst kept), evecs)) = Ok ep).
    { destruct compared eqn:C.
      - destruct (dstev (tl main) (tl sub)) as [[e2 v2]| | | |] eqn:Ed2; cbn [bind] in E; try discriminate. exists e2. split; [eauto|]. split; [|exact E].
        unfold compared in C. apply andb_true_iff in C. destruct C as [C _]. apply Nat.leb_le in C.
        assert (T1 : length (tl main) = (length main - 1)%nat) by (destruct main; simpl; lia). assert (T2 : length (tl sub) = (length sub - 1)%nat) by (destruct sub; simpl; lia).
        destruct (@Hdstev (tl main) (tl sub) e2 v2) as (_ & _ & A2 & _); auto. lia.
      - exists []. split; [discriminate|]. split; [intros i j _ H; simpl in H; lia|]. exact E. }
    clear E. destruct X as (e2 & Ed2 & A2 & E). cbv zeta in E.
    set (bad := fun i : nat => nth i (if compared then spurious_from tol2 (length main) e0 e2 0 0 else repeat false (length main)) false || negb (is_marked tol2 e0 i)) in *.
    rewrite (@purge_spec K (length main) bad e0 v0 L1 L2) in E. cbn [fst snd] in E.
    set (kept := filter (fun i => negb (bad i)) (seq 0 (length main))) in *.
    assert (Hk : forall i, In i kept <-> (i < length main)%nat /\ ~ removed tol2 compared e0 e2 i).
    { intros i. unfold kept. rewrite filter_In, in_seq. split.
      - intros [Hi B]. assert (Hi' : (i < length main)%nat) by lia. split; auto. intros R. assert (Hi2 : (i < length e0)%nat) by lia. assert (Q := @bad_spec K tol2 Ht e0 e2 A A2 compared i Hi2). rewrite L1 in Q. apply Q in R.
        fold (bad i) in R. rewrite R in B. discriminate.
      - intros [Hi B]. split; [lia|]. destruct (bad i) eqn:G; auto. exfalso. apply B. assert (Hi2 : (i < length e0)%nat) by lia. assert (Q := @bad_spec K tol2 Ht e0 e2 A A2 compared i Hi2). rewrite L1 in Q. apply Q. exact G. }
    exists e0, v0, e2, kept. split; auto. split; auto. split; [split; [apply filter_seq_sorted|exact Hk]|].
    rewrite map_length in E. revert E. destruct (Nat.ltb_spec (length kept) num) as [C|C]; intros E; [injection E as E; symmetry; exact E|].
    assert (F : Forall (fun c : vec => length c = length main /\ dot c c = 1) (map (fun i => chunk (length main) i v0) kept)).
    { apply (eigen_chunks ES'). intros i Hi. apply Hk in Hi. simpl. tauto. }
    rewrite (save_spec Hsq F) in E by (rewrite map_length; lia). rewrite skipn_O in E.
    destruct (Nat.eqb_spec num 0) as [->|].
    - cbn [bind] in E. simpl in *. congruence.
    - destruct (fsqrt 1); cbn [bind] in E; [|discriminate]. injection E as <-. rewrite !firstn_map. auto.
  Qed.

  (** An eigenpair list of length num for the matrix. *)
  Record kept_pairs (main sub : list K) (num : nat) (evals evecs : list K) : Prop := {
    kp_num : (num <= length main)%nat;
    kp_le : length evals = num;
    kp_lv : length evecs = (length main * num)%nat;
    kp_orth : orthonormal (length main) (map (fun i => chunk (length main) i evecs) (seq 0 num));
    kp_eig : forall i, (i < num)%nat -> mulvec (tridiag main sub) (chunk (length main) i evecs) = vscale (nth i evals 0) (chunk (length main) i evecs);
    kp_gap : forall i j, (i < j)%nat -> (j < num)%nat -> nth i evals 0 + tol2 < nth j evals 0
  }.

  Lemma epairs_pairs : forall main sub num ep, (1 <= length main)%nat -> length sub = (length main - 1)%nat ->
    calc_tridiag_epairs fsqrt debug dstev tol2 main sub num = Ok ep -> ep = ([], []) \/ kept_pairs main sub num (fst ep) (snd ep).
  Proof.
    intros main sub num ep Hn Ls E. destruct (le_lt_dec num (length main)) as [Hnum|Hnum].
    2:{ left. unfold calc_tridiag_epairs in E. destruct (assert_dbg debug _); cbn [bind] in E; try discriminate.
        destruct (assert_dbg debug _); cbn [bind] in E; try discriminate. replace (length main <? num)%nat with true in E by (symmetry; apply Nat.ltb_lt; lia). congruence. }
    destruct (epairs_spec main sub Hn Ls E Hnum) as (e0 & v0 & e2 & kept & Ed & _ & (Hs & Hk) & R).
    destruct (Nat.ltb_spec (length kept) num) as [C|C]; [left; auto|right]. subst ep. cbn [fst snd].
    assert (ES : eigen_system (tridiag main sub) e0 v0) by (apply Hdstev; auto; lia).
    set (ks := firstn num kept) in *. assert (Lk : length ks = num) by (unfold ks; rewrite firstn_length; lia).
    assert (Hin : forall i, In i ks -> (i < length main)%nat). { intros i Hi. apply Hk. rewrite <- (firstn_skipn num kept). apply in_or_app. auto. }
    assert (F := eigen_chunks ES ks Hin). simpl nr in F.
    assert (F' : Forall (fun c : vec => length c = length main) (map (fun i => chunk (length main) i v0) ks)) by (eapply Forall_impl; [|exact F]; simpl; tauto).
    assert (G : forall i, (i < num)%nat -> chunk (length main) i (concat (map (fun i => chunk (length main) i v0) ks)) = chunk (length main) (nth i ks 0%nat) v0).
    { intros i Hi. assert (Q := @chunk_concat K (length main) (map (fun i => chunk (length main) i v0) ks) i F'). unfold OField.vec in *. rewrite Q by (rewrite map_length; lia).
      apply (nth_map_in (fun i => chunk (length main) i v0)). lia. }
    assert (Sk : StronglySorted lt ks) by (apply sorted_firstn; auto).
    destruct ES as (L1 & L2 & A & (S1 & S2) & EV). simpl nr in *.
    assert (S2' : forall i j, (i < length main)%nat -> (j < length main)%nat -> dot (chunk (length main) i v0) (chunk (length main) j v0) = if (i =? j)%nat then 1 else 0).
    { intros i j Hi Hj. assert (Q := S2 i j). rewrite map_length, seq_length in Q. specialize (Q Hi Hj).
      rewrite !(nth_map_in (fun i => chunk (length main) i v0) (seq 0 (length main)) 0%nat []) in Q by (rewrite seq_length; auto). rewrite !seq_nth in Q by auto. exact Q. }
    assert (Hnth : forall i, (i < num)%nat -> (nth i ks 0 < length main)%nat) by (intros; apply Hin; apply nth_In; lia).
    constructor.
    - auto.
    - rewrite map_length. auto.
    - assert (Q := concat_len F'). unfold OField.vec in *. rewrite Q, map_length. lia.
    - assert (Ex : map (fun i => chunk (length main) i (concat (map (fun i0 => chunk (length main) i0 v0) ks))) (seq 0 num) = map (fun i => chunk (length main) (nth i ks 0%nat) v0) (seq 0 num)).
      { apply map_ext_in. intros i Hi. apply in_seq in Hi. apply G. lia. }
      rewrite Ex. split.
      + apply Forall_forall. intros c Hc. apply in_map_iff in Hc. destruct Hc as (i & <- & Hi). apply in_seq in Hi. eapply chunk_length; [exact L2|]. apply Hnth. lia.
      + intros i j Hi Hj. rewrite map_length, seq_length in Hi, Hj.
        rewrite !(nth_map_in (fun i => chunk (length main) (nth i ks 0%nat) v0) (seq 0 num) 0%nat []) by (rewrite seq_length; auto). rewrite !seq_nth by auto. simpl plus.
        rewrite S2' by auto. destruct (Nat.eqb_spec i j) as [->|N]; [rewrite Nat.eqb_refl; auto|].
        destruct (Nat.eqb_spec (nth i ks 0%nat) (nth j ks 0%nat)) as [Q|]; auto. exfalso.
        destruct (lt_eq_lt_dec i j) as [[O|O]|O]; [|lia|]; [assert (W := @sorted_nth_lt ks i j Sk)|assert (W := @sorted_nth_lt ks j i Sk)]; lia.
    - intros i Hi. rewrite G by auto. rewrite (nth_map_in (fun i => nth i e0 0) ks 0%nat 0) by lia. apply EV. auto.
    - intros i j Hij Hj. rewrite !(nth_map_in (fun i => nth i e0 0) ks 0%nat 0) by lia.
      assert (W := @sorted_nth_lt ks i j Sk ltac:(lia)). assert (Ik : In (nth j ks 0%nat) kept).
      { rewrite <- (firstn_skipn num kept). apply in_or_app. left. apply nth_In. fold ks. lia. }
      apply Hk in Ik. destruct Ik as [_ Ik]. destruct (nth (nth i ks 0%nat) e0 0 + tol2 <? nth (nth j ks 0%nat) e0 0) eqn:C1; [apply fltb_lt; auto|].
      exfalso. apply Ik. right. exists (nth i ks 0%nat). split; auto. apply (@close_lower K tol2 Ht e0 A _ _ W); [rewrite L1; apply Hnth; lia|]. apply fltb_ge. auto.
  Qed.

  (** ** Convergence check *)
  Lemma check_bounds_spec : forall k (beta : K) m i (tol : K) (evecs : list K) b r, check_bounds k beta m i tol evecs b = Ok r ->
    (forall l, (i <= l < i + k)%nat -> (m - 1 + m * l < length evecs)%nat) /\
    (r = true <-> b = true /\ forall l, (i <= l < i + k)%nat -> beta * fabs (nth (m - 1 + m * l) evecs 0) <= tol).
  Proof.
    induction k as [|k IH]; intros beta m i tol evecs b r E; simpl in E.
    - injection E as <-. split; [intros; lia|]. split; [intros ->; split; auto; intros; lia|tauto].
    - destruct (rd evecs (m - 1 + m * i)) as [x| | | |] eqn:R; cbn [bind] in E; try discriminate.
      apply IH in E. destruct E as [E1 E2].
      assert (B : (m - 1 + m * i < length evecs)%nat). { unfold rd in R. destruct (nth_error evecs _) eqn:Q in R; [|discriminate]. eapply nth_error_lt; eauto. }
      assert (X : x = nth (m - 1 + m * i) evecs 0). { rewrite (rd_nth evecs 0 B) in R. congruence. }
      split.
      + intros l Hl. destruct (Nat.eq_dec l i) as [->|]; auto. apply E1. lia.
      + rewrite E2. rewrite andb_true_iff, fleb_le. rewrite X. split.
        * intros [[H1 H2] H3]. split; auto. intros l Hl. destruct (Nat.eq_dec l i) as [->|]; auto. apply H3. lia.
        * intros [H1 H2]. split; [split; auto; apply H2; lia|]. intros l Hl. apply H2. lia.
  Qed.

  (** ** The combination of the Lanczos vectors *)
  Lemma sum_evec_spec : forall k m i j dim (vs : list vec) evecs y r, sized_all dim vs -> length y = dim -> sum_evec k m i j vs evecs y = Ok r ->
    (forall l, (j <= l < j + k)%nat -> (l + m * i < length evecs)%nat /\ (l < length vs)%nat) /\ length r = dim /\
    forall c, (c < dim)%nat -> nth c r 0 = nth c y 0 + sumn k (fun l => nth (j + l + m * i) evecs 0 * nth c (V vs (j + l)) 0).
  Proof.
    induction k as [|k IH]; intros m i j dim vs evecs y r Sz Ly E; cbn [sum_evec] in E.
    - injection E as <-. split; [intros; lia|]. split; auto. intros c Hc. simpl. ring.
    - destruct (rd evecs (j + m * i)) as [x| | | |] eqn:R1; cbn [bind] in E; try discriminate.
      destruct (rd vs j) as [v| | | |] eqn:R2; cbn [bind] in E; try discriminate.
      assert (B1 : (j + m * i < length evecs)%nat). { unfold rd in R1. destruct (nth_error evecs _) eqn:Q in R1; [|discriminate]. eapply nth_error_lt; eauto. }
      assert (B2 : (j < length vs)%nat). { unfold rd in R2. destruct (nth_error vs _) eqn:Q in R2; [|discriminate]. eapply nth_error_lt; eauto. }
      assert (X1 : x = nth (j + m * i) evecs 0). { rewrite (rd_nth evecs 0 B1) in R1. congruence. }
      assert (X2 : v = V vs j). { rewrite (rd_nth vs [] B2) in R2. congruence. }
      assert (Lv : length v = dim) by (rewrite X2; apply sized_nth; auto).
      destruct (IH m i (S j) dim vs evecs (vaxpy x v y) r Sz) as (H1 & H2 & H3); auto.
      { unfold vaxpy. rewrite vadd_length, vscale_length. unfold OField.vec in *. lia. }
      split; [|split; auto].
      + intros l Hl. destruct (Nat.eq_dec l j) as [->|]; auto. apply H1. lia.
      + intros c Hc. rewrite H3 by auto. rewrite sumn_shift. unfold vaxpy. rewrite nth_vadd by (rewrite ?vscale_length; unfold OField.vec in *; lia).
        rewrite nth_vscale. rewrite X1, X2. rewrite Nat.add_0_r.
        rewrite (@sumn_ext K k (fun l => nth (S j + l + m * i) evecs 0 * nth c (V vs (S j + l)) 0) (fun l => nth (j + S l + m * i) evecs 0 * nth c (V vs (j + S l)) 0)).
        * ring.
        * intros l Hl. replace (S j + l)%nat with (j + S l)%nat by lia. auto.
  Qed.
  Lemma calc_evecs_from_spec : forall k m i dim (vs : list vec) evecs ys, sized_all dim vs -> (m <= length vs)%nat -> calc_evecs_from k m i dim vs evecs = Ok ys ->
    length ys = k /\ (forall l, (l < k)%nat -> ((1 <= m)%nat -> (m * (i + l + 1) <= length evecs)%nat) /\
    ((m * (i + l + 1) <= length evecs)%nat -> V ys l = comb dim (chunk m (i + l) evecs) (firstn m vs))).
  Proof.
    induction k as [|k IH]; intros m i dim vs evecs ys Sz Hm E; cbn [calc_evecs_from] in E.
    - injection E as <-. split; auto. intros; lia.
    - destruct (sum_evec m m i 0 vs evecs (vzero dim)) as [y| | | |] eqn:E1; cbn [bind] in E; try discriminate.
      destruct (calc_evecs_from k m (S i) dim vs evecs) as [r| | | |] eqn:E2; cbn [bind] in E; try discriminate. injection E as <-.
      destruct (IH m (S i) dim vs evecs r Sz Hm E2) as [L H]. split; [simpl; lia|].
      destruct (sum_evec_spec m m i 0 evecs (vzero dim) Sz (vzero_length K dim) E1) as (B & Ly & N).
      intros l Hl. destruct l as [|l].
      + rewrite Nat.add_0_r. split.
        * intros M1. destruct (B (m - 1)%nat) as [B1 _]; [lia|]. nia.
        * intros Le. simpl. assert (Sf : sized_all dim (firstn m vs)). { apply Forall_forall. intros v Hv. unfold sized_all in Sz. rewrite Forall_forall in Sz. apply Sz. rewrite <- (firstn_skipn m vs). apply in_or_app. auto. }
          assert (Lc : length (chunk m i evecs) = length (firstn m vs)). { rewrite firstn_length. unfold chunk. rewrite firstn_length, skipn_length. nia. }
          apply vec_ext; [rewrite comb_length; auto|]. intros c Hc. rewrite N by (unfold OField.vec in *; lia). rewrite nth_vzero.
          rewrite nth_comb by auto. rewrite (firstn_length m vs), (Nat.min_l m (length vs)) by auto. rewrite (Radd_0_l (F_R (f_field K))).
          apply sumn_ext. intros l Hl'. rewrite nth_chunk by auto. simpl plus. f_equal. f_equal.
          rewrite <- (firstn_skipn m vs) at 1. apply app_nth1. rewrite firstn_length. lia.
      + simpl. replace (i + S l)%nat with (S i + l)%nat by lia. replace (i + S l + 1)%nat with (S i + l + 1)%nat by lia. apply H. lia.
  Qed.
End P.
