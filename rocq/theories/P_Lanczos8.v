(** Lanczos::solve: number, order and orthogonality of the pairs. *)
From Coq Require Import List Arith Lia Bool Field Sorted Permutation.
From Verif Require Import Base OField Mat LinAlg M_Perm S_Perm M_Lanczos S_Lanczos P_Span P_Deflate P_Lanczos P_Lanczos2 P_Lanczos3 P_Lanczos4 P_Lanczos5 P_Lanczos6 P_Lanczos7.
Import ListNotations.
Set Implicit Arguments.
Open Scope nat_scope.

Lemma map_nth_seq : forall T (l : list T) d, map (fun i => nth i l d) (seq 0 (length l)) = l.
Proof.
  intros T l d. induction l as [|a l IH]; simpl; auto. f_equal. rewrite <- seq_shift, map_map. exact IH.
Qed.
Lemma resize_length : forall T (l : list T) n d, length (resize l n d) = n.
Proof. intros. unfold resize. rewrite app_length, firstn_length, repeat_length. lia. Qed.
Lemma resize_cut : forall T (l : list T) n d, n <= length l -> resize l n d = firstn n l.
Proof. intros. unfold resize. replace (n - length l) with 0 by lia. simpl. apply app_nil_r. Qed.

Section P.
  Variable K : ofield.
  Add Field KfLan8 : (f_field K).
  Local Open Scope K_scope.
  Notation vec := (vec K).

  Lemma lt_swo : forall (f : nat -> K), strict_weak_order (fun i j => f i <? f j).
  Proof.
    intros f. split; [|split].
    - intros x. apply fltb_ge. apply fle_refl.
    - intros x y z H1 H2. apply fltb_lt in H1, H2. apply fltb_lt. eapply flt_trans; eauto.
    - intros x y z H1 H2 H3 H4. apply fltb_ge in H1, H2, H3, H4. split; apply fltb_ge; eapply fle_trans; eauto.
  Qed.
  Lemma sorted_nth_le : forall (R : nat -> nat -> Prop) l i j, StronglySorted R l -> (i < j < length l)%nat -> R (nth i l 0%nat) (nth j l 0%nat).
  Proof.
    intros R l i j H. revert i j. induction H as [|a l H IH F]; intros i j Hij; simpl in *; [lia|].
    destruct j as [|j]; [lia|]. destruct i as [|i]; simpl.
    - rewrite Forall_forall in F. apply F. apply nth_In. lia.
    - apply IH. lia.
  Qed.
  (** Sorting the pairs through a sorted index vector. *)
  Lemma sort_pairs : forall std_sort (ps : list (K * vec)) d n, std_sort_contract std_sort -> length ps = n ->
    let r := map (fun i => nth i ps d) (std_sort (fun i j => fst (nth i ps d) <? fst (nth j ps d)) (seq 0 n)) in
    Permutation r ps /\ ascending (map fst r).
  Proof.
    intros std_sort ps d n C L. destruct (C _ (seq 0 n) (lt_swo (fun i => fst (nth i ps d)))) as [P S]. set (p := std_sort _ _) in *. cbv zeta.
    split.
    - eapply Permutation_trans; [apply Permutation_map; apply Permutation_sym; exact P|]. rewrite <- L. rewrite (map_nth_seq ps d). apply Permutation_refl.
    - intros i j Hij Hj. rewrite map_map, map_length in Hj. rewrite map_map. rewrite !(nth_map_in (fun i => fst (nth i ps d)) p 0%nat 0) by lia.
      destruct (Nat.eq_dec i j) as [->|N]; [apply fle_refl|]. apply fltb_ge. apply (@sorted_nth_le _ p i j S). lia.
  Qed.

  Lemma orthonormal_perm : forall n (us vs : list vec), Permutation us vs -> orthonormal n us -> orthonormal n vs.
  Proof.
    assert (G : forall n (us : list vec), orthonormal n us <-> sized_all n us /\ (forall u, In u us -> dot u u = 1) /\ (NoDup us /\ forall u v, In u us -> In v us -> u <> v -> dot u v = 0)).
    { intros n us. split.
      - intros [S O]. split; auto. split.
        + intros u Hu. destruct (In_nth _ _ [] Hu) as (i & Hi & <-). rewrite O by auto. rewrite Nat.eqb_refl. auto.
        + assert (D : forall i j, (i < length us)%nat -> (j < length us)%nat -> nth i us [] = nth j us [] -> i = j).
          { intros i j Hi Hj E. assert (Q := O i j Hi Hj). rewrite E in Q. rewrite O, Nat.eqb_refl in Q by auto. destruct (Nat.eqb_spec i j); auto. destruct (f1_neq_0 _ Q). }
          split.
          * apply (NoDup_nth us []). exact D.
          * intros u v Hu Hv N. destruct (In_nth _ _ [] Hu) as (i & Hi & <-). destruct (In_nth _ _ [] Hv) as (j & Hj & <-). rewrite O by auto.
            destruct (Nat.eqb_spec i j); auto. subst. congruence.
      - intros (S & U & ND & O). split; auto. intros i j Hi Hj. destruct (Nat.eqb_spec i j) as [->|N].
        + apply U. apply nth_In. auto.
        + apply O; try (apply nth_In; auto). intros E. apply N. rewrite (NoDup_nth us []) in ND. apply ND; auto. }
    intros n us vs P H. apply G in H. destruct H as (S & U & ND & O). apply G. repeat split.
    - unfold sized_all in *. rewrite Forall_forall in *. intros x Hx. apply S. eapply Permutation_in; [apply Permutation_sym|]; eauto.
    - intros u Hu. apply U. eapply Permutation_in; [apply Permutation_sym|]; eauto.
    - eapply Permutation_NoDup; eauto.
    - intros u v Hu Hv. apply O; eapply Permutation_in; try (apply Permutation_sym); eauto.
  Qed.
  Lemma orthonormal_firstn : forall n m (us : list vec), orthonormal n us -> orthonormal n (firstn m us).
  Proof.
    intros n m us [S O]. split.
    - apply Forall_forall. intros v Hv. unfold sized_all in S. rewrite Forall_forall in S. apply S. rewrite <- (firstn_skipn m us). apply in_or_app. auto.
    - intros i j Hi Hj. rewrite firstn_length in Hi, Hj.
      assert (A : forall i, (i < Nat.min m (length us))%nat -> nth i (firstn m us) [] = nth i us []).
      { intros l Hl. rewrite <- (firstn_skipn m us) at 2. symmetry. apply app_nth1. rewrite firstn_length. lia. }
      rewrite !A by lia. apply O; lia.
  Qed.

  Variable fsqrt : K -> option K.
  Hypothesis Hsq : sqrt_ok fsqrt.
  Variable debug : bool.
  Variable dstev : list K -> list K -> outcome (list K * list K).
  Hypothesis Hdstev : dstev_ok dstev.
  Variable tol2 : K.
  Hypothesis Ht : 0 <= tol2.
  Variable n : nat.
  Variable rand : nat -> nat -> K.
  Variable std_sort : (nat -> nat -> bool) -> list nat -> list nat.
  Hypothesis Hsort : std_sort_contract std_sort.
  Variable op : vec -> vec.
  Hypothesis Hlen : forall x, length x = n -> length (op x) = n.
  Hypothesis Hsym : forall x y, length x = n -> length y = n -> dot (op x) y = dot x (op y).

  Lemma one_cycle_sorted : forall num maxit percent tol guess ps, (1 <= num)%nat -> (1 <= maxit)%nat -> length guess = n ->
    cycles fsqrt debug dstev tol2 rand 1 0 op num maxit tol percent [] guess = Ok ps -> ascending (map fst ps).
  Proof.
    intros num maxit percent tol guess ps Hn Hm Lg E. cbn [cycles Nat.ltb Nat.leb Nat.eqb] in E. simpl deflate in E.
    destruct (solve_lanczos fsqrt debug dstev tol2 (deflated_vmult op []) num maxit tol percent guess) as [[evals ys]| | | |] eqn:Es; cbn [bind fst snd] in E; try discriminate.
    destruct (push_pairs num 0 evals ys) as [ps1| | | |] eqn:Ep; cbn [bind] in E; try discriminate. injection E as <-. rewrite app_nil_r.
    assert (O : orthonormal n ([] : list vec)). { split; [constructor|]. intros i j Hi. simpl in Hi. lia. }
    assert (Cg : complement n [] guess) by (split; auto; intros v []).
    destruct (@solve_lanczos_result K fsqrt Hsq debug dstev Hdstev tol2 Ht n (complement n []) (deflated_vmult op []) (complement_sub n []) (@complement_sym K n op [] Hlen Hsym O) num maxit percent tol Hm Hn guess evals ys Cg Es)
      as (Le & Ly & _ & _ & _ & Gap & _).
    destruct (map_snd_pairs _ _ Ep Ly Le) as [_ M2]. rewrite M2. intros i j Hij Hj. destruct (Nat.eq_dec i j) as [->|N]; [apply fle_refl|].
    apply fle_trans with (nth i evals 0 + tol2).
    - apply fle_sub_0. replace (nth i evals 0 + tol2 - nth i evals 0) with tol2 by ring. auto.
    - apply flt_le. apply Gap; lia.
  Qed.

  Lemma solve_spec : forall (is_deflated : bool) (n_eig per ncyc maxit : nat) (tol : K) (percent : nat) (guess : vec) (r : list (K * vec)), (1 <= maxit)%nat -> length guess = n ->
    let m := if is_deflated then per else n_eig in let c := if is_deflated then ncyc else 1%nat in (1 <= m)%nat -> (1 <= c)%nat ->
    solve fsqrt debug dstev tol2 rand std_sort op is_deflated n_eig per ncyc maxit tol percent guess = Ok r ->
    length r = n_eig /\ exists ps, cycles fsqrt debug dstev tol2 rand c 0 op m maxit tol percent [] guess = Ok ps /\ length ps = (c * m)%nat /\
      orthonormal n (map snd ps) /\ Permutation r (resize ps n_eig (0, [])) /\ ((1 < c)%nat -> ascending (map fst r)) /\
      ((n_eig <= c * m)%nat -> ascending (map fst r) /\ orthonormal n (map snd r)).
  Proof.
    intros is_deflated n_eig per ncyc maxit tol percent guess r Hm Lg m c H1 H2 E. unfold solve in E. fold m c in E.
    destruct (assert_dbg debug _); cbn [bind] in E; try discriminate. destruct (assert_dbg debug _); cbn [bind] in E; try discriminate.
    destruct (cycles fsqrt debug dstev tol2 rand c 0 op m maxit tol percent [] guess) as [ps| | | |] eqn:Ec; cbn [bind] in E; try discriminate.
    assert (O : orthonormal n ([] : list vec)). { split; [constructor|]. intros i j Hi. simpl in Hi. lia. }
    destruct (@cycles_spec K fsqrt Hsq debug dstev Hdstev tol2 Ht n rand op Hlen Hsym m maxit percent tol H1 Hm c 0%nat [] guess ps O Lg Ec) as (Lp & Op & _).
    set (q := resize ps n_eig (0, [])) in *. assert (Lq : length q = n_eig) by apply resize_length.
    assert (X : Permutation r q /\ ((1 < c)%nat -> ascending (map fst r)) /\ ((c <= 1)%nat -> r = q)).
    { destruct (Nat.ltb_spec 1 c) as [C|C]; injection E as <-.
      - destruct (@sort_pairs std_sort q (0, []) n_eig Hsort Lq) as [P S]. split; [exact P|]. split; [intros _; exact S|intros; lia].
      - split; [apply Permutation_refl|]. split; [intros; lia|auto]. }
    destruct X as (P & S & Eq). split; [rewrite (Permutation_length P); auto|]. exists ps. split; [auto|]. split; [auto|]. split; [auto|]. split; [auto|]. split; [auto|]. intros Hcut. split.
    - destruct (le_lt_dec c 1) as [C|C]; auto. rewrite (Eq C). unfold q. rewrite resize_cut by lia. assert (c = 1%nat) as Ec1 by lia. rewrite Ec1 in Ec.
      assert (A := one_cycle_sorted percent tol guess H1 Hm Lg Ec). intros i j Hij Hj. rewrite map_length, firstn_length in Hj.
      assert (N : forall l, (l < Nat.min n_eig (length ps))%nat -> nth l (map fst (firstn n_eig ps)) 0 = nth l (map fst ps) 0).
      { intros l Hl. rewrite <- firstn_map. rewrite <- (firstn_skipn n_eig (map fst ps)) at 2. symmetry. apply app_nth1. rewrite firstn_length, map_length. lia. }
      rewrite !N by lia. apply A; auto. rewrite map_length. lia.
    - apply (@orthonormal_perm n (map snd q) (map snd r)). { apply Permutation_map. apply Permutation_sym. auto. }
      unfold q. rewrite resize_cut by lia. rewrite <- firstn_map. apply orthonormal_firstn. auto.
  Qed.
End P.
