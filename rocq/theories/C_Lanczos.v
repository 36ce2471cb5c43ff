(** Properties C29 to C32, C63 and C64: the Lanczos iteration. *)
From Coq Require Import List Arith Lia Bool Field QArith Qcanon Sorting.Sorted.
From Verif Require Import Base OField Mat LinAlg M_Lanczos S_Lanczos P_Span P_Deflate P_Lanczos P_Lanczos2 P_Lanczos3 P_Lanczos4 P_Lanczos5 P_Lanczos6 P_Lanczos7 E_Lanczos.
Import ListNotations.
Set Implicit Arguments.
Open Scope nat_scope.

(** ** C29: the schedule of the convergence checks, for every operator *)
Lemma schedule_tail : forall percent maxit l, 1 <= maxit -> schedule percent maxit l -> forall c, In c (tl l) -> 1 <= c < hd 0 l.
Proof.
  intros percent maxit l Hm H. induction H as [|c l H IH Hc]; simpl; [intros ? []|].
  assert (Q : c < next_check percent maxit c) by (unfold next_check; lia).
  intros x [<-|Hx].
  - split; auto. destruct (schedule_bounds Hm H) as [A B]. lia.
  - specialize (IH x Hx). simpl in IH. lia.
Qed.

Theorem C29_schedule : forall (K : ofield) fsqrt debug dstev (tol2 : K) op num maxit tol percent guess s, 1 <= maxit ->
  lanczos_run fsqrt debug dstev tol2 op num maxit tol percent guess = Ok s ->
  let k := Nat.min (s_it s) maxit in
  1 <= k /\ length (s_main s) = k /\ length (s_sub s) = k - 1 /\ length (s_vectors s) = S k /\
  schedule percent maxit (s_checks s) /\ hd 0 (s_checks s) = k /\
  calc_tridiag_epairs fsqrt debug dstev tol2 (s_main s) (s_sub s) num = Ok (s_evals s, s_evecs s) /\
  (s_it s <= maxit -> check_convergence (s_beta s) k num tol (s_evecs s) = Ok true) /\
  (maxit < s_it s -> check_convergence (s_beta s) k num tol (s_evecs s) = Ok false) /\
  forall c, In c (tl (s_checks s)) -> 1 <= c < k /\
    exists ep, calc_tridiag_epairs fsqrt debug dstev tol2 (firstn c (s_main s)) (firstn (c - 1) (s_sub s)) num = Ok ep /\
      check_convergence (nth (c - 1) (s_sub s) f0) c num tol (snd ep) = Ok false.
Proof.
  intros K fsqrt debug dstev tol2 op num maxit tol percent guess s Hm E k. destruct (@run_sizes K fsqrt debug dstev tol2 op num maxit tol percent guess s Hm E) as (k' & F).
  assert (Ek : k' = k) by apply (fi_it F). subst k'. destruct (fi_lin F) as (L1 & L2 & L3). assert (Hk := fi_k F). assert (C := fi_conv F).
  split; [lia|]. split; auto. split; auto. split; auto. split; [apply (fi_sched F)|]. split; [apply (fi_last F)|]. split; [apply (fi_pairs F)|].
  split. { intros Hc. apply Nat.leb_le in Hc. rewrite Hc in C. auto. }
  split. { intros Hc. apply Nat.leb_gt in Hc. rewrite Hc in C. auto. }
  intros c Hc. assert (B := schedule_tail Hm (fi_sched F) c Hc). rewrite (fi_last F) in B. split; auto.
  destruct (fi_failed F c Hc) as (ep & E1 & E2). replace (c <? k) with true in E2 by (symmetry; apply Nat.ltb_lt; lia). eauto.
Qed.
Print Assumptions C29_schedule.

(** With an overshoot of 0 percent every iteration is checked. *)
Lemma next_check_0 : forall maxit c, c < maxit -> next_check 0 maxit c = S c.
Proof. intros. unfold next_check. rewrite Nat.mul_0_l, Nat.div_0_l by lia. lia. Qed.
Theorem C29_every_iteration : forall (K : ofield) fsqrt debug dstev (tol2 : K) op num maxit tol guess s, 1 <= maxit ->
  lanczos_run fsqrt debug dstev tol2 op num maxit tol 0 guess = Ok s -> s_checks s = rev (seq 1 (length (s_main s))).
Proof.
  intros K fsqrt debug dstev tol2 op num maxit tol guess s Hm E. destruct (@C29_schedule K fsqrt debug dstev tol2 op num maxit tol 0 guess s Hm E) as (_ & L & _ & _ & Sc & Hh & _).
  rewrite L, <- Hh. clear - Sc Hm. induction Sc as [|c l H IH Hc]; auto.
  cbn [hd]. rewrite next_check_0 by auto. rewrite (seq_S c 1), rev_app_distr. cbn [rev app plus]. f_equal. exact IH.
Qed.
Print Assumptions C29_every_iteration.
(** No check is more than [percent] percent (rounded down, plus one) after the one before. *)
Theorem C29_gap : forall percent maxit l, schedule percent maxit l -> forall l1 c c' l2, l = l1 ++ c' :: c :: l2 -> c < c' <= c + percent * c / 100 + 1.
Proof.
  intros percent maxit l H. induction H as [|c0 l H IH Hc]; intros l1 c c' l2 E.
  - destruct l1 as [|? [|? ?]]; discriminate.
  - destruct l1 as [|x l1]; simpl in E; [injection E as <- <- _; unfold next_check; lia|]. injection E as _ E. eapply IH; eauto.
Qed.
Print Assumptions C29_gap.

(** ** C30: the filter *)
Section C30.
  Variable K : ofield.
  Local Open Scope K_scope.

  (** Kept are the pairs the filter does not remove, in ascending order, each eigenvalue with its own vector; the first [num] are returned. *)
  Theorem C30_filter : forall fsqrt debug dstev (tol2 : K) main sub num evals evecs, sqrt_ok fsqrt -> dstev_ok dstev -> 0 <= tol2 ->
    (1 <= length main)%nat -> length sub = (length main - 1)%nat -> (num <= length main)%nat ->
    calc_tridiag_epairs fsqrt debug dstev tol2 main sub num = Ok (evals, evecs) ->
    let n := length main in
    let compared := (1 <=? n - 1)%nat && (num <=? n - 1)%nat in
    exists e0 v0 e2 kept, dstev main sub = Ok (e0, v0) /\ (compared = true -> exists v2, dstev (tl main) (tl sub) = Ok (e2, v2)) /\
      StronglySorted lt kept /\ (forall i, In i kept <-> (i < n)%nat /\ ~ removed tol2 compared e0 e2 i) /\
      if (length kept <? num)%nat then evals = [] /\ evecs = []
      else evals = map (fun i => nth i e0 0) (firstn num kept) /\ evecs = concat (map (fun i => chunk n i v0) (firstn num kept)).
  Proof.
    intros fsqrt debug dstev tol2 main sub num evals evecs Hsq Hd Ht Hn Ls Hnum E n compared.
    destruct (@epairs_spec K fsqrt Hsq debug dstev Hd tol2 Ht main sub num (evals, evecs) Hn Ls E Hnum) as (e0 & v0 & e2 & kept & E0 & E2 & (Hs & Hk) & R).
    exists e0, v0, e2, kept. split; [auto|]. split; [auto|]. split; [auto|]. split; [auto|].
    destruct (length kept <? num)%nat; injection R as -> ->; auto.
  Qed.

  (** What is returned: orthonormal eigenvectors with eigenvalues more than the tolerance apart. *)
  Theorem C30_pairs : forall fsqrt debug dstev (tol2 : K) main sub num evals evecs, sqrt_ok fsqrt -> dstev_ok dstev -> 0 <= tol2 ->
    (1 <= length main)%nat -> length sub = (length main - 1)%nat ->
    calc_tridiag_epairs fsqrt debug dstev tol2 main sub num = Ok (evals, evecs) -> evals = [] /\ evecs = [] \/
    (num <= length main)%nat /\ length evals = num /\ length evecs = (length main * num)%nat /\
    orthonormal (length main) (map (fun i => chunk (length main) i evecs) (seq 0 num)) /\
    (forall i, (i < num)%nat -> mulvec (tridiag main sub) (chunk (length main) i evecs) = vscale (nth i evals 0) (chunk (length main) i evecs)) /\
    (forall i j, (i < j)%nat -> (j < num)%nat -> nth i evals 0 + tol2 < nth j evals 0).
  Proof.
    intros fsqrt debug dstev tol2 main sub num evals evecs Hsq Hd Ht Hn Ls E.
    destruct (@epairs_pairs K fsqrt Hsq debug dstev Hd tol2 Ht main sub num (evals, evecs) Hn Ls E) as [A|A]; [left; split; congruence|right].
    destruct A as [A1 A2 A3 A4 A5 A6]. cbn [fst snd] in *. auto 10.
  Qed.

  (** ** C63: too few pairs *)
  (** If the filter leaves fewer pairs than requested, the convergence check reads past the end of the empty list. *)
  Theorem C63_too_few_pairs : forall fsqrt debug dstev (tol2 : K) main sub num ep beta tol, sqrt_ok fsqrt -> dstev_ok dstev -> 0 <= tol2 ->
    (1 <= length main)%nat -> length sub = (length main - 1)%nat -> (1 <= num <= length main)%nat ->
    calc_tridiag_epairs fsqrt debug dstev tol2 main sub num = Ok ep ->
    (exists e0 v0 e2 v2 kept, dstev main sub = Ok (e0, v0) /\ dstev (tl main) (tl sub) = Ok (e2, v2) /\ (length kept < num)%nat /\
       forall i, (i < length main)%nat -> ~ removed tol2 ((1 <=? length main - 1)%nat && (num <=? length main - 1)%nat) e0 e2 i -> In i kept) ->
    check_convergence beta (length main) num tol (snd ep) = UB.
  Proof.
    intros fsqrt debug dstev tol2 main sub num [evals evecs] beta tol Hsq Hd Ht Hn Ls Hnum E (e0 & v0 & e2 & v2 & kept & E0 & E2 & L & Hk).
    destruct (@C30_filter fsqrt debug dstev tol2 main sub num evals evecs Hsq Hd Ht Hn Ls (proj2 Hnum) E) as (e0' & v0' & e2' & kept' & E0' & E2' & Ss & Hk' & R).
    rewrite E0 in E0'. injection E0' as <- <-.
    assert (Lk : (length kept' <= length kept)%nat).
    { apply NoDup_incl_length. { clear - Ss. induction Ss; constructor; auto. intros C. rewrite Forall_forall in H. specialize (H _ C). lia. }
      intros i Hi. apply Hk' in Hi. destruct Hi as [Hi Hr]. apply Hk; auto. intros C. apply Hr.
      destruct ((1 <=? length main - 1)%nat && (num <=? length main - 1)%nat) eqn:Ec.
      - destruct (E2' eq_refl) as (v2' & E2''). rewrite E2 in E2''. injection E2'' as <- <-. auto.
      - destruct C as [[C _]|C]; [discriminate|]. right. auto. }
    replace (length kept' <? num)%nat with true in R by (symmetry; apply Nat.ltb_lt; lia). destruct R as [-> ->].
    unfold check_convergence. replace (length main <? num)%nat with false by (symmetry; apply Nat.ltb_ge; lia).
    destruct num; [lia|]. cbn [check_bounds snd]. unfold rd. rewrite (proj2 (nth_error_None [] _)) by (simpl; lia). auto.
  Qed.
End C30.
Print Assumptions C30_filter.
Print Assumptions C30_pairs.
Print Assumptions C63_too_few_pairs.

(** ** C31 and C32: recurrence and residual. [S] is the subspace the operator acts on: all vectors of length n, or the orthogonal complement of
    deflated vectors. *)
Section C31.
  Variable K : ofield.
  Add Field KfCL : (f_field K).
  Local Open Scope K_scope.
  Notation vec := (vec K).
  Notation V vs j := (nth j vs ([] : vec)).

  Theorem C31_recurrence : forall n S (op : vec -> vec) fsqrt debug dstev (tol2 : K) num maxit tol percent guess s,
    subspace n S -> symmetric_on S op -> sqrt_ok fsqrt -> (1 <= maxit)%nat -> S guess ->
    lanczos_run fsqrt debug dstev tol2 op num maxit tol percent guess = Ok s ->
    let k := length (s_main s) in
    let vs := firstn k (s_vectors s) in
    let w := V (s_vectors s) k in
    (1 <= k <= maxit)%nat /\ length vs = k /\ orthonormal n vs /\ (forall v, In v vs -> S v) /\ S w /\
    (exists b, 0 < b /\ guess = vscale b (V vs 0)) /\
    orth_to vs w /\ 0 <= s_beta s /\ s_beta s * s_beta s = dot w w /\
    forall j, (j < k)%nat ->
      op (V vs j) = vadd (comb n (map (fun l => ent (tridiag (s_main s) (s_sub s)) l j) (seq 0 k)) vs) (if (Datatypes.S j =? k)%nat then w else vzero n).
  Proof.
    intros n S op fsqrt debug dstev tol2 num maxit tol percent guess s HS Hop Hsq Hm Sg E k vs w.
    destruct (@run_linv K n S op fsqrt debug dstev tol2 num maxit tol percent guess s HS Hop Hsq Hm Sg E) as (k' & F & G). assert (L := fi_lin F). assert (Ek : k = k') by apply (li_main L). rewrite <- Ek in *. clear Ek k'.
    assert (Hk := fi_k F). assert (Lk := linv_len_k L).
    assert (Nv : forall j, (j < k)%nat -> V vs j = V (s_vectors s) j) by (intros; apply (nth_firstn_v L); auto).
    split; [lia|]. split; auto. split; [apply (linv_orthonormal HS L)|]. split; [apply (linv_S_k L)|]. split; [apply (li_S L); auto|].
    split. { destruct G as (b & B1 & B2). exists b. split; auto. rewrite Nv by lia. auto. }
    split. { intros v Hv. destruct (in_nth_v _ _ Hv) as (j & Hj & <-). fold vs in Lk. rewrite Lk in Hj. rewrite Nv by auto. apply (li_rest L); auto. }
    split; [apply (li_beta0 L)|]. split; [apply (li_beta L)|]. intros j Hj. rewrite Nv by auto. apply (matrix_form HS Hop L); auto.
  Qed.

  (** Orthonormal results, each in the Krylov basis with the coefficients of an eigenvector x of T; the residual is the remainder scaled by the last
      coefficient, and within the tolerance if the run stopped because of convergence. *)
  Theorem C32_ritz_pairs : forall n S (op : vec -> vec) fsqrt debug dstev (tol2 : K) num maxit tol percent guess evals ys,
    subspace n S -> symmetric_on S op -> sqrt_ok fsqrt -> dstev_ok dstev -> 0 <= tol2 -> (1 <= maxit)%nat -> (1 <= num)%nat -> S guess ->
    solve_lanczos fsqrt debug dstev tol2 op num maxit tol percent guess = Ok (evals, ys) ->
    length evals = num /\ length ys = num /\ orthonormal n ys /\ (forall y, In y ys -> S y) /\
    (forall i j, (i < j)%nat -> (j < num)%nat -> nth i evals 0 + tol2 < nth j evals 0) /\
    exists s, lanczos_run fsqrt debug dstev tol2 op num maxit tol percent guess = Ok s /\
      let k := length (s_main s) in
      let w := V (s_vectors s) k in
      ((s_it s <= maxit)%nat \/ k = maxit) /\
      forall i, (i < num)%nat -> exists x, length x = k /\ mulvec (tridiag (s_main s) (s_sub s)) x = vscale (nth i evals 0) x /\
        V ys i = comb n x (firstn k (s_vectors s)) /\
        let r := vsub (op (V ys i)) (vscale (nth i evals 0) (V ys i)) in
        r = vscale (nth (k - 1) x 0) w /\ dot r r = (s_beta s * nth (k - 1) x 0) * (s_beta s * nth (k - 1) x 0) /\
        (forall y, In y ys -> dot r y = 0) /\ ((s_it s <= maxit)%nat -> dot r r <= tol * tol).
  Proof.
    intros n S op fsqrt debug dstev tol2 num maxit tol percent guess evals ys HS Hop Hsq Hd Ht Hm Hn Sg E.
    destruct (@solve_lanczos_result K fsqrt Hsq debug dstev Hd tol2 Ht n S op HS Hop num maxit percent tol Hm Hn guess evals ys Sg E)
      as (Le & Ly & Lm & Oy & Sy & G & s & Er & Hs & Hc).
    split; auto. split; auto. split; auto. split. { intros y Hy. destruct (in_nth_v _ _ Hy) as (j & Hj & <-). apply Sy. rewrite <- Ly. auto. }
    split; auto. exists s. split; auto. split; auto. intros i Hi. destruct (Hs i Hi) as (X1 & X2 & X3 & X4 & X5 & X6).
    destruct (@run_linv K n S op fsqrt debug dstev tol2 num maxit tol percent guess s HS Hop Hsq Hm Sg Er) as (k' & F & _). assert (L := fi_lin F). assert (Ek := li_main L).
    exists (chunk (length (s_main s)) i (s_evecs s)). split.
    { assert (Lx : length (mulvec (tridiag (s_main s) (s_sub s)) (chunk (length (s_main s)) i (s_evecs s))) = length (s_main s)) by (rewrite mulvec_length; auto).
      rewrite X1, vscale_length in Lx. auto. }
    split; auto. split; auto. cbv zeta. rewrite X3. split; auto. split; auto. split; auto.
    intros y Hy. destruct (in_nth_v _ _ Hy) as (j & Hj & <-). rewrite dot_scale_l, X4 by (rewrite <- Ly; auto). ring.
  Qed.

  (** ** C64: subspaces too small for the request *)
  Lemma comb_comb : forall n m (bs : list vec) d (cs : list (list K)), sized_all n bs -> length bs = m -> sized_all m cs ->
    comb n d (map (fun c => comb n c bs) cs) = comb n (comb m d cs) bs.
  Proof.
    intros n m bs d cs Sb Lb. revert d. induction cs as [|c cs IH]; intros [|x d] Sc; cbn [map comb]; try (rewrite <- Lb, comb_zero by auto; auto; fail).
    inversion Sc as [|? ? Hc Sc']; subst. rewrite comb_add; auto; [|rewrite vscale_length; auto|apply comb_length; auto].
    rewrite comb_scale by auto. f_equal. apply IH. auto.
  Qed.
  Lemma independent_in_span : forall n (bs ys : list vec), sized_all n bs -> independent n ys -> (forall y, In y ys -> span n bs y) -> (length ys <= length bs)%nat.
  Proof.
    intros n bs ys Sb I Hy. assert (C : exists cs, sized_all (length bs) cs /\ ys = map (fun c => comb n c bs) cs).
    { clear I. induction ys as [|y ys IH]; [exists []; split; [constructor|auto]|]. destruct IH as (cs & H1 & H2); [intros; apply Hy; right; auto|].
      destruct (Hy y (or_introl eq_refl)) as (c & Lc & ->). exists (c :: cs). split; [constructor; auto|]. simpl. congruence. }
    destruct C as (cs & Sc & ->). rewrite map_length. destruct (le_lt_dec (length cs) (length bs)) as [|Lt]; auto. exfalso.
    destruct (dependent Sc Lt) as (d & Ld & Nd & Ed). apply Nd. assert (Z := I d). rewrite map_length in Z. apply Z; auto.
    rewrite (@comb_comb n (length bs)) by auto. rewrite Ed. apply comb_zero. auto.
  Qed.

  Lemma span_subspace : forall n (bs : list vec), sized_all n bs -> subspace n (span n bs).
  Proof.
    intros n bs Sb. constructor; intros.
    - eapply span_len; eauto.
    - apply span_add; auto.
    - apply span_scale; auto.
  Qed.
  (** If the start vector lies in an invariant subspace spanned by fewer vectors than pairs are requested, no result is returned. *)
  Theorem C64_small_invariant_subspace : forall n (bs : list vec) (op : vec -> vec) fsqrt debug dstev (tol2 : K) num maxit tol percent guess,
    sized_all n bs -> symmetric_on (span n bs) op -> sqrt_ok fsqrt -> dstev_ok dstev -> 0 <= tol2 -> (1 <= maxit)%nat -> span n bs guess -> (length bs < num)%nat ->
    forall r, solve_lanczos fsqrt debug dstev tol2 op num maxit tol percent guess <> Ok r.
  Proof.
    intros n bs op fsqrt debug dstev tol2 num maxit tol percent guess Sb Hop Hsq Hd Ht Hm Sg Lt [evals ys] E.
    destruct (@C32_ritz_pairs n (span n bs) op fsqrt debug dstev tol2 num maxit tol percent guess evals ys (span_subspace Sb) Hop Hsq Hd Ht Hm ltac:(lia) Sg E) as (_ & Ly & O & Sy & _).
    apply orthonormal_independent in O. assert (A := independent_in_span Sb O Sy). unfold OField.vec in *. lia.
  Qed.
  (** In particular for more pairs than unknowns. *)
  Theorem C64_more_pairs_than_unknowns : forall n (op : vec -> vec) fsqrt debug dstev (tol2 : K) num maxit tol percent guess,
    symmetric_on (fun x => length x = n) op -> sqrt_ok fsqrt -> dstev_ok dstev -> 0 <= tol2 -> (1 <= maxit)%nat -> length guess = n -> (n < num)%nat ->
    forall r, solve_lanczos fsqrt debug dstev tol2 op num maxit tol percent guess <> Ok r.
  Proof.
    intros n op fsqrt debug dstev tol2 num maxit tol percent guess Hop Hsq Hd Ht Hm Sg Lt [evals ys] E.
    assert (HS : subspace n (fun x : vec => length x = n)).
    { constructor; auto; intros; [rewrite vadd_length; unfold OField.vec in *; lia|rewrite vscale_length; auto]. }
    destruct (@C32_ritz_pairs n (fun x => length x = n) op fsqrt debug dstev tol2 num maxit tol percent guess evals ys HS Hop Hsq Hd Ht Hm ltac:(lia) Sg E) as (_ & Ly & O & _).
    rewrite <- Ly in Lt. destruct (dependent (proj1 O) Lt) as (cs & L1 & N & Z). apply N. apply (orthonormal_independent O); auto.
  Qed.
End C31.
Print Assumptions C31_recurrence.
Print Assumptions C32_ritz_pairs.
Print Assumptions C64_small_invariant_subspace.
Print Assumptions C64_more_pairs_than_unknowns.

(** ** Examples *)
Definition q (a : Z) (b : positive) : QcOF := Q2Qc (Qmake a b).
(** The matrix [[73/25, -36/25], [-36/25, 52/25]], eigenvalues 1 and 4; T and the eigensystems LAPACKE_dstev (lanczos.templates.hpp:329-332) returns. *)
Definition ex_op : vec QcOF -> vec QcOF := mulvec (tridiag [q 73 25; q 52 25] [q (-36) 25]).
Definition ex_table : list (list QcOF * list QcOF * (list QcOF * list QcOF)) :=
  [([q 73 25], [], ([q 73 25], [q 1 1]));
   ([q 52 25], [], ([q 52 25], [q 1 1]));
   ([q 73 25; q 52 25], [q 36 25], ([q 1 1; q 4 1], [q 3 5; q (-4) 5; q 4 5; q 3 5]))].
Definition ex_guess : vec QcOF := [q 2 1; q 0 1].
Definition ex_run (num maxit : nat) (tol : QcOF) := lanczos_run qsqrt true (dstev_of ex_table) (q 1 1000) ex_op num maxit tol 5 ex_guess.
Definition ex_solve (num maxit : nat) (tol : QcOF) := solve_lanczos qsqrt true (dstev_of ex_table) (q 1 1000) ex_op num maxit tol 5 ex_guess.
Lemma ex_sym : symmetric_on (fun x : vec QcOF => length x = 2) ex_op.
Proof. apply (@symmetric_tridiag QcOF [q 73 25; q 52 25] [q (-36) 25]). Qed.

(** Two iterations, both checked; the first check fails, the second succeeds with a vanishing remainder. *)
Example C29_example : exists s, ex_run 1 2 (q 0 1) = Ok s /\ s_checks s = [2; 1] /\ s_it s = 2 /\ length (s_main s) = 2.
Proof.
  destruct (ok_with_ex (ex_run 1 2 (q 0 1)) (fun s => (s_it s =? 2) && (length (s_main s) =? 2) && (length (s_checks s) =? 2) && (nth 0 (s_checks s) 0 =? 2) && (nth 1 (s_checks s) 0 =? 1)))
    as (s & E & P); [vm_compute; reflexivity|].
  repeat (apply andb_true_iff in P; destruct P as [P ?P]). apply Nat.eqb_eq in P, P0, P1, P2, P3. exists s. split; [exact E|]. clear E.
  destruct (s_checks s) as [|a [|b [|]]]; simpl in *; try discriminate. subst. auto.
Qed.
(** 50 percent, 10 iterations: 1, 2, 4, 7, 10. *)
Example C29_schedule_example : schedule 50 10 [10; 7; 4; 2; 1].
Proof.
  apply (@sch_next 50 10 7); [|lia]. apply (@sch_next 50 10 4); [|lia]. apply (@sch_next 50 10 2); [|lia]. apply (@sch_next 50 10 1); [|lia]. apply sch_first.
Qed.

(** T = diag(1, 2, 2.0005): 2.0005 is a repetition of 2, so neither counts as spurious, and the repetition is dropped. *)
Definition ex_table30 : list (list QcOF * list QcOF * (list QcOF * list QcOF)) :=
  [([q 1 1; q 2 1; q 4001 2000], [q 0 1; q 0 1], ([q 1 1; q 2 1; q 4001 2000], [q 1 1; q 0 1; q 0 1; q 0 1; q 1 1; q 0 1; q 0 1; q 0 1; q 1 1]));
   ([q 2 1; q 4001 2000], [q 0 1], ([q 2 1; q 4001 2000], [q 1 1; q 0 1; q 0 1; q 1 1]));
   ([q 1 1; q 2 1], [q 0 1], ([q 1 1; q 2 1], [q 1 1; q 0 1; q 0 1; q 1 1]));
   ([q 2 1], [], ([q 2 1], [q 1 1]))].
Example C30_example_repeated :
  ok_with (calc_tridiag_epairs qsqrt true (dstev_of ex_table30) (q 1 1000) [q 1 1; q 2 1; q 4001 2000] [q 0 1; q 0 1] 2)
    (fun ep => veqb (fst ep) [q 1 1; q 2 1] && veqb (snd ep) [q 1 1; q 0 1; q 0 1; q 0 1; q 1 1; q 0 1]) = true.
Proof. vm_compute. reflexivity. Qed.
(** T = diag(1, 2): 2 is also an eigenvalue of the trailing block and is removed as spurious. *)
Example C30_example_spurious :
  ok_with (calc_tridiag_epairs qsqrt true (dstev_of ex_table30) (q 1 1000) [q 1 1; q 2 1] [q 0 1] 1) (fun ep => veqb (fst ep) [q 1 1] && veqb (snd ep) [q 1 1; q 0 1]) = true.
Proof. vm_compute. reflexivity. Qed.
Example C30_hypotheses : sqrt_ok qsqrt /\ dstev_ok (dstev_of ex_table30) /\ (f0 <= q 1 1000)%K.
Proof. split; [apply qsqrt_ok|]. split; [apply dstev_of_ok|]. apply fleb_le. vm_compute. reflexivity. Qed.

(** Converged run: both eigenpairs of the matrix; [C31_recurrence] and [C32_ritz_pairs] apply. *)
Example C32_example : exists evals ys, ex_solve 2 2 (q 0 1) = Ok (evals, ys) /\
  veqb evals [q 1 1; q 4 1] = true /\ veqb (nth 0 ys []) [q 3 5; q 4 5] = true /\ veqb (nth 1 ys []) [q 4 5; q (-3) 5] = true.
Proof.
  destruct (ok_with_ex (ex_solve 2 2 (q 0 1)) (fun r => veqb (fst r) [q 1 1; q 4 1] && veqb (nth 0 (snd r) []) [q 3 5; q 4 5] && veqb (nth 1 (snd r) []) [q 4 5; q (-3) 5]))
    as ([evals ys] & E & P); [vm_compute; reflexivity|].
  do 2 (apply andb_true_iff in P; destruct P as [P ?P]). exists evals, ys. split; [exact E|]. split; [exact P|]. split; [exact P1|exact P0].
Qed.
Example C32_hypotheses : subspace 2 (fun x : vec QcOF => length x = 2) /\ symmetric_on (fun x : vec QcOF => length x = 2) ex_op /\ sqrt_ok qsqrt /\
  dstev_ok (dstev_of ex_table) /\ (f0 <= q 1 1000)%K /\ length ex_guess = 2.
Proof. split; [apply full_space|]. split; [apply ex_sym|]. split; [apply qsqrt_ok|]. split; [apply dstev_of_ok|]. split; auto. apply fleb_le. vm_compute. reflexivity. Qed.

(** Without convergence within the permitted iterations the pairs are returned all the same, and their residual exceeds the tolerance. *)
Theorem C32_unconverged_refuted : exists n op fsqrt dstev (tol2 tol : QcOF) num maxit percent guess evals ys,
  symmetric_on (fun x : vec QcOF => length x = n) op /\ sqrt_ok fsqrt /\ dstev_ok dstev /\ length guess = n /\ (1 <= num <= maxit) /\
  solve_lanczos fsqrt true dstev tol2 op num maxit tol percent guess = Ok (evals, ys) /\
  let r := vsub (op (nth 0 ys [])) (vscale (nth 0 evals f0) (nth 0 ys [])) in (tol * tol < dot r r)%K.
Proof.
  destruct (ok_with_ex (ex_solve 1 1 (q 0 1)) (fun er => let r := vsub (ex_op (nth 0 (snd er) [])) (vscale (nth 0 (fst er) f0) (nth 0 (snd er) [])) in fltb (fmul (q 0 1) (q 0 1)) (dot r r)))
    as ([evals ys] & E & P); [vm_compute; reflexivity|].
  exists 2, ex_op, qsqrt, (dstev_of ex_table), (q 1 1000), (q 0 1), 1, 1, 5, ex_guess, evals, ys.
  split; [apply ex_sym|]. split; [apply qsqrt_ok|]. split; [apply dstev_of_ok|]. split; auto. split; [lia|]. split; [exact E|]. cbv zeta in P |- *. apply fltb_lt. exact P.
Qed.
Print Assumptions C32_unconverged_refuted.

(** diag(1, 1 + d) with d below the tolerance: after the repetition is dropped one pair is left where two are requested, and the run reads past the end
    of a list, with and without MFMG_DEBUG. *)
Definition dl : QcOF := q 1 1000000000000.
Definition ex63_main : list QcOF := [fadd (q 1 1) (fmul dl (q 16 25)); fadd (q 1 1) (fmul dl (q 9 25))].
Definition ex63_sub : list QcOF := [fmul dl (q 12 25)].
Definition ex63_table : list (list QcOF * list QcOF * (list QcOF * list QcOF)) :=
  [([nth 0 ex63_main f0], [], ([nth 0 ex63_main f0], [q 1 1])); 
   ([nth 1 ex63_main f0], [], ([nth 1 ex63_main f0], [q 1 1]));
   (ex63_main, ex63_sub, ([q 1 1; fadd (q 1 1) dl], [q 3 5; q (-4) 5; q 4 5; q 3 5]))].
Theorem C63_too_few_pairs_refuted : exists n op fsqrt dstev (tol2 tol : QcOF) num maxit percent guess,
  symmetric_on (fun x : vec QcOF => length x = n) op /\ sqrt_ok fsqrt /\ dstev_ok dstev /\ tol2 = q 5 1000000000000 /\ length guess = n /\ (1 <= num <= n) /\ (n <= maxit) /\
  (forall debug, solve_lanczos fsqrt debug dstev tol2 op num maxit tol percent guess = UB).
Proof.
  exists 2, (mulvec (tridiag [q 1 1; fadd (q 1 1) dl] [q 0 1])), qsqrt, (dstev_of ex63_table), (q 5 1000000000000), (q 0 1), 2, 2, 5, [q 3 5; q 4 5].
  split; [apply (@symmetric_tridiag QcOF [q 1 1; fadd (q 1 1) dl] [q 0 1])|]. split; [apply qsqrt_ok|]. split; [apply dstev_of_ok|]. split; auto. split; auto. split; [lia|]. split; [lia|].
  intros [|]; vm_compute; reflexivity.
Qed.
Print Assumptions C63_too_few_pairs_refuted.
(** The hypotheses of [C63_too_few_pairs] hold at the second iteration of that run. *)
Example C63_example : exists ep, calc_tridiag_epairs qsqrt true (dstev_of ex63_table) (q 5 1000000000000) ex63_main ex63_sub 2 = Ok ep /\
  (exists e0 v0 e2 v2 kept, dstev_of ex63_table ex63_main ex63_sub = Ok (e0, v0) /\ dstev_of ex63_table (tl ex63_main) (tl ex63_sub) = Ok (e2, v2) /\ length kept < 2 /\
     forall i, i < 2 -> ~ removed (q 5 1000000000000) false e0 e2 i -> In i kept).
Proof.
  destruct (ok_with_ex (calc_tridiag_epairs qsqrt true (dstev_of ex63_table) (q 5 1000000000000) ex63_main ex63_sub 2) (fun _ => true)) as (ep & E & _); [vm_compute; reflexivity|].
  exists ep. split; auto.
  destruct (ok_with_ex (dstev_of ex63_table ex63_main ex63_sub) (fun ev => veqb (fst ev) [q 1 1; fadd (q 1 1) dl])) as ([e0 v0] & E0 & P); [vm_compute; reflexivity|].
  destruct (ok_with_ex (dstev_of ex63_table (tl ex63_main) (tl ex63_sub)) (fun _ => true)) as ([e2 v2] & E2 & _); [vm_compute; reflexivity|].
  exists e0, v0, e2, v2, [0]. split; auto. split; auto. split; [simpl; lia|]. intros i Hi Nr. apply veqb_eq in P. cbn [fst] in P. subst e0.
  destruct i as [|[|]]; [left; auto| |lia]. exfalso. apply Nr. right. exists 0. split; [lia|]. split; apply fleb_le; vm_compute; reflexivity.
Qed.

Section Id2.
  Variable K : ofield.
  Add Field KfId2 : (f_field K).
  Lemma identity2 : forall a b : K, mulvec (tridiag [f1; f1] [f0]) [a; b] = [a; b].
  Proof. intros a b. unfold mulvec. simpl. f_equal; [|f_equal]; ring. Qed.
End Id2.
(** The identity on two unknowns maps the line of the start vector into itself: asking for two pairs gives no result. *)
Definition ex64_op : vec QcOF -> vec QcOF := mulvec (tridiag [q 1 1; q 1 1] [q 0 1]).
Example C64_example : symmetric_on (span 2 [[q 1 1; q 0 1]]) ex64_op /\ span 2 [[q 1 1; q 0 1]] [q 2 1; q 0 1] /\
  solve_lanczos qsqrt true (dstev_of [([q 1 1], [], ([q 1 1], [q 1 1]))]) (q 1 1000) ex64_op 2 5 (q 0 1) 5 [q 2 1; q 0 1] = Abort.
Proof.
  assert (Id : forall x : vec QcOF, length x = 2 -> ex64_op x = x).
  { intros x Hx. destruct x as [|a [|b [|]]]; try discriminate. exact (@identity2 QcOF a b). }
  assert (Ln : forall x, span 2 [[q 1 1; q 0 1]] x -> length x = 2). { intros x Hx. eapply span_len; [|exact Hx]. repeat constructor. }
  split; [|split].
  - constructor; intros; rewrite ?Id by auto; auto.
  - exists [q 2 1]. split; [reflexivity|]. apply veqb_eq. vm_compute. reflexivity.
  - vm_compute. reflexivity.
Qed.
