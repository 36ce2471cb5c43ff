(** Properties C33, C34 and C62: deflation and the cycles of the Lanczos solver. *)
From Coq Require Import List Arith Lia Bool Field QArith Qcanon Permutation Reals Lra.
From Verif Require Import Base OField Mat LinAlg M_Perm S_Perm P_Perm M_Lanczos S_Lanczos P_Span P_Deflate P_Lanczos2 P_Lanczos5 P_Lanczos7 P_Lanczos8 E_Lanczos E_Real.
Import ListNotations.
Set Implicit Arguments.
Open Scope nat_scope.

Section C33.
  Variable K : ofield.
  Add Field KfCDf : (f_field K).
  Local Open Scope K_scope.
  Notation vec := (vec K).

  (** ** C33: deflation *)
  Theorem C33_add_orthonormal : forall n fsqrt debug (ds vecs ds' : list vec), sqrt_ok fsqrt -> orthonormal n ds -> sized_all n vecs ->
    add_deflation_vecs fsqrt debug ds vecs = Ok ds' ->
    orthonormal n ds' /\ length ds' = (length ds + length vecs)%nat /\ firstn (length ds) ds' = ds /\ (forall x, span n ds' x <-> span n (ds ++ vecs) x) /\
    independent n (ds ++ vecs).
  Proof.
    intros n fsqrt debug ds vecs ds' Hsq O Sv E. destruct (@add_spec K n fsqrt Hsq debug ds vecs O Sv) as [(d & E' & H)|[[E' _]|[E' _]]].
    - rewrite E in E'. injection E' as <-. exact H.
    - rewrite E in E'. destruct debug; discriminate.
    - rewrite E in E'. discriminate.
  Qed.
  Theorem C33_add_succeeds : forall n fsqrt debug (ds vecs : list vec), sqrt_ok fsqrt -> sqrt_total fsqrt -> orthonormal n ds -> sized_all n vecs ->
    independent n (ds ++ vecs) -> exists ds', add_deflation_vecs fsqrt debug ds vecs = Ok ds'.
  Proof.
    intros n fsqrt debug ds vecs Hsq Ht O Sv I. destruct (@add_spec K n fsqrt Hsq debug ds vecs O Sv) as [(d & E' & H)|[[E' N]|[E' N]]]; [eauto| |]; destruct (N ltac:(auto)).
  Qed.
  Theorem C33_dependent_fails : forall n fsqrt debug (ds vecs : list vec), sqrt_ok fsqrt -> sqrt_total fsqrt -> orthonormal n ds -> sized_all n vecs ->
    ~ independent n (ds ++ vecs) -> add_deflation_vecs fsqrt debug ds vecs = if debug then Abort else UB.
  Proof.
    intros n fsqrt debug ds vecs Hsq Ht O Sv I. destruct (@add_spec K n fsqrt Hsq debug ds vecs O Sv) as [(d & E' & _ & _ & _ & _ & H)|[[E' N]|[E' N]]]; auto; [destruct (I H)|destruct (N Ht)].
  Qed.

  (** Any sequence of calls on a new object. *)
  Theorem C33_calls : forall n fsqrt debug (batches : list (list vec)) ds, sqrt_ok fsqrt -> Forall (sized_all n) batches ->
    fold_left (fun o vecs => let! ds := o in add_deflation_vecs fsqrt debug ds vecs) batches (Ok []) = Ok ds ->
    orthonormal n ds /\ length ds = length (concat batches) /\ (forall x, span n ds x <-> span n (concat batches) x) /\ independent n (concat batches).
  Proof.
    intros n fsqrt debug batches ds Hsq Hb E.
    assert (G : forall bs (o : outcome (list vec)) done, Forall (sized_all n) bs -> sized_all n done ->
      (forall d, o = Ok d -> orthonormal n d /\ length d = length done /\ (forall x, span n d x <-> span n done x) /\ independent n done) ->
      fold_left (fun o vecs => let! ds := o in add_deflation_vecs fsqrt debug ds vecs) bs o = Ok ds ->
      orthonormal n ds /\ length ds = length (done ++ concat bs) /\ (forall x, span n ds x <-> span n (done ++ concat bs) x) /\ independent n (done ++ concat bs)).
    { clear Hb E batches. induction bs as [|b bs IH]; intros o dn Hb Hd Ho E; cbn [fold_left concat] in *.
      - rewrite app_nil_r. apply Ho. auto.
      - inversion Hb as [|? ? Hb1 Hb2]; subst. rewrite app_assoc. refine (IH _ (dn ++ b) Hb2 _ _ E); [apply Forall_app; auto|].
        intros d Ed. destruct o as [d0| | | |]; cbn [bind] in Ed; try discriminate. destruct (Ho d0 eq_refl) as (O & L & Sp & I).
        destruct (@C33_add_orthonormal n fsqrt debug d0 b d Hsq O Hb1 Ed) as (O' & L' & _ & Sp' & I').
        assert (S0 := proj1 O). assert (S1 : sized_all n (d0 ++ b)) by (apply Forall_app; auto). assert (S2 : sized_all n (dn ++ b)) by (apply Forall_app; auto).
        assert (H1 : forall u, In u (d0 ++ b) -> span n (dn ++ b) u).
        { intros u Hu. apply in_app_or in Hu. destruct Hu as [Hu|Hu]; [|apply span_in; auto; apply in_or_app; auto].
          apply (@span_incl K n (dn ++ b) dn); auto. { intros v Hv. apply in_or_app. auto. } apply Sp. apply span_in; auto. }
        assert (H2 : forall u, In u (dn ++ b) -> span n (d0 ++ b) u).
        { intros u Hu. apply in_app_or in Hu. destruct Hu as [Hu|Hu]; [|apply span_in; auto; apply in_or_app; auto].
          apply (@span_incl K n (d0 ++ b) d0); auto. { intros v Hv. apply in_or_app. auto. } apply Sp. apply span_in; auto. }
        split; auto. split; [rewrite L', app_length; unfold OField.vec in *; lia|]. split.
        + intros x. rewrite Sp'. split; apply span_sub; auto.
        + apply independent_transfer with (d0 ++ b); auto. rewrite !app_length. unfold OField.vec in *. lia. }
    apply (G batches (Ok []) []); auto; [constructor|]. intros d Ed. injection Ed as <-. split; [split; [constructor|intros i j Hi; simpl in Hi; lia]|].
    split; auto. split; [tauto|]. intros cs Lc _. destruct cs; [auto|discriminate].
  Qed.

  (** deflate is the orthogonal projection onto the complement of the span. *)
  Theorem C33_deflate : forall n (ds : list vec), orthonormal n ds ->
    (forall v, length v = n -> orth_to ds (deflate ds v) /\ span n ds (vsub v (deflate ds v)) /\ deflate ds (deflate ds v) = deflate ds v /\
       (deflate ds v = v <-> orth_to ds v) /\ (deflate ds v = vzero n <-> span n ds v)) /\
    linear n n (deflate ds) /\ self_adjoint n (deflate ds).
  Proof.
    intros n ds O. assert (Sz := proj1 O). split; [|split].
    - intros v Lv. assert (Ld := deflate_length v Sz Lv). assert (Od := @deflate_orth K n ds v O Lv).
      assert (Sd : span n ds (vsub v (deflate ds v))) by (apply deflate_diff; auto; apply incl_refl).
      split; auto. split; auto. split; [apply (@deflate_fixed K n); auto|]. split; [split|split].
      + intros E. rewrite <- E. auto.
      + apply (@deflate_fixed K n); auto.
      + intros E. rewrite E in Sd. replace v with (vsub v (vzero n)); auto. apply vec_ext; [rewrite vsub_length, vzero_length, Lv; lia|].
        intros i Hi. rewrite nth_vsub, nth_vzero by (rewrite vzero_length; auto). ring.
      + intros Sv. assert (Sf : span n ds (deflate ds v)).
        { replace (deflate ds v) with (vaxpy (- (1)) (vsub v (deflate ds v)) v). { apply span_axpy; auto. }
          apply vec_ext; [unfold vaxpy; rewrite vadd_length, vscale_length, vsub_length; unfold OField.vec in *; lia|]. intros i Hi. unfold vaxpy.
          rewrite nth_vadd, nth_vscale, nth_vsub by (rewrite ?vscale_length, ?vsub_length; unfold OField.vec in *; lia). ring. }
        rewrite <- Ld. apply dot_self_0. apply (@orth_span K n ds); auto.
    - apply deflate_linear; auto.
    - intros x y Hx Hy. apply (@deflate_selfadj K n); auto.
  Qed.

  (** The deflated operator: its range is orthogonal to the deflated vectors, it stays symmetric on their complement, where it has the same quadratic
      form, and it vanishes on their span exactly if the span is invariant. *)
  Theorem C33_operator : forall n (op : vec -> vec) (ds : list vec), orthonormal n ds -> (forall x, length x = n -> length (op x) = n) ->
    (forall x, length x = n -> orth_to ds (deflated_vmult op ds x)) /\
    (forall x y, length x = n -> length y = n -> orth_to ds y -> dot (deflated_vmult op ds x) y = dot (op x) y) /\
    ((forall x, span n ds x -> deflated_vmult op ds x = vzero n) <-> (forall x, span n ds x -> span n ds (op x))).
  Proof.
    intros n op ds O Hl. assert (Sz := proj1 O). destruct (C33_deflate O) as (D & _ & _). split; [|split].
    - intros x Hx. apply (@deflate_orth K n); auto.
    - intros x y Hx Hy Oy. apply (@deflate_dot K n); auto.
    - split; intros H x Hx; assert (Lx : length x = n) by (eapply span_len; eauto); apply D; auto; apply H; auto.
  Qed.

  (** ** C34 and C62: the cycles *)
  Theorem C34_result : forall n (op : vec -> vec) fsqrt debug dstev (tol2 : K) rand std_sort (is_deflated : bool) n_eig per ncyc maxit tol percent guess r,
    symmetric_on (fun x => length x = n) op -> sqrt_ok fsqrt -> dstev_ok dstev -> 0 <= tol2 -> std_sort_contract std_sort -> (1 <= maxit)%nat -> length guess = n ->
    let m := if is_deflated then per else n_eig in
    let c := if is_deflated then ncyc else 1%nat in
    (1 <= m)%nat -> (1 <= c)%nat ->
    solve fsqrt debug dstev tol2 rand std_sort op is_deflated n_eig per ncyc maxit tol percent guess = Ok r ->
    length r = n_eig /\ exists ps, cycles fsqrt debug dstev tol2 rand c 0 op m maxit tol percent [] guess = Ok ps /\ length ps = (c * m)%nat /\
      ((n_eig <= c * m)%nat -> ascending (map fst r) /\ Permutation r (firstn n_eig ps)) /\
      ((c * m <= n_eig)%nat -> Permutation r (ps ++ repeat (0, []) (n_eig - c * m))).
  Proof.
    intros n op fsqrt debug dstev tol2 rand std_sort is_deflated n_eig per ncyc maxit tol percent guess r Hop Hsq Hd Ht Hs Hm Lg m c H1 H2 E.
    destruct (@solve_spec K fsqrt Hsq debug dstev Hd tol2 Ht n rand std_sort Hs op (sy_into Hop) (sy_sym Hop) is_deflated n_eig per ncyc maxit tol percent guess r Hm Lg H1 H2 E)
      as (Lr & ps & Ec & Lp & Op & P & _ & A).
    split; auto. exists ps. split; [exact Ec|]. split; auto. split.
    - intros Hc. split; [apply A; auto|]. rewrite <- (@resize_cut _ ps n_eig (0, [])); auto. unfold m, c in *. lia.
    - intros Hc. unfold resize in P. rewrite firstn_all2 in P by (unfold m, c in *; lia). rewrite Lp in P. auto.
  Qed.

  (** The vectors of all cycles together are orthonormal. *)
  Theorem C62_orthonormal : forall n (op : vec -> vec) fsqrt debug dstev (tol2 : K) rand std_sort (is_deflated : bool) n_eig per ncyc maxit tol percent guess r,
    symmetric_on (fun x => length x = n) op -> sqrt_ok fsqrt -> dstev_ok dstev -> 0 <= tol2 -> std_sort_contract std_sort -> (1 <= maxit)%nat -> length guess = n ->
    let m := if is_deflated then per else n_eig in
    let c := if is_deflated then ncyc else 1%nat in
    (1 <= m)%nat -> (1 <= c)%nat -> (n_eig <= c * m)%nat ->
    solve fsqrt debug dstev tol2 rand std_sort op is_deflated n_eig per ncyc maxit tol percent guess = Ok r ->
    orthonormal n (map snd r).
  Proof.
    intros n op fsqrt debug dstev tol2 rand std_sort is_deflated n_eig per ncyc maxit tol percent guess r Hop Hsq Hd Ht Hs Hm Lg m c H1 H2 Hc E.
    destruct (@solve_spec K fsqrt Hsq debug dstev Hd tol2 Ht n rand std_sort Hs op (sy_into Hop) (sy_sym Hop) is_deflated n_eig per ncyc maxit tol percent guess r Hm Lg H1 H2 E)
      as (Lr & ps & Ec & Lp & Op & P & _ & A). apply A. auto.
  Qed.
End C33.
Print Assumptions C33_add_orthonormal.
Print Assumptions C33_add_succeeds.
Print Assumptions C33_dependent_fails.
Print Assumptions C33_calls.
Print Assumptions C33_deflate.
Print Assumptions C33_operator.
Print Assumptions C34_result.
Print Assumptions C62_orthonormal.

(** ** Examples *)
Definition q (a : Z) (b : positive) : QcOF := Q2Qc (Qmake a b).
Lemma orthonormal_nil : forall (K : ofield) n, orthonormal n ([] : list (vec K)).
Proof. intros K n. split; [constructor|]. intros i j Hi. simpl in Hi. lia. Qed.

(** (0, 2) and (3, 4): the longer vector is normalised first, the results stay in place. *)
Definition ex_vecs : list (vec QcOF) := [[q 0 1; q 2 1]; [q 3 1; q 4 1]].
Example C33_example : orthonormal 2 ([] : list (vec QcOF)) /\ sized_all 2 ex_vecs /\
  ok_with (add_deflation_vecs qsqrt true [] ex_vecs) (fun ds => veqb (nth 0 ds []) [q (-4) 5; q 3 5] && veqb (nth 1 ds []) [q 3 5; q 4 5]) = true.
Proof. split; [apply orthonormal_nil|]. split; [repeat constructor|]. vm_compute. reflexivity. Qed.
(** Two calls; the second vector is first deflated by the first. *)
Example C33_calls_example :
  ok_with (fold_left (fun o vecs => let! ds := o in add_deflation_vecs qsqrt true ds vecs) [[[q 3 1; q 4 1]]; [[q 0 1; q 2 1]]] (Ok []))
    (fun ds => veqb (nth 0 ds []) [q 3 5; q 4 5] && veqb (nth 1 ds []) [q (-4) 5; q 3 5]) = true.
Proof. vm_compute. reflexivity. Qed.
Example C33_dependent_example : add_deflation_vecs qsqrt true [] [[q 3 1; q 4 1]; [q 6 1; q 8 1]] = Abort /\
  add_deflation_vecs qsqrt false [] [[q 3 1; q 4 1]; [q 6 1; q 8 1]] = UB.
Proof. split; vm_compute; reflexivity. Qed.

(** Over the reals every independent set can be added, here with an irrational norm. *)
Example C33_real_example : exists ds, add_deflation_vecs (K := ROF) real_sqrt true [] [[1%R; 1%R]; [1%R; 0%R]] = Ok ds.
Proof.
  apply (@C33_add_succeeds ROF 2 real_sqrt true [] [[1%R; 1%R]; [1%R; 0%R]] real_sqrt_ok real_sqrt_total); [apply orthonormal_nil|repeat constructor|].
  intros cs Lc E. destruct cs as [|a [|b [|]]]; try discriminate. cbn in E. injection E as E1 E2. unfold vzero. simpl.
  assert (B : b = 0%R) by Lra.lra. assert (A : a = 0%R) by Lra.lra. rewrite A, B. reflexivity.
Qed.
Print Assumptions C33_real_example.

(** The kernel of the deflated operator does not contain the deflated vectors unless their span is invariant. *)
Theorem C33_kernel_refuted : exists n (op : vec QcOF -> vec QcOF) ds x, symmetric_on (fun x : vec QcOF => length x = n) op /\ orthonormal n ds /\ span n ds x /\
  deflated_vmult op ds x <> vzero n.
Proof.
  exists 2, (mulvec (tridiag [q 2 1; q 2 1] [q 1 1])), [[q 1 1; q 0 1]], [q 1 1; q 0 1].
  split; [apply (@symmetric_tridiag QcOF [q 2 1; q 2 1] [q 1 1])|]. split; [|split].
  - split; [repeat constructor|]. intros [|i] [|j] Hi Hj; simpl in Hi, Hj; try lia. apply Qc_is_canon. vm_compute. reflexivity.
  - exists [q 1 1]. split; [reflexivity|]. apply veqb_eq. vm_compute. reflexivity.
  - intros E. apply (f_equal (fun v => veqb v (vzero (K := QcOF) 2))) in E. vm_compute in E. discriminate.
Qed.
Print Assumptions C33_kernel_refuted.
(** An invariant span: deflating the eigenvector (1, 0) of diag(2, 3). *)
Example C33_operator_example : orthonormal 2 [[q 1 1; q 0 1]] /\ veqb (deflated_vmult (mulvec (tridiag [q 2 1; q 3 1] [q 0 1])) [[q 1 1; q 0 1]] [q 7 1; q 0 1]) (vzero 2) = true /\
  veqb (deflated_vmult (mulvec (tridiag [q 2 1; q 3 1] [q 0 1])) [[q 1 1; q 0 1]] [q 7 1; q 5 1]) [q 0 1; q 15 1] = true.
Proof.
  split; [|split; vm_compute; reflexivity]. split; [repeat constructor|]. intros [|i] [|j] Hi Hj; simpl in Hi, Hj; try lia. apply Qc_is_canon. vm_compute. reflexivity.
Qed.

(** diag(1, 1, 5, 5), two cycles of two pairs each: 1, 5 and 1, 5. Cutting before sorting returns 1, 5 although 1, 1 was found. *)
Definition ex_op4 : vec QcOF -> vec QcOF := mulvec (tridiag [q 1 1; q 1 1; q 5 1; q 5 1] [q 0 1; q 0 1; q 0 1]).
Definition ex_dstev4 := dstev_of [([q 89 25; q 61 25], [q 48 25], ([q 1 1; q 5 1], [q 3 5; q (-4) 5; q 4 5; q 3 5]))].
Definition ex_rand (seed i : nat) : QcOF := if Nat.odd i then q 1 2 else q 0 1.
Definition ex_guess4 : vec QcOF := [q 9 5; q 12 5; q 12 5; q 16 5].
Definition ex_solve4 (n_eig : nat) := solve qsqrt true ex_dstev4 (q 1 1000) ex_rand (@insertion_sort nat) ex_op4 true n_eig 2 2 2 (q 0 1) 0 ex_guess4.
Definition ex_cycles4 := cycles qsqrt true ex_dstev4 (q 1 1000) ex_rand 2 0 ex_op4 2 2 (q 0 1) 0 [] ex_guess4.
Example C34_hypotheses : symmetric_on (fun x : vec QcOF => length x = 4) ex_op4 /\ sqrt_ok qsqrt /\ dstev_ok ex_dstev4 /\ std_sort_contract (@insertion_sort nat) /\ length ex_guess4 = 4.
Proof.
  split; [apply (@symmetric_tridiag QcOF [q 1 1; q 1 1; q 5 1; q 5 1])|]. split; [apply qsqrt_ok|]. split; [apply dstev_of_ok|]. split; [apply insertion_sort_contract|reflexivity].
Qed.
(** With all four requested the result is 1, 1, 5, 5 with the vectors of both cycles. *)
Example C34_example : ok_with (ex_solve4 4) (fun r => veqb (map fst r) [q 1 1; q 1 1; q 5 1; q 5 1] &&
  forallb (fun i => forallb (fun j => feqb (dot (nth i (map snd r) []) (nth j (map snd r) [])) (if (i =? j) then q 1 1 else q 0 1)) (seq 0 4)) (seq 0 4)) = true.
Proof. vm_compute. reflexivity. Qed.
Theorem C34_smallest_refuted : exists n op fsqrt dstev (tol2 : QcOF) rand std_sort n_eig per ncyc maxit (tol : QcOF) percent guess r ps,
  symmetric_on (fun x : vec QcOF => length x = n) op /\ sqrt_ok fsqrt /\ dstev_ok dstev /\ std_sort_contract std_sort /\ length guess = n /\ n_eig <= ncyc * per /\
  solve fsqrt true dstev tol2 rand std_sort op true n_eig per ncyc maxit tol percent guess = Ok r /\
  cycles fsqrt true dstev tol2 rand ncyc 0 op per maxit tol percent [] guess = Ok ps /\
  n_eig <= length (filter (fun p => fltb (fst p) (nth (n_eig - 1) (map fst r) f0)) ps).
Proof.
  destruct (ok_with_ex ex_cycles4 (fun ps => 2 <=? length (filter (fun p => fltb (fst p) (q 5 1)) ps))) as (ps & E1 & P1); [vm_compute; reflexivity|].
  destruct (ok_with_ex (ex_solve4 2) (fun r => veqb (map fst r) [q 1 1; q 5 1])) as (r & E2 & P2); [vm_compute; reflexivity|].
  exists 4, ex_op4, qsqrt, ex_dstev4, (q 1 1000), ex_rand, (@insertion_sort nat), 2, 2, 2, 2, (q 0 1), 0, ex_guess4, r, ps.
  destruct C34_hypotheses as (H1 & H2 & H3 & H4 & H5). split; [exact H1|]. split; [exact H2|]. split; [exact H3|]. split; [exact H4|]. split; [exact H5|]. split; [lia|].
  split; [exact E2|]. split; [exact E1|]. apply veqb_eq in P2. rewrite P2. apply Nat.leb_le. exact P1.
Qed.
Print Assumptions C34_smallest_refuted.
