(** Proofs about the eigenvectors computed on the device: one agglomerate, all agglomerates. *)
From Coq Require Import List Arith Lia Bool Field Permutation.
From Verif Require Import Base OField Mat LinAlg M_SpProd S_SpProd P_SpProd M_Csr S_Csr P_Csr P_Csr4 M_Dev S_CudaOp S_Lanczos S_Eig P_Eig P_Span P_Lanczos8 P_Lanczos9
  M_DevSolve S_DevSolve P_DevSolve M_Restr S_Restr M_AmgeDev S_AmgeDev P_AmgeDev.
Import ListNotations.
Set Implicit Arguments.
Open Scope nat_scope.

Section Spectrum.
  Variable K : ofield.
  Add Field KfAmgeDev : (f_field K).
  Implicit Types A : mat K.
  Local Open Scope K_scope.

  Lemma eigen_meq : forall A B w a, meq A B -> eigen_system A w a -> eigen_system B w a.
  Proof.
    intros A B w a M [H1 [H2 [H3 [H4 H5]]]]. pose proof M as [Q1 _]. unfold eigen_system. rewrite <- Q1. split; auto. split; auto. split; auto. split; auto.
    intros i Hi. rewrite <- (@mulvec_meq K A B _ M). apply H5. auto.
  Qed.
  Lemma sym_dot : forall A (x y : vec K), symmetric_matrix A -> length x = nr A -> length y = nr A -> dot (mulvec A x) y = dot x (mulvec A y).
  Proof.
    intros A x y [Sq Sy] Hx Hy. unfold square in Sq. rewrite (mulvec_adjoint A x y) by congruence. f_equal. unfold mulTvec. apply mulvec_meq.
    split; [auto|]. split; [simpl; auto|]. intros i j Hi Hj. simpl in *. apply Sy; congruence.
  Qed.
  (** The first ones of a full set of eigenvectors. *)
  Lemma first_eigenvectors : forall A w a k, symmetric_matrix A -> eigen_system A w a -> (k <= nr A)%nat ->
    smallest_eigenvectors A (firstn k w) (@map nat (vec K) (fun i => chunk (nr A) i a) (seq 0 k)).
  Proof.
    intros A w a k HS [H1 [H2 [H3 [H4 H5]]]] Hk. set (n := nr A) in *. set (vs := @map nat (vec K) (fun i => chunk n i a) (seq 0 n)) in *.
    assert (F : @map nat (vec K) (fun i => chunk n i a) (seq 0 k) = firstn k vs).
    { unfold vs. rewrite firstn_map. f_equal. replace n with (k + (n - k))%nat by lia. rewrite seq_app, firstn_app, seq_length, Nat.sub_diag, firstn_O, app_nil_r.
      symmetry. replace k with (length (seq 0 k)) at 1 by apply seq_length. apply firstn_all. }
    assert (Lk : length (@map nat (vec K) (fun i => chunk n i a) (seq 0 k)) = k) by (rewrite map_length, seq_length; auto).
    assert (Nk : forall i, (i < k)%nat -> nth i (@map nat (vec K) (fun i => chunk n i a) (seq 0 k)) [] = chunk n i a).
    { intros i Hi. rewrite (@nth_map_lt nat (vec K) (fun i => chunk n i a) (seq 0 k) [] 0%nat i) by (rewrite seq_length; auto). rewrite seq_nth by auto. auto. }
    split.
    - rewrite Lk, firstn_length. lia.
    - rewrite F. apply orthonormal_firstn. auto.
    - rewrite Lk. intros i Hi. rewrite Nk, nth_first by auto. unfold eigenpair. apply H5. lia.
    - intros i j Hij Hj. rewrite firstn_length in Hj. rewrite !nth_first by lia. apply H3; lia.
    - rewrite Lk. intros mu v Hv Hv0 Ev Ho i Hi. rewrite nth_first by auto.
      assert (D : exists j, (j < n)%nat /\ dot v (chunk n j a) <> 0).
      { destruct (Exists_dec (fun u => dot v u <> 0) vs) as [E|E].
        - intros u. destruct (@feq_dec K (dot v u) 0) as [Q|Q]; [right; auto|left; auto].
        - apply Exists_exists in E. destruct E as [u [Hu Du]]. unfold vs in Hu. apply in_map_iff in Hu. destruct Hu as [j [<- Hj]]. apply in_seq in Hj.
          exists j. split; [lia|auto].
        - exfalso. apply Hv0. apply (@orthonormal_full K n vs v); auto.
          + unfold vs. rewrite map_length, seq_length. auto.
          + intros u Hu. destruct (@feq_dec K (dot v u) 0) as [Q|Q]; auto. exfalso. apply E. apply Exists_exists. eauto. }
      destruct D as [j [Hj Dj]]. assert (Lc : length (chunk n j a) = n).
      { unfold chunk. rewrite firstn_length, skipn_length, H2. nia. }
      assert (Kj : (k <= j)%nat).
      { destruct (le_lt_dec k j) as [|Lt]; auto. exfalso. apply Dj. apply Ho. rewrite <- (Nk j Lt). apply nth_In. rewrite Lk. auto. }
      assert (E : mu * dot v (chunk n j a) = nth j w 0 * dot v (chunk n j a)).
      { rewrite <- dot_scale_l. rewrite <- Ev. destruct HS as [Sq Sy].
        transitivity (dot v (mulvec A (chunk n j a))).
        - apply sym_dot; [split; auto|fold n; auto|fold n; auto].
        - rewrite H5 by auto. rewrite dot_comm, dot_scale_l, dot_comm. auto. }
      assert (mu = nth j w 0). { assert (Z : (mu - nth j w 0) * dot v (chunk n j a) = 0) by (transitivity (mu * dot v (chunk n j a) - nth j w 0 * dot v (chunk n j a)); [ring|rewrite E; ring]).
        apply fmul_eq_0 in Z. destruct Z as [Z|Z]; [|contradiction]. transitivity ((mu - nth j w 0) + nth j w 0); [ring|rewrite Z; ring]. }
      subst mu. apply H3; lia.
  Qed.
End Spectrum.

Section Agglomerate.
  Variable K : ofield.
  Implicit Types (h : heap K) (A : mat K).
  Ltac ok E := rewrite E; cbn [bind].
  Ltac cases := repeat match goal with |- context [?a =? ?b] => destruct (Nat.eqb_spec a b); auto; try lia end.
  Lemma nonempty : forall T (l : list T), 0 < length l -> l <> [].
  Proof. intros T l H ->. simpl in H. lia. Qed.

  (** What compute_local_eigenvectors leaves. *)
  Definition eigenvectors_left (A : mat K) (k : nat) h (r : pointer * pointer * pointer * heap K) : Prop :=
    exists w a' sp vp dp q h', r = (Some sp, Some vp, Some dp, h') /\ eigen_system A w a' /\
      h_next h <= q /\ q < dp /\ dp < sp /\ sp < vp /\ vp < h_next h' /\ allocator_ok h' /\
      forall i, lookup h' i = if i =? sp then Some (CVals (firstn k w)) else if i =? vp then Some (CVals (firstn (k * nr A) a'))
        else if i =? dp then Some (CVals (map (fun i => ent A i i) (seq 0 (nr A)))) else if i =? q then Some CDescr else lookup h i.
  Lemma local_run : forall debug Z g k (c : csr K) w range domain A h, eig_library_ok Z -> device_matrix [c] [range] [domain] A -> symmetric_matrix A ->
    columns_once c -> 0 < k -> 0 < nr A -> agg_env_ok (nr A) k g -> allocator_ok h ->
    (eig_succeeds Z A -> k <= nr A -> exists r, local_eigenvectors debug Z g k c w h = Ok r /\ eigenvectors_left A k h r) /\
    (eig_succeeds Z A -> nr A < k -> local_eigenvectors debug Z g k c w h = UB) /\
    (eig_fails Z A -> debug = true -> local_eigenvectors debug Z g k c w h = Abort).
  Proof.
    intros debug Z g k c w range domain A h HZ HA HS Ho Hk Hn Hg Ha. pose proof (proj1 HS) as Hsq. unfold square in Hsq.
    destruct (dense_ready debug w HA Hsq Hn Ho Ha) as [a [p [q [h1 [E1 [La [MA [Hq [Hp Q1]]]]]]]]]. set (n := nr A) in *.
    assert (Cm : c_m c = n /\ c_n c = n). { destruct (dm_sizes HA c) as [S1 S2]; [simpl; auto|]. split; unfold n in *; lia. } destruct Cm as [Cm Cn].
    unfold local_eigenvectors. rewrite Cm, Cn. ok E1.
    destruct (@lookup_malloc_vals K h1 (g_diag g)) as [h2 [A2 [N2 Q2]]]; [apply nonempty; rewrite (go_len_diag Hg); auto|]. rewrite A2.
    assert (B2 : buffer h2 (Some p) = Ok a) by (cbn [buffer]; rewrite Q2, Q1; look). ok B2.
    destruct (@kernel_ok K (g_order_diag g) (extract_diag a n n) (h_next h1) h2 (g_diag g) (map (fun i => nth (i + i * n) a f0) (seq 0 n))) as [h3 [A3 [N3 Q3]]];
      [rewrite Q2; look|apply diag_kernel; auto; apply Hg|]. ok A3.
    destruct (@lookup_malloc_vals K h3 (g_mass g)) as [h4 [A4 [N4 Q4]]]; [apply nonempty; rewrite (go_len_mass Hg); nia|]. rewrite A4.
    destruct (@identity_kernel K (g_order_mass g) (g_mass g) n Hn (go_mass Hg) (go_len_mass Hg)) as [b [Eb [Lb Ib]]].
    destruct (@kernel_ok K (g_order_mass g) (fill_identity n n) (h_next h3) h4 (g_mass g) b) as [h5 [A5 [N5 Q5]]]; [rewrite Q4; look|auto|]. ok A5.
    destruct (@lookup_malloc_vals K h5 (g_values g)) as [h6 [A6 [N6 Q6]]]; [apply nonempty; rewrite (go_len_values Hg); auto|]. rewrite A6.
    assert (O6 : allocator_ok h6). { intros i Hi. rewrite Q6, Q5, Q4, Q3, Q2, Q1. cases. apply Ha. lia. }
    assert (L6a : lookup h6 p = Some (CVals a)). { rewrite Q6, Q5, Q4, Q3, Q2, Q1. cases. }
    assert (L6b : lookup h6 (h_next h3) = Some (CVals b)). { rewrite Q6, Q5. cases. }
    assert (L6c : lookup h6 (h_next h5) = Some (CVals (g_values g))). { rewrite Q6. cases. }
    assert (SA : symmetric_matrix (columns_matrix n a)) by (apply (symmetric_meq (meq_sym' MA)); auto).
    pose proof (@sygvd_run K debug Z n p (h_next h3) (h_next h5) h6 a b (g_values g) Hn L6a L6b L6c ltac:(lia) ltac:(lia) ltac:(lia) La Lb (go_len_values Hg) O6) as R.
    pose proof (HZ n a b La Lb SA Ib) as C. 
    assert (Sc : eig_succeeds Z A -> snd (z_sygvd Z n a b) = 0) by (intros S; apply S; auto).
    assert (Fc : eig_fails Z A -> snd (z_sygvd Z n a b) <> 0) by (intros S; apply S; auto).
    destruct (z_sygvd Z n a b) as [[[a' b'] ws] info]. destruct C as [Lb' [La' [Lw C]]]. destruct (R La' Lb' Lw) as [R1 R2]. cbn [snd] in Sc, Fc.
    assert (Tail : eig_succeeds Z A -> exists h7, sygvd debug Z n (Some p) (Some (h_next h3)) (Some (h_next h5)) h6 = Ok h7 /\ h_next h6 <= h_next h7 /\
       forall i, lookup h7 i = if i =? p then Some (CVals a') else if i =? h_next h3 then Some (CVals b') else if i =? h_next h5 then Some (CVals ws) else lookup h6 i).
    { intros S. apply R2. auto. }
    split; [|split].
    - intros S Kn. destruct (Tail S) as [h7 [A7 [N7 Q7]]]. ok A7. clear R R1 R2 Tail. specialize (C (Sc S)).
      destruct (@lookup_free K h7 (h_next h3) (CVals b')) as [h8 [A8 [N8 Q8]]]; [rewrite Q7; look|]. ok A8.
      destruct (@lookup_malloc_vals K h8 (g_smallest g)) as [h9 [A9 [N9 Q9]]]; [apply nonempty; rewrite (go_len_smallest Hg); auto|]. rewrite A9.
      assert (B9 : buffer h9 (Some (h_next h5)) = Ok ws) by (cbn [buffer]; rewrite Q9, Q8, Q7; look). ok B9.
      destruct (@kernel_ok K (g_order_values g) (restrict_array ws k) (h_next h8) h9 (g_smallest g) (firstn k ws)) as [h10 [A10 [N10 Q10]]];
        [rewrite Q9; look|apply restrict_kernel; [apply Hg|apply Hg|lia]|]. ok A10.
      destruct (@lookup_free K h10 (h_next h5) (CVals ws)) as [h11 [A11 [N11 Q11]]]; [rewrite Q10, Q9, Q8, Q7; look|]. ok A11.
      destruct (@lookup_malloc_vals K h11 (g_vectors g)) as [h12 [A12 [N12 Q12]]]; [apply nonempty; rewrite (go_len_vectors Hg); nia|]. rewrite A12.
      assert (B12 : buffer h12 (Some p) = Ok a') by (cbn [buffer]; rewrite Q12, Q11, Q10, Q9, Q8, Q7; look). ok B12.
      destruct (@kernel_ok K (g_order_vectors g) (restrict_array a' (k * n)) (h_next h11) h12 (g_vectors g) (firstn (k * n) a')) as [h13 [A13 [N13 Q13]]];
        [rewrite Q12; look|apply restrict_kernel; [apply Hg|apply Hg|nia]|]. ok A13.
      destruct (@lookup_free K h13 p (CVals a')) as [h14 [A14 [N14 Q14]]]; [rewrite Q13, Q12, Q11, Q10, Q9, Q8, Q7; look|]. ok A14.
      eexists. split; [reflexivity|]. exists ws, a', (h_next h8), (h_next h11), (h_next h1), q, h14. split; auto.
      split; [apply (eigen_meq MA); auto|]. split; [lia|]. split; [lia|]. split; [lia|]. split; [lia|]. split; [lia|].
      assert (DD : map (fun i => nth (i + i * n) a f0) (seq 0 n) = map (fun i => ent A i i) (seq 0 n)).
      { apply map_ext_in. intros i Hi. apply in_seq in Hi. destruct MA as [_ [_ M]]. apply (M i i); cbn [nr nc columns_matrix]; lia. }
      assert (Final : forall i, lookup h14 i = if i =? h_next h8 then Some (CVals (firstn k ws)) else if i =? h_next h11 then Some (CVals (firstn (k * n) a'))
        else if i =? h_next h1 then Some (CVals (map (fun i => ent A i i) (seq 0 n))) else if i =? q then Some CDescr else lookup h i).
      { intros i. rewrite Q14, Q13, Q12, Q11, Q10, Q9, Q8, Q7, Q6, Q5, Q4, Q3, Q2, Q1, DD. cases; try (symmetry; apply Ha; lia). }
      split; auto. intros i Hi. rewrite Final. cases. apply Ha. lia.
    - intros S Kn. destruct (Tail S) as [h7 [A7 [N7 Q7]]]. ok A7. clear R R1 R2 Tail. specialize (C (Sc S)).
      destruct (@lookup_free K h7 (h_next h3) (CVals b')) as [h8 [A8 [N8 Q8]]]; [rewrite Q7; look|]. ok A8.
      destruct (@lookup_malloc_vals K h8 (g_smallest g)) as [h9 [A9 [N9 Q9]]]; [apply nonempty; rewrite (go_len_smallest Hg); auto|]. rewrite A9.
      assert (B9 : buffer h9 (Some (h_next h5)) = Ok ws) by (cbn [buffer]; rewrite Q9, Q8, Q7; look). ok B9.
      unfold kernel. assert (B9' : buffer h9 (Some (h_next h8)) = Ok (g_smallest g)) by (cbn [buffer]; rewrite Q9; look). ok B9'.
      rewrite restrict_kernel_short; [auto|apply Hg|apply Hg|lia].
    - intros F ->. rewrite R1 by auto. auto.
  Qed.
End Agglomerate.
