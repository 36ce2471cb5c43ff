(** Proofs about the direct coarse solvers on the device (M_DevSolve), and heap lemmas. *)
From Coq Require Import String List Arith Lia Bool Sorted Field.
From Verif Require Import Base OField Mat M_SpProd S_SpProd P_SpProd M_Csr S_Csr P_Csr P_Csr3 P_Csr4 M_Dev S_CudaOp S_Eig M_DevSolve S_DevSolve.
Import ListNotations.
Set Implicit Arguments.
Open Scope nat_scope.

Section Heap.
  Variable K : ofield.
  Implicit Types (h : heap K).
  Lemma lookup_alloc : forall h c, exists h', alloc c h = (Some (h_next h), h') /\ h_next h' = S (h_next h) /\
    forall i, lookup h' i = if i =? h_next h then Some c else lookup h i.
  Proof.
    intros h c. eexists. split; [reflexivity|]. split; auto. intros i. unfold lookup. cbn [h_cells find fst]. rewrite (Nat.eqb_sym i).
    destruct (h_next h =? i); auto.
  Qed.
  Lemma lookup_malloc_vals : forall h l, l <> [] -> exists h', malloc_vals l h = (Some (h_next h), h') /\ h_next h' = S (h_next h) /\
    forall i, lookup h' i = if i =? h_next h then Some (CVals l) else lookup h i.
  Proof. intros h [|a l] H; [congruence|]. apply lookup_alloc. Qed.
  Lemma lookup_malloc_ints : forall h l, l <> [] -> exists h', malloc_ints l h = (Some (h_next h), h') /\ h_next h' = S (h_next h) /\
    forall i, lookup h' i = if i =? h_next h then Some (CInts l) else lookup h i.
  Proof. intros h [|a l] H; [congruence|]. apply lookup_alloc. Qed.
  Lemma lookup_malloc_junk : forall h n, 0 < n -> exists h', malloc_junk n h = (Some (h_next h), h') /\ h_next h' = S (h_next h) /\
    forall i, lookup h' i = if i =? h_next h then Some CJunk else lookup h i.
  Proof. intros h [|n] H; [lia|]. apply lookup_alloc. Qed.
  Lemma find_without : forall (l : list (nat * cell K)) x id,
    option_map snd (find (fun p => fst p =? x) (filter (fun p => negb (fst p =? id)) l)) =
    if x =? id then None else option_map snd (find (fun p => fst p =? x) l).
  Proof.
    intros l x id. induction l as [|[a c] l IH]; cbn [filter find fst]; [destruct (x =? id); auto|].
    destruct (Nat.eqb_spec a id) as [->|Ha]; cbn [negb].
    - rewrite IH. destruct (Nat.eqb_spec x id) as [->|Hx]; auto. replace (id =? x) with false; auto. symmetry. apply Nat.eqb_neq. auto.
    - cbn [find fst]. destruct (Nat.eqb_spec a x) as [->|Hax]; auto. cbn [option_map snd]. replace (x =? id) with false; auto.
      symmetry. apply Nat.eqb_neq. auto.
  Qed.
  Lemma lookup_free : forall h id c, lookup h id = Some c -> exists h', cuda_free (Some id) h = Ok h' /\ h_next h' = h_next h /\
    forall i, lookup h' i = if i =? id then None else lookup h i.
  Proof.
    intros h id c H. cbn [cuda_free]. unfold release. rewrite H. eexists. split; [reflexivity|]. split; auto. intros i. unfold lookup, without. cbn [h_cells].
    apply find_without.
  Qed.
  Lemma lookup_store : forall h id c c', lookup h id = Some c -> exists h', store_at (Some id) c' h = Ok h' /\ h_next h' = h_next h /\
    forall i, lookup h' i = if i =? id then Some c' else lookup h i.
  Proof.
    intros h id c c' H. cbn [store_at]. unfold store. rewrite H. eexists. split; [reflexivity|]. split; auto. intros i. unfold lookup, without.
    cbn [h_cells find fst]. rewrite (Nat.eqb_sym i). destruct (Nat.eqb_spec id i) as [->|E]; auto. rewrite find_without.
    replace (i =? id) with false; auto. symmetry. apply Nat.eqb_neq. auto.
  Qed.
  Lemma read_vals_all : forall debug h id l, lookup h id = Some (CVals l) -> read_vals debug h (Some id) (length l) = Ok l.
  Proof.
    intros debug h id l H. unfold read_vals. destruct (Nat.eqb_spec (length l) 0) as [E|E]; [destruct l; [auto|discriminate]|].
    rewrite H, Nat.leb_refl, firstn_all. auto.
  Qed.
  Lemma read_ints_all : forall debug h id l, lookup h id = Some (CInts l) -> read_ints debug h (Some id) (length l) = Ok l.
  Proof.
    intros debug h id l H. unfold read_ints. destruct (Nat.eqb_spec (length l) 0) as [E|E]; [destruct l; [auto|discriminate]|].
    rewrite H, Nat.leb_refl, firstn_all. auto.
  Qed.
End Heap.

(** Decides lookups in a heap that is known by the chain of operations that made it. *)
Ltac look := repeat match goal with
  | L : forall i, lookup ?h i = _ |- context [lookup ?h _] => rewrite !L
  end;
  repeat match goal with |- context [?a =? ?b] => destruct (Nat.eqb_spec a b); try lia end; subst; try reflexivity; try lia.

Section P.
  Variable K : ofield.
  Add Field KfDevSolve : (f_field K).
  Implicit Types (A : mat K) (c : csr K).

  Lemma slice_all : forall T (l : list T), slice l 0 (length l) = Ok l.
  Proof. intros T l. unfold slice. simpl. rewrite Nat.leb_refl, firstn_all. auto. Qed.
  Lemma slice_n : forall T (l : list T) n, length l = n -> slice l 0 n = Ok l.
  Proof. intros T l n <-. apply slice_all. Qed.
  Lemma read_vals_n : forall debug (h : heap K) id l n, lookup h id = Some (CVals l) -> length l = n -> read_vals debug h (Some id) n = Ok l.
  Proof. intros debug h id l n H <-. apply read_vals_all. auto. Qed.
  Lemma read_ints_n : forall debug (h : heap K) id l n, lookup h id = Some (CInts l) -> length l = n -> read_ints debug h (Some id) n = Ok l.
  Proof. intros debug h id l n H <-. apply read_ints_all. auto. Qed.
  Lemma wr_at_all : forall T (l l' : list T), length l = length l' -> wr_at l 0 l' = Ok l'.
  Proof.
    intros T l l' H. unfold wr_at. simpl. rewrite H, Nat.leb_refl. simpl. rewrite <- H, skipn_all, app_nil_r. auto.
  Qed.

  (** On one rank the range is everything. *)
  Lemma single_range : forall n p, distribution n [p] -> p = seq 0 n.
  Proof.
    intros n p [[Hn Hi] Hs]. apply sorted_unique; [apply Hs; simpl; auto|apply seq_sorted|].
    intros x. simpl in Hi. rewrite app_nil_r in Hi. rewrite Hi, in_seq. lia.
  Qed.
  Lemma stored_value_entry : forall (row : list (nat * K)) j, simple_row row -> stored_value row j = entry row j.
  Proof.
    intros row j. unfold stored_value. induction row as [|[a v] row IH]; intros H; auto. inversion H as [|? ? H1 H2]; subst. cbn [find fst].
    unfold entry. cbn [filter map fst snd]. destruct (Nat.eqb_spec a j) as [->|E].
    - replace (filter (fun e : nat * K => fst e =? j) row) with (@nil (nat * K)).
      + cbn [map snd]. unfold lsum. cbn. ring.
      + symmetry. clear -H1. induction row as [|[b w] row IH]; auto. simpl in *. destruct (Nat.eqb_spec b j) as [->|E]; [exfalso; auto|]. apply IH. auto.
    - apply IH. auto.
  Qed.

  (** A device matrix on one rank, as rows. *)
  Lemma single_rows : forall c range domain A, device_matrix [c] [range] [domain] A -> nr A = nc A -> columns_once c ->
    exists rows, csr_holds c rows /\ c_m c = nr A /\ c_n c = nr A /\ proper_rows (nr A) rows /\ csr_rows c (nr A) = Ok rows /\
      meq (rows_matrix (nr A) rows) A.
  Proof.
    intros c range domain A H Hsq Ho. pose proof (single_range (dm_rows H)) as ->. destruct (dm_holds H) as [Hr [Hi Hd]].
    destruct (Hd 0 c eq_refl) as [rows [R1 R2]]. destruct (dm_sizes H c) as [S1 S2]; [simpl; auto|].
    assert (Hl : length rows = nr A). { rewrite (cs_rows R1). simpl in Hr. injection Hr as ->. apply seq_length. }
    exists rows. split; auto. split; auto. split; [congruence|]. split; [split; auto; intros row Hrow; split|split].
    - apply (Ho rows R1 row Hrow).
    - intros e He. apply (In_nth _ _ []) in Hrow. destruct Hrow as [i [Hi' <-]]. destruct (R2 i Hi') as [Q _]. rewrite Hsq. auto.
    - unfold csr_rows. rewrite (@mapM_ok _ _ _ (fun i => nth i rows [])).
      + f_equal. rewrite <- Hl. apply nth_ext with (d := nth (length rows) rows []) (d' := []); [rewrite map_length, seq_length; auto|].
        intros i Hi'. rewrite map_length, seq_length in Hi'. rewrite (map_nth (fun i => nth i rows [])). rewrite seq_nth by auto. auto.
      + intros i Hi'. apply in_seq in Hi'. apply set_arguments_spec; auto. lia.
    - split; [auto|]. split; [simpl; auto|]. intros i j Hi' Hj. cbn [nr nc ent rows_matrix] in *. destruct (R2 i) as [_ Q]; [lia|].
      rewrite Q by lia. cbn [nth]. rewrite seq_nth by auto. auto.
  Qed.
  Lemma dense_ok : forall c n rows, csr_rows c n = Ok rows -> proper_rows n rows ->
    exists a, csr2dense c n n = Ok a /\ length a = n * n /\ meq (columns_matrix n a) (rows_matrix n rows).
  Proof.
    intros c n rows E [H1 H2]. unfold csr2dense. rewrite E. cbn [bind]. eexists. split; [reflexivity|]. split; [rewrite map_length, seq_length; auto|].
    split; [auto|]. split; [auto|]. intros i j Hi Hj. cbn [columns_matrix rows_matrix nr nc ent] in *.
    rewrite (nth_map_lt _ (seq 0 (n * n)) f0 0) by (rewrite seq_length; nia). rewrite seq_nth by nia. rewrite Nat.add_0_l.
    rewrite Nat.div_add by lia. rewrite Nat.mod_add by lia. rewrite Nat.mod_small, Nat.div_small by auto. apply stored_value_entry.
    apply H2. apply nth_In. lia.
  Qed.

  Lemma meq_sym' : forall A B : mat K, meq A B -> meq B A.
  Proof. intros A B [H1 [H2 H3]]. split; auto. split; auto. intros i j Hi Hj. symmetry. apply H3; congruence. Qed.
  Lemma regular_meq : forall A B, meq A B -> regular A -> regular B.
  Proof.
    intros A B H HA x Hx E. pose proof H as [H1 [H2 _]]. rewrite <- H2. apply HA; [congruence|]. rewrite (@mulvec_meq K A B x H). congruence.
  Qed.
  Lemma symmetric_meq : forall A B, meq A B -> symmetric_matrix A -> symmetric_matrix B.
  Proof.
    intros A B [H1 [H2 H3]] [S1 S2]. unfold square in S1. split; [unfold square; congruence|]. intros i j Hi Hj.
    rewrite <- !H3 by congruence. apply S2; congruence.
  Qed.
  Lemma spd_meq : forall A B, meq A B -> spd A -> spd B.
  Proof.
    intros A B H [S1 S2]. split; [eapply symmetric_meq; eauto|]. intros x Hx Hn. pose proof H as [H1 [H2 _]]. rewrite <- (@mulvec_meq K A B x H).
    apply S2; [congruence|]. rewrite H2. auto.
  Qed.
  Lemma spd_regular : forall A, spd A -> regular A.
  Proof.
    intros A [S1 S2] x Hx E. destruct (list_eq_dec (@feq_dec K) x (vzero (nc A))) as [|N]; auto. exfalso. specialize (S2 x Hx N). rewrite E in S2.
    rewrite dot_zero_l in S2. apply (flt_irrefl S2).
  Qed.
  Lemma regular_unique : forall A x y, regular A -> length x = nc A -> length y = nc A -> mulvec A x = mulvec A y -> x = y.
  Proof.
    intros A x y H Hx Hy E. assert (D : vsub x y = vzero (nc A)).
    { apply H; [rewrite vsub_length; lia|]. rewrite (lin_sub (mulvec_linear A)) by auto. rewrite E, vsub_self, mulvec_length. auto. }
    apply vec_ext; [congruence|]. intros i Hi. assert (Q : nth i (vsub x y) 0%K = 0%K) by (rewrite D; apply nth_vzero).
    rewrite nth_vsub in Q by congruence. transitivity ((nth i x 0 - nth i y 0) + nth i y 0)%K; [ring|]. rewrite Q. ring.
  Qed.

  Ltac ok E := rewrite E; cbn [bind].
  Lemma assert_ok : forall debug, assert_dbg debug true = Ok tt.
  Proof. intros []; auto. Qed.

  (** All three solvers: the outcome in terms of what the library reports. *)
  Lemma cholesky_run : forall debug Y c handle b x n rows, csr_rows c n = Ok rows -> c_m c = n -> length b = n -> length x = n ->
    length (fst (y_chol Y n rows b x)) = n ->
    cholesky debug Y (mkSolverMatrix c handle true) b x =
    if debug && negb (snd (y_chol Y n rows b x)) then Abort else Ok (fst (y_chol Y n rows b x)).
  Proof.
    intros debug Y c handle b x n rows E Hm Hb Hx Hl. unfold cholesky. cbn [v_csr v_descr negb]. rewrite Hm. ok E.
    rewrite (slice_n b Hb). cbn [bind]. rewrite (slice_n x Hx). cbn [bind].
    destruct (y_chol Y n rows b x) as [a r]. cbn [fst snd] in *. rewrite (wr_at_all x a) by congruence. destruct debug, r; reflexivity.
  Qed.
  Lemma lu_sparse_run : forall debug Y c handle b x n rows, csr_holds c rows -> length rows = n -> csr_rows c n = Ok rows -> c_m c = n ->
    length b = n -> length x = n -> length (fst (y_splu Y n rows b x)) = n ->
    lu_sparse_host debug Y (mkSolverMatrix c handle true) b x =
    if debug && negb (snd (y_splu Y n rows b x)) then Abort else Ok (fst (y_splu Y n rows b x)).
  Proof.
    intros debug Y c handle b x n rows H Hr E Hm Hb Hx Hl. unfold lu_sparse_host. cbn [v_csr v_descr negb]. rewrite Hm.
    assert (E1 : c_nnz c = length (c_val c)) by (rewrite (cs_nnz H), (cs_val H), map_length; auto).
    assert (E2 : c_nnz c = length (c_col c)) by (rewrite (cs_nnz H), (cs_col H), map_length; auto).
    assert (E3 : n + 1 = length (c_ptr c)) by (rewrite (cs_ptr_length H); congruence).
    rewrite (slice_n (c_val c) (eq_sym E1)). cbn [bind]. rewrite (slice_n (c_col c) (eq_sym E2)). cbn [bind]. rewrite (slice_n (c_ptr c) (eq_sym E3)). cbn [bind].
    rewrite (slice_n b Hb). cbn [bind]. rewrite (slice_n x Hx). cbn [bind].
    replace (csr_rows (mkCsr (c_val c) (c_col c) (c_ptr c) (c_nnz c) n (c_n c) [] []) n) with (csr_rows c n) by reflexivity. ok E.
    destruct (y_splu Y n rows b x) as [a r]. cbn [fst snd] in *. rewrite (wr_at_all x a) by congruence. destruct debug, r; reflexivity.
  Qed.
  Lemma lu_dense_run : forall debug Y c b x n rows h, solver_library_ok Y -> 0 < n -> csr_rows c n = Ok rows -> proper_rows n rows ->
    c_m c = n -> c_n c = n -> length b = n -> length x = n -> allocator_ok h ->
    (regular (rows_matrix n rows) -> exists y h', lu_dense debug Y (mkSolverMatrix c true true) b x h = Ok (y, h') /\ length y = n /\
       mulvec (rows_matrix n rows) y = b /\ same_memory h h' /\ allocator_ok h') /\
    (~ regular (rows_matrix n rows) -> debug = true -> lu_dense debug Y (mkSolverMatrix c true true) b x h = Abort).
  Proof.
    intros debug Y c b x n rows h HY Hn E Hp Hm Hc Hb Hx Ha. destruct (dense_ok c E Hp) as [a [E1 [L1 M1]]].
    pose proof (yo_lu HY n a L1) as [F1 [F2 [F3 F4]]]. pose proof (yo_work HY a Hn) as W.
    assert (Hna : a <> []) by (intros ->; simpl in L1; nia).
    unfold lu_dense. cbn [v_csr v_handle v_descr andb negb]. rewrite Hm, Hc, Nat.eqb_refl, assert_ok. cbn [bind]. ok E1.
    destruct (lookup_malloc_vals h Hna) as [h1 [A1 [N1 Q1]]]. rewrite A1.
    replace (0 <? y_work Y n a) with true by (symmetry; apply Nat.ltb_lt; auto). rewrite assert_ok. cbn [bind].
    destruct (lookup_malloc_junk h1 W) as [h2 [A2 [N2 Q2]]]. rewrite A2.
    destruct (y_getrf Y n a) as [[fac piv] info] eqn:EF. cbn [fst snd] in *.
    assert (Hnp : piv <> []) by (intros ->; simpl in F2; lia).
    destruct (lookup_malloc_ints h2 Hnp) as [h3 [A3 [N3 Q3]]]. rewrite A3.
    destruct (@lookup_malloc_ints K h3 [info]) as [h4 [A4 [N4 Q4]]]; [discriminate|]. rewrite A4.
    destruct (@lookup_store K h4 (h_next h) (CVals a) (CVals fac)) as [h5 [A5 [N5 Q5]]]; [look|]. ok A5.
    assert (I : read_ints debug h5 (Some (h_next h3)) 1 = Ok [info]). { apply (@read_ints_all K debug h5 (h_next h3) [info]). look. }
    ok I. cbn [nth]. split.
    - intros R. destruct (F4 (regular_meq (meq_sym' M1) R)) as [-> F5]. rewrite Nat.eqb_refl, assert_ok. cbn [bind].
      rewrite (slice_n b Hb). cbn [bind]. rewrite wr_at_all by congruence. cbn [bind].
      rewrite (@read_vals_n debug h5 (h_next h) fac) by (auto; look). cbn [bind].
      rewrite (@read_ints_n debug h5 (h_next h2) piv) by (auto; look). cbn [bind].
      rewrite (slice_n b Hb). cbn [bind].
      specialize (F5 b Hb). destruct (y_getrs Y n fac piv b) as [y i2]. cbn [fst snd] in F5. destruct F5 as [-> [Y1 Y2]].
      rewrite wr_at_all by congruence. cbn [bind].
      destruct (@lookup_store K h5 (h_next h3) (CInts [0]) (CInts [0])) as [h6 [A6 [N6 Q6]]]; [look|]. ok A6.
      rewrite Nat.eqb_refl, assert_ok. cbn [bind].
      destruct (@lookup_free K h6 (h_next h) (CVals fac)) as [h7 [A7 [N7 Q7]]]; [look|]. ok A7.
      destruct (@lookup_free K h7 (h_next h1) CJunk) as [h8 [A8 [N8 Q8]]]; [look|]. ok A8.
      destruct (@lookup_free K h8 (h_next h2) (CInts piv)) as [h9 [A9 [N9 Q9]]]; [look|]. ok A9.
      destruct (@lookup_free K h9 (h_next h3) (CInts [0])) as [h10 [A10 [N10 Q10]]]; [look|]. ok A10.
      exists y, h10. split; auto. split; auto. split; [rewrite <- (@mulvec_meq K _ _ y M1); auto|]. split.
      + intros id. look; symmetry; apply Ha; lia.
      + intros id Hid. rewrite Q10, Q9, Q8, Q7, Q6, Q5, Q4, Q3, Q2, Q1.
        repeat match goal with |- context [?a =? ?b] => destruct (Nat.eqb_spec a b); auto; try lia end. apply Ha. lia.
    - intros R ->. assert (F6 : info <> 0). { apply F3. intros Q. apply R. eapply regular_meq; eauto. }
      replace (info =? 0) with false by (symmetry; apply Nat.eqb_neq; auto). auto.
  Qed.

  (** The three solvers behind their names. *)
  Lemma direct_solved : forall debug Y solver c range domain A b x h, solver_library_ok Y -> device_matrix [c] [range] [domain] A ->
    nr A = nc A -> 0 < nr A -> columns_once c -> direct_solvable solver A -> length b = nr A -> length x = nr A -> allocator_ok h ->
    exists y h', direct_apply debug Y solver (mkSolverMatrix c true true) b x h = Ok (y, h') /\ length y = nr A /\ mulvec A y = b /\
      same_memory h h' /\ allocator_ok h'.
  Proof.
    intros debug Y solver c range domain A b x h HY HA Hsq Hn Ho Hs Hb Hx Ha.
    destruct (single_rows HA Hsq Ho) as [rows [R1 [R2 [R3 [R4 [R5 R6]]]]]]. pose proof (proj1 R4) as R7.
    assert (Hself : same_memory h h) by (intros id; auto).
    destruct Hs as [[-> S]|[[->| ->] S]]; unfold direct_apply; cbn [String.eqb Ascii.eqb Bool.eqb].
    - pose proof (@spd_meq _ _ (meq_sym' R6) S) as S'. destruct (@yo_chol K Y HY _ rows b x R4 Hb Hx (proj1 S')) as [Q1 [_ Q3]]. destruct (Q1 S') as [T1 T2].
      rewrite (@cholesky_run debug Y c true b x _ rows R5 R2 Hb Hx Q3). rewrite T1, andb_false_r. cbn [bind]. exists (fst (y_chol Y (nr A) rows b x)), h.
      split; auto. split; auto. split; auto. rewrite <- (@mulvec_meq K _ _ _ R6). auto.
    - pose proof (regular_meq (meq_sym' R6) S) as S'.
      destruct (@lu_dense_run debug Y c b x _ rows h HY Hn R5 R4 R2 R3 Hb Hx Ha) as [Q _]. destruct (Q S') as [y [h' [E [L [T [M M']]]]]].
      exists y, h'. split; auto. split; auto. split; auto. rewrite <- (@mulvec_meq K _ _ _ R6). auto.
    - pose proof (regular_meq (meq_sym' R6) S) as S'. destruct (@yo_splu K Y HY _ rows b x R4 Hb Hx) as [Q1 [_ Q3]]. destruct (Q1 S') as [T1 T2].
      rewrite (@lu_sparse_run debug Y c true b x _ rows R1 R7 R5 R2 Hb Hx Q3). rewrite T1, andb_false_r. cbn [bind].
      exists (fst (y_splu Y (nr A) rows b x)), h. split; auto. split; auto. split; auto. rewrite <- (@mulvec_meq K _ _ _ R6). auto.
  Qed.
  Lemma direct_refused : forall Y solver c range domain A b x h, solver_library_ok Y -> device_matrix [c] [range] [domain] A ->
    nr A = nc A -> 0 < nr A -> columns_once c -> direct_unsolvable solver A -> length b = nr A -> length x = nr A -> allocator_ok h ->
    direct_apply true Y solver (mkSolverMatrix c true true) b x h = Abort.
  Proof.
    intros Y solver c range domain A b x h HY HA Hsq Hn Ho Hs Hb Hx Ha.
    destruct (single_rows HA Hsq Ho) as [rows [R1 [R2 [R3 [R4 [R5 R6]]]]]]. pose proof (proj1 R4) as R7.
    destruct Hs as [[-> [S N]]|[[->| ->] N]]; unfold direct_apply; cbn [String.eqb Ascii.eqb Bool.eqb].
    - pose proof (symmetric_meq (meq_sym' R6) S) as S'. destruct (@yo_chol K Y HY _ rows b x R4 Hb Hx S') as [_ [Q2 Q3]].
      rewrite (@cholesky_run true Y c true b x _ rows R5 R2 Hb Hx Q3). rewrite Q2; auto. intros Q. apply N. apply (spd_meq R6 Q).
    - destruct (@lu_dense_run true Y c b x _ rows h HY Hn R5 R4 R2 R3 Hb Hx Ha) as [_ Q]. apply Q; auto. intros Q'. apply N. apply (regular_meq R6 Q').
    - destruct (@yo_splu K Y HY _ rows b x R4 Hb Hx) as [_ [Q2 Q3]].
      rewrite (@lu_sparse_run true Y c true b x _ rows R1 R7 R5 R2 Hb Hx Q3). rewrite Q2; auto. intros Q. apply N. apply (regular_meq R6 Q).
  Qed.

  (** Host vectors. *)
  Lemma direct_host : forall debug Y solver (A : solver_matrix K) (b x : list K) h y, allocator_ok h -> b <> [] -> x <> [] -> length y = length x ->
    (forall h1, allocator_ok h1 -> exists h2, direct_apply debug Y solver A b x h1 = Ok (y, h2) /\ same_memory h1 h2 /\ allocator_ok h2) ->
    exists h', direct_apply_host debug Y solver A b x h = Ok (y, h') /\ same_memory h h' /\ allocator_ok h'.
  Proof.
    intros debug Y solver A b x h y Ha Hb Hx Hl H. unfold direct_apply_host.
    destruct (lookup_malloc_vals h Hx) as [h1 [A1 [N1 Q1]]]. rewrite A1.
    destruct (lookup_malloc_vals h1 Hb) as [h2 [A2 [N2 Q2]]]. rewrite A2.
    rewrite (@read_vals_all K debug h2) by look. cbn [bind]. rewrite (@read_vals_all K debug h2) by look. cbn [bind].
    destruct (H h2) as [h3 [E [S3 O3]]]. { intros id Hid. rewrite Q2, Q1. repeat match goal with |- context [?a =? ?b] => destruct (Nat.eqb_spec a b); try lia end. apply Ha. lia. }
    ok E. unfold same_memory in S3.
    assert (Ny : h_next h1 < h_next h3). { destruct (le_lt_dec (h_next h3) (h_next h1)) as [L|L]; auto. apply O3 in L. revert L. look. discriminate. }
    destruct (@lookup_store K h3 (h_next h) (CVals x) (CVals y)) as [h4 [A4 [N4 Q4]]]; [rewrite S3; look|]. ok A4.
    rewrite (@read_vals_n debug h4 (h_next h) y) by (auto; look). cbn [bind].
    destruct (@lookup_free K h4 (h_next h1) (CVals b)) as [h5 [A5 [N5 Q5]]]; [rewrite Q4, S3; look|]. ok A5.
    destruct (@lookup_free K h5 (h_next h) (CVals y)) as [h6 [A6 [N6 Q6]]]; [rewrite Q5, Q4; look|]. ok A6.
    rewrite wr_at_all by congruence. cbn [bind]. exists h6. split; auto. split.
    - intros id. rewrite Q6, Q5, Q4, S3, Q2, Q1. look; symmetry; apply Ha; lia.
    - intros id Hid. rewrite Q6, Q5, Q4. repeat match goal with |- context [?a =? ?b] => destruct (Nat.eqb_spec a b); auto; try lia end. apply O3. lia.
  Qed.

  (** A rank that owns fewer rows than the matrix has. *)
  Lemma csr_rows_short : forall c rows m, csr_holds c rows -> length rows < m -> csr_rows c m = UB.
  Proof.
    intros c rows m H Hl. unfold csr_rows. replace m with (length rows + S (m - length rows - 1)) by lia. rewrite seq_app. cbn [seq].
    assert (G : forall l t, (forall i, In i l -> exists r, set_arguments c i = Ok r) -> set_arguments c (length rows) = UB ->
      mapM (set_arguments c) (l ++ (length rows) :: t) = UB).
    { intros l. induction l as [|i l IH]; intros t Hok Hub; cbn [app mapM].
      - rewrite Hub. auto.
      - destruct (Hok i) as [r Er]; [simpl; auto|]. rewrite Er. cbn [bind]. rewrite IH; auto. intros. apply Hok. simpl; auto. }
    apply G.
    - intros i Hi. apply in_seq in Hi. exists (nth i rows []). apply set_arguments_spec; auto. lia.
    - unfold set_arguments, rd. pose proof (cs_ptr_length H) as Hp. rewrite (nth_error_nth_lt (c_ptr c) 0) by lia. cbn [bind].
      replace (nth_error (c_ptr c) (length rows + 1)) with (@None nat) by (symmetry; apply nth_error_None; lia). auto.
  Qed.
  Lemma direct_short : forall debug Y solver c rows b x h, csr_holds c rows -> length rows < c_m c -> c_m c = c_n c ->
    solver = "cholesky"%string \/ solver = "lu_dense"%string \/ solver = "lu_sparse_host"%string ->
    direct_apply debug Y solver (mkSolverMatrix c true true) b x h = UB.
  Proof.
    intros debug Y solver c rows b x h H Hl Hsq Hs. unfold direct_apply. destruct Hs as [->|[->| ->]]; cbn [String.eqb Ascii.eqb Bool.eqb].
    - unfold cholesky. cbn [v_csr v_descr negb]. rewrite (csr_rows_short H Hl). auto.
    - unfold lu_dense. cbn [v_csr v_handle v_descr negb andb]. rewrite <- Hsq, Nat.eqb_refl, assert_ok. cbn [bind]. unfold csr2dense.
      rewrite (csr_rows_short H Hl). auto.
    - unfold lu_sparse_host. cbn [v_csr v_descr].
      assert (E1 : c_nnz c = length (c_val c)) by (rewrite (cs_nnz H), (cs_val H), map_length; auto).
      assert (E2 : c_nnz c = length (c_col c)) by (rewrite (cs_nnz H), (cs_col H), map_length; auto).
      rewrite (slice_n (c_val c) (eq_sym E1)). cbn [bind]. rewrite (slice_n (c_col c) (eq_sym E2)). cbn [bind].
      unfold slice at 1. replace (0 + (c_m c + 1) <=? length (c_ptr c)) with false; auto. symmetry. apply Nat.leb_gt. rewrite (cs_ptr_length H). lia.
  Qed.
End P.
