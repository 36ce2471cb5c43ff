(** Proofs about the eigenvectors computed on the device: kernels, memory, linear algebra. *)
From Coq Require Import List Arith Lia Bool Field Permutation.
From Verif Require Import Base OField Mat LinAlg M_SpProd S_SpProd P_SpProd M_Csr S_Csr P_Csr P_Csr4 M_Dev S_Dev P_Dev P_Dev3 S_CudaOp S_Lanczos S_Eig P_Eig P_Span P_Lanczos8 P_Lanczos9
  M_DevSolve S_DevSolve P_DevSolve M_Restr S_Restr M_AmgeDev S_AmgeDev.
Import ListNotations.
Set Implicit Arguments.
Open Scope nat_scope.

Lemma nth_first : forall A (l : list A) d k i, i < k -> nth i (firstn k l) d = nth i l d.
Proof. intros A l. induction l as [|a l IH]; intros d k i H; [rewrite firstn_nil; auto|]. destruct k; [lia|]. destruct i; simpl; auto. apply IH. lia. Qed.

Section Kernels.
  Variable K : ofield.
  Implicit Types (h : heap K).

  Lemma rd_at : forall (l : list K) i, i < length l -> rd l i = Ok (nth i l f0).
  Proof. intros l i H. unfold rd. rewrite (nth_error_nth_lt l f0 H). auto. Qed.

  Lemma diag_kernel : forall order (a buf : list K) n, 0 < n -> some_order (n * n) order -> length a = n * n -> length buf = n ->
    launch order (extract_diag a n n) buf = Ok (map (fun i => nth (i + i * n) a f0) (seq 0 n)).
  Proof.
    intros order a buf n Hn Ho Ha Hb.
    destruct (@launch_writes K f0 (extract_diag a n n)
      (fun i => if i <? n * n then if i / n =? i mod n then Some (i mod n, nth i a f0) else None else None) order buf) as [r [E [L [W _]]]].
    - intros i b _ Hbl. unfold extract_diag. destruct (Nat.ltb_spec i (n * n)); auto. destruct (i / n =? i mod n); auto. rewrite rd_at by lia. auto.
    - intros i j v _. destruct (i <? n * n); [|discriminate]. destruct (i / n =? i mod n); [|discriminate]. intros E. injection E as <- _.
      rewrite Hb. apply Nat.mod_upper_bound. lia.
    - intros i i' j v v' _ _. destruct (Nat.ltb_spec i (n * n)); [|discriminate]. destruct (Nat.eqb_spec (i / n) (i mod n)) as [E1|]; [|discriminate].
      intros F. injection F as F1 F2. destruct (Nat.ltb_spec i' (n * n)); [|discriminate]. destruct (Nat.eqb_spec (i' / n) (i' mod n)) as [E2|]; [|discriminate].
      intros G. injection G as G1 G2. assert (i = i'). { rewrite (Nat.div_mod i n), (Nat.div_mod i' n) by lia. congruence. } congruence.
    - rewrite E. f_equal. apply (@list_ext K _ _ f0); [rewrite map_length, seq_length; lia|]. intros j Hj.
      rewrite (nth_map_lt _ (seq 0 n) f0 0) by (rewrite seq_length; lia). rewrite seq_nth by lia. rewrite Nat.add_0_l.
      apply (W (j + j * n)). { eapply some_order_in; eauto. nia. }
      replace (j + j * n <? n * n) with true by (symmetry; apply Nat.ltb_lt; nia).
      rewrite Nat.div_add, Nat.mod_add by lia. rewrite Nat.mod_small, Nat.div_small by lia. rewrite Nat.add_0_l, Nat.eqb_refl. auto.
  Qed.
  Lemma identity_kernel : forall order (buf : list K) n, 0 < n -> some_order (n * n) order -> length buf = n * n ->
    exists b, launch order (fill_identity n n) buf = Ok b /\ length b = n * n /\ identity_matrix (columns_matrix n b).
  Proof.
    intros order buf n Hn Ho Hb.
    destruct (@launch_writes K f0 (fill_identity n n)
      (fun i => if i <? n * n then Some (i, if i / n =? i mod n then f1 else f0) else None) order buf) as [r [E [L [W _]]]].
    - intros i b _ Hbl. unfold fill_identity. destruct (i <? n * n); auto. destruct (i / n =? i mod n); auto.
    - intros i j v _. destruct (Nat.ltb_spec i (n * n)); [|discriminate]. intros F. injection F as <- _. lia.
    - intros i i' j v v' _ _. destruct (i <? n * n), (i' <? n * n); try discriminate. intros F G. injection F as <- <-. injection G as -> <-. auto.
    - exists r. split; auto. split; [congruence|]. split; [reflexivity|]. cbn [nr columns_matrix ent]. intros i j Hi Hj.
      apply (W (i + j * n)). { eapply some_order_in; eauto. nia. }
      replace (i + j * n <? n * n) with true by (symmetry; apply Nat.ltb_lt; nia).
      rewrite Nat.div_add, Nat.mod_add by lia. rewrite Nat.mod_small, Nat.div_small by lia. rewrite Nat.add_0_l, (Nat.eqb_sym i j). auto.
  Qed.
  Lemma restrict_kernel : forall order (full buf : list K) size, some_order size order -> length buf = size -> size <= length full ->
    launch order (restrict_array full size) buf = Ok (firstn size full).
  Proof.
    intros order full buf size Ho Hb Hf.
    destruct (@launch_writes K f0 (restrict_array full size) (fun i => if i <? size then Some (i, nth i full f0) else None) order buf) as [r [E [L [W _]]]].
    - intros i b _ Hbl. unfold restrict_array. destruct (Nat.ltb_spec i size); auto. rewrite rd_at by lia. auto.
    - intros i j v _. destruct (Nat.ltb_spec i size); [|discriminate]. intros F. injection F as <- _. lia.
    - intros i i' j v v' _ _. destruct (i <? size), (i' <? size); try discriminate. intros F G. injection F as <- <-. injection G as -> <-. auto.
    - rewrite E. f_equal. apply (@list_ext K _ _ f0); [rewrite firstn_length; lia|]. intros j Hj. rewrite nth_first by lia.
      apply (W j). { eapply some_order_in; eauto. lia. } replace (j <? size) with true; auto. symmetry. apply Nat.ltb_lt. lia.
  Qed.
  Lemma restrict_kernel_short : forall order (full buf : list K) size, some_order size order -> length buf = size -> length full < size ->
    launch order (restrict_array full size) buf = UB.
  Proof.
    intros order full buf size Ho Hb Hf. assert (Hin : In (length full) order) by (eapply some_order_in; eauto).
    clear Ho. revert buf Hb. induction order as [|i order IH]; intros buf Hb; [contradiction|]. unfold launch in *. cbn [foldM].
    unfold restrict_array at 1. destruct (Nat.ltb_spec i size) as [Hi|Hi].
    - unfold rd. destruct (nth_error full i) as [v|] eqn:Ev; cbn [bind]; auto. rewrite wr_in by lia. cbn [bind]. apply IH.
      + destruct Hin as [->|]; auto. apply nth_error_lt in Ev. lia.
      + rewrite upd_length. auto.
    - cbn [bind]. apply IH; auto. destruct Hin as [->|]; auto. lia.
  Qed.

  Lemma kernel_ok : forall order body id h before after, lookup h id = Some (CVals before) -> launch order body before = Ok after ->
    exists h', kernel order body (Some id) h = Ok h' /\ h_next h' = h_next h /\ forall i, lookup h' i = if i =? id then Some (CVals after) else lookup h i.
  Proof.
    intros order body id h before after H E. unfold kernel. cbn [buffer]. rewrite H. cbn [bind]. rewrite E. cbn [bind].
    apply (@lookup_store K h id (CVals before) (CVals after)). auto.
  Qed.
  Lemma write_ok : forall id h before l, lookup h id = Some (CVals before) -> length before = length l ->
    exists h', write_vals (Some id) l h = Ok h' /\ h_next h' = h_next h /\ forall i, lookup h' i = if i =? id then Some (CVals l) else lookup h i.
  Proof.
    intros id h before l H E. unfold write_vals. cbn [buffer]. rewrite H. cbn [bind]. rewrite wr_at_all by auto. cbn [bind].
    apply (@lookup_store K h id (CVals before) (CVals l)). auto.
  Qed.
End Kernels.

Section Memory.
  Variable K : ofield.
  Implicit Types (h : heap K) (A : mat K).
  Ltac ok E := rewrite E; cbn [bind].
  Ltac cases := repeat match goal with |- context [?a =? ?b] => destruct (Nat.eqb_spec a b); auto; try lia end.

  Lemma fresh : forall h id, allocator_ok h -> lookup h id <> None -> id < h_next h.
  Proof. intros h id H E. destruct (le_lt_dec (h_next h) id) as [L|L]; auto. exfalso. apply E. apply H. auto. Qed.

  (** A new matrix occupies the numbers between those of the allocator before and after; destroying it frees exactly these. *)
  Lemma construct_spec : forall (c : csr K) rows w h, csr_holds c rows ->
    exists d h1, construct c w h = (d, h1) /\ h_next h <= h_next h1 /\ represents h1 d (VMatrix c w w) /\
      (forall id, In id (dev_ids d) -> h_next h <= id < h_next h1) /\
      (forall i, i < h_next h \/ h_next h1 <= i -> lookup h1 i = lookup h i) /\
      forall h2, (forall id, h_next h <= id < h_next h1 -> lookup h2 id = lookup h1 id) ->
        exists h3, destroy d h2 = Ok h3 /\ h_next h3 = h_next h2 /\
          forall i, lookup h3 i = if (h_next h <=? i) && (i <? h_next h1) then None else lookup h2 i.
  Proof.
    intros c rows w h R1.
    assert (V1 : length (c_val c) = c_nnz c) by (rewrite (cs_nnz R1), (cs_val R1), map_length; auto).
    assert (V2 : length (c_col c) = c_nnz c) by (rewrite (cs_nnz R1), (cs_col R1), map_length; auto).
    assert (V3 : length (c_ptr c) = length (c_range c) + 1) by (rewrite (cs_ptr_length R1), (cs_rows R1); auto).
    assert (Np : c_ptr c <> []) by (intros E; rewrite E in V3; simpl in V3; lia).
    unfold construct, new_buffers, destroy, device_of, attach.
    Ltac ranges := intros i; repeat match goal with
      | L : forall i, lookup ?h i = _ |- context [lookup ?h _] => rewrite !L end;
      repeat match goal with |- context [?a <=? ?b] => destruct (Nat.leb_spec a b) | |- context [?a <? ?b] => destruct (Nat.ltb_spec a b) end; cbn [andb];
      repeat match goal with |- context [?a =? ?b] => destruct (Nat.eqb_spec a b) end; try lia; auto.
    destruct (Nat.eq_dec (c_nnz c) 0) as [Z|Z].
    - assert (Ev : c_val c = []) by (destruct (c_val c); auto; simpl in V1; lia). assert (Ec : c_col c = []) by (destruct (c_col c); auto; simpl in V2; lia).
      rewrite Ev, Ec in *. cbn [malloc_vals malloc_ints].
      destruct (lookup_malloc_ints h Np) as [h1 [A1 [N1 Q1]]]. rewrite A1. destruct w.
      + destruct (lookup_alloc h1 CDescr) as [h2 [A2 [N2 Q2]]]. rewrite A2. cbn [d_n d_m d_val d_col d_ptr d_range d_domain d_lnnz d_descr d_handle d_nnz].
        eexists. eexists. split; [reflexivity|]. split; [lia|]. split; [|split; [|split]].
        * cbn [represents d_n d_m d_val d_col d_ptr d_range d_domain d_lnnz d_descr d_handle d_nnz values_at indices_at]. unfold sound_csr.
          repeat split; auto; try (rewrite Q2, Q1; look); rewrite ?Ev, ?Ec; auto.
        * unfold dev_ids. cbn. intros id [<-|[<-|[]]]; lia.
        * intros i Hi. rewrite Q2, Q1. look.
        * intros g Hg. cbn [d_val d_col d_ptr d_descr cuda_free bind].
          destruct (@lookup_free K g (h_next h) (CInts (c_ptr c))) as [g1 [B1 [M1 P1]]]; [rewrite Hg, Q2, Q1 by lia; look|]. cbn [cuda_free] in B1. ok B1.
          destruct (@lookup_free K g1 (h_next h1) CDescr) as [g2 [B2 [M2 P2]]]; [rewrite P1, Hg, Q2, Q1 by lia; look|]. cbn [cuda_free] in B2. ok B2.
          exists g2. split; auto. split; [lia|]. clear Q1 Q2. ranges.
      + eexists. eexists. split; [reflexivity|]. split; [lia|]. split; [|split; [|split]].
        * cbn [represents d_n d_m d_val d_col d_ptr d_range d_domain d_lnnz d_descr d_handle d_nnz values_at indices_at]. unfold sound_csr.
          repeat split; auto; try (rewrite Q1; look); rewrite ?Ev, ?Ec; auto.
        * unfold dev_ids. cbn. intros id [<-|[]]; lia.
        * intros i Hi. rewrite Q1. look.
        * intros g Hg. cbn [d_val d_col d_ptr d_descr cuda_free bind].
          destruct (@lookup_free K g (h_next h) (CInts (c_ptr c))) as [g1 [B1 [M1 P1]]]; [rewrite Hg, Q1 by lia; look|]. cbn [cuda_free] in B1. ok B1.
          exists g1. split; auto. split; [lia|]. clear Q1. ranges.
    - assert (Ev : c_val c <> []) by (intros E; rewrite E in V1; simpl in V1; lia). assert (Ec : c_col c <> []) by (intros E; rewrite E in V2; simpl in V2; lia).
      destruct (lookup_malloc_vals h Ev) as [h1 [A1 [N1 Q1]]]. rewrite A1. destruct (lookup_malloc_ints h1 Ec) as [h2 [A2 [N2 Q2]]]. rewrite A2.
      destruct (lookup_malloc_ints h2 Np) as [h3 [A3 [N3 Q3]]]. rewrite A3. destruct w.
      + destruct (lookup_alloc h3 CDescr) as [h4 [A4 [N4 Q4]]]. rewrite A4. cbn [d_n d_m d_val d_col d_ptr d_range d_domain d_lnnz d_descr d_handle d_nnz].
        eexists. eexists. split; [reflexivity|]. split; [lia|]. split; [|split; [|split]].
        * cbn [represents d_n d_m d_val d_col d_ptr d_range d_domain d_lnnz d_descr d_handle d_nnz values_at indices_at]. unfold sound_csr.
          repeat split; auto; rewrite Q4, Q3, Q2, Q1; look.
        * unfold dev_ids. cbn. intros id [<-|[<-|[<-|[<-|[]]]]]; lia.
        * intros i Hi. rewrite Q4, Q3, Q2, Q1. look.
        * intros g Hg. cbn [d_val d_col d_ptr d_descr].
          destruct (@lookup_free K g (h_next h) (CVals (c_val c))) as [g1 [B1 [M1 P1]]]; [rewrite Hg, Q4, Q3, Q2, Q1 by lia; look|]. ok B1.
          destruct (@lookup_free K g1 (h_next h1) (CInts (c_col c))) as [g2 [B2 [M2 P2]]]; [rewrite P1, Hg, Q4, Q3, Q2, Q1 by lia; look|]. ok B2.
          destruct (@lookup_free K g2 (h_next h2) (CInts (c_ptr c))) as [g3 [B3 [M3 P3]]]; [rewrite P2, P1, Hg, Q4, Q3, Q2, Q1 by lia; look|]. ok B3.
          destruct (@lookup_free K g3 (h_next h3) CDescr) as [g4 [B4 [M4 P4]]]; [rewrite P3, P2, P1, Hg, Q4, Q3, Q2, Q1 by lia; look|]. ok B4.
          exists g4. split; auto. split; [lia|]. clear Q1 Q2 Q3 Q4. ranges.
      + eexists. eexists. split; [reflexivity|]. split; [lia|]. split; [|split; [|split]].
        * cbn [represents d_n d_m d_val d_col d_ptr d_range d_domain d_lnnz d_descr d_handle d_nnz values_at indices_at]. unfold sound_csr.
          repeat split; auto; rewrite Q3, Q2, Q1; look.
        * unfold dev_ids. cbn. intros id [<-|[<-|[<-|[]]]]; lia.
        * intros i Hi. rewrite Q3, Q2, Q1. look.
        * intros g Hg. cbn [d_val d_col d_ptr d_descr].
          destruct (@lookup_free K g (h_next h) (CVals (c_val c))) as [g1 [B1 [M1 P1]]]; [rewrite Hg, Q3, Q2, Q1 by lia; look|]. ok B1.
          destruct (@lookup_free K g1 (h_next h1) (CInts (c_col c))) as [g2 [B2 [M2 P2]]]; [rewrite P1, Hg, Q3, Q2, Q1 by lia; look|]. ok B2.
          destruct (@lookup_free K g2 (h_next h2) (CInts (c_ptr c))) as [g3 [B3 [M3 P3]]]; [rewrite P2, P1, Hg, Q3, Q2, Q1 by lia; look|]. ok B3.
          cbn [cuda_free]. exists g3. split; auto. split; [lia|]. clear Q1 Q2 Q3. ranges.
  Qed.

  Lemma dense_ready : forall debug (c : csr K) w range domain A h, device_matrix [c] [range] [domain] A -> nr A = nc A -> 0 < nr A -> columns_once c ->
    allocator_ok h ->
    exists a p q h', dense_agglomerate debug c w h = Ok (Some p, h') /\ length a = nr A * nr A /\ meq (columns_matrix (nr A) a) A /\
      h_next h <= q < p /\ p < h_next h' /\
      forall i, lookup h' i = if i =? p then Some (CVals a) else if i =? q then Some CDescr else lookup h i.
  Proof.
    intros debug c w range domain A h HA Hsq Hn Ho Ha. destruct (single_rows HA Hsq Ho) as [rows [R1 [R2 [R3 [R4 [R5 R6]]]]]].
    destruct (dense_ok c R5 R4) as [a [E1 [L1 M1]]]. assert (Hna : a <> []) by (intros ->; simpl in L1; nia).
    assert (MA : meq (columns_matrix (nr A) a) A).
    { destruct M1 as [Q1 [Q2 Q3]], R6 as [T1 [T2 T3]]. split; [congruence|]. split; [congruence|]. intros i j Hi Hj. rewrite Q3 by auto. apply T3; congruence. }
    destruct (construct_spec w h R1) as [d [h1 [A1 [N1 [P1 [D1 [F1 X1]]]]]]]. unfold dense_agglomerate. rewrite A1.
    destruct (lookup_alloc h1 CDescr) as [h2 [A2 [N2 Q2]]]. rewrite A2.
    pose proof P1 as [_ [_ [_ [_ [_ [_ [_ [_ [Dm [Dn _]]]]]]]]]]. rewrite Dm, Dn, R2, R3, Nat.eqb_refl, assert_ok. cbn [bind].
    replace (read_descr debug h2 (Some (h_next h1))) with (Ok tt) by (cbn [read_descr]; look). cbn [bind].
    rewrite (@represents_contents K debug h2 d c w w).
    2: { eapply represents_frame; [exact P1|]. intros id Hid. specialize (D1 id Hid). look. }
    cbn [bind]. ok E1. destruct (lookup_malloc_vals h2 Hna) as [h3 [A3 [N3 Q3]]]. rewrite A3.
    destruct (X1 h3) as [h4 [E4 [N4 Q4]]]. { intros id Hid. rewrite Q3, Q2. look. }
    ok E4. exists a, (h_next h2), (h_next h1), h4. split; auto. split; auto. split; auto. split; [lia|]. split; [lia|].
    intros i. rewrite Q4, Q3, Q2. destruct (Nat.leb_spec (h_next h) i), (Nat.ltb_spec i (h_next h1)); cbn [andb]; cases; try (rewrite F1 by lia; auto).
    symmetry. apply Ha. auto.
  Qed.

  (** cuSOLVER on the three buffers. *)
  Lemma sygvd_run : forall debug (Z : eig_library K) n (A B W : nat) (h : heap K) a b w, 0 < n -> lookup h A = Some (CVals a) -> lookup h B = Some (CVals b) -> lookup h W = Some (CVals w) ->
    A <> B -> A <> W -> B <> W -> length a = n * n -> length b = n * n -> length w = n -> allocator_ok h ->
    let '(a', b', w', info) := z_sygvd Z n a b in length a' = n * n -> length b' = n * n -> length w' = n ->
    (debug = true /\ info <> 0 -> sygvd debug Z n (Some A) (Some B) (Some W) h = Abort) /\
    (debug = false \/ info = 0 -> exists h', sygvd debug Z n (Some A) (Some B) (Some W) h = Ok h' /\ h_next h <= h_next h' /\
      forall i, lookup h' i = if i =? A then Some (CVals a') else if i =? B then Some (CVals b') else if i =? W then Some (CVals w') else lookup h i).
  Proof.
    intros debug Z n A B W h a b w Hn HA HB HW N1 N2 N3 La Lb Lw Ho. destruct (z_sygvd Z n a b) as [[[a' b'] w'] info] eqn:EZ. intros La' Lb' Lw'.
    assert (FA : A < h_next h) by (apply fresh; auto; congruence). assert (FB : B < h_next h) by (apply fresh; auto; congruence).
    assert (FW : W < h_next h) by (apply fresh; auto; congruence).
    unfold sygvd. rewrite (@read_vals_n K debug h A a) by auto. cbn [bind]. rewrite (@read_vals_n K debug h B b) by auto. cbn [bind].
    assert (J : exists p h1, malloc_junk (z_lwork Z n a b) h = (p, h1) /\ h_next h <= h_next h1 /\
      (forall i, i < h_next h -> lookup h1 i = lookup h i) /\ (forall i, h_next h1 <= i -> lookup h1 i = None) /\
      forall g, (forall i, h_next h <= i < h_next h1 -> lookup g i = lookup h1 i) ->
        exists g', cuda_free p g = Ok g' /\ h_next g' = h_next g /\ forall i, lookup g' i = if (h_next h <=? i) && (i <? h_next h1) then None else lookup g i).
    { destruct (z_lwork Z n a b) as [|k].
      - exists None, h. split; auto. split; auto. split; auto. split; auto. intros g _. exists g. split; auto. split; auto. intros i.
        destruct (Nat.leb_spec (h_next h) i), (Nat.ltb_spec i (h_next h)); auto. lia.
      - destruct (@lookup_malloc_junk K h (S k)) as [h1 [A1 [M1 Q1]]]; [lia|]. exists (Some (h_next h)), h1. split; auto. split; [lia|].
        split; [intros i Hi; rewrite Q1; look|]. split; [intros i Hi; rewrite Q1; cases; apply Ho; lia|]. intros g Hg.
        destruct (@lookup_free K g (h_next h) CJunk) as [g' [B1 [M2 P2]]]; [rewrite Hg, Q1 by lia; look|]. exists g'. split; auto. split; auto.
        intros i. rewrite P2. destruct (Nat.leb_spec (h_next h) i), (Nat.ltb_spec i (h_next h1)); cbn [andb]; cases. }
    destruct J as [p [h1 [A1 [M1 [Q1 [Q1' X1]]]]]]. rewrite A1, EZ.
    destruct (@lookup_malloc_ints K h1 [info]) as [h2 [A2 [M2 Q2]]]; [discriminate|]. rewrite A2.
    destruct (@write_ok K A h2 a a') as [h3 [A3 [M3 Q3]]]; [rewrite Q2, Q1 by lia; cases|congruence|]. ok A3.
    destruct (@write_ok K B h3 b b') as [h4 [A4 [M4 Q4]]]; [rewrite Q3, Q2, Q1 by lia; cases; congruence|congruence|]. ok A4.
    destruct (@write_ok K W h4 w w') as [h5 [A5 [M5 Q5]]]; [rewrite Q4, Q3, Q2, Q1 by lia; cases; congruence|congruence|]. ok A5.
    assert (I : read_ints debug h5 (Some (h_next h1)) 1 = Ok [info]). { apply (@read_ints_all K debug h5 (h_next h1) [info]). rewrite Q5, Q4, Q3, Q2. cases. }
    split.
    - intros [-> Hi]. ok I. cbn [nth]. apply Nat.eqb_neq in Hi. rewrite Hi. auto.
    - intros Hd. replace (if debug then _ else _) with (Ok tt).
      2: { destruct debug; auto. ok I. cbn [nth]. destruct Hd as [| ->]; [discriminate|]. auto. }
      cbn [bind]. destruct (X1 h5) as [h6 [A6 [M6 Q6]]]. { intros i Hi. rewrite Q5, Q4, Q3, Q2. cases. }
      ok A6. destruct (@lookup_free K h6 (h_next h1) (CInts [info])) as [h7 [A7 [M7 Q7]]].
      { rewrite Q6, Q5, Q4, Q3, Q2. destruct (Nat.leb_spec (h_next h) (h_next h1)), (Nat.ltb_spec (h_next h1) (h_next h1)); cbn [andb]; try (exfalso; lia); cases. }
      exists h7. split; auto. split; [lia|]. intros i. rewrite Q7, Q6, Q5, Q4, Q3, Q2.
      destruct (Nat.leb_spec (h_next h) i), (Nat.ltb_spec i (h_next h1)); cbn [andb]; cases; try (symmetry; apply Ho; lia); try (rewrite Q1' by lia; symmetry; apply Ho; lia).
      all: try (rewrite Q1 by lia; auto).
  Qed.
End Memory.
