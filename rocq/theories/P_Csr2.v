(** Proofs about the conversion of a deal.II matrix to CSR arrays. *)
From Coq Require Import List Arith Lia Bool Permutation Sorted.
From Verif Require Import Base OField Mat M_SpProd M_Csr S_Csr P_SpProd P_Csr.
Import ListNotations.
Set Implicit Arguments.
Open Scope nat_scope.

Lemma upd_mid : forall A (a b : list A) x y, upd (a ++ x :: b) (length a) y = a ++ y :: b.
Proof. induction a as [|h a IH]; intros b x y; simpl; auto. f_equal. apply IH. Qed.
Lemma nth_error_mid : forall A (a b : list A) x, nth_error (a ++ x :: b) (length a) = Some x.
Proof. induction a as [|h a IH]; intros b x; simpl; auto. Qed.
Lemma wr_mid : forall A (a b : list A) x y, wr (a ++ x :: b) (length a) y = Ok (a ++ y :: b).
Proof. intros. rewrite wr_in by (rewrite app_length; simpl; lia). rewrite upd_mid. auto. Qed.

Section P.
  Variable K : ofield.
  Implicit Types (pre L R row : list (nat * K)).

  Lemma sorted_split : forall i row, sorted_row row -> ~ In i (map fst row) ->
    exists L R, row = L ++ R /\ (forall e, In e L -> fst e < i) /\ (forall e, In e R -> i < fst e).
  Proof.
    intros i row. induction row as [|e row IH]; intros Hs Hn.
    - exists [], []. repeat split; simpl; tauto.
    - unfold sorted_row in Hs. simpl in Hs. inversion Hs as [|? ? Hs' Ha]; subst. simpl in Hn.
      destruct (IH Hs') as [L [R [E [HL HR]]]]; [tauto|].
      destruct (lt_dec (fst e) i) as [Hlt|Hge].
      + exists (e :: L), R. subst row. repeat split; auto. intros e' [<-|H]; auto.
      + exists [], (e :: row). repeat split; [simpl; tauto|]. intros e' [<-|H]; [lia|].
        rewrite Forall_forall in Ha. specialize (Ha (fst e') (in_map fst row e' H)). lia.
  Qed.
  Lemma sorted_diag : forall i d L R, sorted_row (L ++ R) -> (forall e, In e L -> fst e < i) -> (forall e, In e R -> i < fst e) ->
    sorted_row (L ++ (i, d) :: R).
  Proof.
    intros i d L R. unfold sorted_row. induction L as [|e L IH]; intros Hs HL HR; simpl in *.
    - constructor; auto. apply Forall_forall. intros x Hx. apply in_map_iff in Hx. destruct Hx as [e [<- He]]. apply HR; auto.
    - inversion Hs as [|? ? Hs' Ha]; subst. constructor.
      + apply IH; auto.
      + rewrite map_app in *. apply Forall_app in Ha. destruct Ha as [A1 A2]. apply Forall_app. split; auto. constructor; auto.

  Qed.

  Lemma shift_left_spec : forall (over : nat -> outcome nat) i pre R (L2 L1 : list (nat * K)) x fuel counter,
    (forall e, In e L2 -> fst e < i) -> (forall e, In e R -> i < fst e) ->
    counter = length (L1 ++ x :: L2 ++ R) -> length L2 < fuel ->
    exists x' : nat * K,
      let res := Ok (map snd (pre ++ L1 ++ L2 ++ x' :: R), map fst (pre ++ L1 ++ L2 ++ x' :: R), length (L1 ++ L2) + 1) in
      shift_left fuel over i (length pre) counter (map snd (pre ++ L1 ++ x :: L2 ++ R)) (map fst (pre ++ L1 ++ x :: L2 ++ R)) (length L1 + 1) =
      match R with [] => let! _ := over (length (pre ++ L1 ++ x :: L2)) in res | _ => res end.
  Proof.
    intros over i pre R L2. induction L2 as [|y L2 IH]; intros L1 x fuel counter HL HR Hc Hf.
    - exists x. rewrite !app_nil_l, !app_nil_r. simpl app. destruct fuel as [|fuel]; [simpl in Hf; lia|]. simpl shift_left. unfold rd_over.
      destruct R as [|r R].
      + replace (nth_error (map fst (pre ++ L1 ++ [x])) (length pre + (length L1 + 1))) with (@None nat).
        2:{ symmetry. apply nth_error_None. rewrite map_length, !app_length. simpl. lia. }
        replace (length pre + (length L1 + 1)) with (length (pre ++ L1 ++ [x])) by (rewrite !app_length; simpl; lia).
        destruct (over (length (pre ++ L1 ++ [x]))) as [c| | | |]; simpl; auto.
        replace (length L1 + 1 <? counter) with false; [rewrite andb_false_r; auto|].
        symmetry. apply Nat.ltb_ge. rewrite Hc, app_length. simpl. lia.
      + replace (nth_error (map fst (pre ++ L1 ++ x :: r :: R)) (length pre + (length L1 + 1))) with (Some (fst r)).
        2:{ replace (pre ++ L1 ++ x :: r :: R) with ((pre ++ L1 ++ [x]) ++ r :: R) by (rewrite <- !app_assoc; auto).
            rewrite map_app. simpl. replace (length pre + (length L1 + 1)) with (length (map fst (pre ++ L1 ++ [x])))
              by (rewrite map_length, !app_length; simpl; lia). rewrite nth_error_mid. auto. }
        simpl. replace (fst r <? i) with false; auto. symmetry. apply Nat.ltb_ge. specialize (HR r (or_introl eq_refl)). lia.
    - destruct fuel as [|fuel]; [simpl in Hf; lia|]. 
      destruct (IH (L1 ++ [y]) y fuel counter) as [x' E].
      { intros e He. apply HL. simpl; auto. }
      { auto. }
      { rewrite Hc. rewrite !app_length. simpl. rewrite app_length. lia. }
      { simpl in Hf. lia. }
      exists x'. cbv zeta in *.
      assert (S1 : shift_left (S fuel) over i (length pre) counter (map snd (pre ++ L1 ++ x :: (y :: L2) ++ R)) (map fst (pre ++ L1 ++ x :: (y :: L2) ++ R)) (length L1 + 1)
             = shift_left fuel over i (length pre) counter (map snd (pre ++ (L1 ++ [y]) ++ y :: L2 ++ R)) (map fst (pre ++ (L1 ++ [y]) ++ y :: L2 ++ R)) (length (L1 ++ [y]) + 1)).
      { simpl shift_left at 1. unfold rd_over.
        assert (Hn : forall B (f : nat * K -> B), nth_error (map f (pre ++ L1 ++ x :: (y :: L2) ++ R)) (length pre + (length L1 + 1)) = Some (f y)).
        { intros B f. replace (pre ++ L1 ++ x :: (y :: L2) ++ R) with ((pre ++ L1 ++ [x]) ++ y :: L2 ++ R) by (rewrite <- !app_assoc; auto).
          rewrite map_app. simpl map at 2. replace (length pre + (length L1 + 1)) with (length (map f (pre ++ L1 ++ [x])))
            by (rewrite map_length, !app_length; simpl; lia). apply nth_error_mid. }
        assert (Hw : forall B (f : nat * K -> B), wr (map f (pre ++ L1 ++ x :: (y :: L2) ++ R)) (length pre + (length L1 + 1) - 1) (f y)
                     = Ok (map f (pre ++ (L1 ++ [y]) ++ y :: L2 ++ R))).
        { intros B f. replace (pre ++ L1 ++ x :: (y :: L2) ++ R) with ((pre ++ L1) ++ x :: (y :: L2) ++ R) by (rewrite <- !app_assoc; auto).
          rewrite map_app. simpl map at 2. replace (length pre + (length L1 + 1) - 1) with (length (map f (pre ++ L1)))
            by (rewrite map_length, !app_length; simpl; lia). rewrite wr_mid. f_equal. rewrite !map_app. simpl.
          rewrite !map_app. simpl. rewrite <- !app_assoc. auto. }
        rewrite Hn. simpl bind at 1.
        replace (fst y <? i) with true by (symmetry; apply Nat.ltb_lt; apply HL; simpl; auto).
        replace (length L1 + 1 <? counter) with true
          by (symmetry; apply Nat.ltb_lt; rewrite Hc, app_length; simpl; rewrite app_length; lia).
        simpl andb. cbv iota. unfold rd. rewrite Hn. simpl bind at 1. rewrite Hw. simpl bind at 1. rewrite Hn. simpl bind at 1.
        rewrite Hw. simpl bind at 1. f_equal. rewrite app_length. simpl. lia. }
      rewrite S1, E. 
      replace (pre ++ (L1 ++ [y]) ++ L2 ++ x' :: R) with (pre ++ L1 ++ (y :: L2) ++ x' :: R) by (rewrite <- !app_assoc; auto).
      replace (length ((L1 ++ [y]) ++ L2)) with (length (L1 ++ y :: L2)) by (rewrite !app_length; simpl; lia).
      replace (length (pre ++ (L1 ++ [y]) ++ y :: L2)) with (length (pre ++ L1 ++ x :: y :: L2))
        by (rewrite !app_length; simpl; lia).
      auto.
  Qed.

  Lemma convert_row_square : forall over i d pre L R ptr,
    sorted_row (L ++ R) -> (forall e, In e L -> fst e < i) -> (forall e, In e R -> i < fst e) ->
    nth_error ptr i = Some (length pre) -> i + 1 < length ptr ->
    let row := (i, d) :: L ++ R in
    let res := Ok (map snd (pre ++ L ++ (i, d) :: R), map fst (pre ++ L ++ (i, d) :: R), upd ptr (i + 1) (length pre + length row)) in
    convert_row over true (map snd pre, map fst pre, ptr) (i, row) =
    match R with [] => let! _ := over (length (pre ++ row)) in res | _ => res end.
  Proof.
    intros over i d pre L R ptr Hs HL HR Hp Hl row res.
    assert (Hrow : row = (i, d) :: L ++ R) by reflexivity. clearbody row.
    unfold convert_row. cbn [fst snd].
    unfold rd at 1. rewrite Hp. cbn [bind]. rewrite wr_in by auto. cbn [bind].
    unfold rd at 1. rewrite nth_error_upd_neq by lia. rewrite Hp. cbn [bind].
    rewrite <- !map_app.
    assert (Hh : forall B (f : nat * K -> B), nth_error (map f (pre ++ row)) (length pre) = Some (f (i, d))).
    { intros B f. rewrite map_app. replace (length pre) with (length (map f pre)) by apply map_length. rewrite Hrow. simpl. apply nth_error_mid. }
    unfold rd at 1. rewrite Hh. cbn [bind fst snd].
    replace (rd (map snd row) 0) with (@Ok K d) by (rewrite Hrow; reflexivity). cbn [bind].
    destruct (@shift_left_spec over i pre R L [] (i, d) (S (length row)) (length row)) as [x' E]; auto.
    { rewrite Hrow. auto. }
    { rewrite Hrow. simpl. rewrite app_length. lia. }
    cbv zeta in E. rewrite !app_nil_l in E. rewrite <- Hrow in E. change (length (@nil (nat * K)) + 1) with 1 in E. rewrite E.
    assert (Hw : forall B (f : nat * K -> B), wr (map f (pre ++ L ++ x' :: R)) (length pre + (length L + 1) - 1) (f (i, d))
                 = Ok (map f (pre ++ L ++ (i, d) :: R))).
    { intros B f. rewrite (app_assoc pre L), (app_assoc pre L). rewrite (map_app f (pre ++ L)), (map_app f (pre ++ L)). change (map f (x' :: R)) with (f x' :: map f R). change (map f ((i, d) :: R)) with (f (i, d) :: map f R).
      replace (length pre + (length L + 1) - 1) with (length (map f (pre ++ L))) by (rewrite map_length, app_length; lia). apply wr_mid. }
    pose proof (Hw K snd) as Hw1. pose proof (Hw nat fst) as Hw2. cbn [fst snd] in Hw1, Hw2.
    destruct R as [|r R].
    - replace (pre ++ (i, d) :: L) with (pre ++ row) by (rewrite Hrow, app_nil_r; auto).
      destruct (over (length (pre ++ row))) as [c| | | |]; cbn [bind]; auto.
      rewrite Hw1. cbn [bind]. rewrite Hw2. cbn [bind]. auto.
    - cbn [bind]. rewrite Hw1. cbn [bind]. rewrite Hw2. cbn [bind]. auto.
  Qed.

  (** State of the row loop after the rows in [rows'] have been appended. *)
  Definition loop_state (m : nat) (rows' : list (list (nat * K))) (st : list K * list nat * list nat) : Prop :=
    exists ptr, st = (map snd (concat rows'), map fst (concat rows'), ptr) /\ length ptr = m + 1 /\ forall r, r <= length rows' -> nth r ptr 0 = length (concat (firstn r rows')).

  Lemma loop_state_init : forall m, loop_state m [] ([], [], repeat 0 (m + 1)).
  Proof.
    intros m. exists (repeat 0 (m + 1)). rewrite repeat_length. repeat split; auto.
    intros r Hr. simpl in Hr. replace r with 0 by lia. rewrite Nat.add_1_r. auto.
  Qed.
  Lemma loop_state_step : forall m rows' ptr (row : list (nat * K)), length ptr = m + 1 -> length rows' < m ->
    (forall r, r <= length rows' -> nth r ptr 0 = length (concat (firstn r rows'))) ->
    loop_state m (rows' ++ [row]) (map snd (concat rows' ++ row), map fst (concat rows' ++ row), upd ptr (length rows' + 1) (length (concat rows') + length row)).
  Proof.
    intros m rows' ptr row Hl Hm Hp. eexists. split; [|split].
    - rewrite concat_app. simpl. rewrite app_nil_r. reflexivity.
    - rewrite upd_length. auto.
    - intros r Hr. rewrite app_length in Hr. simpl in Hr. destruct (Nat.eq_dec r (length rows' + 1)) as [->|Hne].
      + rewrite nth_upd_eq by lia. rewrite firstn_all2 by (rewrite app_length; simpl; lia). rewrite concat_app, app_length. simpl. rewrite app_nil_r. auto.
      + rewrite nth_upd_neq by lia. rewrite Hp by lia. rewrite firstn_app. replace (r - length rows') with 0 by lia. simpl. rewrite app_nil_r. auto.
  Qed.
  Lemma nth_error_ptr : forall m (rows' : list (list (nat * K))) ptr, length ptr = m + 1 -> length rows' < m ->
    (forall r, r <= length rows' -> nth r ptr 0 = length (concat (firstn r rows'))) ->
    nth_error ptr (length rows') = Some (length (concat rows')).
  Proof.
    intros m rows' ptr Hl Hm Hp. rewrite (nth_error_nth_lt ptr 0) by lia. rewrite Hp by lia. rewrite firstn_all. auto.
  Qed.

  Lemma combine_snoc : forall A B (a : list A) (b : list B) x y, length a = length b -> combine (a ++ [x]) (b ++ [y]) = combine a b ++ [(x, y)].
  Proof. induction a as [|h a IH]; intros [|g b] x y H; simpl in *; try discriminate; auto. f_equal. apply IH. lia. Qed.

  Lemma resorted_length : forall rows rows', Forall2 (@resorted K) rows rows' -> length (concat rows) = length (concat rows').
  Proof.
    induction 1 as [|r r' rows rows' [H _] Hf IH]; simpl; auto. rewrite !app_length, IH, (Permutation_length H). auto.
  Qed.

  Lemma convert_rows : forall over (h : host_mat K) k, dealii_layout h -> k <= h_m h ->
    (h_m h = h_n h -> forall j, j < k -> exists c, over (length (concat (firstn (S j) (h_rows h)))) = Ok c) ->
    exists rows' st, length rows' = k /\ Forall2 (@resorted K) (firstn k (h_rows h)) rows' /\ loop_state (h_m h) rows' st /\
      foldM (convert_row over (h_m h =? h_n h)) ([], [], repeat 0 (h_m h + 1)) (combine (seq 0 k) (firstn k (h_rows h))) = Ok st.
  Proof.
    intros over h k [Hl [Hc [Hsq Hns]]]. induction k as [|k IH]; intros Hk Hov.
    - exists [], ([], [], repeat 0 (h_m h + 1)). split; [auto|]. split; [constructor|]. split; [apply loop_state_init|]. auto.
    - destruct IH as [rows' [st [Hl' [Hf [[ptr [-> [Hpl Hp]]] E]]]]]; [lia|intros; apply Hov; auto; lia|].
      rewrite (firstn_S_nth (h_rows h) []) by lia. rewrite seq_S. simpl plus.
      rewrite combine_snoc by (rewrite seq_length, firstn_length; lia). rewrite foldM_app, E. cbn [bind].
      destruct (Nat.eq_dec (h_m h) (h_n h)) as [Heq|Hne].
      + destruct (Hsq Heq k) as [d [rest [Er [Hs Hn]]]]; [lia|].
        destruct (@sorted_split k rest Hs Hn) as [L [R [-> [HL HR]]]].
        exists (rows' ++ [L ++ (k, d) :: R]), (map snd (concat rows' ++ (L ++ (k, d) :: R)), map fst (concat rows' ++ (L ++ (k, d) :: R)),
          upd ptr (length rows' + 1) (length (concat rows') + length (L ++ (k, d) :: R))).
        split; [rewrite app_length; simpl; lia|]. split; [|split].
        * apply Forall2_app; auto. constructor; [|constructor]. rewrite Er. split.
          -- apply Permutation_middle.
          -- apply sorted_diag; auto.
        * apply loop_state_step; auto; lia.
        * replace (h_m h =? h_n h) with true by (symmetry; apply Nat.eqb_eq; auto).
          cbn [foldM]. rewrite Er. rewrite convert_row_square; auto; [| |lia].
          2:{ rewrite <- Hl'. apply (@nth_error_ptr (h_m h)); auto. lia. }
          assert (Ho : exists c, over (length (concat rows' ++ (k, d) :: L ++ R)) = Ok c).
          { destruct (Hov Heq k) as [c Ec]; [lia|]. exists c. rewrite <- Ec. f_equal.
            rewrite (firstn_S_nth (h_rows h) []) by lia. rewrite concat_app, !app_length. rewrite Er. simpl concat. rewrite app_nil_r.
            rewrite (resorted_length Hf). auto. }
          destruct Ho as [c Ec]. rewrite Ec. cbn [bind].
          replace (length (concat rows') + length ((k, d) :: L ++ R)) with (length (concat rows') + length (L ++ (k, d) :: R))
            by (simpl; rewrite !app_length; simpl; lia).
          rewrite Hl'. destruct R; cbn [bind]; auto.
      + exists (rows' ++ [nth k (h_rows h) []]), (map snd (concat rows' ++ nth k (h_rows h) []), map fst (concat rows' ++ nth k (h_rows h) []),
          upd ptr (length rows' + 1) (length (concat rows') + length (nth k (h_rows h) []))).
        split; [rewrite app_length; simpl; lia|]. split; [|split].
        * apply Forall2_app; auto. constructor; [|constructor]. split; auto. apply Hns; auto. apply nth_In. lia.
        * apply loop_state_step; auto; lia.
        * replace (h_m h =? h_n h) with false by (symmetry; apply Nat.eqb_neq; auto).
          cbn [foldM]. unfold convert_row. cbn [fst snd]. unfold rd. pose proof (@nth_error_ptr (h_m h) rows' ptr Hpl) as Hn. rewrite Hl' in Hn.
          rewrite Hn; [|lia|rewrite <- Hl'; auto]. cbn [bind]. rewrite wr_in by lia. cbn [bind]. rewrite !map_app, Hl'. auto.
  Qed.

  Lemma copy_to_gpu_ok : forall A debug (l : list A), l <> [] -> copy_to_gpu debug l = Ok l.
  Proof. intros A debug [|a l] H; [contradiction|]. unfold copy_to_gpu, assert_dbg. simpl. rewrite andb_false_r. auto. Qed.
  Lemma copy_to_gpu_empty : forall A debug, copy_to_gpu debug (@nil A) = if debug then Abort else UB.
  Proof. intros A []; auto. Qed.

  Lemma map_nonempty : forall A B (f : A -> B) l, l <> [] -> map f l <> [].
  Proof. intros A B f [|a l] H; [contradiction|discriminate]. Qed.

  Lemma convert_dealii_spec : forall debug over (h : host_mat K), dealii_layout h -> concat (h_rows h) <> [] ->
    (h_m h = h_n h -> forall j, j < h_m h -> exists c, over (length (concat (firstn (S j) (h_rows h)))) = Ok c) ->
    exists c rows', convert_dealii debug over h = Ok c /\ csr_holds c rows' /\ Forall2 (@resorted K) (h_rows h) rows' /\
      c_m c = h_m h /\ c_n c = h_n h /\ c_range c = seq 0 (h_m h) /\ c_domain c = seq 0 (h_n h).
  Proof.
    intros debug over h Hlay Hne Hov. pose proof (proj1 Hlay) as Hl.
    destruct (@convert_rows over h (h_m h) Hlay (le_n _) Hov) as [rows' [st [Hl' [Hf [[ptr [-> [Hpl Hp]]] E]]]]].
    rewrite firstn_all2 in Hf, E by lia.
    assert (Hne' : concat rows' <> []).
    { intros E0. apply Hne. apply length_zero_iff_nil. rewrite (resorted_length Hf), E0. auto. }
    unfold convert_dealii. rewrite E. cbn [bind].
    rewrite copy_to_gpu_ok by (apply map_nonempty; auto). cbn [bind].
    rewrite copy_to_gpu_ok by (apply map_nonempty; auto). cbn [bind].
    rewrite copy_to_gpu_ok by (intros E0; rewrite E0 in Hpl; simpl in Hpl; lia). cbn [bind].
    eexists. exists rows'. split; [reflexivity|]. simpl. split; [|repeat split; auto].
    constructor; simpl; auto.
    - rewrite seq_length. auto.
    - apply resorted_length. auto.
    - lia.
  Qed.

  Lemma convert_dealii_overrun : forall debug over (h : host_mat K), dealii_layout h -> h_m h = h_n h -> 0 < h_m h ->
    (forall i, i <> length (concat (h_rows h)) -> exists c, over i = Ok c) -> over (length (concat (h_rows h))) = UB ->
    convert_dealii debug over h = UB.
  Proof.
    intros debug over h Hlay Heq Hm Hov Hub. pose proof Hlay as [Hl [Hc [Hsq Hns]]].
    destruct (h_m h) as [|k] eqn:Em; [lia|].
    assert (Hlast : exists d rest, nth k (h_rows h) [] = (k, d) :: rest /\ sorted_row rest /\ ~ In k (map fst rest)).
    { apply Hsq; auto. }
    destruct Hlast as [d [rest [Er [Hs Hn]]]].
    assert (Hrows : h_rows h = firstn k (h_rows h) ++ [(k, d) :: rest]).
    { rewrite <- Er. rewrite <- (firstn_S_nth (h_rows h) []) by lia. rewrite firstn_all2 by lia. auto. }
    destruct (@convert_rows over h k Hlay) as [rows' [st [Hl' [Hf [[ptr [-> [Hpl Hp]]] E]]]]]; [lia| |].
    { intros _ j Hj. apply Hov. rewrite Hrows at 2. rewrite concat_app, app_length. cbn [concat app length].
      assert (length (concat (firstn (S j) (h_rows h))) <= length (concat (firstn k (h_rows h)))); [|lia].
      replace (firstn (S j) (h_rows h)) with (firstn (S j) (firstn k (h_rows h))) by (rewrite firstn_firstn, Nat.min_l by lia; auto).
      rewrite <- (firstn_skipn (S j) (firstn k (h_rows h))) at 2. rewrite concat_app, app_length. lia. }
    unfold convert_dealii. rewrite Em in *. 
    assert (Hcomb : combine (seq 0 (S k)) (h_rows h) = combine (seq 0 k) (firstn k (h_rows h)) ++ [(k, (k, d) :: rest)]).
    { rewrite Hrows at 1. rewrite seq_S. simpl plus. apply combine_snoc. rewrite seq_length, firstn_length. lia. }
    rewrite Hcomb, foldM_app, E. cbn [bind foldM].
    replace (S k =? h_n h) with true by (symmetry; apply Nat.eqb_eq; auto).
    assert (HL : forall e, In e rest -> fst e < k).
    { intros e He. assert (fst e < h_n h).
      { apply (Hc ((k, d) :: rest)); [|simpl; auto]. rewrite <- Er. apply nth_In. lia. }
      assert (fst e <> k) by (intros Ee; apply Hn; rewrite <- Ee; apply in_map; auto). lia. }
    replace rest with (rest ++ []) by apply app_nil_r.
    rewrite convert_row_square.
    - rewrite app_nil_r. replace (length (concat rows' ++ (k, d) :: rest)) with (length (concat (h_rows h))).
      + rewrite Hub. auto.
      + rewrite Hrows at 1. rewrite concat_app, !app_length, (resorted_length Hf). simpl. rewrite app_nil_r. auto.
    - rewrite app_nil_r. auto.
    - auto.
    - intros e [].
    - rewrite <- Hl'. apply (@nth_error_ptr (S k)); auto. lia.
    - lia.
  Qed.
End P.
Arguments loop_state {K} m rows' st.
