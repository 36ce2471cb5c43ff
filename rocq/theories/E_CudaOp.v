(** Libraries that satisfy the contract of S_CudaOp: every operation reads the matrix, computes with all its entries, and stores the result
    with all entries. For the examples. *)
From Coq Require Import List Arith Lia Bool Sorted Permutation.
From Verif Require Import Base OField Mat M_SpProd S_SpProd P_SpProd M_Csr S_Csr P_Csr P_Csr3 P_Csr4 M_CudaOp S_CudaOp P_CudaOp.
Import ListNotations.
Set Implicit Arguments.
Open Scope nat_scope.

Section E.
  Variable K : ofield.
  Implicit Types (B : mat K).
  (** Row i of a Trilinos matrix. *)
  Definition find_row (ts : list (trilinos K)) (i : nat) : list (nat * K) :=
    match find (fun e : nat * list (nat * K) => fst e =? i) (combine (concat (map (@t_range K) ts)) (concat (map (@trilinos_rows K) ts))) with
    | Some e => snd e
    | None => []
    end.
  (** The matrix. *)
  Definition to_dense (ts : list (trilinos K)) : mat K :=
    match ts with [] => mkMat 0 0 (fun _ _ => f0) | t :: _ => mkMat (t_m t) (t_n t) (fun i j => entry (find_row ts i) j) end.
  (** A row with all its entries. *)
  Definition full_row B (i : nat) : list (nat * K) := map (fun j => (j, ent B i j)) (seq 0 (nc B)).
  (** The matrix stored with all entries. *)
  Definition from_dense (range domain : list (list nat)) B : list (trilinos K) :=
    map (fun e => mkTri (nr B) (nc B) (fst e) (snd e) (seq 0 (nc B)) (map (full_row B) (fst e))) (combine range domain).

  Lemma combine_concat : forall A C (l : list (list A)) (l' : list (list C)), map (@length A) l = map (@length C) l' ->
    combine (concat l) (concat l') = concat (map (fun e => combine (fst e) (snd e)) (combine l l')).
  Proof.
    intros A C l. induction l as [|x l IH]; intros [|y l'] H; simpl in *; auto; try discriminate. injection H as H1 H2. rewrite <- IH by auto. clear - H1.
    revert y H1. induction x as [|a x IH]; intros [|b y] H; simpl in *; try discriminate; auto. f_equal. auto.
  Qed.
  Lemma find_unique : forall A (l : list (nat * A)) i a, NoDup (map fst l) -> In (i, a) l -> find (fun e => fst e =? i) l = Some (i, a).
  Proof.
    intros A l i a H Hin. induction l as [|[j b] l IH]; simpl in *; [contradiction|]. inversion H; subst. destruct (j =? i) eqn:E.
    - apply Nat.eqb_eq in E. subst. destruct Hin as [Q|Hin]; [congruence|]. exfalso. apply H2. apply in_map_iff. exists (i, a). auto.
    - destruct Hin as [Q|Hin]; [|auto]. injection Q as -> ->. rewrite Nat.eqb_refl in E. discriminate.
  Qed.
  Lemma map_fst_combine : forall A C (l : list A) (l' : list C), length l = length l' -> map fst (combine l l') = l.
  Proof. intros A C l. induction l; intros [|b l'] H; simpl in *; try discriminate; auto. f_equal. auto. Qed.
  Lemma map_snd_combine : forall A C (l : list A) (l' : list C), length l = length l' -> map snd (combine l l') = l'.
  Proof. intros A C l. induction l; intros [|b l'] H; simpl in *; try discriminate; auto. f_equal. auto. Qed.
  Lemma length_concat_map : forall A C (l : list (list A)) (l' : list (list C)), map (@length A) l = map (@length C) l' -> length (concat l) = length (concat l').
  Proof. intros A C l. induction l; intros [|b l'] H; simpl in *; try discriminate; auto. injection H as H1 H2. rewrite !app_length, H1. f_equal. auto. Qed.

  Lemma to_dense_ok : forall ts range domain B, trilinos_matrix ts range domain B ->
    nr (to_dense ts) = nr B /\ nc (to_dense ts) = nc B /\ forall i j, i < nr B -> j < nc B -> ent (to_dense ts) i j = ent B i j.
  Proof.
    intros ts range domain B H. assert (Hlen : map (@length nat) (map (@t_range K) ts) = map (@length (list (nat * K))) (map (@trilinos_rows K) ts)).
    { rewrite !map_map. apply map_ext_in. intros t Ht. unfold trilinos_rows. rewrite map_length. symmetry. apply (tm_layout H t Ht). }
    assert (Q : forall i j, i < nr B -> j < nc B -> entry (find_row ts i) j = ent B i j).
    { intros i j Hi Hj. destruct (tm_rows H) as [[N I] _]. rewrite <- (tm_range H) in N, I. assert (Hin := proj2 (I i) Hi). apply in_concat in Hin.
      destruct Hin as [p [Hp Hip]]. apply in_map_iff in Hp. destruct Hp as [t [<- Ht]]. apply (In_nth _ _ 0) in Hip. destruct Hip as [q [Hq Eq]].
      destruct (tm_layout H t Ht) as [L1 _]. destruct (@tm_holds _ _ _ _ _ H t q Ht) as [_ Hent]; [lia|]. specialize (Hent j Hj). rewrite Eq in Hent. rewrite <- Hent.
      unfold find_row. rewrite (@find_unique _ _ i (nth q (trilinos_rows t) [])); [reflexivity| |].
      - rewrite map_fst_combine; auto. apply length_concat_map. auto.
      - rewrite combine_concat by auto. apply in_concat. exists (combine (t_range t) (trilinos_rows t)). split.
        + apply in_map_iff. exists (t_range t, trilinos_rows t). split; auto. clear - Ht. induction ts; simpl in *; [contradiction|]. destruct Ht as [->|Ht]; auto.
        + rewrite <- Eq. rewrite <- combine_nth by (unfold trilinos_rows; rewrite map_length; lia). apply nth_In. rewrite combine_length. unfold trilinos_rows. rewrite map_length. lia. }
    pose proof (tm_some H) as Hs. destruct ts as [|t ts]; [contradiction|]. destruct (tm_sizes H t) as [S1 S2]; [simpl; auto|]. cbn [to_dense nr nc ent]. auto.
  Qed.
  Lemma entry_full : forall B i j, j < nc B -> entry (full_row B i) j = ent B i j.
  Proof.
    intros B i j Hj. unfold full_row. apply (@simple_entry K _ j (ent B i j)).
    - unfold simple_row. rewrite map_map. cbn. rewrite map_id. apply seq_NoDup.
    - apply in_map_iff. exists j. split; auto. apply in_seq. lia.
  Qed.
  Lemma global_full : forall B i, global_row (seq 0 (nc B)) (full_row B i) = full_row B i.
  Proof.
    intros B i. unfold global_row, full_row. rewrite map_map. apply map_ext_in. intros j Hj. apply in_seq in Hj. cbn [fst snd]. rewrite seq_nth by lia. auto.
  Qed.
  Lemma from_dense_ok : forall range domain D B, length range = length domain -> range <> [] -> distribution (nr B) range -> distribution (nc B) domain ->
    nr D = nr B -> nc D = nc B -> (forall i j, i < nr B -> j < nc B -> ent D i j = ent B i j) -> trilinos_matrix (from_dense range domain D) range domain B.
  Proof.
    intros range domain D B Hl Hne Hr Hd Hnr Hnc He. unfold from_dense. split; auto.
    - destruct range, domain; try discriminate; try contradiction.
    - rewrite map_map. cbn. rewrite map_fst_combine; auto.
    - rewrite map_map. cbn. rewrite map_snd_combine; auto.
    - intros t Ht. apply in_map_iff in Ht. destruct Ht as [e [<- _]]. cbn. auto.
    - intros t Ht. apply in_map_iff in Ht. destruct Ht as [e [<- _]]. split; cbn [t_rows t_range t_colmap]; [apply map_length|].
      intros row e' Hrow He'. apply in_map_iff in Hrow. destruct Hrow as [i [<- _]]. apply in_map_iff in He'. destruct He' as [j [<- Hj]]. apply in_seq in Hj. rewrite seq_length. cbn. lia.
    - intros t i Ht Hi. apply in_map_iff in Ht. destruct Ht as [e [<- Hin]]. cbn [t_rows t_range] in *. rewrite map_length in Hi.
      assert (E : nth i (trilinos_rows (mkTri (nr D) (nc D) (fst e) (snd e) (seq 0 (nc D)) (map (full_row D) (fst e)))) [] = full_row D (nth i (fst e) 0)).
      { unfold trilinos_rows. cbn [t_rows t_colmap]. rewrite map_map. rewrite (nth_map_lt (fun x => global_row (seq 0 (nc D)) (full_row D x)) (fst e) [] 0 Hi). apply global_full. }
      rewrite E. split.
      + intros e' He'. apply in_map_iff in He'. destruct He' as [j [<- Hj]]. apply in_seq in Hj. cbn. lia.
      + intros g Hg. rewrite entry_full by lia. apply He; auto. apply (proj2 (proj1 Hr)). apply in_concat. exists (fst e). split; [|apply nth_In; auto].
        destruct e. apply in_combine_l in Hin. auto.
  Qed.

  (** All operations through the full matrix. *)
  Definition ranges (ts : list (trilinos K)) := map (@t_range K) ts.
  Definition domains (ts : list (trilinos K)) := map (@t_domain K) ts.
  Definition to_rows (c : csr K) : trilinos K :=
    match convert_to_trilinos (@simple_fill K) c with Ok t => t | _ => mkTri 0 0 [] [] [] [] end.
  Definition to_csr (t : trilinos K) : csr K :=
    match convert_trilinos true t with
    | Ok c => c
    | _ => mkCsr [] [] (repeat 0 (length (t_range t) + 1)) 0 (t_m t) (t_n t) (t_range t) (t_domain t)
    end.
  Definition dense_libraries : libraries K := mkLibraries
    (@simple_fill K)
    (fun ts => from_dense (domains ts) (ranges ts) (mtrans (to_dense ts)))
    (fun ca cb => to_csr (nth 0 (from_dense [c_range ca] [c_domain cb] (mmul (to_dense [to_rows ca]) (to_dense [to_rows cb]))) (mkTri 0 0 [] [] [] [])))
    (fun ta tb => from_dense (ranges ta) (domains tb) (mmul (to_dense ta) (to_dense tb)))
    (fun ta tb => from_dense (domains ta) (ranges tb) (mmul (to_dense ta) (mtrans (to_dense tb)))).

  Lemma trilinos_length : forall ts range domain B, @trilinos_matrix K ts range domain B -> length range = length ts /\ length domain = length ts /\ range <> [] /\ domain <> [].
  Proof.
    intros ts range domain B H. assert (L1 : length range = length ts) by (rewrite <- (tm_range H); apply map_length).
    assert (L2 : length domain = length ts) by (rewrite <- (tm_domain H); apply map_length). pose proof (tm_some H) as Hs.
    split; auto. split; auto. destruct ts; [contradiction|]. split; intros ->; discriminate.
  Qed.
  Lemma sumn_eq : forall n n' (f g : nat -> K), n = n' -> (forall i, i < n -> f i = g i) -> sumn n f = sumn n' g.
  Proof. intros n n' f g <- H. apply sumn_ext. auto. Qed.
  Lemma to_csr_rank : forall t, trilinos_layout t -> csr_holds (to_csr t) (trilinos_rows t) /\ c_m (to_csr t) = t_m t /\ c_n (to_csr t) = t_n t /\
    c_range (to_csr t) = t_range t /\ c_domain (to_csr t) = t_domain t.
  Proof.
    intros t Hl.
    unfold to_csr. destruct (concat (t_rows t)) as [|e l] eqn:E.
      - assert (Hempty : forall r, concat (firstn r (trilinos_rows t)) = []).
        { intros r. apply concat_nil_Forall. apply Forall_forall. intros row Hrow. apply (In_nth _ _ []) in Hrow.
          assert (Hall : forall row, In row (trilinos_rows t) -> row = []).
          { intros row' Hr'. unfold trilinos_rows in Hr'. apply in_map_iff in Hr'. destruct Hr' as [r0 [<- Hr0]]. destruct r0 as [|e0 r0]; auto.
            assert (In e0 (concat (t_rows t))) by (apply in_concat; exists (e0 :: r0); simpl; auto). match goal with Q : In _ (concat _) |- _ => rewrite E in Q end; contradiction. }
          destruct Hrow as [p [Hp <-]]. apply Hall. assert (Hin := nth_In _ (@nil (nat * K)) Hp). rewrite <- (firstn_skipn r). apply in_or_app. auto. }
        assert (Hall := Hempty (length (trilinos_rows t))). rewrite firstn_all in Hall.
        rewrite (convert_empty true Hl E). split; [|cbn; auto]. split; cbn [c_range c_col c_val c_nnz c_ptr]; try rewrite Hall; auto.
        + unfold trilinos_rows. rewrite map_length. apply Hl.
        + rewrite repeat_length. unfold trilinos_rows. rewrite map_length. destruct Hl as [-> _]. auto.
        + intros r Hr. rewrite Hempty. apply nth_repeat.
      - destruct (@convert_trilinos_spec K true t Hl) as [c [C1 C2]]; [rewrite E; discriminate|]. rewrite C1. exact C2.
  Qed.
  Lemma to_csr_all : forall ts range domain B, trilinos_matrix ts range domain B -> device_matrix (map to_csr ts) range domain B.
  Proof.
    intros ts range domain B H. assert (Hc : forall t, In t ts -> csr_holds (to_csr t) (trilinos_rows t) /\ c_m (to_csr t) = t_m t /\ c_n (to_csr t) = t_n t /\
      c_range (to_csr t) = t_range t /\ c_domain (to_csr t) = t_domain t) by (intros t Ht; apply to_csr_rank; apply (tm_layout H t Ht)).
    assert (M1 : map (@c_range K) (map to_csr ts) = range). { rewrite <- (tm_range H), map_map. apply map_ext_in. intros t Ht. apply (Hc t Ht). }
    split.
    - pose proof (tm_some H) as Hs. destruct ts; [contradiction|]. discriminate.
    - split; auto. split; [intros i Hi; apply (proj2 (proj1 (tm_rows H))); auto|]. intros r c Hr. rewrite nth_error_map in Hr.
      destruct (nth_error ts r) as [t|] eqn:Et; [|discriminate]. cbn in Hr. injection Hr as <-. assert (Ht := nth_error_In _ _ Et).
      destruct (Hc t Ht) as [C0 [C1 [C2 [C3 C4]]]]. exists (trilinos_rows t). split; auto. intros i Hi. unfold trilinos_rows in Hi. rewrite map_length in Hi.
      destruct (@tm_holds _ _ _ _ _ H t i Ht Hi) as [Q1 Q2]. split; auto. intros g Hg. rewrite Q2 by auto. f_equal. f_equal. rewrite <- (tm_range H).
      symmetry. apply nth_error_nth. rewrite nth_error_map, Et. auto.
    - rewrite <- (tm_domain H), map_map. apply map_ext_in. intros t Ht. apply (Hc t Ht).
    - intros c Hin. apply in_map_iff in Hin. destruct Hin as [t [<- Ht]]. destruct (Hc t Ht) as [_ [-> [-> _]]]. apply (tm_sizes H t Ht).
    - apply (tm_rows H).
    - apply (tm_cols H).
  Qed.
  Lemma to_rows_ok : forall c range domain B, device_matrix [c] [range] [domain] B -> trilinos_matrix [to_rows c] [range] [domain] B.
  Proof.
    intros c range domain B H. destruct (to_trilinos (@simple_fill_ok K) H) as [ts [E T]]. unfold to_rows. simpl in E. destruct (convert_to_trilinos (@simple_fill K) c); try discriminate.
    cbn [bind] in E. injection E as <-. auto.
  Qed.
  Lemma dense_libraries_ok : libraries_ok dense_libraries.
  Proof.
    split; cbn [dense_libraries x_fill x_transpose x_gemm x_mmult x_mmult_transpose].
    - apply simple_fill_ok.
    - intros ts range domain B H. destruct (to_dense_ok H) as [D1 [D2 D3]]. destruct (trilinos_length H) as [L1 [L2 [L3 L4]]].
      unfold ranges, domains. rewrite (tm_range H), (tm_domain H). apply from_dense_ok; cbn [mtrans nr nc ent]; auto; try congruence; [apply (tm_cols H)|apply (tm_rows H)].
    - intros ca cb range inner domain A B Ha Hb Hn. pose proof (to_rows_ok Ha) as Ta. pose proof (to_rows_ok Hb) as Tb.
      destruct (to_dense_ok Ta) as [A1 [A2 A3]]. destruct (to_dense_ok Tb) as [B1 [B2 B3]].
      apply (@to_csr_all [_]). destruct (dm_holds Ha) as [Ra _]. pose proof (dm_domain Hb) as Db. simpl in Ra, Db. injection Ra as ->. injection Db as ->.
      change (trilinos_matrix (from_dense [range] [domain] (mmul (to_dense [to_rows ca]) (to_dense [to_rows cb]))) [range] [domain] (mmul A B)).
      apply from_dense_ok; cbn [mmul nr nc ent]; auto; try discriminate; [apply (dm_rows Ha)|apply (dm_cols Hb)|].
      intros i j Hi Hj. apply sumn_eq; auto. intros k Hk. rewrite A3, B3; auto; congruence.
    - intros ta tb range inner domain A B Ta Tb Hn. destruct (to_dense_ok Ta) as [A1 [A2 A3]]. destruct (to_dense_ok Tb) as [B1 [B2 B3]].
      destruct (trilinos_length Ta) as [L1 [L2 [L3 L4]]]. destruct (trilinos_length Tb) as [L5 [L6 [L7 L8]]].
      unfold ranges, domains. rewrite (tm_range Ta), (tm_domain Tb). apply from_dense_ok; cbn [mmul nr nc ent]; auto; [congruence|apply (tm_rows Ta)|apply (tm_cols Tb)|].
      intros i j Hi Hj. apply sumn_eq; auto. intros k Hk. rewrite A3, B3; auto; congruence.
    - intros ta tb rows rows' A B Ta Tb Hn. destruct (to_dense_ok Ta) as [A1 [A2 A3]]. destruct (to_dense_ok Tb) as [B1 [B2 B3]].
      destruct (trilinos_length Ta) as [L1 [L2 [L3 L4]]]. destruct (trilinos_length Tb) as [L5 [L6 [L7 L8]]].
      unfold ranges, domains. rewrite (tm_domain Ta), (tm_range Tb). apply from_dense_ok; cbn [mmul mtrans nr nc ent]; auto; [congruence|apply (tm_rows Ta)|apply (tm_rows Tb)|].
      intros i j Hi Hj. apply sumn_eq; auto. intros k Hk. rewrite A3, B3; auto; congruence.
  Qed.
  (** The device matrix stored with all entries. *)
  Definition device_of (range domain : list (list nat)) B : list (csr K) := map to_csr (from_dense range domain B).
  Lemma device_of_ok : forall range domain B, length range = length domain -> range <> [] -> distribution (nr B) range -> distribution (nc B) domain ->
    device_matrix (device_of range domain B) range domain B.
  Proof. intros. apply to_csr_all. apply from_dense_ok; auto. Qed.
End E.
