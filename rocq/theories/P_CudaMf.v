(** Proofs for M_CudaMf.v. *)
From Coq Require Import List Arith Lia Bool Field.
From Verif Require Import Base OField Mat M_SpProd S_SpProd P_SpProd M_Csr S_Csr P_Csr P_Csr3 P_Csr4 M_CudaOp S_CudaOp P_CudaOp M_CudaMf S_CudaMf.
Import ListNotations.
Set Implicit Arguments.
Open Scope nat_scope.

Lemma filter_none : forall A (f : A -> bool) l, (forall x, In x l -> f x = false) -> filter f l = [].
Proof. intros A f l. induction l as [|x l IH]; intros H; auto. simpl. rewrite (H x) by (simpl; auto). apply IH. intros; apply H; simpl; auto. Qed.

Section P.
  Variable K : ofield.
  Add Field KfCudaMf : (f_field K).
  Implicit Types (L : libraries K) (B : mat K).

  Lemma mapM_in : forall X Y (f : X -> outcome Y) l r, mapM f l = Ok r -> forall y, In y r -> exists x, In x l /\ f x = Ok y.
  Proof.
    intros X Y f l. induction l as [|x l IH]; intros r E y Hy; simpl in E; [injection E as <-; contradiction|].
    destruct (f x) as [y0| | | |] eqn:Ex; try discriminate. cbn [bind] in E. destruct (mapM f l) as [r0| | | |] eqn:El; try discriminate. cbn [bind] in E. injection E as <-.
    destruct Hy as [<-|Hy]; [exists x; simpl; auto|]. destruct (IH _ eq_refl y Hy) as [x' [Hx E]]. exists x'. simpl. auto.
  Qed.
  Lemma filled_simple : forall fill (cs : list (csr K)) ts, fill_ok fill -> mapM (convert_to_trilinos fill) cs = Ok ts ->
    forall t i, In t ts -> simple_row (nth i (trilinos_rows t) []).
  Proof.
    intros fill cs ts Hf E t i Ht. destruct (mapM_in _ _ E t Ht) as [c [_ Ec]]. unfold convert_to_trilinos in Ec.
    destruct (mapM (set_arguments c) _) as [rows| | | |]; try discriminate. cbn [bind] in Ec. injection Ec as <-.
    destruct (Hf (c_domain c) rows) as [F1 [_ F3]]. unfold trilinos_rows. cbn [t_colmap t_rows].
    destruct (le_lt_dec (length rows) i) as [Hi|Hi].
    - rewrite nth_overflow; [constructor|]. rewrite map_length. lia.
    - rewrite (nth_map_lt (global_row (fst (fill (c_domain c) rows))) _ [] []) by lia. apply F3. auto.
  Qed.
  Lemma dist_of_holds : forall ts range domain B, trilinos_matrix ts range domain B -> (forall t i, In t ts -> simple_row (nth i (trilinos_rows t) [])) ->
    exists d, dist_of ts = Ok d /\ holds d B /\ d_m d = nr B /\ d_range d = range /\ d_domain d = domain.
  Proof.
    intros ts range domain B H Hs. destruct ts as [|t0 ts]; [exfalso; apply (tm_some H); auto|]. set (all := t0 :: ts) in *.
    destruct (tm_sizes H t0) as [S1 S2]; [simpl; auto|].
    eexists. split; [reflexivity|]. split; [|cbn [d_m d_range d_domain]; split; auto; split; [apply (tm_range H)|apply (tm_domain H)]].
    assert (LR : length range = length all) by (rewrite <- (tm_range H); apply map_length).
    assert (LD : length domain = length all) by (rewrite <- (tm_domain H); apply map_length).
    constructor; cbn [d_m d_n d_range d_domain d_colmap d_rows]; fold all; rewrite ?(tm_range H), ?(tm_domain H), ?S1, ?S2; auto.
    - apply (tm_rows H).
    - apply (tm_cols H).
    - congruence.
    - intros r lj Hr Hl. rewrite LR in Hr. pose proof (nth_In all t0 Hr) as Ht. set (t := nth r all t0) in *. destruct (tm_layout H t Ht) as [L1 L2].
      rewrite (nth_map_lt (@t_rows K) all [] t0 Hr), (nth_map_lt (@t_colmap K) all [] t0 Hr). fold t.
      assert (Er : nth r range [] = t_range t) by (rewrite <- (tm_range H); apply (nth_map_lt (@t_range K) all [] t0 Hr)). rewrite Er in *.
      assert (Hl' : lj < length (t_rows t)) by lia. exists (nth lj (t_rows t) []). split; [apply nth_error_nth_lt; auto|].
      pose proof (nth_In (t_rows t) [] Hl') as Hrow. destruct (@tm_holds _ _ _ _ _ H t lj Ht Hl') as [T1 T2].
      assert (En : nth lj (trilinos_rows t) [] = global_row (t_colmap t) (nth lj (t_rows t) [])) by (unfold trilinos_rows; apply nth_map_lt; auto).
      pose proof (Hs t lj Ht) as Hsim. rewrite En in *. unfold simple_row, global_row in *. rewrite map_map in Hsim. cbn [fst] in Hsim.
      split; [|split; [exact Hsim|]].
      + intros e He. split; [eapply L2; eauto|]. apply (T1 (nth (fst e) (t_colmap t) 0, snd e)). apply in_map_iff. exists e. auto.
      + intros k Hk. specialize (T2 k Hk). split.
        * intros e He Ek. rewrite <- T2. apply simple_entry; [unfold simple_row; rewrite map_map; exact Hsim|]. apply in_map_iff. exists e. rewrite Ek. auto.
        * intros Hno. rewrite <- T2. unfold entry. rewrite filter_none; auto. intros e' He'. apply in_map_iff in He'. destruct He' as [e [<- He]]. cbn [fst]. apply Nat.eqb_neq. auto.
  Qed.

  (** The entries set, exactly. *)
  Lemma mtmm_exact : forall (d : dist_mat K) B f apply owned n eps, holds d B -> partition n owned -> computes apply (d_domain d) owned (d_n d) n f ->
    mtmm eps apply owned n d = Ok (map (fun r => concat (map (fun j => column B f owned n eps j r) (seq 0 (d_m d)))) (seq 0 (length owned))).
  Proof.
    intros d B f apply owned n eps H Hown Hap. unfold mtmm.
    rewrite mapM_ok with (g := fun j => map (column B f owned n eps j) (seq 0 (length owned))).
    2:{ intros j Hj. apply in_seq in Hj. rewrite (extract_row_spec H) by lia. cbn [bind].
        destruct (Hap (row B j)) as [Hl Ha]; [rewrite row_length; apply (ho_n H)|]. rewrite Ha. cbn [bind].
        apply mapM_ok. intros r Hr. apply in_seq in Hr. apply set_column_spec. lia. }
    cbn [bind]. f_equal. apply map_ext_in. intros r Hr. apply in_seq in Hr. f_equal. rewrite map_map. apply map_ext. intros j.
    rewrite (nth_map_lt (column B f owned n eps j) (seq 0 (length owned)) [] 0) by (rewrite seq_length; lia). rewrite seq_nth by lia. auto.
  Qed.
  Definition kept (eps : K) (f : vec K -> vec K) B (i j : nat) : list (nat * K) :=
    if fltb eps (fabs (nth i (f (row B j)) f0)) then [(j, nth i (f (row B j)) f0)] else [].
  Lemma set_app : forall (a b : list (nat * nat * K)) i, set_entries (a ++ b) i = set_entries a i ++ set_entries b i.
  Proof. intros. unfold set_entries. rewrite filter_app, map_app. auto. Qed.
  Lemma set_concat : forall (l : list (list (nat * nat * K))) i, set_entries (concat l) i = concat (map (fun a => set_entries a i) l).
  Proof. intros l i. induction l as [|a l IH]; auto. simpl. rewrite set_app, IH. auto. Qed.
  Lemma concat_single : forall X (g : nat -> list X) n i, i < n -> (forall k, k < n -> k <> i -> g k = []) -> concat (map g (seq 0 n)) = g i.
  Proof.
    intros X g n i Hi Hg. assert (E : seq 0 n = seq 0 i ++ i :: seq (S i) (n - S i)).
    { replace n with (i + S (n - S i)) at 1 by lia. rewrite seq_app. simpl. auto. }
    assert (Z : forall l, (forall k, In k l -> g k = []) -> concat (map g l) = []).
    { induction l as [|k l IH]; intros Hk; auto. simpl. rewrite (Hk k) by (simpl; auto). apply IH. intros; apply Hk; simpl; auto. }
    rewrite E, map_app, concat_app. simpl. rewrite (Z (seq 0 i)), (Z (seq (S i) (n - S i))).
    - rewrite app_nil_r. auto.
    - intros k Hk. apply in_seq in Hk. apply Hg; lia.
    - intros k Hk. apply in_seq in Hk. apply Hg; lia.
  Qed.
  Lemma set_column_row : forall B f owned n eps j r i, In i (nth r owned []) -> i < n -> set_entries (column B f owned n eps j r) i = kept eps f B i j.
  Proof.
    intros B f owned n eps j r i Hin Hi. unfold column. rewrite set_concat, map_map.
    rewrite (concat_single (fun k => set_entries (if in_dec Nat.eq_dec k (nth r owned []) then if fltb eps (fabs (nth k (f (row B j)) f0)) then [(k, j, nth k (f (row B j)) f0)] else [] else []) i) Hi).
    - destruct (in_dec Nat.eq_dec i (nth r owned [])); [|contradiction]. unfold kept. destruct (fltb eps _); auto. unfold set_entries. simpl. rewrite Nat.eqb_refl. auto.
    - intros k Hk Hki. destruct (in_dec Nat.eq_dec k (nth r owned [])); auto. destruct (fltb eps _); auto. unfold set_entries. simpl. apply Nat.eqb_neq in Hki. rewrite Hki. auto.
  Qed.
  Definition kept_row (eps : K) (f : vec K -> vec K) B (i : nat) : list (nat * K) := concat (map (kept eps f B i) (seq 0 (nr B))).
  Lemma kept_in : forall eps f B i j v, In (j, v) (kept_row eps f B i) <-> j < nr B /\ v = nth i (f (row B j)) f0 /\ fltb eps (fabs v) = true.
  Proof.
    intros eps f B i j v. unfold kept_row. rewrite in_concat. split.
    - intros [l [Hl Hv]]. apply in_map_iff in Hl. destruct Hl as [k [<- Hk]]. apply in_seq in Hk. unfold kept in Hv.
      destruct (fltb eps (fabs (nth i (f (row B k)) f0))) eqn:E; [|contradiction]. destruct Hv as [Q|[]]. injection Q as <- <-. split; [lia|]. auto.
    - intros [Hj [-> E]]. exists (kept eps f B i j). split; [apply in_map; apply in_seq; lia|]. unfold kept. rewrite E. simpl. auto.
  Qed.
  Lemma kept_simple : forall eps f B i, simple_row (kept_row eps f B i).
  Proof.
    intros eps f B i. unfold simple_row, kept_row.
    assert (Q : forall a m, NoDup (map fst (concat (map (kept eps f B i) (seq a m)))) /\ forall g, In g (map fst (concat (map (kept eps f B i) (seq a m)))) -> a <= g).
    { intros a m. revert a. induction m as [|m IH]; intros a; [split; [constructor|intros g []]|]. simpl. rewrite map_app. destruct (IH (S a)) as [I1 I2].
      unfold kept at 1 3. destruct (fltb eps (fabs (nth i (f (row B a)) f0))); simpl.
      - split.
        + constructor; auto. intros Hin. apply I2 in Hin. lia.
        + intros g [<-|Hg]; auto. apply I2 in Hg. lia.
      - split; auto. intros g Hg. apply I2 in Hg. lia. }
    apply Q.
  Qed.
  Lemma kept_entry : forall eps A B i j, nc A = nc B -> i < nr A -> j < nr B -> entry (kept_row eps (mulvec A) B i) j = ent (truncated_product eps A B) i j.
  Proof.
    intros eps A B i j Hn Hi Hj. unfold truncated_product. cbn [ent]. pose proof (@mulvec_row K A B i j Hn Hi) as E. cbn [mmul ent] in E. cbn [mmul ent]. rewrite <- E.
    destruct (fltb eps (fabs (nth i (mulvec A (row B j)) f0))) eqn:T.
    - apply simple_entry; [apply kept_simple|]. apply kept_in. auto.
    - unfold entry. rewrite filter_none; auto. intros [k v] Hk. cbn [fst]. apply Nat.eqb_neq. intros ->. apply kept_in in Hk. destruct Hk as [_ [-> Hk]]. congruence.
  Qed.
  Lemma scatter_lengths : forall owned (x : vec K), map (@length K) (scatter owned x) = map (@length nat) owned.
  Proof. intros. unfold scatter. rewrite map_map. apply map_ext. intros. apply map_length. Qed.

  Lemma product_rank : forall fill eps A B owned rows r, fill_ok fill -> nc A = nc B -> (forall i, In i (nth r owned []) -> i < nr A) ->
    let t := product_matrix fill (nr A) (nr B) (nth r owned []) rows (concat (map (fun j => column B (mulvec A) owned (nr A) eps j r) (seq 0 (nr B)))) in
    trilinos_layout t /\ forall i, i < length (t_rows t) ->
      (forall e, In e (nth i (trilinos_rows t) []) -> fst e < nr B) /\
      forall g, g < nr B -> entry (nth i (trilinos_rows t) []) g = ent (truncated_product eps A B) (nth i (t_range t) 0) g.
  Proof.
    intros fill eps A B owned rows r Hf Hn Hin. set (C := concat _). set (es := map (set_entries C) (nth r owned [])).
    destruct (Hf rows es) as [F1 [F2 F3]]. unfold product_matrix. fold C es. cbn [t_rows t_range t_colmap].
    assert (Le : length es = length (nth r owned [])) by apply map_length.
    split; [split; cbn [t_rows t_range t_colmap]; [rewrite F1; exact Le|exact F2]|].
    intros i Hi. rewrite F1 in Hi. destruct (F3 i Hi) as [G1 [G2 G3]].
    assert (Hi' : i < length (nth r owned [])) by lia. pose proof (nth_In _ 0 Hi') as Hg. set (g0 := nth i (nth r owned []) 0) in *.
    assert (Ei : nth i es [] = kept_row eps (mulvec A) B g0).
    { unfold es. rewrite (nth_map_lt (set_entries C) _ [] 0) by auto. fold g0. unfold C. rewrite set_concat, map_map. unfold kept_row. f_equal. apply map_ext. intros j.
      apply set_column_row; auto. }
    assert (En : nth i (trilinos_rows (mkTri (nr A) (nr B) (nth r owned []) rows (fst (fill rows es)) (snd (fill rows es)))) [] =
      global_row (fst (fill rows es)) (nth i (snd (fill rows es)) [])).
    { unfold trilinos_rows. cbn [t_colmap t_rows]. apply nth_map_lt. lia. }
    rewrite En. split.
    - intros e He. assert (Hg' : In (fst e) (map fst (nth i es []))) by (apply G2; apply in_map; auto). rewrite Ei in Hg'. apply in_map_iff in Hg'. destruct Hg' as [[j v] [E1 E2]].
      apply kept_in in E2. cbn [fst] in E1. lia.
    - intros g Hgn. rewrite G3, Ei. apply kept_entry; auto.
  Qed.

  Lemma product_empty : forall fill eps A B owned rows r, fill_ok fill -> nc A = nc B -> (forall i, In i (nth r owned []) -> i < nr A) ->
    (forall i j, In i (nth r owned []) -> j < nr B -> (fabs (ent (mmul A (mtrans B)) i j) <= eps)%K) ->
    concat (t_rows (product_matrix fill (nr A) (nr B) (nth r owned []) rows (concat (map (fun j => column B (mulvec A) owned (nr A) eps j r) (seq 0 (nr B)))))) = [].
  Proof.
    intros fill eps A B owned rows r Hf Hn Hin Hsm. set (C := concat (map _ (seq 0 (nr B)))). set (es := map (set_entries C) (nth r owned [])).
    destruct (Hf rows es) as [F1 [F2 F3]]. unfold product_matrix. fold C es. cbn [t_rows].
    apply concat_nil_Forall. apply Forall_forall. intros row Hrow. apply (In_nth _ _ []) in Hrow. destruct Hrow as [i [Hi <-]]. rewrite F1 in Hi.
    destruct (F3 i Hi) as [_ [G2 _]]. assert (Hi' : i < length (nth r owned [])) by (unfold es in Hi; rewrite map_length in Hi; auto).
    pose proof (nth_In _ 0 Hi') as Hg. set (g0 := nth i (nth r owned []) 0) in *.
    assert (Ei : nth i es [] = kept_row eps (mulvec A) B g0).
    { unfold es. rewrite (nth_map_lt (set_entries C) _ [] 0) by auto. fold g0. unfold C. rewrite set_concat, map_map. unfold kept_row. f_equal. apply map_ext. intros j.
      apply set_column_row; auto. }
    destruct (nth i (snd (fill rows es)) []) as [|e l] eqn:El; auto. exfalso.
    assert (X : In (nth (fst e) (fst (fill rows es)) 0) (map fst (nth i es []))) by (apply G2; simpl; auto).
    rewrite Ei in X. apply in_map_iff in X. destruct X as [[j v] [_ X]]. apply kept_in in X. destruct X as [Hj [-> T]].
    pose proof (@mulvec_row K A B g0 j Hn (Hin _ Hg)) as E. specialize (Hsm g0 j Hg Hj). rewrite <- E in Hsm. apply fltb_lt in T. apply T. auto.
  Qed.
  Lemma convert_some_empty : forall debug (ts : list (trilinos K)), (forall t, In t ts -> trilinos_layout t) -> (exists t, In t ts /\ concat (t_rows t) = []) ->
    mapM (convert_trilinos debug) ts = if debug then Abort else UB.
  Proof.
    intros debug ts Hl [t [Ht E]]. induction ts as [|t0 ts IH]; [contradiction|]. simpl. destruct (concat (t_rows t0)) as [|e0 l0] eqn:E0.
    - rewrite (convert_empty debug (Hl t0 (or_introl eq_refl)) E0). destruct debug; reflexivity.
    - destruct (@convert_trilinos_spec K debug t0 (Hl t0 (or_introl eq_refl))) as [c [Ec _]]; [rewrite E0; discriminate|]. rewrite Ec. cbn [bind].
      rewrite IH; [destruct debug; reflexivity| |].
      + intros t' Ht'. apply Hl. simpl. auto.
      + destruct Ht as [<-|Ht]; [congruence|auto].
  Qed.

  Lemma partition_size : forall n (l : list (list nat)), partition n l -> length (concat l) = n.
  Proof.
    intros n l [H1 H2]. rewrite <- (seq_length n 0). apply Nat.le_antisymm; apply NoDup_incl_length; auto; try apply seq_NoDup.
    - intros i Hi. apply in_seq. apply H2 in Hi. lia.
    - intros i Hi. apply in_seq in Hi. apply H2. lia.
  Qed.
  (** The product before it is sent to the device. *)
  Lemma product_trilinos : forall L eps (o : mf_operator K) s ms b A B rows owned cb rb, libraries_ok L -> state_means s ms ->
    nth_error ms b = Some (mkMeaning B rows owned cb rb) -> evaluates o owned A -> nr A = nc A -> nc A = nc B ->
    exists ts, trilinos_matrix ts owned rows (truncated_product eps A B) /\
      (forall p, In p owned -> (forall i j, In i p -> j < nr B -> (fabs (ent (mmul A (mtrans B)) i j) <= eps)%K) -> exists t, In t ts /\ concat (t_rows t) = []) /\
      exists mb : shared_matrix K, m_handle mb = rb /\
      forall debug, mf_multiply_transpose debug L eps o s b =
        bind (mapM (convert_trilinos debug) ts) (fun parts => Ok (mkCuda (u_mats s ++ [mkShared parts (m_handle mb) true]) (u_ops s ++ [mkOperator (length (u_mats s)) None]))).
  Proof.
    intros L eps o s ms b A B rows owned cb rb HL Hs Hb [Ho He] Hsq Hn.
    destruct (@Forall2_back _ _ _ _ _ Hs b _ Hb) as [ob [Hob [[mb [Hmb [D [Hh Hd]]]] _]]]. cbn [a_range a_domain a_mat a_ready] in *.
    destruct (to_trilinos (lo_fill HL) D) as [tb [Et T]]. destruct (dist_of_holds T (filled_simple _ (lo_fill HL) Et)) as [d [Ed [H [Dm [Dr Dd]]]]].
    assert (Hpart : partition (nr A) owned) by (rewrite Hsq, Hn; apply (dm_cols D)).
    assert (Hcomp : computes (fun src => mf_apply_host o src (zeros_on K owned) false) (d_domain d) owned (d_n d) (nr A) (mulvec A)).
    { intros x Hx. rewrite mulvec_length. split; auto. unfold mf_apply_host. rewrite Dd. rewrite He; auto.
      - rewrite Hx, <- (ho_n H). auto.
      - unfold zeros_on. rewrite map_map. apply map_ext. intros. apply map_length. }
    pose proof (@mtmm_exact d B (mulvec A) _ owned (nr A) eps H Hpart Hcomp) as Em.
    destruct (device_length D) as [L1 L2].
    set (ts := map (fun r => product_matrix (x_fill L) (nr A) (nr B) (nth r owned []) (nth r rows []) (concat (map (fun j => column B (mulvec A) owned (nr A) eps j r) (seq 0 (nr B))))) (seq 0 (length owned))).
    assert (In_owned : forall r i, In i (nth r owned []) -> i < nr A).
    { intros r i Hi. apply (proj2 Hpart). destruct (le_lt_dec (length owned) r); [rewrite nth_overflow in Hi by auto; contradiction|]. eapply in_nth_concat; eauto. }
    exists ts. split.
    - assert (HR : forall t, In t ts -> exists r, r < length owned /\ t = product_matrix (x_fill L) (nr A) (nr B) (nth r owned []) (nth r rows []) (concat (map (fun j => column B (mulvec A) owned (nr A) eps j r) (seq 0 (nr B))))).
      { intros t Ht. apply in_map_iff in Ht. destruct Ht as [r [<- Hr]]. apply in_seq in Hr. exists r. split; auto. lia. }
      constructor; cbn [nr nc truncated_product].
      + unfold ts. destruct owned; [|discriminate]. exfalso. destruct (m_parts mb); [apply (dm_some D); auto|discriminate].
      + unfold ts. rewrite map_map. cbn [product_matrix t_range]. apply map_nth_all.
      + unfold ts. rewrite map_map. cbn [product_matrix t_domain]. replace (length owned) with (length rows) by congruence. apply map_nth_all.
      + intros t Ht. destruct (HR t Ht) as [r [_ ->]]. auto.
      + intros t Ht. destruct (HR t Ht) as [r [_ ->]]. apply product_rank; auto; [apply (lo_fill HL)|apply In_owned].
      + intros t i Ht Hi. destruct (HR t Ht) as [r [_ ->]]. eapply product_rank; eauto; apply (lo_fill HL).
      + rewrite Hsq, Hn. apply (dm_cols D).
      + apply (dm_rows D).
    - split.
      { intros p Hp Hsm. apply (In_nth _ _ []) in Hp. destruct Hp as [r [Hr <-]]. eexists. split; [apply in_map; apply in_seq; split; [lia|]; rewrite Nat.add_0_l; exact Hr|].
        apply product_empty; auto; [apply (lo_fill HL)|]. intros i. apply In_owned. }
      exists mb. split; auto. intros debug. unfold mf_multiply_transpose. rewrite (rd_ok _ _ Hob). cbn [bind]. rewrite (rd_ok _ _ Hmb). cbn [bind]. rewrite Et. cbn [bind]. rewrite Ed. cbn [bind].
      rewrite Ho, (partition_size Hpart). rewrite Em. cbn [bind]. rewrite Dm. f_equal. unfold ts. f_equal. apply map_ext_in. intros r Hr. apply in_seq in Hr. f_equal.
      + rewrite Dr. auto.
      + rewrite (nth_map_lt (fun r => concat (map (fun j => column B (mulvec A) owned (nr A) eps j r) (seq 0 (nr B)))) (seq 0 (length owned)) [] 0) by (rewrite seq_length; lia).
        rewrite seq_nth by lia. auto.
  Qed.
End P.
