(** Proofs about the restriction built on the device: the loop over the agglomerates, the matrix. *)
From Coq Require Import List Arith Lia Bool Field Permutation.
From Verif Require P_Amgx4.
From Verif Require Import Base OField Mat LinAlg M_SpProd S_SpProd P_SpProd M_Csr S_Csr P_Csr P_Csr4 M_Dev S_CudaOp S_Lanczos S_Eig
  M_DevSolve S_DevSolve P_DevSolve M_Restr S_Restr M_AmgeDev S_AmgeDev P_AmgeDev P_AmgeDev2.
Import ListNotations.
Set Implicit Arguments.
Open Scope nat_scope.

Section Loop.
  Variable K : ofield.
  Implicit Types (h : heap K) (A : mat K).
  Ltac ok E := rewrite E; cbn [bind].
  Ltac cases := repeat match goal with |- context [?a =? ?b] => destruct (Nat.eqb_spec a b); auto; try lia end.

  Lemma slice_chunk : forall n k i (l : list K), i < k -> k * n <= length l -> slice (firstn (k * n) l) (i * n) n = Ok (chunk n i l).
  Proof.
    intros n k i l Hi Hl. unfold slice, chunk. rewrite firstn_length. replace (i * n + n <=? Nat.min (k * n) (length l)) with true.
    - f_equal. rewrite skipn_firstn_comm, firstn_firstn. rewrite (Nat.mul_comm n i). f_equal. apply Nat.min_l. nia.
    - symmetry. apply Nat.leb_le. nia.
  Qed.
  Lemma step_run : forall debug Z k (x : agglomerate K) A d h, eig_library_ok Z -> agglomerate_ok k x A -> eig_succeeds Z A -> allocator_ok h ->
    exists r h', agglomerate_step debug Z (fst (fst (fst x))) k (snd (fst (fst x))) (snd (fst x)) (snd x) d h =
        Ok (mkData (da_evals d) (da_evecs d ++ ag_evecs r) (da_diag d ++ [ag_diag r]) (da_maps d ++ [ag_map r]) (da_nloc d ++ [k]), h') /\
      agglomerate_result k x A r /\ allocator_ok h' /\ memory_plus h h' (left_behind r).
  Proof.
    intros debug Z k [[[g c] w] dofs] A d h HZ Hx HS Ha. pose proof (ao_size Hx) as Hk. pose proof (ao_env Hx) as Hg. pose proof (ao_dofs Hx) as Hd.
    destruct (ao_matrix Hx) as [range [domain HA]]. cbn [fst snd] in *. pose proof (ao_symmetric Hx) as Hsym.
    destruct (@local_run K debug Z g k c w range domain A h HZ HA Hsym (ao_once Hx) ltac:(lia) ltac:(lia) Hg Ha) as [R _].
    destruct (R HS ltac:(lia)) as [r [E [ws [a' [sp [vp [dp [q [h1 [-> [ES [B1 [B2 [B3 [B4 [B5 [O1 Q1]]]]]]]]]]]]]]]]]. clear R.
    unfold agglomerate_step. ok E. set (n := nr A) in *. rewrite Hd.
    assert (La : length a' = n * n) by apply ES. assert (Lw : length ws = n) by apply ES.
    assert (Kn : k * n <= n * n) by (apply Nat.mul_le_mono_r; unfold n; lia).
    rewrite (@read_vals_n K debug h1 vp (firstn (k * n) a')); [|rewrite Q1; cases|rewrite firstn_length; lia]. cbn [bind].
    rewrite (@mapM_ok _ _ _ (fun i => chunk n i a')). 2: { intros i Hi. apply in_seq in Hi. apply slice_chunk; lia. }
    cbn [bind]. destruct (@lookup_free K h1 vp (CVals (firstn (k * n) a'))) as [h2 [A2 [N2 Q2]]]; [rewrite Q1; cases|]. ok A2.
    rewrite (@read_vals_n K debug h2 dp (map (fun i => ent A i i) (seq 0 n))); [|rewrite Q2, Q1; cases|rewrite map_length, seq_length; auto]. cbn [bind].
    destruct (@lookup_free K h2 dp (CVals (map (fun i => ent A i i) (seq 0 n)))) as [h3 [A3 [N3 Q3]]]; [rewrite Q2, Q1; cases|]. ok A3.
    exists (mkAgg (firstn k ws) (map (fun i => chunk n i a') (seq 0 k)) (map (fun i => ent A i i) (seq 0 n)) dofs), h3.
    assert (F : forall i, lookup h3 i = if i =? sp then Some (CVals (firstn k ws)) else if i =? q then Some CDescr else lookup h i).
    { intros i. rewrite Q3, Q2, Q1. cases; symmetry; apply Ha; lia. }
    split; [reflexivity|]. split; [|split].
    - split; [cbn; rewrite map_length, seq_length; auto|]. split; [|split; auto]. cbn. apply first_eigenvectors; auto. lia.
    - intros i Hi. rewrite F. cases. apply Ha. lia.
    - exists [q; sp]. split; auto. split; [constructor; [simpl; lia|constructor; [auto|constructor]]|]. split.
      + intros id [<-|[<-|[]]]; apply Ha; lia.
      + split.
        * intros [|[|i]] Hi; [| |simpl in Hi; lia]; cbn [nth]; rewrite F; cbn [left_behind nth_error ag_evals]; cases.
        * intros id Hid. rewrite F. simpl in Hid. cases; exfalso; apply Hid; subst; auto.
  Qed.

  Lemma memory_plus_nil : forall h, memory_plus h h [].
  Proof. intros h. exists []. split; auto. split; [constructor|]. split; [intros id []|]. split; [intros i Hi; simpl in Hi; lia|]. auto. Qed.
  Lemma memory_plus_app : forall h h' h'' l l', memory_plus h h' l -> memory_plus h' h'' l' -> memory_plus h h'' (l ++ l').
  Proof.
    intros h h' h'' l l' [ids [L [N [F [W O]]]]] [ids' [L' [N' [F' [W' O']]]]].
    assert (X : forall id, In id ids -> ~ In id ids').
    { intros id Hi Hi'. apply F' in Hi'. apply (In_nth _ _ 0) in Hi. destruct Hi as [i [Hi <-]]. rewrite W in Hi' by auto. apply nth_error_None in Hi'. lia. }
    exists (ids ++ ids'). split; [rewrite !app_length; lia|]. split; [|split; [|split]].
    - apply P_Amgx4.NoDup_app_intro; auto.
    - intros id Hid. apply in_app_iff in Hid. destruct (in_dec Nat.eq_dec id ids) as [Q|Q]; auto. destruct Hid as [|Hid]; [contradiction|].
      rewrite <- (O id Q). auto.
    - intros i Hi. rewrite app_length in Hi. destruct (le_lt_dec (length ids) i) as [G|G].
      + rewrite app_nth2 by auto. rewrite W' by lia. rewrite nth_error_app2 by lia. rewrite L. auto.
      + rewrite app_nth1 by auto. rewrite nth_error_app1 by lia. rewrite O' by (apply X, nth_In; auto). apply W. auto.
    - intros id Hid. rewrite O', O; auto; intros Q; apply Hid; apply in_app_iff; auto.
  Qed.

  Lemma loop_run : forall debug Z k (xs : list (agglomerate K * mat K)) d h, eig_library_ok Z ->
    (forall x A, In (x, A) xs -> agglomerate_ok k x A /\ eig_succeeds Z A) -> allocator_ok h ->
    exists rs h', setup_loop debug Z k (map fst xs) d h =
        Ok (mkData (da_evals d) (da_evecs d ++ flat_map (@ag_evecs K) rs) (da_diag d ++ map (@ag_diag K) rs) (da_maps d ++ map (@ag_map K) rs)
              (da_nloc d ++ map (fun r => length (ag_evecs r)) rs), h') /\
      Forall2 (fun p r => agglomerate_result k (fst p) (snd p) r) xs rs /\ allocator_ok h' /\ memory_plus h h' (flat_map (@left_behind K) rs).
  Proof.
    intros debug Z k xs. induction xs as [|[x A] xs IH]; intros d h HZ Hx Ha.
    - exists [], h. cbn. rewrite !app_nil_r. split; [destruct d; auto|]. split; auto. split; auto. apply memory_plus_nil.
    - destruct (Hx x A) as [H1 H2]; [simpl; auto|]. destruct (step_run debug d HZ H1 H2 Ha) as [r [h1 [E [R [O M]]]]].
      cbn [map fst]. destruct x as [[[g c] w] dofs]. cbn [setup_loop]. cbn [fst snd] in E. ok E.
      destruct (IH (mkData (da_evals d) (da_evecs d ++ ag_evecs r) (da_diag d ++ [ag_diag r]) (da_maps d ++ [ag_map r]) (da_nloc d ++ [k])) h1 HZ) as [rs [h2 [E2 [R2 [O2 M2]]]]]; auto.
      { intros x' A' Hin. apply Hx. simpl; auto. }
      exists (r :: rs), h2. split; [|split; [constructor; auto|split; auto]].
      + rewrite E2. cbn [da_evals da_evecs da_diag da_maps da_nloc flat_map map]. rewrite <- !app_assoc. cbn [app]. rewrite (proj1 R). auto.
      + cbn [flat_map]. eapply memory_plus_app; eauto.
  Qed.
End Loop.
