(** The fast product of matrix-free preconditioners with pairs that are not exact. *)
From Coq Require Import String List Arith ZArith NArith Bool Lia Field.
From Verif Require Import Base OField Mat LinAlg M_Ptree S_Ptree P_Ptree M_Agglo S_Agglo P_Agglo P_Agglo2 M_WorkStream P_WorkStream M_Restr S_Restr P_Restr P_Restr2
  M_FastAP S_FastAP P_FastAP P_FastAP2 M_Lanczos S_Lanczos P_Lanczos M_Eig S_Eig P_Eig M_Hier S_Hier P_Hier M_Host P_Host M_HostEnd S_HostEnd P_HostEnd P_Reuse S_Rate P_Rate P_Approx P_ParEnd
  M_Smoother P_Smoother
  M_MfEnd S_MfEnd P_MfEnd C_FastAP C_FastAP2 S_Trunc P_Trunc S_MfFast.
Import ListNotations.
Set Implicit Arguments.
Open Scope list_scope.
Open Scope nat_scope.

Section PMfFast.
  Variable K : ofield.
  Add Field KfieldMfFast : (f_field K).
  Local Notation vec := (vec K).
  Variable parse_unsigned : string -> option Z.
  Variable parse_double : string -> option K.
  Variable lobpcg : (vec -> vec) -> Z -> K -> list vec -> bool * eigensolution K.
  Variable fsqrt : K -> option K.
  Variable dstev : list K -> list K -> outcome (list K * list K).
  Variable tol2 : K.
  Variable rand : nat -> nat -> K.
  Variable std_sort : (nat -> nat -> bool) -> list nat -> list nat.
  Variable partition : partitioner_kind -> list nat.
  Variable conn : nat -> list nat.
  Variable agg_dofs : list nat -> list nat.
  Variable agg_op : list nat -> vec -> vec.
  Variable agg_diag : list nat -> list K.
  Variable constrained : list nat -> list nat.
  Variable draws : nat -> nat -> K.
  Variables (debug dim3 : bool).
  Variable m : mesh.
  Variable F : fem K.
  Variable fixed : nat -> bool.
  Variable gd : nat -> option K.
  Local Notation n_dofs := (f_ndofs F).
  Local Notation A := (assembled F m).
  Local Notation run := (mf_restrictor_run parse_unsigned parse_double lobpcg fsqrt dstev tol2 rand std_sort partition conn agg_dofs agg_op agg_diag constrained draws
    debug dim3 m n_dofs gd).
  Local Notation problem := (mf_local_problem parse_double lobpcg fsqrt dstev tol2 rand std_sort agg_dofs agg_op agg_diag constrained draws debug m).
  Local Notation agglomerates := (build_agglomerates parse_unsigned partition debug dim3 m).
  Local Notation fresh := (repeat 0 (n_cells m)).
  Local Notation patch cells := (patch_matrix F cells (agg_dofs cells)).
  Local Notation evaluate := (fun cells => (agg_dofs cells, patch cells)).

  Hypothesis Hmesh : mesh_ok debug m.
  Hypothesis Hpart : forall k, length (owned_cells m) <= length (partition k).
  Hypothesis Hserial : serial m.
  Hypothesis Hfem : fem_ok F.
  Hypothesis Heval : mf_evaluator_ok F fixed agg_dofs agg_op agg_diag constrained.
  Hypothesis Hspd : spd n_dofs (mulvec A).
  Hypothesis Hgd : mf_diagonal_ok F fixed A gd.

  Lemma mf_fast_error : forall p R AP lambda eps tau, run fresh p R AP -> connectivity_ok F m conn -> pt_get parse_bool ["fast_ap"%string] false p = true ->
    mf_kept_represent F fixed agglomerates problem agg_dofs m p lambda eps -> mf_kept_pairs F agglomerates problem agg_dofs m p tau ->
    (forall agg ui n, pt_find p ["agglomeration"%string] = Some agg -> agglomerates agg fresh = Ok (ui, n) ->
      (forall a, 1 <= a <= n -> touches_others m ui conn a) \/ (forall a, 1 <= a <= n -> ~ touches_others m ui conn a)) ->
    columns_within tau AP (mmul A (mtrans R)).
  Proof.
    intros p R AP lambda eps tau (eig & agg & ui & n & ns & nb & d & mm & P1 & P2 & BA & C & CR & -> & X) Hc HF HD HX HT. rewrite HF in X.
    destruct X as (bd & ns' & nb' & corr & BB & FC & ->).
    destruct (agglomerates_ids parse_unsigned partition dim3 Hmesh Hpart agg BA) as (Lu & Hid).
    destruct (mf_collected Hserial P1 P2 BA C HD) as (acs & A1 & -> & G & HP & _).
    apply (mfa_corrections_same Heval) in FC; [|exact (@rows_vanish _ _ _ _ _ _ _ _ _ _ Hfem Heval Hgd ui acs mm _ G CR)|exact (@bd_nodup conn m ui n bd Lu Hid BB)].
    rewrite (@corrected_restriction _ _ _ _ _ _ _ _ _ _ Hfem Heval Hgd ui acs _ G) in CR. rewrite <- (proj2 (flat_same agg_dofs m F ui acs)).
    set (l := map (right_diag agg_dofs m F ui) acs) in *. assert (Le : length (da_evecs (data_of (map snd acs))) = length (rows_of l)).
    { rewrite <- (proj1 (flat_same agg_dofs m F ui acs)). cbn [data_of da_evecs]. apply flat_evecs_length. }
    rewrite Le in *.
    assert (La : length acs = n) by (rewrite <- (map_length fst), A1; apply seq_length).
    assert (Ll : length l = n) by (unfold l; rewrite map_length; exact La).
    rewrite Forall_forall in G.
    assert (Hex : forall a c, nth_error l a = Some c -> let M := patch (agg_cells m ui (S a)) in local_agg F (agg_cells m ui (S a)) (n_eigenvectors eig) c M /\
      forall k, k < n_eigenvectors eig -> fle (dot (pair_residual c M k) (pair_residual c M k)) tau).
    { intros a c Ha. unfold l in Ha. rewrite nth_error_map in Ha. destruct (nth_error acs a) as [[a' c']|] eqn:Ea; [|discriminate Ha]. cbn in Ha. injection Ha as <-.
      assert (Hlt : a < n) by (rewrite <- La; apply nth_error_Some; congruence).
      assert (a' = S a). { apply (map_nth_error fst) in Ea. rewrite A1, (nth_error_nth' (seq 1 n) 0), seq_nth in Ea by (try rewrite seq_length; exact Hlt). cbn in Ea. congruence. }
      subst a'. assert (I := nth_error_In _ _ Ea). destruct (HP _ _ I) as ((sc & E) & Hb). destruct (HX eig agg ui n (S a) sc c' P1 P2 BA Hb E) as (X1 & X2 & X3).
      destruct (G _ I) as (Q1 & Q2 & Q3 & Q4). cbn [fst snd] in Q1, Q2, Q3, Q4. cbv zeta. unfold local_agg, pair_residual. cbn [right_diag ag_map ag_diag ag_evecs ag_evals fst snd]. rewrite Q1.
      split; [|exact X3].
      split; [exact (mf_patch_ok Heval (mf_nodup m ui (S a)))|]. split; [reflexivity|]. split; [exact X1|]. split; [exact X2|]. intros k Hk.
      unfold sized_all in Q3. rewrite Forall_forall in Q3. apply Q3. apply nth_In. unfold OField.vec in *. lia. }
    assert (HIn : forall c g, In c l -> In g (ag_map c) -> g < n_dofs).
    { intros c g Ic Ig. apply in_map_iff in Ic. destruct Ic as (ac & <- & Ia). exact (good_bound Hfem Heval g (G ac Ia) Ig). }
    assert (Gd : gd_ok (fun g => ent A g g) l (fun g => Some (ent A g g))) by (intros c Ic g Ig; reflexivity).
    assert (Hall : (forall q, In q bd -> fst q <> []) \/ (forall q, In q bd -> fst q = [])).
    { destruct (@boundary_correct m ui n conn Lu Hid) as (bd' & Eb & Lb & Hb). rewrite BB in Eb. injection Eb as <-.
      assert (V : forall q, In q bd -> exists a, 1 <= a <= n /\ (forall c, In c (fst q) <-> (in_agg m ui a c /\ exists d, In d (conn c) /\ ~ in_agg m ui a d))).
      { intros q Hq. destruct (In_nth _ _ ([], []) Hq) as (a & Ha & Eq). specialize (Hb (S a) ltac:(lia)).
        rewrite Nat.sub_succ, Nat.sub_0_r, Eq in Hb. destruct q as (qi & qh). exists (S a). split; [lia|]. apply Hb. }
      destruct (HT agg ui n P2 BA) as [T|T]; [left|right]; intros q Hq; destruct (V q Hq) as (a & Ha & Hv).
      - intros Z. destruct (T a Ha) as (c & e & I1 & I2 & I3). rewrite Z in Hv. apply (Hv c). split; auto. exists e. auto.
      - destruct (fst q) as [|c q']; auto. exfalso. apply (T a Ha). destruct (proj1 (Hv c) (or_introl eq_refl)) as (I1 & e & I2 & I3). exists c, e. auto. }
    set (nev := n_eigenvectors eig) in *.
    assert (Hlen : length (rows_of l) = length l * nev).
    { apply rows_of_length_const. intros c Ic. apply In_nth_error in Ic. destruct Ic as (a & Ha). apply (proj1 (Hex a c Ha)). }
    split; [reflexivity|]. split; [reflexivity|]. intros r Hr. cbn [mmul mtrans spm_matrix nc nr] in Hr |- *.
    assert (Hnev : 0 < nev) by (destruct nev; lia).
    assert (Er : r = r / nev * nev + r mod nev) by (rewrite (Nat.div_mod r nev) at 1 by lia; lia).
    assert (Hk : r mod nev < nev) by (apply Nat.mod_upper_bound; lia).
    assert (Hi : r / nev < length l). { apply Nat.div_lt_upper_bound; [lia|]. rewrite Nat.mul_comm, <- Hlen. exact Hr. }
    destruct (nth_error l (r / nev)) as [c|] eqn:Ec; [|apply nth_error_None in Ec; lia].
    destruct (Hex _ c Ec) as (HM & HR).
    pose proof (@C81_error K debug F m conn ui evaluate (ent A) (fun g => Some (ent A g g)) (fun g => ent A g g) [length (rows_of l)] 0 l nev mm bd ns' nb' corr) as T.
    change (n_rows_before [length (rows_of l)] 0) with 0 in T.
    destruct (T Hfem (mf_patch_ok Heval) Hc) with (i := r / nev) (k := r mod nev) (c := c) (M := patch (agg_cells m ui (S (r / nev)))) as (_ & _ & T3); auto.
    - exists (fun _ _ => 0%K). split; [|auto]. intros. cbn [assembled ent]. ring.
    - rewrite Ll. exact Hid.
    - intros a c' Ha. exists (patch (agg_cells m ui (S a))). apply (Hex a c' Ha).
    - intros c' g' Ic Ig. split; auto. apply not_eq_sym, flt_neq. apply (@diag_pos K A eq_refl (proj2 Hspd) g' (HIn c' g' Ic Ig)).
    - rewrite Ll. exact BB.
    - cbv zeta in T3. rewrite <- Er in T3. specialize (HR _ Hk). rewrite <- T3 in HR. exact HR.
  Qed.
End PMfFast.

Section PMfFast2.
  Variable K : ofield.
  Add Field KfieldMfFast2 : (f_field K).
  (** A bound on the columns bounds the entries. *)
  Lemma columns_entries : forall (T M : mat K) tau eps, columns_within tau T M -> fle 0%K eps -> fle tau (eps * eps)%K -> within eps T M.
  Proof.
    intros T M tau eps (H1 & H2 & H3) He Ht. split; [exact H1|]. split; [exact H2|]. intros i j Hi Hj. set (t := (ent T i j - ent M i j)%K).
    assert (Q : fle (t * t)%K (eps * eps)%K).
    { eapply fle_trans; [|eapply fle_trans; [exact (H3 j Hj)|exact Ht]].
      replace (t * t)%K with ((fun i => ((ent M i j - ent T i j) * (ent M i j - ent T i j))%K) i) by (cbv beta; unfold t; ring). apply (@P_Trunc.sumn_term K (nr M) (fun i => ((ent M i j - ent T i j) * (ent M i j - ent T i j))%K)); auto. intros k _. apply fsquare_nonneg. }
    apply fabs_le. destruct (@square_le K t eps He Q) as (Q1 & Q2). auto.
  Qed.
  Lemma columns_within_off : forall (T M : mat K) tau, columns_within tau T M -> off_by (fnat (nc M) * tau)%K T M.
  Proof.
    intros T M tau (H1 & H2 & H3). split; [exact H1|]. split; [exact H2|]. intros z Lz. cbv zeta. rewrite mdiff_acts by auto. apply (@columns_off K (mdiff T M) tau z Lz).
    intros j Hj. eapply fle_trans; [|exact (H3 j Hj)]. cbn [mdiff nr ent]. match goal with |- fle ?u ?v => replace u with v; [apply fle_refl|] end. apply sumn_ext. intros i _. ring.
  Qed.
End PMfFast2.
