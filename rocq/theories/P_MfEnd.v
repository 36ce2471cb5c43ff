(** The matrix-free preconditioner from the mesh to vmult. *)
From Coq Require Import String List Arith ZArith Bool Lia Field.
From Verif Require Import Base OField Mat LinAlg M_Ptree S_Ptree P_Ptree M_Agglo S_Agglo P_Agglo P_Agglo2 M_WorkStream P_WorkStream M_Restr S_Restr P_Restr P_Restr2
  M_FastAP S_FastAP P_FastAP P_FastAP2 M_Lanczos S_Lanczos P_Lanczos M_Eig S_Eig P_Eig M_Hier S_Hier P_Hier M_Host P_Host M_HostEnd S_HostEnd P_HostEnd P_Reuse S_Rate P_Rate P_Approx P_ParEnd
  M_Smoother P_Smoother
  M_MfEnd S_MfEnd C_FastAP.
Import ListNotations.
Set Implicit Arguments.
Open Scope list_scope.
Open Scope nat_scope.

Lemma bind_inv : forall X Y (o : outcome X) (f : X -> outcome Y) y, bind o f = Ok y -> exists x, o = Ok x /\ f x = Ok y.
Proof. intros X Y [a| | | |] f y H; try discriminate H. exists a. auto. Qed.

Section Corrected.
  Variable K : ofield.
  Add Field KfieldMfC : (f_field K).
  Local Notation vec := (vec K).

  (** Two families of agglomerates with the same maps and vectors whose weights agree give the same matrices. *)
  Lemma rows_step_same : forall acc (D D' : nat -> K) (cc : list (agg_result K * agg_result K)) row s,
    (forall c c', In (c, c') cc -> ag_map c = ag_map c' /\ ag_evecs c = ag_evecs c' /\
      forall e, In e (ag_evecs c) -> forall j, j < length (ag_map c) -> wgt D c e j = wgt D' c' e j /\ dlt D c e j = dlt D' c' e j) ->
    rows_step acc D row (rows_of (map fst cc)) s = rows_step acc D' row (rows_of (map snd cc)) s.
  Proof.
    intros acc D D'. induction cc as [|[c c'] cc IH]; intros row s H; [reflexivity|]. cbn [map fst snd rows_of flat_map]. rewrite !rows_step_app.
    destruct (H c c' (or_introl eq_refl)) as (E1 & E2 & E3). rewrite <- E2. rewrite !map_length.
    assert (X : forall es row s, incl es (ag_evecs c) -> rows_step acc D row (map (fun e => (c, e)) es) s = rows_step acc D' row (map (fun e => (c', e)) es) s).
    { induction es as [|e es IHe]; intros row' s' I; [reflexivity|]. cbn [map rows_step].
      assert (Q : row_step acc D c row' e s' = row_step acc D' c' row' e s').
      { unfold row_step. rewrite <- E1. f_equal.
        - f_equal. unfold trip. apply map_ext_in. intros j Hj. apply in_seq in Hj. f_equal. apply (E3 e); [apply I; left; reflexivity|lia].
        - unfold set_all. assert (Y : forall l s0, incl l (seq 0 (length (ag_map c))) ->
            fold_left (fun s j => spm_set acc s row' (nth j (ag_map c) 0) (dlt D c e j)) l s0 = fold_left (fun s j => spm_set acc s row' (nth j (ag_map c) 0) (dlt D' c' e j)) l s0).
          { induction l as [|j l IHl]; intros s0 Il; [reflexivity|]. cbn [fold_left]. assert (Hj := Il j (or_introl eq_refl)). apply in_seq in Hj.
            rewrite (proj2 (E3 e (I e (or_introl eq_refl)) j ltac:(lia))). apply IHl. intros z Hz. apply Il. right. exact Hz. }
          apply Y. apply incl_refl. }
      rewrite Q. apply IHe. intros z Hz. apply I. right. exact Hz. }
    rewrite X by apply incl_refl. apply IH. intros d d' I. apply H. right. exact I.
  Qed.
End Corrected.

Section PMfEnd.
  Variable K : ofield.
  Add Field KfieldMfEnd : (f_field K).
  Local Notation vec := (vec K).
  Variable parse_unsigned : string -> option Z.
  Variable parse_double : string -> option K.
  Variable lobpcg : (vec -> vec) -> Z -> K -> list vec -> bool * eigensolution K.
  Variable fsqrt : K -> option K.
  Variable dstev : list K -> list K -> outcome (list K * list K).
  Variable tol2 : K.
  Variable rand : nat -> nat -> K.
  Variable std_sort : (nat -> nat -> bool) -> list nat -> list nat.
  Variable partition : partitioner_kind -> list nat.
  Variable conn : nat -> list nat.
  Variable agg_dofs : list nat -> list nat.
  Variable agg_op : list nat -> vec -> vec.
  Variable agg_diag : list nat -> list K.
  Variable constrained : list nat -> list nat.
  Variable draws : nat -> nat -> K.
  Variables (debug dim3 : bool).
  Variable m : mesh.
  Variable F : fem K.
  Variable fixed : nat -> bool.
  Variable gd : nat -> option K.
  Local Notation n_dofs := (f_ndofs F).
  Local Notation A := (assembled F m).
  Local Notation run := (mf_restrictor_run parse_unsigned parse_double lobpcg fsqrt dstev tol2 rand std_sort partition conn agg_dofs agg_op agg_diag constrained draws
    debug dim3 m n_dofs gd).
  Local Notation problem := (mf_local_problem parse_double lobpcg fsqrt dstev tol2 rand std_sort agg_dofs agg_op agg_diag constrained draws debug m).
  Local Notation agglomerates := (build_agglomerates parse_unsigned partition debug dim3 m).
  Local Notation fresh := (repeat 0 (n_cells m)).
  Local Notation patch cells := (patch_matrix F cells (agg_dofs cells)).
  Local Notation evaluate := (fun cells => (agg_dofs cells, patch cells)).

  Hypothesis Hmesh : mesh_ok debug m.
  Hypothesis Hpart : forall k, length (owned_cells m) <= length (partition k).
  Hypothesis Hserial : serial m.
  Hypothesis Hfem : fem_ok F.
  Hypothesis Heval : mf_evaluator_ok F fixed agg_dofs agg_op agg_diag constrained.
  Hypothesis Hspd : spd n_dofs (mulvec A).
  Hypothesis Hgd : mf_diagonal_ok F fixed A gd.

  Lemma mf_patch_ok : evaluate_ok F evaluate.
  Proof.
    intros cells N. cbn [fst snd]. destruct (Heval N) as (Q1 & Q2 & _). split; [exact Q1|]. split; [reflexivity|]. split; [reflexivity|]. split; [exact Q2|].
    intros k l _ _. reflexivity.
  Qed.
  Lemma mf_cells : forall ui a, patch_by_id (n_cells m) a ui = agg_cells m ui a.
  Proof. intros ui a. unfold patch_by_id, agg_cells. apply filter_ext_in. intros c Hc. apply in_seq in Hc. rewrite Hserial by lia. reflexivity. Qed.
  Lemma mf_nodup : forall ui a, NoDup (agg_cells m ui a).
  Proof. intros. apply NoDup_filter, seq_NoDup. Qed.

  (** What a result says besides its pairs. *)
  Lemma mf_result : forall eig ui a sc c, problem eig ui a sc = Ok c -> ag_map c = agg_dofs (agg_cells m ui a) /\ ag_diag c = agg_diag (agg_cells m ui a).
  Proof.
    intros eig ui a sc c E. unfold mf_local_problem, compute_local_eigenvectors_mf in E. rewrite mf_cells in E.
    apply bind_inv in E. destruct E as (kind & _ & E). apply bind_inv in E. destruct E as (r & _ & E). injection E as <-. auto.
  Qed.

  (** The diagonal read, and the results with the diagonals of the patch matrices. *)
  Definition read_diag (g : nat) : K := match gd g with Some v => v | None => 0%K end.
  Definition right_diag (ui : list nat) (ac : nat * agg_result K) : agg_result K :=
    mkAgg (ag_evals (snd ac)) (ag_evecs (snd ac)) (map (fun k => ent (patch (agg_cells m ui (fst ac))) k k) (seq 0 (length (ag_map (snd ac))))) (ag_map (snd ac)).
  Definition good (ui : list nat) (ac : nat * agg_result K) : Prop :=
    let cells := agg_cells m ui (fst ac) in
    ag_map (snd ac) = agg_dofs cells /\ ag_diag (snd ac) = agg_diag cells /\ sized_all (length (agg_dofs cells)) (ag_evecs (snd ac)) /\
    (forall e, In e (ag_evecs (snd ac)) -> zero_at_fixed fixed (agg_dofs cells) e).

  Lemma good_bound : forall ui ac g, good ui ac -> In g (ag_map (snd ac)) -> g < n_dofs.
  Proof.
    intros ui ac g (Q1 & _) I. rewrite Q1 in I. destruct (Heval (mf_nodup ui (fst ac))) as (_ & H & _). apply H in I. destruct I as (k & _ & I). exact (proj1 (Hfem k) g I).
  Qed.
  Lemma good_agg_ok : forall ui ac, good ui ac -> agg_ok (snd ac) /\ agg_ok (right_diag ui ac).
  Proof.
    intros ui ac (Q1 & Q2 & Q3 & _). destruct (Heval (mf_nodup ui (fst ac))) as (_ & _ & _ & _ & H & _). unfold sized_all in Q3. rewrite Forall_forall in Q3.
    split; (split; [|intros e Ie]).
    - rewrite Q1, Q2. exact H.
    - rewrite Q1. apply Q3. exact Ie.
    - cbn [right_diag ag_diag ag_map]. rewrite map_length, seq_length. reflexivity.
    - cbn [right_diag ag_map ag_evecs] in *. rewrite Q1. apply Q3. exact Ie.
  Qed.
  Lemma good_weights : forall ui ac e j, good ui ac -> In e (ag_evecs (snd ac)) -> j < length (ag_map (snd ac)) ->
    wgt read_diag (snd ac) e j = wgt (fun g => ent A g g) (right_diag ui ac) e j /\ dlt read_diag (snd ac) e j = dlt (fun g => ent A g g) (right_diag ui ac) e j.
  Proof.
    intros ui ac e j G Ie Hj. assert (Hb := good_bound (nth j (ag_map (snd ac)) 0) G (nth_In _ _ Hj)). destruct G as (Q1 & Q2 & Q3 & Q4).
    destruct (Heval (mf_nodup ui (fst ac))) as (_ & _ & _ & _ & _ & HD). unfold wgt, dlt. cbn [right_diag ag_map ag_diag].
    destruct (fixed (nth j (ag_map (snd ac)) 0)) eqn:Fx.
    - rewrite Q1 in Fx, Hj. rewrite (Q4 e Ie j Hj Fx). split; ring.
    - destruct (Hgd Hb) as (v & Ev & _ & Hv). unfold read_diag. rewrite Ev, (Hv Fx), Q2.
      rewrite nth_map_K by (rewrite seq_length; exact Hj). rewrite seq_nth by exact Hj. cbn [Nat.add]. rewrite Q1 in Fx, Hj. rewrite (HD j Hj Fx). auto.
  Qed.

  (** The matrices are those of the right diagonals. *)
  Lemma corrected_restriction : forall ui acs counts, Forall (good ui) acs ->
    compute_restriction debug true counts 0 gd (data_of (map snd acs)) =
    compute_restriction debug true counts 0 (fun g => Some (ent A g g)) (data_of (map (right_diag ui) acs)).
  Proof.
    intros ui acs counts G. rewrite Forall_forall in G.
    rewrite (@compute_restriction_spec K debug true counts 0 gd read_diag (map snd acs)).
    - rewrite (@compute_restriction_spec K debug true counts 0 (fun g => Some (ent A g g)) (fun g => ent A g g) (map (right_diag ui) acs)).
      + f_equal. pose proof (@rows_step_same K true read_diag (fun g => ent A g g) (map (fun ac => (snd ac, right_diag ui ac)) acs) (n_rows_before counts 0) (mkR [] [] [])) as Q.
        rewrite !map_map in Q. cbn [fst snd] in Q. change (fun x => right_diag ui x) with (right_diag ui) in Q. change (fun x : nat * agg_result K => snd x) with (@snd nat (agg_result K)) in Q.
        apply Q. intros c c' I. apply in_map_iff in I. destruct I as (ac & E & Ia). injection E as <- <-. split; [reflexivity|]. split; [reflexivity|].
        intros e Ie j Hj. apply good_weights; auto.
      + intros c Ic. apply in_map_iff in Ic. destruct Ic as (ac & <- & Ia). apply (good_agg_ok (G ac Ia)).
      + intros c Ic g Ig. reflexivity.
    - intros c Ic. apply in_map_iff in Ic. destruct Ic as (ac & <- & Ia). apply (good_agg_ok (G ac Ia)).
    - intros c Ic g Ig. apply in_map_iff in Ic. destruct Ic as (ac & <- & Ia). destruct (Hgd (good_bound g (G ac Ia) Ig)) as (v & Ev & _). unfold read_diag. rewrite Ev. reflexivity.
  Qed.
  Lemma flat_same : forall ui (acs : list (nat * agg_result K)), da_evecs (data_of (map (right_diag ui) acs)) = da_evecs (data_of (map snd acs)) /\
    da_evals (data_of (map (right_diag ui) acs)) = da_evals (data_of (map snd acs)).
  Proof.
    intros ui acs. cbn [data_of da_evecs da_evals]. induction acs as [|ac acs (I1 & I2)]; [split; reflexivity|]. cbn [map flat_map]. rewrite I1, I2. split; reflexivity.
  Qed.

  (** What is collected. *)
  Lemma mf_collected : forall p eig agg ui n ns nb d lambda eps, pt_find p ["eigensolver"%string] = Some eig -> pt_find p ["agglomeration"%string] = Some agg ->
    agglomerates agg fresh = Ok (ui, n) -> collect (problem eig ui) (keeps_guess eig) n ns nb d ->
    mf_kept_represent F fixed agglomerates problem agg_dofs m p lambda eps ->
    exists acs, map fst acs = seq 1 n /\ d = data_of (map snd acs) /\ Forall (good ui) acs /\
      (forall a c, In (a, c) acs -> (exists sc, problem eig ui a sc = Ok c) /\ 1 <= a <= n) /\
      (forall ac, In ac acs -> let M := patch (agg_cells m ui (fst ac)) in approximates_up_to M (rows_matrix (nr M) (ag_evecs (snd ac))) lambda eps).
  Proof.
    intros p eig agg ui n ns nb d lambda eps P1 P2 BA C HD. destruct (collected_any C) as (acs & A1 & A2 & A3). exists acs. split; [exact A1|]. split; [exact A2|].
    assert (X : forall a c, In (a, c) acs -> good ui (a, c) /\ let M := patch (agg_cells m ui a) in approximates_up_to M (rows_matrix (nr M) (ag_evecs c)) lambda eps).
    { intros a c I. destruct (A3 a c I) as (Ha & sc & E). destruct (HD eig agg ui n a sc c P1 P2 BA Ha E) as (D1 & D2 & D3). destruct (mf_result _ _ _ _ E) as (R1 & R2).
      split; [|exact D3]. split; [exact R1|]. split; [exact R2|]. split; [exact D1|exact D2]. }
    split; [apply Forall_forall; intros [a c] I; apply X; exact I|]. split; [intros a c I; destruct (A3 a c I); auto|]. intros [a c] I. apply X. exact I.
  Qed.

  Hypothesis Hpsd : forall c u, fle 0%K (cell_energy F c u).

  Lemma mf_coarse : forall p R AP lambda eps kappa, run fresh p R AP -> fle 0%K lambda -> fle 0%K eps -> cells_per_dof F (n_cells m) kappa ->
    mf_kept_represent F fixed agglomerates problem agg_dofs m p lambda eps -> approximates_up_to A R lambda (eps * fnat kappa)%K.
  Proof.
    intros p R AP lambda eps kappa (eig & agg & ui & n & ns & nb & d & mm & P1 & P2 & BA & C & CR & -> & _) H0 H1 HK HD.
    destruct (agglomerates_ids parse_unsigned partition dim3 Hmesh Hpart agg BA) as (Lu & Hid).
    destruct (mf_collected P1 P2 BA C HD) as (acs & A1 & -> & G & _ & AP').
    rewrite (@corrected_restriction ui acs _ G) in CR.
    set (l := map (right_diag ui) acs) in *. assert (Le : length (da_evecs (data_of (map snd acs))) = length (rows_of l)).
    { rewrite <- (proj1 (flat_same ui acs)). cbn [data_of da_evecs]. apply flat_evecs_length. }
    rewrite Le in *.
    apply (@coarse_up_to K F m (nat * agg_result K) acs (right_diag ui) (fun ac => agg_cells m ui (fst ac)) (fun ac => patch (agg_cells m ui (fst ac))) lambda eps kappa); auto.
    - intros ac Ia. rewrite Forall_forall in G. destruct (G ac Ia) as (Q1 & Q2 & Q3 & Q4). cbn [right_diag ag_map ag_diag ag_evecs]. rewrite Q1.
      split; [exact (@mf_patch_ok _ (mf_nodup ui (fst ac)))|]. split; [reflexivity|]. split; [exact Q3|]. apply AP'. exact Ia.
    - intros f. rewrite <- (@sum_over_ids K m Hserial f ui n); [|intros c Hc; apply Hid; auto].
      rewrite <- A1, map_map. reflexivity.
    - intros g Hg. apply (@diag_pos K A eq_refl (proj2 Hspd) g Hg).
    - intros r g [c e] Hg Hr. cbn [spm_matrix ent].
      rewrite (@compute_restriction_spec K debug true [length (rows_of l)] 0 (fun g => Some (ent A g g)) (fun g => ent A g g) l) in CR.
      + injection CR as <-. rewrite rows_step_R. cbn [r_R].
        assert (Lr : r < length (rows_of l)) by (apply nth_error_Some; unfold l; congruence).
        change (n_rows_before [length (rows_of l)] 0) with 0.
        replace ((0 <=? r) && (r <? 0 + length (rows_of l)))%bool with true by (symmetry; apply andb_true_iff; split; [apply Nat.leb_le; lia|apply Nat.ltb_lt; lia]).
        rewrite Nat.sub_0_r. fold l in Hr. rewrite Hr, wgt_entry. cbn. ring.
      + intros c' Ic. apply in_map_iff in Ic. destruct Ic as (ac & <- & Ia). rewrite Forall_forall in G. apply (good_agg_ok (G ac Ia)).
      + intros c' Ic g' Ig. reflexivity.
  Qed.

  (** ** The product for fast_ap *)
  (** Rows of the matrices vanish at the constrained dofs. *)
  Lemma rows_vanish : forall ui acs mm counts, Forall (good ui) acs -> compute_restriction debug true counts 0 gd (data_of (map snd acs)) = Ok mm ->
    forall r g, fixed g = true -> spm_el (r_E mm) r g = 0%K /\ spm_el (r_D mm) r g = 0%K.
  Proof.
    intros ui acs mm counts G CR r g Fx. rewrite (@corrected_restriction ui acs _ G) in CR.
    rewrite (@compute_restriction_spec K debug true counts 0 (fun g => Some (ent A g g)) (fun g => ent A g g) (map (right_diag ui) acs)) in CR.
    - injection CR as <-.
      assert (Z : forall c e (w : nat -> K), In (c, e) (rows_of (map (right_diag ui) acs)) -> (forall j, nth j e 0%K = 0%K -> w j = 0%K) -> at_dof c g w = 0%K).
      { intros c e w I Hw. apply in_flat_map in I. destruct I as (c0 & I1 & I2). apply in_map_iff in I2. destruct I2 as (e0 & Q & I2). injection Q as -> ->.
        apply in_map_iff in I1. destruct I1 as (ac & <- & Ia). rewrite Forall_forall in G. destruct (G ac Ia) as (Q1 & _ & _ & Q4).
        rewrite (@at_dof_ext K _ g w (fun _ => 0%K)).
        - unfold at_dof. apply sumn_zero. intros k _. destruct (_ =? _); reflexivity.
        - intros j Hj Ej. apply Hw. cbn [right_diag ag_map ag_evecs] in *. rewrite Q1 in *. apply (Q4 e I2 j Hj). congruence. }
      assert (HE : spm_el (r_E (rows_step true (fun g => ent A g g) (n_rows_before counts 0) (rows_of (map (right_diag ui) acs)) (mkR [] [] []))) r g = 0%K).
      { rewrite rows_step_E. cbn [r_E spm_el]. destruct (_ && _)%bool; [|cbn; ring]. destruct (nth_error _ _) as [[c e]|] eqn:En; [|cbn; ring].
        apply nth_error_In in En. rewrite (Z c e (fun j => nth j e 0%K) En); [cbn; ring|auto]. }
      assert (HR : spm_el (r_R (rows_step true (fun g => ent A g g) (n_rows_before counts 0) (rows_of (map (right_diag ui) acs)) (mkR [] [] []))) r g = 0%K).
      { rewrite rows_step_R. cbn [r_R spm_el]. destruct (_ && _)%bool; [|cbn; ring]. destruct (nth_error _ _) as [[c e]|] eqn:En; [|cbn; ring].
        apply nth_error_In in En. rewrite (Z c e (wgt (fun g => ent A g g) c e) En); [cbn; ring|]. intros j Hj. unfold wgt. rewrite Hj. ring. }
      split; [exact HE|]. pose proof (@rows_step_split K (fun g => ent A g g) (rows_of (map (right_diag ui) acs)) (n_rows_before counts 0) (mkR [] [] []) r g) as Sp.
      rewrite HE, HR in Sp. assert (Sp' := Sp ltac:(cbn; ring)). symmetry. etransitivity; [exact Sp'|]. match goal with |- (0 + ?x)%K = ?y => change y with x; ring end.
    - intros c Ic. apply in_map_iff in Ic. destruct Ic as (ac & <- & Ia). rewrite Forall_forall in G. apply (good_agg_ok (G ac Ia)).
    - intros c Ic g' Ig. reflexivity.
  Qed.

  Lemma mfa_rows_same : forall (E D : spm K) is_halo first n_owned nev i cells k j c, NoDup cells ->
    (forall r g, fixed g = true -> spm_el E r g = 0%K /\ spm_el D r g = 0%K) ->
    mfa_rows E D is_halo first n_owned nev i (agg_dofs cells) (agg_op cells) k j c = fa_rows E D is_halo first n_owned nev i (agg_dofs cells) (patch cells) k j c.
  Proof.
    intros E D is_halo first n_owned nev i cells k. induction k as [|k IH]; intros j c N H; [reflexivity|]. cbn [mfa_rows fa_rows].
    destruct (nth_owned_row first n_owned (i * nev + j)) as [row| | | |]; cbn [bind]; auto.
    destruct (Heval N) as (_ & _ & Op & _). rewrite Op.
    - destruct (wr (fc_rows c) j row) as [rows'| | | |]; cbn [bind]; auto. destruct (rd (fc_vals c) j) as [old| | | |]; cbn [bind]; auto.
      destruct (wr (fc_vals c) j _) as [vals'| | | |]; cbn [bind]; auto.
    - unfold delta_eig. apply map_length.
    - intros k' Hk Fx. unfold delta_eig. rewrite nth_map_K by exact Hk. destruct (H row _ Fx) as (Z1 & Z2). rewrite Z1, Z2. destruct is_halo; ring.
  Qed.
  Lemma mfa_worker_same : forall (E D : spm K) is_halo first n_owned nev it sc c, NoDup (snd it) ->
    (forall r g, fixed g = true -> spm_el E r g = 0%K /\ spm_el D r g = 0%K) ->
    mfa_worker agg_dofs agg_op E D is_halo first n_owned nev it sc c = fa_worker evaluate E D is_halo first n_owned nev it sc c.
  Proof.
    intros E D is_halo first n_owned nev [i cells] sc c N H. unfold mfa_worker, fa_worker. destruct cells as [|k cells]; [reflexivity|].
    rewrite mfa_rows_same by assumption. reflexivity.
  Qed.
  Lemma mfa_loop_same : forall (E D : spm K) is_halo first n_owned nev ns nb patches s s',
    (forall r g, fixed g = true -> spm_el E r g = 0%K /\ spm_el D r g = 0%K) -> (forall q, In q patches -> NoDup q) ->
    mfa_loop agg_dofs agg_op true E D is_halo first n_owned nev ns nb patches s s' <-> fa_loop evaluate true E D is_halo first n_owned nev ns nb patches s s'.
  Proof.
    intros E D is_halo first n_owned nev ns nb patches s s' H N.
    assert (X : forall it, In it (fa_items patches) -> NoDup (snd it)).
    { intros [i q] I. unfold fa_items in I. apply in_combine_r in I. apply N. exact I. }
    split; intros R; (eapply ws_run_ext with (Q := fun _ => True); [exact I| |exact R]); intros it sc c sc' c' Hi _ Hw; (split; [exact I|]).
    - rewrite <- Hw. symmetry. apply mfa_worker_same; auto.
    - rewrite <- Hw. apply mfa_worker_same; auto.
  Qed.
  Lemma bd_nodup : forall ui n bd, length ui = n_cells m -> (forall c, c < n_cells m -> owned m c = true -> 1 <= nth c ui 0 <= n) ->
    build_boundary_agglomerates m ui n conn = Ok bd -> forall q, In q bd -> NoDup (fst q) /\ NoDup (snd q).
  Proof.
    intros ui n bd Lu Hid Hbd q Hq. destruct (@boundary_correct m ui n conn Lu Hid) as (bd' & Eb & Lb & Hb). rewrite Eb in Hbd. injection Hbd as <-.
    destruct (In_nth _ _ ([], []) Hq) as (a & Ha & Eq). specialize (Hb (S a) ltac:(lia)). rewrite Nat.sub_succ, Nat.sub_0_r, Eq in Hb. destruct q as (qi & qh).
    destruct Hb as (B1 & B2 & _). split; apply increasing_NoDup; auto.
  Qed.
  Lemma mfa_corrections_same : forall (E D : spm K) first n_owned ns nb bd s,
    (forall r g, fixed g = true -> spm_el E r g = 0%K /\ spm_el D r g = 0%K) -> (forall q, In q bd -> NoDup (fst q) /\ NoDup (snd q)) ->
    mfa_corrections agg_dofs agg_op true E D first n_owned ns nb bd s <-> fa_corrections evaluate true E D first n_owned ns nb bd s.
  Proof.
    intros E D first n_owned ns nb bd s H N. unfold mfa_corrections, fa_corrections. cbv zeta.
    assert (N1 : forall q, In q (map fst bd) -> NoDup q) by (intros q Hq; apply in_map_iff in Hq; destruct Hq as (q' & <- & Hq); apply (N q' Hq)).
    assert (N2 : forall q, In q (map snd bd) -> NoDup q) by (intros q Hq; apply in_map_iff in Hq; destruct Hq as (q' & <- & Hq); apply (N q' Hq)).
    split; intros (s1 & R1 & R2); exists s1; (split; [apply (@mfa_loop_same E D false)|apply (@mfa_loop_same E D true)]); auto.
  Qed.

  Lemma mf_fast_product : forall p R AP lambda eps, run fresh p R AP -> connectivity_ok F m conn -> pt_get parse_bool ["fast_ap"%string] false p = true ->
    mf_kept_represent F fixed agglomerates problem agg_dofs m p lambda eps -> mf_kept_exact F agglomerates problem agg_dofs m p ->
    (forall agg ui n, pt_find p ["agglomeration"%string] = Some agg -> agglomerates agg fresh = Ok (ui, n) ->
      (forall a, 1 <= a <= n -> touches_others m ui conn a) \/ (forall a, 1 <= a <= n -> ~ touches_others m ui conn a)) ->
    meq AP (mmul A (mtrans R)).
  Proof.
    intros p R AP lambda eps (eig & agg & ui & n & ns & nb & d & mm & P1 & P2 & BA & C & CR & -> & X) Hc HF HD HX HT. rewrite HF in X.
    destruct X as (bd & ns' & nb' & corr & BB & FC & ->).
    destruct (agglomerates_ids parse_unsigned partition dim3 Hmesh Hpart agg BA) as (Lu & Hid).
    destruct (mf_collected P1 P2 BA C HD) as (acs & A1 & -> & G & HP & _).
    apply mfa_corrections_same in FC; [|exact (@rows_vanish ui acs mm _ G CR)|exact (@bd_nodup ui n bd Lu Hid BB)].
    rewrite (@corrected_restriction ui acs _ G) in CR. rewrite <- (proj2 (flat_same ui acs)).
    set (l := map (right_diag ui) acs) in *. assert (Le : length (da_evecs (data_of (map snd acs))) = length (rows_of l)).
    { rewrite <- (proj1 (flat_same ui acs)). cbn [data_of da_evecs]. apply flat_evecs_length. }
    rewrite Le in *.
    assert (La : length acs = n) by (rewrite <- (map_length fst), A1; apply seq_length).
    assert (Ll : length l = n) by (unfold l; rewrite map_length; exact La).
    rewrite Forall_forall in G.
    assert (Hex : forall a c, nth_error l a = Some c -> exact_agg F (agg_cells m ui (S a)) (n_eigenvectors eig) c).
    { intros a c Ha. unfold l in Ha. rewrite nth_error_map in Ha. destruct (nth_error acs a) as [[a' c']|] eqn:Ea; [|discriminate Ha]. cbn in Ha. injection Ha as <-.
      assert (Hlt : a < n) by (rewrite <- La; apply nth_error_Some; congruence).
      assert (a' = S a). { apply (map_nth_error fst) in Ea. rewrite A1, (nth_error_nth' (seq 1 n) 0), seq_nth in Ea by (try rewrite seq_length; exact Hlt). cbn in Ea. congruence. }
      subst a'. assert (I := nth_error_In _ _ Ea). destruct (HP _ _ I) as ((sc & E) & Hb). destruct (HX eig agg ui n (S a) sc c' P1 P2 BA Hb E) as (X1 & X2 & X3).
      destruct (G _ I) as (Q1 & Q2 & Q3 & Q4). cbn [fst snd] in Q1, Q2, Q3, Q4. exists (patch (agg_cells m ui (S a))). cbn [right_diag ag_map ag_diag ag_evecs ag_evals fst snd]. rewrite Q1.
      split; [exact (@mf_patch_ok _ (mf_nodup ui (S a)))|]. split; [reflexivity|]. split; [exact X1|]. split; [exact X2|]. intros k Hk. split; [|apply X3; exact Hk].
      unfold sized_all in Q3. rewrite Forall_forall in Q3. apply Q3. apply nth_In. unfold OField.vec in *. lia. }
    assert (HIn : forall c g, In c l -> In g (ag_map c) -> g < n_dofs).
    { intros c g Ic Ig. apply in_map_iff in Ic. destruct Ic as (ac & <- & Ia). exact (good_bound g (G ac Ia) Ig). }
    assert (Gd : gd_ok (fun g => ent A g g) l (fun g => Some (ent A g g))) by (intros c Ic g Ig; reflexivity).
    assert (Hall : (forall q, In q bd -> fst q <> []) \/ (forall q, In q bd -> fst q = [])).
    { destruct (@boundary_correct m ui n conn Lu Hid) as (bd' & Eb & Lb & Hb). rewrite BB in Eb. injection Eb as <-.
      assert (V : forall q, In q bd -> exists a, 1 <= a <= n /\ (forall c, In c (fst q) <-> (in_agg m ui a c /\ exists d, In d (conn c) /\ ~ in_agg m ui a d))).
      { intros q Hq. destruct (In_nth _ _ ([], []) Hq) as (a & Ha & Eq). specialize (Hb (S a) ltac:(lia)).
        rewrite Nat.sub_succ, Nat.sub_0_r, Eq in Hb. destruct q as (qi & qh). exists (S a). split; [lia|]. apply Hb. }
      destruct (HT agg ui n P2 BA) as [T|T]; [left|right]; intros q Hq; destruct (V q Hq) as (a & Ha & Hv).
      - intros Z. destruct (T a Ha) as (c & e & I1 & I2 & I3). rewrite Z in Hv. apply (Hv c). split; auto. exists e. auto.
      - destruct (fst q) as [|c q']; auto. exfalso. apply (T a Ha). destruct (proj1 (Hv c) (or_introl eq_refl)) as (I1 & e & I2 & I3). exists c, e. auto. }
    split; [reflexivity|]. split; [reflexivity|]. intros g r Hg Hr. cbn [nr nc ent] in Hg, Hr. cbn [ent mmul mtrans spm_matrix nc].
    pose proof (@fast_ap_correct K debug F m conn ui evaluate (ent A) (fun g => Some (ent A g g)) (fun g => ent A g g) [length (rows_of l)] 0 l (n_eigenvectors eig) mm bd ns' nb' corr) as T.
    change (n_rows_before [length (rows_of l)] 0) with 0 in T. etransitivity; [apply T; auto|reflexivity].
    - exact mf_patch_ok.
    - exists (fun _ _ => 0%K). split; [|auto]. intros. cbn [assembled ent]. ring.
    - rewrite Ll. exact Hid.
    - intros c g' Ic Ig. split; auto. apply not_eq_sym, flt_neq. apply (@diag_pos K A eq_refl (proj2 Hspd) g' (HIn c g' Ic Ig)).
    - rewrite Ll. exact BB.
  Qed.

  (** ** Runs exist *)
  Lemma mf_run_exists : forall p eig agg ui n lambda eps, pt_find p ["eigensolver"%string] = Some eig -> pt_find p ["agglomeration"%string] = Some agg ->
    agglomerates agg fresh = Ok (ui, n) -> mf_kept_represent F fixed agglomerates problem agg_dofs m p lambda eps ->
    (forall a, 1 <= a <= n -> exists c, forall sc, problem eig ui a sc = Ok c) -> exists R AP, run fresh p R AP.
  Proof.
    intros p eig agg ui n lambda eps P1 P2 BA HD HP.
    destruct (agglomerates_ids parse_unsigned partition dim3 Hmesh Hpart agg BA) as (Lu & Hid).
    set (res := fun a => match problem eig ui a [] with Ok c => c | _ => mkAgg [] [] [] [] end).
    assert (Hres : forall a sc, 1 <= a <= n -> problem eig ui a sc = Ok (res a)).
    { intros a sc Ha. destruct (HP a Ha) as (c & Ec). unfold res. rewrite !Ec. reflexivity. }
    set (l := map res (seq 1 n)).
    assert (CO : collect (problem eig ui) (keeps_guess eig) n 1 1 (data_of l)) by (apply collect_exists; intros id sc Hi; apply Hres; exact Hi).
    set (acs := map (fun a => (a, res a)) (seq 1 n)). assert (El : l = map snd acs) by (unfold l, acs; rewrite map_map; reflexivity).
    assert (G : Forall (good ui) acs).
    { apply Forall_forall. intros ac I. apply in_map_iff in I. destruct I as (a & <- & Ia). apply in_seq in Ia. assert (Ha : 1 <= a <= n) by lia. assert (E := Hres a [] Ha).
      destruct (HD eig agg ui n a [] (res a) P1 P2 BA Ha E) as (D1 & D2 & D3). destruct (mf_result _ _ _ _ E) as (R1 & R2). split; [exact R1|]. split; [exact R2|]. split; [exact D1|exact D2]. }
    assert (CR : exists mm, compute_restriction debug true [length (da_evecs (data_of l))] 0 gd (data_of l) = Ok mm).
    { rewrite El, (@corrected_restriction ui acs _ G). eexists. apply (@compute_restriction_spec K debug true _ 0 _ (fun g => ent A g g)).
      - intros c Ic. apply in_map_iff in Ic. destruct Ic as (ac & <- & Ia). rewrite Forall_forall in G. apply (good_agg_ok (G ac Ia)).
      - intros c Ic g Ig. reflexivity. }
    destruct CR as (mm & CR).
    destruct (pt_get parse_bool ["fast_ap"%string] false p) eqn:EF.
    - destruct (@boundary_correct m ui n conn Lu Hid) as (bd & Eb & _ & _).
      destruct (@C_FastAP.C15_run_exists K F m conn ui n evaluate (r_E mm) (r_D mm) 0 (length (da_evecs (data_of l))) 0 0 bd Hfem mf_patch_ok Lu Hid Eb) as (corr & FC).
      apply mfa_corrections_same in FC; [|rewrite El in CR; exact (@rows_vanish ui acs mm _ G CR)|exact (@bd_nodup ui n bd Lu Hid Eb)].
      eexists _, _. exists eig, agg, ui, n, 1, 1, (data_of l), mm. repeat (split; [eassumption || reflexivity|]). rewrite EF.
      exists bd, 1, 1, corr. split; [exact Eb|]. split; [exact FC|]. reflexivity.
    - exists (spm_matrix (length (da_evecs (data_of l))) n_dofs (r_R mm)), (mkMat 0 0 (fun _ _ => 0%K)).
      exists eig, agg, ui, n, 1, 1, (data_of l), mm. repeat (split; [eassumption || reflexivity|]). rewrite EF. exact I.
  Qed.
End PMfEnd.
