(** The fast product of matrix-free preconditioners on several ranks. *)
From Coq Require Import String List Arith ZArith Bool Lia Field Permutation.
From Verif Require Import Base OField Mat LinAlg M_Ptree S_Ptree P_Ptree M_Agglo S_Agglo P_Agglo P_Agglo2 M_WorkStream P_WorkStream M_Restr S_Restr P_Restr P_Restr2
  M_FastAP S_FastAP P_FastAP P_FastAP2 M_Lanczos S_Lanczos P_Lanczos M_Eig S_Eig P_Eig M_Hier S_Hier P_Hier M_HostEnd S_HostEnd P_HostEnd P_Reuse S_Rate P_Rate P_Approx C_Restr P_Amgx3 M_Smoother P_Smoother
  M_ParEnd P_ParEnd M_MfEnd S_MfEnd P_MfEnd M_ParMfEnd S_ParMfEnd P_ParMfEnd C_FastAP C_FastAP2 S_MfFast M_ParMfFast S_ParMfFast.
Import ListNotations.
Set Implicit Arguments.
Open Scope list_scope.
Open Scope nat_scope.

(** * Rows and ranks *)
Lemma locate : forall counts r, r < list_sum counts -> exists q k n, nth_error counts q = Some n /\ k < n /\ r = n_rows_before counts q + k /\
  forall i n', nth_error counts i = Some n' -> i <> q -> ((n_rows_before counts i <=? r) && (r <? n_rows_before counts i + n')) = false.
Proof.
  unfold n_rows_before. induction counts as [|n counts IH]; intros r Hr; [cbn in Hr; lia|]. cbn [list_sum fold_right] in Hr. change (fold_right Nat.add 0 counts) with (list_sum counts) in Hr.
  destruct (Nat.lt_ge_cases r n) as [H|H].
  - exists 0, r, n. split; [reflexivity|]. split; [exact H|]. split; [reflexivity|]. intros i n' Hi N. destruct i as [|i]; [congruence|]. cbn [firstn list_sum fold_right].
    apply andb_false_iff. left. apply Nat.leb_gt. lia.
  - destruct (IH (r - n) ltac:(lia)) as (q & k & n0 & E1 & E2 & E3 & E4). exists (S q), k, n0. split; [exact E1|]. split; [exact E2|]. cbn [firstn list_sum fold_right].
    change (fold_right Nat.add 0 (firstn q counts)) with (list_sum (firstn q counts)). split; [lia|]. intros i n' Hi N. destruct i as [|i].
    + injection Hi as ->. cbn [firstn list_sum fold_right]. apply andb_false_iff. right. apply Nat.ltb_ge. lia.
    + cbn [nth_error] in Hi. assert (Q := E4 i n' Hi ltac:(congruence)). cbn [firstn list_sum fold_right]. change (fold_right Nat.add 0 (firstn i counts)) with (list_sum (firstn i counts)).
      apply andb_false_iff in Q. apply andb_false_iff. destruct Q as [Q|Q]; [left; apply Nat.leb_gt in Q; apply Nat.leb_gt; lia|right; apply Nat.ltb_ge in Q; apply Nat.ltb_ge; lia].
Qed.

Lemma nodup_map : forall (f : nat -> nat) l, (forall c c', In c l -> In c' l -> f c = f c' -> c = c') -> NoDup l -> NoDup (map f l).
Proof.
  intros f l H N. induction N as [|c l I N IH]; [constructor|]. cbn [map]. constructor; [|apply IH; intros; apply H; cbn; auto].
  intros X. apply in_map_iff in X. destruct X as (c' & E & X). apply I. rewrite <- (H c' c); cbn; auto.
Qed.

Section PParMfFast.
  Variable K : ofield.
  Add Field KfieldParMfFast : (f_field K).
  Local Notation vec := (vec K).

  Lemma assemble_from_ranks : forall debug acc counts gds (ds : list (agg_data K)) q ms, assemble_from debug acc counts gds q ds = Ok ms ->
    length ms = length ds /\ forall i d mm, nth_error ds i = Some d -> nth_error ms i = Some mm -> compute_restriction debug acc counts (q + i) (gds (q + i)) d = Ok mm.
  Proof.
    intros debug acc counts gds. induction ds as [|d ds IH]; intros q ms H; cbn [assemble_from] in H.
    - injection H as <-. split; [reflexivity|]. intros [|i]; discriminate.
    - apply bind_inv in H. destruct H as (m & E1 & H). apply bind_inv in H. destruct H as (ms' & E2 & H). injection H as <-. destruct (IH (S q) ms' E2) as (L & V). split; [cbn; lia|].
      intros [|i] d' mm Hd Hm; cbn [nth_error] in Hd, Hm.
      + injection Hd as <-. injection Hm as <-. rewrite Nat.add_0_r. exact E1.
      + rewrite <- plus_n_Sm. exact (V i d' mm Hd Hm).
  Qed.

  (** * The matrix as a rank sees it *)
  Lemma sum_split : forall (f : nat -> K) (P : nat -> bool) l, lsum (map f l) = (lsum (map f (filter P l)) + lsum (map f (filter (fun c => negb (P c)) l)))%K.
  Proof. intros f P. induction l as [|c l IH]; [cbn; ring|]. cbn [map filter lsum]. rewrite IH. destruct (P c); cbn [negb map lsum]; ring. Qed.
  Lemma rank_matrix : forall (F : fem K) m rk, fem_ok F -> sees_neighbours F (n_cells m) rk -> global_matrix (rank_fem F rk) (mr_mesh rk) (ent (assembled F m)).
  Proof.
    intros F m rk HF (S1 & S2 & S3). set (nq := n_cells (mr_mesh rk)) in *. set (P := memb (map (mr_number rk) (seq 0 nq))).
    exists (fun g h => lsum (map (fun c => f_cm F c g h) (filter (fun c => negb (P c)) (seq 0 (n_cells m))))). split.
    - intros g h. cbn [assembled ent rank_fem f_cm]. fold nq. rewrite (sum_split (fun c => f_cm F c g h) P). f_equal.
      rewrite <- (map_map (mr_number rk) (fun c => f_cm F c g h)). apply lsum_perm. apply Permutation_map. apply NoDup_Permutation.
      + apply NoDup_filter, seq_NoDup.
      + apply nodup_map; [|apply seq_NoDup]. intros c c' Hc Hc' E. apply in_seq in Hc, Hc'. apply S2; auto; lia.
      + intros c. rewrite filter_In. unfold P. rewrite memb_in. split; [tauto|]. intros I. split; [|exact I]. apply in_map_iff in I. destruct I as (c0 & <- & I). apply in_seq in I. apply in_seq. specialize (S1 c0). lia.
    - intros c g h Hc Ho Hh. cbn [rank_fem f_cd] in Hh. apply lsum_map_0. intros d Id. apply filter_In in Id. destruct Id as (I1 & I2). apply in_seq in I1. apply negb_true_iff in I2.
      destruct (HF d) as (_ & H2). apply H2. intros (_ & Hd). destruct (S3 c d h Hc Ho ltac:(lia) Hh Hd) as (c' & L & <-).
      assert (X : P (mr_number rk c') = true) by (apply memb_in; apply in_map; apply in_seq; lia). congruence.
  Qed.
  Lemma rank_fem_ok : forall (F : fem K) rk, fem_ok F -> fem_ok (rank_fem F rk).
  Proof. intros F rk H c. apply (H (mr_number rk c)). Qed.

  (** Rows of vectors that are zero at the constrained dofs are zero there. *)
  Lemma rows_zero : forall debug counts q (D : nat -> K) (fixed : nat -> bool) l mm, (forall c, In c l -> agg_ok c) ->
    (forall c e, In c l -> In e (ag_evecs c) -> zero_at_fixed fixed (ag_map c) e) ->
    compute_restriction debug true counts q (fun g => Some (D g)) (data_of l) = Ok mm ->
    forall r g, fixed g = true -> spm_el (r_E mm) r g = 0%K /\ spm_el (r_D mm) r g = 0%K.
  Proof.
    intros debug counts q D fixed l mm Hok HZ CR r g Fx.
    rewrite (@compute_restriction_spec K debug true counts q (fun g => Some (D g)) D l Hok ltac:(intros c Ic g' Ig; reflexivity)) in CR. injection CR as <-.
    assert (Z : forall c e (w : nat -> K), In (c, e) (rows_of l) -> (forall j, nth j e 0%K = 0%K -> w j = 0%K) -> at_dof c g w = 0%K).
    { intros c e w I Hw. apply in_flat_map in I. destruct I as (c0 & I1 & I2). apply in_map_iff in I2. destruct I2 as (e0 & Q & I2). injection Q as -> ->.
      rewrite (@at_dof_ext K _ g w (fun _ => 0%K)).
      - unfold at_dof. apply sumn_zero. intros k _. destruct (_ =? _); reflexivity.
      - intros j Hj Ej. apply Hw. apply (HZ c e I1 I2 j Hj). congruence. }
    assert (HE : spm_el (r_E (rows_step true D (n_rows_before counts q) (rows_of l) (mkR [] [] []))) r g = 0%K).
    { rewrite rows_step_E. cbn [r_E spm_el]. destruct (_ && _)%bool; [|cbn; ring]. destruct (nth_error _ _) as [[c e]|] eqn:En; [|cbn; ring].
      apply nth_error_In in En. rewrite (Z c e (fun j => nth j e 0%K) En); [cbn; ring|auto]. }
    assert (HR : spm_el (r_R (rows_step true D (n_rows_before counts q) (rows_of l) (mkR [] [] []))) r g = 0%K).
    { rewrite rows_step_R. cbn [r_R spm_el]. destruct (_ && _)%bool; [|cbn; ring]. destruct (nth_error _ _) as [[c e]|] eqn:En; [|cbn; ring].
      apply nth_error_In in En. rewrite (Z c e (wgt D c e) En); [cbn; ring|]. intros j Hj. unfold wgt. rewrite Hj. ring. }
    split; [exact HE|]. pose proof (@rows_step_split K D (rows_of l) (n_rows_before counts q) (mkR [] [] []) r g) as Sp.
    rewrite HE, HR in Sp. assert (Sp' := Sp ltac:(cbn; ring)). symmetry. etransitivity; [exact Sp'|]. match goal with |- (0 + ?x)%K = ?y => change y with x; ring end.
  Qed.

  Variable parse_unsigned : string -> option Z.
  Variable parse_double : string -> option K.
  Variable lobpcg : (vec -> vec) -> Z -> K -> list vec -> bool * eigensolution K.
  Variable fsqrt : K -> option K.
  Variable dstev : list K -> list K -> outcome (list K * list K).
  Variable tol2 : K.
  Variable rand : nat -> nat -> K.
  Variable std_sort : (nat -> nat -> bool) -> list nat -> list nat.
  Variables (debug dim3 : bool).
  Variable F : fem K.
  Variable fixed : nat -> bool.
  Variable m : mesh.
  Variable conn : nat -> nat -> list nat.
  Local Notation A := (assembled F m).
  Local Notation agglomerates := (mf_rank_agglomerates parse_unsigned debug dim3).
  Local Notation problem := (mf_rank_problem parse_double lobpcg fsqrt dstev tol2 rand std_sort debug).
  Local Notation rrun := (mf_rank_run parse_unsigned parse_double lobpcg fsqrt dstev tol2 rand std_sort debug dim3).
  Local Notation frun := (mf_rank_fast_run parse_unsigned parse_double lobpcg fsqrt dstev tol2 rand std_sort debug dim3 conn).
  Local Notation represent rk := (rank_represent F fixed (agglomerates rk) (problem rk) rk).

  Hypothesis Hfem : fem_ok F.
  Hypothesis Hspd : spd (f_ndofs F) (mulvec A).

  (** * One rank *)
  Lemma rank_fast_error : forall p eig agg counts q rk d mm corr lambda eps tau,
    pt_find p ["eigensolver"%string] = Some eig -> pt_find p ["agglomeration"%string] = Some agg ->
    mf_rank_ok F fixed debug A rk -> represent rk p lambda eps -> sees_neighbours F (n_cells m) rk ->
    mf_evaluator_ok (rank_fem F rk) fixed (mr_dofs rk) (mr_op rk) (mr_diag rk) (mr_constrained rk) ->
    connectivity_ok (rank_fem F rk) (mr_mesh rk) (conn q) ->
    mf_kept_pairs (rank_fem F rk) (agglomerates rk) (problem rk) (mr_dofs rk) (mr_mesh rk) p tau -> rank_touches (agglomerates rk) rk (conn q) p ->
    compute_restriction debug true counts q (mr_gd rk) d = Ok mm -> frun eig agg counts q rk d mm corr ->
    (forall r g, ((n_rows_before counts q <=? r) && (r <? n_rows_before counts q + length (da_evecs d))) = false -> spm_el (r_R mm) r g = 0%K) /\
    forall r, r < length (da_evecs d) ->
      let e := fun g => (sumn (f_ndofs F) (fun h => ent A g h * spm_el (r_R mm) (n_rows_before counts q + r)%nat h) - fa_ap (da_evals d) (r_E mm) corr (n_rows_before counts q) r g)%K in
      fle (sumn (f_ndofs F) (fun g => (e g * e g)%K)) tau.
  Proof.
    intros p eig agg counts q rk d mm corr lambda eps tau P1 P2 OK HD HS Hev' Hc HX HT CR (ui & n & ns & nb & bd & ns' & nb' & BA & C & BB & FC).
    pose proof (@mf_ghosts_zero K parse_unsigned debug dim3 F fixed A rk agg ui n OK BA) as GZ. destruct OK as (Hm & Hp & Hev & Hgd).
    set (mq := mr_mesh rk) in *. set (Fq := rank_fem F rk) in *. set (patch := fun cells => patch_matrix Fq cells (mr_dofs rk cells)).
    destruct (@agglomerates_ids parse_unsigned (mr_partition rk) debug dim3 mq Hm Hp agg ui n BA) as (Lu & Hid).
    destruct (collected_any C) as (acs & A1 & -> & A3).
    assert (PE : forall cells i j, ent (rank_patch F rk cells) i j = ent (patch cells) i j).
    { intros cells i j. unfold patch, rank_patch, Fq. cbn [patch_matrix ent rank_fem f_cm]. rewrite map_map. reflexivity. }
    set (mkitem := fun ac : nat * agg_result K => mkItem (snd ac) (map (mr_number rk) (agg_cells mq ui (fst ac)))).
    assert (FM : map (@it_res K) (map mkitem acs) = map snd acs) by (rewrite map_map; reflexivity).
    assert (GI : forall ac, In ac acs -> good_item F fixed lambda eps (mkitem ac) /\ reads fixed A (mkitem ac) (mr_gd rk) /\ ag_map (snd ac) = mr_dofs rk (agg_cells mq ui (fst ac)) /\
      it_patch F (mkitem ac) = rank_patch F rk (agg_cells mq ui (fst ac)) /\ (length (ag_evecs (snd ac)) = n_eigenvectors eig /\ length (ag_evals (snd ac)) = n_eigenvectors eig /\
        forall k, k < n_eigenvectors eig -> let v := residual (patch (agg_cells mq ui (fst ac))) (nth k (ag_evals (snd ac)) 0%K) (nth k (ag_evecs (snd ac)) []) in fle (dot v v) tau)).
    { intros [a c] Ia. destruct (A3 a c Ia) as (Ha & sc & E). pose proof (HD eig agg ui n a sc c P1 P2 BA Ha E) as (D1 & D2 & D3). fold mq in D1, D2, D3.
      pose proof (HX eig agg ui n a sc c P1 P2 BA Ha E) as X0. fold mq in X0.
      unfold mf_rank_problem, mf_local_problem, compute_local_eigenvectors_mf in E. fold mq in E. rewrite own_patch in E by (auto; lia).
      destruct (own_nodup mq ui a) as (NA & IA). destruct (Hev _ NA IA) as (Q1 & Q2 & _ & _ & Q5 & Q6). cbv zeta in *. set (cells := agg_cells mq ui a) in *.
      apply bind_inv in E. destruct E as (kind & _ & E). apply bind_inv in E. destruct E as (r & _ & E).
      assert (M1 : ag_map c = mr_dofs rk cells) by (injection E as <-; reflexivity). assert (M2 : ag_diag c = mr_diag rk cells) by (injection E as <-; reflexivity). clear E.
      assert (EM : it_patch F (mkitem (a, c)) = rank_patch F rk cells) by (unfold it_patch, mkitem; cbn [it_res it_cells fst snd]; rewrite M1; reflexivity).
      assert (X : forall g, In g (mr_dofs rk cells) <-> exists k, In k (map (mr_number rk) cells) /\ In g (f_cd F k)).
      { intros g. rewrite Q2. split; [intros (k & I1 & I2); exists (mr_number rk k); split; [apply in_map; exact I1|exact I2]|].
        intros (k & I1 & I2). apply in_map_iff in I1. destruct I1 as (k0 & <- & I1). exists k0. auto. }
      split; [|split; [|split; [exact M1|split; [exact EM|exact X0]]]].
      - unfold good_item. rewrite EM. cbn [mkitem it_res it_cells fst snd]. rewrite M1, M2. fold cells.
        split; [|split; [exact Q5|split; [exact Q6|split; [exact D1|split; [exact D2|exact D3]]]]].
        split; [exact Q1|]. split; [reflexivity|]. split; [reflexivity|]. split; [exact X|]. intros k l _ _. reflexivity.
      - intros g. cbn [mkitem it_res snd]. rewrite M1, Q2. intros (k & I1 & I2). apply (Hgd k); auto. }
    rewrite <- FM in CR. rewrite (@right_rank K debug F fixed A lambda eps (map mkitem acs) (mr_gd rk) counts q) in CR;
      [|apply Forall_forall; intros it I; apply in_map_iff in I; destruct I as (ac & <- & Ia); apply (GI ac Ia)|apply Forall_forall; intros it I; apply in_map_iff in I; destruct I as (ac & <- & Ia); apply (GI ac Ia)].
    rewrite map_map in CR. set (l := map (fun ac => it_right F (mkitem ac)) acs) in *.
    assert (Lok : forall c, In c l -> agg_ok c). { intros c Ic. apply in_map_iff in Ic. destruct Ic as (ac & <- & Ia). exact (proj2 (right_ok (proj1 (GI ac Ia)))). }
    assert (LZ : forall c e, In c l -> In e (ag_evecs c) -> zero_at_fixed fixed (ag_map c) e).
    { intros c e Ic Ie. apply in_map_iff in Ic. destruct Ic as (ac & <- & Ia). destruct (GI ac Ia) as ((_ & _ & _ & _ & Q & _) & _). exact (Q e Ie). }
    assert (LV : flat_map (@ag_evals K) l = da_evals (data_of (map snd acs)) /\ flat_map (@ag_evecs K) l = da_evecs (data_of (map snd acs))).
    { unfold l. cbn [data_of da_evals da_evecs]. clear. induction acs as [|ac acs (IH1 & IH2)]; [auto|]. cbn [map flat_map]. rewrite IH1, IH2. auto. }
    destruct LV as (LV1 & LV2). assert (Le : length (da_evecs (data_of (map snd acs))) = length (rows_of l)) by (rewrite <- LV2; apply flat_evecs_length).
    rewrite Le in *. rewrite <- LV1 in *.
    apply (mfa_corrections_same Hev') in FC; [|exact (@rows_zero debug counts q (fun g => ent A g g) fixed l mm Lok LZ CR)|exact (@bd_nodup (conn q) mq ui n bd Lu Hid BB)].
    assert (La : length acs = n) by (rewrite <- (map_length fst), A1; apply seq_length).
    assert (Ll : length l = n) by (unfold l; rewrite map_length; exact La).
    split.
    { intros r g Hr. rewrite (@compute_restriction_spec K debug true counts q (fun g => Some (ent A g g)) (fun g => ent A g g) l Lok ltac:(intros c Ic g' Ig; reflexivity)) in CR.
      injection CR as <-. rewrite rows_step_R. cbn [r_R spm_el]. rewrite Hr. cbn. ring. }
    assert (Hex : forall a c, nth_error l a = Some c -> let M := patch (agg_cells mq ui (S a)) in local_agg Fq (agg_cells mq ui (S a)) (n_eigenvectors eig) c M /\
      forall k, k < n_eigenvectors eig -> fle (dot (pair_residual c M k) (pair_residual c M k)) tau).
    { intros a c Ha. unfold l in Ha. rewrite nth_error_map in Ha. destruct (nth_error acs a) as [[a' c']|] eqn:Ea; [|discriminate Ha]. cbn in Ha. injection Ha as <-.
      assert (Hlt : a < n) by (rewrite <- La; apply nth_error_Some; congruence).
      assert (a' = S a). { apply (map_nth_error fst) in Ea. rewrite A1, (nth_error_nth' (seq 1 n) 0), seq_nth in Ea by (try rewrite seq_length; exact Hlt). cbn in Ea. congruence. }
      subst a'. assert (I := nth_error_In _ _ Ea). destruct (GI _ I) as (G1 & _ & G3 & G4 & X1 & X2 & X3). cbn [fst snd] in G3, G4, X1, X2, X3.
      destruct G1 as (_ & _ & _ & Q4 & _). cbn [mkitem it_res snd] in Q4. cbv zeta. unfold local_agg, pair_residual. cbn [it_right mkitem it_res fst snd ag_map ag_diag ag_evecs ag_evals]. rewrite G3.
      split; [|exact X3].
      split; [exact (mf_patch_ok Hev' (mf_nodup mq ui (S a)))|]. split; [change (mkItem c' (map (mr_number rk) (agg_cells mq ui (S a)))) with (mkitem (S a, c')); rewrite G4; apply map_ext; intros k; apply PE|].
      split; [exact X1|]. split; [exact X2|]. intros k Hk. rewrite <- G3.
      unfold sized_all in Q4. rewrite Forall_forall in Q4. apply Q4. apply nth_In. unfold OField.vec in *. lia. }
    assert (HIn : forall c g, In c l -> In g (ag_map c) -> g < f_ndofs F).
    { intros c g Ic Ig. apply in_map_iff in Ic. destruct Ic as (ac & <- & Ia). destruct (GI ac Ia) as (((_ & _ & _ & Q & _) & _) & _). cbn [it_right ag_map] in Ig. apply Q in Ig. destruct Ig as (k & _ & Ig). apply (Hfem k). exact Ig. }
    assert (Gd : gd_ok (fun g => ent A g g) l (fun g => Some (ent A g g))) by (intros c Ic g Ig; reflexivity).
    assert (Hall : (forall q, In q bd -> fst q <> []) \/ (forall q, In q bd -> fst q = [])).
    { destruct (@boundary_correct mq ui n (conn q) Lu Hid) as (bd' & Eb & Lb & Hb). rewrite BB in Eb. injection Eb as <-.
      assert (V : forall q0, In q0 bd -> exists a, 1 <= a <= n /\ (forall c, In c (fst q0) <-> (in_agg mq ui a c /\ exists d, In d (conn q c) /\ ~ in_agg mq ui a d))).
      { intros q0 Hq. destruct (In_nth _ _ ([], []) Hq) as (a & Ha & Eq). specialize (Hb (S a) ltac:(lia)).
        rewrite Nat.sub_succ, Nat.sub_0_r, Eq in Hb. destruct q0 as (qi & qh). exists (S a). split; [lia|]. apply Hb. }
      destruct (HT agg ui n P2 BA) as [T|T]; [left|right]; intros q0 Hq; destruct (V q0 Hq) as (a & Ha & Hv).
      - intros Z. destruct (T a Ha) as (c & e & I1 & I2 & I3). rewrite Z in Hv. apply (Hv c). split; auto. exists e. auto.
      - destruct (fst q0) as [|c q']; auto. exfalso. apply (T a Ha). destruct (proj1 (Hv c) (or_introl eq_refl)) as (I1 & e & I2 & I3). exists c, e. auto. }
    set (nev := n_eigenvectors eig) in *.
    assert (Hlen : length (rows_of l) = length l * nev).
    { apply rows_of_length_const. intros c Ic. apply In_nth_error in Ic. destruct Ic as (a & Ha). apply (proj1 (Hex a c Ha)). }
    intros r Hr. cbv zeta.
    assert (Hnev : 0 < nev) by (destruct nev; lia).
    assert (Er : r = r / nev * nev + r mod nev) by (rewrite (Nat.div_mod r nev) at 1 by lia; lia).
    assert (Hk : r mod nev < nev) by (apply Nat.mod_upper_bound; lia).
    assert (Hi : r / nev < length l). { apply Nat.div_lt_upper_bound; [lia|]. rewrite Nat.mul_comm, <- Hlen. exact Hr. }
    destruct (nth_error l (r / nev)) as [c|] eqn:Ec; [|apply nth_error_None in Ec; lia].
    destruct (Hex _ c Ec) as (HM & HR).
    pose proof (@C81_error K debug Fq mq (conn q) ui (fun cells => (mr_dofs rk cells, patch cells)) (ent A) (fun g => Some (ent A g g)) (fun g => ent A g g) counts q l nev mm bd ns' nb' corr) as T.
    destruct (T (rank_fem_ok rk Hfem) (mf_patch_ok Hev') Hc) with (i := r / nev) (k := r mod nev) (c := c) (M := patch (agg_cells mq ui (S (r / nev)))) as (_ & _ & T3); auto.
    - apply rank_matrix; auto.
    - rewrite Ll. exact Hid.
    - intros a c' Ha. exists (patch (agg_cells mq ui (S a))). apply (Hex a c' Ha).
    - intros c' g' Ic Ig. split; auto. apply not_eq_sym, flt_neq. apply (@diag_pos K A eq_refl (proj2 Hspd) g' (HIn c' g' Ic Ig)).
    - rewrite Ll. exact BB.
    - cbv zeta in T3. rewrite <- Er in T3. specialize (HR _ Hk). rewrite <- T3 in HR. exact HR.
  Qed.

  (** * All ranks *)
  Local Notation run := (par_mf_restrictor_run parse_unsigned parse_double lobpcg fsqrt dstev tol2 rand std_sort debug dim3 (f_ndofs F)).
  Local Notation fast := (par_mf_fast_run parse_unsigned parse_double lobpcg fsqrt dstev tol2 rand std_sort debug dim3 (f_ndofs F) conn).
  Lemma fast_is_run : forall ranks p R AP, fast ranks p R AP -> run ranks p R.
  Proof.
    intros ranks p R AP (eig & agg & ds & ms & corr & P1 & P2 & L & AS & ER & HQ & _). exists eig, agg, ds, ms. split; [exact P1|]. split; [exact P2|]. split; [|split; [exact AS|exact ER]].
    assert (Lm := proj1 (assemble_from_ranks _ _ _ _ _ _ AS)).
    assert (V : forall q rk d, nth_error ranks q = Some rk -> nth_error ds q = Some d -> rrun eig agg rk d).
    { intros q rk d H1 H2. assert (q < length ms) by (rewrite Lm; apply nth_error_Some; congruence). destruct (nth_error ms q) as [mm|] eqn:H3; [|apply nth_error_None in H3; lia].
      destruct (HQ q rk d mm H1 H2 H3) as (ui & n & ns & nb & bd & ns' & nb' & BA & C & _). exists ui, n, ns, nb. auto. }
    clear - V L. revert ds L V. induction ranks as [|rk ranks IH]; intros [|d ds] L V; try discriminate L; constructor.
    - exact (V 0 rk d eq_refl eq_refl).
    - apply IH; [cbn in L; lia|]. intros q. exact (V (S q)).
  Qed.
  Lemma par_fast_error : forall ranks p R AP lambda eps tau, fast ranks p R AP ->
    (forall q rk, nth_error ranks q = Some rk -> mf_rank_ok F fixed debug A rk /\ represent rk p lambda eps /\ sees_neighbours F (n_cells m) rk /\
      mf_evaluator_ok (rank_fem F rk) fixed (mr_dofs rk) (mr_op rk) (mr_diag rk) (mr_constrained rk) /\ connectivity_ok (rank_fem F rk) (mr_mesh rk) (conn q) /\
      mf_kept_pairs (rank_fem F rk) (agglomerates rk) (problem rk) (mr_dofs rk) (mr_mesh rk) p tau /\ rank_touches (agglomerates rk) rk (conn q) p) ->
    columns_within tau AP (mmul A (mtrans R)).
  Proof.
    intros ranks p R AP lambda eps tau (eig & agg & ds & ms & corr & P1 & P2 & L & AS & -> & HQ & ->) H.
    destruct (assemble_from_ranks _ _ _ _ _ _ AS) as (Lm & CRs). cbn [Nat.add] in CRs. set (counts := rows_per_proc ds) in *.
    assert (V : forall q d mm, nth_error ds q = Some d -> nth_error ms q = Some mm ->
      (forall r g, ((n_rows_before counts q <=? r) && (r <? n_rows_before counts q + length (da_evecs d))) = false -> spm_el (r_R mm) r g = 0%K) /\
      forall r, r < length (da_evecs d) ->
        let e := fun g => (sumn (f_ndofs F) (fun h => ent A g h * spm_el (r_R mm) (n_rows_before counts q + r)%nat h) - fa_ap (da_evals d) (r_E mm) (corr q) (n_rows_before counts q) r g)%K in
        fle (sumn (f_ndofs F) (fun g => (e g * e g)%K)) tau).
    { intros q d mm Hd Hm. assert (q < length ranks) by (rewrite <- L; apply nth_error_Some; congruence). destruct (nth_error ranks q) as [rk|] eqn:Hrk; [|apply nth_error_None in Hrk; lia].
      destruct (H q rk Hrk) as (H1 & H2 & H3 & H4 & H5 & H6 & H7). specialize (CRs q d mm Hd Hm). cbv beta in CRs. rewrite Hrk in CRs.
      exact (@rank_fast_error p eig agg counts q rk d mm (corr q) lambda eps tau P1 P2 H1 H2 H3 H4 H5 H6 H7 CRs (HQ q rk d mm Hrk Hd Hm)). }
    split; [reflexivity|]. split; [reflexivity|]. intros r Hr. cbn [mmul mtrans distributed_matrix nr nc] in Hr |- *.
    destruct (locate counts Hr) as (q & k & nq & E1 & E2 & E3 & E4).
    assert (CD : forall i n', nth_error counts i = Some n' -> exists d, nth_error ds i = Some d /\ n' = length (da_evecs d)).
    { intros i n' Hi. unfold counts, rows_per_proc in Hi. rewrite nth_error_map in Hi. destruct (nth_error ds i) as [d|]; [|discriminate Hi]. exists d. cbn in Hi. split; congruence. }
    destruct (CD q nq E1) as (d & Hd & ->). assert (Lq : q < length ds) by (apply nth_error_Some; congruence).
    destruct (nth_error ms q) as [mm|] eqn:Hm; [|apply nth_error_None in Hm; lia].
    assert (Z : forall i d' mm', i <> q -> nth_error ds i = Some d' -> nth_error ms i = Some mm' -> ((n_rows_before counts i <=? r) && (r <? n_rows_before counts i + length (da_evecs d'))) = false).
    { intros i d' mm' N Hd' _. apply E4; auto. unfold counts, rows_per_proc. rewrite nth_error_map, Hd'. reflexivity. }
    assert (ER : forall h, lsum (map (fun mm => spm_el (r_R mm) r h) ms) = spm_el (r_R mm) r h).
    { intros h. rewrite (@lsum_nth K _ (fun mm => spm_el (r_R mm) r h) ms (mkR [] [] [])). rewrite Lm. rewrite (@sumn_single K (length ds) q _ Lq).
      2:{ intros i Hi N. destruct (nth_error ds i) as [d'|] eqn:Hd'; [|apply nth_error_None in Hd'; lia]. destruct (nth_error ms i) as [mm'|] eqn:Hm'; [|apply nth_error_None in Hm'; lia].
        rewrite (nth_error_nth _ _ _ Hm'). apply (proj1 (V i d' mm' Hd' Hm')). exact (Z i d' mm' N Hd' Hm'). }
      rewrite (nth_error_nth _ _ _ Hm). reflexivity. }
    assert (EA : forall g, sumn (length ds) (fun q => match nth_error ds q, nth_error ms q with Some d, Some mm => owned_column counts q d mm (corr q) r g | _, _ => 0%K end) =
      fa_ap (da_evals d) (r_E mm) (corr q) (n_rows_before counts q) k g).
    { intros g. rewrite (@sumn_single K (length ds) q _ Lq).
      - rewrite Hd, Hm. unfold owned_column. replace (n_rows_before counts q <=? r) with true by (symmetry; apply Nat.leb_le; lia).
        replace (r <? n_rows_before counts q + length (da_evecs d)) with true by (symmetry; apply Nat.ltb_lt; lia). cbn [andb]. f_equal. lia.
      - intros i Hi N. destruct (nth_error ds i) as [d'|] eqn:Hd'; [|reflexivity]. destruct (nth_error ms i) as [mm'|] eqn:Hm'; [|reflexivity]. unfold owned_column. rewrite (Z i d' mm' N Hd' Hm'). reflexivity. }
    eapply fle_trans; [|exact (proj2 (V q d mm Hd Hm) k E2)]. cbv zeta. match goal with |- fle ?u ?v => replace u with v; [apply fle_refl|] end.
    apply sumn_ext. intros g Hg. cbn [ent mmul mtrans distributed_matrix nc nr assembled].
    rewrite EA. rewrite <- E3.
    rewrite (@sumn_ext K (f_ndofs F) (fun h => (lsum (map (fun c => f_cm F c g h) (seq 0 (n_cells m))) * lsum (map (fun m0 => spm_el (r_R m0) r h) ms))%K)
      (fun h => (lsum (map (fun c => f_cm F c g h) (seq 0 (n_cells m))) * spm_el (r_R mm) r h)%K)) by (intros h _; rewrite ER; reflexivity).
    reflexivity.
  Qed.

  (** * Runs exist *)
  Lemma rank_vanish : forall p eig agg counts q rk ui n ns nb d mm lambda eps,
    pt_find p ["eigensolver"%string] = Some eig -> pt_find p ["agglomeration"%string] = Some agg -> mf_rank_ok F fixed debug A rk -> represent rk p lambda eps ->
    agglomerates rk agg (repeat 0 (n_cells (mr_mesh rk))) = Ok (ui, n) -> collect (problem rk eig ui) (keeps_guess eig) n ns nb d ->
    compute_restriction debug true counts q (mr_gd rk) d = Ok mm -> forall r g, fixed g = true -> spm_el (r_E mm) r g = 0%K /\ spm_el (r_D mm) r g = 0%K.
  Proof.
    intros p eig agg counts q rk ui n ns nb d mm lambda eps P1 P2 OK HD BA C CR.
    destruct (@rank_items K parse_unsigned parse_double lobpcg fsqrt dstev tol2 rand std_sort debug dim3 F fixed A eig agg p lambda eps rk d P1 P2 OK) as (its & -> & G & _ & Rd); auto.
    { exists ui, n, ns, nb. auto. }
    rewrite (@right_rank K debug F fixed A lambda eps its (mr_gd rk) counts q G Rd) in CR. rewrite Forall_forall in G.
    refine (@rows_zero debug counts q (fun g => ent A g g) fixed (map (it_right F) its) mm _ _ CR).
    - intros c Ic. apply in_map_iff in Ic. destruct Ic as (it & <- & Ia). exact (proj2 (right_ok (G it Ia))).
    - intros c e Ic Ie. apply in_map_iff in Ic. destruct Ic as (it & <- & Ia). destruct (G it Ia) as (_ & _ & _ & _ & Q & _). exact (Q e Ie).
  Qed.
  Lemma choose : forall X (P : nat -> X -> Prop) (x0 : X) n, (forall q, q < n -> exists x, P q x) -> exists f, forall q, q < n -> P q (f q).
  Proof.
    intros X P x0. induction n as [|n IH]; intros H; [exists (fun _ => x0); intros; lia|]. destruct IH as (f & Hf); [intros; apply H; lia|]. destruct (H n ltac:(lia)) as (x & Hx).
    exists (fun q => if q =? n then x else f q). intros q Hq. destruct (Nat.eqb_spec q n) as [->|]; [exact Hx|apply Hf; lia].
  Qed.
  Lemma par_fast_exists : forall ranks p R lambda eps, run ranks p R ->
    (forall rk, In rk ranks -> mf_rank_ok F fixed debug A rk /\ represent rk p lambda eps /\
      mf_evaluator_ok (rank_fem F rk) fixed (mr_dofs rk) (mr_op rk) (mr_diag rk) (mr_constrained rk)) ->
    exists AP, fast ranks p R AP.
  Proof.
    intros ranks p R lambda eps (eig & agg & ds & ms & P1 & P2 & RR & AS & ER) H.
    destruct (assemble_from_ranks _ _ _ _ _ _ AS) as (Lm & CRs). cbn [Nat.add] in CRs. set (counts := rows_per_proc ds) in *.
    assert (L : length ds = length ranks) by (clear - RR; induction RR; cbn [length]; congruence).
    assert (RQ : forall q rk d, nth_error ranks q = Some rk -> nth_error ds q = Some d -> rrun eig agg rk d).
    { clear - RR. induction RR as [|rk0 d0 ranks ds R0 RR IH]; intros [|q] rk d H1 H2; try discriminate H1; cbn [nth_error] in H1, H2; [congruence|exact (IH q rk d H1 H2)]. }
    destruct (@choose (spm K) (fun q corr => forall rk d mm, nth_error ranks q = Some rk -> nth_error ds q = Some d -> nth_error ms q = Some mm -> frun eig agg counts q rk d mm corr) [] (length ds)) as (corr & HC).
    { intros q Hq. destruct (nth_error ds q) as [d|] eqn:Hd; [|apply nth_error_None in Hd; lia]. destruct (nth_error ms q) as [mm|] eqn:Hm; [|apply nth_error_None in Hm; lia].
      destruct (nth_error ranks q) as [rk|] eqn:Hrk; [|apply nth_error_None in Hrk; lia].
      destruct (RQ q rk d Hrk Hd) as (ui & n & ns & nb & BA & C). destruct (H rk (nth_error_In _ _ Hrk)) as (OK & HD & Hev').
      specialize (CRs q d mm Hd Hm). cbv beta in CRs. rewrite Hrk in CRs. assert (V := @rank_vanish p eig agg counts q rk ui n ns nb d mm lambda eps P1 P2 OK HD BA C CRs).
      destruct OK as (Hm0 & Hp0 & _). destruct (@agglomerates_ids parse_unsigned (mr_partition rk) debug dim3 (mr_mesh rk) Hm0 Hp0 agg ui n BA) as (Lu & Hid).
      destruct (@boundary_correct (mr_mesh rk) ui n (conn q) Lu Hid) as (bd & Eb & _ & _).
      destruct (@C_FastAP.C15_run_exists K (rank_fem F rk) (mr_mesh rk) (conn q) ui n (fun cells => (mr_dofs rk cells, patch_matrix (rank_fem F rk) cells (mr_dofs rk cells))) (r_E mm) (r_D mm)
        (n_rows_before counts q) (length (da_evecs d)) 0 0 bd (rank_fem_ok rk Hfem) (mf_patch_ok Hev') Lu Hid Eb) as (cr & FC).
      apply (mfa_corrections_same Hev') in FC; [|exact V|exact (@bd_nodup (conn q) (mr_mesh rk) ui n bd Lu Hid Eb)].
      exists cr. intros rk' d' mm' E1 E2 E3. replace rk' with rk by congruence. replace d' with d by congruence. replace mm' with mm by congruence.
      exists ui, n, ns, nb, bd, 1, 1. auto. }
    eexists. exists eig, agg, ds, ms, corr. split; [exact P1|]. split; [exact P2|]. split; [exact L|]. split; [exact AS|]. split; [exact ER|]. split; [|reflexivity].
    intros q rk d mm H1 H2 H3. apply HC; auto. apply nth_error_Some. congruence.
  Qed.
End PParMfFast.
