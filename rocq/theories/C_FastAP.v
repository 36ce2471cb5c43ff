(** Property theorems about fast AP: C15, C16. *)
From Coq Require Import List Arith ZArith Bool Lia Field QArith Qcanon.
From Verif Require Import Base OField Mat M_Agglo S_Agglo M_WorkStream P_WorkStream M_Restr S_Restr P_Restr P_Restr2 M_FastAP S_FastAP P_FastAP P_FastAP2 C_Restr.
Import ListNotations.
Set Implicit Arguments.
Open Scope list_scope.
Open Scope nat_scope.

Section CFastAP.
  Variable K : ofield.
  Add Field KFCfastap : (f_field K).
  Local Notation vec := (vec K).

  (** C15: row r of (A R^T)^T, computed by scaling and correction, is A times row r of R, on every rank and for every schedule of the two
      loops, provided the patches along the interfaces are all nonempty or all empty. *)
  Theorem C15_fast_ap : forall debug (F : fem K) m conn ui evaluate A gd (D : nat -> K) counts p l nev mm bd ns nb corr,
    fem_ok F -> evaluate_ok F evaluate -> connectivity_ok F m conn -> global_matrix F m A ->
    length ui = n_cells m -> (forall c, c < n_cells m -> owned m c = true -> 1 <= nth c ui 0 <= length l) ->
    (forall a c, nth_error l a = Some c -> exact_agg F (agg_cells m ui (S a)) nev c) ->
    gd_ok D l gd -> (forall c g, In c l -> In g (ag_map c) -> D g = A g g /\ D g <> 0%K) ->
    compute_restriction debug true counts p gd (data_of l) = Ok mm ->
    build_boundary_agglomerates m ui (length l) conn = Ok bd ->
    ((forall q, In q bd -> fst q <> []) \/ (forall q, In q bd -> fst q = [])) ->
    fa_corrections evaluate true (r_E mm) (r_D mm) (n_rows_before counts p) (length (rows_of l)) ns nb bd corr ->
    forall r g, r < length (rows_of l) ->
      fa_ap (flat_map (@ag_evals K) l) (r_E mm) corr (n_rows_before counts p) r g =
      sumn (f_ndofs F) (fun h => (A g h * spm_el (r_R mm) (n_rows_before counts p + r)%nat h)%K).
  Proof. exact (@fast_ap_correct K). Qed.

  (** C15: the computation does not fail: with one scratch and one copy-data object or more there is a run. *)
  Theorem C15_run_exists : forall (F : fem K) m conn ui N evaluate (E D : spm K) first n_owned ns nb bd,
    fem_ok F -> evaluate_ok F evaluate ->
    length ui = n_cells m -> (forall c, c < n_cells m -> owned m c = true -> 1 <= nth c ui 0 <= N) ->
    build_boundary_agglomerates m ui N conn = Ok bd ->
    exists corr, fa_corrections evaluate true E D first n_owned (S ns) (S nb) bd corr.
  Proof.
    intros F m conn ui N evaluate E D first n_owned ns nb bd HF He Hui Hid Hbd.
    destruct (P_Agglo2.boundary_correct m ui conn Hui Hid) as [bd' [Eb [Lb Hb]]]. rewrite Eb in Hbd. inversion Hbd; subst bd'.
    assert (Hbn : forall q, In q bd -> NoDup (fst q) /\ NoDup (snd q)).
    { intros q Hq. destruct (In_nth _ _ ([], []) Hq) as [a [Ha Eq]].
      specialize (Hb (S a) ltac:(lia)). rewrite Nat.sub_succ, Nat.sub_0_r, Eq in Hb. destruct q as [qi qh]. destruct Hb as [B1 [B2 _]].
      split; apply increasing_NoDup; auto. }
    set (nev := fa_nev n_owned (map fst bd)).
    assert (Hlen : length bd * nev <= n_owned).
    { unfold nev, fa_nev. destruct bd as [|b0 bd0]; [simpl; lia|]. cbn [map]. rewrite <- map_cons with (f := fst), map_length. apply Nat.mul_div_le. simpl. lia. }
    destruct (@fa_loop_exists K F evaluate E D false first n_owned nev ns nb (map fst bd) [] HF He) as [m1 [R1 _]].
    - intros q Hq. apply in_map_iff in Hq. destruct Hq as [q' [<- Hq]]. apply (Hbn q' Hq).
    - rewrite map_length. auto.
    - destruct (@fa_loop_exists K F evaluate E D true first n_owned nev ns nb (map snd bd) m1 HF He) as [m2 [R2 _]].
      + intros q Hq. apply in_map_iff in Hq. destruct Hq as [q' [<- Hq]]. apply (Hbn q' Hq).
      + rewrite map_length. auto.
      + exists m2, m1. split; auto.
  Qed.

  (** C16: an item with cells does not read the copy data it is given, an item without cells returns it as it was. *)
  Theorem C16_worker : forall (F : fem K) evaluate (E D : spm K) is_halo first n_owned nev i cells,
    evaluate_ok F evaluate -> NoDup cells -> i * nev + nev <= n_owned ->
    (cells <> [] -> exists res, forall c, fa_worker evaluate E D is_halo first n_owned nev (i, cells) tt c = Ok (tt, res)) /\
    (cells = [] -> forall c, fa_worker evaluate E D is_halo first n_owned nev (i, cells) tt c = Ok (tt, c)).
  Proof.
    intros F evaluate E D is_halo first n_owned nev i cells He Hn Ho. split.
    - intros Hne. eexists. intros c. apply (@fa_worker_spec K F); auto.
    - intros -> c. reflexivity.
  Qed.

  (** C16: any schedule, any patches: the matrix gets the contribution of every item with cells, and for every item without cells either
      nothing or the contribution of some item with cells once more. *)
  Theorem C16_any_schedule : forall (F : fem K) evaluate (E D : spm K) is_halo first n_owned nev ns nb patches m m',
    fem_ok F -> evaluate_ok F evaluate -> (forall p, In p patches -> NoDup p) -> length patches * nev <= n_owned ->
    fa_loop evaluate true E D is_halo first n_owned nev ns nb patches m m' ->
    exists used, reused (fa_items patches) used /\
      forall r g, spm_el m' r g = (spm_el m r g + items_sum F E D is_halo first nev (somes used) r g)%K.
  Proof. exact (@fa_loop_any K). Qed.

  (** C16: if no patch is empty, or all are, every schedule gives each item's rows its own contribution once, and nothing elsewhere. *)
  Theorem C16_own_rows : forall (F : fem K) evaluate (E D : spm K) is_halo first n_owned nev ns nb patches m m',
    fem_ok F -> evaluate_ok F evaluate -> (forall p, In p patches -> NoDup p) ->
    ((forall p, In p patches -> p <> []) \/ (forall p, In p patches -> p = [])) -> length patches * nev <= n_owned ->
    fa_loop evaluate true E D is_halo first n_owned nev ns nb patches m m' ->
    (forall i k g, i < length patches -> k < nev ->
       spm_el m' (first + (i * nev + k)) g =
       (spm_el m (first + (i * nev + k))%nat g + own_contribution F E D is_halo (first + (i * nev + k)) (nth i patches []) g)%K) /\
    (forall r g, r < first \/ first + length patches * nev <= r -> spm_el m' r g = spm_el m r g).
  Proof.
    intros F evaluate E D is_halo first n_owned nev ns nb patches m m' HF He Hn Hu Ho Hrun.
    pose proof (@fa_loop_uniform K F evaluate E D is_halo first n_owned nev ns nb patches m m' HF He Hn Hu Ho Hrun) as S. split.
    - intros i k g Hi Hk. rewrite S, items_sum_at by auto. reflexivity.
    - intros r g Hr. rewrite S, items_sum_outside by auto. ring.
  Qed.

  (** C16: with one copy-data object (one thread) the result is determined: an empty patch repeats the contribution of the last nonempty
      patch before it. *)
  Theorem C16_one_object : forall (F : fem K) evaluate (E D : spm K) is_halo first n_owned nev patches m,
    fem_ok F -> evaluate_ok F evaluate -> (forall p, In p patches -> NoDup p) -> length patches * nev <= n_owned ->
    exists m', ws_seq (fa_worker evaluate E D is_halo first n_owned nev) (fa_copier true) (fa_items patches) tt fcopy_empty m = Ok m' /\
      forall r g, spm_el m' r g = (spm_el m r g + items_sum F E D is_halo first nev (effective None (fa_items patches)) r g)%K.
  Proof.
    intros F evaluate E D is_halo first n_owned nev patches m HF He Hp Ho.
    apply (@fa_seq_effective K F evaluate E D is_halo first n_owned nev HF He (fa_items patches) None m fcopy_empty); auto.
    intros i cells Hin. apply in_items in Hin. split.
    - apply Hp. eapply nth_error_In. apply Hin.
    - eapply item_bound; eauto. tauto.
  Qed.
End CFastAP.
Print Assumptions C15_fast_ap.
Print Assumptions C15_run_exists.
Print Assumptions C16_worker.
Print Assumptions C16_any_schedule.
Print Assumptions C16_own_rows.
Print Assumptions C16_one_object.

(** ** Examples *)
(** The contract of patch evaluation can be met, whatever the cell matrices. *)
Example evaluate_ok_example : forall K (F : fem K), evaluate_ok F (assemble_patch F).
Proof.
  intros K F cells _. unfold assemble_patch. cbn [fst snd]. split; [apply NoDup_nodup|]. split; [reflexivity|]. split; [reflexivity|]. split.
  - intros g. rewrite nodup_In, in_flat_map. reflexivity.
  - intros k l _ _. reflexivity.
Qed.

(** Line elements: cell c < n has the dofs [base c] and [base c + 1] and the matrix ((2, -1), (-1, 2)). *)
Definition lcd (n : nat) (base : nat -> nat) (c : nat) : list nat := if c <? n then [base c; base c + 1] else [].
Definition lmem (l : list nat) (g : nat) : bool := existsb (Nat.eqb g) l.
Definition lcm (n : nat) (base : nat -> nat) (c g h : nat) : QcOF :=
  if lmem (lcd n base c) g && lmem (lcd n base c) h then (if g =? h then rq 2 else rq (-1)) else rq 0.
Definition lfem (n nd : nat) (base : nat -> nat) : fem QcOF := @mkFem QcOF nd (lcd n base) (lcm n base).
Definition lconn (n : nat) (base : nat -> nat) (c : nat) : list nat := filter (fun d => existsb (lmem (lcd n base d)) (lcd n base c)) (seq 0 n).
Definition lA (n : nat) (base : nat -> nat) (g h : nat) : QcOF := lsum (map (fun c => lcm n base c g h) (seq 0 n)).
Definition lmesh (n : nat) : mesh := Build_mesh n (fun _ => true) (fun _ => FBoundary) (fun _ => FBoundary) (fun _ => FBoundary).

Lemma lmem_in : forall l g, lmem l g = true <-> In g l.
Proof.
  intros. unfold lmem. rewrite existsb_exists. split.
  - intros [x [H1 H2]]. apply Nat.eqb_eq in H2. subst; auto.
  - intros H. exists g. split; auto. apply Nat.eqb_refl.
Qed.

Lemma lfem_ok : forall n nd base, (forall c, c < n -> base c + 1 < nd) -> fem_ok (lfem n nd base).
Proof.
  intros n nd base H c. cbn [lfem f_cd f_cm f_ndofs]. split.
  - intros g Hg. unfold lcd in Hg. destruct (Nat.ltb_spec c n) as [Hc|Hc]; [|destruct Hg]. specialize (H c Hc). destruct Hg as [<-|[<-|[]]]; lia.
  - intros g h Hn. unfold lcm. destruct (lmem _ g) eqn:E1; [|reflexivity]. destruct (lmem _ h) eqn:E2; [|reflexivity].
    exfalso. apply Hn. split; apply lmem_in; auto.
Qed.

Lemma lconn_ok : forall n nd base, connectivity_ok (lfem n nd base) (lmesh n) (lconn n base).
Proof.
  intros n nd base. split.
  - intros c d g Hc Hd H1 H2. cbn [lfem f_cd lmesh n_cells] in *. unfold lconn. apply filter_In. split; [apply in_seq; lia|].
    apply existsb_exists. exists g. split; auto. apply lmem_in; auto.
  - intros c d H. unfold lconn in H. apply filter_In in H. destruct H as [H _]. apply in_seq in H. simpl. lia.
Qed.

Lemma lA_ok : forall n nd base, global_matrix (lfem n nd base) (lmesh n) (lA n base).
Proof. intros n nd base. exists (fun _ _ => 0%K). split; [intros; symmetry; apply Qcplus_0_r|auto]. Qed.

(** Exact eigenpairs with the rest of the data computed. *)
Definition lagg (F : fem QcOF) (cells : list nat) (evals : list QcOF) (evecs : list (vec QcOF)) : agg_result QcOF :=
  let '(cols, M) := assemble_patch F cells in mkAgg evals evecs (map (fun k => ent M k k) (seq 0 (length cols))) cols.
Lemma lagg_exact : forall F cells evals evecs, NoDup cells -> length evals = length evecs ->
  (forall k, k < length evecs -> length (nth k evecs []) = length (fst (assemble_patch F cells)) /\
     forall i, i < length (nth k evecs []) ->
       nth i (mulvec (snd (assemble_patch F cells)) (nth k evecs [])) 0%K = (nth k evals 0 * nth i (nth k evecs []) 0)%K) ->
  exact_agg F cells (length evecs) (lagg F cells evals evecs).
Proof.
  intros F cells evals evecs Hn Hl H. exists (snd (assemble_patch F cells)). unfold lagg. cbn [assemble_patch ag_map ag_diag ag_evecs ag_evals snd fst].
  split; [apply (@evaluate_ok_example QcOF F cells Hn)|]. split; [reflexivity|]. split; [reflexivity|]. split; [auto|].
  intros k Hk. destruct (H k Hk) as [H1 H2]. split; [exact H1|].
  apply (@list_ext QcOF _ _ 0%K).
  - rewrite mulvec_length. unfold vscale. rewrite map_length. symmetry. exact H1.
  - intros i Hi. rewrite mulvec_length in Hi. rewrite nth_vscale. apply H2. rewrite H1. exact Hi.
Qed.

Lemma Qc_eq_bool_refl : forall x, Qc_eq_bool x x = true.
Proof. intros. unfold Qc_eq_bool. destruct (Qc_eq_dec x x); auto. Qed.

(** Solves goals about concrete small numbers. *)
Ltac qcanon := apply Qc_is_canon; vm_compute; reflexivity.
Ltac qneq := let E := fresh in intros E; apply (f_equal (fun x : Qc => Qc_eq_bool x 0)) in E; vm_compute in E; discriminate.
Ltac exact_tac := apply lagg_exact; [apply NoDup_filter; apply seq_NoDup|reflexivity|];
  intros [|[|k]] Hk; simpl in Hk; try lia; (split; [reflexivity|]); intros i Hi; simpl in Hi; do 3 (try (destruct i as [|i]; [qcanon|])); lia.

(** Three cells, two agglomerates: cells 0 and 1 with the eigenpair (2, (1, 0, -1)), cell 2 with (1, (1, 1)). *)
Definition aF : fem QcOF := lfem 3 4 (fun c => c).
Definition aui : list nat := [1; 1; 2].
Definition al : list (agg_result QcOF) := [lagg aF (agg_cells (lmesh 3) aui 1) [rq 2] [[rq 1; rq 0; rq (-1)]]; lagg aF (agg_cells (lmesh 3) aui 2) [rq 1] [[rq 1; rq 1]]].
Definition aD (g : nat) : QcOF := lA 3 (fun c => c) g g.

Example C15_example : exists mm bd, compute_restriction true true [2] 0 (fun g => Some (aD g)) (data_of al) = Ok mm /\
  build_boundary_agglomerates (lmesh 3) aui 2 (lconn 3 (fun c => c)) = Ok bd /\ bd = [([1], [2]); ([2], [1])] /\
  (exists corr, fa_corrections (assemble_patch aF) true (r_E mm) (r_D mm) 0 2 4 5 bd corr) /\
  forall ns nb corr, fa_corrections (assemble_patch aF) true (r_E mm) (r_D mm) 0 2 ns nb bd corr ->
    forall g, g < 4 -> fa_ap [rq 2; rq 1] (r_E mm) corr 0 0 g = nth g [rq 2; Q2Qc (-1 # 2); rq (-2); Q2Qc (1 # 2)] 0%K.
Proof.
  assert (Hex : forall a c, nth_error al a = Some c -> exact_agg aF (agg_cells (lmesh 3) aui (S a)) 1 c).
  { intros [|[|a]] c Hc; [| |destruct a; discriminate]; inversion Hc; subst c; clear Hc.
    - change 1 with (length [[rq 1; rq 0; rq (-1)]]) at 2. exact_tac.
    - change 1 with (length [[rq 1; rq 1]]) at 1. exact_tac. }
  assert (Hok : forall c, In c al -> agg_ok c).
  { intros c Hc. apply In_nth_error in Hc. destruct Hc as [a Ha]. apply (exact_agg_ok (Hex a c Ha)). }
  assert (Hgd : gd_ok aD al (fun g => Some (aD g))) by (intros c _ g _; reflexivity).
  pose proof (@compute_restriction_spec QcOF true true [2] 0 _ aD al Hok Hgd) as Hm.
  set (mm := rows_step true aD (n_rows_before [2] 0) (rows_of al) (mkR [] [] [])) in *.
  exists mm, [([1], [2]); ([2], [1])]. split; [exact Hm|]. split; [reflexivity|]. split; [reflexivity|].
  assert (HF : fem_ok aF) by (apply lfem_ok; intros; lia).
  assert (Hid : forall c, c < 3 -> owned (lmesh 3) c = true -> 1 <= nth c aui 0 <= 2) by (intros [|[|[|c]]] Hc _; simpl; lia).
  split.
  { apply (@C15_run_exists QcOF aF (lmesh 3) (lconn 3 (fun c => c)) aui 2); auto. apply evaluate_ok_example. }
  intros ns nb corr Hc g Hg.
  pose proof (@C15_fast_ap QcOF true aF (lmesh 3) (lconn 3 (fun c => c)) aui (assemble_patch aF) (lA 3 (fun c => c)) (fun g => Some (aD g)) aD [2] 0 al 1 mm
    [([1], [2]); ([2], [1])] ns nb corr HF (@evaluate_ok_example QcOF aF) (lconn_ok _ _ _) (lA_ok _ _ _) eq_refl Hid Hex Hgd) as T.
  assert (HD : forall c g, In c al -> In g (ag_map c) -> aD g = lA 3 (fun c => c) g g /\ aD g <> 0%K).
  { intros c g' Hc' Hg'. split; [reflexivity|]. assert (g' < 4).
    { repeat (destruct Hc' as [<-|Hc']; [simpl in Hg'; lia|]). destruct Hc'. }
    do 4 (destruct g' as [|g']; [qneq|]). lia. }
  specialize (T HD Hm eq_refl).
  etransitivity; [exact (T ltac:(left; intros q [<-|[<-|[]]]; discriminate) Hc 0 g ltac:(vm_compute; lia))|].
  unfold mm. do 4 (destruct g as [|g]; [qcanon|]). lia.
Qed.

(** C15: an agglomerate without neighbours among others that have some.  Cells 0 and 1 share a dof, cell 2 is apart (its own component of the
    mesh); every cell is an agglomerate with the exact eigenpair (1, (1, 1)).  With one copy-data object the row of the second agglomerate
    is wrong, although all hypotheses of C15 but the one on the patches hold. *)
Definition bbase (c : nat) : nat := match c with 2 => 3 | _ => c end.
Definition bF : fem QcOF := lfem 3 5 bbase.
Definition bui : list nat := [1; 2; 3].
Definition bagg (a : nat) : agg_result QcOF := lagg bF (agg_cells (lmesh 3) bui a) [rq 1] [[rq 1; rq 1]].
Definition bl : list (agg_result QcOF) := [bagg 1; bagg 2; bagg 3].
Definition bD (g : nat) : QcOF := lA 3 bbase g g.
Definition fa_seq_ap (F : fem QcOF) (l : list (agg_result QcOF)) (mm : rmats QcOF) (bd : list (list nat * list nat)) : outcome (spm QcOF) :=
  let n := length (rows_of l) in let nev := fa_nev n (map fst bd) in
  let! m1 := ws_seq (fa_worker (assemble_patch F) (r_E mm) (r_D mm) false 0 n nev) (fa_copier true) (fa_items (map fst bd)) tt fcopy_empty [] in
  ws_seq (fa_worker (assemble_patch F) (r_E mm) (r_D mm) true 0 n nev) (fa_copier true) (fa_items (map snd bd)) tt fcopy_empty m1.

Lemma fa_seq_ap_run : forall F l mm bd corr, fa_seq_ap F l mm bd = Ok corr ->
  fa_corrections (assemble_patch F) true (r_E mm) (r_D mm) 0 (length (rows_of l)) 1 1 bd corr.
Proof.
  intros F l mm bd corr H. unfold fa_seq_ap in H. unfold fa_corrections.
  match type of H with bind ?x _ = _ => destruct x as [m1| | | |] eqn:E end; cbn [bind] in H; try discriminate.
  exists m1. split; apply ws_seq_run; auto.
Qed.

Theorem C15_isolated_agglomerate_refuted : exists (F : fem QcOF) m conn ui A gd D l mm bd corr,
  fem_ok F /\ evaluate_ok F (assemble_patch F) /\ connectivity_ok F m conn /\ global_matrix F m A /\
  length ui = n_cells m /\ (forall c, c < n_cells m -> owned m c = true -> 1 <= nth c ui 0 <= length l) /\
  (forall a c, nth_error l a = Some c -> exact_agg F (agg_cells m ui (S a)) 1 c) /\
  gd_ok D l gd /\ (forall c g, In c l -> In g (ag_map c) -> D g = A g g /\ D g <> 0%K) /\
  compute_restriction true true [length l] 0 gd (data_of l) = Ok mm /\
  build_boundary_agglomerates m ui (length l) conn = Ok bd /\
  fa_corrections (assemble_patch F) true (r_E mm) (r_D mm) 0 (length (rows_of l)) 1 1 bd corr /\
  exists r g, r < length (rows_of l) /\
    fa_ap (flat_map (@ag_evals QcOF) l) (r_E mm) corr 0 r g <> sumn (f_ndofs F) (fun h => (A g h * spm_el (r_R mm) r h)%K).
Proof.
  assert (Hex : forall a c, nth_error bl a = Some c -> exact_agg bF (agg_cells (lmesh 3) bui (S a)) 1 c).
  { intros [|[|[|a]]] c Hc; [| | |destruct a; discriminate]; inversion Hc; subst c; clear Hc; unfold bagg;
      match goal with |- exact_agg _ _ ?o _ => change o with (length [[rq 1; rq 1]]) end; exact_tac. }
  assert (Hok : forall c, In c bl -> agg_ok c).
  { intros c Hc. apply In_nth_error in Hc. destruct Hc as [a Ha]. apply (exact_agg_ok (Hex a c Ha)). }
  assert (Hgd : gd_ok bD bl (fun g => Some (bD g))) by (intros c _ g _; reflexivity).
  pose proof (@compute_restriction_spec QcOF true true [3] 0 _ bD bl Hok Hgd) as Hm.
  set (bd := [([0], [1]); ([1], [0]); ([], [])] : list (list nat * list nat)).
  assert (T : match fa_seq_ap bF bl (rows_step true bD (n_rows_before [3] 0) (rows_of bl) (mkR [] [] [])) bd with
    | Ok corr => negb (Qc_eq_bool (fa_ap (flat_map (@ag_evals QcOF) bl) (r_E (rows_step true bD (n_rows_before [3] 0) (rows_of bl) (mkR [] [] []))) corr 0 1 0)
        (sumn 5 (fun h => (lA 3 bbase 0 h * spm_el (r_R (rows_step true bD (n_rows_before [3] 0) (rows_of bl) (mkR [] [] []))) 1 h)%K)))
    | _ => false end = true) by (vm_compute; reflexivity).
  set (mm := rows_step true bD (n_rows_before [3] 0) (rows_of bl) (mkR [] [] [])) in *.
  destruct (fa_seq_ap bF bl mm bd) as [corr| | | |] eqn:Ec; [|discriminate|discriminate|discriminate|discriminate].
  exists bF, (lmesh 3), (lconn 3 bbase), bui, (lA 3 bbase), (fun g => Some (bD g)), bD, bl, mm, bd, corr.
  split; [apply lfem_ok; intros [|[|[|c]]] Hc; simpl; lia|]. split; [apply evaluate_ok_example|]. split; [apply lconn_ok|]. split; [apply lA_ok|].
  split; [reflexivity|]. split; [intros [|[|[|c]]] Hc _; simpl in *; lia|]. split; [exact Hex|]. split; [exact Hgd|]. split.
  { intros c g' Hc' Hg'. split; [reflexivity|]. assert (g' < 5).
    { repeat (destruct Hc' as [<-|Hc']; [simpl in Hg'; lia|]). destruct Hc'. }
    do 5 (destruct g' as [|g']; [qneq|]). lia. }
  split; [exact Hm|]. split; [reflexivity|]. split; [apply fa_seq_ap_run; exact Ec|].
  exists 1, 0. split; [vm_compute; lia|]. intros E. change (f_ndofs bF) with 5 in E. unfold vec in *. rewrite E in T.
  rewrite Qc_eq_bool_refl in T. discriminate.
Qed.
Print Assumptions C15_isolated_agglomerate_refuted.

(** C15: different numbers of eigenvectors.  The first agglomerate has two eigenpairs, the second one: three rows over two agglomerates gives one
    row each, and the second row, which belongs to the first agglomerate, is corrected with the patches of the second. *)
Definition cF : fem QcOF := lfem 2 3 (fun c => c).
Definition cui : list nat := [1; 2].
Definition cl : list (agg_result QcOF) := [lagg cF (agg_cells (lmesh 2) cui 1) [rq 1; rq 3] [[rq 1; rq 1]; [rq 1; rq (-1)]];
  lagg cF (agg_cells (lmesh 2) cui 2) [rq 1] [[rq 1; rq 1]]].
Definition cD (g : nat) : QcOF := lA 2 (fun c => c) g g.

Theorem C15_uneven_counts_refuted : exists (F : fem QcOF) m conn ui A gd D l mm bd corr,
  fem_ok F /\ evaluate_ok F (assemble_patch F) /\ connectivity_ok F m conn /\ global_matrix F m A /\
  length ui = n_cells m /\ (forall c, c < n_cells m -> owned m c = true -> 1 <= nth c ui 0 <= length l) /\
  (forall a c, nth_error l a = Some c -> exists nev, 1 <= nev /\ exact_agg F (agg_cells m ui (S a)) nev c) /\
  gd_ok D l gd /\ (forall c g, In c l -> In g (ag_map c) -> D g = A g g /\ D g <> 0%K) /\
  compute_restriction true true [length (rows_of l)] 0 gd (data_of l) = Ok mm /\
  build_boundary_agglomerates m ui (length l) conn = Ok bd /\ (forall q, In q bd -> fst q <> []) /\
  fa_corrections (assemble_patch F) true (r_E mm) (r_D mm) 0 (length (rows_of l)) 1 1 bd corr /\
  exists r g, r < length (rows_of l) /\
    fa_ap (flat_map (@ag_evals QcOF) l) (r_E mm) corr 0 r g <> sumn (f_ndofs F) (fun h => (A g h * spm_el (r_R mm) r h)%K).
Proof.
  assert (Hex : forall a c, nth_error cl a = Some c -> exists nev, 1 <= nev /\ exact_agg cF (agg_cells (lmesh 2) cui (S a)) nev c).
  { intros [|[|a]] c Hc; [| |destruct a; discriminate]; inversion Hc; subst c; clear Hc.
    - exists (length [[rq 1; rq 1]; [rq 1; rq (-1)]]). split; [simpl; lia|]. exact_tac.
    - exists (length [[rq 1; rq 1]]). split; [simpl; lia|]. exact_tac. }
  assert (Hok : forall c, In c cl -> agg_ok c).
  { intros c Hc. apply In_nth_error in Hc. destruct Hc as [a Ha]. destruct (Hex a c Ha) as [nev [_ Hx]]. apply (exact_agg_ok Hx). }
  assert (Hgd : gd_ok cD cl (fun g => Some (cD g))) by (intros c _ g _; reflexivity).
  pose proof (@compute_restriction_spec QcOF true true [3] 0 _ cD cl Hok Hgd) as Hm.
  set (bd := [([0], [1]); ([1], [0])] : list (list nat * list nat)).
  assert (T : match fa_seq_ap cF cl (rows_step true cD (n_rows_before [3] 0) (rows_of cl) (mkR [] [] [])) bd with
    | Ok corr => negb (Qc_eq_bool (fa_ap (flat_map (@ag_evals QcOF) cl) (r_E (rows_step true cD (n_rows_before [3] 0) (rows_of cl) (mkR [] [] []))) corr 0 1 0)
        (sumn 3 (fun h => (lA 2 (fun c => c) 0 h * spm_el (r_R (rows_step true cD (n_rows_before [3] 0) (rows_of cl) (mkR [] [] []))) 1 h)%K)))
    | _ => false end = true) by (vm_compute; reflexivity).
  set (mm := rows_step true cD (n_rows_before [3] 0) (rows_of cl) (mkR [] [] [])) in *.
  destruct (fa_seq_ap cF cl mm bd) as [corr| | | |] eqn:Ec; [|discriminate|discriminate|discriminate|discriminate].
  exists cF, (lmesh 2), (lconn 2 (fun c => c)), cui, (lA 2 (fun c => c)), (fun g => Some (cD g)), cD, cl, mm, bd, corr.
  split; [apply lfem_ok; intros; lia|]. split; [apply evaluate_ok_example|]. split; [apply lconn_ok|]. split; [apply lA_ok|].
  split; [reflexivity|]. split; [intros [|[|c]] Hc _; simpl in *; lia|]. split; [exact Hex|]. split; [exact Hgd|]. split.
  { intros c g' Hc' Hg'. split; [reflexivity|]. assert (g' < 3).
    { repeat (destruct Hc' as [<-|Hc']; [simpl in Hg'; lia|]). destruct Hc'. }
    do 3 (destruct g' as [|g']; [qneq|]). lia. }
  split; [exact Hm|]. split; [reflexivity|]. split; [intros q [<-|[<-|[]]]; discriminate|]. split; [apply fa_seq_ap_run; exact Ec|].
  exists 1, 0. split; [vm_compute; lia|]. intros E. change (f_ndofs cF) with 3 in E. unfold vec in *. rewrite E in T.
  rewrite Qc_eq_bool_refl in T. discriminate.
Qed.
Print Assumptions C15_uneven_counts_refuted.

(** C16: the rows of item 0 get their contribution twice when an empty patch follows and the copy-data object is reused. *)
Definition sE : spm QcOF := [(0, 0, rq 1); (0, 1, rq 1)].
Theorem C16_stale_copy_refuted : exists (F : fem QcOF) evaluate E D patches m', fem_ok F /\ evaluate_ok F evaluate /\ patches = [[0]; []] /\
  fa_loop evaluate true E D true 0 2 1 1 1 patches [] m' /\
  (forall g, spm_el m' 0 g = (rq 2 * own_contribution F E D true 0%nat [0%nat] g)%K) /\ own_contribution F E D true 0 [0] 0 = rq 1.
Proof.
  destruct (@C16_one_object QcOF cF (assemble_patch cF) sE [] true 0 2 1 [[0]; []] []) as [m' [H1 H2]].
  - apply lfem_ok; intros; lia.
  - apply evaluate_ok_example.
  - intros p [<-|[<-|[]]]; repeat constructor; simpl; tauto.
  - simpl. lia.
  - exists cF, (assemble_patch cF), sE, [], [[0]; []], m'. split; [apply lfem_ok; intros; lia|]. split; [apply evaluate_ok_example|]. split; [reflexivity|].
    split; [apply ws_seq_run; exact H1|]. split; [|qcanon].
    intros g. rewrite H2. cbn [fa_items length seq combine effective spm_el]. unfold items_sum. cbn [map lsum fst snd in_item Nat.leb Nat.ltb Nat.add Nat.mul andb].
    generalize (own_contribution cF sE [] true 0 [0] g). intros x. change (rq 2) with ((1 + 1)%K : QcOF).
    assert (R : forall y : QcOF, (0 + (y + (y + 0)) = (1 + 1) * y)%K) by (intros y; change ((0 + (y + (y + 0)) = (1 + 1) * y)%Qc); ring). apply R.
Qed.
Print Assumptions C16_stale_copy_refuted.

(** C16: the same two patches with two copy-data objects: a run in which the empty patch gets the fresh one, and the rows are right. *)
Example C16_example : exists m', fa_loop (assemble_patch cF) true sE [] true 0 2 1 1 2 [[0]; []] [] m' /\
  (forall g, spm_el m' 0 g = own_contribution cF sE [] true 0 [0] g).
Proof.
  assert (HF : fem_ok cF) by (apply lfem_ok; intros; lia).
  assert (Hn : NoDup [0]) by (repeat constructor; simpl; tauto).
  assert (W : fa_worker (assemble_patch cF) sE [] true 0 2 1 (0, [0]) tt fcopy_empty = Ok (tt, item_res (assemble_patch cF) sE [] true 0 1 (0, [0])))
    by (apply (@fa_worker_spec QcOF cF); [apply evaluate_ok_example|exact Hn|discriminate|lia]).
  destruct (@copy_item QcOF cF (assemble_patch cF) sE [] true 0 1 0 [0] [] HF (@evaluate_ok_example QcOF cF) Hn) as [m' [H1 H2]].
  exists m'. split.
  - eexists. split; [|split; [|]].
    + eapply steps_trans; [eapply step_work with (i := 0) (s := 0) (b := 0); [reflexivity|simpl; tauto|reflexivity|reflexivity|exact W]|].
      eapply steps_trans; [eapply step_work with (i := 1) (s := 0) (b := 1); [reflexivity|simpl; intuition lia|reflexivity|reflexivity|reflexivity]|].
      eapply steps_trans; [eapply step_copy with (b := 0); [reflexivity|exact H1]|].
      eapply steps_trans; [eapply step_copy with (b := 1); reflexivity|].
      apply steps_refl.
    + reflexivity.
    + reflexivity.
  - intros g. rewrite H2. cbn [spm_el in_item Nat.leb Nat.ltb Nat.add Nat.mul andb]. apply Qcplus_0_l.
Qed.
