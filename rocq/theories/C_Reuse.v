(** Property theorems about the options of the local eigenproblems and about initial guesses: C96, C97, and the self-check in a run of build_restrictor: C60. *)
From Coq Require Import String List Arith ZArith Bool Lia Field QArith Qcanon.
From Verif Require Import Base OField Mat LinAlg M_Ptree S_Ptree P_Ptree M_Agglo M_WorkStream P_WorkStream M_Restr S_Restr P_Restr P_Restr2 M_FastAP S_FastAP S_FastAP M_Lanczos S_Lanczos S_Perm P_Lanczos E_Lanczos
  M_Eig S_Eig M_Host S_Host P_Host P_HostN M_HostEnd S_HostEnd P_HostEnd E_Solve C_FastAP C_Restr C_Eig P_ParEnd S_Reuse P_Reuse P_Perm P_Rate C_HostEnd E_Solve.
Import ListNotations.
Set Implicit Arguments.
Open Scope list_scope.
Open Scope nat_scope.

Section CReuse.
  Variable K : ofield.
  Add Field KFreuse : (f_field K).
  Local Notation vec := (vec K).
  (** External code and user code, as in M_HostEnd.v. *)
  Variable parse_unsigned : string -> option Z.
  Variable parse_double : string -> option K.
  Variable lobpcg : (vec -> vec) -> Z -> K -> list vec -> bool * eigensolution K.
  Variable fsqrt : K -> option K.
  Variable dstev : list K -> list K -> outcome (list K * list K).
  Variable tol2 : K.
  Variable rand : nat -> nat -> K.
  Variable std_sort : (nat -> nat -> bool) -> list nat -> list nat.
  Variable lapack : mat K -> K -> K -> outcome (list K * list vec).
  Variable partition : partitioner_kind -> list nat.
  Variable conn : nat -> list nat.
  Variable evaluate : list nat -> list nat * mat K.
  Variable constrained : list nat -> list nat.
  Variable draws : nat -> nat -> K.
  Variables (debug dim3 : bool).
  Variable m : mesh.
  Variable n_dofs : nat.
  Variable gd : nat -> option K.
  Variable gdiag : nat -> K.
  Local Notation arpack_type := (mat K -> K -> vec -> nat -> outcome (list K * list vec)).
  Local Notation run arpack := (restrictor_run parse_unsigned parse_double lobpcg fsqrt dstev tol2 rand std_sort lapack arpack partition conn evaluate constrained draws
    debug dim3 m n_dofs gd gdiag).
  Local Notation problem arpack := (local_problem parse_double lobpcg fsqrt dstev tol2 rand std_sort lapack arpack evaluate constrained draws debug m).
  Local Notation agglomerates := (build_agglomerates parse_unsigned partition debug dim3 m).

  Lemma fpos_nz : forall p, (fpos p : K) <> 0%K.
  Proof. intros p Z. assert (X := @fpos_pos K p). rewrite Z in X. exact (flt_irrefl X). Qed.
  Lemma number_asked : forall eig k, asked_number eig k -> n_eigenvectors eig = k.
  Proof.
    intros eig k (z & A & B & ->). unfold n_eigenvectors. apply asked_get in A. rewrite A. rewrite Z.mod_small; [reflexivity|]. lia.
  Qed.
  Lemma tolerance_asked : forall eig t, @asked_tolerance K parse_double eig t -> @eig_tolerance K parse_double eig = t.
  Proof.
    intros eig t (d & D & A). unfold eig_tolerance. apply asked_get. replace (tol_1e14 : K) with d; [exact A|].
    unfold tol_1e14. change (10 ^ 14)%positive with 100000000000000%positive in D. rewrite <- D. field. apply fpos_nz.
  Qed.
  Lemma run_transfer : forall (arpack arpack' : arpack_type) ui p p' eig eig' R AP,
    pt_find p ["eigensolver"%string] = Some eig -> pt_find p' ["eigensolver"%string] = Some eig' ->
    pt_find p' ["agglomeration"%string] = pt_find p ["agglomeration"%string] -> pt_get parse_bool ["fast_ap"%string] false p' = pt_get parse_bool ["fast_ap"%string] false p ->
    keeps_guess eig' = keeps_guess eig -> (forall ui id sc, problem arpack eig ui id sc = problem arpack' eig' ui id sc) ->
    run arpack ui p R AP -> run arpack' ui p' R AP.
  Proof.
    intros ar ar' ui p p' eig eig' R AP E E' A Fa Kg H (e & agg & ui' & n & ns & nb & d & mm & H1 & H2 & H3 & H4 & H5 & H6 & H7).
    rewrite E in H1. injection H1 as <-. exists eig', agg, ui', n, ns, nb, d, mm. split; [exact E'|]. split; [rewrite A; exact H2|]. split; [exact H3|].
    split; [|split; [exact H5|split; [exact H6|rewrite Fa; exact H7]]]. rewrite Kg. eapply collect_ext; [|exact H4]. intros id sc _. apply H.
  Qed.

  (** C96: ARPACK is asked for the number of pairs and the tolerance in the parameters, by default one pair and 10^-14, and for nothing else: two
      ARPACKs that agree on such requests give the same restriction matrices. *)
  Theorem C96_arpack_requests : forall (arpack arpack' : arpack_type) ui p eig k t R AP, pt_find p ["eigensolver"%string] = Some eig ->
    asked_number eig k -> @asked_tolerance K parse_double eig t -> (forall B g, arpack B t g k = arpack' B t g k) ->
    run arpack ui p R AP -> run arpack' ui p R AP.
  Proof.
    intros ar ar' ui p eig k t R AP E Hk Ht H. eapply run_transfer; try exact E; try reflexivity.
    intros ui' id sc. unfold local_problem, compute_local_eigenvectors. rewrite (number_asked Hk), (tolerance_asked Ht).
    destruct (eigensolver_matrix debug eig) as [kind| | | |]; cbn [bind]; auto. destruct kind; cbn [local_solver]; auto. rewrite H. reflexivity.
  Qed.

  (** C96: every agglomerate gets as many rows as eigenvectors were asked for, by default one. *)
  Theorem C96_rows : forall (arpack : arpack_type) ui p eig agg k R AP, pt_find p ["eigensolver"%string] = Some eig -> pt_find p ["agglomeration"%string] = Some agg ->
    asked_number eig k -> std_sort_contract std_sort -> (forall B t g n es vs, arpack B t g n = Ok (es, vs) -> length es = n /\ length vs = n) ->
    debug = true \/ text_at eig ["type"%string] "arpack" <> "anasazi"%string ->
    run arpack ui p R AP -> exists ui' n, agglomerates agg ui = Ok (ui', n) /\ nr R = n * k.
  Proof.
    intros ar ui p eig agg k R AP E A Hk Hs Ha Hd (e & ag & ui' & n & ns & nb & d & mm & H1 & H2 & H3 & H4 & H5 & H6 & _).
    rewrite E in H1. injection H1 as <-. rewrite A in H2. injection H2 as <-. exists ui', n. split; [exact H3|]. rewrite H6. cbn [spm_matrix nr].
    destruct (collected_any H4) as (acs & A1 & -> & A3). cbn [data_of da_evecs].
    assert (G : forall a c, In (a, c) acs -> length (ag_evecs c) = k).
    { intros a c Hin. destruct (A3 a c Hin) as (_ & sc & X). unfold local_problem in X. rewrite (number_asked Hk) in X.
      destruct (@C36_result K _ _ _ _ _ _ _ _ _ _ _ _ _ _ _ _ _ _ _ X) as (kind & _ & Ek & _).
      eapply (@C66_one_value_per_vector K) with (kind := kind) in X; auto; [tauto|].
      destruct Hd as [Hd|Hd]; [left; exact Hd|right]. intros ->. apply Hd. unfold eigensolver_matrix in Ek. rewrite get_string_text in Ek.
      destruct (String.eqb (text_at eig ["type"%string] "arpack") "arpack"); [discriminate|]. destruct (String.eqb _ "lanczos"); [discriminate|].
      destruct (String.eqb_spec (text_at eig ["type"%string] "arpack") "anasazi") as [X'|]; [exact X'|]. destruct (String.eqb _ "lapack"); [discriminate|].
      destruct debug; discriminate. }
    assert (L : length acs = n) by (rewrite <- (map_length fst), A1; apply seq_length). rewrite <- L. clear -G.
    induction acs as [|[a c] l IH]; [reflexivity|]. cbn [map snd flat_map]. rewrite app_length, (G a c (or_introl eq_refl)), IH by (intros a' c' Hi; apply (G a'); right; exact Hi).
    reflexivity.
  Qed.

  (** C96: Lanczos never uses a tolerance below 10^-4: asking for one has no effect. *)
  Theorem C96_lanczos_tolerance : forall (arpack : arpack_type) ui p eig v t t' R AP, pt_find p ["eigensolver"%string] = Some eig ->
    text_at eig ["type"%string] "arpack" = "lanczos"%string ->
    @asked_tolerance K parse_double eig t -> (t * fpos 10000 <= f1)%K -> parse_double v = Some t' -> (t' * fpos 10000 <= f1)%K ->
    run arpack ui p R AP -> run arpack ui (pt_put ["eigensolver"; "tolerance"]%string v p) R AP.
  Proof.
    intros ar ui p eig v t t' R AP E KT Ht Lt Pv Lt'.
    set (eig' := pt_put ["tolerance"%string] v eig). set (p' := pt_put _ v p).
    assert (E' : pt_find p' ["eigensolver"%string] = Some eig').
    { unfold p', eig'. cbn [pt_put pt_find pt_children]. rewrite assoc_put_child_eq. cbn [pt_find] in E.
      destruct (M_Ptree.assoc "eigensolver" (pt_children p)) as [c|]; [injection E as ->; reflexivity|discriminate]. }
    assert (O : forall k, k <> "tolerance"%string -> pt_find eig' [k] = pt_find eig [k]).
    { intros k Nk. unfold eig'. apply find_put_other; intros (r & X); simpl in X; congruence. }
    assert (T' : @eig_tolerance K parse_double eig' = t').
    { unfold eig_tolerance, pt_get. destruct (find_put_same ["tolerance"%string] v eig) as (c & F1 & F2 & _). fold eig' in F1. rewrite F1, F2, Pv. reflexivity. }
    assert (M : forall x : K, (x * fpos 10000 <= f1)%K -> fmax x lanczos_min_tolerance = lanczos_min_tolerance).
    { intros x Hx. assert (X : (x <= lanczos_min_tolerance)%K).
      { unfold lanczos_min_tolerance. apply (@fle_mul_cancel K (fpos 10000)); [apply fpos_pos|].
        replace (fpos 10000 * (1 / fpos 10000))%K with (1 : K)%K by (field; apply fpos_nz). replace (fpos 10000 * x)%K with (x * fpos 10000)%K by ring. exact Hx. }
      unfold fmax. apply fleb_le in X. rewrite X. reflexivity. }
    eapply run_transfer; [exact E|exact E'| | | |].
    - unfold p'. apply find_put_other; intros (r & X); simpl in X; congruence.
    - unfold pt_get, p'. rewrite find_put_other by (intros (r & X); simpl in X; congruence). reflexivity.
    - unfold keeps_guess, get_string, pt_get. rewrite !O by discriminate. reflexivity.
    - intros ui' id sc. unfold local_problem, compute_local_eigenvectors.
      assert (SK : eigensolver_matrix debug eig = Ok ELanczos) by (unfold eigensolver_matrix; rewrite get_string_text, KT; reflexivity).
      assert (SK' : eigensolver_matrix debug eig' = Ok ELanczos).
      { rewrite <- SK. unfold eigensolver_matrix, get_string, pt_get. rewrite O by discriminate. reflexivity. }
      assert (NE : n_eigenvectors eig' = n_eigenvectors eig) by (unfold n_eigenvectors, pt_get; rewrite O by discriminate; reflexivity).
      rewrite SK, SK', NE, T', (tolerance_asked Ht). cbn [bind local_solver]. unfold lanczos_wrapper. rewrite (M t Lt), (M t' Lt').
      unfold pt_get, pt_require. rewrite !O by discriminate. reflexivity.
  Qed.

  Lemma reuse_spec : forall eig, keeps_guess eig = true <-> asked_reuse eig.
  Proof.
    intros eig. unfold keeps_guess, asked_reuse. rewrite get_string_text. unfold text_at. split.
    - intros H. apply andb_prop in H. destruct H as (H1 & H2). apply String.eqb_eq in H1. split.
      2: { assert (Q := get_asked parse_bool ["use_initial_guess"%string] false eig). rewrite H2 in Q. exact Q. }
      destruct (pt_find eig ["type"%string]) as [c|]; [exists c; auto|discriminate].
    - intros ((c & E & D) & A). rewrite E, D. cbn [andb String.eqb]. apply asked_get in A. rewrite A. reflexivity.
  Qed.
  Lemma no_reuse_spec : forall eig, ~ asked_reuse eig -> keeps_guess eig = false.
  Proof. intros eig H. destruct (keeps_guess eig) eqn:E; auto. exfalso. apply H, reuse_spec. exact E. Qed.

  (** C97: unless the user asked for it (Anasazi and "use_initial_guess"), no agglomerate sees what was computed for another, whatever the number of
      threads and the schedule. *)
  Theorem C97_separate : forall (arpack : arpack_type) eig ui n ns nb d, ~ asked_reuse eig -> collect (problem arpack eig ui) (keeps_guess eig) n ns nb d ->
    exists cs, length cs = n /\ separate (problem arpack eig ui) cs /\ d = data_of cs.
  Proof. intros ar eig ui n ns nb d H C. rewrite (no_reuse_spec H) in C. eapply collect_separate. exact C. Qed.
  (** C97: so that all runs of build_restrictor give one restriction matrix, whatever the eigensolver does with its guess. *)
  Theorem C97_runs_agree : forall (arpack : arpack_type) ui p eig R AP R' AP', pt_find p ["eigensolver"%string] = Some eig -> ~ asked_reuse eig ->
    run arpack ui p R AP -> run arpack ui p R' AP' -> R = R'.
  Proof.
    intros ar ui p eig R AP R' AP' E N (e & agg & u & n & ns & nb & d & mm & H1 & H2 & H3 & H4 & H5 & H6 & _) (e' & agg' & u' & n' & ns' & nb' & d' & mm' & H1' & H2' & H3' & H4' & H5' & H6' & _).
    rewrite E in H1, H1'. injection H1 as <-. injection H1' as <-. rewrite H2 in H2'. injection H2' as <-. rewrite H3 in H3'. injection H3' as <- <-.
    destruct (C97_separate N H4) as (cs & L & S & ->). destruct (C97_separate N H4') as (cs' & L' & S' & ->).
    assert (X : cs = cs').
    { apply nth_ext with (d := mkAgg [] [] [] []) (d' := mkAgg [] [] [] []); [congruence|]. intros i Hi.
      assert (I1 : nth_error cs i = Some (nth i cs (mkAgg [] [] [] []))) by (apply nth_error_nth'; lia).
      assert (I2 : nth_error cs' i = Some (nth i cs' (mkAgg [] [] [] []))) by (apply nth_error_nth'; lia).
      apply S in I1. apply S' in I2. rewrite I1 in I2. injection I2 as ->. reflexivity. }
    subst cs'. rewrite H5 in H5'. injection H5' as <-. congruence.
  Qed.
  (** C97: when the user asked for it, on one thread every agglomerate starts from the eigenvectors of the one before. *)
  Theorem C97_chained : forall (arpack : arpack_type) eig ui n d, asked_reuse eig -> collect (problem arpack eig ui) (keeps_guess eig) n 1 1 d ->
    exists cs, length cs = n /\ chained (problem arpack eig ui) cs /\ d = data_of cs.
  Proof. intros ar eig ui n d H C. apply reuse_spec in H. rewrite H in C. apply collect_chained. exact C. Qed.

  (** C60: a debug build of build_restrictor without "fast_ap" that ends has agglomerates whose diagonals add up to the diagonal of the operator. *)
  Theorem C60_run : forall (arpack : arpack_type) ui p eig R AP, pt_find p ["eigensolver"%string] = Some eig -> debug = true ->
    pt_get parse_bool ["fast_ap"%string] false p = false -> (exists g, g < n_dofs /\ gdiag g <> f0) ->
    (forall ui' a sc c, problem arpack eig ui' a sc = Ok c -> agg_ok c /\ ag_evecs c <> [] /\ forall g, In g (ag_map c) -> gd g = Some (gdiag g)) ->
    run arpack ui p R AP ->
    exists agg ui' cs, pt_find p ["agglomeration"%string] = Some agg /\ agglomerates agg ui = Ok (ui', length cs) /\
      (forall a c, nth_error cs a = Some c -> exists sc, problem arpack eig ui' (S a) sc = Ok c) /\ nr R = length (flat_map (@ag_evecs K) cs) /\ forall g, g < n_dofs ->
      (fabs (diag_sum cs g - gdiag g) * fpos (10 ^ 14) < linf n_dofs gdiag)%K /\ (gdiag g <> 0 -> fabs (diag_sum cs g / gdiag g - 1) * fpos (10 ^ 14) < 1)%K.
  Proof.
    intros ar ui p eig R AP E D NF NZ H (e & agg & u & n & ns & nb & d & mm & H1 & H2 & H3 & H4 & H5 & H6 & H7).
    rewrite E in H1. injection H1 as <-. rewrite NF, D in H7. destruct (collected_any H4) as (acs & A1 & -> & A3). exists agg, u, (map snd acs).
    assert (LA : length acs = n) by (rewrite <- (map_length fst), A1; apply seq_length).
    split; [exact H2|]. split; [rewrite map_length, LA; exact H3|]. split.
    { intros a c Ha. rewrite nth_error_map in Ha. destruct (nth_error acs a) as [[b c']|] eqn:Eb; [|discriminate]. injection Ha as <-.
      assert (B : nth_error (map fst acs) a = Some b) by (rewrite nth_error_map, Eb; reflexivity). assert (La : a < length acs) by (apply nth_error_Some; congruence).
      rewrite A1 in B. apply nth_error_nth with (d := 0) in B. rewrite seq_nth in B by lia. subst b. exact (proj2 (A3 _ _ (nth_error_In _ _ Eb))). }
    split; [rewrite H6; reflexivity|].
    assert (PT : flt f0 (tol_1e14 : K)).
    { unfold tol_1e14. rewrite (Fdiv_def (f_field K)). replace (1 * finv (fpos 100000000000000))%K with (finv (fpos 100000000000000) : K)%K by ring. apply finv_pos, fpos_pos. }
    assert (ET : ((tol_1e14 : K) * fpos (10 ^ 14) = 1)%K) by (unfold tol_1e14; change (10 ^ 14)%positive with 100000000000000%positive; field; apply fpos_nz).
    destruct (@C60_self_check K tol_1e14 n_dofs gdiag gd [map snd acs]) as (_ & _ & _ & G); auto.
    - intros l c [<-|[]] Ic. apply in_map_iff in Ic. destruct Ic as ((a & c') & <- & Ia). destruct (A3 _ _ Ia) as (_ & sc & X). destruct (H _ _ _ _ X) as (Y1 & Y2 & _). auto.
    - intros c Ic g Hg. cbn [concat] in Ic. rewrite app_nil_r in Ic. apply in_map_iff in Ic. destruct Ic as ((a & c') & <- & Ia). destruct (A3 _ _ Ia) as (_ & sc & X).
      destruct (H _ _ _ _ X) as (_ & _ & Y). auto.
    - intros g Hg. destruct (G H7 g Hg) as (G1 & G2). cbn [concat] in G1, G2. rewrite app_nil_r in G1, G2. split.
      + replace (linf n_dofs gdiag) with (tol_1e14 * linf n_dofs gdiag * fpos (10 ^ 14))%K by (transitivity (tol_1e14 * fpos (10 ^ 14) * linf n_dofs gdiag)%K; [ring|rewrite ET; ring]).
        apply flt_mul_r; [exact G1|apply fpos_pos].
      + intros Z. assert (X := @flt_mul_r K _ _ (fpos (10 ^ 14)) (G2 Z) (fpos_pos K _)). rewrite ET in X. exact X.
  Qed.
End CReuse.
Print Assumptions C96_arpack_requests.
Print Assumptions C96_rows.
Print Assumptions C96_lanczos_tolerance.
Print Assumptions C97_separate.
Print Assumptions C97_runs_agree.
Print Assumptions C97_chained.
Print Assumptions C60_run.

Lemma veqb_refl : forall x : vec QcOF, veqb x x = true.
Proof.
  intros x. unfold veqb. rewrite Nat.eqb_refl. cbn [andb]. unfold all_lt. apply forallb_forall. intros i _. apply feqb_eq. reflexivity.
Qed.
(** The two line elements of C82 with other eigensolvers. *)
Definition rlob (op : vec QcOF -> vec QcOF) (n : Z) (t : QcOF) (g : list (vec QcOF)) : bool * eigensolution QcOF :=
  (true, mkSol 1%Z [q 29 2] [0%Z] [op (nth 0 g [])]).
Definition rtable : list (list QcOF * list QcOF * (list QcOF * list QcOF)) :=
  [([q 61 2], [], ([q 61 2], [q 1 1])); ([q 47 2], [], ([q 47 2], [q 1 1])); ([q 61 2; q 47 2], [q 12 1], ([q 29 2; q 79 2], [q 3 5; q (-4) 5; q 4 5; q 3 5]))].
Definition rproblem ar := local_problem ex_parse_double rlob qsqrt (dstev_of rtable) (q 1 1000000) (fun _ _ => q 0 1) (@insertion_sort nat) hlapack ar
  (assemble_patch hF) (fun _ => []) (fun _ => ex_draw) true (lmesh 2).
Definition rrun ar := restrictor_run (fun s => parse_int s) ex_parse_double rlob qsqrt (dstev_of rtable) (q 1 1000000) (fun _ _ => q 0 1) (@insertion_sort nat) hlapack ar
  (fun _ => [0; 1]) (lconn 2 (fun c => c)) (assemble_patch hF) (fun _ => []) (fun _ => ex_draw) true false (lmesh 2) 3 hgd (fun g => ent hA2 g g).
Definition ragg : ptree := Node "" [("partitioner"%string, leaf "metis"); ("n_agglomerates"%string, leaf "2")].
Definition rparams (eig : ptree) : ptree := Node "" [("eigensolver"%string, eig); ("agglomeration"%string, ragg)].
Definition rtest ar (eig : ptree) : outcome bool :=
  let! c1 := rproblem ar eig [1; 2] 1 [] in let! c2 := rproblem ar eig [1; 2] 2 (if keeps_guess eig then ag_evecs c1 else []) in
  let! mm := compute_restriction true true [length (da_evecs (data_of [c1; c2]))] 0 hgd (data_of [c1; c2]) in
  let! _ := check_restriction true tol_1e14 3 (fun g => ent hA2 g g) hgd [data_of [c1; c2]] in Ok true.
Lemma rcollects : forall ar eig c1 c2, rproblem ar eig [1; 2] 1 [] = Ok c1 -> rproblem ar eig [1; 2] 2 (if keeps_guess eig then ag_evecs c1 else []) = Ok c2 ->
  collect (rproblem ar eig [1; 2]) (keeps_guess eig) 2 1 1 (data_of [c1; c2]).
Proof.
  intros ar eig c1 c2 E1 E2. apply (@ws_seq_run nat (scratch QcOF) (agg_result QcOF) (agg_data QcOF) _ _ _ 0 0).
  cbn [agglomerate_ids seq ws_seq]. unfold local_worker. rewrite E1. cbn [bind]. match goal with |- context [rproblem ar eig [1; 2] 2 ?s] => change (rproblem ar eig [1; 2] 2 s) with (rproblem ar eig [1; 2] 2 (if keeps_guess eig then ag_evecs c1 else [])) end. unfold scratch in *. rewrite E2. cbn [bind ws_seq].
  change (@data_empty QcOF) with (data_of ([] : list (agg_result QcOF))). rewrite <- !data_of_snoc. reflexivity.
Qed.
Lemma rtest_run : forall ar eig, rtest ar eig = Ok true -> exists R AP, rrun ar [0; 0] (rparams eig) R AP.
Proof.
  intros ar eig H. unfold rtest in H. apply bind_Ok in H. destruct H as (c1 & E1 & H). apply bind_Ok in H. destruct H as (c2 & E2 & H).
  apply bind_Ok in H. destruct H as (mm & E3 & H). apply bind_Ok in H. destruct H as ([] & E4 & _).
  exists (spm_matrix (length (da_evecs (data_of [c1; c2]))) 3 (r_R mm)), (mkMat 0 0 (fun _ _ => f0)).
  exists eig, ragg, [1; 2], 2, 1, 1, (data_of [c1; c2]), mm. split; [reflexivity|]. split; [reflexivity|]. split; [vm_compute; reflexivity|].
  split; [apply rcollects; assumption|]. split; [exact E3|]. split; [reflexivity|]. exact E4.
Qed.
(** ARPACK with all defaults, and one that fails for every tolerance but 10^-14 and every number but one. *)
Definition rarpack (B : mat QcOF) (t : QcOF) (g : vec QcOF) (k : nat) : outcome (list QcOF * list (vec QcOF)) :=
  match k with 0 => Ok ([], []) | 1 => Ok ([q 29 2], [[q 3 5; q 4 5]]) | 2 => Ok ([q 29 2; q 79 2], [[q 3 5; q 4 5]; [q 4 5; q (-3) 5]]) | _ => Throw end.
Definition rarpack' (B : mat QcOF) (t : QcOF) (g : vec QcOF) (k : nat) : outcome (list QcOF * list (vec QcOF)) :=
  if (t =? q 1 100000000000000)%K && (k =? 1) then rarpack B t g k else UB.
Lemma one_asked : forall eig, pt_find eig ["number of eigenvectors"%string] = None -> asked_number eig 1.
Proof. intros eig H. exists 1%Z. split; [unfold asked; rewrite H; reflexivity|]. split; [lia|reflexivity]. Qed.
Lemma tiny_asked : forall eig, pt_find eig ["tolerance"%string] = None -> @asked_tolerance QcOF ex_parse_double eig (q 1 100000000000000).
Proof. intros eig H. exists (q 1 100000000000000). split; [apply Qc_is_canon; vm_compute; reflexivity|]. unfold asked. rewrite H. reflexivity. Qed.
Example C96_example : exists R AP, rrun rarpack [0; 0] (rparams (leaf "")) R AP /\ rrun rarpack' [0; 0] (rparams (leaf "")) R AP /\ nr R = 2.
Proof.
  destruct (@rtest_run rarpack (leaf "")) as (R & AP & H); [vm_compute; reflexivity|]. exists R, AP. split; [exact H|]. split.
  - eapply (@C96_arpack_requests QcOF); [reflexivity|apply one_asked; reflexivity|apply tiny_asked; reflexivity| |exact H].
    intros B g. unfold rarpack'. replace (q 1 100000000000000 =? q 1 100000000000000)%K with true by (vm_compute; reflexivity). reflexivity.
  - eapply (@C96_rows QcOF) with (k := 1) (eig := leaf "") (agg := ragg) in H; [|reflexivity|reflexivity|apply one_asked; reflexivity|apply insertion_sort_contract| |left; reflexivity].
    + destruct H as (ui' & n & E & L). rewrite L. vm_compute in E. injection E as <- <-. reflexivity.
    + intros B t g [|[|[|k]]] es vs X; try discriminate X; injection X as <- <-; split; reflexivity.
Qed.
Definition rlanczos : ptree := Node "" [("type"%string, leaf "lanczos")].
Example C96_lanczos_example : exists R AP, rrun rarpack' [0; 0] (rparams rlanczos) R AP /\
  rrun rarpack' [0; 0] (pt_put ["eigensolver"; "tolerance"]%string "0" (rparams rlanczos)) R AP.
Proof.
  destruct (@rtest_run rarpack' rlanczos) as (R & AP & H); [vm_compute; reflexivity|]. exists R, AP. split; [exact H|].
  eapply (@C96_lanczos_tolerance QcOF); [reflexivity|reflexivity|apply tiny_asked; reflexivity|apply fleb_le; vm_compute; reflexivity|reflexivity|apply fleb_le; vm_compute; reflexivity|exact H].
Qed.
(** Anasazi, one step of the power method: with the guess of the agglomerate before, two steps in the second agglomerate. *)
Definition ranasazi (reuse : string) : ptree :=
  Node "" [("type"%string, leaf "anasazi"); ("number of eigenvectors"%string, leaf "1"); ("tolerance"%string, leaf "0"); ("use_initial_guess"%string, leaf reuse)].
Definition rfirsts (reuse : string) : outcome (list (vec QcOF)) :=
  let! c1 := rproblem rarpack' (ranasazi reuse) [1; 2] 1 [] in let! c2 := rproblem rarpack' (ranasazi reuse) [1; 2] 2 (if keeps_guess (ranasazi reuse) then ag_evecs c1 else []) in
  Ok [nth 0 (ag_evecs c1) []; nth 0 (ag_evecs c2) []].
Example C97_example :
  (exists c1 c2, asked_reuse (ranasazi "true") /\ collect (rproblem rarpack' (ranasazi "true") [1; 2]) (keeps_guess (ranasazi "true")) 2 1 1 (data_of [c1; c2]) /\
     chained (rproblem rarpack' (ranasazi "true") [1; 2]) [c1; c2] /\ ag_evecs c1 <> ag_evecs c2) /\
  (exists R AP, rrun rarpack' [0; 0] (rparams (ranasazi "false")) R AP /\ forall R' AP', rrun rarpack' [0; 0] (rparams (ranasazi "false")) R' AP' -> R' = R).
Proof.
  split.
  - assert (T : (let! l := rfirsts "true" in Ok (veqb (nth 0 l []) (nth 1 l []))) = Ok false) by (vm_compute; reflexivity).
    apply bind_Ok in T. destruct T as (l & T & V). unfold rfirsts in T. apply bind_Ok in T. destruct T as (c1 & E1 & T). apply bind_Ok in T. destruct T as (c2 & E2 & T).
    apply Ok_inj in T. apply Ok_inj in V. subst l. cbn [nth] in V.
    assert (A : asked_reuse (ranasazi "true")) by (split; [eexists; split; reflexivity|left; vm_compute; reflexivity]).
    exists c1, c2. split; [exact A|]. split; [exact (rcollects _ _ E1 E2)|]. split.
    + intros [|[|a]] c H; [injection H as <-; exact E1|injection H as <-; exact E2|destruct a; discriminate].
    + intros X. rewrite X in V. assert (V' : veqb (nth 0 (ag_evecs c2) []) (nth 0 (ag_evecs c2) []) = true) by apply veqb_refl. congruence.
  - destruct (@rtest_run rarpack' (ranasazi "false")) as (R & AP & H); [vm_compute; reflexivity|]. exists R, AP. split; [exact H|].
    intros R' AP' H'. eapply (@C97_runs_agree QcOF) with (eig := ranasazi "false") (p := rparams (ranasazi "false")); [reflexivity| |exact H'|exact H].
    intros (_ & [X|(_ & X)]); [vm_compute in X; discriminate X|discriminate X].
    Unshelve. 1: exact (fun _ => []). all: exact R.
Qed.
