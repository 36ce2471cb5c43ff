(** The eigenproblem of one agglomerate: C35, C36, C53, C65, C66, C67. *)
From Coq Require Import String List Arith Lia Bool Field ZArith Permutation QArith Qcanon.
From Verif Require Import Base OField Mat LinAlg M_Ptree M_Host M_Perm S_Perm M_Restr M_Lanczos S_Lanczos M_Eig S_Eig P_Deflate P_Lanczos5 P_Lanczos7 P_Lanczos8 P_Lanczos9 P_Eig E_Lanczos P_Perm.
Import ListNotations.
Set Implicit Arguments.
Open Scope list_scope.
Open Scope nat_scope.

Section C.
  Variable K : ofield.
  Add Field KfCEig : (f_field K).
  Local Open Scope K_scope.
  Notation vec := (vec K).

  (** ** C35: initial guesses *)
  (** The mesh evaluator's guess: zero at the constrained dofs, fresh random numbers elsewhere. *)
  Theorem C35_evaluator_guess : forall (draw : nat -> K) is_constrained n,
    let g := evaluator_guess draw is_constrained n in
    length g = n /\ forall i, (i < n)%nat -> nth i g 0 = if is_constrained i then 0 else draw (length (filter (fun j => negb (is_constrained j)) (seq 0 i))).
  Proof.
    intros draw con n g. destruct (guess_from_spec K draw con n 0 0) as [L H]. split; [exact L|]. intros i Hi. apply (H i Hi).
  Qed.
  (** With positive draws exactly the constrained dofs are zero. *)
  Theorem C35_evaluator_support : forall (draw : nat -> K) is_constrained n, (forall c, 0 < draw c) ->
    forall i, (i < n)%nat -> nth i (evaluator_guess draw is_constrained n) 0 = 0 <-> is_constrained i = true.
  Proof.
    intros draw con n Hd i Hi. rewrite (proj2 (C35_evaluator_guess draw con n) i Hi). destruct (con i); split; auto; try discriminate.
    intros E. exfalso. apply (@flt_irrefl K 0). rewrite <- E at 2. apply Hd.
  Qed.
  (** The Lanczos start vectors: zero exactly where the source is zero, elsewhere same sign and at most twice the size. *)
  Theorem C35_perturbation : forall (rand : nat -> nat -> K) (v : vec) seed, (forall s i, 0 <= rand s i /\ rand s i < 1) ->
    let w := set_initial_guess rand v seed in
    length w = length v /\
    forall i, (nth i w 0 = 0 <-> nth i v 0 = 0) /\
      (0 < nth i v 0 -> nth i v 0 <= nth i w 0 /\ nth i w 0 < (1 + 1) * nth i v 0) /\
      (nth i v 0 < 0 -> nth i w 0 <= nth i v 0 /\ (1 + 1) * nth i v 0 < nth i w 0).
  Proof.
    intros rand v seed Hr w. split; [apply perturb_length|]. intros i. unfold w, set_initial_guess. rewrite perturb_nth. simpl plus.
    destruct (Nat.ltb_spec i (length v)) as [Hi|Hi].
    - destruct (Hr seed i) as [R0 R1]. set (x := nth i v 0) in *. clearbody x. set (t := rand seed i) in *. clearbody t.
      assert (P : 1 + t <> 0). { intros E. apply (@flt_irrefl K 0). rewrite <- E at 2. eapply flt_le_trans; [apply f0_lt_1|]. apply fle_sub_0. replace (1 + t - 1) with t by ring. auto. }
      assert (Ab : 0 < 1 - t). { apply flt_sub_0. replace (1 - t - 0) with (1 - t) by ring. apply flt_sub_0 in R1. auto. }
      split; [|split].
      + split; [|intros ->; ring]. intros E. destruct (@fmul_eq_0 K _ _ E); [contradiction|auto].
      + intros Hx. split.
        * apply fle_sub_0. replace ((1 + t) * x - x) with (t * x) by ring. replace 0 with (t * 0) by ring. apply fle_mul_l; auto. apply flt_le; auto.
        * apply flt_sub_0. replace ((1 + 1) * x - (1 + t) * x) with ((1 - t) * x) by ring. apply fmul_pos; auto.
      + intros Hx. assert (Hy : 0 < 0 - x) by (apply flt_sub_0; replace (0 - x - 0) with (0 - x) by ring; apply flt_sub_0 in Hx; auto). split.
        * apply fle_sub_0. replace (x - (1 + t) * x) with (t * (0 - x)) by ring. assert (Q := @fle_mul_l K t 0 (0 - x) R0 (flt_le Hy)). replace (t * 0) with (0 : K) in Q by ring. exact Q.
        * apply flt_sub_0. replace ((1 + t) * x - (1 + 1) * x) with ((1 - t) * (0 - x)) by ring. apply fmul_pos; auto.
    - rewrite (nth_overflow v) by auto. split; [tauto|]. split; intros H; destruct (flt_irrefl H).
  Qed.
  (** LOBPCG: no vectors, or vectors of another size: the evaluator's guess alone. *)
  Theorem C35_lobpcg_fresh : forall n_eig (vs : list vec) (g : vec), vs = [] \/ (exists v0 vs', vs = v0 :: vs' /\ length v0 <> length g) -> lobpcg_guess n_eig vs g = Ok [g].
  Proof.
    intros n_eig vs g [->|(v0 & vs' & -> & N)]; auto. simpl. apply Nat.eqb_neq in N. rewrite N. auto.
  Qed.
  (** Vectors of the right size: the first n_eigenvectors of them, set to zero where the guess is zero and replaced by it where only they are zero. *)
  Theorem C35_lobpcg_reuse : forall n_eig (vs : list vec) (g : vec), vs <> [] -> (forall v, In v vs -> length v = length g) -> (n_eig <= length vs)%nat ->
    exists ws, lobpcg_guess n_eig vs g = Ok ws /\ length ws = n_eig /\
      forall j, (j < n_eig)%nat -> length (nth j ws []) = length g /\
        forall i, (i < length g)%nat ->
          nth i (nth j ws []) 0 = (if nth i g 0 =? 0 then 0 else if nth i (nth j vs []) 0 =? 0 then nth i g 0 else nth i (nth j vs []) 0) /\
          (nth i (nth j ws []) 0 = 0 <-> nth i g 0 = 0).
  Proof.
    intros n_eig vs g Hv Hl Hn. destruct vs as [|v0 vs']; [destruct (Hv eq_refl)|]. unfold lobpcg_guess. rewrite (Hl v0) by (left; auto). rewrite Nat.eqb_refl. simpl negb. cbv iota.
    set (vs := v0 :: vs') in *. rewrite (@copy_lobpcg_ok K n_eig 0 vs) by (simpl; auto). cbn [bind]. simpl skipn.
    assert (Lf : length (firstn n_eig vs) = n_eig) by (apply firstn_length_le; auto).
    assert (Nf : forall j, (j < n_eig)%nat -> nth j (firstn n_eig vs) [] = nth j vs []).
    { intros j Hj. rewrite <- (firstn_skipn n_eig vs) at 2. rewrite app_nth1; auto. rewrite Lf. auto. }
    destruct (@repair_from_ok K (length g) 0 g (firstn n_eig vs) eq_refl) as (ws & E & Lw & H).
    { intros v Hi. apply Hl. rewrite <- (firstn_skipn n_eig vs). apply in_or_app. auto. }
    exists ws. split; auto. rewrite Lf in *. split; auto. intros j Hj. destruct (H j Hj) as [L1 H1]. split; auto. intros i Hi. rewrite (H1 i Hi), (Nf j Hj). change (i <? 0)%nat with false. cbv iota. unfold repaired.
    destruct (feqb (nth i g 0) 0) eqn:G; [apply feqb_eq in G; rewrite G; tauto|]. split; auto.
    assert (NG : nth i g 0 <> 0) by (intros C; apply feqb_eq in C; congruence).
    destruct (feqb (nth i (nth j vs []) 0) 0) eqn:V; [tauto|]. split; [|contradiction]. intros C. apply feqb_eq in C. congruence.
  Qed.
  (** Fewer vectors than requested are read past the end. *)
  Theorem C35_lobpcg_short_refuted : forall n_eig (vs : list vec) (g : vec), vs <> [] -> length (hd [] vs) = length g -> (length vs < n_eig)%nat -> lobpcg_guess n_eig vs g = UB.
  Proof.
    intros n_eig vs g Hv Hl Hn. destruct vs as [|v0 vs']; [destruct (Hv eq_refl)|]. unfold lobpcg_guess. simpl in Hl. rewrite Hl, Nat.eqb_refl. simpl negb. cbv iota.
    rewrite copy_lobpcg_short by (simpl in *; lia). auto.
  Qed.
  (** Whatever was in the scratch vectors, LOBPCG starts from vectors that vanish at the constrained dofs. *)
  Theorem C35_start_vectors_vanish : forall (draw : nat -> K) (A : mat K) C n_eig (vs ws : list vec), (forall v, In v vs -> length v = nr A) -> (n_eig <= length vs)%nat \/ vs = [] ->
    lobpcg_guess n_eig vs (initial_vector draw A C) = Ok ws -> vanishes C (initial_vector draw A C) /\ forall w, In w ws -> length w = nr A /\ vanishes C w.
  Proof.
    intros draw A C n_eig vs ws Hl Hn E. destruct (initial_free draw A C) as [Lg Vg]. split; auto.
    set (g := initial_vector draw A C) in *. clearbody g. destruct vs as [|v0 vs'].
    - rewrite C35_lobpcg_fresh in E by auto. injection E as <-. intros w [<-|[]]. auto.
    - destruct Hn as [Hn|Hn]; [|discriminate]. destruct (@C35_lobpcg_reuse n_eig (v0 :: vs') g ltac:(discriminate) ltac:(intros v Hv; rewrite Lg; auto) Hn) as (ws' & E' & Lw & H).
      rewrite E in E'. injection E' as <-. intros w Hw. apply (In_nth _ _ []) in Hw. destruct Hw as (j & Hj & <-). assert (Hj' : (j < n_eig)%nat) by (rewrite <- Lw; exact Hj). destruct (H j Hj') as [L1 H1]. split; [rewrite <- Lg; exact L1|].
      intros i Hi. destruct (le_lt_dec (length g) i) as [Ge|Lt]; [apply nth_overflow; unfold OField.vec in *; lia|]. apply H1; auto.
  Qed.

  (** ** C36: the shift *)
  (** For vectors that vanish at the constrained dofs the residuals of the two problems agree. *)
  Theorem C36_residuals : forall (A : mat K) C (v : vec) lambda, square A -> length v = nr A -> vanishes C v ->
    residual A (lambda - average_diagonal A) v = residual (shifted A C) lambda v /\ (eigenpair (shifted A C) lambda v <-> eigenpair A (lambda - average_diagonal A) v).
  Proof.
    intros A C v lambda Sq Lv Hv. assert (E : residual A (lambda - average_diagonal A) v = residual (shifted A C) lambda v).
    { rewrite (residual_shift (lambda - average_diagonal A) Sq Lv Hv). f_equal. ring. }
    split; auto. rewrite !eigenpair_residual, <- E by auto. tauto.
  Qed.
  (** The result is what the eigensolver returned for the shifted matrix, the requested values less the average. *)
  Theorem C36_result : forall parse_double lobpcg fsqrt dstev tol2 rand std_sort lapack arpack debug draw params n_eig tolerance (A : mat K) C dof_map scratch r,
    compute_local_eigenvectors parse_double lobpcg fsqrt dstev tol2 rand std_sort lapack arpack debug draw params n_eig tolerance A C dof_map scratch = Ok r ->
    exists kind evals, eigensolver_matrix debug params = Ok kind /\
      local_solver parse_double lobpcg fsqrt dstev tol2 rand std_sort lapack arpack debug kind params n_eig tolerance (shifted A C) (initial_vector draw A C) scratch = Ok (evals, ag_evecs r) /\
      length (ag_evals r) = length evals /\ (n_eig <= length evals)%nat /\ (forall i, (i < n_eig)%nat -> nth i (ag_evals r) 0 = nth i evals 0 - average_diagonal A) /\
      ag_diag r = map (fun i => ent A i i) (seq 0 (nr A)) /\ ag_map r = dof_map.
  Proof.
    intros parse_double lobpcg fsqrt dstev tol2 rand std_sort lapack arpack debug draw params n_eig tolerance A C dof_map scratch r E. unfold compute_local_eigenvectors in E.
    destruct (eigensolver_matrix debug params) as [kind| | | |]; cbn [bind] in E; try discriminate.
    destruct (local_solver _ _ _ _ _ _ _ _ _ _ _ _ _ _ _ _ _) as [[evals evecs]| | | |] eqn:El in E; cbn [bind fst snd] in E; try discriminate.
    destruct (shift_back n_eig 0 (average_diagonal A) evals) as [e2| | | |] eqn:Eb; cbn [bind] in E; try discriminate. injection E as <-.
    destruct (shift_back_spec K _ _ _ _ Eb) as (L & B & H). exists kind, evals. cbn [ag_evals ag_evecs ag_diag ag_map]. split; auto. split; [exact El|]. split; auto. split; [lia|]. split; auto.
    intros i Hi. rewrite H. simpl. apply Nat.ltb_lt in Hi. rewrite Hi. auto.
  Qed.
  Lemma fnat_100_200 : fpos (K := K) 100 < fpos 200.
  Proof.
    rewrite !fpos_fnat. replace (Pos.to_nat 200) with (Pos.to_nat 100 + Pos.to_nat 100)%nat by reflexivity. rewrite fnat_add. apply flt_sub_0.
    replace (fnat (Pos.to_nat 100) + fnat (Pos.to_nat 100) - fnat (Pos.to_nat 100)) with (fnat (K := K) (Pos.to_nat 100)) by ring. apply fnat_pos.
  Qed.
  (** An eigenvector of the shifted matrix vanishes at the constrained dofs unless its value is the marker 200. *)
  Theorem C36_marker : forall (A : mat K) C lambda (v : vec), square A -> decoupled A C -> length v = nr A -> eigenpair (shifted A C) lambda v -> lambda <> fpos 200 -> vanishes C v.
  Proof.
    intros A C lambda v Sq D Lv E N c Hc. destruct (le_lt_dec (nr A) c) as [Ge|Lt]; [apply nth_overflow; unfold OField.vec in *; lia|].
    apply (f_equal (fun u => nth c u 0)) in E. rewrite shifted_constrained_row, nth_vscale in E by auto.
    assert (Z : (lambda - fpos 200) * nth c v 0 = 0). { replace ((lambda - fpos 200) * nth c v 0) with (lambda * nth c v 0 - fpos 200 * nth c v 0) by ring. rewrite E. ring. }
    destruct (@fmul_eq_0 K _ _ Z) as [Z1|Z1]; auto. destruct N. replace lambda with ((lambda - fpos 200) + fpos 200) by ring. rewrite Z1. ring.
  Qed.
  (** LAPACK: the pairs returned are eigenpairs of the agglomerate matrix, orthonormal, zero at the constrained dofs. *)
  Theorem C36_lapack : forall parse_double lobpcg fsqrt dstev tol2 rand std_sort lapack arpack debug draw params n_eig tolerance (A : mat K) C dof_map scratch r,
    lapack_ok lapack -> symmetric_matrix A -> decoupled A C -> eigensolver_matrix debug params = Ok ELapack ->
    compute_local_eigenvectors parse_double lobpcg fsqrt dstev tol2 rand std_sort lapack arpack debug draw params n_eig tolerance A C dof_map scratch = Ok r ->
    length (ag_evals r) = n_eig /\ length (ag_evecs r) = n_eig /\ orthonormal (nr A) (ag_evecs r) /\ ascending (ag_evals r) /\
    forall i, (i < n_eig)%nat -> eigenpair A (nth i (ag_evals r) 0) (nth i (ag_evecs r) []) /\ vanishes C (nth i (ag_evecs r) []).
  Proof.
    intros parse_double lobpcg fsqrt dstev tol2 rand std_sort lapack arpack debug draw params n_eig tolerance A C dof_map scratch r Hl Sy D Ek E.
    destruct (C36_result _ _ _ _ _ _ _ _ _ _ _ _ _ _ _ _ _ _ E) as (kind & evals & Ek' & El & Le & Hn & Hv & _). rewrite Ek in Ek'. injection Ek' as <-. cbn [local_solver] in El. unfold lapack_wrapper in El.
    destruct (lapack (shifted A C) _ _) as [[es vs]| | | |] eqn:E1; cbn [bind fst snd] in El; try discriminate.
    assert (Sb := shifted_symmetric C Sy). assert (P := Hl _ _ _ _ _ Sb E1). destruct P as [P1 P2 P3 P4].
    destruct (le_lt_dec n_eig (length es)) as [Hle|Hgt]; [|rewrite read_first_short in El by (simpl; lia); discriminate].
    rewrite read_first_ok in El by auto. cbn [bind] in El. rewrite read_first_ok in El by (simpl; lia). cbn [bind] in El. simpl skipn in El. injection El as <- Ev. symmetry in Ev.
    assert (Lf : length (firstn n_eig es) = n_eig) by (apply firstn_length_le; auto).
    assert (Lg : length (firstn n_eig vs) = n_eig) by (apply firstn_length_le; lia).
    assert (Nf : forall i, (i < n_eig)%nat -> nth i (firstn n_eig es) 0 = nth i es 0). { intros i Hi. rewrite <- (firstn_skipn n_eig es) at 2. rewrite app_nth1; auto. lia. }
    assert (Ng : forall i, (i < n_eig)%nat -> nth i (firstn n_eig vs) [] = nth i vs []). { intros i Hi. rewrite <- (firstn_skipn n_eig vs) at 2. rewrite app_nth1; auto. rewrite Lg. auto. }
    rewrite Ev. split; [lia|]. split; [exact Lg|]. split; [apply orthonormal_firstn; exact P2|]. split.
    - intros i j Hij Hj. rewrite Le, Lf in Hj. rewrite !Hv, !Nf by lia. apply fle_sub_0. replace (nth j es 0 - average_diagonal A - (nth i es 0 - average_diagonal A)) with (nth j es 0 - nth i es 0) by ring.
      apply -> (@fle_sub_0 K). apply P4; lia.
    - intros i Hi. rewrite Hv, Nf, Ng by auto. destruct (P3 i ltac:(lia)) as (Q1 & _ & Q3).
      assert (Lv : length (nth i vs []) = nr A). { destruct P2 as [Sz _]. unfold sized_all in Sz. rewrite Forall_forall in Sz. apply Sz. apply nth_In. lia. }
      assert (Va : vanishes C (nth i vs [])). { apply C36_marker with (A := A) (lambda := nth i es 0); auto; [apply Sy|]. intros Q. rewrite Q in Q3. apply (@flt_irrefl K (fpos 100)). eapply flt_le_trans; [apply fnat_100_200|exact Q3]. }
      split; auto. apply C36_residuals with (C := C); auto. apply Sy.
  Qed.
  (** Lanczos, with or without deflation cycles: as many pairs as requested, orthonormal, in ascending order, zero at the constrained dofs, with residuals
      bounded by the tolerance used, provided the iterations permitted reach the size of the agglomerate. *)
  Theorem C67_lanczos : forall parse_double lobpcg fsqrt dstev tol2 rand std_sort lapack arpack debug draw params n_eig tolerance (A : mat K) C dof_map scratch r (c m : nat),
    sqrt_ok fsqrt -> dstev_ok dstev -> 0 <= tol2 -> std_sort_contract std_sort -> symmetric_matrix A -> decoupled A C ->
    eigensolver_matrix debug params = Ok ELanczos ->
    (if pt_get parse_bool ["is_deflated"%string] false params
     then pt_require parse_int ["num_cycles"%string] params = Ok (Z.of_nat c) /\ pt_require parse_int ["num_eigenpairs_per_cycle"%string] params = Ok (Z.of_nat m)
     else c = 1%nat /\ m = n_eig) ->
    let maxit := Z.to_nat (pt_get parse_int ["max_iterations"%string] 200%Z params) in
    (1 <= maxit)%nat -> (nr A <= maxit)%nat -> (1 <= m)%nat -> (1 <= n_eig <= c * m)%nat ->
    compute_local_eigenvectors parse_double lobpcg fsqrt dstev tol2 rand std_sort lapack arpack debug draw params n_eig tolerance A C dof_map scratch = Ok r ->
    length (ag_evals r) = n_eig /\ length (ag_evecs r) = n_eig /\ orthonormal (nr A) (ag_evecs r) /\ ascending (ag_evals r) /\
    let tol := fmax tolerance (1 / fpos 10000) in
    forall i, (i < n_eig)%nat -> vanishes C (nth i (ag_evecs r) []) /\
      let v := residual A (nth i (ag_evals r) 0) (nth i (ag_evecs r) []) in dot v v <= tol * tol * (1 + fnat ((c - 1) * m)).
  Proof.
    intros parse_double lobpcg fsqrt dstev tol2 rand std_sort lapack arpack debug draw params n_eig tolerance A C dof_map scratch r c m Hsq Hd Ht Hs Sy D Ek Hp maxit H1 H2 H3 H4 E.
    destruct (C36_result _ _ _ _ _ _ _ _ _ _ _ _ _ _ _ _ _ _ E) as (kind & evals & Ek' & El & Le & Hn & Hv & _). rewrite Ek in Ek'. injection Ek' as <-. cbn [local_solver] in El.
    destruct (lanczos_wrapper_inv _ _ _ _ Hs _ _ _ _ _ _ (repeat_length (0 : K) n_eig) El) as (c' & m' & q & Hcm & Es & -> & Ev & Lq). cbv zeta in *.
    set (dfl := pt_get parse_bool ["is_deflated"%string] false params) in *.
    assert (Ecm : (if dfl then c' = c /\ m' = m else c = 1%nat /\ m = n_eig)).
    { destruct dfl; auto. destruct Hcm as (cz & mz & A1 & A2 & -> & ->). destruct Hp as [B1 B2]. rewrite A1 in B1. rewrite A2 in B2. injection B1 as ->. injection B2 as ->. rewrite !Nat2Z.id. auto. }
    assert (Em : (if dfl then m' else n_eig) = m) by (destruct dfl; [destruct Ecm as [-> ->]|destruct Ecm as [-> ->]]; auto).
    assert (Ec : (if dfl then c' else 1%nat) = c) by (destruct dfl; [destruct Ecm as [-> ->]|destruct Ecm as [-> ->]]; auto).
    destruct (initial_free draw A C) as [Lg Vg]. fold maxit in Es.
    destruct (@solve_acc K fsqrt Hsq debug dstev Hd tol2 Ht (nr A) (free (nr A) C) (@free_sub K (nr A) C) (mulvec (shifted A C)) (free_invariant Sy D) rand (fun v seed => @free_perturb K (nr A) C rand v seed) std_sort Hs
      dfl n_eig m' c' maxit _ _ _ q H1 H2 (initial_free draw A C) ltac:(rewrite Em; auto) ltac:(rewrite Em, Ec; lia) Es) as (_ & Ac).
    rewrite Em, Ec in Ac.
    assert (Sb := shifted_symmetric C Sy). destruct Sb as [Sq Sb].
    assert (Hop := @symmetric_mat K (shifted A C) Sq Sb).
    destruct (@solve_spec K fsqrt Hsq debug dstev Hd tol2 Ht (nr A) rand std_sort Hs (mulvec (shifted A C)) (sy_into Hop) (sy_sym Hop) dfl n_eig m' c' maxit _ _ _ q H1 Lg ltac:(rewrite Em; auto) ltac:(rewrite Ec; nia) Es)
      as (_ & ps & _ & _ & _ & _ & _ & Hout).
    destruct (Hout ltac:(rewrite Em, Ec; lia)) as [As Or]. rewrite map_length in Le, Hn. rewrite Ev.
    split; [congruence|]. split; [rewrite map_length; auto|]. split; [exact Or|]. split.
    - intros i j Hij Hj. rewrite Le, Lq in Hj. rewrite !Hv by lia. apply fle_sub_0.
      replace (nth j (map fst q) 0 - average_diagonal A - (nth i (map fst q) 0 - average_diagonal A)) with (nth j (map fst q) 0 - nth i (map fst q) 0) by ring. apply -> (@fle_sub_0 K). apply As; rewrite ?map_length; lia.
    - intros i Hi. rewrite Hv by auto. assert (Hi' : (i < length q)%nat) by lia.
      rewrite (nth_map_in fst q (0, []) 0 Hi'), (nth_map_in snd q (0, []) [] Hi'). destruct (Ac (nth i q (0, [])) (nth_In _ _ Hi')) as [[Lv Va] Ra]. split; auto.
      rewrite (proj1 (@C36_residuals A C (snd (nth i q (0, []))) (fst (nth i q (0, []))) (proj1 Sy) Lv Va)). exact Ra.
  Qed.

  (** ** C53: extraction of an Anasazi solution *)
  Theorem C53_extract_in_bounds : forall debug n_eig (s : eigensolution K), (0 <= so_numVecs s)%Z -> (0 <= n_eig)%Z -> (length (so_evals s) <= length (so_evecs s))%nat ->
    (debug = true -> length (so_index s) = length (so_evals s) /\ forall z, In z (so_index s) -> z = 0%Z) ->
    let room := Z.to_nat (Z.min (so_numVecs s) n_eig) in
    ((length (so_evals s) <= room)%nat ->
       exists evals evecs, anasazi_extract debug n_eig s = Ok (evals, evecs) /\ length evals = room /\ length evecs = room /\
         firstn (length (so_evals s)) evals = so_evals s /\ firstn (length (so_evals s)) evecs = firstn (length (so_evals s)) (so_evecs s)) /\
    ((room < length (so_evals s))%nat -> anasazi_extract debug n_eig s = UB).
  Proof.
    intros debug n_eig s Hn0 He0 He Hd room. unfold anasazi_extract. fold room. destruct (Z.ltb_spec (Z.min (so_numVecs s) n_eig) 0) as [Neg|_]; [lia|]. split; intros Hr.
    - rewrite extract_ok; rewrite ?repeat_length; auto. simpl plus. eexists. eexists. split; [reflexivity|]. rewrite !app_length, !skipn_length, !repeat_length, firstn_length, Nat.min_l by auto.
      split; [lia|]. split; [lia|]. split.
      + rewrite firstn_app, firstn_all, Nat.sub_diag. simpl. apply app_nil_r.
      + rewrite firstn_app, firstn_firstn, firstn_length, Nat.min_id, Nat.min_l, Nat.sub_diag by auto. simpl. apply app_nil_r.
    - apply extract_long; rewrite ?repeat_length; auto; lia.
  Qed.

  (** ** C65: the LAPACK branch *)
  Theorem C65_reads_in_bounds : forall (lapack : mat K -> K -> K -> outcome (list K * list vec)) B n_eig es vs, lapack B (- (1 / (1 + 1))) (fpos 100) = Ok (es, vs) -> length es = length vs ->
    ((n_eig <= length es)%nat -> lapack_wrapper lapack B n_eig = Ok (firstn n_eig es, firstn n_eig vs)) /\ ((length es < n_eig)%nat -> lapack_wrapper lapack B n_eig = UB).
  Proof.
    intros lapack B n_eig es vs E L. unfold lapack_wrapper. rewrite E. cbn [bind fst snd]. split; intros H.
    - rewrite read_first_ok by auto. cbn [bind]. rewrite read_first_ok by (simpl; lia). auto.
    - rewrite read_first_short by (simpl; lia). auto.
  Qed.
  (** The interval searched is fixed: for a positive semidefinite matrix whose average diagonal exceeds 100 nothing is found, and the read is out of bounds. *)
  Theorem C65_large_entries_refuted : forall parse_double lobpcg fsqrt dstev tol2 rand std_sort lapack arpack debug draw params n_eig tolerance (A : mat K) C dof_map scratch es vs,
    lapack_ok lapack -> symmetric_matrix A -> positive_semidefinite A -> decoupled A C -> fpos 100 < average_diagonal A -> (1 <= n_eig)%nat ->
    eigensolver_matrix debug params = Ok ELapack -> lapack (shifted A C) (- (1 / (1 + 1))) (fpos 100) = Ok (es, vs) ->
    compute_local_eigenvectors parse_double lobpcg fsqrt dstev tol2 rand std_sort lapack arpack debug draw params n_eig tolerance A C dof_map scratch = UB.
  Proof.
    intros parse_double lobpcg fsqrt dstev tol2 rand std_sort lapack arpack debug draw params n_eig tolerance A C dof_map scratch es vs Hl Sy Psd D Hav Hn Ek E1.
    destruct (Hl _ _ _ _ _ (shifted_symmetric C Sy) E1) as [P1 P2 P3 _].
    assert (Le : length es = 0%nat).
    { destruct es as [|e es']; auto. exfalso. destruct (P3 0%nat ltac:(simpl; lia)) as (Q1 & _ & Q3). simpl in P1. assert (Hv0 : (0 < length vs)%nat) by lia.
      destruct P2 as [Sz Or]. assert (Lv : length (nth 0 vs []) = nr A). { unfold sized_all in Sz. rewrite Forall_forall in Sz. apply Sz. apply nth_In. auto. }
      assert (U := Or 0%nat 0%nat Hv0 Hv0). simpl (0 =? 0)%nat in U. cbv iota in U. cbn [nth] in Q1, Q3. set (v := nth 0 vs []) in *. clearbody v.
      assert (Va : vanishes C v). { apply C36_marker with (A := A) (lambda := e); auto; [apply Sy|]. intros Q. rewrite Q in Q3. apply (@flt_irrefl K (fpos 100)). eapply flt_le_trans; [apply fnat_100_200|exact Q3]. }
      apply (proj2 (@C36_residuals A C v e (proj1 Sy) Lv Va)) in Q1. assert (Pv := Psd v Lv). rewrite Q1, dot_scale_l, U in Pv.
      apply (@flt_irrefl K (fpos 100)). eapply flt_le_trans; [exact Hav|]. eapply fle_trans; [|exact Q3]. apply fle_sub_0. replace (e - average_diagonal A) with ((e - average_diagonal A) * 1) by ring. exact Pv. }
    unfold compute_local_eigenvectors. rewrite Ek. cbn [bind local_solver]. rewrite (proj2 (@C65_reads_in_bounds lapack (shifted A C) n_eig es vs E1 P1)) by lia. auto.
  Qed.

  (** ** C66: eigenvalues stay with their eigenvectors *)
  (** With the checks on, and always with Lanczos and LAPACK, as many eigenvalues as eigenvectors. *)
  Theorem C66_one_value_per_vector : forall parse_double lobpcg fsqrt dstev tol2 rand std_sort lapack arpack debug draw params n_eig tolerance (A : mat K) C dof_map scratch r kind,
    std_sort_contract std_sort -> (forall B t g n es vs, arpack B t g n = Ok (es, vs) -> length es = n /\ length vs = n) -> eigensolver_matrix debug params = Ok kind -> debug = true \/ kind <> EAnasazi ->
    compute_local_eigenvectors parse_double lobpcg fsqrt dstev tol2 rand std_sort lapack arpack debug draw params n_eig tolerance A C dof_map scratch = Ok r ->
    length (ag_evals r) = n_eig /\ length (ag_evecs r) = n_eig.
  Proof.
    intros parse_double lobpcg fsqrt dstev tol2 rand std_sort lapack arpack debug draw params n_eig tolerance A C dof_map scratch r kind Hs Ha Ek Hk E.
    destruct (C36_result _ _ _ _ _ _ _ _ _ _ _ _ _ _ _ _ _ _ E) as (kind' & evals & Ek' & El & Le & Hn & _). rewrite Ek in Ek'. injection Ek' as <-. rewrite Le. clear Le E Ek.
    destruct kind; cbn [local_solver] in El.
    - eapply Ha; eauto.
    - destruct (lanczos_wrapper_inv _ _ _ _ Hs _ _ _ _ _ _ (repeat_length (0 : K) n_eig) El) as (c' & m' & q & _ & _ & -> & -> & Lq). rewrite !map_length. auto.
    - destruct Hk as [->|Hk]; [|congruence]. unfold anasazi_wrapper in El. destruct (lobpcg_guess _ _ _); cbn [bind] in El; try discriminate.
      destruct (anasazi_solve _ _ _ _ _ _) as [[es vs]| | | |]; cbn [bind fst snd] in El; try discriminate. unfold assert_dbg in El.
      destruct (Nat.eqb_spec n_eig (length vs)) as [Ln|]; cbn [bind] in El; try discriminate. destruct (std_copy es (repeat 0 n_eig)) as [e2| | | |] eqn:Ec; cbn [bind] in El; try discriminate.
      injection El as <- <-. apply std_copy_spec in Ec. rewrite repeat_length in Ec. destruct Ec as [-> _]. auto.
    - unfold lapack_wrapper in El. destruct (lapack _ _ _) as [[es vs]| | | |]; cbn [bind fst snd] in El; try discriminate.
      destruct (le_lt_dec n_eig (length es)) as [Hle|Hgt]; [|rewrite read_first_short in El by (simpl; lia); discriminate]. rewrite read_first_ok in El by auto. cbn [bind] in El.
      destruct (le_lt_dec n_eig (length vs)) as [Hlv|Hgv]; [|rewrite read_first_short in El by (simpl; lia); discriminate]. rewrite read_first_ok in El by auto. cbn [bind] in El. simpl skipn in El.
      injection El as <- <-. split; apply firstn_length_le; auto.
    - injection El as <- <-. rewrite !repeat_length. auto.
  Qed.
  (** Then the flat lists of all agglomerates are aligned. *)
  Theorem C66_aligned : forall (rs : list (agg_result K)) d, (forall r, In r rs -> length (ag_evals r) = length (ag_evecs r)) ->
    d = fold_left (fun d r => copy_local_to_global r d) rs (mkData [] [] [] [] []) ->
    length (da_evals d) = length (da_evecs d) /\ forall k, (k < length (da_evals d))%nat ->
      exists r i, In r rs /\ (i < length (ag_evals r))%nat /\ nth k (da_evals d) 0 = nth i (ag_evals r) 0 /\ nth k (da_evecs d) [] = nth i (ag_evecs r) [].
  Proof.
    intros rs d Hr ->.
    assert (G : forall rs (d0 : agg_data K), (forall r, In r rs -> length (ag_evals r) = length (ag_evecs r)) ->
      exists es vs, length es = length vs /\ da_evals (fold_left (fun d r => copy_local_to_global r d) rs d0) = da_evals d0 ++ es /\ da_evecs (fold_left (fun d r => copy_local_to_global r d) rs d0) = da_evecs d0 ++ vs /\
        forall k, (k < length es)%nat -> exists r i, In r rs /\ (i < length (ag_evals r))%nat /\ nth k es 0 = nth i (ag_evals r) 0 /\ nth k vs [] = nth i (ag_evecs r) []).
    { clear. induction rs as [|r rs IH]; intros d0 Hr; cbn [fold_left].
      - exists [], []. rewrite !app_nil_r. split; auto. split; auto. split; auto. intros k Hk. simpl in Hk. lia.
      - destruct (IH (copy_local_to_global r d0) (fun x Hx => Hr x (or_intror Hx))) as (es & vs & L & E1 & E2 & H). exists (ag_evals r ++ es), (ag_evecs r ++ vs). assert (Lr := Hr r (or_introl eq_refl)).
        split; [rewrite !app_length; unfold OField.vec in *; lia|]. split; [rewrite E1; simpl; symmetry; apply app_assoc|]. split; [rewrite E2; simpl; symmetry; apply app_assoc|].
        intros k Hk. rewrite app_length in Hk. destruct (Nat.lt_ge_cases k (length (ag_evals r))) as [Lt|Ge].
        + exists r, k. split; [left; auto|]. split; auto. rewrite !app_nth1 by (unfold OField.vec in *; lia). auto.
        + destruct (H (k - length (ag_evals r))%nat ltac:(lia)) as (r' & i & I1 & I2 & I3 & I4). exists r', i. split; [right; auto|]. split; auto. rewrite !app_nth2 by (unfold OField.vec in *; lia). rewrite <- Lr. auto. }
    destruct (G rs (mkData [] [] [] [] []) Hr) as (es & vs & L & E1 & E2 & H). rewrite E1, E2. simpl. auto.
  Qed.
End C.
Print Assumptions C35_evaluator_guess.
Print Assumptions C35_evaluator_support.
Print Assumptions C35_perturbation.
Print Assumptions C35_lobpcg_fresh.
Print Assumptions C35_lobpcg_reuse.
Print Assumptions C35_lobpcg_short_refuted.
Print Assumptions C35_start_vectors_vanish.
Print Assumptions C36_residuals.
Print Assumptions C36_result.
Print Assumptions C36_marker.
Print Assumptions C36_lapack.
Print Assumptions C67_lanczos.
Print Assumptions C53_extract_in_bounds.
Print Assumptions C65_reads_in_bounds.
Print Assumptions C65_large_entries_refuted.
Print Assumptions C66_one_value_per_vector.
Print Assumptions C66_aligned.

(** ** Examples *)
Definition q (a : Z) (b : positive) : QcOF := Q2Qc (Qmake a b).
Example C35_guess_example : veqb (evaluator_guess (fun c => q (Z.of_nat c + 1) 8) (fun i => Nat.eqb i 1) 4) [q 1 8; q 0 1; q 2 8; q 3 8] = true.
Proof. vm_compute. reflexivity. Qed.
Example C35_perturbation_example : veqb (set_initial_guess (fun s i => q (Z.of_nat i) 4) [q 0 1; q 4 1; q (-2) 1] 7) [q 0 1; q 5 1; q (-3) 1] = true.
Proof. vm_compute. reflexivity. Qed.
(** Entry 0 is constrained; entry 1 of the first vector was zero. *)
Example C35_lobpcg_example : ok_with (lobpcg_guess 2 [[q 5 1; q 0 1; q 3 1]; [q 1 1; q 2 1; q 4 1]; [q 9 1; q 9 1; q 9 1]] [q 0 1; q 7 1; q 8 1])
  (fun ws => (length ws =? 2) && veqb (nth 0 ws []) [q 0 1; q 7 1; q 3 1] && veqb (nth 1 ws []) [q 0 1; q 2 1; q 4 1]) = true.
Proof. vm_compute. reflexivity. Qed.
Example C35_short_example : lobpcg_guess 2 [[q 5 1; q 1 1]] [q 0 1; q 7 1] = UB.
Proof. apply C35_lobpcg_short_refuted; [discriminate|reflexivity|simpl; lia]. Qed.
Example C35_start_example : vanishes [1] (initial_vector (fun c => q (Z.of_nat c + 1) 8) (mkMat 3 3 (fun _ _ => q 1 1)) [1]).
Proof. apply initial_free. Qed.

(** The matrix [[73/25, -36/25, 0], [-36/25, 52/25, 0], [0, 0, 1]], constrained in the last dof: average 2, eigenvalues 1 and 4 on the others. *)
Definition exA : mat QcOF := mkMat 3 3 (fun i j => nth j (nth i [[q 73 25; q (-36) 25; q 0 1]; [q (-36) 25; q 52 25; q 0 1]; [q 0 1; q 0 1; q 1 1]] []) f0).
Lemma exA_sym : symmetric_matrix exA.
Proof. split; [reflexivity|]. intros [|[|[|i]]] [|[|[|j]]] Hi Hj; simpl in Hi, Hj; try lia; reflexivity. Qed.
Lemma exA_dec : decoupled exA [2].
Proof. intros c j [<-|[]] Hj. destruct j as [|[|[|[|j]]]]; try congruence; split; reflexivity. Qed.
Example C36_example : average_diagonal exA = q 2 1 /\ eigenpair (shifted exA [2]) (q 3 1) [q 3 1; q 4 1; q 0 1] /\ eigenpair exA (q 3 1 - average_diagonal exA)%K [q 3 1; q 4 1; q 0 1].
Proof.
  split; [apply Qc_is_canon; vm_compute; reflexivity|]. assert (E : eigenpair (shifted exA [2]) (q 3 1) [q 3 1; q 4 1; q 0 1]) by (apply veqb_eq; vm_compute; reflexivity).
  split; [exact E|]. apply (proj1 (proj2 (@C36_residuals QcOF exA [2] [q 3 1; q 4 1; q 0 1] (q 3 1) (proj1 exA_sym) eq_refl ltac:(intros i [<-|[]]; reflexivity)))). exact E.
Qed.
(** A constrained dof of a matrix with large entries: the marker 200 is then the smallest eigenvalue of the shifted matrix, and what it turns into is no
    eigenvalue of the agglomerate matrix for that vector. *)
Definition diag2 {K : ofield} (a b : K) : mat K := mkMat 2 2 (fun i j => if i =? j then (if i =? 0 then a else b) else f0).
Section D.
  Variable K : ofield.
  Add Field KfCEig2 : (f_field K).
  Local Open Scope K_scope.
  Lemma diag2_dot : forall (a b x y : K), dot (mulvec (diag2 a b) [x; y]) [x; y] = a * (x * x) + b * (y * y).
  Proof. intros. unfold mulvec, dot, sumn. simpl. ring. Qed.
  Lemma diag2_above : forall (a b l : K) (x : vec K), l <= a -> l <= b -> length x = 2%nat -> l * dot x x <= dot (mulvec (diag2 a b) x) x.
  Proof.
    intros a b l x Ha Hb L. destruct x as [|u [|w [|]]]; simpl in L; try discriminate. rewrite diag2_dot. apply fle_sub_0.
    replace (a * (u * u) + b * (w * w) - l * dot [u; w] [u; w]) with ((a - l) * (u * u) + (b - l) * (w * w)) by (unfold dot, sumn; simpl; ring).
    apply fle_sub_0 in Ha. apply fle_sub_0 in Hb. apply fadd_nonneg.
    - replace 0 with ((a - l) * 0) by ring. apply fle_mul_l; auto. apply fsquare_nonneg.
    - replace 0 with ((b - l) * 0) by ring. apply fle_mul_l; auto. apply fsquare_nonneg.
  Qed.
  Lemma diag2_sym : forall a b : K, symmetric_matrix (diag2 a b).
  Proof. intros a b. split; [reflexivity|]. intros [|[|i]] [|[|j]] Hi Hj; simpl in Hi, Hj; try lia; reflexivity. Qed.
  Lemma diag2_psd : forall a b : K, 0 <= a -> 0 <= b -> positive_semidefinite (diag2 a b).
  Proof. intros a b Ha Hb x L. assert (H := diag2_above _ _ _ _ Ha Hb L). replace (0 * dot x x) with (0 : K) in H by ring. exact H. Qed.
  Lemma diag2_dec : forall (a b : K) C, decoupled (diag2 a b) C.
  Proof. intros a b C c j _ N. simpl. destruct (Nat.eqb_spec c j), (Nat.eqb_spec j c); subst; try congruence; auto. Qed.
End D.
Theorem C36_marker_refuted : exists (A : mat QcOF) C lambda v, symmetric_matrix A /\ positive_semidefinite A /\ decoupled A C /\ length v = nr A /\ v <> vzero (nr A) /\
  eigenpair (shifted A C) lambda v /\ (forall x, length x = nr A -> (lambda * dot x x <= dot (mulvec (shifted A C) x) x)%K) /\ ~ eigenpair A (lambda - average_diagonal A)%K v.
Proof.
  exists (diag2 (q 900 1) (q 1 1)), [1], (q 200 1), [q 0 1; q 1 1].
  split; [apply diag2_sym|]. split; [apply diag2_psd; apply fleb_le; vm_compute; reflexivity|]. split; [apply diag2_dec|]. split; [reflexivity|].
  split; [intros E; apply (f_equal (fun u => veqb u (vzero (K := QcOF) 2))) in E; vm_compute in E; discriminate|].
  split; [apply veqb_eq; vm_compute; reflexivity|]. split.
  - intros x L. rewrite (@mulvec_meq QcOF (shifted (diag2 (q 900 1) (q 1 1)) [1]) (diag2 (q 2701 2) (q 200 1)) x).
    + apply diag2_above; auto; apply fleb_le; vm_compute; reflexivity.
    + split; [reflexivity|]. split; [reflexivity|]. intros [|[|i]] [|[|j]] Hi Hj; simpl in Hi, Hj; try lia; apply Qc_is_canon; vm_compute; reflexivity.
  - intros E. apply (f_equal (fun u => veqb u (mulvec (diag2 (q 900 1) (q 1 1)) [q 0 1; q 1 1]))) in E. vm_compute in E. discriminate.
Qed.
Print Assumptions C36_marker_refuted.

(** Stands in for LAPACKFullMatrix::compute_eigenvalues_symmetric (amge_host.templates.hpp:457-458): a fixed answer, checked. *)
Definition lapack_of (es : list QcOF) (vs : list (vec QcOF)) (B : mat QcOF) (lower upper : QcOF) : outcome (list QcOF * list (vec QcOF)) :=
  let n := length es in
  if (length vs =? n) && forallb (fun v => length v =? nr B) vs &&
     all_lt n (fun i => all_lt n (fun j => feqb (dot (nth i vs []) (nth j vs [])) (if i =? j then f1 else f0))) &&
     all_lt n (fun i => veqb (mulvec B (nth i vs [])) (vscale (nth i es f0) (nth i vs [])) && fltb lower (nth i es f0) && fleb (nth i es f0) upper) &&
     all_lt n (fun i => all_lt n (fun j => implb (i <=? j) (fleb (nth i es f0) (nth j es f0))))
  then Ok (es, vs) else Fuel.
Lemma lapack_of_ok : forall es vs, lapack_ok (lapack_of es vs).
Proof.
  intros es vs B lower upper evals evecs _ H. unfold lapack_of in H. destruct (_ && _)%bool eqn:E in H; [|discriminate]. injection H as <- <-.
  do 4 (apply andb_true_iff in E; destruct E as [E ?E]). apply Nat.eqb_eq in E. constructor; auto.
  - split.
    + apply Forall_forall. intros v Hv. rewrite forallb_forall in E3. apply Nat.eqb_eq. apply E3. auto.
    + intros i j Hi Hj. unfold OField.vec in *. rewrite E in Hi, Hj. apply feqb_eq. exact (@all_lt_spec _ _ (@all_lt_spec _ _ E2 i Hi) j Hj).
  - intros i Hi. assert (Q := @all_lt_spec _ _ E1 i Hi). cbv beta in Q. do 2 (apply andb_true_iff in Q; destruct Q as [Q ?Q]). split; [apply veqb_eq; exact Q|]. split; [apply fltb_lt; auto|apply fleb_le; auto].
  - intros i j Hij Hj. assert (Q := @all_lt_spec _ _ (@all_lt_spec _ _ E0 i ltac:(lia)) j Hj). cbv beta in Q. replace (i <=? j) with true in Q by (symmetry; apply Nat.leb_le; auto). apply fleb_le. exact Q.
Qed.
(** The external functions of the examples. *)
Definition ex_parse_double (s : string) : option QcOF := Some f0.
Definition ex_no_lobpcg (op : vec QcOF -> vec QcOF) (n : Z) (t : QcOF) (g : list (vec QcOF)) : bool * eigensolution QcOF := (false, mkSol 0%Z [] [] []).
Definition ex_no_arpack (B : mat QcOF) (t : QcOF) (g : vec QcOF) (n : nat) : outcome (list QcOF * list (vec QcOF)) := Fuel.
Definition ex_draw (c : nat) : QcOF := if c =? 0 then q 2 1 else q 0 1.
Definition leaf (s : string) : ptree := Node s [].
Definition ex_lapack (A : mat QcOF) (C : list nat) (n_eig : nat) (es : list QcOF) (vs : list (vec QcOF)) : outcome (agg_result QcOF) :=
  compute_local_eigenvectors ex_parse_double ex_no_lobpcg qsqrt (fun _ _ => Fuel) (q 0 1) (fun _ _ => q 0 1) (@insertion_sort nat) (lapack_of es vs) ex_no_arpack false ex_draw
    (Node "" [("type"%string, leaf "lapack")]) n_eig (q 0 1) A C [5; 6; 7] [].
Example C36_lapack_example : exists r, ex_lapack exA [2] 2 [q 3 1; q 6 1] [[q 3 5; q 4 5; q 0 1]; [q 4 5; q (-3) 5; q 0 1]] = Ok r /\
  veqb (ag_evals r) [q 1 1; q 4 1] = true /\ eigenpair exA (nth 1 (ag_evals r) f0) (nth 1 (ag_evecs r) []) /\ vanishes [2] (nth 1 (ag_evecs r) []).
Proof.
  destruct (ok_with_ex (ex_lapack exA [2] 2 [q 3 1; q 6 1] [[q 3 5; q 4 5; q 0 1]; [q 4 5; q (-3) 5; q 0 1]]) (fun r => veqb (ag_evals r) [q 1 1; q 4 1])) as (r & E & P); [vm_compute; reflexivity|].
  exists r. split; [exact E|]. split; [exact P|]. unfold ex_lapack in E. eapply C36_lapack in E; [|apply lapack_of_ok|exact exA_sym|exact exA_dec|reflexivity]. destruct E as (_ & _ & _ & _ & H). apply H. lia.
Qed.
(** diag(300, 300): the eigenvalues of the shifted matrix are 600. *)
Example C65_example : ex_lapack (diag2 (q 300 1) (q 300 1)) [] 1 [] [] = UB /\ ex_lapack (diag2 (q 300 1) (q 300 1)) [0] 1 [] [] = UB.
Proof.
  split; (eapply C65_large_entries_refuted; [apply lapack_of_ok|apply diag2_sym|apply diag2_psd; apply fleb_le; vm_compute; reflexivity|apply diag2_dec|apply fltb_lt; vm_compute; reflexivity|lia|reflexivity|reflexivity]).
Qed.

(** Lanczos with the same matrix. *)
Definition ex_table : list (list QcOF * list QcOF * (list QcOF * list QcOF)) :=
  [([q 123 25], [], ([q 123 25], [q 1 1]));
   ([q 102 25], [], ([q 102 25], [q 1 1]));
   ([q 6 1], [], ([q 6 1], [q 1 1]));
   ([q 123 25; q 102 25], [q 36 25], ([q 3 1; q 6 1], [q 3 5; q (-4) 5; q 4 5; q 3 5]))].
Definition ex_lanczos (params : ptree) (n_eig : nat) : outcome (agg_result QcOF) :=
  compute_local_eigenvectors ex_parse_double ex_no_lobpcg qsqrt (dstev_of ex_table) (q 1 1000000) (fun _ _ => q 0 1) (@insertion_sort nat) (fun _ _ _ => Fuel) ex_no_arpack true ex_draw
    params n_eig (q 1 1000000) exA [2] [5; 6; 7] [].
Definition ex_params : ptree := Node "" [("type"%string, leaf "lanczos")].
Definition ex_params_deflated : ptree :=
  Node "" [("type"%string, leaf "lanczos"); ("is_deflated"%string, leaf "true"); ("num_cycles"%string, leaf "2"); ("num_eigenpairs_per_cycle"%string, leaf "1")].
Example C67_example : exists r, ex_lanczos ex_params 2 = Ok r /\ veqb (ag_evals r) [q 1 1; q 4 1] = true /\ orthonormal 3 (ag_evecs r) /\ vanishes [2] (nth 0 (ag_evecs r) []).
Proof.
  destruct (ok_with_ex (ex_lanczos ex_params 2) (fun r => veqb (ag_evals r) [q 1 1; q 4 1])) as (r & E & P); [vm_compute; reflexivity|].
  exists r. split; [exact E|]. split; [exact P|].
  unfold ex_lanczos in E. eapply (@C67_lanczos QcOF) with (c := 1) (m := 2) in E;
    [|exact qsqrt_ok|apply dstev_of_ok|apply fleb_le; vm_compute; reflexivity|apply insertion_sort_contract|exact exA_sym|exact exA_dec|reflexivity|split; reflexivity|vm_compute; lia|vm_compute; lia|lia|lia].
  destruct E as (_ & _ & O & _ & H). split; [exact O|]. apply H. lia.
Qed.
Example C67_deflated_example : exists r, ex_lanczos ex_params_deflated 2 = Ok r /\ veqb (ag_evals r) [q 1 1; q 4 1] = true /\ orthonormal 3 (ag_evecs r) /\ vanishes [2] (nth 1 (ag_evecs r) []).
Proof.
  destruct (ok_with_ex (ex_lanczos ex_params_deflated 2) (fun r => veqb (ag_evals r) [q 1 1; q 4 1])) as (r & E & P); [vm_compute; reflexivity|].
  exists r. split; [exact E|]. split; [exact P|].
  unfold ex_lanczos in E. eapply (@C67_lanczos QcOF) with (c := 2) (m := 1) in E;
    [|exact qsqrt_ok|apply dstev_of_ok|apply fleb_le; vm_compute; reflexivity|apply insertion_sort_contract|exact exA_sym|exact exA_dec|reflexivity|split; reflexivity|vm_compute; lia|vm_compute; lia|lia|lia].
  destruct E as (_ & _ & O & _ & H). split; [exact O|]. apply H. lia.
Qed.

(** Two values fit into two places, three do not. *)
Definition ex_sol (k : nat) : eigensolution QcOF := mkSol (Z.of_nat k) (firstn k [q 1 1; q 2 1; q 3 1]) (repeat 0%Z k) (firstn k [[q 1 1]; [q 2 1]; [q 3 1]]).
Example C53_example : anasazi_extract true 2 (ex_sol 2) = Ok ([q 1 1; q 2 1], [[q 1 1]; [q 2 1]]) /\ anasazi_extract true 2 (ex_sol 3) = UB.
Proof.
  split; [reflexivity|]. apply (@C53_extract_in_bounds QcOF true 2 (ex_sol 3)); simpl; try lia. intros _. split; auto. intros z [<-|[<-|[<-|[]]]]; auto.
Qed.

(** A solver that finds one of two vectors, and the checks off: two eigenvalues, one eigenvector; the second eigenvalue (minus the average) stands in the place
    of the first one of the next agglomerate. *)
Definition ex_short (op : vec QcOF -> vec QcOF) (n : Z) (t : QcOF) (g : list (vec QcOF)) : bool * eigensolution QcOF := (false, mkSol 1%Z [q 3 1] [0%Z] [[q 3 5; q 4 5; q 0 1]]).
Definition ex_anasazi (debug : bool) : outcome (agg_result QcOF) :=
  compute_local_eigenvectors ex_parse_double ex_short qsqrt (fun _ _ => Fuel) (q 0 1) (fun _ _ => q 0 1) (@insertion_sort nat) (fun _ _ _ => Fuel) ex_no_arpack debug ex_draw
    (Node "" [("type"%string, leaf "anasazi"); ("number of eigenvectors"%string, leaf "2"); ("tolerance"%string, leaf "0")]) 2 (q 0 1) exA [2] [5; 6; 7] [].
Theorem C66_short_solution_refuted : exists r, ex_anasazi false = Ok r /\ length (ag_evals r) = 2 /\ length (ag_evecs r) = 1 /\ eigenpair exA (nth 0 (ag_evals r) f0) (nth 0 (ag_evecs r) []) /\
  let d := fold_left (fun d r => copy_local_to_global r d) [r; r] (mkData [] [] [] [] []) in
  nth 1 (da_evecs d) [] = nth 0 (ag_evecs r) [] /\ ~ eigenpair exA (nth 1 (da_evals d) f0) (nth 1 (da_evecs d) []).
Proof.
  destruct (ok_with_ex (ex_anasazi false) (fun r => veqb (ag_evals r) [q 1 1; q (-2) 1] && (length (ag_evecs r) =? 1) && veqb (nth 0 (ag_evecs r) []) [q 3 5; q 4 5; q 0 1])) as (r & E & P); [vm_compute; reflexivity|].
  do 2 (apply andb_true_iff in P; destruct P as [P ?P]). apply Nat.eqb_eq in P1. apply veqb_eq in P, P0. exists r. split; [exact E|]. clear E. destruct r as [es vs dg mp]. cbn [ag_evals ag_evecs] in *. subst es.
  destruct vs as [|v [|]]; try discriminate. cbn [nth] in P0. subst v. split; [reflexivity|]. split; [reflexivity|]. split; [apply veqb_eq; vm_compute; reflexivity|]. split; [reflexivity|].
  intros C. apply (f_equal (fun u => veqb u (mulvec exA [q 3 5; q 4 5; q 0 1]))) in C. vm_compute in C. discriminate.
Qed.
Print Assumptions C66_short_solution_refuted.
(** With the checks on the run stops. *)
Example C66_example : ex_anasazi true = Abort.
Proof. vm_compute. reflexivity. Qed.
Example C66_aligned_example : exists r, ex_lanczos ex_params 2 = Ok r /\ length (ag_evals r) = 2 /\ length (ag_evecs r) = 2.
Proof.
  destruct (ok_with_ex (ex_lanczos ex_params 2) (fun r => true)) as (r & E & _); [vm_compute; reflexivity|]. exists r. split; [exact E|].
  unfold ex_lanczos in E. eapply C66_one_value_per_vector in E; [exact E|apply insertion_sort_contract|intros; discriminate|reflexivity|left; reflexivity].
Qed.
