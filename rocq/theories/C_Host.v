(** Property theorems about choices by name and the host configuration (C38, C56, C57). *)
From Coq Require Import String List Arith ZArith Bool Lia Field QArith Qcanon Ascii.
From Verif Require Import Base OField Mat LinAlg M_Ptree S_Ptree P_Ptree M_Hier S_Hier P_Hier P_HierV M_Smoother P_Smoother M_Host P_Host S_Host P_HostN.
Import ListNotations.
Set Implicit Arguments.
Open Scope list_scope.
Open Scope nat_scope.

(** C38: smoothers are chosen by the documented names, case ignored, and every other name throws. *)
Theorem C38_host_smoother : forall p,
  dispatches ci_eq host_smoothers (text_at p ["smoother"; "type"]%string "Symmetric Gauss-Seidel") (dealii_smoother_kind p).
Proof.
  intros p. unfold dealii_smoother_kind. rewrite get_string_text. set (s := text_at _ _ _).
  exact (chain_dispatches (fun a b => String.eqb (lower a) b) ci_eq host_smoothers s
    ltac:(intros n k [I|[I|[I|[I|[]]]]]; inversion I; subst; apply lower_eqb_ci; reflexivity)).
Qed.
Theorem C38_matrix_free_smoother : forall p,
  dispatches ci_eq matrix_free_smoothers (text_at p ["smoother"; "type"]%string "Chebyshev") (matrix_free_smoother_kind p).
Proof.
  intros p. unfold matrix_free_smoother_kind. rewrite get_string_text. set (s := text_at _ _ _).
  exact (chain_dispatches (fun a b => String.eqb (lower a) b) ci_eq matrix_free_smoothers s
    ltac:(intros n k [I|[]]; inversion I; subst; apply lower_eqb_ci; reflexivity)).
Qed.
Theorem C38_cuda_smoother : forall p,
  dispatches ci_eq cuda_smoothers (text_at p ["smoother"; "type"]%string "Jacobi") (cuda_smoother_kind p).
Proof.
  intros p. unfold cuda_smoother_kind. rewrite get_string_text. set (s := text_at _ _ _).
  exact (chain_dispatches (fun a b => String.eqb (lower a) b) ci_eq cuda_smoothers s
    ltac:(intros n k [I|[]]; inversion I; subst; apply lower_eqb_ci; reflexivity)).
Qed.

(** C38: coarse solvers on the host: "direct", "ml", everything else throws. *)
Theorem C38_host_solver : forall accepts_double p, let name := text_at p ["coarse"; "type"]%string "direct" in
  (ci_eq name "direct" /\ dealii_solver_kind accepts_double p = Ok KDirect) \/
  (ci_eq name "ml" /\ forall ml, dealii_solver_kind accepts_double p = Ok (KMl ml) <->
     match pt_find p ["coarse"; "params"]%string with
     | None => ml = MlDefaults
     | Some t => exists l, ptree2plist accepts_double t = Ok l /\ ml = MlUser l
     end) \/
  (~ ci_eq name "direct" /\ ~ ci_eq name "ml" /\ dealii_solver_kind accepts_double p = Throw).
Proof.
  intros ad p name. unfold dealii_solver_kind. rewrite get_string_text. fold name.
  destruct (String.eqb (lower name) "direct") eqn:E1; [left; split; auto; apply lower_eqb_ci; auto|].
  destruct (String.eqb (lower name) "ml") eqn:E2; right.
  - left. split; [apply lower_eqb_ci; auto|]. intros ml. destruct (pt_find p ["coarse"; "params"]%string) as [t|].
    + destruct (ptree2plist ad t) as [l| | | |]; simpl; (split; [intros E; try discriminate E; inversion E; eauto|intros (l' & X & ->); congruence]).
    + split; [intros E; inversion E; auto|intros ->; auto].
  - right. split; [intros Q; apply lower_eqb_ci in Q; auto; congruence|]. split; [intros Q; apply lower_eqb_ci in Q; auto; congruence|auto].
Qed.

(** C38: CUDA coarse solvers: the name is examined when the solver is applied, not when it is built. *)
Theorem C38_cuda_solver_at_apply : forall with_amgx p,
  dispatches ci_eq (cuda_solvers with_amgx) (text_at p ["solver"; "type"]%string "lu_dense") (snd (cuda_solver_kind with_amgx p)).
Proof.
  intros w p. unfold cuda_solver_kind. cbn [snd]. rewrite get_string_text. set (s := text_at _ _ _). destruct w; cbn [andb].
  - pose proof (chain_dispatches (fun a b => String.eqb (lower a) b) ci_eq
      [("amgx", KAmgx); ("cholesky", KCholesky); ("lu_dense", KLuDense); ("lu_sparse_host", KLuSparseHost)]%string s
      ltac:(intros n k [I|[I|[I|[I|[]]]]]; inversion I; subst; apply lower_eqb_ci; reflexivity)) as D.
    destruct D as [(n & k & I & Q)|(N & R)]; [left; exists n, k; split; auto; simpl in *; tauto|right; split; auto].
    intros n k I. apply (N n k). simpl in *. tauto.
  - exact (chain_dispatches (fun a b => String.eqb (lower a) b) ci_eq (cuda_solvers false) s
      ltac:(intros n k [I|[I|[I|[]]]]; inversion I; subst; apply lower_eqb_ci; reflexivity)).
Qed.
(** ... so that no unknown name is reported by the constructor. *)
Theorem C38_cuda_solver_constructor_refuted : forall with_amgx p,
  (forall n k, In (n, k) (cuda_solvers with_amgx) -> ~ ci_eq (text_at p ["solver"; "type"]%string "lu_dense") n) ->
  cuda_solver_kind with_amgx p = (Ok tt, Throw).
Proof.
  intros w p N. destruct (C38_cuda_solver_at_apply w p) as [(n & k & I & Q & _)|(_ & R)]; [exfalso; eapply N; eauto|].
  destruct (cuda_solver_kind w p) as [a b] eqn:E. cbn [snd] in R. subst b. f_equal. unfold cuda_solver_kind in E. inversion E.
  destruct w; auto. cbn [andb]. rewrite get_string_text. rewrite unknown_eqb; auto. apply (N _ KAmgx). simpl. tauto.
Qed.

(** C38: evaluators are chosen by exact name and dimension 2 or 3. *)
Theorem C38_evaluator : forall with_cuda name dim,
  ((dim = 2 \/ dim = 3)%Z /\ dispatches eq (evaluators with_cuda dim) name (create_hierarchy_helpers with_cuda name dim)) \/
  ((dim <> 2 /\ dim <> 3)%Z /\ create_hierarchy_helpers with_cuda name dim = Throw).
Proof.
  intros w name dim.
  assert (B : forall k, ((dim = 2 \/ dim = 3)%Z /\ by_dim dim k = Ok (k dim)) \/ ((dim <> 2 /\ dim <> 3)%Z /\ by_dim dim k = Throw)).
  { intros k. unfold by_dim. destruct (Z.eqb_spec dim 2); [subst; auto|]. destruct (Z.eqb_spec dim 3); [subst; auto|]. auto. }
  assert (G : (dim = 2 \/ dim = 3)%Z -> dispatches eq (evaluators w dim) name (create_hierarchy_helpers w name dim)).
  { intros D. assert (B' : forall k, by_dim dim k = Ok (k dim)) by (intros k; destruct (B k) as [(_ & X)|((X & Y) & _)]; auto; exfalso; destruct D; contradiction).
    pose proof (chain_dispatches String.eqb eq (evaluators w dim) name ltac:(intros; apply String.eqb_eq)) as C.
    unfold create_hierarchy_helpers. rewrite !B'. destruct w; exact C. }
  destruct (Z.eq_dec dim 2) as [D|D]; [left; auto|]. destruct (Z.eq_dec dim 3) as [D'|D']; [left; auto|].
  right. split; auto. unfold create_hierarchy_helpers.
  assert (B' : forall k, by_dim dim k = Throw) by (intros k; destruct (B k) as [([X|X] & _)|(_ & X)]; auto; contradiction).
  rewrite !B'. destruct (String.eqb name _); auto. destruct (String.eqb name _); auto. destruct (w && _); auto.
Qed.

(** C38: the matrix-based eigensolver is chosen by exact name. *)
Theorem C38_eigensolver_known : forall debug eig n k, In (n, k) eigensolvers -> text_at eig ["type"%string] "arpack" = n -> eigensolver_matrix debug eig = Ok k.
Proof.
  intros debug eig n k I E. unfold eigensolver_matrix. rewrite get_string_text, E.
  destruct I as [I|[I|[I|[I|[]]]]]; inversion I; subst; reflexivity.
Qed.
(** C38 is false for eigensolvers in release builds: with an unknown name no solver runs and no exception is thrown. *)
Theorem C38_eigensolver_unknown_refuted : forall eig, (forall n k, In (n, k) eigensolvers -> text_at eig ["type"%string] "arpack" <> n) ->
  eigensolver_matrix false eig = Ok ESkipped /\ eigensolver_matrix true eig = Abort.
Proof.
  intros eig N. unfold eigensolver_matrix. rewrite get_string_text. set (s := text_at _ _ _) in *.
  assert (F : forall n k, In (n, k) eigensolvers -> String.eqb s n = false) by (intros n k I; apply String.eqb_neq; eauto).
  rewrite (F "arpack"%string EArpack), (F "lanczos"%string ELanczos), (F "anasazi"%string EAnasazi), (F "lapack"%string ELapack) by (simpl; tauto). auto.
Qed.

(** C38: matrix-free evaluators: Lanczos (also without a name) and Anasazi run, ARPACK and LAPACK are rejected, any other name is skipped in
    release builds and aborts in debug builds. *)
Theorem C38_eigensolver_matrix_free : forall debug eig, let name := text_at eig ["type"%string] "lanczos" in
  (name = "lanczos"%string /\ eigensolver_matrix_free debug eig = Ok ELanczos) \/
  (name = "anasazi"%string /\ eigensolver_matrix_free debug eig = Ok EAnasazi) \/
  ((name = "arpack"%string \/ name = "lapack"%string) /\ eigensolver_matrix_free debug eig = Throw) \/
  ((forall n k, In (n, k) eigensolvers -> name <> n) /\ eigensolver_matrix_free debug eig = if debug then Abort else Ok ESkipped).
Proof.
  intros debug eig name. unfold eigensolver_matrix_free. rewrite get_string_text. fold name.
  destruct (String.eqb_spec name "lanczos") as [Q|N1]; [left; auto|right].
  destruct (String.eqb_spec name "anasazi") as [Q|N2]; [left; auto|right].
  destruct (String.eqb_spec name "arpack") as [Q|N3]; [left; auto|].
  destruct (String.eqb_spec name "lapack") as [Q|N4]; [left; auto|right].
  split; [|destruct debug; reflexivity]. intros n k [I|[I|[I|[I|[]]]]]; inversion I; subst; auto.
Qed.
Print Assumptions C38_eigensolver_matrix_free.
Example C38_eigensolver_matrix_free_example :
  eigensolver_matrix_free true (Node "" [("type"%string, Node "arpack" [])]) = Throw /\
  eigensolver_matrix_free true (Node "" []) = Ok ELanczos /\ eigensolver_matrix_free false (Node "" [("type"%string, Node "Lanczos" [])]) = Ok ESkipped.
Proof. repeat split. Qed.

(** C38: partitioners, case ignored; missing or unknown name throws, and so do missing numbers. *)
Theorem C38_partitioner : forall parse_unsigned three_d t k, partitioner_choice parse_unsigned three_d t = Ok k ->
  exists c, pt_find t ["partitioner"%string] = Some c /\
    let num (key : string) (v : Z) := exists c, pt_find t [key] = Some c /\ parse_unsigned (pt_data c) = Some v in
    ((ci_eq (pt_data c) "zoltan" /\ exists n, k = PZoltan n /\ num "n_agglomerates"%string n) \/
     (ci_eq (pt_data c) "metis" /\ exists n, k = PMetis n /\ num "n_agglomerates"%string n) \/
     (ci_eq (pt_data c) "block" /\ exists nx ny, num "nx"%string nx /\ num "ny"%string ny /\
        if three_d then exists nz, num "nz"%string nz /\ k = PBlock [nx; ny; nz] else k = PBlock [nx; ny])).
Proof.
  intros pu d3 t k E. unfold partitioner_choice, bind in E. unfold pt_require at 1 in E. destruct (pt_find t ["partitioner"%string]) as [c|]; [|discriminate E].
  exists c. split; auto. intros num.
  assert (R : forall key v, pt_require pu [key] t = Ok v -> num key v).
  { intros key v Q. unfold pt_require in Q. unfold num. destruct (pt_find t [key]) as [c'|]; [|discriminate]. destruct (pu (pt_data c')) eqn:P; [|discriminate]. inversion Q; subst. eauto. }
  assert (T : forall key, (exists v, pt_require pu [key] t = Ok v) \/ pt_require pu [key] t = Throw).
  { intros key. unfold pt_require. destruct (pt_find t [key]) as [c'|]; auto. destruct (pu (pt_data c')); eauto. }
  destruct (String.eqb (lower (pt_data c)) "zoltan") eqn:E1; cbn [orb] in E.
  - destruct (T "n_agglomerates"%string) as [(v & Q)|Q]; rewrite Q in E; inversion E. left. split; [apply lower_eqb_ci; auto|eauto].
  - destruct (String.eqb (lower (pt_data c)) "metis") eqn:E2.
    + destruct (T "n_agglomerates"%string) as [(v & Q)|Q]; rewrite Q in E; inversion E. right. left. split; [apply lower_eqb_ci; auto|eauto].
    + destruct (String.eqb (lower (pt_data c)) "block") eqn:E3; [|discriminate]. right. right. split; [apply lower_eqb_ci; auto|].
      destruct (T "nx"%string) as [(nx & Q1)|Q]; [rewrite Q1 in E|rewrite Q in E; discriminate].
      destruct (T "ny"%string) as [(ny & Q2)|Q]; [rewrite Q2 in E|rewrite Q in E; discriminate].
      exists nx, ny. split; auto. split; auto. destruct d3; [|inversion E; auto].
      destruct (T "nz"%string) as [(nz & Q3)|Q]; [rewrite Q3 in E|rewrite Q in E; discriminate]. inversion E. eauto.
Qed.

Definition type_tree (section name : string) : ptree := Node "" [(section, Node "" [("type"%string, Node name [])])].
Example C38_example :
  dealii_smoother_kind (type_tree "smoother" "GAUSS-Seidel") = Ok KSor /\ dealii_smoother_kind (type_tree "smoother" "gauss seidel") = Throw /\
  dealii_smoother_kind (Node "" []) = Ok KSsor /\ matrix_free_smoother_kind (type_tree "smoother" "Jacobi") = Throw /\
  cuda_solver_kind true (type_tree "solver" "Cholesky") = (Ok tt, Ok KCholesky) /\ cuda_solver_kind true (type_tree "solver" "qr") = (Ok tt, Throw) /\
  create_hierarchy_helpers false "DealIIMeshEvaluator" 3 = Ok (HostHelpers 3) /\ create_hierarchy_helpers false "DealIIMeshEvaluator" 4 = Throw /\
  eigensolver_matrix false (Node "" [("type"%string, Node "Lanczos" [])]) = Ok ESkipped /\
  ci_eq "GAUSS-Seidel" "gauss-seidel".
Proof. repeat (split; [vm_compute; reflexivity|]). apply lower_ci; [apply no_upperb_ok; reflexivity|reflexivity]. Qed.
Example C38_partitioner_example :
  partitioner_choice (fun s => parse_int s) false (Node "" [("partitioner"%string, Node "Block" []); ("nx"%string, Node "2" []); ("ny"%string, Node "4" [])]) = Ok (PBlock [2; 4]%Z).
Proof. vm_compute. reflexivity. Qed.

(** C56: the coarse solver "ml" gets its smoothed aggregation defaults exactly when the tree has no "coarse.params"; a tree given there
    replaces them. A hierarchy of one level always has that subtree, so that its ML never sees the defaults. *)
Theorem C56_ml_single_level_loses_defaults : forall accepts_double p, c_levels p = 1%Z ->
  dealii_solver_kind accepts_double (c_params p) <> Ok (KMl MlDefaults) /\
  (ci_eq (text_at p ["coarse"; "type"]%string "direct") "ml" -> pt_find p ["coarse"; "params"]%string = None ->
   accepts_double (print_bool (c_prec p)) = false ->
   dealii_solver_kind accepts_double (c_params p) = Ok (KMl (MlUser (PList [PParam "zero starting solution" TBool (print_bool (c_prec p))])))).
Proof.
  intros ad p L. unfold c_params. rewrite L. cbn [Z.eqb Pos.eqb].
  assert (F : exists c, pt_find (pt_put key_zero_start (print_bool (c_prec p)) p) ["coarse"; "params"]%string = Some c).
  { destruct (find_put_above ["coarse"; "params"]%string "zero starting solution" [] (print_bool (c_prec p)) p) as (c & G & _). eauto. }
  split.
  - destruct F as (c & F). unfold dealii_solver_kind. rewrite F. destruct (String.eqb _ "direct"); [discriminate|].
    destruct (String.eqb _ "ml"); [|discriminate]. destruct (ptree2plist ad c); discriminate.
  - intros T N A. destruct (@C38_host_solver ad (pt_put key_zero_start (print_bool (c_prec p)) p)) as [(Q & _)|[(_ & G)|(_ & Q & _)]].
    + exfalso. unfold text_at in Q, T. rewrite find_put_other in Q by (intros (r & X); unfold key_zero_start in X; simpl in X; congruence).
      apply lower_ci in Q; [|apply no_upperb_ok; reflexivity]. apply lower_ci in T; [|apply no_upperb_ok; reflexivity]. congruence.
    + apply G. destruct F as (c & F). rewrite F.
      assert (C : c = Node "" [("zero starting solution"%string, Node (print_bool (c_prec p)) [])]).
      { clear G. revert F. change key_zero_start with (app ["coarse"%string; "params"%string] ["zero starting solution"%string]). rewrite find_put_new by exact N. congruence. }
      subst c. eexists. split; [|reflexivity]. rewrite ptree2plist_items.
      * f_equal. destruct (c_prec p); cbv [print_bool] in A |- *; unfold items; cbn [pt_children map flat_map app infer_type]; unfold infer_type; rewrite A; reflexivity.
      * constructor. intros name c0 [I|[]]. inversion I; subst. split; [apply plainb_plain; reflexivity|].
        split; [intros _; apply plainb_plain; destruct (c_prec p); reflexivity|constructor; intros ? ? []].
    + exfalso. apply Q. unfold text_at in *. rewrite find_put_other by (intros (r & X); unfold key_zero_start in X; simpl in X; congruence). exact T.
Qed.
Example C56_example : dealii_solver_kind (fun _ => false)
  (c_params (Node "" [("max levels"%string, Node "1" []); ("coarse"%string, Node "" [("type"%string, Node "ML" [])])])) =
  Ok (KMl (MlUser (PList [PParam "zero starting solution" TBool "true"]))) /\
  dealii_solver_kind (fun _ => false)
  (c_params (Node "" [("max levels"%string, Node "2" []); ("coarse"%string, Node "" [("type"%string, Node "ML" [])])])) = Ok (KMl MlDefaults).
Proof. split; vm_compute; reflexivity. Qed.

(** C57: with the default smoother and the default coarse solver, for an SPD matrix and a restriction of full row rank, one or two levels:
    construction succeeds, and every vmult, with any timer, applies one fixed symmetric positive definite operator that reduces every error. *)
Theorem C57_default_host_configuration : forall (K : ofield) accepts_double (A : mat K) mk ilu ml eps te0 dbg p,
  nr A = nc A -> spd (nc A) (mulvec A) -> c_prec p = true -> (0 < c_steps p)%nat ->
  ci_eq (text_at p ["coarse"; "type"]%string "direct") "direct" ->
  (c_levels p = 1%Z \/
   c_levels p = 2%Z /\ ci_eq (text_at p ["smoother"; "type"]%string "Symmetric Gauss-Seidel") "symmetric gauss-seidel" /\
     pt_find p ["eigensolver"%string] <> None /\ pt_find p ["agglomeration"%string] <> None /\
     exists R AP, mk p = Ok (R, AP) /\ nc R = nc A /\ full_row_rank R /\
       (pt_get parse_bool ["fast_ap"%string] false p = true -> meq AP (mmul A (mtrans R)))) ->
  exists h s l, construct (host_helpers accepts_double A mk ilu ml) eps te0 dbg (Ok tt) (Some p) None = (Ok h, s, l) /\
    exists Mv : vec K -> vec K, linear (nc A) (nc A) Mv /\ self_adjoint (nc A) Mv /\
      (forall b, length b = nc A -> b <> vzero (nc A) -> flt 0%K (dot (Mv b) b)) /\
      (forall e, length e = nc A -> e <> vzero (nc A) -> flt (energy (mulvec A) (vsub e (Mv (mulvec A e)))) (energy (mulvec A) e)) /\
      forall te x b l, open_sections l = [] -> length x = nc A -> length b = nc A ->
        exists l', hierarchy_vmult te h x b l = (Ok (Mv b), l') /\ open_sections l' = [].
Proof.
  intros K ad A mk ilu ml eps te0 dbg p D S P ST CD HL. apply host_end_to_end; auto.
  - destruct (C38_host_solver ad p) as [(_ & E)|[(Q & _)|(Q & _)]]; auto; [|contradiction].
    exfalso. apply lower_ci in Q; [|apply no_upperb_ok; reflexivity]. apply lower_ci in CD; [|apply no_upperb_ok; reflexivity]. congruence.
  - destruct HL as [HL|(HL & SM & E1 & E2 & R & AP & E3 & E4 & E5 & E6)]; [left; auto|right]. split; auto. split.
    + unfold dealii_smoother_kind. rewrite get_string_text. apply lower_ci in SM; [|apply no_upperb_ok; reflexivity]. rewrite SM. reflexivity.
    + do 2 (split; [auto|]). exists R, AP. auto.
Qed.

(** Ordinary example: two unknowns, aggregated to one, all other parameters at their defaults. *)
Section Example57.
  Variable K : ofield.
  Add Field KfieldX57 : (f_field K).
  Local Open Scope K_scope.
  Definition hA : mat K := of_rows 2 2 [[1+1; -(1)]; [-(1); 1+1]].
  Definition hR : mat K := of_rows 1 2 [[1; 1]].
  Lemma hA_spd : spd 2 (mulvec hA).
  Proof.
    split.
    - intros x y Hx Hy. destruct x as [|x0 [|x1 [|]]]; try discriminate. destruct y as [|y0 [|y1 [|]]]; try discriminate.
      unfold mulvec, dot, hA, of_rows. cbn. ring.
    - intros x Hx Nx. destruct x as [|x0 [|x1 [|]]]; try discriminate.
      replace (energy (mulvec hA) [x0; x1]) with (x0 * x0 + ((x0 - x1) * (x0 - x1) + x1 * x1)) by (unfold energy, mulvec, dot, hA, of_rows; cbn; ring).
      assert (N : forall a : K, 0 <= a * a) by apply fsquare_nonneg.
      apply fle_neq_lt; [repeat apply fadd_nonneg; auto|]. intros E. symmetry in E.
      apply fadd_nonneg_eq_0 in E; [destruct E as (E0 & E)|auto|repeat apply fadd_nonneg; auto].
      apply fadd_nonneg_eq_0 in E; [destruct E as (E1 & E2)|auto|auto]. apply fsquare_0 in E0, E2. apply Nx. subst. reflexivity.
  Qed.
  Lemma hR_rank : full_row_rank hR.
  Proof.
    intros x Hx. destruct x as [|x0 [|]]; try discriminate. unfold mulTvec, mulvec, hR, of_rows. cbn. intros E. injection E. intros E1 E0.
    f_equal. transitivity (0 + 1 * x0); [ring|exact E0].
  Qed.
End Example57.
Example C57_example : exists h s l,
  construct (host_helpers (fun _ => false) (hA QcOF) (fun _ => Ok (hR QcOF, hA QcOF)) (fun _ r => r) (fun _ _ r => r)) 0%K (mkTenv true true) true (Ok tt)
    (Some (Node "" [("eigensolver"%string, Node "" []); ("agglomeration"%string, Node "" [])])) None = (Ok h, s, l) /\
  exists Mv, self_adjoint 2 Mv /\ forall x b, length x = 2 -> length b = 2 -> exists l', hierarchy_vmult (mkTenv true true) h x b [] = (Ok (Mv b), l').
Proof.
  destruct (@C57_default_host_configuration QcOF (fun _ => false) (hA QcOF) (fun _ => Ok (hR QcOF, hA QcOF)) (fun _ r => r) (fun _ _ r => r) 0%K (mkTenv true true) true
    (Node "" [("eigensolver"%string, Node "" []); ("agglomeration"%string, Node "" [])])) as (h & s & l & E & Mv & L & SA & _ & _ & V); auto.
  - apply hA_spd.
  - apply lower_ci; [apply no_upperb_ok; reflexivity|reflexivity].
  - right. split; [reflexivity|]. split; [apply lower_ci; [apply no_upperb_ok; reflexivity|reflexivity]|]. split; [discriminate|]. split; [discriminate|].
    eexists _, _. split; [reflexivity|]. split; [reflexivity|]. split; [apply hR_rank|]. intros X. vm_compute in X. discriminate X.
  - exists h, s, l. split; auto. exists Mv. split; auto. intros x b Hx Hb. destruct (V (mkTenv true true) x b [] eq_refl Hx Hb) as (l' & V' & _). eauto.
Qed.

Print Assumptions C38_host_smoother.
Print Assumptions C38_matrix_free_smoother.
Print Assumptions C38_cuda_smoother.
Print Assumptions C38_host_solver.
Print Assumptions C38_cuda_solver_at_apply.
Print Assumptions C38_cuda_solver_constructor_refuted.
Print Assumptions C38_evaluator.
Print Assumptions C38_eigensolver_known.
Print Assumptions C38_eigensolver_unknown_refuted.
Print Assumptions C38_partitioner.
Print Assumptions C56_ml_single_level_loses_defaults.
Print Assumptions C57_default_host_configuration.
