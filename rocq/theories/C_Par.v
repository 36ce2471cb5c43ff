(** Property theorems about the smoothers on several MPI ranks: C89. *)
From Coq Require Import String List Arith ZArith Bool Lia Field Permutation QArith Qcanon.
From Verif Require Import Base OField Mat LinAlg M_Ptree S_Ptree P_Ptree M_Hier S_Hier P_Hier P_HierE P_HierS M_Smoother P_Smoother P_Cheby P_Hier2 M_Host S_Host P_Host P_HostN M_Par S_Par P_Par P_Par2 P_Par3
  E_Solve E_CudaHier P_CudaHier3 C_Host C_Hier C_CudaHier E_Lanczos.
Import ListNotations.
Set Implicit Arguments.
Open Scope list_scope.
Open Scope nat_scope.

Section Par.
  Variable K : ofield.
  Add Field KfieldPar : (f_field K).
  Local Open Scope K_scope.
  Notation vec := (vec K).

  (** C89: on one process the smoother is the serial one. *)
  Theorem C89_one_process : forall (A : mat K) r, nr A = nc A -> length r = nc A -> par_ssor_vmult [seq 0 (nc A)] A r = ssor_vmult A r.
  Proof. apply one_rank. Qed.

  (** C89: for every distribution of the rows the symmetric Gauss-Seidel preconditioner of an SPD matrix is linear, symmetric and positive. *)
  Theorem C89_symmetric_positive : forall owned (A : mat K), nr A = nc A -> distribution (nc A) owned -> spd (nc A) (mulvec A) ->
    linear (nc A) (nc A) (par_ssor_vmult owned A) /\ self_adjoint (nc A) (par_ssor_vmult owned A) /\
    forall r, length r = nc A -> r <> vzero (nc A) -> 0 < dot (par_ssor_vmult owned A r) r.
  Proof. intros owned A D HD S. split; [apply par_linear; auto|]. split; [apply par_sym; auto|apply par_positive; auto]. Qed.

  (** C89: Jacobi does not depend on the distribution. *)
  Theorem C89_jacobi_same : forall owned (A : mat K) r, distribution (nc A) owned -> length r = nc A -> par_jacobi_vmult owned A r = jacobi_vmult A r.
  Proof.
    intros owned A r HD Hr.
    destruct (@on_ranks_spec K (nc A) owned HD (@jacobi_vmult K) A r eq_refl Hr) as (L & G).
    { intros own I. unfold jacobi_vmult. rewrite map_length, seq_length. reflexivity. }
    assert (LJ : length (jacobi_vmult A r) = nc A) by (unfold jacobi_vmult; rewrite map_length, seq_length; reflexivity).
    apply (ranks_ext HD); [exact L|exact LJ|]. intros own I. unfold par_jacobi_vmult. rewrite G by auto.
    apply vec_ext; [unfold jacobi_vmult; rewrite map_length, seq_length, gather_length; reflexivity|]. intros i Hi. unfold jacobi_vmult in Hi. rewrite map_length, seq_length in Hi. cbn [nc local_block] in Hi.
    rewrite gather_nth by auto. unfold jacobi_vmult. rewrite !nth_map_seq; [|apply (owned_lt HD own); auto; apply nth_In; auto|exact Hi].
    rewrite gather_nth by auto. reflexivity.
  Qed.

  Lemma condition : forall owned (A : mat K), nr A = nc A -> distribution (nc A) owned -> spd (nc A) (mulvec A) ->
    (length owned <= 2)%nat \/ two_colours owned A \/ anchored_dominant A -> twice_blocks A owned.
  Proof. intros owned A D HD S [L|[C|C]]; [apply coloured; auto; apply few_ranks; auto|apply coloured; auto|apply anchored_twice; auto]. Qed.

  (** C89: a smoothing step reduces every error if there are at most two processes, or the processes can be given two colours such that processes of
      one colour are not coupled, or the matrix is diagonally dominant and every unknown is linked to a strictly dominant row. *)
  Theorem C89_smoother : forall owned (A : mat K), nr A = nc A -> distribution (nc A) owned -> spd (nc A) (mulvec A) ->
    (length owned <= 2)%nat \/ two_colours owned A \/ anchored_dominant A ->
    good_smoother (nc A) (mulvec A) (correction_step (mulvec A) (par_ssor_vmult owned A)) /\
    forall e, length e = nc A -> e <> vzero (nc A) -> energy (mulvec A) (error_step (mulvec A) (par_ssor_vmult owned A) e) < energy (mulvec A) e.
  Proof.
    intros owned A D HD S C. pose proof (@condition owned A D HD S C) as T. pose proof (par_good D HD S T) as G. split; auto.
    intros e He Ne. assert (HL : linear (nc A) (nc A) (mulvec A)) by (pose proof (mulvec_linear A) as X; rewrite D in X; exact X).
    pose proof (par_linear A HD) as LP. pose proof (lin_len HL e He) as LA. pose proof (lin_len LP _ LA) as LB.
    assert (NA : mulvec A e <> vzero (nc A)).
    { intros Z. pose proof (proj2 S e He Ne) as P. unfold energy in P. rewrite Z, dot_zero_l in P. exact (flt_irrefl P). }
    assert (R : energy (mulvec A) (par_ssor_vmult owned A (mulvec A e)) < (1 + 1) * dot (par_ssor_vmult owned A (mulvec A e)) (mulvec A e)).
    { pose proof (par_positive D HD S LA NA) as P. eapply flt_le_trans; [apply T; auto|].
      - intros Z. rewrite Z, dot_zero_l in P. exact (flt_irrefl P).
      - apply fle_mul_l; [apply flt_le; apply two_pos|]. apply par_below; auto. }
    unfold error_step. rewrite vsub_as_add by congruence. rewrite (energy_add HL (proj1 S)) by (auto; vlen). unfold energy at 2. rewrite (lin_scale HL) by auto.
    rewrite !dot_scale_l, !dot_scale_r. fold (energy (mulvec A) (par_ssor_vmult owned A (mulvec A e))). apply (@flt_sub_0 K).
    rewrite (dot_comm (mulvec A e)). apply -> (@flt_sub_0 K) in R.
    match goal with |- 0 < ?g => match type of R with 0 < ?f => replace g with f by (unfold energy; ring) end end. auto.
  Qed.
  (** C89: with diagonal dominance alone no smoothing step makes an error larger, on any number of processes. *)
  Theorem C89_dominant : forall owned (A : mat K), nr A = nc A -> distribution (nc A) owned -> spd (nc A) (mulvec A) -> dominant A ->
    forall e, length e = nc A -> energy (mulvec A) (error_step (mulvec A) (par_ssor_vmult owned A) e) <= energy (mulvec A) e.
  Proof. intros owned A D HD S C. apply dominant_stable; auto. Qed.

  (** C89: the default host configuration on several processes, one or two levels, under the same condition on the fine matrix. *)
  Theorem C89_hierarchy : forall accepts_double owned_rows (A : mat K) mk ilu ml eps te0 dbg p,
    (forall M : mat K, nr M = nc M -> distribution (nc M) (owned_rows M)) ->
    nr A = nc A -> spd (nc A) (mulvec A) -> c_prec p = true -> (0 < c_steps p)%nat ->
    ci_eq (text_at p ["coarse"; "type"]%string "direct") "direct" ->
    (c_levels p = 1%Z \/
     c_levels p = 2%Z /\ ci_eq (text_at p ["smoother"; "type"]%string "Symmetric Gauss-Seidel") "symmetric gauss-seidel" /\
       ((length (owned_rows A) <= 2)%nat \/ two_colours (owned_rows A) A \/ anchored_dominant A) /\
       pt_find p ["eigensolver"%string] <> None /\ pt_find p ["agglomeration"%string] <> None /\
       exists R AP, mk p = Ok (R, AP) /\ nc R = nc A /\ full_row_rank R /\
         (pt_get parse_bool ["fast_ap"%string] false p = true -> meq AP (mmul A (mtrans R)))) ->
    exists h s l, construct (par_helpers accepts_double owned_rows A mk ilu ml) eps te0 dbg (Ok tt) (Some p) None = (Ok h, s, l) /\
      exists Mv : vec -> vec, linear (nc A) (nc A) Mv /\ self_adjoint (nc A) Mv /\
        (forall b, length b = nc A -> b <> vzero (nc A) -> 0 < dot (Mv b) b) /\
        (forall e, length e = nc A -> e <> vzero (nc A) -> energy (mulvec A) (vsub e (Mv (mulvec A e))) < energy (mulvec A) e) /\
        forall te x b l, open_sections l = [] -> length x = nc A -> length b = nc A ->
          exists l', hierarchy_vmult te h x b l = (Ok (Mv b), l') /\ open_sections l' = [].
  Proof.
    intros ad ow A mk ilu ml eps te0 dbg p HO D S P ST CD HL. apply par_end_to_end; auto.
    - destruct (C38_host_solver ad p) as [(_ & E)|[(Q & _)|(Q & _)]]; auto; [|contradiction].
      exfalso. apply lower_ci in Q; [|apply no_upperb_ok; reflexivity]. apply lower_ci in CD; [|apply no_upperb_ok; reflexivity]. congruence.
    - destruct HL as [HL|(HL & SM & C & E1 & E2 & R & AP & E3 & E4 & E5 & E6)]; [left; auto|right]. split; auto. split.
      + unfold dealii_smoother_kind. rewrite get_string_text. apply lower_ci in SM; [|apply no_upperb_ok; reflexivity]. rewrite SM. reflexivity.
      + split; [apply condition; auto|]. do 2 (split; [auto|]). exists R, AP. auto.
  Qed.
  (** C89: on at most two processes, any number of levels. *)
  Theorem C89_two_processes : forall accepts_double owned_rows (A : mat K) mk ilu ml eps te0 dbg p h s l,
    (forall M : mat K, nr M = nc M -> distribution (nc M) (owned_rows M) /\ (length (owned_rows M) <= 2)%nat) ->
    construct (par_helpers accepts_double owned_rows A mk ilu ml) eps te0 dbg (Ok tt) (Some p) None = (Ok h, s, l) ->
    nr A = nc A -> spd (nc A) (mulvec A) -> c_prec p = true -> (0 < c_steps p)%nat -> pt_get parse_bool ["fast_ap"%string] false (c_params p) = false ->
    dealii_smoother_kind (c_params p) = Ok KSsor -> dealii_solver_kind accepts_double (c_params p) = Ok KDirect ->
    (forall R AP, mk (c_params p) = Ok (R, AP) -> full_row_rank R) ->
    exists Mv : vec -> vec, linear (nc A) (nc A) Mv /\ self_adjoint (nc A) Mv /\
      (forall b, length b = nc A -> b <> vzero (nc A) -> 0 < dot (Mv b) b) /\
      (forall e, length e = nc A -> e <> vzero (nc A) -> energy (mulvec A) (vsub e (Mv (mulvec A e))) < energy (mulvec A) e) /\
      forall te x b l, usable te (length (h_levels h)) -> open_sections l = [] -> length x = nc A -> length b = nc A ->
        exists l', hierarchy_vmult te h x b l = (Ok (Mv b), l') /\ open_sections l' = [].
  Proof.
    intros ad ow A mk ilu ml eps te0 dbg p h s l HO E D S P ST FA SM CD FR.
    eapply C57_spd_preconditioner; [exact E|auto|auto|auto|]. apply par_spd; auto.
    - intros M DM. apply (HO M DM).
    - intros M DM SMat. destruct (HO M DM) as (H1 & H2). apply condition; auto.
  Qed.
End Par.
Print Assumptions C89_one_process.
Print Assumptions C89_symmetric_positive.
Print Assumptions C89_jacobi_same.
Print Assumptions C89_smoother.
Print Assumptions C89_dominant.
Print Assumptions C89_hierarchy.
Print Assumptions C89_two_processes.

(** ** Examples *)
Unset Implicit Arguments.
(** A rational number. *)
Definition q (a : Z) (b : positive) : QcOF := Q2Qc (Qmake a b).
(** Six unknowns in a row on three processes: two colours. *)
Definition owned3 : list (list nat) := [[0; 1]; [2; 3]; [4; 5]].
Lemma owned3_ok : distribution 6 owned3.
Proof. apply Permutation_refl. Qed.
Definition line6 : mat QcOF := mkMat 6 6 (fun i j => if i =? j then q 2 1 else if (S i =? j) || (S j =? i) then q (-1) 1 else q 0 1).
Lemma line6_spd : spd 6 (mulvec line6).
Proof.
  apply (@entries_spd QcOF line6). apply posdef_spd; [apply small_symmetric; [reflexivity|vm_compute; reflexivity]|vm_compute; reflexivity].
Qed.
Lemma line6_colours : two_colours owned3 line6.
Proof.
  exists (fun i => ((i =? 2) || (i =? 3))%bool). split.
  - intros i j (own & I & I1 & I2). cbn [owned3 In] in I. destruct I as [<-|[<-|[<-|[]]]]; cbn [In] in I1, I2;
      destruct I1 as [<-|[<-|[]]], I2 as [<-|[<-|[]]]; reflexivity.
  - intros i j Hi Hj N NS E. cbn [nc line6] in Hi, Hj. cbn [ent line6] in N.
    destruct (i =? j) eqn:E1. { apply Nat.eqb_eq in E1. subst j. apply NS. do 6 (destruct i as [|i]; [unfold same_rank, owned3; cbn [In]; first [exists [0; 1]; cbn [In]; tauto|exists [2; 3]; cbn [In]; tauto|exists [4; 5]; cbn [In]; tauto]|]); lia. }
    destruct ((S i =? j) || (S j =? i))%bool eqn:E2; [|exfalso; apply N; apply Qc_is_canon; reflexivity].
    assert (C : j = S i \/ i = S j) by (apply orb_true_iff in E2; destruct E2 as [E2|E2]; apply Nat.eqb_eq in E2; auto).
    destruct C as [-> | ->].
    + do 5 (destruct i as [|i]; [first [discriminate E|apply NS; unfold same_rank, owned3; cbn [In]; first [exists [0; 1]; cbn [In]; tauto|exists [2; 3]; cbn [In]; tauto|exists [4; 5]; cbn [In]; tauto]]|]); lia.
    + do 5 (destruct j as [|j]; [first [discriminate E|apply NS; unfold same_rank, owned3; cbn [In]; first [exists [0; 1]; cbn [In]; tauto|exists [2; 3]; cbn [In]; tauto|exists [4; 5]; cbn [In]; tauto]]|]); lia.
Qed.
Example C89_smoother_example : good_smoother 6 (mulvec line6) (correction_step (mulvec line6) (par_ssor_vmult owned3 line6)).
Proof. apply (@C89_smoother QcOF owned3 line6 eq_refl owned3_ok line6_spd). right. left. exact line6_colours. Qed.
(** It is not the serial smoother. *)
Example C89_distribution_matters : par_ssor_vmult owned3 line6 [q 1 1; q 1 1; q 1 1; q 1 1; q 1 1; q 1 1] <> ssor_vmult line6 [q 1 1; q 1 1; q 1 1; q 1 1; q 1 1; q 1 1].
Proof.
  intros E. assert (Q : veqb (par_ssor_vmult owned3 line6 [q 1 1; q 1 1; q 1 1; q 1 1; q 1 1; q 1 1]) (ssor_vmult line6 [q 1 1; q 1 1; q 1 1; q 1 1; q 1 1; q 1 1]) = false) by (vm_compute; reflexivity).
  rewrite E in Q. vm_compute in Q. discriminate Q.
Qed.
(** Three unknowns on three processes, all coupled: dominance. *)
Definition tri3 : mat QcOF := of_rows 3 3 [[q 3 1; q (-1) 1; q (-1) 1]; [q (-1) 1; q 2 1; q (-1) 1]; [q (-1) 1; q (-1) 1; q 2 1]].
Lemma tri3_spd : spd 3 (mulvec tri3).
Proof. apply (@entries_spd QcOF tri3). apply posdef_spd; [apply small_symmetric; [reflexivity|vm_compute; reflexivity]|vm_compute; reflexivity]. Qed.
Lemma tri3_dominant : anchored_dominant tri3.
Proof.
  assert (A0 : anchored tri3 0) by (apply anchor; [cbn; lia|apply fltb_lt; vm_compute; reflexivity]).
  split.
  - intros i Hi. cbn in Hi. do 3 (destruct i as [|i]; [apply fleb_le; vm_compute; reflexivity|]). lia.
  - intros i Hi. cbn in Hi. destruct i as [|[|[|i]]]; [exact A0| | |lia]; (apply (@linked _ tri3 _ 0); [cbn; lia|cbn; lia| |exact A0]); cbn; discriminate.
Qed.
Example C89_dominant_example : good_smoother 3 (mulvec tri3) (correction_step (mulvec tri3) (par_ssor_vmult [[2]; [0]; [1]] tri3)).
Proof.
  apply (@C89_smoother QcOF [[2]; [0]; [1]] tri3 eq_refl); [|exact tri3_spd|right; right; exact tri3_dominant].
  unfold distribution. cbn [concat app nc tri3 of_rows seq]. apply (@perm_trans _ _ [0; 2; 1]); [apply perm_swap|apply perm_skip; apply perm_swap].
Qed.
(** The whole preconditioner on three processes. *)
Definition pairs6 : mat QcOF := mkMat 3 6 (fun i j => if j / 2 =? i then q 1 1 else q 0 1).
Lemma pairs6_rank : full_row_rank pairs6.
Proof. apply rank_test. apply posdef_spd; [apply small_symmetric; [reflexivity|vm_compute; reflexivity]|vm_compute; reflexivity]. Qed.
(** Rows of a matrix of six unknowns on three processes, all other matrices on the first. *)
Definition rows3 (M : mat QcOF) : list (list nat) := if nc M =? 6 then owned3 else [seq 0 (nc M)].
Lemma rows3_ok : forall M : mat QcOF, nr M = nc M -> distribution (nc M) (rows3 M).
Proof.
  intros M D. unfold rows3. destruct (nc M =? 6) eqn:E; [apply Nat.eqb_eq in E; rewrite E; exact owned3_ok|].
  unfold distribution. cbn [concat]. rewrite app_nil_r. apply Permutation_refl.
Qed.
Definition par_params : ptree := Node "" [("eigensolver"%string, Node "" []); ("agglomeration"%string, Node "" [])].
Definition par_example (A : mat QcOF) (rows : mat QcOF -> list (list nat)) :=
  construct (par_helpers (fun _ => false) rows A (fun _ => Ok (pairs6, mmul A (mtrans pairs6))) (fun _ r => r) (fun _ _ r => r)) 0%K (mkTenv true true) true (Ok tt) (Some par_params) None.
Lemma par_example_ok : forall (A : mat QcOF) rows, nr A = 6 -> nc A = 6 -> (forall M : mat QcOF, nr M = nc M -> distribution (nc M) (rows M)) -> spd 6 (mulvec A) ->
  (length (rows A) <= 2 \/ two_colours (rows A) A \/ anchored_dominant A) ->
  exists h s l, par_example A rows = (Ok h, s, l) /\
    exists Mv : vec QcOF -> vec QcOF, linear 6 6 Mv /\ self_adjoint 6 Mv /\ (forall b, length b = 6 -> b <> vzero 6 -> flt 0%K (dot (Mv b) b)) /\
      (forall e, length e = 6 -> e <> vzero 6 -> flt (energy (mulvec A) (vsub e (Mv (mulvec A e)))) (energy (mulvec A) e)) /\
      forall te x b l, open_sections l = [] -> length x = 6 -> length b = 6 -> exists l', hierarchy_vmult te h x b l = (Ok (Mv b), l') /\ open_sections l' = [].
Proof.
  intros A rows N1 N2 HR S C.
  assert (X := @C89_hierarchy QcOF (fun _ => false) rows A (fun _ => Ok (pairs6, mmul A (mtrans pairs6))) (fun _ r => r) (fun _ _ r => r) 0%K (mkTenv true true) true par_params HR).
  rewrite N1, N2 in X. apply X; auto; clear X.
  - apply lower_ci; [apply no_upperb_ok; reflexivity|reflexivity].
  - right. split; [reflexivity|]. split; [apply lower_ci; [apply no_upperb_ok; reflexivity|reflexivity]|]. split; [exact C|]. split; [discriminate|]. split; [discriminate|].
    eexists _, _. split; [reflexivity|]. split; [reflexivity|]. split; [exact pairs6_rank|]. intros X. vm_compute in X. discriminate X.
Qed.
Example C89_hierarchy_example : exists h s l, par_example line6 rows3 = (Ok h, s, l) /\ exists Mv, self_adjoint 6 Mv /\
  forall te x b l, open_sections l = [] -> length x = 6 -> length b = 6 -> exists l', hierarchy_vmult te h x b l = (Ok (Mv b), l') /\ open_sections l' = [].
Proof.
  destruct (par_example_ok line6 rows3 eq_refl eq_refl rows3_ok line6_spd) as (h & s & l & E & Mv & _ & M2 & _ & _ & M5); [right; left; exact line6_colours|].
  exists h, s, l. split; [exact E|]. exists Mv. auto.
Qed.

(** C89 is false without the condition: three processes that are all coupled, matrix SPD, restriction of full rank, default parameters. On one process
    the preconditioner is SPD and reduces every error. On three processes the same matrix and the same restriction give a preconditioner that is not
    positive, and that makes an error more than three times as large. *)
Definition bad6 : mat QcOF := mkMat 6 6 (fun i j => if i =? j then q 1 1 else if i / 2 =? j / 2 then q 0 1 else if Nat.eqb (i mod 2) (j mod 2) then q 9 20 else q (-9) 20).
Lemma bad6_spd : spd 6 (mulvec bad6).
Proof. apply (@entries_spd QcOF bad6). apply posdef_spd; [apply small_symmetric; [reflexivity|vm_compute; reflexivity]|vm_compute; reflexivity]. Qed.
Definition zigzag : list QcOF := [q 1 1; q (-1) 1; q 1 1; q (-1) 1; q 1 1; q (-1) 1].
Definition rows1 (M : mat QcOF) : list (list nat) := [seq 0 (nc M)].
Lemma rows1_ok : forall M : mat QcOF, nr M = nc M -> distribution (nc M) (rows1 M).
Proof. intros M D. unfold distribution, rows1. cbn [concat]. rewrite app_nil_r. apply Permutation_refl. Qed.

Definition run_of (c : outcome (hierarchy QcOF) * cstate QcOF (option (op QcOF)) * list tev) (b : vec QcOF) : outcome (vec QcOF) :=
  match c with (Ok h, _, _) => fst (hierarchy_vmult (mkTenv true true) h (vzero 6) b []) | _ => UB end.
Lemma run_of_ex : forall c b y, run_of c b = Ok y -> exists h s l l', c = (Ok h, s, l) /\ hierarchy_vmult (mkTenv true true) h (vzero 6) b [] = (Ok y, l').
Proof.
  intros [[[h| | | |] s] l] b y H; try discriminate H. exists h, s, l. unfold run_of in H.
  destruct (hierarchy_vmult (mkTenv true true) h (vzero 6) b []) as [r l']. cbn [fst] in H. subst r. exists l'. auto.
Qed.
Lemma bad_run_ok : ok_with (run_of (par_example bad6 rows3) (mulvec bad6 zigzag))
  (fun y => fltb (dot y (mulvec bad6 zigzag)) 0%K && veqb (vsub zigzag y) (vscale (q 81 25) zigzag)) = true.
Proof. vm_compute. reflexivity. Qed.
Lemma zigzag_nonzero : zigzag <> vzero 6.
Proof. intros Z. assert (Q : veqb zigzag (vzero 6) = false) by (vm_compute; reflexivity). rewrite Z in Q. vm_compute in Q. discriminate Q. Qed.
Lemma bad_witness : exists h s l e y l', par_example bad6 rows3 = (Ok h, s, l) /\ length e = 6 /\ e <> vzero 6 /\
    hierarchy_vmult (mkTenv true true) h (vzero 6) (mulvec bad6 e) [] = (Ok y, l') /\
    flt (dot y (mulvec bad6 e)) 0%K /\ exists c, flt (q 3 1) c /\ vsub e y = vscale c e.
Proof.
  destruct (ok_with_ex _ _ bad_run_ok) as (y & E & P). apply run_of_ex in E. destruct E as (h & s & l & l' & E & EV).
  exists h, s, l, zigzag, y, l'. split; [exact E|]. split; [reflexivity|]. split; [exact zigzag_nonzero|]. split; [exact EV|].
  apply andb_true_iff in P. destruct P as (P1 & P2). split; [apply fltb_lt; exact P1|].
  exists (q 81 25). split; [apply fltb_lt; vm_compute; reflexivity|]. apply veqb_eq. exact P2.
Qed.
Theorem C89_three_processes_refuted : exists (A R : mat QcOF) (rows : mat QcOF -> list (list nat)),
  (forall M : mat QcOF, nr M = nc M -> distribution (nc M) (rows M)) /\ length (rows A) = 3 /\ spd 6 (mulvec A) /\ full_row_rank R /\
  let run := fun rows => construct (par_helpers (fun _ => false) rows A (fun _ => Ok (R, mmul A (mtrans R))) (fun _ r => r) (fun _ _ r => r)) 0%K (mkTenv true true) true (Ok tt)
    (Some par_params) None in
  (exists h s l, run (fun M => [seq 0 (nc M)]) = (Ok h, s, l) /\
    exists Mv : vec QcOF -> vec QcOF, linear 6 6 Mv /\ self_adjoint 6 Mv /\ (forall b, length b = 6 -> b <> vzero 6 -> flt 0%K (dot (Mv b) b)) /\
      (forall e, length e = 6 -> e <> vzero 6 -> flt (energy (mulvec A) (vsub e (Mv (mulvec A e)))) (energy (mulvec A) e)) /\
      forall te x b l, open_sections l = [] -> length x = 6 -> length b = 6 -> exists l', hierarchy_vmult te h x b l = (Ok (Mv b), l') /\ open_sections l' = []) /\
  exists h s l e y l', run rows = (Ok h, s, l) /\ length e = 6 /\ e <> vzero 6 /\
    hierarchy_vmult (mkTenv true true) h (vzero 6) (mulvec A e) [] = (Ok y, l') /\
    flt (dot y (mulvec A e)) 0%K /\ exists c, flt (q 3 1) c /\ vsub e y = vscale c e.
Proof.
  exists bad6, pairs6, rows3. split; [exact rows3_ok|]. split; [reflexivity|]. split; [exact bad6_spd|]. split; [exact pairs6_rank|]. cbv zeta.
  split.
  - apply (par_example_ok bad6 rows1 eq_refl eq_refl rows1_ok bad6_spd). left. cbn. lia.
  - exact bad_witness.
Qed.
Print Assumptions C89_three_processes_refuted.
(** On two processes, the second with the even unknowns: no condition on the matrix. *)
Definition rows2 (M : mat QcOF) : list (list nat) := if nc M =? 6 then [[1; 3; 5]; [0; 2; 4]] else [seq 0 (nc M)].
Lemma rows2_ok : forall M : mat QcOF, nr M = nc M -> distribution (nc M) (rows2 M) /\ length (rows2 M) <= 2.
Proof.
  intros M D. unfold rows2. destruct (nc M =? 6) eqn:E; (split; [|cbn; lia]).
  - apply Nat.eqb_eq in E. rewrite E. unfold distribution. cbn [concat app seq].
    apply (@NoDup_Permutation nat); [repeat constructor; cbn [In]; lia|repeat constructor; cbn [In]; lia|]. intros x. cbn [In]. lia.
  - unfold distribution. cbn [concat]. rewrite app_nil_r. apply Permutation_refl.
Qed.
Example C89_two_processes_example : exists h s l, par_example bad6 rows2 = (Ok h, s, l) /\ exists Mv, self_adjoint 6 Mv /\
  (forall e, length e = 6 -> e <> vzero 6 -> flt (energy (mulvec bad6) (vsub e (Mv (mulvec bad6 e)))) (energy (mulvec bad6) e)).
Proof.
  destruct (par_example_ok bad6 rows2 eq_refl eq_refl (fun M D => proj1 (rows2_ok M D)) bad6_spd) as (h & s & l & E & _); [left; cbn; lia|].
  exists h, s, l. split; [exact E|].
  destruct (@C89_two_processes QcOF (fun _ => false) rows2 bad6 (fun _ => Ok (pairs6, mmul bad6 (mtrans pairs6))) (fun _ r => r) (fun _ _ r => r) 0%K (mkTenv true true) true par_params h s l
    rows2_ok E eq_refl bad6_spd) as (Mv & _ & M2 & _ & M4 & _); try reflexivity.
  - vm_compute. lia.
  - intros R AP ER. injection ER as <- _. exact pairs6_rank.
  - exists Mv. auto.
Qed.
Example C89_jacobi_example : veqb (par_jacobi_vmult owned3 line6 zigzag) (vscale (q 1 2) zigzag) = true.
Proof. vm_compute. reflexivity. Qed.
Example C89_one_process_example : veqb (par_ssor_vmult [seq 0 6] bad6 zigzag) (ssor_vmult bad6 zigzag) = true /\ veqb (par_ssor_vmult owned3 bad6 zigzag) zigzag = true.
Proof. split; vm_compute; reflexivity. Qed.
