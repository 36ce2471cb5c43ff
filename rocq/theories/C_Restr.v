(** Property theorems about the restriction matrix: C11-C14, C54, C60, C61. *)
From Coq Require Import List Arith ZArith Bool Lia Field QArith Qcanon.
From Verif Require Import Base OField Mat LinAlg M_WorkStream M_Restr S_Restr S_Hier P_Restr P_Restr2 P_WorkStream.
Import ListNotations.
Set Implicit Arguments.
Open Scope list_scope.
Open Scope nat_scope.

(** ** Data of the examples: five dofs on a line, two ranks, three agglomerates with dofs {0,1}, {1,2,3} and {3,4};
    the diagonal of dof 1 and 3 is shared. *)
Definition rq (z : Z) : QcOF := Q2Qc (inject_Z z).
Definition xc1 : agg_result QcOF := mkAgg [rq 0; rq 1] [[rq 1; rq 1]; [rq 1; rq (-1)]] [rq 1; rq 1] [0; 1].
Definition xc2 : agg_result QcOF := mkAgg [rq 0] [[rq 1; rq 1; rq 1]] [rq 1; rq 2; rq 1] [1; 2; 3].
Definition xc3 : agg_result QcOF := mkAgg [rq 0] [[rq 1; rq 1]] [rq 1; rq 1] [3; 4].
Definition xranks : list (list (agg_result QcOF)) := [[xc1; xc2]; [xc3]].
Definition xD (g : nat) : QcOF := match g with 0 | 4 => rq 1 | _ => rq 2 end.
Definition xgds (p g : nat) : option QcOF := if (p =? 0) && (g =? 4) then None else Some (xD g).
(** Compares with given rationals (only used in examples). *)
Definition qcheck (x : QcOF) (z : Z) (p : positive) : bool := Qc_eq_bool x (Q2Qc (z # p)).

Lemma xranks_ok : forall l c, In l xranks -> In c l -> agg_ok c.
Proof.
  intros l c [<-|[<-|[]]] Hc; repeat (destruct Hc as [<-|Hc]; [split; [reflexivity|]; intros e He; repeat (destruct He as [<-|He]; [reflexivity|]); destruct He|]);
    destruct Hc.
Qed.
Lemma xgds_ok : forall p l, nth_error xranks p = Some l -> gd_ok xD l (xgds p).
Proof.
  intros [|[|p]] l H; simpl in H; try (destruct p; discriminate); inversion H; subst; intros c Hc g Hg;
    repeat (destruct Hc as [<-|Hc]; [repeat (destruct Hg as [<-|Hg]; [reflexivity|]); destruct Hg|]); destruct Hc.
Qed.

Section CRestr.
  Variable K : ofield.
  Add Field KFCrestr : (f_field K).
  Local Notation vec := (vec K).

  (** C11: the assembly succeeds in both builds; row r of the matrix of all ranks is the weighted r-th eigenvector, counted agglomerate by
      agglomerate and rank by rank. *)
  Theorem C11_restriction_rows : forall debug acc gds (D : nat -> K) ranks,
    (forall l c, In l ranks -> In c l -> agg_ok c) ->
    (forall p l, nth_error ranks p = Some l -> gd_ok D l (gds p)) ->
    exists ms, assemble debug acc gds (map (@data_of K) ranks) = Ok ms /\ length ms = length ranks /\
      forall r g, lsum (map (fun m => spm_el (r_R m) r g) ms) =
        match nth_error (rows_of (concat ranks)) r with Some ce => r_entry D ce g | None => 0%K end.
  Proof.
    intros debug acc gds D ranks Hok Hg. unfold assemble.
    destruct (@assemble_from_spec K debug acc gds D _ ranks [] eq_refl Hok Hg) as [ms [H1 H2]].
    exists ms. split; [exact H1|]. split; [eapply mats_at_length; eauto|].
    intros r g. simpl in H2. rewrite (@mats_at_R K acc D ranks ms 0 r g H2) by lia. rewrite Nat.sub_0_r. reflexivity.
  Qed.

  (** C11: with one patch dof per global dof the entry is the weighted eigenvector component, and zero outside the patch. *)
  Theorem C11_entry : forall (D : nat -> K) c e, NoDup (ag_map c) ->
    (forall j, j < length (ag_map c) ->
       r_entry D (c, e) (nth j (ag_map c) 0) = (nth j (ag_diag c) 0 / D (nth j (ag_map c) 0%nat) * nth j e 0)%K) /\
    (forall g, ~ In g (ag_map c) -> r_entry D (c, e) g = 0%K).
  Proof.
    intros D c e Hn. split.
    - intros j Hj. unfold r_entry. cbn [fst snd]. rewrite at_dof_one; auto.
    - intros g Hg. unfold r_entry. apply at_dof_none; auto.
  Qed.

  (** C13: the row ranges [before p, before p + count p) of the ranks are consecutive, start at 0, end at the total, and every row lies in
      exactly one of them. *)
  Theorem C13_row_ranges : forall counts,
    n_rows_before counts 0 = 0 /\ n_rows_before counts (length counts) = n_total_rows counts /\
    (forall p n, nth_error counts p = Some n -> n_rows_before counts (S p) = n_rows_before counts p + n) /\
    (forall r, r < n_total_rows counts -> exists p n, nth_error counts p = Some n /\ n_rows_before counts p <= r < n_rows_before counts p + n) /\
    (forall p q n k r, nth_error counts p = Some n -> nth_error counts q = Some k ->
       n_rows_before counts p <= r < n_rows_before counts p + n -> n_rows_before counts q <= r < n_rows_before counts q + k -> p = q).
  Proof.
    intros counts. split; [reflexivity|]. split; [apply n_rows_before_all; auto|].
    split; [apply n_rows_before_S|]. split; [apply rank_of_row|].
    intros p q n k r Hp Hq H1 H2.
    destruct (lt_eq_lt_dec p q) as [[L|L]|L]; auto; exfalso.
    - pose proof (@n_rows_before_mono counts (S p) q L). rewrite (n_rows_before_S _ _ Hp) in H. lia.
    - pose proof (@n_rows_before_mono counts (S q) p L). rewrite (n_rows_before_S _ _ Hq) in H. lia.
  Qed.

  (** C13: a rank writes only into its own rows (R and E; so the ranks' matrices never overlap). *)
  Theorem C13_ranks_write_own_rows : forall debug acc gd (D : nat -> K) counts p l m,
    (forall c, In c l -> agg_ok c) -> gd_ok D l gd -> nth_error counts p = Some (length (flat_map (@ag_evecs K) l)) ->
    compute_restriction debug acc counts p gd (data_of l) = Ok m ->
    forall r g, ~ (n_rows_before counts p <= r < n_rows_before counts (S p)) -> spm_el (r_R m) r g = 0%K /\ spm_el (r_E m) r g = 0%K.
  Proof.
    intros debug acc gd D counts p l m Hok Hg Hp Hm r g Hr.
    rewrite (@compute_restriction_spec K debug acc counts p gd D l Hok Hg) in Hm. inversion Hm; subst.
    rewrite (n_rows_before_S _ _ Hp) in Hr. rewrite flat_evecs_length in Hr.
    rewrite rows_step_R, rows_step_E. cbn [r_R r_E spm_el].
    destruct (Nat.leb_spec (n_rows_before counts p) r); cbn [andb]; [|split; ring].
    destruct (Nat.ltb_spec r (n_rows_before counts p + length (rows_of l))); [lia|]. split; ring.
  Qed.

  (** C14: with the accumulating [set] the source describes, R = E + Delta for all data. *)
  Theorem C14_split : forall debug gd (D : nat -> K) counts p l m,
    (forall c, In c l -> agg_ok c) -> gd_ok D l gd ->
    compute_restriction debug true counts p gd (data_of l) = Ok m ->
    forall r g, spm_el (r_R m) r g = (spm_el (r_E m) r g + spm_el (r_D m) r g)%K.
  Proof.
    intros debug gd D counts p l m Hok Hg Hm r g.
    rewrite (@compute_restriction_spec K debug true counts p gd D l Hok Hg) in Hm. inversion Hm; subst.
    apply rows_step_split. cbn [r_R r_E r_D spm_el]. ring.
  Qed.

  (** C14: if [set] replaced instead, the identity would need injective dof maps. *)
  Theorem C14_split_replacing : forall debug gd (D : nat -> K) counts p l m,
    (forall c, In c l -> agg_ok c /\ NoDup (ag_map c)) -> gd_ok D l gd ->
    compute_restriction debug false counts p gd (data_of l) = Ok m ->
    forall r g, spm_el (r_R m) r g = (spm_el (r_E m) r g + spm_el (r_D m) r g)%K.
  Proof.
    intros debug gd D counts p l m Hok Hg Hm r g.
    assert (Hok' : forall c, In c l -> agg_ok c) by (intros; apply Hok; auto).
    rewrite (@compute_restriction_spec K debug false counts p gd D l Hok' Hg) in Hm. inversion Hm; subst.
    rewrite rows_step_fresh.
    - apply rows_step_split. cbn [r_R r_E r_D spm_el]. ring.
    - intros c e Hce. unfold rows_of in Hce. apply in_flat_map in Hce. destruct Hce as [c' [H1 H2]].
      apply in_map_iff in H2. destruct H2 as [e' [H2 _]]. inversion H2; subst. apply Hok; auto.
    - intros i h [v Hv]. inversion Hv.
  Qed.

  (** C12: a vector that is, on every patch, the combination with coefficients [y] of the eigenvectors is reproduced by R^T y at every dof
      where the local diagonals sum up to the (nonzero) global one. *)
  Theorem C12_partition_of_unity : forall debug acc gds (D : nat -> K) ranks ms n (y : vec) (v : nat -> K),
    (forall l c, In l ranks -> In c l -> agg_ok c) ->
    (forall p l, nth_error ranks p = Some l -> gd_ok D l (gds p)) ->
    assemble debug acc gds (map (@data_of K) ranks) = Ok ms ->
    (forall a c, nth_error (concat ranks) a = Some c -> forall j, j < length (ag_map c) ->
       sumn (length (ag_evecs c)) (fun k => (nth (row_start (concat ranks) a + k)%nat y 0 * nth j (nth k (ag_evecs c) []) 0)%K) =
       v (nth j (ag_map c) 0)) ->
    forall g, g < n -> D g <> 0%K -> diag_sum (concat ranks) g = D g ->
      nth g (mulTvec (stacked (map (@r_R K) ms) (length (rows_of (concat ranks))) n) y) 0%K = v g.
  Proof.
    intros debug acc gds D ranks ms n y v Hok Hg Hm Hv g Hgn HD Hs.
    destruct (@C11_restriction_rows debug acc gds D ranks Hok Hg) as [ms' [H1 [_ H2]]].
    rewrite H1 in Hm. inversion Hm; subst ms'.
    unfold mulTvec. rewrite nth_mulvec by auto. cbn [mtrans nc nr ent stacked].
    rewrite <- (@partition_of_unity K D (concat ranks) (fun r => nth r y 0%K) v g (mkAgg [] [] [] [], []) Hv HD Hs).
    apply sumn_ext. intros r Hr. rewrite map_map, H2.
    rewrite (nth_error_nth_lt (rows_of (concat ranks)) (mkAgg [] [] [] [], [])) by auto. ring.
  Qed.

  (** C61: if the eigenvectors of each agglomerate are independent on the dofs the agglomerate shares with no other, the restriction
      matrix has full row rank (so the Galerkin coarse operator of an SPD operator is SPD, see C57). *)
  Theorem C61_full_row_rank : forall debug acc gds (D : nat -> K) ranks ms n (private : nat -> nat -> Prop),
    (forall l c, In l ranks -> In c l -> agg_ok c) ->
    (forall p l, nth_error ranks p = Some l -> gd_ok D l (gds p)) ->
    assemble debug acc gds (map (@data_of K) ranks) = Ok ms ->
    (forall a c, nth_error (concat ranks) a = Some c -> forall j, private a j ->
        j < length (ag_map c) /\ nth j (ag_map c) 0 < n /\ (nth j (ag_diag c) 0 <> 0 /\ D (nth j (ag_map c) 0%nat) <> 0)%K /\
        forall b c' i, nth_error (concat ranks) b = Some c' -> i < length (ag_map c') -> nth i (ag_map c') 0 = nth j (ag_map c) 0 -> b = a /\ i = j) ->
    (forall a c, nth_error (concat ranks) a = Some c -> forall z : nat -> K,
        (forall j, private a j -> sumn (length (ag_evecs c)) (fun k => (z k * nth j (nth k (ag_evecs c) []) 0)%K) = 0%K) ->
        forall k, k < length (ag_evecs c) -> z k = 0%K) ->
    full_row_rank (stacked (map (@r_R K) ms) (length (rows_of (concat ranks))) n).
  Proof.
    intros debug acc gds D ranks ms n private Hok Hg Hm Hp Hi x Hx H0. cbn [nr nc stacked] in *.
    destruct (@C11_restriction_rows debug acc gds D ranks Hok Hg) as [ms' [H1 [_ H2]]].
    rewrite H1 in Hm. inversion Hm; subst ms'.
    apply (@list_ext K _ _ 0%K).
    - rewrite Hx. unfold vzero. rewrite repeat_length. auto.
    - intros r Hr. rewrite Hx in Hr. transitivity (0%K : K); [|unfold vzero; symmetry; apply nth_repeat].
      destruct (row_locate _ Hr) as [a [c [k [R1 [R2 ->]]]]].
      apply (@independent_rows K D (concat ranks) (fun r => nth r x 0%K) private (mkAgg [] [] [] [], []) n Hp Hi) with (c := c); auto.
      intros g Hgn. assert (E : nth g (mulTvec (stacked (map (@r_R K) ms) (length (rows_of (concat ranks))) n) x) 0%K = 0%K)
        by (rewrite H0; unfold vzero; apply nth_repeat).
      unfold mulTvec in E. rewrite nth_mulvec in E by auto. cbn [mtrans nc nr ent stacked] in E. etransitivity; [|exact E].
      apply sumn_ext. intros r Hr'. rewrite map_map, H2.
      rewrite (nth_error_nth_lt (rows_of (concat ranks)) (mkAgg [] [] [] [], [])) by auto. ring.
  Qed.

  (** C60: the debug self-check never fails by accident (no undefined behaviour, no exception), accepts exact data and what it accepts is a
      partition of unity up to the tolerance. *)
  Theorem C60_self_check : forall (tol : K) n D gd ranks,
    (forall l c, In l ranks -> In c l -> agg_ok c /\ ag_evecs c <> []) -> gd_ok D (concat ranks) gd -> (0 < tol)%K ->
    (exists g, g < n /\ D g <> 0%K) ->
    (check_restriction true tol n D gd (map (@data_of K) ranks) = Ok tt \/
     check_restriction true tol n D gd (map (@data_of K) ranks) = Abort) /\
    check_restriction false tol n D gd (map (@data_of K) ranks) = Ok tt /\
    ((forall g, g < n -> D g <> 0%K /\ diag_sum (concat ranks) g = D g) ->
      check_restriction true tol n D gd (map (@data_of K) ranks) = Ok tt) /\
    (check_restriction true tol n D gd (map (@data_of K) ranks) = Ok tt -> forall g, g < n ->
      (fabs (diag_sum (concat ranks) g - D g) < tol * linf n D /\ (D g <> 0 -> fabs (diag_sum (concat ranks) g / D g - 1) < tol))%K).
  Proof.
    intros tol n D gd ranks Hok Hg Ht Hnz.
    rewrite (@check_runs K tol n D gd ranks Hok Hg).
    assert (W : forall g, D g <> 0%K -> lsum (map (fun c => at_dof c g (fun j => (nth j (ag_diag c) 0 / D g)%K)) (concat ranks)) = (diag_sum (concat ranks) g / D g)%K).
    { intros g HD. unfold diag_sum.
      transitivity (1 / D g * lsum (map (fun c => at_dof c g (fun j => nth j (ag_diag c) 0%K)) (concat ranks)))%K; [|field; auto].
      rewrite <- lsum_map_scale. apply lsum_map_ext. intros c _. rewrite <- at_dof_scale. apply at_dof_ext. intros j _ _. field; auto. }
    split; [|split; [|split]].
    - destruct (fltb _ tol); [destruct (forallb _ _)|]; auto.
    - reflexivity.
    - intros H.
      assert (Z : linf n (fun g => (diag_sum (concat ranks) g - D g)%K) = 0%K).
      { apply linf_0. intros g Hgn. destruct (H g Hgn) as [_ E]. rewrite E. ring. }
      assert (L : (linf n (fun g => (diag_sum (concat ranks) g - D g)%K) / linf n D)%K = 0%K).
      { rewrite Z. destruct Hnz as [g [Hgn HD]].
        assert (Hl : linf n D <> 0%K) by (apply linf_pos with g; auto). field; auto. }
      rewrite L. assert (T : fltb 0%K tol = true) by (apply fltb_lt; auto). rewrite T.
      assert (F : forallb (fun g => fltb (fabs (lsum (map (fun c => at_dof c g (fun j => (nth j (ag_diag c) 0 / D g)%K)) (concat ranks)) - 1)%K) tol) (seq 0 n) = true).
      { apply forallb_forall. intros g Hin. apply in_seq in Hin. destruct (H g) as [HD E]; [lia|]. rewrite W, E by auto.
        replace (D g / D g - 1)%K with (0%K : K) by (field; auto).
        rewrite fabs_0. exact T. }
      rewrite F. reflexivity.
    - intros H g Hgn.
      destruct (fltb (linf n (fun g => (diag_sum (concat ranks) g - D g)%K) / linf n D)%K tol) eqn:E1; [|discriminate].
      destruct (forallb _ _) eqn:E2; [|discriminate].
      split.
      + apply fltb_lt in E1.
        assert (Hl : (0 < linf n D)%K). { destruct Hnz as [g0 [Hg0 HD]]. apply linf_lt with g0; auto. }
        eapply fle_lt_trans; [apply (@linf_ge K n (fun g => (diag_sum (concat ranks) g - D g)%K) g Hgn)|].
        assert (E3 : linf n (fun g => (diag_sum (concat ranks) g - D g)%K) = (linf n (fun g => (diag_sum (concat ranks) g - D g)%K) / linf n D * linf n D)%K)
          by (field; apply not_eq_sym; apply flt_neq; auto).
        rewrite E3. apply flt_mul_r; auto.
      + intros HD. rewrite forallb_forall in E2. specialize (E2 g). rewrite W in E2 by auto. apply fltb_lt. apply E2. apply in_seq. lia.
  Qed.

  (** C54: whatever the schedule and the numbers of scratch and copy-data objects, the containers hold the agglomerates' results in
      agglomerate order, if the eigensolver does not use the initial guess kept in the scratch data; and some run exists. *)
  Theorem C54_schedule_independent : forall (solve : nat -> scratch K -> outcome (agg_result K)) keep n (res : nat -> agg_result K),
    (forall id sc, 1 <= id <= n -> solve id sc = Ok (res id)) ->
    (forall ns nb d, collect solve keep n ns nb d -> d = data_of (map res (seq 1 n))) /\
    (forall ns nb, 1 <= ns -> 1 <= nb -> collect solve keep n ns nb (data_of (map res (seq 1 n)))).
  Proof.
    intros solve keep n res H. split.
    - intros ns nb d Hc. eapply collect_det; eauto. intros id sc c Hid E. rewrite H in E by auto. congruence.
    - intros [|ns] [|nb] H1 H2; try lia. apply collect_exists; auto.
  Qed.
End CRestr.
Print Assumptions C11_restriction_rows.
Print Assumptions C11_entry.
Print Assumptions C13_row_ranges.
Print Assumptions C13_ranks_write_own_rows.
Print Assumptions C14_split.
Print Assumptions C14_split_replacing.
Print Assumptions C12_partition_of_unity.
Print Assumptions C61_full_row_rank.
Print Assumptions C60_self_check.
Print Assumptions C54_schedule_independent.

(** ** Examples *)
(** The matrix of the example data, all entries; the debug build. *)
Example C11_example : match assemble true true xgds (map (@data_of QcOF) xranks) with
  | Ok ms => forallb (fun '(r, g, z, p) => qcheck (lsum (map (fun m => spm_el (r_R m) r g) ms)) z p)
      [(0, 0, 1%Z, 1%positive); (0, 1, 1%Z, 2%positive); (0, 2, 0%Z, 1%positive); (1, 0, 1%Z, 1%positive); (1, 1, (-1)%Z, 2%positive);
       (2, 1, 1%Z, 2%positive); (2, 2, 1%Z, 1%positive); (2, 3, 1%Z, 2%positive); (2, 0, 0%Z, 1%positive);
       (3, 3, 1%Z, 2%positive); (3, 4, 1%Z, 1%positive); (4, 4, 0%Z, 1%positive)]
  | _ => false end = true.
Proof. vm_compute. reflexivity. Qed.

(** The hypotheses of C11 hold for it. *)
Example C11_example_hypotheses : (forall l c, In l xranks -> In c l -> agg_ok c) /\ (forall p l, nth_error xranks p = Some l -> gd_ok xD l (xgds p)).
Proof. split; [exact xranks_ok|exact xgds_ok]. Qed.

Example C13_example : map (n_rows_before [3; 0; 2; 4]) [0; 1; 2; 3; 4] = [0; 3; 3; 5; 9] /\
  rows_per_proc (map (@data_of QcOF) xranks) = [3; 1].
Proof. split; reflexivity. Qed.

(** The constant one with coefficients 1, 0, 1, 1: the hypotheses of C12 hold, the conclusion at dof 3 is 1. *)
Example C12_example : forall g, g < 5 -> match assemble false true xgds (map (@data_of QcOF) xranks) with
  | Ok ms => nth g (mulTvec (stacked (map (@r_R QcOF) ms) 4 5) (map rq [1; 0; 1; 1]%Z)) 0%K = rq 1
  | _ => False end.
Proof.
  destruct (@C11_restriction_rows QcOF false true xgds xD xranks xranks_ok xgds_ok) as [ms [H1 [_ _]]]. rewrite H1.
  intros g Hg. change 4 with (length (rows_of (concat xranks))).
  refine (@C12_partition_of_unity QcOF false true xgds xD xranks ms 5 (map rq [1; 0; 1; 1]%Z) (fun _ => rq 1) xranks_ok xgds_ok H1 _ g Hg _ _).
  - intros a c Ha j Hj. do 3 (try (destruct a as [|a]; [simpl in Ha; inversion Ha; subst c; clear Ha|]));
      [| | |destruct a; discriminate]; simpl in Hj; do 3 (try (destruct j as [|j]; [apply Qc_is_canon; vm_compute; reflexivity|])); lia.
  - do 5 (destruct g as [|g]; [intros E; apply (f_equal (fun x : Qc => Qc_eq_bool x 0)) in E; vm_compute in E; discriminate|]). lia.
  - do 5 (destruct g as [|g]; [apply Qc_is_canon; vm_compute; reflexivity|]). lia.
Qed.

(** Two agglomerates; the private dofs are 0 and 2; dof 1 is shared.  The eigenvectors are nonzero on the private dofs. *)
Definition xp1 : agg_result QcOF := mkAgg [rq 0] [[rq 1; rq 1]] [rq 1; rq 1] [0; 1].
Definition xp2 : agg_result QcOF := mkAgg [rq 0] [[rq 3; rq 2]] [rq 1; rq 1] [1; 2].
Definition xpD (g : nat) : QcOF := match g with 1 => rq 2 | _ => rq 1 end.
Example C61_example : match assemble false true (fun _ g => Some (xpD g)) (map (@data_of QcOF) [[xp1; xp2]]) with
  | Ok ms => full_row_rank (stacked (map (@r_R QcOF) ms) 2 3) | _ => False end.
Proof.
  assert (Hok : forall l c, In l [[xp1; xp2]] -> In c l -> agg_ok c).
  { intros l c [<-|[]] [<-|[<-|[]]]; (split; [reflexivity|]); intros e [<-|[]]; reflexivity. }
  assert (Hg : forall p l, nth_error [[xp1; xp2]] p = Some l -> gd_ok xpD l (fun g => Some (xpD g))).
  { intros p l _ c _ g _. reflexivity. }
  destruct (@C11_restriction_rows QcOF false true (fun _ g => Some (xpD g)) xpD [[xp1; xp2]] Hok Hg) as [ms [H1 _]].
  rewrite H1. change 2 with (length (rows_of (concat [[xp1; xp2]]))).
  refine (@C61_full_row_rank QcOF false true (fun _ g => Some (xpD g)) xpD [[xp1; xp2]] ms 3 (fun a j => a = j /\ a < 2) Hok Hg H1 _ _).
  - intros a c Ha j [<- Ha2]. destruct a as [|[|a]]; [| |lia]; simpl in Ha; inversion Ha; subst c; clear Ha; cbn [xp1 xp2 ag_map ag_diag nth length].
    + split; [lia|]. split; [lia|]. split; [split; intros E; apply (f_equal (fun x : Qc => Qc_eq_bool x 0)) in E; vm_compute in E; discriminate|].
      intros b c' i Hb Hi E. destruct b as [|[|b]]; [| |destruct b; discriminate]; injection Hb as <-;
        cbn [xp1 xp2 ag_map length] in Hi; destruct i as [|[|i]]; simpl in E; try lia.
    + split; [lia|]. split; [lia|]. split; [split; intros E; apply (f_equal (fun x : Qc => Qc_eq_bool x 0)) in E; vm_compute in E; discriminate|].
      intros b c' i Hb Hi E. destruct b as [|[|b]]; [| |destruct b; discriminate]; injection Hb as <-;
        cbn [xp1 xp2 ag_map length] in Hi; destruct i as [|[|i]]; simpl in E; try lia.
  - intros a c Ha z Hz k Hk. destruct a as [|[|a]]; [| |destruct a; discriminate]; injection Ha as <-; simpl in Hk; (assert (k = 0) by lia); subst k.
    + specialize (Hz 0 (conj eq_refl (le_n_S _ _ (Nat.le_0_l _)))). cbn in Hz.
      destruct (@fmul_eq_0 QcOF (z 0) (rq 1)) as [H|H]; auto.
      * etransitivity; [|exact Hz]. symmetry. apply Qcplus_0_l.
      * apply (f_equal (fun x : Qc => Qc_eq_bool x 0)) in H. vm_compute in H. discriminate.
    + specialize (Hz 1 (conj eq_refl (le_n _))). cbn in Hz.
      destruct (@fmul_eq_0 QcOF (z 0) (rq 2)) as [H|H]; auto.
      * etransitivity; [|exact Hz]. symmetry. apply Qcplus_0_l.
      * apply (f_equal (fun x : Qc => Qc_eq_bool x 0)) in H. vm_compute in H. discriminate.
Qed.

(** C61: without a private dof the rows can be dependent: two agglomerates on the same two dofs with the same eigenvector. *)
Definition xs1 : agg_result QcOF := mkAgg [rq 0] [[rq 1; rq 1]] [rq 1; rq 1] [0; 1].
Theorem C61_shared_patches_refuted : exists ms, assemble false true (fun _ _ => Some (rq 2)) (map (@data_of QcOF) [[xs1; xs1]]) = Ok ms /\
  ~ full_row_rank (stacked (map (@r_R QcOF) ms) 2 2).
Proof.
  assert (Hok : forall l c, In l [[xs1; xs1]] -> In c l -> agg_ok c).
  { intros l c [<-|[]] [<-|[<-|[]]]; (split; [reflexivity|]); intros e [<-|[]]; reflexivity. }
  destruct (@C11_restriction_rows QcOF false true (fun _ _ => Some (rq 2)) (fun _ => rq 2) [[xs1; xs1]] Hok) as [ms [H1 [_ H2]]].
  { intros p l _ c _ g _. reflexivity. }
  exists ms. split; [exact H1|]. intros H. specialize (H (map rq [1; -1]%Z) eq_refl).
  assert (E : map rq [1; -1]%Z = vzero 2).
  { apply H. apply (@list_ext QcOF _ _ 0%K); [apply mulTvec_length|]. intros i Hi. rewrite mulTvec_length in Hi. cbn [stacked nc] in Hi.
    unfold mulTvec. rewrite nth_mulvec by exact Hi. cbn [mtrans nc nr ent stacked sumn]. rewrite !map_map, !H2.
    destruct i as [|[|i]]; [| |lia]; apply Qc_is_canon; vm_compute; reflexivity. }
  apply (f_equal (fun l : list Qc => match l with x :: _ => Qc_eq_bool x 0 | [] => true end)) in E. vm_compute in E. discriminate.
Qed.
Print Assumptions C61_shared_patches_refuted.

(** C14: with replacing [set] and two patch dofs on one global dof the identity fails; with the accumulating one it holds. *)
Definition xdup : agg_result QcOF := mkAgg [rq 0] [[rq 1; rq 2]] [rq 1; rq 3] [0; 0].
Theorem C14_replacing_duplicates_refuted : exists m, compute_restriction true false [1] 0 (fun _ => Some (rq 4)) (data_of [xdup]) = Ok m /\
  spm_el (r_R m) 0 0 <> (spm_el (r_E m) 0 0 + spm_el (r_D m) 0 0)%K.
Proof.
  assert (T : match compute_restriction true false [1] 0 (fun _ => Some (rq 4)) (data_of [xdup]) with
    | Ok m => negb (Qc_eq_bool (spm_el (r_R m) 0 0) (spm_el (r_E m) 0 0 + spm_el (r_D m) 0 0)%K) | _ => false end = true) by (vm_compute; reflexivity).
  destruct (compute_restriction true false [1] 0 (fun _ => Some (rq 4)) (data_of [xdup])) as [m| | | |]; try discriminate.
  exists m. split; [reflexivity|]. intros E. rewrite E in T.
  assert (Q : forall x : Qc, Qc_eq_bool x x = true) by (intros x; unfold Qc_eq_bool; destruct (Qc_eq_dec x x); congruence).
  rewrite Q in T. discriminate.
Qed.
Print Assumptions C14_replacing_duplicates_refuted.

Example C14_example : match compute_restriction true true [1] 0 (fun _ => Some (rq 4)) (data_of [xdup]) with
  | Ok m => qcheck (spm_el (r_R m) 0 0) 7 4 && qcheck (spm_el (r_E m) 0 0) 3 1 && qcheck (spm_el (r_D m) 0 0) (-5) 4 | _ => false end = true.
Proof. vm_compute. reflexivity. Qed.

(** C60: the exact example passes, a wrong global diagonal is rejected. *)
Example C60_example : check_restriction true (Q2Qc (1 # 100000000000000) : QcOF) 5 xD (fun g => Some (xD g)) (map (@data_of QcOF) xranks) = Ok tt /\
  check_restriction true (Q2Qc (1 # 100000000000000) : QcOF) 5 (fun g => rq 2) (fun g => Some (rq 2)) (map (@data_of QcOF) xranks) = Abort.
Proof. split; vm_compute; reflexivity. Qed.

(** C60: an agglomerate without eigenvectors makes the debug check read past the end, although the assembly itself works. *)
Definition xnone : agg_result QcOF := mkAgg [] [] [rq 1] [5].
Theorem C60_no_eigenvectors_refuted :
  (exists ms, assemble true true (fun _ g => Some (rq 1)) (map (@data_of QcOF) [[xc1; xnone]]) = Ok ms) /\
  check_restriction true (Q2Qc (1 # 100000000000000) : QcOF) 6 (fun g => rq 1) (fun g => Some (rq 1)) (map (@data_of QcOF) [[xc1; xnone]]) = UB.
Proof.
  split; [|vm_compute; reflexivity].
  assert (T : match assemble true true (fun _ g => Some (rq 1)) (map (@data_of QcOF) [[xc1; xnone]]) with Ok _ => true | _ => false end = true)
    by (vm_compute; reflexivity).
  destruct (assemble true true (fun _ g => Some (rq 1)) (map (@data_of QcOF) [[xc1; xnone]])) as [ms| | | |]; try discriminate. eauto.
Qed.
Print Assumptions C60_no_eigenvectors_refuted.

(** C54: two agglomerates, two threads; both orders of work give the same data. *)
Definition xres (id : nat) : agg_result QcOF := if id =? 1 then xc1 else xc2.
Example C54_example : forall ns nb d, collect (fun id _ => Ok (xres id)) true 2 ns nb d -> da_maps d = [[0; 1]; [1; 2; 3]] /\ da_nloc d = [2; 1].
Proof.
  intros ns nb d H.
  destruct (@C54_schedule_independent QcOF (fun id _ => Ok (xres id)) true 2 xres) as [G _]; auto.
  apply G in H. subst d. split; reflexivity.
Qed.

(** C54: an eigensolver that uses the guess kept in the scratch data gives results that depend on the schedule. *)
Definition xsolve (id : nat) (sc : scratch QcOF) : outcome (agg_result QcOF) :=
  Ok (mkAgg [rq 0] [match sc with [] => [rq 1] | _ => [rq 2] end] [rq 1] [id]).
Theorem C54_guess_refuted : exists d1 d2 : agg_data QcOF, collect xsolve true 2 1 1 d1 /\ collect xsolve true 2 2 2 d2 /\ d1 <> d2.
Proof.
  exists (data_of [mkAgg [rq 0] [[rq 1]] [rq 1] [1]; mkAgg [rq 0] [[rq 2]] [rq 1] [2]]),
         (data_of [mkAgg [rq 0] [[rq 1]] [rq 1] [1]; mkAgg [rq 0] [[rq 1]] [rq 1] [2]]).
  split; [|split].
  - apply (@ws_seq_run nat (scratch QcOF) (agg_result QcOF) (agg_data QcOF) _ _ _ 0 0). reflexivity.
  - unfold collect, ws_run, ws_init. eexists. split; [|split].
    + eapply steps_trans.
      { eapply (@step_work _ _ _ _ _ _ _ _ 0 1 0 [] 0); simpl; try reflexivity; auto. }
      cbn [ws_scratch ws_bufs ws_started ws_next ws_out upd repeat].
      eapply steps_trans.
      { eapply (@step_work _ _ _ _ _ _ _ _ 1 2 1 [] 1); simpl; try reflexivity. intros [H|[]]; discriminate. }
      cbn [ws_scratch ws_bufs ws_started ws_next ws_out upd repeat].
      eapply steps_trans.
      { eapply (@step_copy _ _ _ _ _ _ _ _ 0); simpl; try reflexivity. }
      cbn [ws_scratch ws_bufs ws_started ws_next ws_out upd repeat].
      eapply steps_trans.
      { eapply (@step_copy _ _ _ _ _ _ _ _ 1); simpl; try reflexivity. }
      cbn [ws_scratch ws_bufs ws_started ws_next ws_out upd repeat].
      apply steps_refl.
    + reflexivity.
    + reflexivity.
  - intros E. apply (f_equal (@da_evecs QcOF)) in E. simpl in E.
    apply (f_equal (fun l : list (list Qc) => match l with [_; [x]] => Qc_eq_bool x 1 | _ => true end)) in E. vm_compute in E. discriminate.
Qed.
Print Assumptions C54_guess_refuted.
