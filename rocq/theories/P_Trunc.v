(** The effect of the threshold in the matrix-free product. *)
From Coq Require Import String List Arith ZArith NArith Bool Lia Field.
From Verif Require Import Base OField Mat LinAlg M_Ptree S_Ptree P_Ptree M_Hier M_Smoother M_Host S_Host S_Hier P_Hier P_Hier2 P_HierC P_HierE P_HierS P_HierV P_Smoother P_Host
  M_Cheby S_Cheby P_Poly P_Cheby P_Cheby2 M_HostEnd S_HostEnd P_HostEnd S_Rate P_Rate P_SpProd S_Coarse P_Coarse P_Cheby3 S_Trunc.
Import ListNotations.
Set Implicit Arguments.
Open Scope list_scope.
Open Scope nat_scope.

Section P.
  Variable K : ofield.
  Add Field KfieldTr : (f_field K).
  Local Open Scope K_scope.
  Notation vec := (vec K).
  Notation sform := (@sform K).
  Notation schur := (@schur K).
  Ltac vx := unfold OField.vec in *; vext; try ring.

  (** ** Elimination on a matrix with a positive form, symmetric or not. *)
  Definition posf (n : nat) (a : nat -> nat -> K) : Prop := forall x : nat -> K, (exists i, (i < n)%nat /\ x i <> 0) -> 0 < sform n a x.
  Lemma posf_pivot : forall n a, posf (S n) a -> 0 < a O O.
  Proof.
    intros n a P. specialize (P (fun i => if Nat.eqb i 0 then 1 else 0)). unfold sform in P.
    rewrite (@sumn_single K (Datatypes.S n) 0%nat) in P.
    - rewrite (@sumn_single K (Datatypes.S n) 0%nat) in P.
      + simpl in P. replace (a O O) with (a O O * 1 * 1) by ring. apply P. exists O. split; [lia|]. simpl. apply f1_neq_0.
      + lia.
      + intros i Hi Ni. destruct (Nat.eqb_spec i 0); [contradiction|]. ring.
    - lia.
    - intros i Hi Ni. destruct (Nat.eqb_spec i 0); [contradiction|]. ring.
  Qed.
  Lemma posf_schur : forall n a, posf (S n) a -> posf n (schur a).
  Proof.
    intros n a P. pose proof (posf_pivot P) as A0. intros x (i & Hi & Nx). set (g := sumn n (fun j => a O (S j) * x j)).
    assert (N0 : a O O <> 0) by (intros E; rewrite E in A0; exact (flt_irrefl A0)).
    specialize (P (fun k => match k with O => - g / a O O | S j => x j end)).
    replace (sform n (schur a) x) with (sform (S n) a (fun k => match k with O => - g / a O O | S j => x j end)).
    { apply P. exists (S i). split; [lia|auto]. }
    unfold sform. rewrite sumn_shift. rewrite sumn_shift. fold g.
    set (h := sumn n (fun i0 => a (S i0) O * x i0)).
    assert (E1 : sumn n (fun i0 => sumn (S n) (fun j => a (S i0) j * match j with O => - g / a O O | S j0 => x j0 end) * x i0) =
      sumn n (fun i0 => sumn n (fun j => a (S i0) (S j) * x j) * x i0) - g * h / a O O).
    { transitivity (sumn n (fun i0 => sumn n (fun j => a (S i0) (S j) * x j) * x i0 + (- g / a O O) * (a (S i0) O * x i0))).
      - apply sumn_ext. intros k Hk. rewrite sumn_shift. field. auto.
      - rewrite sumn_add, sumn_scale. fold h. field. auto. }
    rewrite E1.
    assert (E2 : sumn n (fun i0 => sumn n (fun j => schur a i0 j * x j) * x i0) =
      sumn n (fun i0 => sumn n (fun j => a (S i0) (S j) * x j) * x i0) - g * h / a O O).
    { transitivity (sumn n (fun i0 => sumn n (fun j => a (S i0) (S j) * x j) * x i0 - (g / a O O) * (a (S i0) O * x i0))).
      - apply sumn_ext. intros k Hk. unfold schur.
        transitivity ((sumn n (fun j => a (S k) (S j) * x j) - a (S k) O / a O O * g) * x k).
        + f_equal. unfold g. rewrite <- sumn_scale. rewrite <- sumn_sub. apply sumn_ext. intros j Hj. field. auto.
        + field. auto.
      - rewrite sumn_sub, sumn_scale. fold h. field. auto. }
    rewrite E2. field. auto.
  Qed.
  Lemma eliminate_pos : forall n a b, posf n a -> length b = n ->
    length (eliminate n a b) = n /\ forall i, (i < n)%nat -> sumn n (fun j => a i j * nth j (eliminate n a b) 0) = nth i b 0.
  Proof.
    induction n as [|n IH]; intros a b P Hb; [simpl; split; auto; intros i Hi; lia|].
    pose proof (posf_pivot P) as A0. assert (N0 : a O O <> 0) by (intros E; rewrite E in A0; exact (flt_irrefl A0)).
    cbn [eliminate]. fold (schur a).
    set (c := map (fun i => nth (S i) b 0 - a (S i) O * nth O b 0 / a O O) (seq 0 n)).
    destruct (IH (schur a) c (posf_schur P)) as (L & E). { unfold c. rewrite map_length, seq_length. auto. }
    set (y := eliminate n (schur a) c) in *. split; [simpl; auto|].
    intros i Hi. rewrite sumn_shift. cbn [nth].
    set (g := sumn n (fun j => a O (S j) * nth j y 0)).
    destruct i as [|i].
    - fold g. field. auto.
    - specialize (E i ltac:(lia)). unfold c in E. rewrite nth_map_seq in E by lia.
      assert (E' : sumn n (fun j => schur a i j * nth j y 0) = sumn n (fun j => a (S i) (S j) * nth j y 0) - a (S i) O / a O O * g).
      { unfold g. rewrite <- sumn_scale, <- sumn_sub. apply sumn_ext. intros j Hj. unfold schur. field. auto. }
      rewrite E' in E.
      transitivity (a (S i) O * ((nth 0 b 0 - g) / a O O) + (nth (S i) b 0 - a (S i) O * nth 0 b 0 / a O O + a (S i) O / a O O * g)).
      + f_equal. rewrite <- E. ring.
      + field. auto.
  Qed.
  Lemma direct_pos : forall A : mat K, nr A = nc A -> (forall v, length v = nc A -> v <> vzero (nc A) -> 0 < dot (mulvec A v) v) -> forall b, length b = nc A ->
    length (direct_solve A b) = nc A /\ mulvec A (direct_solve A b) = b.
  Proof.
    intros A D P b Hb.
    assert (PF : posf (nc A) (ent A)).
    { intros x (i & Hi & Nx). set (v := map x (seq 0 (nc A))).
      assert (Lv : length v = nc A) by (unfold v; rewrite map_length, seq_length; auto).
      replace (sform (nc A) (ent A) x) with (dot (mulvec A v) v).
      + apply P; auto. intros E. apply Nx. transitivity (nth i v 0). { unfold v. rewrite nth_map_seq; auto. } rewrite E. apply nth_vzero.
      + unfold sform. rewrite (@dot_sumn K _ _ (nc A)); [|rewrite mulvec_length; auto|auto].
        apply sumn_ext. intros k Hk. rewrite nth_mulvec by lia. unfold v at 2. rewrite nth_map_seq by auto. f_equal.
        apply sumn_ext. intros j Hj. unfold v. rewrite nth_map_seq by auto. auto. }
    destruct (@eliminate_pos (nc A) (ent A) b PF Hb) as (L & E). split; auto.
    apply vec_ext; rewrite mulvec_length; [congruence|]. intros i Hi. rewrite nth_mulvec by auto. apply E. lia.
  Qed.

  (** ** Squares *)
  Lemma square_le : forall a c : K, 0 <= c -> a * a <= c * c -> a <= c /\ - c <= a.
  Proof.
    assert (W : forall a c : K, 0 <= c -> a * a <= c * c -> a <= c).
    { intros a c Hc H. destruct (fle_total a c) as [Q|Q]; auto. destruct (feq_dec K a c) as [->|N]; [apply fle_refl|exfalso].
      assert (L : c < a) by (apply fle_neq_lt; auto). assert (P1 : 0 < a - c) by (apply flt_sub_0 in L; exact L).
      assert (P2 : 0 < a + c). { apply (@fle_lt_trans K _ c); [exact Hc|]. apply flt_sub_0. replace (a + c - c) with a by ring. apply (@fle_lt_trans K _ c); auto. }
      assert (P3 := fmul_pos P1 P2). replace ((a - c) * (a + c)) with (a * a - c * c) in P3 by ring. apply flt_sub_0 in P3.
      apply (@flt_irrefl K (c * c)). apply (@flt_le_trans K _ _ _ P3 H). }
    intros a c Hc H. split; [apply W; auto|]. assert (Q := W (- a) c Hc). replace (- a * - a) with (a * a) in Q by ring. specialize (Q H).
    apply fle_opp in Q. replace (- - a) with a in Q by ring. exact Q.
  Qed.
  Lemma fabs_square : forall e x : K, fabs x <= e -> x * x <= e * e.
  Proof.
    intros e x H. apply fabs_le in H. destruct H as (H1 & H2). apply fle_sub_0 in H1, H2. apply fle_sub_0.
    replace (e * e - x * x) with ((e - x) * (x - - e)) by ring. apply fle_mul; auto.
  Qed.
  Lemma sumn_const : forall n (c : K), sumn n (fun _ => c) = fnat n * c.
  Proof. induction n; intros c; cbn [sumn fnat]; [ring|]. rewrite IHn. ring. Qed.
  Lemma sumn_le : forall n (f g : nat -> K), (forall i, (i < n)%nat -> f i <= g i) -> sumn n f <= sumn n g.
  Proof. induction n; intros f g H; cbn [sumn]; [apply fle_refl|]. apply fle_add2; auto. Qed.

  (** A matrix with small entries. *)
  Lemma small_matrix : forall (E : mat K) eps z, length z = nc E -> (forall i j, (i < nr E)%nat -> (j < nc E)%nat -> fabs (ent E i j) <= eps) ->
    dot (mulvec E z) (mulvec E z) <= fnat (nr E) * fnat (nc E) * (eps * eps) * dot z z.
  Proof.
    intros E eps z Lz H. rewrite (@dot_sumn K _ _ (nr E)) by apply mulvec_length.
    eapply fle_trans; [apply (@sumn_le (nr E) _ (fun _ => fnat (nc E) * (eps * eps) * dot z z))|].
    - intros i Hi. rewrite nth_mulvec by auto. set (r := map (ent E i) (seq 0 (nc E))). assert (Lr : length r = nc E) by (unfold r; rewrite map_length, seq_length; auto).
      assert (Er : sumn (nc E) (fun j => ent E i j * nth j z 0) = dot r z).
      { rewrite (@dot_sumn K r z (nc E) Lr Lz). apply sumn_ext. intros j Hj. unfold r. rewrite nth_map_seq by auto. reflexivity. }
      rewrite Er. eapply fle_trans; [apply dot_cs; congruence|]. replace (dot r r * dot z z) with (dot z z * dot r r) by ring.
      replace (fnat (nc E) * (eps * eps) * dot z z) with (dot z z * (fnat (nc E) * (eps * eps))) by ring. apply fle_mul_l; [apply dot_nonneg|].
      rewrite (@dot_sumn K r r (nc E) Lr Lr), <- sumn_const. apply sumn_le. intros j Hj. unfold r. rewrite nth_map_seq by auto. apply fabs_square; auto.
    - rewrite sumn_const. apply fle_sub_0. match goal with |- 0 <= ?e => replace e with (0 : K) by ring end. apply fle_refl.
  Qed.

  Lemma sumn_term : forall m (g : nat -> K) j, (forall i, (i < m)%nat -> 0 <= g i) -> (j < m)%nat -> g j <= sumn m g.
  Proof.
    intros m g j. induction m; intros H Hj; [lia|]. cbn [sumn]. destruct (Nat.eq_dec j m) as [->|N].
    - apply fle_sub_0. replace (sumn m g + g m - g m) with (sumn m g) by ring.
      replace (0 : K) with (sumn m (fun _ => (0 : K))) by apply sumn_0. apply sumn_le. intros i Hi. apply H. lia.
    - eapply fle_trans; [apply IHm; [intros; apply H; lia|lia]|]. apply fle_sub_0. replace (sumn m g + g m - sumn m g) with (g m) by ring. apply H. lia.
  Qed.
  Lemma entries_bound : forall M : mat K, exists b, 0 <= b /\ forall i j, (i < nr M)%nat -> (j < nc M)%nat -> fabs (ent M i j) <= b.
  Proof.
    intros M. exists (sumn (nr M) (fun i => sumn (nc M) (fun j => fabs (ent M i j)))).
    assert (Q : forall i, (i < nr M)%nat -> 0 <= sumn (nc M) (fun j => fabs (ent M i j))).
    { intros i Hi. replace (0 : K) with (sumn (nc M) (fun _ => (0 : K))) by apply sumn_0. apply sumn_le. intros. apply fabs_nonneg. }
    split.
    - replace (0 : K) with (sumn (nr M) (fun _ => (0 : K))) by apply sumn_0. apply sumn_le. exact Q.
    - intros i j Hi Hj. eapply fle_trans; [apply (@sumn_term (nc M) (fun j => fabs (ent M i j)) j); auto; intros; apply fabs_nonneg|].
      apply (@sumn_term (nr M) (fun i => sumn (nc M) (fun j => fabs (ent M i j))) i); auto.
  Qed.

  (** Triangle inequality. *)
  Lemma energy_tri : forall n (A : vec -> vec) a b p q E, linear n n A -> spd n A -> length a = n -> length b = n -> 0 <= p -> 0 <= q -> 0 <= E ->
    energy A a <= p * p * E -> energy A b <= q * q * E -> energy A (vadd a b) <= (p + q) * (p + q) * E.
  Proof.
    intros n A a b p q E LA SA La Lb Hp Hq HE Ha Hb. pose proof (lin_len LA _ La) as LAa. pose proof (lin_len LA _ Lb) as LAb.
    assert (X : energy A (vadd a b) = energy A a + energy A b + (1 + 1) * dot (A a) b).
    { unfold energy. rewrite (lin_add LA) by auto. rewrite dot_add_l, !dot_add_r by congruence.
      assert (C : dot (A b) a = dot (A a) b) by (rewrite (proj1 SA b a Lb La); apply dot_comm). rewrite C. ring. }
    assert (C := @energy_cs K n A LA SA a b La Lb).
    assert (HC : dot (A a) b * dot (A a) b <= (p * q * E) * (p * q * E)).
    { eapply fle_trans; [exact C|]. eapply fle_trans; [apply (@fle_mul_l K _ _ _ (energy_nonneg LA SA _ La) Hb)|].
      replace (energy A a * (q * q * E)) with (q * q * E * energy A a) by ring. replace (p * q * E * (p * q * E)) with (q * q * E * (p * p * E)) by ring.
      apply fle_mul_l; [apply fle_mul; [apply fsquare_nonneg|exact HE]|exact Ha]. }
    destruct (@square_le (dot (A a) b) (p * q * E)) as (B & _); auto. { apply fle_mul; [apply fle_mul|]; auto. }
    rewrite X. apply fle_sub_0 in Ha, Hb, B. apply fle_sub_0.
    replace ((p + q) * (p + q) * E - (energy A a + energy A b + (1 + 1) * dot (A a) b)) with
      ((p * p * E - energy A a) + (q * q * E - energy A b) + ((p * q * E - dot (A a) b) + (p * q * E - dot (A a) b))) by ring.
    repeat apply fadd_nonneg; auto.
  Qed.

  (** The difference of two products. *)
  Definition mdiff (T M : mat K) : mat K := mkMat (nr M) (nc M) (fun i j => ent T i j - ent M i j).
  Lemma mdiff_acts : forall (T M : mat K) z, nr T = nr M -> nc T = nc M -> length z = nc M -> vsub (mulvec T z) (mulvec M z) = mulvec (mdiff T M) z.
  Proof.
    intros T M z H1 H2 Lz. assert (L1 := mulvec_length T z). assert (L2 := mulvec_length M z).
    apply vec_ext; [rewrite (mulvec_length (mdiff T M)); etransitivity; [apply vsub_length|]; unfold OField.vec in *; rewrite L1, L2, H1; apply Nat.min_id|].
    intros i Hi. assert (Hi' : (i < nr M)%nat).
    { rewrite vsub_length in Hi. unfold OField.vec in *. rewrite L1, L2, H1, Nat.min_id in Hi. exact Hi. }
    rewrite nth_vsub by congruence. rewrite !nth_mulvec by (cbn [mdiff nr]; lia). cbn [mdiff nc ent]. rewrite H2, <- sumn_sub. apply sumn_ext. intros j _. ring.
  Qed.
  Lemma within_off : forall (T M : mat K) eps, within eps T M -> off_by (fnat (nr M) * fnat (nc M) * (eps * eps)) T M.
  Proof.
    intros T M eps (H1 & H2 & H3). split; [exact H1|]. split; [exact H2|]. intros z Lz. cbv zeta. rewrite mdiff_acts by auto. apply (@small_matrix (mdiff T M) eps z Lz). exact H3.
  Qed.
  Lemma columns_off : forall (E : mat K) tau z, length z = nc E -> (forall j, (j < nc E)%nat -> sumn (nr E) (fun i => ent E i j * ent E i j) <= tau) ->
    dot (mulvec E z) (mulvec E z) <= fnat (nc E) * tau * dot z z.
  Proof.
    intros E tau z Lz H. rewrite (@dot_sumn K _ _ (nr E)) by apply mulvec_length.
    eapply fle_trans; [apply (@sumn_le (nr E) _ (fun i => dot z z * sumn (nc E) (fun j => ent E i j * ent E i j)))|].
    - intros i Hi. rewrite nth_mulvec by auto. set (r := map (ent E i) (seq 0 (nc E))). assert (Lr : length r = nc E) by (unfold r; rewrite map_length, seq_length; auto).
      assert (Er : sumn (nc E) (fun j => ent E i j * nth j z 0) = dot r z).
      { rewrite (@dot_sumn K r z (nc E) Lr Lz). apply sumn_ext. intros j Hj. unfold r. rewrite nth_map_seq by auto. reflexivity. }
      rewrite Er. eapply fle_trans; [apply dot_cs; congruence|]. replace (dot r r * dot z z) with (dot z z * dot r r) by ring. apply fle_mul_l; [apply dot_nonneg|].
      rewrite (@dot_sumn K r r (nc E) Lr Lr). apply sumn_le. intros j Hj. unfold r. rewrite nth_map_seq by auto. apply fle_refl.
    - rewrite sumn_scale, sumn_swap. replace (fnat (nc E) * tau * dot z z) with (dot z z * (fnat (nc E) * tau)) by ring. apply fle_mul_l; [apply dot_nonneg|].
      rewrite <- sumn_const. apply sumn_le. exact H.
  Qed.

  (** ** The coarse system with the matrix R T *)
  Section Pert.
    Variables A R T : mat K.
    Variables c0 mu nu delta : K.
    Hypothesis DA : nr A = nc A.
    Hypothesis SA : spd (nc A) (mulvec A).
    Hypothesis DR : nc R = nc A.
    Hypothesis HC : 0 <= c0.
    Hypothesis HT : off_by c0 T (mmul A (mtrans R)).
    Hypothesis Hmu : above (nc A) (mulvec A) mu.
    Hypothesis Hnu : above (nr R) (fun z => mulvec R (mulvec A (mulTvec R z))) nu.
    Hypothesis Hneg : minor c0 mu nu delta.
    Notation P := (mulTvec R).
    Notation en v := (energy (mulvec A) v).
    Let LA : linear (nc A) (nc A) (mulvec A).
    Proof. pose proof (mulvec_linear A) as X. rewrite DA in X. exact X. Qed.
    Let LP : linear (nr R) (nc A) P.
    Proof. rewrite <- DR. apply mulTvec_linear. Qed.
    Let LR : linear (nc A) (nr R) (mulvec R).
    Proof. rewrite <- DR. apply mulvec_linear. Qed.
    Definition dev : mat K := mkMat (nc A) (nr R) (fun i j => ent T i j - ent (mmul A (mtrans R)) i j).
    Let LE : linear (nr R) (nc A) (mulvec dev).
    Proof. apply (mulvec_linear dev). Qed.
    Lemma dims : nr T = nc A /\ nc T = nr R.
    Proof. destruct HT as (T1 & T2 & _). cbn [nr nc mmul mtrans] in T1, T2. split; congruence. Qed.
    Lemma T_acts : forall z, length z = nr R -> mulvec T z = vadd (mulvec A (P z)) (mulvec dev z).
    Proof.
      intros z Lz. destruct dims as (T1 & T2). assert (L1 : length (mulvec A (P z)) = nc A) by (apply (lin_len LA), (lin_len LP), Lz).
      assert (L2 : length (mulvec dev z) = nc A) by (apply (lin_len LE), Lz).
      assert (E : mulvec A (P z) = mulvec (mmul A (mtrans R)) z) by (unfold mulTvec; rewrite <- mulvec_mmul; [reflexivity|simpl; congruence]).
      apply vec_ext; [transitivity (nr T); [apply mulvec_length|]; rewrite T1; symmetry; etransitivity; [apply vadd_length|]; unfold OField.vec in *; rewrite L1, L2; apply Nat.min_id|]. intros i Hi. assert (Hi2 : (i < nr T)%nat) by (rewrite <- (mulvec_length T z); exact Hi). clear Hi. rename Hi2 into Hi.
      rewrite nth_vadd by congruence. rewrite nth_mulvec by auto. rewrite E, !nth_mulvec by (simpl; congruence). cbn [nc mmul mtrans dev]. rewrite T2, <- sumn_add. apply sumn_ext. intros j Hj.
      cbn [ent dev]. ring.
    Qed.
    Lemma en_P : forall z, length z = nr R -> energy (fun z => mulvec R (mulvec A (P z))) z = en (P z).
    Proof.
      intros z Lz. unfold energy. pose proof (lin_len LP _ Lz) as L1. pose proof (lin_len LA _ L1) as L2.
      rewrite dot_comm. rewrite <- mulTvec_adjoint by (auto; congruence). apply dot_comm.
    Qed.
    Lemma delta_bound : forall y z, length y = nr R -> length z = nr R ->
      dot (P y) (mulvec dev z) * dot (P y) (mulvec dev z) <= delta * delta * (en (P y) * en (P z)).
    Proof.
      intros y z Ly Lz. destruct Hmu as (M0 & M1). destruct Hnu as (N0 & N1). destruct Hneg as (D0 & D1 & D2).
      pose proof (lin_len LP _ Ly) as LPy. pose proof (lin_len LE _ Lz) as LEz. pose proof (lin_len LP _ Lz) as LPz.
      assert (C := @dot_cs K (P y) (mulvec dev z) ltac:(congruence)).
      assert (S : dot (mulvec dev z) (mulvec dev z) <= c0 * dot z z).
      { destruct HT as (T1 & T2 & H). specialize (H z ltac:(simpl; congruence)). cbv zeta in H. rewrite mdiff_acts in H by (auto; simpl; congruence).
        unfold mdiff in H. cbn [nr nc mmul mtrans] in H. rewrite DA in H. exact H. }
      specialize (M1 _ LPy). specialize (N1 _ Lz). rewrite (en_P z Lz) in N1.
      assert (Pmn : 0 < mu * nu) by (apply fmul_pos; auto).
      apply (@fle_mul_cancel K (mu * nu)); auto.
      set (q := dot (P y) (mulvec dev z)) in *. set (py := dot (P y) (P y)) in *. set (ez := dot (mulvec dev z) (mulvec dev z)) in *. set (zz := dot z z) in *.
      rename c0 into c, HC into Pc.
      assert (Pyy : 0 <= py) by apply dot_nonneg. assert (Pzz : 0 <= zz) by apply dot_nonneg.
      assert (Pey : 0 <= en (P y)) by (apply (energy_nonneg LA SA); auto). assert (Pez : 0 <= en (P z)) by (apply (energy_nonneg LA SA); auto).
      eapply fle_trans; [apply (@fle_mul_l K (mu * nu) _ _ (flt_le Pmn) C)|].
      eapply fle_trans with (nu * (mu * py) * (c * zz)).
      { replace (mu * nu * (py * ez)) with (nu * (mu * py) * ez) by ring. apply fle_mul_l; auto. apply fle_mul; [apply flt_le; auto|]. apply fle_mul; [apply flt_le|]; auto. }
      eapply fle_trans with (c * (nu * zz) * en (P y)).
      { replace (nu * (mu * py) * (c * zz)) with (c * (nu * zz) * (mu * py)) by ring. apply fle_mul_l; auto. apply fle_mul; auto. apply fle_mul; [apply flt_le|]; auto. }
      eapply fle_trans with (c * en (P y) * en (P z)).
      { replace (c * (nu * zz) * en (P y)) with (c * en (P y) * (nu * zz)) by ring. apply fle_mul_l; auto. apply fle_mul; auto. }
      replace (c * en (P y) * en (P z)) with (en (P y) * en (P z) * c) by ring.
      replace (mu * nu * (delta * delta * (en (P y) * en (P z)))) with (en (P y) * en (P z) * (delta * delta * (mu * nu))) by ring.
      apply fle_mul_l; auto. apply fle_mul; auto.
    Qed.
    Lemma coarse_form : forall z, length z = nr R -> dot (mulvec R (mulvec T z)) z = en (P z) + dot (P z) (mulvec dev z).
    Proof.
      intros z Lz. destruct dims as (T1 & T2). pose proof (lin_len LP _ Lz) as L1. pose proof (lin_len LA _ L1) as L2. pose proof (lin_len LE _ Lz) as L3.
      assert (LT : length (mulvec T z) = nc A) by (rewrite mulvec_length; auto).
      rewrite dot_comm. rewrite <- mulTvec_adjoint by (auto; congruence). rewrite T_acts by auto. rewrite dot_add_r by congruence. unfold energy. rewrite (dot_comm (mulvec A (P z))). reflexivity.
    Qed.
    Lemma coarse_pos : forall z, length z = nr R -> z <> vzero (nr R) -> 0 < dot (mulvec R (mulvec T z)) z.
    Proof.
      intros z Lz Nz. rewrite coarse_form by auto. pose proof (lin_len LP _ Lz) as L1. destruct Hneg as (D0 & D1 & _). destruct Hnu as (N0 & N1).
      assert (Pe : 0 < en (P z)).
      { specialize (N1 z Lz). rewrite (en_P z Lz) in N1. apply (@flt_le_trans K _ (nu * dot z z)); auto. apply fmul_pos; auto.
        apply fle_neq_lt; [apply dot_nonneg|]. intros E. apply Nz. symmetry in E. apply dot_self_0 in E. rewrite E, Lz. reflexivity. }
      assert (B := @delta_bound z z Lz Lz). replace (delta * delta * (en (P z) * en (P z))) with (delta * en (P z) * (delta * en (P z))) in B by ring.
      destruct (@square_le _ (delta * en (P z)) (@fle_mul K _ _ D0 (flt_le Pe)) B) as (_ & B2).
      apply flt_sub_0 in D1. apply (@flt_le_trans K _ ((1 - delta) * en (P z))); [apply fmul_pos; auto|]. apply fle_sub_0. apply fle_sub_0 in B2.
      replace (en (P z) + dot (P z) (mulvec dev z) - (1 - delta) * en (P z)) with (dot (P z) (mulvec dev z) - - (delta * en (P z))) by ring. exact B2.
    Qed.
    (** The correction with R T against the exact one. *)
    Lemma coarse_close : forall w z, length w = nr R -> length z = nr R -> mulvec R (mulvec T z) = mulvec R (mulvec A (P w)) ->
      (1 - delta) * (1 - delta) * en (P (vsub w z)) <= delta * delta * en (P w).
    Proof.
      intros w z Lw Lz E. destruct Hneg as (D0 & D1 & _). set (v := vsub w z). assert (Lv : length v = nr R) by (unfold v; vlen).
      pose proof (lin_len LP _ Lw) as LPw. pose proof (lin_len LP _ Lz) as LPz. pose proof (lin_len LP _ Lv) as LPv. pose proof (lin_len LE _ Lz) as LEz.
      pose proof (lin_len LA _ LPw) as LAw. pose proof (lin_len LA _ LPz) as LAz. pose proof (lin_len LA _ LPv) as LAv.
      assert (G : forall y, length y = nr R -> dot (mulvec A (P v)) (P y) = dot (P y) (mulvec dev z)).
      { intros y Ly. pose proof (lin_len LP _ Ly) as LPy. unfold v. rewrite (lin_sub LP), (lin_sub LA) by auto. rewrite dot_sub_l by congruence.
        assert (E1 : dot (mulvec A (P w)) (P y) = dot y (mulvec R (mulvec T z))) by (rewrite E, dot_comm; apply mulTvec_adjoint; auto; congruence).
        rewrite E1, T_acts by auto. rewrite <- mulTvec_adjoint by (auto; rewrite DR; rewrite vadd_length; unfold OField.vec in *; rewrite LAz, LEz; apply Nat.min_id). rewrite dot_add_r by congruence. rewrite (dot_comm (mulvec A (P z))). ring. }
      set (Z := en (P z)). set (W := en (P w)). set (g := en (P v)). set (c := dot (mulvec A (P v)) (P z)).
      assert (PZ : 0 <= Z) by (apply (energy_nonneg LA SA); auto). assert (Pg : 0 <= g) by (apply (energy_nonneg LA SA); auto).
      assert (Eg : g = dot (P v) (mulvec dev z)) by (apply G; auto). assert (Ec : c = dot (P z) (mulvec dev z)) by (apply G; auto).
      assert (B1 := @delta_bound v z Lv Lz). rewrite <- Eg in B1. fold g Z in B1.
      assert (Hg : g <= delta * delta * Z).
      { destruct (feq_dec K g 0) as [->|N]; [apply fle_mul; [apply fsquare_nonneg|auto]|]. apply (@fle_mul_cancel K g); [apply fle_neq_lt; auto|].
        replace (g * (delta * delta * Z)) with (delta * delta * (g * Z)) by ring. exact B1. }
      assert (B2 := @delta_bound z z Lz Lz). rewrite <- Ec in B2. fold Z in B2. replace (delta * delta * (Z * Z)) with (delta * Z * (delta * Z)) in B2 by ring.
      destruct (@square_le _ (delta * Z) (@fle_mul K _ _ D0 PZ) B2) as (_ & B3).
      assert (CS := @energy_cs K (nc A) (mulvec A) LA SA (P v) (P z) LPv LPz). fold c g Z in CS.
      assert (EW : W = Z + (1 + 1) * c + g).
      { assert (X : P w = vadd (P z) (P v)) by (unfold v; rewrite (lin_sub LP) by auto; vx). unfold W, energy. rewrite X, (lin_add LA) by auto. rewrite dot_add_l, !dot_add_r by congruence.
        assert (C : dot (mulvec A (P z)) (P v) = c) by (rewrite (proj1 SA _ _ LPz LPv); apply dot_comm). rewrite C. unfold Z, g, energy, c. ring. }
      assert (HZ : (1 - delta) * (1 - delta) * Z <= W).
      { destruct (feq_dec K Z 0) as [EZ|NZ].
        - rewrite EZ. replace ((1 - delta) * (1 - delta) * 0) with (0 : K) by ring. apply (energy_nonneg LA SA); auto.
        - assert (PZ' : 0 < Z) by (apply fle_neq_lt; auto). apply (@fle_mul_cancel K Z); auto. rewrite EW. apply fle_sub_0 in CS, B3. apply flt_le, fle_sub_0 in D1. apply fle_sub_0.
          replace (Z * (Z + (1 + 1) * c + g) - Z * ((1 - delta) * (1 - delta) * Z)) with
            ((g * Z - c * c) + (c - - (delta * Z)) * ((c - - (delta * Z)) + ((1 - delta) * Z + (1 - delta) * Z))) by ring.
          apply fadd_nonneg; [exact CS|]. apply fle_mul; [exact B3|]. apply fadd_nonneg; [exact B3|]. apply fadd_nonneg; apply fle_mul; auto. }
      eapply fle_trans; [apply (@fle_mul_l K ((1 - delta) * (1 - delta)) _ _ (fsquare_nonneg K _) Hg)|].
      replace ((1 - delta) * (1 - delta) * (delta * delta * Z)) with (delta * delta * ((1 - delta) * (1 - delta) * Z)) by ring. apply fle_mul_l; [apply fsquare_nonneg|exact HZ].
    Qed.

    (** The rate. *)
    Variable B : vec -> vec.
    Variables theta lambda : K.
    Hypothesis LB : linear (nc A) (nc A) B.
    Hypothesis SB : self_adjoint (nc A) B.
    Hypothesis Ht : 0 <= theta.
    Hypothesis Hl : 0 < lambda.
    Hypothesis Htl : theta * lambda <= 1.
    Hypothesis HS : smooths (nc A) (mulvec A) B theta.
    Hypothesis HA : approximates A R lambda.
    Lemma perturbed_rate : forall k x0 y xs, (0 < k)%nat -> length x0 = nc A -> length xs = nc A -> perturbed_two_grid A R T B k (mulvec A xs) x0 y ->
      length y = nc A /\
      en (vsub xs y) <= (1 - theta * lambda + delta / (1 - delta)) * (1 - theta * lambda + delta / (1 - delta)) * en (vsub xs x0).
    Proof.
      intros k x0 y xs Hk Lx Ls (c & Lc & Ec & ->). destruct Hneg as (D0 & D1 & _).
      set (e := vsub xs x0) in *. assert (Le : length e = nc A) by (unfold e; vlen).
      assert (X0 : x0 = vsub xs e) by (unfold e; vx). clearbody e. subst x0.
      rewrite (iter_error LA LB) in * by auto. set (S := error_step (mulvec A) B) in *. set (e1 := iter k S e) in *.
      assert (Le1 : length e1 = nc A) by (unfold e1; apply (iter_len LA LB); auto).
      pose proof (lin_len LP _ Lc) as LPc.
      assert (X : vadd (vsub xs e1) (P c) = vsub xs (vsub e1 (P c))) by vx. rewrite X. clear X.
      rewrite (iter_error LA LB) by (auto; vlen). fold S.
      assert (Lf : length (vsub e1 (P c)) = nc A) by vlen.
      assert (Lg : length (iter k S (vsub e1 (P c))) = nc A) by (apply (iter_len LA LB); auto).
      split; [vlen|].
      assert (X : forall z : vec, length z = nc A -> vsub xs (vsub xs z) = z) by (intros z Hz; vx). rewrite X by auto. clear X.
      pose proof (lin_len LA _ Le1) as LAe1.
      assert (Ec' : mulvec R (mulvec T c) = mulvec R (mulvec A e1)).
      { rewrite Ec. f_equal. rewrite (lin_sub LA) by auto. pose proof (lin_len LA _ Ls). vx. }
      (* the exact correction *)
      assert (SAC : spd (nr R) (fun z => mulvec R (mulvec A (P z)))).
      { split.
        - intros x y Hx Hy. pose proof (lin_len LP _ Hx) as L1. pose proof (lin_len LP _ Hy) as L2. pose proof (lin_len LA _ L1) as L3. pose proof (lin_len LA _ L2) as L4.
          transitivity (dot (mulvec A (P x)) (P y)).
          { rewrite dot_comm. rewrite (dot_comm (mulvec A (P x))). symmetry. apply mulTvec_adjoint; auto. congruence. }
          transitivity (dot (P x) (mulvec A (P y))); [apply (proj1 SA); auto|]. apply mulTvec_adjoint; auto. congruence.
        - intros z Lz Nz. destruct Hnu as (N0 & N1). specialize (N1 z Lz). apply (@flt_le_trans K _ (nu * dot z z)); auto. apply fmul_pos; auto.
          apply fle_neq_lt; [apply dot_nonneg|]. intros E. apply Nz. symmetry in E. apply dot_self_0 in E. rewrite E, Lz. reflexivity. }
      assert (LAC : linear (nr R) (nr R) (fun z => mulvec R (mulvec A (P z)))) by (apply (@lin_comp K (nr R) (nc A) (nr R) (fun z => mulvec A (P z)) (mulvec R)); auto; apply (@lin_comp K (nr R) (nc A) (nc A) P (mulvec A)); auto).
      destruct (spd_onto LAC SAC (mulvec R (mulvec A e1)) (lin_len LR _ LAe1)) as (w & Lw & Ew).
      pose proof (lin_len LP _ Lw) as LPw.
      set (v := vsub w c). assert (Lv : length v = nr R) by (unfold v; vlen). pose proof (lin_len LP _ Lv) as LPv.
      assert (CC := @coarse_close w c Lw Lc ltac:(congruence)). fold v in CC.
      assert (X : vsub e1 (P c) = vadd (vsub e1 (P w)) (P v)) by (unfold v; rewrite (lin_sub LP) by auto; vx). rewrite X.
      assert (Lu : length (vsub e1 (P w)) = nc A) by vlen.
      assert (LSk : linear (nc A) (nc A) (iter k S)) by (apply lin_iter, (@S_linear K (nc A) (mulvec A) B LA LB)).
      rewrite (lin_add LSk) by auto.
      assert (ORT : forall y, length y = nr R -> dot (mulvec A (vsub e1 (P w))) (P y) = 0).
      { intros y Ly. pose proof (lin_len LP _ Ly) as LPy. rewrite dot_comm. rewrite mulTvec_adjoint by (auto; rewrite DR; apply (lin_len LA); auto).
        rewrite (lin_sub LA), (lin_sub LR) by (auto; apply (lin_len LA); auto). cbv beta in Ew. rewrite Ew. rewrite dot_sub_r by reflexivity. ring. }
      assert (Pe : 0 <= en e) by (apply (energy_nonneg LA SA); auto).
      apply flt_sub_0 in D1.
      assert (Nd : 1 - delta <> 0) by (apply pos_neq; auto).
      apply (@energy_tri (nc A)); auto.
      - apply (iter_len LA LB); auto.
      - apply (iter_len LA LB); auto.
      - apply fle_sub_0 in Htl. exact Htl.
      - rewrite (Fdiv_def (f_field K)). apply fle_mul; auto. apply flt_le, finv_pos; auto.
      - apply (@cycle_rate K (nc A) (mulvec A) B LA SA LB SB theta lambda Ht Hl HS (nr R) P LP HA k e w Hk Le Lw). split; auto.
      - eapply fle_trans; [apply (@iter_decreases K (nc A) (mulvec A) B LA LB theta Ht HS); auto|].
        assert (EW : en (P w) <= en e).
        { eapply fle_trans; [|apply (@iter_decreases K (nc A) (mulvec A) B LA LB theta Ht HS k e Le)]. fold S. fold e1.
          assert (X1 : e1 = vadd (vsub e1 (P w)) (P w)) by vx.
          assert (X2 : en e1 = en (vsub e1 (P w)) + en (P w)).
          { rewrite X1 at 1. unfold energy at 1. pose proof (lin_len LA _ Lu) as LAu. pose proof (lin_len LA _ LPw) as LAw. rewrite (lin_add LA) by auto. rewrite dot_add_l, !dot_add_r by congruence.
            assert (C : dot (mulvec A (P w)) (vsub e1 (P w)) = 0) by (rewrite (proj1 SA) by auto; rewrite dot_comm; apply ORT; auto). rewrite C, (ORT w Lw). unfold energy. ring. }
          rewrite X2. apply fle_sub_0. replace (en (vsub e1 (P w)) + en (P w) - en (P w)) with (en (vsub e1 (P w))) by ring. apply (energy_nonneg LA SA); auto. }
        apply (@fle_mul_cancel K ((1 - delta) * (1 - delta))); [apply fmul_pos; auto|]. eapply fle_trans; [exact CC|].
        replace ((1 - delta) * (1 - delta) * (delta / (1 - delta) * (delta / (1 - delta)) * en e)) with (delta * delta * en e) by (field; auto).
        apply fle_mul_l; auto. apply fsquare_nonneg.
    Qed.
  End Pert.

  Lemma exact_joint_pos : forall (A : mat K) (C : vec -> vec -> vec), nr A = nc A -> (forall v, length v = nc A -> v <> vzero (nc A) -> 0 < dot (mulvec A v) v) ->
    exact_solver A C -> jointly_linear (nc A) C.
  Proof.
    intros A C D PA HC s t b c x y Hb Hc Hx Hy.
    assert (HL : linear (nc A) (nc A) (mulvec A)) by (pose proof (mulvec_linear A) as X; rewrite D in X; exact X).
    destruct (HC b x Hb Hx) as (L1 & E1). destruct (HC c y Hc Hy) as (L2 & E2).
    destruct (HC (vadd (vscale s b) (vscale t c)) (vadd (vscale s x) (vscale t y))) as (L3 & E3); try vlen.
    set (u := C (vadd (vscale s b) (vscale t c)) (vadd (vscale s x) (vscale t y))) in *. set (w := vadd (vscale s (C b x)) (vscale t (C c y))).
    assert (Lw : length w = nc A) by (unfold w; vlen).
    assert (E : mulvec A u = mulvec A w) by (unfold w; rewrite (lin_add HL) by vlen; rewrite !(lin_scale HL) by auto; congruence).
    assert (Ld : length (vsub u w) = nc A) by vlen.
    assert (Z : mulvec A (vsub u w) = vzero (nc A)) by (rewrite (lin_sub HL), E by auto; pose proof (lin_len HL _ Lw); vx).
    assert (N : vsub u w = vzero (nc A) \/ vsub u w <> vzero (nc A)).
    { destruct (feq_dec K (dot (vsub u w) (vsub u w)) 0) as [N|N]; [left; apply dot_self_0 in N; rewrite N, Ld; reflexivity|right; intros X; apply N; rewrite X; apply dot_zero_l]. }
    destruct N as [N|N].
    - assert (X : u = vadd w (vsub u w)) by vx. rewrite X, N. vx.
    - exfalso. specialize (PA _ Ld N). rewrite Z, dot_zero_l in PA. exact (flt_irrefl PA).
  Qed.
  Section Hier.
  Variable parse_double : string -> option K.
  Variable cg : N -> nat -> (vec -> vec) -> vec -> option (K * K).
  Variable autod : K -> K -> K -> N.
  Variable accepts_double : string -> bool.
  Variable mk : ptree -> outcome (mat K * mat K).
  Variable ml_vmult : ml_list -> mat K -> vec -> vec.
  Variable eps : K.
  Variable n : nat.
  Variable f : vec -> vec.
  Variable dinv : vec.
  Notation hh := (mf_helpers parse_double cg autod n f dinv accepts_double mk ml_vmult).


  Lemma truncated_within : forall A R : mat K, is_matrix n f A -> nc R = n -> 0 <= eps -> within eps (matrix_transpose_matrix_multiply eps n f R) (mmul A (mtrans R)).
  Proof.
    intros A R (D1 & D2 & D3) DR He. split; [symmetry; exact D1|]. split; [reflexivity|]. intros i j Hi Hj. cbn [nr nc mmul mtrans] in Hi, Hj.
    cbn [ent matrix_transpose_matrix_multiply]. cbv zeta.
    assert (LR : length (row R j) = n) by (rewrite <- DR; unfold row; vlen).
    rewrite D3 by auto.
    assert (V : nth i (mulvec A (row R j)) 0 = ent (mmul A (mtrans R)) i j).
    { rewrite nth_mulvec by lia. cbn [ent mmul mtrans]. apply sumn_ext. intros k Hk. f_equal. unfold row. rewrite D2, <- DR in Hk.
      rewrite (nth_indep _ 0 (ent R j 0%nat)) by vlen. rewrite (map_nth (fun j0 => ent R j j0) (seq 0 (nc R)) 0%nat k). rewrite seq_nth by auto. reflexivity. }
    rewrite V. apply dropped_error; auto.
    - intros L. apply fltb_lt in L. rewrite L. reflexivity.
    - intros L. destruct (fltb eps (fabs (ent (mmul A (mtrans R)) i j))) eqn:Q; auto. apply fltb_lt in Q. exfalso. exact (flt_irrefl (@flt_le_trans K _ _ _ Q L)).
  Qed.
  (** Construction and vmult: the two-grid cycle with the Chebyshev smoother and the coarse matrix R T, T within the threshold of A R^T. *)
  Lemma mf_two_level_near : forall te0 dbg p A d lo hi dmax th mu nu delta, is_matrix n f A -> spd n (mulvec A) -> inverse_diagonal n d dinv -> c_levels p = 2%Z ->
    dealii_solver_kind accepts_double p = Ok KDirect -> matrix_free_smoother_kind p = Ok KChebyshev ->
    cg 8%N n f dinv = Some (lo, hi) -> usable_estimate n f d (pt_get parse_double ["smoother"; "smoothing_range"]%string 0 p) lo hi ->
    0 < dmax -> (forall i, (i < n)%nat -> nth i d 0 <= dmax) ->
    cheb_gain dmax (interval_low (pt_get parse_double ["smoother"; "smoothing_range"]%string 0 p) lo (fpos 12 / fpos 10 * hi)) (fpos 12 / fpos 10 * hi) th ->
    pt_find p ["eigensolver"%string] <> None -> pt_find p ["agglomeration"%string] <> None ->
    forall R AP c0, mk p = Ok (R, AP) -> nc R = n -> 0 <= c0 ->
    off_by c0 (if pt_get parse_bool ["fast_ap"%string] false p then AP else matrix_transpose_matrix_multiply eps n f R) (mmul A (mtrans R)) ->
    above (nc A) (mulvec A) mu -> above (nr R) (fun z => mulvec R (mulvec A (mulTvec R z))) nu -> minor c0 mu nu delta ->
    exists B, linear n n B /\ self_adjoint n B /\ smooths n (mulvec A) B th /\ exists T, off_by c0 T (mmul A (mtrans R)) /\
    exists h s l, construct hh eps te0 dbg (Ok tt) (Some p) None = (Ok h, s, l) /\
      forall te x b l, open_sections l = [] -> length x = n -> length b = n ->
        exists y l', hierarchy_vmult te h x b l = (Ok y, l') /\ open_sections l' = [] /\
          perturbed_two_grid A R T B (c_steps p) b (if c_prec p then vzero n else x) y.
  Proof.
    intros te0 dbg p A d lo hi dmax th mu nu delta IM S HD HL CK SK CG U Hd HM Hth PE PA R AP c0 EM DR Hc0 PO Hmu Hnu Hneg.
    destruct (@matrix_linear K cg autod eps n f dinv A IM S) as (LF & SF). pose proof IM as (D1 & D2 & D3).
    set (data := mf_cheb_data parse_double p). set (B := cheb_vmult cg autod data n f dinv).
    assert (I8 : cd_eig_cg_n_iterations data <> 0%N) by (unfold data; rewrite iterations_read; discriminate).
    assert (CG' : cg (cd_eig_cg_n_iterations data) n f dinv = Some (lo, hi)) by (unfold data; rewrite iterations_read; exact CG).
    assert (RR : cd_smoothing_range data = pt_get parse_double ["smoother"; "smoothing_range"]%string 0 p) by (unfold data; apply range_read).
    rewrite <- RR in U, Hth.
    destruct (@cheb_vmult_good K cg autod data n f d dinv lo hi LF SF HD I8 CG' U) as (MB & G). fold B in MB, G.
    assert (SB := @cheb_vmult_smooths K cg autod data n f d dinv lo hi dmax th LF SF HD I8 CG' U Hd HM Hth). fold B in SB.
    destruct G as (C & LC & SC & _ & E4).
    assert (EB : forall r, length r = n -> B r = C r) by (apply (same_steps LF MB (lin_len LC)); exact E4).
    assert (LB : linear n n B).
    { constructor; [exact MB| |].
      - intros x y Hx Hy. rewrite !EB by (auto; vlen). apply (lin_add LC); auto.
      - intros s x Hx. rewrite !EB by (auto; vlen). apply (lin_scale LC); auto. }
    assert (AB : self_adjoint n B) by (intros x y Hx Hy; rewrite !EB by auto; apply SC; auto).
    assert (Lf := lin_len LF).
    assert (SMA : smooths n (mulvec A) B th).
    { intros e He. specialize (SB e He). unfold energy, error_step in *. rewrite <- (D3 e He). assert (L1 := MB _ (Lf e He)). rewrite <- D3 by vlen. exact SB. }
    exists B. split; [exact LB|]. split; [exact AB|]. split; [exact SMA|].
    set (ap := if pt_get parse_bool ["fast_ap"%string] false p then AP else matrix_transpose_matrix_multiply eps n f R).
    assert (EQ : off_by c0 ap (mmul A (mtrans R))) by exact PO.
    exists ap. split; [exact EQ|].
    assert (DA : nr A = nc A) by congruence. rewrite <- D2 in LB, AB, SMA, S.
    assert (DRA : nc R = nc A) by congruence.
    set (g := correction_step (mulvec A) B).
    set (Ac := mmul R ap).
    pose proof EQ as (M1 & M2 & M3). cbn [nr nc mmul mtrans] in M1, M2.
    assert (E : forall x, mulvec Ac x = mulvec R (mulvec ap x)) by (intros x; unfold Ac; rewrite mulvec_mmul by congruence; reflexivity).
    assert (DD1 : nr Ac = nc Ac) by (unfold Ac; simpl; congruence).
    assert (DD2 : nr R = nc Ac) by (unfold Ac; simpl; congruence).
    assert (PAC : forall v, length v = nc Ac -> v <> vzero (nc Ac) -> 0 < dot (mulvec Ac v) v).
    { intros v Lv Nv. rewrite E. rewrite <- DD2 in Lv, Nv. apply (@coarse_pos A R ap c0 mu nu delta DA S DRA Hc0 EQ Hmu Hnu Hneg); auto. }
    assert (LA : linear (nc A) (nc A) (mulvec A)) by (pose proof (mulvec_linear A) as X; rewrite DA in X; exact X).
    set (CS := fun b (_ : vec) => direct_solve Ac b).
    assert (XC : exact_solver Ac CS) by (intros b x Hb _; apply direct_pos; auto).
    set (ds := [mkFine (nc A) (mulvec A) g (mulvec R) (mulTvec R)]).
    set (lv := mkLevel (Some (MfOp n f)) None (Some (smoother_apply (MfOp n f) B)) None).
    eassert (X : exists lc h', built hh eps (c_params p) None (MfOp n f) None [lv; lc] h' /\ describes lv [lc] ds (nc Ac) CS).
    { unfold c_params. rewrite HL. cbn [Z.eqb Pos.eqb].
      eexists (mkLevel (Some (TriOp Ac)) (Some (TriOp R)) None (Some _)), _. split.
      { unfold lv. eapply built_cons with (h1 := None) (r := TriOp R) (h2 := if pt_get parse_bool ["fast_ap"%string] false p then Some (TriOp AP) else None)
          (ap := TriOp ap) (h3 := if pt_get parse_bool ["fast_ap"%string] false p then Some (TriOp AP) else None).
        - cbn [hh_build_smoother mf_helpers]. unfold mf_build_smoother. rewrite SK. reflexivity.
        - cbn [hh_build_restrictor mf_helpers]. unfold host_build_restrictor. destruct (pt_find p ["eigensolver"%string]); [|congruence]. destruct (pt_find p ["agglomeration"%string]); [|congruence].
          rewrite EM. destruct (pt_get parse_bool ["fast_ap"%string] false p); reflexivity.
        - unfold product_from, ap. destruct (pt_get parse_bool ["fast_ap"%string] false p); cbn [hh_fast_multiply_transpose mf_helpers deref]; auto.
          cbn [op_multiply_transpose]. rewrite DR, Nat.eqb_refl. auto.
        - cbn [op_multiply]. replace (nc R =? nr ap)%nat with true by (symmetry; apply Nat.eqb_eq; congruence). reflexivity.
        - constructor. cbn [hh_build_coarse_solver mf_helpers]. unfold host_build_coarse_solver. rewrite CK. reflexivity. }
      eapply describes_fine; simpl; [reflexivity| |reflexivity| |reflexivity| | |].
      - rewrite D2. split; [reflexivity|]. split; [reflexivity|]. intros x y Hx Hy. cbn [op_apply]. rewrite Hx, Hy, Nat.eqb_refl. cbn [andb]. rewrite D3 by auto. split; auto.
        rewrite mulvec_length. auto.
      - rewrite D2. intros b x Hb Hx. destruct (@mf_smoother_acts K n f B Lf MB b x Hb Hx) as (Q1 & Q2). unfold g. unfold correction_step in *. rewrite <- D3 by auto. split; assumption.
      - replace (nc ap) with (nr R) by (symmetry; exact M2). rewrite <- DRA. apply op_acts_tri.
      - replace (nc ap) with (nr R) by (symmetry; exact M2). rewrite <- DRA. apply opT_acts_tri.
      - eapply describes_coarsest; simpl; [reflexivity|reflexivity|reflexivity|].
        intros b x Hb Hx. cbn [nc mmul] in Hb, Hx. rewrite Hb, Hx. replace (nr R) with (nc ap) by exact M2. rewrite !Nat.eqb_refl. simpl. split; auto.
        exact (proj1 (@direct_pos Ac DD1 PAC b Hb)). }
    destruct X as (lc & h' & X4 & X5).
    destruct (@construct_complete K _ hh eps te0 dbg p None (MfOp n f) None [lv; lc] h') as (l & EC); [lia|reflexivity|rewrite HL; reflexivity|exact X4|].
    eexists _, _, l. split; [exact EC|].
    intros te x b l0 O Hx Hb. rewrite <- D2 in Hx, Hb |- *.
    destruct (describes_sized X5) as (Sz & LCS & _).
    destruct (@vmult_ok K te (mkHierarchy [lv; lc] (c_prec p) (c_steps p)) lv [lc] ds (nc Ac) CS eq_refl X5 (or_intror (le_n 2)) x b l0 O Hb Hx) as (t & l' & N & RL & V).
    cbn [h_n_smoothing_steps h_is_preconditioner] in V. change (top_size ds (nc Ac)) with (nc A) in V.
    set (x0 := if c_prec p then vzero (nc A) else x) in *.
    assert (Hx0 : length x0 = nc A) by (unfold x0; destruct (c_prec p); auto; apply vzero_length).
    eexists _, l'. split; [exact V|]. split.
    { rewrite <- (rev_involutive l'), RL. rewrite rev_app_distr, rev_involutive. unfold trace. destruct (t_present te); auto. rewrite open_nested; auto. }
    rewrite cyc_textbook; auto.
    - cbn [textbook_vcycle ds fS fA fR fP top_size]. set (u := iter (c_steps p) (g b) x0).
      assert (Lg : forall w, length w = nc A -> length (g b w) = nc A).
      { intros w Hw. assert (LA' := lin_len LA w Hw). unfold g, correction_step. assert (Lv : length (vsub (mulvec A w) b) = nc A) by vlen. pose proof (lin_len LB _ Lv). vlen. }
      assert (Lu : length u = nc A).
      { unfold u. clear - Lg Hx0. generalize (c_steps p). revert Hx0. generalize x0. intros z Hz k. revert z Hz. induction k as [|k IH]; intros z Hz; simpl; auto. }
      assert (Lr : length (mulvec R (vsub b (mulvec A u))) = nc Ac) by (rewrite mulvec_length; exact DD2).
      fold g. fold u. exists (CS (mulvec R (vsub b (mulvec A u))) (vzero (nc Ac))).
      destruct (XC _ (vzero (nc Ac)) Lr (vzero_length _ _)) as (Q1 & Q2). split; [congruence|]. split; [rewrite <- E; exact Q2|reflexivity].
    - cbn [linear_levels ds fn fA fS fR fP top_size]. split; [exact LA|]. split; [apply step_linear; auto|]. split; [|split; [|exact I]].
      + rewrite <- DRA, <- DD2. apply mulvec_linear.
      + rewrite <- DRA, <- DD2. apply (mulvec_linear (mtrans R)).
    - apply exact_joint_pos; auto.
  Qed.


  Lemma mf_rate_off : forall te0 dbg p A d lo hi dmax th mu nu delta lambda, is_matrix n f A -> spd n (mulvec A) -> inverse_diagonal n d dinv -> (0 < c_steps p)%nat -> c_levels p = 2%Z ->
    dealii_solver_kind accepts_double p = Ok KDirect -> matrix_free_smoother_kind p = Ok KChebyshev ->
    cg 8%N n f dinv = Some (lo, hi) -> usable_estimate n f d (pt_get parse_double ["smoother"; "smoothing_range"]%string 0 p) lo hi ->
    0 < dmax -> (forall i, (i < n)%nat -> nth i d 0 <= dmax) -> 0 <= th ->
    cheb_gain dmax (interval_low (pt_get parse_double ["smoother"; "smoothing_range"]%string 0 p) lo (fpos 12 / fpos 10 * hi)) (fpos 12 / fpos 10 * hi) th ->
    pt_find p ["eigensolver"%string] <> None -> pt_find p ["agglomeration"%string] <> None ->
    forall R AP c0, mk p = Ok (R, AP) -> nc R = n -> 0 <= c0 ->
    off_by c0 (if pt_get parse_bool ["fast_ap"%string] false p then AP else matrix_transpose_matrix_multiply eps n f R) (mmul A (mtrans R)) ->
    above (nc A) (mulvec A) mu -> above (nr R) (fun z => mulvec R (mulvec A (mulTvec R z))) nu -> minor c0 mu nu delta ->
    0 < lambda -> th * lambda <= 1 -> approximates A R lambda ->
    exists h s l, construct hh eps te0 dbg (Ok tt) (Some p) None = (Ok h, s, l) /\
      forall te x xs l, open_sections l = [] -> length x = nc A -> length xs = nc A ->
        exists y l', hierarchy_vmult te h x (mulvec A xs) l = (Ok y, l') /\ open_sections l' = [] /\ length y = nc A /\
          energy (mulvec A) (vsub xs y) <= (1 - th * lambda + delta / (1 - delta)) * (1 - th * lambda + delta / (1 - delta)) *
            energy (mulvec A) (vsub xs (if c_prec p then vzero (nc A) else x)).
  Proof.
    intros te0 dbg p A d lo hi dmax th mu nu delta lambda IM S HD HK HL CK SK CG U Hd HM Ht Hth PE PA R AP c0 EM DR He PO Hmu Hnu Hneg Hl Htl AX.
    destruct (@mf_two_level_near te0 dbg p A d lo hi dmax th mu nu delta IM S HD HL CK SK CG U Hd HM Hth PE PA R AP c0 EM DR He PO Hmu Hnu Hneg)
      as (B & LB & SB & SM & T & HT & h & s & l & EC & V).
    exists h, s, l. split; [exact EC|]. intros te x xs l0 O Hx Hs. pose proof IM as (D1 & D2 & D3). rewrite D2 in Hx, Hs.
    destruct (V te x (mulvec A xs) l0 O Hx ltac:(rewrite mulvec_length; auto)) as (y & l' & V1 & V2 & V3). rewrite <- D2 in *.
    destruct (@perturbed_rate A R T c0 mu nu delta ltac:(congruence) S ltac:(congruence) He HT Hmu Hnu Hneg B th lambda LB SB Ht Hl Htl SM AX
      (c_steps p) (if c_prec p then vzero (nc A) else x) y xs HK) as (Ly & EN); auto.
    - destruct (c_prec p); auto. apply vzero_length.
    - exists y, l'. auto.
  Qed.
  Lemma mf_rate_near : forall te0 dbg p A d lo hi dmax th mu nu delta lambda, is_matrix n f A -> spd n (mulvec A) -> inverse_diagonal n d dinv -> (0 < c_steps p)%nat -> c_levels p = 2%Z ->
    dealii_solver_kind accepts_double p = Ok KDirect -> matrix_free_smoother_kind p = Ok KChebyshev ->
    cg 8%N n f dinv = Some (lo, hi) -> usable_estimate n f d (pt_get parse_double ["smoother"; "smoothing_range"]%string 0 p) lo hi ->
    0 < dmax -> (forall i, (i < n)%nat -> nth i d 0 <= dmax) -> 0 <= th ->
    cheb_gain dmax (interval_low (pt_get parse_double ["smoother"; "smoothing_range"]%string 0 p) lo (fpos 12 / fpos 10 * hi)) (fpos 12 / fpos 10 * hi) th ->
    pt_find p ["eigensolver"%string] <> None -> pt_find p ["agglomeration"%string] <> None ->
    forall R AP, mk p = Ok (R, AP) -> nc R = n -> 0 <= eps -> (pt_get parse_bool ["fast_ap"%string] false p = true -> within eps AP (mmul A (mtrans R))) ->
    above (nc A) (mulvec A) mu -> above (nr R) (fun z => mulvec R (mulvec A (mulTvec R z))) nu -> negligible (nc A) (nr R) eps mu nu delta ->
    0 < lambda -> th * lambda <= 1 -> approximates A R lambda ->
    exists h s l, construct hh eps te0 dbg (Ok tt) (Some p) None = (Ok h, s, l) /\
      forall te x xs l, open_sections l = [] -> length x = nc A -> length xs = nc A ->
        exists y l', hierarchy_vmult te h x (mulvec A xs) l = (Ok y, l') /\ open_sections l' = [] /\ length y = nc A /\
          energy (mulvec A) (vsub xs y) <= (1 - th * lambda + delta / (1 - delta)) * (1 - th * lambda + delta / (1 - delta)) *
            energy (mulvec A) (vsub xs (if c_prec p then vzero (nc A) else x)).
  Proof.
    intros te0 dbg p A d lo hi dmax th mu nu delta lambda IM S HD HK HL CK SK CG U Hd HM Ht Hth PE PA R AP EM DR He PO Hmu Hnu Hneg Hl Htl AX. pose proof IM as (D1 & D2 & D3).
    assert (W : within eps (if pt_get parse_bool ["fast_ap"%string] false p then AP else matrix_transpose_matrix_multiply eps n f R) (mmul A (mtrans R))).
    { destruct (pt_get parse_bool ["fast_ap"%string] false p); auto. apply truncated_within; auto. }
    apply within_off in W. cbn [nr nc mmul mtrans] in W. replace (nr A) with (nc A) in W by congruence.
    refine (@mf_rate_off te0 dbg p A d lo hi dmax th mu nu delta lambda IM S HD HK HL CK SK CG U Hd HM Ht Hth PE PA R AP _ EM DR _ W Hmu Hnu Hneg Hl Htl AX).
    apply fle_mul; [apply fle_mul; apply fnat_nonneg|apply fsquare_nonneg].
  Qed.
  End Hier.
End P.
