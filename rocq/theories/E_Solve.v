(** An exact solver library over any ordered field, to show that the contract of S_DevSolve can be met: Gaussian elimination with pivoting and a
    test for positive definiteness. Examples only. No counterpart in /repo. *)
From Coq Require Import String List Arith Lia Bool Permutation Field.
From Verif Require Import Base OField Mat M_Csr S_Csr M_Dev S_CudaOp S_Eig M_DevSolve S_DevSolve.
Import ListNotations.
Set Implicit Arguments.
Open Scope nat_scope.

Section E.
  Variable K : ofield.
  Add Field KfESolve : (f_field K).
  Local Open Scope K_scope.
  Notation vec := (vec K).
  Implicit Types (M : list (list K)) (p r x z : list K).

  Definition head r : K := hd 0 r.
  Definition reduce p r : list K := tl (vsub r (vscale (head r / head p) p)).
  Fixpoint pick M : option (list K * list (list K)) :=
    match M with
    | [] => None
    | r :: t => if feqb (head r) 0 then match pick t with Some (p, rest) => Some (p, r :: rest) | None => None end else Some (r, t)
    end.
  (** Rows of length n + 1, the last element is the right-hand side. *)
  Fixpoint gauss (n : nat) M : option (list K) :=
    match n with
    | O => Some []
    | S n' => match pick M with
              | None => None
              | Some (p, rest) => match gauss n' (map (reduce p) rest) with
                                  | None => None
                                  | Some y => Some (- (dot (tl p) (y ++ [- (1)])) / head p :: y)
                                  end
              end
    end.
  Lemma pick_some : forall M p rest, pick M = Some (p, rest) -> Permutation M (p :: rest) /\ head p <> 0.
  Proof.
    induction M as [|r M IH]; intros p rest H; [discriminate|]. cbn [pick] in H. destruct (feqb (head r) 0) eqn:E.
    - destruct (pick M) as [[q t]|]; [|discriminate]. injection H as <- <-. destruct (IH q t eq_refl) as [H1 H2]. split; auto.
      rewrite H1. apply perm_swap.
    - injection H as <- <-. split; auto. intros Q. apply feqb_eq in Q. congruence.
  Qed.
  Lemma pick_none : forall M, pick M = None -> forall r, In r M -> head r = 0.
  Proof.
    induction M as [|a M IH]; intros H r Hr; [contradiction|]. cbn [pick] in H. destruct (feqb (head a) 0) eqn:E; [|discriminate].
    destruct (pick M) as [[q t]|]; [discriminate|]. destruct Hr as [<-|Hr]; auto. apply feqb_eq. auto.
  Qed.
  Lemma dot_head : forall r a w, length r = S (length w) -> dot r (a :: w) = head r * a + dot (tl r) w.
  Proof. intros [|b r] a w H; [discriminate|]. reflexivity. Qed.
  Lemma reduce_length : forall n p r, length p = S n -> length r = S n -> length (reduce p r) = n.
  Proof.
    intros n p r Hp Hr. unfold reduce. assert (Q : length (vsub r (vscale (head r / head p) p)) = S n) by (rewrite vsub_length, vscale_length; lia).
    destruct (vsub r (vscale (head r / head p) p)); simpl in *; lia.
  Qed.
  Lemma reduce_dot : forall p r a w, length p = S (length w) -> length r = S (length w) -> head p <> 0 ->
    dot (reduce p r) w = dot r (a :: w) - head r / head p * dot p (a :: w).
  Proof.
    intros p r a w Hp Hr Hh. unfold reduce. assert (L : length r = length (vscale (head r / head p) p)) by (rewrite vscale_length; lia).
    transitivity (dot (vsub r (vscale (head r / head p) p)) (a :: w)).
    - rewrite (@dot_head (vsub r _)) by (rewrite vsub_length; lia). replace (head (vsub r (vscale (head r / head p) p))) with (0 : K); [ring|].
      destruct r as [|b r]; [discriminate|]. destruct p as [|d p]; [discriminate|]. unfold head, vsub, vscale in *. cbn [hd map vmap2] in *. field. auto.
    - rewrite dot_sub_l by auto. rewrite dot_scale_l. auto.
  Qed.
  Lemma back_subst : forall p w, length p = S (length w) -> head p <> 0 -> dot p (- (dot (tl p) w) / head p :: w) = 0.
  Proof. intros p w Hp Hh. rewrite dot_head by auto. field. auto. Qed.

  Definition rows_of_length (n : nat) M : Prop := forall r, In r M -> length r = n.
  Lemma rest_ok : forall n M p rest, rows_of_length (S (S n)) M -> length M = S n -> Permutation M (p :: rest) ->
    length p = S (S n) /\ rows_of_length (S n) (map (reduce p) rest) /\ length (map (reduce p) rest) = n /\ rows_of_length (S (S n)) rest.
  Proof.
    intros n M p rest H Hl P. assert (Hp : length p = S (S n)). { apply H. apply (Permutation_in p (Permutation_sym P)). simpl; auto. }
    assert (Hr : rows_of_length (S (S n)) rest). { intros r Hr. apply H. apply (Permutation_in r (Permutation_sym P)). simpl; auto. }
    split; auto. split; [|split; auto].
    - intros r Hr'. apply in_map_iff in Hr'. destruct Hr' as [q [<- Hq]]. apply reduce_length; auto.
    - rewrite map_length. apply Permutation_length in P. simpl in P. lia.
  Qed.
  Lemma gauss_some : forall n M x, rows_of_length (S n) M -> length M = n -> gauss n M = Some x ->
    length x = n /\ (forall r, In r M -> dot r (x ++ [- (1)]) = 0) /\
    forall z, length z = n -> (forall r, In r M -> dot r (z ++ [0]) = 0) -> z = vzero n.
  Proof.
    induction n as [|n IH]; intros M x H Hl E; cbn [gauss] in E.
    - injection E as <-. destruct M; [|discriminate]. split; auto. split; [contradiction|]. intros [|a z] Hz _; [auto|discriminate].
    - destruct (pick M) as [[p rest]|] eqn:Ep; [|discriminate]. destruct (pick_some M Ep) as [P Hh].
      destruct (rest_ok H Hl P) as [Hp [Hr1 [Hr2 Hr3]]]. destruct (gauss n (map (reduce p) rest)) as [y|] eqn:Ey; [|discriminate]. injection E as <-.
      destruct (IH _ y Hr1 Hr2 Ey) as [Ly [Sy Uy]].
      assert (L1 : length p = S (length (y ++ [- (1) : K]))) by (rewrite app_length; simpl; lia).
      split; [simpl; lia|]. split.
      + intros r Hr. cbn [app]. apply (Permutation_in r P) in Hr. destruct Hr as [<-|Hr]; [apply back_subst; auto|].
        pose proof (@reduce_dot p r (- (dot (tl p) (y ++ [- (1)])) / head p) (y ++ [- (1)]) L1) as Q.
        rewrite back_subst in Q by auto. rewrite Sy in Q by (apply in_map; auto). assert (L2 : length r = S (length (y ++ [- (1) : K]))) by (rewrite (Hr3 r Hr), app_length; simpl; lia).
        specialize (Q L2 Hh). match type of Q with _ = ?d - ?c * 0 => transitivity (d - c * 0); [ring|auto] end.
      + intros z Hz Hk. destruct z as [|a z]; [discriminate|]. simpl in Hz. assert (Lz : length p = S (length (z ++ [0 : K]))) by (rewrite app_length; simpl; lia).
        assert (Kp : dot p (a :: z ++ [0]) = 0). { apply Hk. apply (Permutation_in p (Permutation_sym P)). simpl; auto. }
        assert (Z : z = vzero n).
        { apply Uy; [lia|]. intros q Hq. apply in_map_iff in Hq. destruct Hq as [r [<- Hr]].
          rewrite (@reduce_dot p r a (z ++ [0])) by (auto; rewrite (Hr3 r Hr); rewrite app_length; simpl; lia).
          rewrite Kp. assert (Kr : dot r (a :: z ++ [0]) = 0). { apply Hk. apply (Permutation_in r (Permutation_sym P)). simpl; auto. }
          rewrite Kr. ring. }
        subst z. replace (vzero n ++ [0]) with (@vzero K (S n)) in Kp.
        * rewrite dot_head in Kp by (rewrite vzero_length; lia). rewrite dot_zero_r in Kp.
          assert (Q : head p * a = 0) by (rewrite <- Kp; ring). apply fmul_eq_0 in Q. destruct Q as [Q|Q]; [congruence|]. rewrite Q. reflexivity.
        * unfold vzero. clear. induction n; simpl; auto. f_equal. auto.
  Qed.
  Lemma gauss_none : forall n M, rows_of_length (S n) M -> length M = n -> gauss n M = None ->
    exists z, length z = n /\ z <> vzero n /\ forall r, In r M -> dot r (z ++ [0]) = 0.
  Proof.
    induction n as [|n IH]; intros M H Hl E; cbn [gauss] in E; [discriminate|].
    assert (Zn : forall k, vzero k ++ [0] = @vzero K (S k)) by (unfold vzero; induction k; simpl; auto; f_equal; auto).
    destruct (pick M) as [[p rest]|] eqn:Ep.
    - destruct (pick_some M Ep) as [P Hh]. destruct (rest_ok H Hl P) as [Hp [Hr1 [Hr2 Hr3]]].
      destruct (gauss n (map (reduce p) rest)) as [y|] eqn:Ey; [discriminate|]. destruct (IH _ Hr1 Hr2 Ey) as [y [Ly [Ny Ky]]].
      assert (L1 : length p = S (length (y ++ [0 : K]))) by (rewrite app_length; simpl; lia).
      exists (- (dot (tl p) (y ++ [0])) / head p :: y). split; [simpl; lia|]. split; [intros Q; apply Ny; injection Q; auto|].
      intros r Hr. cbn [app]. apply (Permutation_in r P) in Hr. destruct Hr as [<-|Hr]; [apply back_subst; auto|].
      pose proof (@reduce_dot p r (- (dot (tl p) (y ++ [0])) / head p) (y ++ [0]) L1) as Q.
      rewrite back_subst in Q by auto. rewrite Ky in Q by (apply in_map; auto). assert (L2 : length r = S (length (y ++ [0 : K]))) by (rewrite (Hr3 r Hr), app_length; simpl; lia).
        specialize (Q L2 Hh). match type of Q with _ = ?d - ?c * 0 => transitivity (d - c * 0); [ring|auto] end.
    - exists (1 :: vzero n). split; [simpl; rewrite vzero_length; auto|]. split.
      + intros Q. unfold vzero in Q. simpl in Q. injection Q as Q. apply (@f1_neq_0 K Q).
      + intros r Hr. cbn [app]. rewrite Zn, dot_head by (rewrite (H r Hr), vzero_length; auto). rewrite (pick_none M Ep r Hr), dot_zero_r. ring.
  Qed.

  (** Matrices as lists of rows. *)
  Definition lists (A : mat K) : list (list K) := map (row A) (seq 0 (nr A)).
  Definition augmented (A : mat K) (b : list K) : list (list K) := map (fun i => row A i ++ [nth i b 0]) (seq 0 (nr A)).
  Lemma dot_snoc : forall (a b : list K) (s t : K), length a = length b -> dot (a ++ [s]) (b ++ [t]) = dot a b + s * t.
  Proof. induction a as [|x a IH]; intros [|y b] s t H; try discriminate; simpl; [ring|]. rewrite IH by (simpl in H; lia). ring. Qed.
  Lemma row_dot : forall (A : mat K) i x, (i < nr A)%nat -> length x = nc A -> dot (row A i) x = nth i (mulvec A x) 0.
  Proof.
    intros A i x Hi Hx. rewrite nth_mulvec by auto. rewrite (@dot_sumn K _ _ (nc A)) by (auto; apply row_length). apply sumn_ext. intros j Hj.
    rewrite nth_row by auto. auto.
  Qed.
  (** The solver for square matrices. *)
  Definition solve_mat (A : mat K) (b : list K) : option (list K) := gauss (nr A) (augmented A b).
  Lemma solve_mat_ok : forall A b, nr A = nc A -> length b = nr A ->
    match solve_mat A b with
    | Some x => length x = nr A /\ mulvec A x = b /\ regular A
    | None => ~ regular A
    end.
  Proof.
    intros A b Hsq Hb. assert (H1 : rows_of_length (S (nr A)) (augmented A b)).
    { intros r Hr. apply in_map_iff in Hr. destruct Hr as [i [<- _]]. rewrite app_length, row_length. simpl. lia. }
    assert (H2 : length (augmented A b) = nr A) by (unfold augmented; rewrite map_length, seq_length; auto).
    unfold solve_mat. destruct (gauss (nr A) (augmented A b)) as [x|] eqn:E.
    - destruct (gauss_some H1 H2 E) as [L [S U]]. split; auto. split.
      + apply vec_ext; [rewrite mulvec_length; auto|]. intros i Hi. rewrite mulvec_length in Hi.
        assert (Q : dot (row A i ++ [nth i b 0]) (x ++ [- (1)]) = 0). { apply S. apply in_map_iff. exists i. split; auto. apply in_seq. lia. }
        rewrite dot_snoc in Q by (rewrite row_length; congruence). rewrite row_dot in Q by (auto; congruence).
        transitivity ((nth i (mulvec A x) 0 + nth i b 0 * - (1)) + nth i b 0); [ring|]. rewrite Q. ring.
      + intros z Hz Ez. rewrite <- Hsq. apply U; [congruence|]. intros r Hr. apply in_map_iff in Hr. destruct Hr as [i [<- Hi]]. apply in_seq in Hi.
        rewrite dot_snoc by (rewrite row_length; auto). rewrite row_dot by (auto; lia). rewrite Ez, nth_vzero. ring.
    - destruct (gauss_none H1 H2 E) as [z [L [N Z]]]. intros R. apply N. rewrite Hsq. apply R; [congruence|].
      apply vec_ext; [rewrite mulvec_length, vzero_length; auto|]. intros i Hi. rewrite mulvec_length in Hi. rewrite nth_vzero.
      assert (Q : dot (row A i ++ [nth i b 0]) (z ++ [0]) = 0). { apply Z. apply in_map_iff. exists i. split; auto. apply in_seq. lia. }
      rewrite dot_snoc in Q by (rewrite row_length; congruence). rewrite row_dot in Q by (auto; congruence).
      transitivity (nth i (mulvec A z) 0 + nth i b 0 * 0); [ring|auto].
  Qed.
  (** Whether it is regular. *)
  Definition regular_b (A : mat K) : bool := match solve_mat A (vzero (nr A)) with Some _ => true | None => false end.
  Lemma regular_b_ok : forall A, nr A = nc A -> (regular_b A = true <-> regular A).
  Proof.
    intros A H. unfold regular_b. pose proof (@solve_mat_ok A (vzero (nr A)) H (vzero_length K (nr A))) as Q.
    destruct (solve_mat A (vzero (nr A))); split; intros; auto; try tauto; discriminate.
  Qed.

  (** Positive definiteness by elimination without pivoting. *)
  Definition schur (A : mat K) : mat K := mkMat (pred (nr A)) (pred (nc A)) (fun i j => ent A (S i) (S j) - ent A (S i) 0%nat * ent A 0%nat (S j) / ent A 0%nat 0%nat).
  Fixpoint posdef (n : nat) (A : mat K) : bool :=
    match n with
    | O => true
    | S n' => (0 <? ent A 0%nat 0%nat)%K && posdef n' (schur A)
    end.
  Definition form (A : mat K) (x : list K) : K := dot (mulvec A x) x.
  Lemma form_sum : forall A x, nr A = nc A -> length x = nc A ->
    form A x = sumn (nr A) (fun i => sumn (nr A) (fun j => ent A i j * nth j x 0 * nth i x 0)).
  Proof.
    intros A x Hs Hx. unfold form. rewrite (@dot_sumn K _ _ (nr A)) by (rewrite ?mulvec_length; congruence). apply sumn_ext. intros i Hi.
    rewrite nth_mulvec by auto. rewrite <- Hs, <- sumn_scale_r. apply sumn_ext. intros j Hj. ring.
  Qed.

  Lemma schur_form : forall A n a w, nr A = S n -> nc A = S n -> (forall i j, (i < S n)%nat -> (j < S n)%nat -> ent A i j = ent A j i) ->
    ent A 0%nat 0%nat <> 0 -> length w = n ->
    form A (a :: w) = (ent A 0%nat 0%nat * a + sumn n (fun j => ent A 0%nat (S j) * nth j w 0)) * (ent A 0%nat 0%nat * a + sumn n (fun j => ent A 0%nat (S j) * nth j w 0)) / ent A 0%nat 0%nat
      + form (schur A) w.
  Proof.
    intros A n a w H1 H2 Hs Hd Hw. rewrite (@form_sum A (a :: w)) by (cbn [length]; congruence). rewrite H1.
    set (d := ent A 0%nat 0%nat) in *. set (q := sumn n (fun j => ent A 0%nat (S j) * nth j w 0)).
    assert (E1 : sumn n (fun i => ent A 0%nat (S i) * nth i w 0 * a) = q * a) by apply sumn_scale_r.
    assert (E2 : sumn (S n) (fun i => sumn (S n) (fun j => ent A i j * nth j (a :: w) 0 * nth i (a :: w) 0)) =
                 (d * a * a + q * a) + (q * a + sumn n (fun i => sumn n (fun j => ent A (S i) (S j) * nth j w 0 * nth i w 0)))).
    { rewrite sumn_shift. f_equal.
      - rewrite sumn_shift. f_equal. exact E1.
      - transitivity (sumn n (fun i => ent A 0%nat (S i) * nth i w 0 * a + sumn n (fun j => ent A (S i) (S j) * nth j w 0 * nth i w 0))).
        + apply sumn_ext. intros i Hi. rewrite sumn_shift. cbn [nth]. rewrite (Hs (S i) 0%nat) by lia. f_equal. ring.
        + rewrite sumn_add, E1. auto. }
    rewrite E2.
    assert (E4 : forall c, sumn n (fun j => (ent A 0%nat (S j) * nth j w 0) * c) = q * c) by (intros c; apply sumn_scale_r).
    assert (E3 : sumn n (fun i => sumn n (fun j => ent (schur A) i j * nth j w 0 * nth i w 0)) =
                 sumn n (fun i => sumn n (fun j => ent A (S i) (S j) * nth j w 0 * nth i w 0)) - q * q / d).
    { transitivity (sumn n (fun i => sumn n (fun j => ent A (S i) (S j) * nth j w 0 * nth i w 0) - (ent A 0%nat (S i) * nth i w 0) * (q / d))).
      - apply sumn_ext. intros i Hi.
        transitivity (sumn n (fun j => ent A (S i) (S j) * nth j w 0 * nth i w 0 - (ent A 0%nat (S j) * nth j w 0) * (ent A 0%nat (S i) * nth i w 0 / d))).
        + apply sumn_ext. intros j Hj. cbn [schur ent]. rewrite (Hs (S i) 0%nat) by lia. fold d. field. auto.
        + rewrite sumn_sub, E4. field. auto.
      - rewrite sumn_sub, E4. field. auto. }
    rewrite (@form_sum (schur A) w) by (cbn [schur nr nc]; rewrite ?H1, ?H2; auto).
    replace (nr (schur A)) with n by (simpl; rewrite H1; auto). rewrite E3. field. auto.
  Qed.
  Lemma posdef_ok : forall n A, nr A = n -> symmetric_matrix A -> (posdef n A = true <-> forall x, length x = n -> x <> vzero n -> 0 < form A x).
  Proof.
    induction n as [|n IH]; intros A Hn [Hq Hs]; unfold square in Hq.
    - split; auto. intros _ [|a x] Hx Nx; [exfalso; apply Nx; auto|discriminate].
    - cbn [posdef]. assert (Hs' : forall i j, (i < S n)%nat -> (j < S n)%nat -> ent A i j = ent A j i) by (intros; apply Hs; lia).
      assert (Sy : symmetric_matrix (schur A)).
      { split; [unfold square, schur; simpl; congruence|]. cbn [schur nr ent]. rewrite Hn. intros i j Hi Hj. cbn [pred] in *.
        rewrite (Hs' (S i) (S j)), (Hs' (S i) 0%nat), (Hs' 0%nat (S j)) by lia.
        replace (ent A (S j) 0%nat * ent A 0%nat (S i)) with (ent A 0%nat (S i) * ent A (S j) 0%nat) by ring. auto. }
      assert (Hn' : nr (schur A) = n) by (simpl; rewrite Hn; auto).
      rewrite andb_true_iff, (IH (schur A) Hn' Sy). rewrite fltb_lt. split.
      + intros [P Q] [|a w] Hx Nx; [discriminate|]. simpl in Hx.
        assert (D : ent A 0%nat 0%nat <> 0) by (intros E; rewrite E in P; apply (flt_irrefl P)).
        rewrite (@schur_form A n a w) by (auto; lia). destruct (list_eq_dec (@feq_dec K) w (vzero n)) as [->|Nw].
        * assert (Z : form (schur A) (vzero n) = 0) by (unfold form; apply dot_zero_r). rewrite Z.
          assert (Z2 : sumn n (fun j => ent A 0%nat (S j) * nth j (vzero n) 0) = 0) by (apply sumn_zero; intros j Hj; rewrite nth_vzero; ring). rewrite Z2.
          assert (Na : a <> 0) by (intros ->; apply Nx; reflexivity).
          replace ((ent A 0%nat 0%nat * a + 0) * (ent A 0%nat 0%nat * a + 0) / ent A 0%nat 0%nat + 0) with (ent A 0%nat 0%nat * (a * a)) by (field; auto).
          apply fmul_pos; auto. apply fle_neq_lt; [apply fsquare_nonneg|]. intros E. apply Na. apply fsquare_0. auto.
        * assert (G : 0 < form (schur A) w) by (apply Q; auto; lia).
          match goal with |- 0 < ?u * ?u / ?d + ?v => replace (u * u / d + v) with (v + finv d * (u * u)) by (field; auto) end.
          apply fadd_pos; auto. replace (0 : K) with (finv (ent A 0%nat 0%nat) * 0) by ring. apply fle_mul_l; [apply flt_le, finv_pos; auto|apply fsquare_nonneg].
      + intros P. assert (P0 : 0 < ent A 0%nat 0%nat).
        { specialize (P (1 :: vzero n)). rewrite form_sum in P by (simpl; rewrite ?vzero_length; congruence). rewrite Hn in P.
          assert (P' : 0 < sumn (S n) (fun i => sumn (S n) (fun j => ent A i j * nth j (1 :: vzero n) 0 * nth i (1 :: vzero n) 0))).
          { apply P; [simpl; rewrite vzero_length; auto|]. intros Q. unfold vzero in Q. simpl in Q. injection Q as Q. apply (@f1_neq_0 K Q). }
          rewrite (@sumn_single K (S n) 0%nat) in P'; [|lia|].
          - rewrite (@sumn_single K (S n) 0%nat) in P'; [|lia|].
            + cbn [nth] in P'. replace (ent A 0%nat 0%nat) with (ent A 0%nat 0%nat * 1 * 1) by ring. auto.
            + intros [|i] Hi Ni; [congruence|]. cbn [nth]. rewrite nth_vzero. ring.
          - intros [|i] Hi Ni; [congruence|]. apply sumn_zero. intros j Hj. cbn [nth]. rewrite (nth_vzero K n i). ring. }
        split; auto. intros w Hw Nw. assert (D : ent A 0%nat 0%nat <> 0) by (intros E; rewrite E in P0; apply (flt_irrefl P0)).
        set (q := sumn n (fun j => ent A 0%nat (S j) * nth j w 0)). specialize (P (- q / ent A 0%nat 0%nat :: w)).
        rewrite (@schur_form A n _ w) in P by (auto; lia). fold q in P.
        replace (form (schur A) w) with ((ent A 0%nat 0%nat * (- q / ent A 0%nat 0%nat) + q) * (ent A 0%nat 0%nat * (- q / ent A 0%nat 0%nat) + q) / ent A 0%nat 0%nat + form (schur A) w)
          by (field; auto).
        apply P; [simpl; lia|]. intros Q. apply Nw. unfold vzero in Q. simpl in Q. injection Q. auto.
  Qed.
  Lemma posdef_spd : forall A, symmetric_matrix A -> (posdef (nr A) A = true <-> spd A).
  Proof.
    intros A H. rewrite (@posdef_ok (nr A) A eq_refl H). pose proof (proj1 H) as Q. unfold square in Q. split.
    - intros P. split; auto. rewrite <- Q. exact P.
    - intros [_ P]. rewrite <- Q in P. exact P.
  Qed.

  (** The library. *)
  Definition chosen (n : nat) (o : option (list K)) : list K := match o with Some x => x | None => vzero n end.
  Definition exact_library : solver_library K := mkSolverLib
    (fun n rows b _ => (chosen n (solve_mat (rows_matrix n rows) b), posdef n (rows_matrix n rows)))
    (fun n rows b _ => (chosen n (solve_mat (rows_matrix n rows) b), regular_b (rows_matrix n rows)))
    (fun n _ => n)
    (fun n a => (a, seq 1 n, if regular_b (columns_matrix n a) then 0%nat else 1%nat))
    (fun n a _ b => (chosen n (solve_mat (columns_matrix n a) b), 0%nat)).
  Lemma chosen_ok : forall A n b, nr A = n -> nc A = n -> length b = n ->
    length (chosen n (solve_mat A b)) = n /\ (regular A -> mulvec A (chosen n (solve_mat A b)) = b).
  Proof.
    intros A n b H1 H2 Hb. pose proof (@solve_mat_ok A b) as Q. destruct (solve_mat A b) as [x|]; cbn [chosen].
    - destruct Q as [Q1 [Q2 Q3]]; try congruence. split; auto. congruence.
    - split; [apply vzero_length|]. intros R. exfalso. apply Q; auto; congruence.
  Qed.
  Lemma spd_is_regular : forall A, spd A -> @regular K A.
  Proof.
    intros A [S1 S2] x Hx E. destruct (list_eq_dec (@feq_dec K) x (vzero (nc A))) as [|N]; auto. exfalso. specialize (S2 x Hx N). rewrite E in S2.
    rewrite dot_zero_l in S2. apply (flt_irrefl S2).
  Qed.
  Lemma not_true : forall b (P : Prop), (b = true <-> P) -> ~ P -> b = false.
  Proof. intros [] P H N; auto. exfalso. apply N, H. auto. Qed.
  Theorem exact_library_ok : solver_library_ok exact_library.
  Proof.
    split.
    - intros n rows b x Hp Hb Hx Hs. cbn [exact_library y_chol fst snd]. destruct (@chosen_ok (rows_matrix n rows) n b eq_refl eq_refl Hb) as [L R].
      pose proof (posdef_spd Hs) as Q. cbn [rows_matrix nr] in Q. split; [|split; auto].
      + intros S. split; [apply Q; auto|]. apply R. apply spd_is_regular. auto.
      + apply not_true; auto.
    - intros n rows b x Hp Hb Hx. cbn [exact_library y_splu fst snd]. destruct (@chosen_ok (rows_matrix n rows) n b eq_refl eq_refl Hb) as [L R].
      pose proof (@regular_b_ok (rows_matrix n rows) eq_refl) as Q. split; [|split; auto].
      + intros S. split; [apply Q; auto|auto].
      + apply not_true; auto.
    - intros n a H. exact H.
    - intros n a Ha. cbn [exact_library y_getrf y_getrs fst snd]. split; auto. split; [apply seq_length|].
      pose proof (@regular_b_ok (columns_matrix n a) eq_refl) as Q. split.
      + intros N. rewrite (not_true Q N). discriminate.
      + intros R. split; [apply Q in R; rewrite R; auto|]. intros b Hb. destruct (@chosen_ok (columns_matrix n a) n b eq_refl eq_refl Hb) as [L R2].
        cbn [fst snd]. auto.
  Qed.
End E.
