(** Proofs about M_Perm.v. *)
From Coq Require Import List ListDec Arith Lia Bool Permutation Sorted.
From Verif Require Import Base M_Perm S_Perm.
Import ListNotations.
Set Implicit Arguments.

Lemma is_perm_length : forall n p, is_perm n p -> length p = n.
Proof. intros n p H. apply Permutation_length in H. rewrite seq_length in H. auto. Qed.

Lemma is_perm_range : forall n p x, is_perm n p -> In x p -> x < n.
Proof. intros n p x H Hi. apply (Permutation_in _ H) in Hi. apply in_seq in Hi. lia. Qed.

Lemma is_perm_NoDup : forall n p, is_perm n p -> NoDup p.
Proof. intros n p H. apply (Permutation_NoDup (Permutation_sym H)). apply seq_NoDup. Qed.

Lemma NoDup_range_is_perm : forall n p, length p = n -> NoDup p -> (forall x, In x p -> x < n) -> is_perm n p.
Proof.
  intros n p Hl Hnd Hr. unfold is_perm.
  apply NoDup_Permutation_bis; auto.
  - rewrite seq_length; lia.
  - intros x Hx. apply in_seq. split; [lia|]. simpl. auto.
Qed.

Section Loop.
  Variable T : Type.
  Variable perm : list nat.
  Variable n : nat.
  Hypothesis Hlen : length perm = n.
  Hypothesis Hrange : forall x, In x perm -> x < n.

  Let p (i : nat) : nat := nth i perm 0.

  Lemma p_rd : forall i, i < n -> rd perm i = Ok (p i).
  Proof. intros i Hi. apply rd_Ok. apply nth_error_nth_lt. lia. Qed.

  Lemma p_lt : forall i, i < n -> p i < n.
  Proof. intros i Hi. apply Hrange. apply nth_In. lia. Qed.

  Lemma swap_Ok : forall (vec : list T) a b x y, nth_error vec a = Some x -> nth_error vec b = Some y ->
    swap vec a b = Ok (upd (upd vec a y) b x).
  Proof.
    intros vec a b x y Ha Hb. unfold swap.
    apply rd_Ok in Ha as Ha'. apply rd_Ok in Hb as Hb'. rewrite Ha', Hb'. simpl.
    rewrite wr_in by (eapply nth_error_lt; eauto). simpl.
    rewrite wr_in; auto. rewrite upd_length. eapply nth_error_lt; eauto.
  Qed.

  (** One step of the inner loop, in range. *)
  Lemma while_step : forall fuel i prev j (vec : list T) done x y,
    length vec = n -> length done = n -> j < n -> i <> j ->
    nth_error vec prev = Some x -> nth_error vec j = Some y ->
    perm_while (S fuel) perm i vec done prev j =
    perm_while fuel perm i (upd (upd vec prev y) j x) (upd done j true) j (p j).
  Proof.
    intros fuel i prev j vec done x y Hv Hd Hj Hne Hx Hy. simpl.
    destruct (Nat.eqb_spec i j); [contradiction|].
    rewrite (swap_Ok _ _ _ Hx Hy). simpl.
    rewrite wr_in by lia. simpl. rewrite p_rd by auto. reflexivity.
  Qed.

  Fixpoint iter (k i : nat) : nat := match k with 0 => i | S k' => p (iter k' i) end.

  Lemma iter_p : forall k i, iter k (p i) = p (iter k i).
  Proof. induction k; simpl; intros; [auto|rewrite IHk; auto]. Qed.

  Lemma iter_add : forall a b i, iter (a + b) i = iter a (iter b i).
  Proof. induction a; simpl; intros; [auto|rewrite IHa; auto]. Qed.

  Definition cyclic (i : nat) : Prop := exists k, k > 0 /\ iter k i = i.

  (** The inner loop stays in range; if it ends, [j] led back to [i], and it marked only the orbit of [i]. *)
  Lemma while_result : forall fuel i prev j (vec : list T) done,
    length vec = n -> length done = n -> prev < n -> j < n -> (exists a, iter a i = j) ->
    perm_while fuel perm i vec done prev j = Fuel \/
    exists vec' done', perm_while fuel perm i vec done prev j = Ok (vec', done') /\
      length vec' = n /\ length done' = n /\ (exists k, iter k j = i) /\
      forall k, nth_error done' k = Some true -> nth_error done k = Some true \/ (exists a, iter a i = k).
  Proof.
    induction fuel; intros i prev j vec done Hv Hd Hp Hj Ho.
    - simpl. destruct (Nat.eqb_spec i j) as [->|]; auto.
      right. exists vec, done. repeat (split; [solve [auto]|]); auto.
    - destruct (Nat.eq_dec i j) as [->|Hne].
      { simpl. rewrite Nat.eqb_refl. right. exists vec, done. repeat (split; [solve [auto]|]); auto. }
      destruct (nth_error vec prev) as [x|] eqn:Ex; [|apply nth_error_None in Ex; lia].
      destruct (nth_error vec j) as [y|] eqn:Ey; [|apply nth_error_None in Ey; lia].
      rewrite (while_step _ _ _ _ Hv Hd Hj Hne Ex Ey).
      destruct (IHfuel i j (p j) (upd (upd vec prev y) j x) (upd done j true)) as [H|H];
        rewrite ?upd_length; auto.
      + apply p_lt; auto.
      + destruct Ho as [a Ha]. exists (S a). simpl. congruence.
      + right. destruct H as (vec' & done' & H1 & H2 & H3 & (k & Hk) & H4).
        exists vec', done'. repeat split; auto.
        * exists (S k). simpl. rewrite <- iter_p. auto.
        * intros k0 Hk0. apply H4 in Hk0. destruct Hk0 as [Hk0|]; auto.
          rewrite nth_error_upd in Hk0. destruct (Nat.eqb_spec j k0); simpl in Hk0; auto.
          subst. right; auto.
  Qed.

  Lemma orbit_cyclic : forall i k, cyclic i -> (exists a, iter a i = k) -> cyclic k.
  Proof.
    intros i k (m & Hm & E) (a & Ha). exists m. split; auto.
    subst k. rewrite <- iter_add. rewrite Nat.add_comm, iter_add. rewrite E. auto.
  Qed.

  Lemma for_diverges : forall k i (vec : list T) done fuel,
    i + k = n -> length vec = n -> length done = n ->
    (forall x, nth_error done x = Some true -> cyclic x) ->
    (exists x, i <= x < n /\ ~ cyclic x) ->
    perm_for fuel perm k i vec done = Fuel.
  Proof.
    induction k; intros i vec done fuel Hk Hv Hd Hdone (x & Hx & Hnc).
    - lia.
    - simpl. destruct (rd_in done (i:=i)) as (d & Hd1 & Hd2); [lia|]. rewrite Hd1. simpl.
      destruct d.
      + apply IHk; auto; try lia.
        exists x. split; auto. destruct (Nat.eq_dec x i) as [->|]; [|lia].
        exfalso. apply Hnc. apply Hdone. auto.
      + rewrite wr_in by lia. simpl. rewrite p_rd by lia. simpl.
        destruct (@while_result fuel i i (p i) vec (upd done i true)) as [H|H]; rewrite ?upd_length; auto; try lia.
        * apply p_lt; lia.
        * exists 1. auto.
        * rewrite H. auto.
        * destruct H as (vec' & done' & H1 & H2 & H3 & (a & Ha) & H4). rewrite H1. simpl.
          assert (Hc : cyclic i). { exists (S a). split; [lia|]. simpl. rewrite <- iter_p. auto. }
          apply IHk; auto; try lia.
          -- intros y Hy. apply H4 in Hy. destruct Hy as [Hy|Hy].
             ++ rewrite nth_error_upd in Hy. destruct (Nat.eqb_spec i y); simpl in Hy; subst; auto.
             ++ eapply orbit_cyclic; eauto.
          -- exists x. split; auto. destruct (Nat.eq_dec x i) as [->|]; [|lia]. contradiction.
  Qed.

  Lemma not_surj_not_cyclic : forall x, x < n -> ~ In x perm -> ~ cyclic x.
  Proof.
    intros x Hx Hn (k & Hk & E). destruct k; [lia|]. simpl in E. apply Hn. rewrite <- E.
    apply nth_In. rewrite Hlen.
    clear E Hk. induction k; simpl; auto. apply p_lt. auto.
  Qed.

  Lemma dup_missing : ~ NoDup perm -> exists x, x < n /\ ~ In x perm.
  Proof.
    intros Hnd.
    destruct (Exists_dec (fun x => ~ In x perm) (seq 0 n)) as [H|H].
    { intros x. destruct (in_dec Nat.eq_dec x perm); auto. }
    - apply Exists_exists in H. destruct H as (x & Hx & Hn). apply in_seq in Hx. exists x. split; [lia|auto].
    - exfalso. apply Hnd. apply NoDup_incl_NoDup with (l := seq 0 n).
      + apply seq_NoDup.
      + rewrite seq_length. lia.
      + intros x Hx. destruct (in_dec Nat.eq_dec x perm); auto.
        exfalso. apply H. apply Exists_exists. exists x. auto.
  Qed.

  Lemma apply_diverges : forall (vec : list T) fuel, length vec = n -> ~ NoDup perm ->
    apply_permutation_in_place fuel perm vec = Fuel.
  Proof.
    intros vec fuel Hv Hnd. unfold apply_permutation_in_place.
    apply for_diverges; auto.
    - rewrite repeat_length. auto.
    - intros x Hx. apply nth_error_In in Hx. apply repeat_spec in Hx. discriminate.
    - destruct (dup_missing Hnd) as (x & Hx & Hn). exists x. split; [lia|]. apply not_surj_not_cyclic; auto.
  Qed.

  (** *** Correctness for bijections. *)
  Hypothesis Hnd : NoDup perm.

  Lemma p_inj : forall a b, a < n -> b < n -> p a = p b -> a = b.
  Proof. intros a b Ha Hb E. apply (proj1 (NoDup_nth perm 0) Hnd); auto; lia. Qed.

  Variable v0 : list T.
  Hypothesis Hv0 : length v0 = n.

  (** Positions marked done carry their final value, the others the original one. *)
  Definition inv (vec : list T) (done : list bool) : Prop :=
    length vec = n /\ length done = n /\
    (forall k, k < n -> nth_error vec k = if nth k done false then nth_error v0 (p k) else nth_error v0 k) /\
    (forall k, k < n -> nth (p k) done false = nth k done false).

  (** Inner loop invariant: [V] is the visited part of the cycle of [i], last element [prev]. *)
  Lemma while_correct : forall fuel i V prev (vec : list T) done,
    length vec = n -> length done = n ->
    prev < n -> i < n -> In prev V -> In i V -> NoDup V -> (forall x, In x V -> x < n) ->
    fuel + length V >= n ->
    (forall k, k < n -> k <> prev -> nth_error vec k = if nth k done false then nth_error v0 (p k) else nth_error v0 k) ->
    nth_error vec prev = nth_error v0 i ->
    (forall k, In k V -> nth k done false = true) ->
    (forall k, k < n -> ~ In k V -> ~ In (p k) V -> nth (p k) done false = nth k done false) ->
    (forall k, k < n -> ~ In k V -> In (p k) V -> p k = i /\ nth k done false = false) ->
    (forall k, In k V -> k <> prev -> In (p k) V) ->
    (forall k, In k V -> k <> i -> exists k', In k' V /\ k' <> prev /\ p k' = k) ->
    (~ In (p prev) V -> nth (p prev) done false = false) ->
    exists vec' done', perm_while fuel perm i vec done prev (p prev) = Ok (vec', done') /\
      inv vec' done' /\ (forall k, nth k done false = true -> nth k done' false = true).
  Proof.
    induction fuel; intros i V prev vec done Hv Hd Hp Hi HpV HiV HV HVr Hf Hvec Hprev HdV Hcl Hcl' Hsucc Hpred Hnew.
    - (* V is everything, so the successor of prev is in V, hence equals i *)
      assert (HVall : forall x, x < n -> In x V).
      { intros x Hx. apply (NoDup_length_incl HV (l' := seq 0 n)).
        - rewrite seq_length. lia.
        - intros y Hy. apply in_seq. split; [lia|]. simpl. auto.
        - apply in_seq. split; lia. }
      assert (E : p prev = i).
      { destruct (Nat.eq_dec (p prev) i) as [|Hne]; auto.
        destruct (Hpred (p prev)) as (k' & Hk' & Hne' & E); auto.
        - apply HVall. apply p_lt; auto.
        - apply p_inj in E; auto; congruence. }
      simpl. rewrite E. rewrite Nat.eqb_refl. exists vec, done. split; auto. split; auto.
      unfold inv. repeat split; auto.
      + intros k Hk. destruct (Nat.eq_dec k prev) as [->|]; auto. rewrite (HdV prev HpV). rewrite E. auto.
      + intros k Hk. rewrite (HdV k), (HdV (p k)); auto. apply HVall. apply p_lt; auto.
    - destruct (Nat.eq_dec (p prev) i) as [E|Hne].
      + simpl. rewrite E. rewrite Nat.eqb_refl. exists vec, done. split; auto. split; auto.
        unfold inv. repeat split; auto.
        * intros k Hk. destruct (Nat.eq_dec k prev) as [->|]; auto. rewrite (HdV prev HpV). rewrite E. auto.
        * intros k Hk. destruct (in_dec Nat.eq_dec k V) as [HkV|HkV].
          -- rewrite (HdV k HkV). apply HdV. destruct (Nat.eq_dec k prev) as [->|]; [congruence|auto].
          -- destruct (in_dec Nat.eq_dec (p k) V) as [HpkV|HpkV]; [|apply Hcl; auto].
             destruct (Hcl' k Hk HkV HpkV) as [E2 _]. exfalso. apply HkV.
             assert (k = prev) by (apply p_inj; auto; congruence). congruence.
      + assert (Hj : p prev < n) by (apply p_lt; auto).
        assert (HjV : ~ In (p prev) V).
        { intros HjV. destruct (Hpred (p prev) HjV Hne) as (k' & Hk' & Hne' & E).
          apply p_inj in E; auto. }
        destruct (nth_error vec prev) as [x|] eqn:Ex; [|apply nth_error_None in Ex; lia].
        destruct (nth_error vec (p prev)) as [y|] eqn:Ey; [|apply nth_error_None in Ey; lia].
        assert (Hne2 : i <> p prev) by congruence.
        rewrite (while_step _ _ _ _ Hv Hd Hj Hne2 Ex Ey).
        assert (Hjp : p prev <> prev) by (intros E; rewrite E in HjV; contradiction).
        assert (Hdj : nth (p prev) done false = false) by auto.
        destruct (IHfuel i (p prev :: V) (p prev) (upd (upd vec prev y) (p prev) x) (upd done (p prev) true))
          as (vec' & done' & H1 & H2 & H3); rewrite ?upd_length; auto.
        * simpl; auto.
        * simpl; auto.
        * constructor; auto.
        * intros z [<-|Hz]; auto.
        * simpl; lia.
        * intros k Hk Hkn. rewrite nth_error_upd_neq by auto. rewrite nth_upd_neq by auto.
          destruct (Nat.eq_dec prev k) as [<-|Hkp].
          -- rewrite nth_error_upd_eq by lia. rewrite (HdV prev HpV).
             rewrite (Hvec (p prev)) in Ey by auto. rewrite Hdj in Ey. auto.
          -- rewrite nth_error_upd_neq by auto. apply Hvec; auto.
        * rewrite nth_error_upd_eq by (rewrite upd_length; lia). auto.
        * intros k [<-|HkV]. { apply nth_upd_eq; lia. }
          rewrite nth_upd_neq; [auto|]. intros E. subst k. contradiction.
        * intros k Hk HkV HpkV. simpl in HkV, HpkV. rewrite !nth_upd_neq by tauto. apply Hcl; tauto.
        * intros k Hk HkV HpkV. simpl in HkV.
          assert (Hkn : k <> p prev) by (intros E; apply HkV; auto).
          destruct HpkV as [E|HpkV].
          -- exfalso. apply p_inj in E; auto. subst. tauto.
          -- destruct (Hcl' k Hk) as [E1 E2]; try tauto. split; auto. rewrite nth_upd_neq by auto. auto.
        * intros k [<-|HkV] Hkn; [contradiction|]. simpl.
          destruct (Nat.eq_dec k prev) as [->|]; auto.
        * intros k [<-|HkV] Hkn.
          -- exists prev. simpl; auto.
          -- destruct (Hpred k HkV Hkn) as (k' & H4 & H5 & H6). exists k'. simpl. split; auto. split; auto.
             intros E. subst k'. contradiction.
        * intros HnV. simpl in HnV.
          rewrite nth_upd_neq by tauto.
          destruct (in_dec Nat.eq_dec (p (p prev)) V); [tauto|].
          rewrite Hcl; auto.
        * exists vec', done'. split; auto. split; auto. intros k Hk. apply H3.
          destruct (Nat.eq_dec (p prev) k) as [<-|]; [apply nth_upd_eq; lia|]. rewrite nth_upd_neq; auto.
  Qed.

  Lemma for_correct : forall k i (vec : list T) done fuel,
    fuel >= n -> i + k = n -> inv vec done -> (forall x, x < i -> nth x done false = true) ->
    exists vec' , perm_for fuel perm k i vec done = Ok vec' /\ length vec' = n /\
      forall x, x < n -> nth_error vec' x = nth_error v0 (p x).
  Proof.
    induction k; intros i vec done fuel Hf Hk Hinv Hdone.
    - simpl. exists vec. destruct Hinv as (H1 & H2 & H3 & H4). repeat split; auto.
      intros x Hx. rewrite H3 by auto. rewrite Hdone by lia. auto.
    - destruct Hinv as (H1 & H2 & H3 & H4) eqn:EI. simpl.
      destruct (rd_in done (i:=i)) as (d & Hd1 & Hd2); [lia|]. rewrite Hd1. simpl.
      assert (Hd3 : nth i done false = d) by (apply nth_error_nth; auto).
      destruct d.
      + apply IHk; auto; try lia. intros x Hx. destruct (Nat.eq_dec x i) as [->|]; auto. apply Hdone; lia.
      + rewrite wr_in by lia. simpl. rewrite p_rd by lia. simpl.
        destruct (@while_correct fuel i [i] i vec (upd done i true)) as (vec' & done' & W1 & W2 & W3);
          rewrite ?upd_length; auto; try lia.
        * simpl; auto.
        * simpl; auto.
        * repeat constructor. simpl; tauto.
        * intros x [<-|[]]; lia.
        * intros x Hx Hne. rewrite nth_upd_neq by auto. auto.
        * rewrite H3 by lia. rewrite Hd3. auto.
        * intros x [<-|[]]. apply nth_upd_eq; lia.
        * simpl. intros x Hx Hn1 Hn2. rewrite !nth_upd_neq by tauto. auto.
        * simpl. intros x Hx Hn1 [E|[]]. split; auto. rewrite nth_upd_neq by tauto.
          rewrite <- H4 by auto. rewrite <- E. auto.
        * intros x [<-|[]] E; congruence.
        * intros x [<-|[]] E; congruence.
        * simpl. intros Hn. rewrite nth_upd_neq by tauto. rewrite H4 by lia. auto.
        * rewrite W1. simpl. apply IHk; auto; try lia.
          intros x Hx. apply W3. destruct (Nat.eq_dec i x) as [<-|]; [apply nth_upd_eq; lia|].
          rewrite nth_upd_neq by auto. apply Hdone. lia.
  Qed.

  Lemma apply_correct : forall fuel, fuel >= n ->
    exists vec', apply_permutation_in_place fuel perm v0 = Ok vec' /\ gathered perm v0 vec'.
  Proof.
    intros fuel Hf. unfold apply_permutation_in_place. rewrite Hv0.
    destruct (@for_correct n 0 v0 (repeat false n) fuel) as (vec' & H1 & H2 & H3); auto.
    - unfold inv. rewrite repeat_length. repeat split; auto.
      + intros k Hk. rewrite nth_repeat. auto.
      + intros k Hk. rewrite !nth_repeat. auto.
    - intros; lia.
    - exists vec'. split; auto. split; [lia|].
      intros i j Hij. rewrite H3. { unfold p. apply nth_error_nth with (d := 0) in Hij. congruence. }
      apply nth_error_lt in Hij. lia.
  Qed.
End Loop.

(** ** Sorting permutation *)

Lemma gathered_nth : forall T (p : list nat) (v v' : list T) d, length p = length v -> (forall x, In x p -> x < length v) ->
  gathered p v v' -> v' = map (fun i => nth i v d) p.
Proof.
  intros T p v v' d Hl Hr (H1 & H2). apply nth_error_ext. intros i.
  rewrite nth_error_map. destruct (nth_error p i) as [j|] eqn:E; simpl.
  - rewrite (H2 _ _ E). apply nth_error_nth_lt. apply Hr. eapply nth_error_In; eauto.
  - apply nth_error_None. apply nth_error_None in E. lia.
Qed.

Lemma sort_cmp_swo : forall v1 v2, strict_weak_order (sort_cmp v1 v2).
Proof.
  intros v1 v2. unfold strict_weak_order, sort_cmp. split; [|split].
  - intros x. rewrite Nat.eqb_refl. simpl. apply Nat.ltb_irrefl.
  - intros x y z.
    destruct (Nat.eqb_spec (nth x v1 0) (nth y v1 0)), (Nat.eqb_spec (nth y v1 0) (nth z v1 0)),
             (Nat.eqb_spec (nth x v1 0) (nth z v1 0)); simpl; rewrite ?Nat.ltb_lt; lia.
  - intros x y z.
    destruct (Nat.eqb_spec (nth x v1 0) (nth y v1 0)), (Nat.eqb_spec (nth y v1 0) (nth x v1 0)),
             (Nat.eqb_spec (nth y v1 0) (nth z v1 0)), (Nat.eqb_spec (nth z v1 0) (nth y v1 0)),
             (Nat.eqb_spec (nth x v1 0) (nth z v1 0)), (Nat.eqb_spec (nth z v1 0) (nth x v1 0));
      simpl; rewrite ?Nat.ltb_ge; lia.
Qed.

Lemma sort_cmp_lex : forall v1 v2 i j, sort_cmp v1 v2 j i = false ->
  lex_le (nth i v1 0, nth i v2 0) (nth j v1 0, nth j v2 0).
Proof.
  intros v1 v2 i j. unfold sort_cmp, lex_le. simpl.
  destruct (Nat.eqb_spec (nth j v1 0) (nth i v1 0)); simpl; rewrite Nat.ltb_ge; lia.
Qed.

Lemma map_nth_seq : forall T (v : list T) d, map (fun i => nth i v d) (seq 0 (length v)) = v.
Proof.
  intros T v d. apply nth_error_ext. intros i. rewrite nth_error_map.
  destruct (lt_dec i (length v)).
  - rewrite (nth_error_nth_lt (seq 0 (length v)) (i:=i) 0) by (rewrite seq_length; auto).
    rewrite seq_nth by auto. simpl. symmetry. apply nth_error_nth_lt; auto.
  - transitivity (@None T).
    + replace (nth_error (seq 0 (length v)) i) with (@None nat); auto.
      symmetry. apply nth_error_None. rewrite seq_length. lia.
    + symmetry. apply nth_error_None. lia.
Qed.

Lemma combine_map : forall A B C (f : A -> B) (g : A -> C) l, combine (map f l) (map g l) = map (fun x => (f x, g x)) l.
Proof. induction l; simpl; congruence. Qed.

Lemma StronglySorted_map : forall A B (R : A -> A -> Prop) (S : B -> B -> Prop) (f : A -> B) l,
  (forall x y, R x y -> S (f x) (f y)) -> StronglySorted R l -> StronglySorted S (map f l).
Proof.
  intros A B R S f l H HS. induction HS; simpl; constructor; auto.
  apply Forall_map. eapply Forall_impl; [|eauto]. simpl. auto.
Qed.

Lemma sort_permutation_correct : forall T debug std_sort (v1 v2 : list nat) (w : list T) fuel,
  std_sort_contract std_sort -> length v1 = length v2 -> length v1 = length w -> fuel >= length v1 ->
  exists p v1' v2' w',
    sort_permutation debug std_sort v1 v2 = Ok p /\ is_perm (length v1) p /\
    apply_permutation_in_place fuel p v1 = Ok v1' /\
    apply_permutation_in_place fuel p v2 = Ok v2' /\
    apply_permutation_in_place fuel p w = Ok w' /\
    StronglySorted lex_le (combine v1' v2') /\
    Permutation (combine (combine v1 v2) w) (combine (combine v1' v2') w').
Proof.
  intros T debug std_sort v1 v2 w fuel Hs H12 H1w Hfuel.
  unfold sort_permutation. rewrite <- H12, Nat.eqb_refl, Nat.ltb_irrefl.
  assert (Ha : assert_dbg debug true = Ok tt) by (destruct debug; auto).
  rewrite Ha. cbn [bind].
  destruct (Hs (sort_cmp v1 v2) (seq 0 (length v1)) (sort_cmp_swo v1 v2)) as [Hp Hss].
  set (p := std_sort (sort_cmp v1 v2) (seq 0 (length v1))) in *.
  assert (HP : is_perm (length v1) p) by (apply Permutation_sym; auto).
  assert (Hpl := is_perm_length HP).
  assert (Hpr := fun x => @is_perm_range _ _ x HP).
  assert (Hpn := is_perm_NoDup HP).
  destruct (@apply_correct nat p (length v1) Hpl Hpr Hpn v1 eq_refl fuel) as (v1' & A1 & G1); auto.
  destruct (@apply_correct nat p (length v1) Hpl Hpr Hpn v2 (eq_sym H12) fuel) as (v2' & A2 & G2); auto.
  destruct (@apply_correct T p (length v1) Hpl Hpr Hpn w (eq_sym H1w) fuel) as (w' & A3 & G3); auto.
  exists p, v1', v2', w'. repeat (split; [solve [auto]|]).
  assert (E1 : v1' = map (fun i => nth i v1 0) p) by (apply gathered_nth; auto).
  assert (E2 : v2' = map (fun i => nth i v2 0) p) by (apply gathered_nth; auto; rewrite <- H12; auto).
  split.
  - rewrite E1, E2, combine_map.
    eapply StronglySorted_map; [|exact Hss]. simpl. intros x y Hxy. apply sort_cmp_lex; auto.
  - destruct w as [|d w0].
    + destruct v1; [|discriminate]. destruct v2; [|discriminate]. simpl in *.
      assert (p = []) by (destruct p; auto; discriminate). subst p. rewrite H in *. subst. simpl. constructor.
    + assert (E3 : w' = map (fun i => nth i (d :: w0) d) p) by (apply gathered_nth; auto; rewrite <- H1w; auto).
      rewrite E1, E2, E3, !combine_map.
      set (w := d :: w0) in *.
      assert (E0 : combine (combine v1 v2) w = map (fun x => (nth x v1 0, nth x v2 0, nth x w d)) (seq 0 (length v1))).
      { assert (F1 := map_nth_seq v1 0). assert (F2 := map_nth_seq v2 0). assert (F3 := map_nth_seq w d).
        rewrite <- H12 in F2. rewrite <- H1w in F3.
        rewrite <- !combine_map. rewrite F1, F2, F3. auto. }
      rewrite E0. apply Permutation_map. apply Permutation_sym. auto.
Qed.

(** Termination exactly on bijections. *)
Lemma apply_terminates_iff : forall T (perm : list nat) (vec : list T),
  length perm = length vec -> (forall x, In x perm -> x < length vec) ->
  ((exists fuel, apply_permutation_in_place fuel perm vec <> Fuel) <-> is_perm (length vec) perm).
Proof.
  intros T perm vec Hl Hr. split.
  - intros (fuel & Hf). destruct (ListDec.NoDup_dec Nat.eq_dec perm) as [Hnd|Hnd].
    + apply NoDup_range_is_perm; auto.
    + exfalso. apply Hf. eapply apply_diverges; eauto.
  - intros HP. destruct (@apply_correct T perm (length vec) Hl Hr (is_perm_NoDup HP) vec eq_refl (length vec)) as (v' & E & _); auto.
    exists (length vec). rewrite E. discriminate.
Qed.

Lemma apply_perm_correct : forall T (perm : list nat) (vec : list T) fuel,
  is_perm (length vec) perm -> fuel >= length vec ->
  exists vec', apply_permutation_in_place fuel perm vec = Ok vec' /\ gathered perm vec vec' /\ Permutation vec vec'.
Proof.
  intros T perm vec fuel HP Hf.
  destruct (@apply_correct T perm (length vec) (is_perm_length HP) (fun x => @is_perm_range _ _ x HP) (is_perm_NoDup HP) vec eq_refl fuel Hf)
    as (v' & E & G).
  exists v'. repeat (split; [solve [auto]|]).
  destruct vec as [|d t].
  - destruct G as [G _]. destruct v'; [constructor|discriminate].
  - set (v := d :: t) in *.
    rewrite (@gathered_nth T perm v v' d); auto.
    + rewrite <- (map_nth_seq v d) at 1. apply Permutation_map. apply Permutation_sym. auto.
    + apply (is_perm_length HP).
    + intros x Hx. apply (is_perm_range x HP Hx).
Qed.

(** A sorting function that meets the contract of std::sort (used to show that the contract is satisfiable). *)
Fixpoint insert_by {T} (cmp : T -> T -> bool) (x : T) (l : list T) : list T :=
  match l with
  | [] => [x]
  | y :: t => if cmp y x then y :: insert_by cmp x t else x :: y :: t
  end.

Definition insertion_sort {T} (cmp : T -> T -> bool) (l : list T) : list T := fold_right (insert_by cmp) [] l.

Lemma insert_by_perm : forall T (cmp : T -> T -> bool) x l, Permutation (x :: l) (insert_by cmp x l).
Proof.
  induction l; simpl; auto. destruct (cmp a x); auto.
  eapply perm_trans; [apply perm_swap|]. constructor. auto.
Qed.

Lemma swo_le_trans : forall T (cmp : T -> T -> bool), strict_weak_order cmp -> forall a b c,
  cmp b a = false -> cmp c b = false -> cmp c a = false.
Proof.
  intros T cmp (H1 & H2 & H3) a b c Hba Hcb.
  destruct (cmp c a) eqn:Eca; auto.
  destruct (cmp a b) eqn:Eab. { rewrite (H2 _ _ _ Eca Eab) in Hcb. discriminate. }
  destruct (cmp b c) eqn:Ebc. { rewrite (H2 _ _ _ Ebc Eca) in Hba. discriminate. }
  destruct (H3 a b c) as [_ E]; auto. congruence.
Qed.

Lemma insertion_sort_contract : forall T, std_sort_contract (@insertion_sort T).
Proof.
  intros T cmp l Hswo. induction l as [|x l [IH1 IH2]]; simpl.
  - split; constructor.
  - split. { eapply perm_trans; [constructor; exact IH1|apply insert_by_perm]. }
    clear IH1. induction IH2 as [|y t Ht IHt Hy]; simpl.
    + repeat constructor.
    + destruct (cmp y x) eqn:E.
      * constructor; auto. apply Forall_forall. intros z Hz.
        apply (Permutation_in _ (Permutation_sym (insert_by_perm cmp x t))) in Hz. destruct Hz as [<-|Hz].
        -- destruct (cmp x y) eqn:E2; auto. destruct Hswo as (H1 & H2 & _). specialize (H2 _ _ _ E E2). congruence.
        -- rewrite Forall_forall in Hy. auto.
      * constructor.
        -- constructor; auto.
        -- constructor; auto. rewrite Forall_forall in *. intros z Hz. apply (swo_le_trans Hswo) with y; auto.
Qed.
