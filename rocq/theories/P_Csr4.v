(** Proofs about the device smoother step, and an implementation of the Trilinos fill contract used in the examples. *)
From Coq Require Import List Arith Lia Bool Permutation Sorted Field.
From Verif Require Import Base OField Mat M_SpProd S_SpProd M_Csr S_Csr P_SpProd P_Csr P_Csr2 P_Csr3.
Import ListNotations.
Set Implicit Arguments.
Open Scope nat_scope.

Lemma nth_map_lt : forall A B (f : A -> B) l d1 d2 i, i < length l -> nth i (map f l) d1 = f (nth i l d2).
Proof. intros A B f l d1 d2 i H. rewrite (nth_indep _ d1 (f d2)) by (rewrite map_length; auto). apply map_nth. Qed.

Section P.
  Variable K : ofield.
  Add Field KfCsr4 : (f_field K).

  Lemma scatter_sub : forall owned (u v : vec K), length u = length v -> (forall i, In i (concat owned) -> i < length u) ->
    map (fun p : list K * list K => vaxpy (fopp f1) (snd p) (fst p)) (combine (scatter owned u) (scatter owned v)) = scatter owned (vsub u v).
  Proof.
    intros owned u v Hl Hb. unfold scatter. induction owned as [|o owned IH]; simpl; auto. f_equal.
    - apply (@list_ext K _ _ f0).
      + rewrite vaxpy_length, !map_length. apply Nat.min_id.
      + intros i Hi. rewrite vaxpy_length, !map_length, Nat.min_id in Hi.
        rewrite nth_vaxpy by (rewrite !map_length; auto).
        rewrite !(nth_map_lt _ o f0 0) by auto.
        rewrite nth_vsub by auto. ring.
    - apply IH. intros i Hi. apply Hb. simpl. apply in_or_app. auto.
  Qed.

  Lemma scatter_lengths : forall owned (u : vec K), map (@length K) (scatter owned u) = map (@length nat) owned.
  Proof. intros owned u. unfold scatter. rewrite map_map. apply map_ext. intros a. apply map_length. Qed.

  Lemma device_step_spec : forall (cs ss : list (csr K)) owned n (B S : mat K) env1 env2 (b x : vec K),
    distributed_as cs owned B -> distributed_as ss owned S -> nr B = n -> nc B = n -> nr S = n -> nc S = n -> partition n owned ->
    any_environment n env1 -> any_environment n env2 -> length b = n -> length x = n ->
    device_smoother_apply cs ss env1 env2 owned n (scatter owned b) (scatter owned x) =
    Ok (scatter owned (vsub x (mulvec S (vsub (mulvec B x) b)))).
  Proof.
    intros cs ss owned n B S env1 env2 b x HB HS Hb1 Hb2 Hs1 Hs2 Hp He1 He2 Hlb Hlx. unfold device_smoother_apply.
    assert (Hin : forall i, In i (concat owned) -> i < n) by (intros i Hi; apply Hp; auto).
    rewrite (@vmult_all_spec K cs owned B n); auto.
    2:{ apply scatter_lengths. }
    cbn [bind].
    assert (Hm : length (mulvec B x) = n) by (rewrite mulvec_length; auto).
    rewrite scatter_sub.
    2:{ rewrite Hm, Hlb. auto. }
    2:{ rewrite Hm. auto. }
    rewrite (@vmult_all_spec K ss owned S n); auto.
    2:{ rewrite vsub_length. unfold OField.vec in *. rewrite Hm, Hlb. apply Nat.min_id. }
    2:{ apply scatter_lengths. }
    cbn [bind]. f_equal. apply scatter_sub.
    - rewrite mulvec_length. unfold OField.vec in *. lia.
    - rewrite Hlx. auto.
  Qed.

  (** A fill that satisfies the contract: the owned domain indices and the inserted columns, each once; every row merged. *)
  Definition position (l : list nat) (g : nat) : nat := match index_within l g with Some i => i | None => 0 end.
  Definition merge (row : list (nat * K)) : list (nat * K) := map (fun g => (g, entry row g)) (nodup Nat.eq_dec (map fst row)).
  Definition simple_fill (domain : list nat) (rows : list (list (nat * K))) : list nat * list (list (nat * K)) :=
    let colmap := nodup Nat.eq_dec (domain ++ map fst (concat rows)) in
    (colmap, map (fun row => map (fun e : nat * K => (position colmap (fst e), snd e)) (merge row)) rows).

  Lemma position_spec : forall l g, In g l -> position l g < length l /\ nth (position l g) l 0 = g.
  Proof. intros l g H. unfold position. destruct (index_within_some l g H) as [i [-> [H1 H2]]]. auto. Qed.

  Lemma merge_fst : forall row, map fst (merge row) = nodup Nat.eq_dec (map fst row).
  Proof. intros row. unfold merge. rewrite map_map. apply map_id. Qed.
  Lemma merge_simple : forall row, simple_row (merge row).
  Proof. intros row. unfold simple_row. rewrite merge_fst. apply NoDup_nodup. Qed.
  Lemma merge_entry : forall row g, entry (merge row) g = entry row g.
  Proof.
    intros row g. destruct (in_dec Nat.eq_dec g (map fst row)) as [H|H].
    - apply simple_entry; [apply merge_simple|]. unfold merge. apply in_map_iff. exists g. split; auto. apply nodup_In. auto.
    - rewrite !entry_none; auto. rewrite merge_fst, nodup_In. auto.
  Qed.

  Lemma simple_fill_ok : fill_ok simple_fill.
  Proof.
    intros domain rows. unfold simple_fill. cbn [fst snd].
    set (colmap := nodup Nat.eq_dec (domain ++ map fst (concat rows))).
    assert (Hin : forall row e, In row rows -> In e (merge row) -> In (fst e) colmap).
    { intros row e Hr He. apply nodup_In. apply in_or_app. right. apply (in_map fst) in He. rewrite merge_fst, nodup_In in He.
      apply in_map_iff in He. destruct He as [e' [<- He']]. apply in_map. apply in_concat. eauto. }
    split; [apply map_length|]. split.
    - intros row e Hr He. apply in_map_iff in Hr. destruct Hr as [row0 [<- Hr]]. apply in_map_iff in He. destruct He as [e0 [<- He]].
      simpl. apply position_spec. eapply Hin; eauto.
    - intros i Hi.
      assert (E : global_row colmap (nth i (map (fun row => map (fun e : nat * K => (position colmap (fst e), snd e)) (merge row)) rows) []) = merge (nth i rows [])).
      { rewrite (nth_indep _ [] (map (fun e : nat * K => (position colmap (fst e), snd e)) (merge []))) by (rewrite map_length; auto).
        rewrite (map_nth (fun row => map (fun e : nat * K => (position colmap (fst e), snd e)) (merge row))).
        unfold global_row. rewrite map_map. cbn [fst snd].
        rewrite <- (map_id (merge (nth i rows []))) at 2. apply map_ext_in. intros e He. destruct e as [g v]. cbn [fst snd]. f_equal.
        apply position_spec. apply (Hin (nth i rows []) (g, v)); auto. apply nth_In. auto. }
      rewrite E. split; [apply merge_simple|]. split.
      + intros g. rewrite merge_fst, nodup_In. tauto.
      + intros g. apply merge_entry.
  Qed.
End P.
