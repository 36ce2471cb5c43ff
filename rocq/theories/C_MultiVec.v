(** C50, C71, C72: multivectors for Anasazi. *)
From Coq Require Import List Arith Lia Bool ZArith QArith Qcanon.
From Verif Require Import Base OField Mat M_SpProd P_SpProd M_Csr C_Csr P_Dev2 M_MultiVec S_MultiVec P_MultiVec P_MultiVec2 E_Lanczos.
Import ListNotations.
Set Implicit Arguments.
Open Scope nat_scope.

(** MvTimesMatAddMv: mv_j := alpha A B(:,j) + beta mv_j if mv has no vector twice and none of A. Nothing else changes. *)
Theorem C50_times_mat_add : forall (K : ofield) debug (h : list (vec K)) alpha A (B : mat K) beta m n, NoDup m -> A <> [] -> m <> [] -> nr B = length A -> nc B = length m ->
  sized h A n -> sized h m n -> separate A m ->
  exists h', mv_times_mat_add_mv debug h alpha A B beta m = Ok h' /\
    (forall j, j < length m -> at_pos h' m j = combined alpha (content h A) B beta (at_pos h m j) j) /\ only_changes h h' m.
Proof. intros. eapply times_ok; eauto. Qed.
Print Assumptions C50_times_mat_add.

(** MvAddMv: mv_i := alpha A_i + beta B_i if mv has no vector twice, no vector of B at the same position, and no vector that A or B have later. It may
    be A itself. *)
Theorem C50_add : forall (K : ofield) debug (h : list (vec K)) alpha A beta B m n, NoDup m -> length A = length m -> length B = length m ->
  sized h A n -> sized h B n -> sized h m n -> not_overtaken A m -> not_overtaken B m -> (forall i, i < length m -> nth i B 0 <> nth i m 0) ->
  exists h', mv_add_mv debug h alpha A beta B m = Ok h' /\ (forall i, i < length m -> at_pos h' m i = summed alpha (at_pos h A i) beta (at_pos h B i)) /\ only_changes h h' m.
Proof.
  intros K debug h alpha A beta B m n Hn La Lb Ha Hb Hm Oa Ob Hd. destruct (@add_ok K debug h alpha A beta B m n Hn La Lb Ha Hb Hm Oa Ob) as [h' [E [G F]]].
  exists h'. split; auto. split; auto. intros i Hi. rewrite G by auto. assert (Q : nth i B 0 =? nth i m 0 = false) by (apply Nat.eqb_neq; apply Hd; auto). rewrite Q. auto.
Qed.
Print Assumptions C50_add.
(** If mv has the vector of B at the same position, the old vector of B is lost: mv_i := alpha A_i + beta A_i. *)
Theorem C50_add_into_second : forall (K : ofield) debug (h : list (vec K)) alpha A beta m n, NoDup m -> length A = length m ->
  sized h A n -> sized h m n -> not_overtaken A m ->
  exists h', mv_add_mv debug h alpha A beta m m = Ok h' /\ (forall i, i < length m -> at_pos h' m i = summed alpha (at_pos h A i) beta (at_pos h A i)) /\ only_changes h h' m.
Proof.
  intros K debug h alpha A beta m n Hn La Ha Hm Oa. destruct (@add_ok K debug h alpha A beta m m n Hn La eq_refl Ha Hm Hm Oa) as [h' [E [G F]]].
  - intros i j Hij Hj Hi. apply NoDup_nth_neq; auto. lia.
  - exists h'. split; auto. split; auto. intros i Hi. rewrite G, Nat.eqb_refl by auto. auto.
Qed.
Print Assumptions C50_add_into_second.

(** Scaling. *)
Theorem C50_scale : forall (K : ofield) debug (h : list (vec K)) m alpha alphas, NoDup m -> lives h m -> length alphas = length m ->
  (exists h', mv_scale h m alpha = Ok h' /\ (forall i, i < length m -> at_pos h' m i = vscale alpha (at_pos h m i)) /\ only_changes h h' m) /\
  (exists h', mv_scale_each debug h m alphas = Ok h' /\ (forall i, i < length m -> at_pos h' m i = vscale (nth i alphas f0) (at_pos h m i)) /\ only_changes h h' m).
Proof. intros. split; [apply scale_ok; auto|apply scale_each_ok; auto]. Qed.
Print Assumptions C50_scale.
(** Inner products, with any sharing: A^T B, the products of corresponding vectors, and norms. *)
Theorem C50_inner : forall (K : ofield) debug root (h : list (vec K)) alpha A B n, A <> [] -> B <> [] -> sized h A n -> sized h B n ->
  mv_trans_mv debug h alpha A B (length A) (length B)
    = Ok (map (fun i => map (fun j => fmul alpha (dot (at_pos h A i) (at_pos h B j))) (seq 0 (length B))) (seq 0 (length A))) /\
  (length B = length A -> mv_dot debug h A B = Ok (map (fun i => dot (at_pos h A i) (at_pos h B i)) (seq 0 (length A)))) /\
  mv_norm root h A = Ok (map (fun i => root (dot (at_pos h A i) (at_pos h A i))) (seq 0 (length A))).
Proof. intros K debug root h alpha A B n HA HB Ha Hb. split; [eapply trans_ok; eauto|]. split; [intros L; eapply dot_ok; eauto|apply norm_ok; apply Ha]. Qed.
Print Assumptions C50_inner.
(** SetBlock: the chosen vectors become those of A, the others stay. *)
Theorem C50_set_block : forall (K : ofield) debug (h : list (vec K)) A index m n, length A = length index -> length index <= length m -> (forall j, In j index -> j < length m) ->
  NoDup m -> NoDup index -> A <> [] -> sized h A n -> sized h m n -> not_overtaken A (map (fun j => nth j m 0) index) ->
  exists h', set_block debug h A index m = Ok h' /\ (forall i, i < length index -> at_pos h' m (nth i index 0) = at_pos h A i) /\
    only_changes h h' (map (fun j => nth j m 0) index).
Proof. intros. eapply set_block_ok; eauto. Qed.
Print Assumptions C50_set_block.
(** MvInit and OperatorTraits::Apply. *)
Theorem C50_init : forall (K : ofield) (h : list (vec K)) m alpha, NoDup m -> lives h m ->
  exists h', mv_init h m alpha = Ok h' /\ (forall i, i < length m -> at_pos h' m i = repeat alpha (length (at_pos h m i))) /\ only_changes h h' m.
Proof. intros. apply init_ok; auto. Qed.
Print Assumptions C50_init.
Theorem C50_apply : forall (K : ofield) debug (h : list (vec K)) (M : mat K) x y, NoDup y -> nr M = nc M -> length y = length x -> sized h x (nc M) -> sized h y (nr M) ->
  not_overtaken x y -> (forall i, i < length x -> nth i x 0 <> nth i y 0) ->
  exists h', op_traits_apply debug h M x y = Ok h' /\ (forall i, i < length y -> at_pos h' y i = mulvec M (at_pos h x i)) /\ only_changes h h' y.
Proof. intros. apply apply_ok; auto. Qed.
Print Assumptions C50_apply.

(** C71: a view keeps showing the vectors of its source, through all later operations. *)
Theorem C71_views : forall (K : ofield) debug draws (os os' : list (mop K)) s m index s', mrun debug draws (mkM [] []) os = Ok s ->
  mrun debug draws s (VView m index :: os') = Ok s' ->
  exists xs, value s' m = Some xs /\ value s' (length (ms_multis s)) = Some (map (fun j => nth j xs []) index) /\ forall j, In j index -> j < length xs.
Proof.
  intros K debug draws os os' s m index s' E1 E2. destruct (run_grouped debug draws os (grouped_start K) E1) as [G _]. cbn [mrun] in E2. apply bind_ok in E2. destruct E2 as [s1 [S1 E2]].
  destruct (step_grouped debug draws _ G S1) as [G1 [P1 _]]. destruct (run_grouped debug draws os' G1 E2) as [_ [P2 _]].
  cbn [mstep] in S1. apply bind_ok in S1. destruct S1 as [x [Ex S1]]. apply bind_ok in S1. destruct S1 as [y [Ey S1]]. injection S1 as <-.
  destruct (view_inv _ _ Ey) as [-> Hi]. unfold rd in Ex. destruct (nth_error (ms_multis s) m) as [z|] eqn:Ez; [|discriminate]. injection Ex as ->.
  cbn [with_multi fst snd ms_multis ms_store] in *. rewrite app_length in P2. simpl in P2. assert (Hm := nth_error_lt _ _ Ez).
  exists (content (ms_store s') x). unfold value. rewrite (P2 m) by lia. rewrite (P2 (length (ms_multis s))) by lia. rewrite nth_error_app1, Ez by lia. rewrite nth_error_app2, Nat.sub_diag by lia.
  cbn [nth_error option_map]. split; auto. split.
  - f_equal. unfold content. rewrite map_map. apply map_ext_in. intros j Hj. symmetry. rewrite (nth_indep _ [] (nth 0 (ms_store s') [])) by (rewrite map_length; auto). apply (map_nth (fun p => nth p (ms_store s') [])).
  - intros j Hj. unfold content. rewrite map_length. auto.
Qed.
Print Assumptions C71_views.
(** C71: a copy has the contents of its source, and keeps them as long as no operation writes to the copy or to a view of it, whatever happens to the
    source; and the source, together with all it shares vectors with, keeps its contents whatever happens to the copy. *)
Theorem C71_copies : forall (K : ofield) debug draws (os os' : list (mop K)) s m index s', mrun debug draws (mkM [] []) os = Ok s ->
  (exists x, nth_error (ms_multis s) m = Some x /\ forall j, In j index -> j < length x) ->
  mrun debug draws s (VCopy m index :: os') = Ok s' ->
  let fs := families [] os in
  (leaves (length fs) (fs ++ [length fs]) os' -> exists xs, value s m = Some xs /\ value s' (length (ms_multis s)) = Some (map (fun j => nth j xs []) index)) /\
  (forall k, k < length fs -> nth k fs 0 <> length fs) /\
  (forall k, k < length fs -> leaves (nth k fs 0) (fs ++ [length fs]) os' -> value s' k = value s k).
Proof.
  intros K debug draws os os' s m index s' E1 [x [Hx Hi]] E2 fs. destruct (run_grouped debug draws os (grouped_start K) E1) as [G _]. fold fs in G.
  assert (E0 := E2). cbn [mrun] in E2. apply bind_ok in E2. destruct E2 as [s1 [S1 E2]].
  destruct (step_grouped debug draws _ G S1) as [G1 [P1 V1]]. cbn [families] in G1. destruct (run_grouped debug draws os' G1 E2) as [_ [P2 V2]].
  assert (Hsmall : forall k, k < length fs -> nth k fs 0 <> length fs) by (intros k Hk; pose proof (gr_small G Hk); lia). split; [|split; [exact Hsmall|]].
  - intros Hl. exists (content (ms_store s) x). unfold value at 1. rewrite Hx. split; auto.
    rewrite (V2 (length fs) (length (ms_multis s))); [| |rewrite app_length, (gr_len G); simpl; lia|auto].
    + cbn [mstep] in S1. unfold rd in S1. rewrite Hx in S1. cbn [bind] in S1. destruct (@copy_ok K (ms_store s) x index (gr_live G m Hx) Hi) as [h' [y [C1 [C2 [C3 [C4 [C5 C6]]]]]]].
      rewrite C1 in S1. cbn [bind] in S1. injection S1 as <-. unfold value. cbn [with_multi fst snd ms_multis ms_store]. rewrite nth_error_app2, Nat.sub_diag by lia. cbn [nth_error option_map]. f_equal.
      apply (nth_ext _ _ [] []); unfold content; rewrite !map_length; auto. intros i Hi'. rewrite (nth_indep _ [] (nth 0 h' [])) by (rewrite map_length; auto). rewrite (map_nth (fun p => nth p h' [])).
      rewrite C2 in Hi'. etransitivity; [exact (C5 i Hi')|]. rewrite (nth_indep (map _ index) [] (nth 0 (map (fun p => nth p (ms_store s) []) x) [])) by (rewrite map_length; auto).
      rewrite (map_nth (fun j => nth j (map (fun p => nth p (ms_store s) []) x) [])). symmetry. unfold at_pos.
      rewrite (nth_indep _ [] (nth 0 (ms_store s) [])) by (rewrite map_length; apply Hi; apply nth_In; auto). apply (map_nth (fun p => nth p (ms_store s) [])).
    + rewrite nth_snoc, <- (gr_len G), Nat.ltb_irrefl, Nat.eqb_refl. auto.
  - intros k Hk Hl. rewrite (V2 (nth k fs 0) k); [apply (V1 (nth k fs 0) k); auto; intros q Hq; discriminate|apply app_nth1; auto|rewrite app_length; lia|auto].
Qed.
Print Assumptions C71_copies.
(** C71: every operation changes only multivectors of the family it writes to. *)
Theorem C71_families : forall (K : ofield) debug draws (os : list (mop K)) s o s' k, mrun debug draws (mkM [] []) os = Ok s -> mstep debug draws s o = Ok s' ->
  k < length (families [] os) -> (forall m, target o = Some m -> nth m (families [] os) 0 <> nth k (families [] os) 0) -> value s' k = value s k.
Proof.
  intros K debug draws os s o s' k E1 E2 Hk Ht. destruct (run_grouped debug draws os (grouped_start K) E1) as [G _]. destruct (step_grouped debug draws o G E2) as [_ [_ V]].
  apply (V (nth k (families [] os) 0) k); auto.
Qed.
Print Assumptions C71_families.

(** C72: MvRandom starts the generator anew in every call: vector i gets the numbers i n, ..., i n + n - 1 of the stream. *)
Theorem C72_random : forall (K : ofield) draws (h : list (vec K)) m n, NoDup m -> sized h m n ->
  exists h', mv_random draws h m = Ok h' /\ (forall i, i < length m -> at_pos h' m i = map draws (seq (i * n) n)) /\ only_changes h h' m.
Proof. intros. apply random_ok; auto. Qed.
Print Assumptions C72_random.
(** So two multivectors of the same shape get the same contents: a second random block is not independent of the first. *)
Theorem C72_random_repeats : forall (K : ofield) draws (h : list (vec K)) m m' n, NoDup m -> NoDup m' -> length m = length m' -> separate m m' -> sized h m n -> sized h m' n ->
  exists h1 h2, mv_random draws h m = Ok h1 /\ mv_random draws h1 m' = Ok h2 /\ content h2 m = content h2 m'.
Proof.
  intros K draws h m m' n Hn Hn' Hl Hs Hm Hm'. destruct (random_ok draws Hn Hm) as [h1 [E1 [G1 [F1 F2]]]].
  assert (Hm1 : sized h1 m' n). { split; [intros p Hp; rewrite F1; apply Hm'; auto|]. intros p Hp. rewrite F2; [apply Hm'; auto|]. intros Q. exact (Hs p Q Hp). }
  destruct (random_ok draws Hn' Hm1) as [h2 [E2 [G2 [F3 F4]]]]. exists h1, h2. split; auto. split; auto.
  apply (nth_ext _ _ [] []); unfold content; rewrite !map_length; auto. intros i Hi.
  rewrite (nth_indep (map _ m) [] (nth 0 h2 [])) by (rewrite map_length; auto). rewrite (nth_indep (map _ m') [] (nth 0 h2 [])) by (rewrite map_length; lia).
  rewrite !(map_nth (fun p => nth p h2 [])). transitivity (at_pos h1 m i); [apply F4; apply Hs; apply nth_In; auto|]. rewrite G1 by auto. symmetry. apply G2. lia.
Qed.
Print Assumptions C72_random_repeats.

(** Examples: three vectors; the multivector [0; 1] and the vector 2. *)
Definition ex_h : list (vec QcOF) := [[cq 1 1; cq 2 1]; [cq 3 1; cq 4 1]; [cq 5 1; cq 6 1]; [cq 7 1; cq 8 1]].
Definition heqb (a b : list (vec QcOF)) : bool := (length a =? length b) && forallb (fun e => veqb (fst e) (snd e)) (combine a b).
Lemma heqb_eq : forall a b, heqb a b = true -> a = b.
Proof.
  intros a. induction a as [|x a IH]; intros [|y b] H; try discriminate; auto. unfold heqb in *. simpl in H. apply andb_prop in H. destruct H as [H1 H2]. apply andb_prop in H2. destruct H2 as [H2 H3].
  f_equal; [apply veqb_eq; auto|]. apply IH. rewrite H1. auto.
Qed.
Definition ends_in (o : outcome (list (vec QcOF))) (l : list (vec QcOF)) : bool := match o with Ok h => heqb h l | _ => false end.
Lemma ends_in_ok : forall o l, ends_in o l = true -> o = Ok l.
Proof. intros [h| | | |] l H; try discriminate. simpl in H. f_equal. apply heqb_eq. auto. Qed.
Lemma ex_sized : forall x, (forall p, In p x -> p < 4) -> sized ex_h x 2.
Proof. intros x H. split; [intros p Hp; apply H in Hp; simpl; lia|]. intros p Hp. apply H in Hp. destruct p as [|[|[|[|p]]]]; try reflexivity. lia. Qed.
Definition ex_mat : mat QcOF := mkMat 2 2 (fun i j => cq (Z.of_nat (i + 2 * j + 1)) 1).
Example C50_times_example : exists h', mv_times_mat_add_mv true ex_h (cq 2 1) [0; 1] ex_mat (cq (-1) 1) [3; 2] = Ok h' /\
  at_pos h' [3; 2] 0 = [cq 7 1; cq 12 1] /\ at_pos h' [3; 2] 1 = [cq 25 1; cq 38 1] /\ at_pos h' [0; 1] 0 = [cq 1 1; cq 2 1].
Proof.
  destruct (@C50_times_mat_add QcOF true ex_h (cq 2 1) [0; 1] ex_mat (cq (-1) 1) [3; 2] 2) as [h' [E [G [F1 F2]]]]; try reflexivity; try discriminate.
  - repeat constructor; simpl; lia.
  - apply ex_sized. simpl. lia.
  - apply ex_sized. simpl. lia.
  - intros p Hp Hq. simpl in *. lia.
  - exists h'. split; auto. rewrite !G by (simpl; lia). split; [apply veqb_eq; vm_compute; reflexivity|]. split; [apply veqb_eq; vm_compute; reflexivity|]. unfold at_pos. rewrite F2; [reflexivity|simpl; lia].
Qed.
(** With mv among the vectors of A the product is wrong: the second column already uses the new first vector. *)
Theorem C50_times_aliased_refuted : exists (K : ofield) (h : list (vec K)) alpha A B beta h' j, NoDup A /\ A <> [] /\ nr B = length A /\ nc B = length A /\ sized h A 2 /\
  mv_times_mat_add_mv true h alpha A B beta A = Ok h' /\ j < length A /\ at_pos h' A j <> combined alpha (content h A) B beta (at_pos h A j) j.
Proof.
  exists QcOF, ex_h, (cq 1 1), [0; 1], ex_mat, (cq 0 1), [[cq 6 1; cq 8 1]; [cq 90 1; cq 120 1]; [cq 5 1; cq 6 1]; [cq 7 1; cq 8 1]], 0.
  split; [repeat constructor; simpl; lia|]. split; [discriminate|]. split; [auto|]. split; [auto|]. split; [apply ex_sized; simpl; lia|]. split; [apply ends_in_ok; vm_compute; reflexivity|].
  split; [simpl; lia|]. intros Q. vm_compute in Q. discriminate.
Qed.
Print Assumptions C50_times_aliased_refuted.
(** In-place sum into the first argument. *)
Example C50_add_example : exists h', mv_add_mv true ex_h (cq 2 1) [0; 1] (cq 1 1) [2; 3] [0; 1] = Ok h' /\ at_pos h' [0; 1] 1 = [cq 13 1; cq 16 1].
Proof.
  destruct (@C50_add QcOF true ex_h (cq 2 1) [0; 1] (cq 1 1) [2; 3] [0; 1] 2) as [h' [E [G _]]]; try reflexivity.
  - repeat constructor; simpl; lia.
  - apply ex_sized. simpl. lia.
  - apply ex_sized. simpl. lia.
  - apply ex_sized. simpl. lia.
  - intros i j Hij Hj Hi. simpl in *. destruct i as [|[|i]], j as [|[|j]]; simpl; lia.
  - intros i j Hij Hj Hi. simpl in *. destruct i as [|[|i]], j as [|[|j]]; simpl; lia.
  - intros i Hi. simpl in *. destruct i as [|[|i]]; simpl; lia.
  - exists h'. split; auto. rewrite G by (simpl; lia). apply veqb_eq. vm_compute. reflexivity.
Qed.
(** Into the second: 2 (1,2) + (5,6) should be (7,10) but is 3 (1,2). *)
Theorem C50_add_into_second_refuted : exists h', mv_add_mv true ex_h (cq 2 1) [0; 1] (cq 1 1) [2; 3] [2; 3] = Ok h' /\ at_pos h' [2; 3] 0 = [cq 3 1; cq 6 1] /\
  summed (cq 2 1) (at_pos ex_h [0; 1] 0) (cq 1 1) (at_pos ex_h [2; 3] 0) = [cq 7 1; cq 10 1].
Proof.
  destruct (@C50_add_into_second QcOF true ex_h (cq 2 1) [0; 1] (cq 1 1) [2; 3] 2) as [h' [E [G _]]]; try reflexivity.
  - repeat constructor; simpl; lia.
  - apply ex_sized. simpl. lia.
  - apply ex_sized. simpl. lia.
  - intros i j Hij Hj Hi. simpl in *. destruct i as [|[|i]], j as [|[|j]]; simpl; lia.
  - exists h'. split; auto. rewrite G by (simpl; lia). split; apply veqb_eq; vm_compute; reflexivity.
Qed.
Print Assumptions C50_add_into_second_refuted.
Example C50_scale_example : (exists h', mv_scale ex_h [1; 3] (cq 3 1) = Ok h' /\ at_pos h' [1; 3] 1 = [cq 21 1; cq 24 1]) /\
  exists h', mv_scale_each true ex_h [1; 3] [cq 2 1; cq 0 1] = Ok h' /\ at_pos h' [1; 3] 0 = [cq 6 1; cq 8 1].
Proof.
  destruct (@C50_scale QcOF true ex_h [1; 3] (cq 3 1) [cq 2 1; cq 0 1]) as [[h1 [E1 [G1 _]]] [h2 [E2 [G2 _]]]]; [repeat constructor; simpl; lia|apply ex_sized; simpl; lia|reflexivity|].
  split; [exists h1|exists h2]; (split; [auto|]); [rewrite G1 by (simpl; lia)|rewrite G2 by (simpl; lia)]; apply veqb_eq; vm_compute; reflexivity.
Qed.
(** A multivector that has a vector twice scales it twice. *)
Theorem C50_scale_repeated_refuted : exists (K : ofield) (h : list (vec K)) m alpha h', lives h m /\ mv_scale h m alpha = Ok h' /\ at_pos h' m 0 <> vscale alpha (at_pos h m 0).
Proof.
  exists QcOF, ex_h, [1; 1], (cq 3 1), [[cq 1 1; cq 2 1]; [cq 27 1; cq 36 1]; [cq 5 1; cq 6 1]; [cq 7 1; cq 8 1]].
  split; [apply ex_sized; simpl; lia|]. split; [apply ends_in_ok; vm_compute; reflexivity|]. intros Q. vm_compute in Q. discriminate.
Qed.
Print Assumptions C50_scale_repeated_refuted.
Example C50_inner_example : mv_trans_mv true ex_h (cq 1 1) [0; 1] [1; 1] 2 2 = Ok [[cq 11 1; cq 11 1]; [cq 25 1; cq 25 1]] /\ mv_dot true ex_h [0; 1] [1; 1] = Ok [cq 11 1; cq 25 1].
Proof.
  destruct (@C50_inner QcOF true (fun x => x) ex_h (cq 1 1) [0; 1] [1; 1] 2) as [E1 [E2 _]]; try discriminate; try (apply ex_sized; simpl; lia).
  simpl length in E1. rewrite E1, E2 by reflexivity. split; vm_compute; reflexivity.
Qed.
(** A block moved down by one position inside the same multivector would be overtaken; moved to the front it is not. *)
Example C50_set_block_example : exists h', set_block true ex_h [1; 2] [0; 1] [0; 1; 2; 3] = Ok h' /\ at_pos h' [0; 1; 2; 3] 0 = [cq 3 1; cq 4 1] /\ at_pos h' [0; 1; 2; 3] 1 = [cq 5 1; cq 6 1].
Proof.
  destruct (@C50_set_block QcOF true ex_h [1; 2] [0; 1] [0; 1; 2; 3] 2) as [h' [E [G _]]]; try reflexivity; try discriminate; try (simpl; lia); try (repeat constructor; simpl; lia); try (apply ex_sized; simpl; lia).
  - intros i j Hij Hj Hi. simpl in *. destruct i as [|[|i]], j as [|[|j]]; simpl; lia.
  - exists h'. split; auto. split; [exact (G 0 ltac:(simpl; lia))|exact (G 1 ltac:(simpl; lia))].
Qed.
Theorem C50_set_block_overtaken_refuted : exists (K : ofield) (h : list (vec K)) A index m h', NoDup m /\ NoDup index /\ length A = length index /\ (forall j, In j index -> j < length m) /\
  sized h A 2 /\ sized h m 2 /\ set_block true h A index m = Ok h' /\ at_pos h' m (nth 1 index 0) <> at_pos h A 1.
Proof.
  exists QcOF, ex_h, [0; 1], [1; 2], [0; 1; 2; 3], [[cq 1 1; cq 2 1]; [cq 1 1; cq 2 1]; [cq 1 1; cq 2 1]; [cq 7 1; cq 8 1]].
  split; [repeat constructor; simpl; lia|]. split; [repeat constructor; simpl; lia|]. split; [auto|]. split; [simpl; lia|]. split; [apply ex_sized; simpl; lia|]. split; [apply ex_sized; simpl; lia|].
  split; [apply ends_in_ok; vm_compute; reflexivity|]. intros Q. vm_compute in Q. discriminate.
Qed.
Print Assumptions C50_set_block_overtaken_refuted.
Example C50_init_example : exists h', mv_init ex_h [2; 0] (cq 9 1) = Ok h' /\ at_pos h' [2; 0] 1 = [cq 9 1; cq 9 1].
Proof. destruct (@C50_init QcOF ex_h [2; 0] (cq 9 1)) as [h' [E [G _]]]; [repeat constructor; simpl; lia|apply ex_sized; simpl; lia|]. exists h'. split; auto. rewrite G by (simpl; lia). reflexivity. Qed.
Example C50_apply_example : exists h', op_traits_apply true ex_h ex_mat [0; 1] [2; 3] = Ok h' /\ at_pos h' [2; 3] 0 = [cq 7 1; cq 10 1].
Proof.
  destruct (@C50_apply QcOF true ex_h ex_mat [0; 1] [2; 3]) as [h' [E [G _]]]; try reflexivity; try (repeat constructor; simpl; lia); try (apply ex_sized; simpl; lia).
  - intros i j Hij Hj Hi. simpl in *. destruct i as [|[|i]], j as [|[|j]]; simpl; lia.
  - intros i Hi. simpl in *. destruct i as [|[|i]]; simpl; lia.
  - exists h'. split; auto. rewrite G by (simpl; lia). apply veqb_eq. vm_compute. reflexivity.
Qed.
(** A program: a multivector, a view of its second vector, a copy; the view is changed. *)
Definition ex_draws (i : nat) : QcOF := cq (Z.of_nat (i + 1)) 1.
Definition ex_start : list (mop QcOF) := [VNew 2 2; VRandom 0].
Definition mdone (o : outcome (mstate QcOF)) : mstate QcOF := match o with Ok s => s | _ => mkM [] [] end.
Definition mokay (o : outcome (mstate QcOF)) : bool := match o with Ok _ => true | _ => false end.
Lemma mdone_ok : forall o, mokay o = true -> o = Ok (mdone o).
Proof. intros [s| | | |] H; try discriminate. auto. Qed.
Definition valb (s : mstate QcOF) (k : nat) (l : list (vec QcOF)) : bool := match value s k with Some v => heqb v l | None => false end.
Lemma valb_eq : forall s k l, valb s k l = true -> value s k = Some l.
Proof. intros s k l H. unfold valb in H. destruct (value s k); [|discriminate]. f_equal. apply heqb_eq. auto. Qed.
Definition ex_s0 : mstate QcOF := mdone (mrun true ex_draws (mkM [] []) ex_start).
Definition ex_view : list (mop QcOF) := [VScale 1 (cq 10 1); VInit 0 (cq 4 1); VScale 1 (cq 10 1)].
Definition ex_s1 : mstate QcOF := mdone (mrun true ex_draws ex_s0 (VView 0 [1] :: ex_view)).
Example C71_views_example : exists xs, value ex_s1 0 = Some xs /\ value ex_s1 1 = Some [nth 1 xs []] /\ xs = [[cq 4 1; cq 4 1]; [cq 40 1; cq 40 1]].
Proof.
  assert (E1 : mrun true ex_draws (mkM [] []) ex_start = Ok ex_s0) by (apply mdone_ok; vm_compute; reflexivity).
  assert (E2 : mrun true ex_draws ex_s0 (VView 0 [1] :: ex_view) = Ok ex_s1) by (apply mdone_ok; vm_compute; reflexivity).
  destruct (@C71_views QcOF true ex_draws ex_start ex_view ex_s0 0 [1] ex_s1 E1 E2) as [xs [V1 [V2 _]]].
  assert (L : length (ms_multis ex_s0) = 1) by (vm_compute; reflexivity). rewrite L in V2. exists xs. split; auto. split; auto.
  assert (Q : value ex_s1 0 = Some [[cq 4 1; cq 4 1]; [cq 40 1; cq 40 1]]) by (apply valb_eq; vm_compute; reflexivity). congruence.
Qed.
(** The copy of both vectors in the other order does not follow the source. *)
Definition ex_copy : list (mop QcOF) := [VScale 0 (cq 10 1); VView 0 [1]; VInit 2 (cq 4 1)].
Definition ex_s2 : mstate QcOF := mdone (mrun true ex_draws ex_s0 (VCopy 0 [1; 0] :: ex_copy)).
Example C71_copies_example : value ex_s2 1 = Some [[cq 3 1; cq 4 1]; [cq 1 1; cq 2 1]] /\ value ex_s2 0 = Some [[cq 10 1; cq 20 1]; [cq 4 1; cq 4 1]].
Proof.
  split; [|apply valb_eq; vm_compute; reflexivity].
  assert (E1 : mrun true ex_draws (mkM [] []) ex_start = Ok ex_s0) by (apply mdone_ok; vm_compute; reflexivity).
  assert (E2 : mrun true ex_draws ex_s0 (VCopy 0 [1; 0] :: ex_copy) = Ok ex_s2) by (apply mdone_ok; vm_compute; reflexivity).
  assert (X : exists x, nth_error (ms_multis ex_s0) 0 = Some x /\ forall j, In j [1; 0] -> j < length x) by (exists [0; 1]; split; [vm_compute; reflexivity|simpl; lia]).
  destruct (@C71_copies QcOF true ex_draws ex_start ex_copy ex_s0 0 [1; 0] ex_s2 E1 X E2) as [A _]. destruct A as [xs [V1 V2]].
  - simpl. repeat split; intros m Hm; try discriminate; injection Hm as <-; simpl; lia.
  - assert (L : length (ms_multis ex_s0) = 1) by (vm_compute; reflexivity). rewrite L in V2. rewrite V2.
    assert (Q : value ex_s0 0 = Some [[cq 1 1; cq 2 1]; [cq 3 1; cq 4 1]]) by (apply valb_eq; vm_compute; reflexivity). assert (xs = [[cq 1 1; cq 2 1]; [cq 3 1; cq 4 1]]) by congruence. subst xs. reflexivity.
Qed.
Definition ex_two : list (mop QcOF) := [VNew 2 2; VRandom 0; VNew 2 2; VRandom 1].
Definition ex_s3 : mstate QcOF := mdone (mrun true ex_draws (mkM [] []) ex_two).
Definition ex_s4 : mstate QcOF := mdone (mstep true ex_draws ex_s3 (VScale 0 (cq 5 1))).
Example C71_families_example : value ex_s4 1 = value ex_s3 1.
Proof.
  apply (@C71_families QcOF true ex_draws ex_two ex_s3 (VScale 0 (cq 5 1)) ex_s4 1); [apply mdone_ok; vm_compute; reflexivity|apply mdone_ok; vm_compute; reflexivity|simpl; lia|].
  intros m Hm. injection Hm as <-. simpl. lia.
Qed.
Example C72_random_example : exists h1 h2, mv_random ex_draws ex_h [0; 1] = Ok h1 /\ mv_random ex_draws h1 [3; 2] = Ok h2 /\ content h2 [0; 1] = content h2 [3; 2].
Proof.
  apply (@C72_random_repeats QcOF ex_draws ex_h [0; 1] [3; 2] 2); try reflexivity; try (repeat constructor; simpl; lia); try (apply ex_sized; simpl; lia).
  intros p Hp Hq. simpl in *. lia.
Qed.
