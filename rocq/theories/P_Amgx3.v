(** Proofs about the solve with AMGX. *)
From Coq Require Import List Arith Lia Bool Permutation Sorted Field.
From Verif Require Import Base OField Mat M_Perm S_Perm P_Perm M_SpProd S_SpProd M_Csr S_Csr P_SpProd P_Csr P_Csr2 P_Csr3 P_Csr4 M_Amgx S_Amgx P_Amgx P_Amgx2.
Import ListNotations.
Set Implicit Arguments.
Open Scope nat_scope.

(** ** Writes to distinct positions in any order *)
Lemma foldM_writes : forall A T (f : A -> nat) (g : A -> T) (body : list T -> A -> outcome (list T)) l dst,
  (forall a d, In a l -> length d = length dst -> body d a = wr d (f a) (g a)) -> NoDup (map f l) -> (forall a, In a l -> f a < length dst) ->
  exists d, foldM body dst l = Ok d /\ length d = length dst /\ (forall a, In a l -> nth_error d (f a) = Some (g a)) /\
    forall i, ~ In i (map f l) -> nth_error d i = nth_error dst i.
Proof.
  intros A T f g body. induction l as [|a l IH]; intros dst Hb Hd Hf; simpl.
  - exists dst. repeat (split; auto). intros a [].
  - simpl in Hd. inversion Hd as [|x y Hx Hy]; subst. rewrite Hb by (simpl; auto). rewrite wr_in by (apply Hf; simpl; auto). cbn [bind].
    destruct (IH (upd dst (f a) (g a))) as [d [E [L [W O]]]]; auto.
    + intros a' d Ha Hl. apply Hb; [simpl; auto|]. rewrite upd_length in Hl. auto.
    + intros a' Ha. rewrite upd_length. apply Hf. simpl; auto.
    + exists d. split; auto. rewrite upd_length in L. split; auto. split.
      * intros a' [<-|Ha]; auto. rewrite O by auto. apply nth_error_upd_eq. apply Hf. simpl; auto.
      * intros i Hi. rewrite O by auto. apply nth_error_upd_neq. auto.
Qed.

Lemma concat_lengths_inj : forall A (l l' : list (list A)), map (@length A) l = map (@length A) l' -> concat l = concat l' -> l = l'.
Proof.
  intros A. induction l as [|a l IH]; intros [|b l'] H E; simpl in *; try discriminate; auto. injection H as H1 H2.
  assert (a = b /\ concat l = concat l') as [-> E2].
  { revert b H1 E. clear. induction a as [|x a IH]; intros [|y b] H1 E; simpl in *; try discriminate; auto.
    injection E as -> E. injection H1 as H1. destruct (IH b H1 E) as [-> ?]. auto. }
  f_equal. auto.
Qed.
Lemma pairs_ext : forall A B (l l' : list (A * B)), map fst l = map fst l' -> map snd l = map snd l' -> l = l'.
Proof.
  induction l as [|[a b] l IH]; intros [|[a' b'] l'] H1 H2; simpl in *; try discriminate; auto. injection H1 as -> H1. injection H2 as -> H2. f_equal. auto.
Qed.
Lemma csr_rows_unique : forall (K : ofield) (c : csr K) rows rows', csr_holds c rows -> csr_holds c rows' -> rows = rows'.
Proof.
  intros K c rows rows' H H'.
  assert (L : length rows = length rows') by (rewrite (cs_rows H), (cs_rows H'); auto).
  apply concat_lengths_inj.
  - apply (@list_ext nat _ _ 0); rewrite !map_length; auto. intros i Hi.
    rewrite (nth_map_lt _ rows 0 []), (nth_map_lt _ rows' 0 []) by lia.
    pose proof (cs_ptr H (r := S i) ltac:(lia)) as P1. pose proof (cs_ptr H' (r := S i) ltac:(lia)) as P2.
    pose proof (cs_ptr H (r := i) ltac:(lia)) as P3. pose proof (cs_ptr H' (r := i) ltac:(lia)) as P4.
    rewrite (firstn_S_nth rows []) in P1 by lia. rewrite (firstn_S_nth rows' []) in P2 by lia.
    rewrite concat_app, app_length in P1, P2. simpl in P1, P2. rewrite app_nil_r in P1, P2. lia.
  - apply pairs_ext; [rewrite <- (cs_col H), <- (cs_col H')|rewrite <- (cs_val H), <- (cs_val H')]; auto.
Qed.

Lemma mapM_nth : forall A B (f : A -> outcome B) l (P : nat -> A -> B -> Prop),
  (forall p a, nth_error l p = Some a -> exists b, f a = Ok b /\ P p a b) ->
  exists bs, mapM f l = Ok bs /\ length bs = length l /\ forall p a b, nth_error l p = Some a -> nth_error bs p = Some b -> P p a b.
Proof.
  induction l as [|a l IH]; intros P H; simpl.
  - exists []. repeat (split; auto). intros [|p] a b H1; discriminate.
  - destruct (H 0 a) as [b [E Hb]]; auto. rewrite E. cbn [bind]. destruct (IH (fun p => P (S p))) as [bs [E2 [L F]]].
    + intros p a' Ha. apply (H (S p)). auto.
    + rewrite E2. cbn [bind]. exists (b :: bs). split; auto. split; [simpl; lia|]. intros [|p] a' b' H1 H2; simpl in *.
      * injection H1 as <-. injection H2 as <-. auto.
      * eapply F; eauto.
Qed.
Lemma mapM_ext_in : forall A B (f g : A -> outcome B) l, (forall a, In a l -> f a = g a) -> mapM f l = mapM g l.
Proof.
  induction l as [|a l IH]; intros H; simpl; auto. rewrite (H a) by (simpl; auto). rewrite IH; auto. intros; apply H; simpl; auto.
Qed.
Lemma nth_error_combine : forall A B (l : list A) (l' : list B) p a b, nth_error (combine l l') p = Some (a, b) <->
  nth_error l p = Some a /\ nth_error l' p = Some b.
Proof.
  induction l as [|x l IH]; intros [|y l'] [|p] a b; simpl; try (split; [discriminate|intros [? ?]; discriminate]).
  - split; [intros E; injection E as -> ->; auto|intros [E1 E2]; injection E1 as ->; injection E2 as ->; auto].
  - apply IH.
Qed.
Lemma slice_all : forall A (l : list A) n, length l = n -> slice l 0 n = Ok l.
Proof. intros A l n <-. unfold slice. simpl. rewrite Nat.leb_refl, firstn_all. auto. Qed.

Section Scatter.
  Variable K : ofield.
  Lemma scatter_onto : forall n owned (xs : list (list K)), partition n owned -> map (@length K) xs = map (@length nat) owned ->
    exists x : vec K, length x = n /\ scatter owned x = xs.
  Proof.
    intros n owned xs Hp Hl.
    exists (map (fun g => nth (position (concat owned) g) (concat xs) f0) (seq 0 n)). split; [rewrite map_length, seq_length; auto|].
    assert (HL : length (concat xs) = length (concat owned)).
    { clear Hp. revert owned Hl. induction xs as [|a xs IH]; intros [|o owned] Hl; simpl in *; try discriminate; auto. injection Hl as H1 H2.
      rewrite !app_length. rewrite (IH owned); auto. }
    apply concat_lengths_inj.
    - rewrite scatter_lengths. auto.
    - rewrite concat_scatter. apply (@list_ext K _ _ f0); rewrite map_length; [lia|]. intros i Hi.
      rewrite (nth_map_lt _ (concat owned) f0 0) by auto.
      assert (Hg : In (nth i (concat owned) 0) (concat owned)) by (apply nth_In; auto).
      pose proof (proj1 (proj2 Hp _) Hg) as Hlt. rewrite (nth_map_lt _ (seq 0 n) f0 0) by (rewrite seq_length; auto). rewrite seq_nth by auto. simpl (0 + _).
      f_equal. destruct (position_spec _ _ Hg) as [P1 P2]. apply (proj1 (NoDup_nth (concat owned) 0) (proj1 Hp)); auto.
  Qed.
  Lemma nth_scatter : forall owned (x : vec K) p l i, nth_error owned p = Some l -> i < length l ->
    nth i (nth p (scatter owned x) []) f0 = nth (nth i l 0) x f0.
  Proof.
    intros owned x p l i Hp Hi. unfold scatter. rewrite (nth_error_nth _ _ _ (map_nth_error _ p owned Hp)).
    rewrite (nth_map_lt (fun j => nth j x f0) l f0 0) by auto. auto.
  Qed.
End Scatter.

Section Back.
  Variable K : ofield.
  Variable order : list nat.
  Variable n : nat.
  Hypothesis Horder : Permutation order (seq 0 n).
  Let Hlen : length order = n.
  Proof. rewrite (Permutation_length Horder). apply seq_length. Qed.
  Let Hcombine : map fst (combine order (seq 0 n)) = order /\ map snd (combine order (seq 0 n)) = seq 0 n.
  Proof. apply combine_lengths. rewrite seq_length. auto. Qed.
  Lemma order_nth : forall k r, nth_error order k = Some r <-> In (r, k) (combine order (seq 0 n)).
  Proof.
    intros k r. split.
    - intros H. eapply nth_error_combine_in; eauto. rewrite nth_error_seq; auto. apply nth_error_lt in H. lia.
    - intros H. apply In_nth_error in H. destruct H as [i Hi].
      assert (Hin : i < n) by (apply nth_error_lt in Hi; rewrite combine_length, seq_length in Hi; lia).
      assert (E1 : nth_error order i = Some r) by (rewrite <- (proj1 Hcombine), nth_error_map, Hi; auto).
      assert (E2 : nth_error (seq 0 n) i = Some k) by (rewrite <- (proj2 Hcombine), nth_error_map, Hi; auto).
      rewrite nth_error_seq in E2 by auto. injection E2 as <-. auto.
  Qed.

  Lemma renumber_spec : forall m (src dst : list K), Permutation m (combine order (seq 0 n)) -> length src = n -> length dst = n ->
    exists d, renumber m src dst = Ok d /\ length d = n /\ forall k r, nth_error order k = Some r -> nth k d f0 = nth r src f0.
  Proof.
    intros m src dst Hm Hs Hd.
    assert (Hk : forall a, In a m -> fst a < n /\ snd a < n).
    { intros [r k] Ha. apply (Permutation_in _ Hm) in Ha. apply order_nth in Ha. simpl. pose proof (nth_error_lt _ _ Ha).
      apply nth_error_In in Ha. apply (Permutation_in _ Horder) in Ha. apply in_seq in Ha. lia. }
    destruct (@foldM_writes (nat * nat) K snd (fun a => nth (fst a) src f0) (fun d (pos : nat * nat) => let! v := rd src (fst pos) in wr d (snd pos) v) m dst)
      as [d [E [L [W _]]]].
    - intros a d Ha _. unfold rd. rewrite (nth_error_nth_lt src f0) by (rewrite Hs; apply Hk; auto). auto.
    - eapply Permutation_NoDup; [apply Permutation_sym, Permutation_map, Hm|]. rewrite (proj2 Hcombine). apply seq_NoDup.
    - intros a Ha. rewrite Hd. apply Hk. auto.
    - exists d. split; auto. split; [lia|]. intros k r Hkr. apply nth_error_nth. apply (W (r, k)).
      apply (Permutation_in _ (Permutation_sym Hm)). apply order_nth. auto.
  Qed.
  Lemma number_back_spec : forall m (src dst : list K), Permutation m (combine order (seq 0 n)) -> length src = n -> length dst = n ->
    exists d, number_back m src dst = Ok d /\ length d = n /\ forall k r, nth_error order k = Some r -> nth r d f0 = nth k src f0.
  Proof.
    intros m src dst Hm Hs Hd.
    assert (Hk : forall a, In a m -> fst a < n /\ snd a < n).
    { intros [r k] Ha. apply (Permutation_in _ Hm) in Ha. apply order_nth in Ha. simpl. pose proof (nth_error_lt _ _ Ha).
      apply nth_error_In in Ha. apply (Permutation_in _ Horder) in Ha. apply in_seq in Ha. lia. }
    destruct (@foldM_writes (nat * nat) K fst (fun a => nth (snd a) src f0) (fun d (pos : nat * nat) => let! v := rd src (snd pos) in wr d (fst pos) v) m dst)
      as [d [E [L [W _]]]].
    - intros a d Ha _. unfold rd. rewrite (nth_error_nth_lt src f0) by (rewrite Hs; apply Hk; auto). auto.
    - eapply Permutation_NoDup; [apply Permutation_sym, Permutation_map, Hm|]. rewrite (proj1 Hcombine).
      eapply Permutation_NoDup; [apply Permutation_sym, Horder|apply seq_NoDup].
    - intros a Ha. rewrite Hd. apply Hk. auto.
    - exists d. split; auto. split; [lia|]. intros k r Hkr. apply nth_error_nth. apply (W (r, k)).
      apply (Permutation_in _ (Permutation_sym Hm)). apply order_nth. auto.
  Qed.
End Back.

Section Solve.
  Variable K : ofield.
  Add Field KfAmgx : (f_field K).
  Variable cs : list (csr K).
  Variable n : nat.
  Variable B : mat K.
  Variable datas : list (amgx_data K).
  Hypothesis Hcs : distributed_rows n cs.
  Hypothesis HB : distributed_as cs (map (@c_range K) cs) B.
  Hypothesis HBr : nr B = n.
  Hypothesis HBc : nc B = n.
  Hypothesis Hlen : length datas = length cs.
  Hypothesis Hready : forall p c d, nth_error cs p = Some c -> nth_error datas p = Some d -> exists order halo, amgx_ready cs p c d order halo.

  Let range := map (@c_range K) cs.

  Lemma ready_order : forall p c d order halo, amgx_ready cs p c d order halo -> Permutation order (seq 0 (length (c_range c))).
  Proof. intros p c d order halo H. destruct (ar_order H) as [sent [-> _]]. apply row_order_perm. Qed.

  (** The order of the rows of rank p. *)
  Definition numbers (p : nat) (src dst : list K) : Prop :=
    forall c d order halo, nth_error cs p = Some c -> nth_error datas p = Some d -> amgx_ready cs p c d order halo ->
      forall k r, nth_error order k = Some r -> nth k dst f0 = nth r src f0.

  Lemma shared_unique : forall p q l l', shared_ids cs p q l -> shared_ids cs p q l' -> l = l'.
  Proof. intros p q l l' [S1 H1] [S2 H2]. apply sorted_unique; auto. intros x. rewrite H1, H2. tauto. Qed.

  Lemma lsum_perm : forall (l l' : list K), Permutation l l' -> lsum l = lsum l'.
  Proof.
    unfold lsum. induction 1; simpl; try ring.
    - rewrite IHPermutation. ring.
    - congruence.
  Qed.

  (** Whatever solves the renumbered system gives, numbered back, a solution of the original one. *)
  Lemma solution_back : forall (b : vec K) bs xs x1 (x : vec K), length b = n -> length x = n -> scatter range x = x1 ->
    amgx_solved datas bs xs -> length bs = length cs ->
    (forall p, p < length cs -> numbers p (nth p (scatter range b) []) (nth p bs [])) ->
    (forall p, p < length cs -> numbers p (nth p x1 []) (nth p xs [])) ->
    mulvec B x = b.
  Proof.
    intros b bs xs x1 x Lb Lx Ex [Lxs Hsol] Lbs Hb Hx.
    apply (@list_ext K _ _ f0); [rewrite mulvec_length; lia|]. intros g Hg. rewrite mulvec_length, HBr in Hg.
    destruct Hcs as [[HD HP] _]. destruct (HP g) as [_ HPg]. specialize (HPg Hg). apply in_concat in HPg. destruct HPg as [l [Hl Hgl]].
    apply in_map_iff in Hl. destruct Hl as [c [<- Hc]]. apply In_nth_error in Hc. destruct Hc as [p Hp].
    apply In_nth_error in Hgl. destruct Hgl as [r Hr].
    assert (Hpl : p < length cs) by (eapply nth_error_lt; eauto).
    destruct (nth_error datas p) as [d|] eqn:Ed; [|apply nth_error_None in Ed; lia].
    destruct (@Hready p c d Hp Ed) as [order [halo HR]].
    pose proof (ready_order HR) as Hord.
    assert (Hrn : r < length (c_range c)) by (eapply nth_error_lt; eauto).
    assert (Hk : In r order) by (eapply Permutation_in; [apply Permutation_sym; eauto|]; apply in_seq; lia).
    apply In_nth_error in Hk. destruct Hk as [k Hk].
    destruct (nth_error xs p) as [xp|] eqn:Exp; [|apply nth_error_None in Exp; lia].
    destruct (nth_error bs p) as [bp|] eqn:Ebp; [|apply nth_error_None in Ebp; lia].
    destruct (Hsol p d xp bp Ed Exp Ebp) as [Lxp Hrows].
    destruct (ar_matrix HR) as [rows [rows' [Hold [Hnew [Lre Hre]]]]].
    destruct (Hrows _ Hnew) as [val [Hval Heq]].
    destruct (Hre _ _ Hk) as [Hperm [Hids _]].
    assert (Hkn : k < length rows').
    { rewrite Lre, (cs_rows Hold). apply nth_error_lt in Hk. rewrite (Permutation_length Hord), seq_length in Hk. auto. }
    assert (Hrange : nth_error range p = Some (c_range c)) by (unfold range; rewrite nth_error_map, Hp; auto).
    (* the right-hand side *)
    assert (Eb : nth k bp f0 = nth g b f0).
    { specialize (Hb p Hpl c d order halo Hp Ed HR k r Hk). rewrite (nth_error_nth _ _ _ Ebp) in Hb. rewrite Hb.
      rewrite (@nth_scatter K range b p _ r Hrange Hrn). rewrite (nth_error_nth _ _ 0 Hr). auto. }
    (* own values *)
    assert (Hown : forall q cq dq oq hq j w xq, nth_error cs q = Some cq -> nth_error datas q = Some dq -> amgx_ready cs q cq dq oq hq ->
              nth_error xs q = Some xq -> nth_error xq j = Some w -> j < length (c_range cq) ->
              exists g', nth_error (new_ids (c_range cq) oq hq) j = Some g' /\ w = nth g' x f0).
    { intros q cq dq oq hq j w xq Hq Hdq HRq Hxq Hj Hjl. pose proof (ready_order HRq) as Hoq.
      assert (Hql : q < length cs) by (eapply nth_error_lt; eauto).
      destruct (nth_error oq j) as [r'|] eqn:Eo; [|apply nth_error_None in Eo; rewrite (Permutation_length Hoq), seq_length in Eo; lia].
      exists (nth r' (c_range cq) 0). split.
      - unfold new_ids. rewrite nth_error_app1 by (rewrite map_length; eapply nth_error_lt; eauto). rewrite nth_error_map, Eo. auto.
      - specialize (Hx q Hql cq dq oq hq Hq Hdq HRq j r' Eo). rewrite (nth_error_nth _ _ _ Hxq), (nth_error_nth _ _ _ Hj) in Hx. rewrite Hx. rewrite <- Ex.
        rewrite (@nth_scatter K range x q (c_range cq) r'); auto.
        + unfold range. rewrite nth_error_map, Hq. auto.
        + apply nth_error_In in Eo. apply (Permutation_in _ Hoq) in Eo. apply in_seq in Eo. lia. }
    assert (Hv : forall e, In e (nth k rows' []) -> val (fst e) = nth (nth (fst e) (new_ids (c_range c) order halo) 0) x f0).
    { intros e He. assert (Hin : In (nth k rows' []) rows') by (apply nth_In; auto).
      destruct (Hval _ _ Hin He) as [dp [Edp [[Hj [x' [Ex' Ej]]]|[Hj [k1 [t [q [dq [k2 [l [xq [recv [send [N1 [N2 [N3 [N4 [N5 [N6 [N7 [N8 N9]]]]]]]]]]]]]]]]]]]]].
      - rewrite Ed in Edp. injection Edp as <-. rewrite (ar_range HR) in Hj.
        destruct (Hown p c d order halo (fst e) _ x' Hp Ed HR Ex' Ej Hj) as [g' [G1 ->]]. rewrite (nth_error_nth _ _ _ G1). auto.
      - rewrite Ed in Edp. injection Edp as <-. rewrite (ar_range HR) in Hj.
        assert (Hql : q < length cs) by (rewrite <- Hlen; eapply nth_error_lt; eauto).
        destruct (nth_error cs q) as [cq|] eqn:Eq; [|apply nth_error_None in Eq; lia].
        destruct (@Hready q cq dq Eq N4) as [oq [hq HRq]].
        destruct (ar_recv HR _ N1 N2) as [g1 [S1 F1]]. destruct (ar_send HRq _ N5 N6) as [g2 [S2 F2]].
        pose proof (shared_unique S1 S2) as <-.
        assert (Hgt : exists gt, nth_error g1 t = Some gt).
        { destruct (nth_error g1 t) eqn:Egt; eauto. apply nth_error_None in Egt. rewrite (Forall2_length' F1) in Egt. apply nth_error_lt in N3. lia. }
        destruct Hgt as [gt Egt]. pose proof (Forall2_nth2 _ F1 Egt N3) as [A1 _]. pose proof (Forall2_nth2 _ F2 Egt N7) as [A2 A3].
        apply Nat.ltb_lt in A3.
        destruct (Hown q cq dq oq hq l _ xq Eq N4 HRq N8 N9 A3) as [g' [G1 ->]]. rewrite (nth_error_nth _ _ _ A1). congruence. }
    rewrite nth_mulvec by lia. rewrite HBc. rewrite <- Eb, <- (Heq k Hkn).
    assert (Erow : lsum (map (fun e : nat * K => (snd e * val (fst e))%K) (nth k rows' [])) = lsum (map (fun e : nat * K => (snd e * nth (fst e) x f0)%K) (nth r rows []))).
    { transitivity (lsum (map (fun e : nat * K => (snd e * nth (fst e) x f0)%K) (global_row (new_ids (c_range c) order halo) (nth k rows' [])))).
      - unfold global_row. rewrite map_map. simpl. f_equal. apply map_ext_in. intros e He. rewrite Hv; auto.
      - apply lsum_perm. apply Permutation_map. auto. }
    rewrite Erow.
    destruct HB as [_ [_ Hent]]. destruct (Hent p c Hp) as [rows2 [Hrows2 He2]].
    rewrite (csr_rows_unique Hrows2 Hold) in He2.
    assert (Hrr : r < length rows) by (rewrite (cs_rows Hold); auto).
    destruct (He2 r Hrr) as [Hb1 Hb2]. rewrite HBc in *. rewrite (row_product _ _ Hb1). symmetry. apply sumn_ext. intros j Hj. rewrite Hb2 by auto.
    fold range. rewrite (nth_error_nth _ _ _ Hrange), (nth_error_nth _ _ 0 Hr). auto.
  Qed.

  Lemma data_rank : forall p d, nth_error datas p = Some d -> exists c order halo, nth_error cs p = Some c /\ nth_error range p = Some (c_range c) /\
    amgx_ready cs p c d order halo.
  Proof.
    intros p d Hd. assert (p < length cs) by (rewrite <- Hlen; eapply nth_error_lt; eauto).
    destruct (nth_error cs p) as [c|] eqn:E; [|apply nth_error_None in E; lia]. destruct (@Hready p c d E Hd) as [order [halo H1]].
    exists c, order, halo. repeat (split; auto). unfold range. rewrite nth_error_map, E. auto.
  Qed.
  Lemma lengths_at : forall (bs : list (list K)) p b c, map (@length K) bs = map (@length nat) range -> nth_error bs p = Some b -> nth_error cs p = Some c ->
    length b = length (c_range c).
  Proof.
    intros bs p b c H Hb Hc. assert (E : nth_error (map (@length K) bs) p = nth_error (map (@length nat) range) p) by (rewrite H; auto).
    unfold range in E. rewrite map_map, !nth_error_map, Hb, Hc in E. simpl in E. congruence.
  Qed.
  Lemma lengths_eq : forall (bs : list (list K)), length bs = length cs ->
    (forall p b c, nth_error bs p = Some b -> nth_error cs p = Some c -> length b = length (c_range c)) -> map (@length K) bs = map (@length nat) range.
  Proof.
    intros bs L H. apply (@list_ext nat _ _ 0); unfold range; rewrite !map_length; auto. intros p Hp.
    rewrite (nth_map_lt _ bs 0 []) by auto. rewrite map_map. destruct (nth_error cs p) as [c|] eqn:E; [|apply nth_error_None in E; lia].
    rewrite (nth_error_nth (map (fun x : csr K => length (c_range x)) cs) p 0 (x := length (c_range c))) by (rewrite nth_error_map, E; auto).
    apply (H p); auto. apply nth_error_nth_lt. auto.
  Qed.

  (** Renumbering on all ranks. *)
  Lemma renumber_all : forall (bs : list (list K)), map (@length K) bs = map (@length nat) range ->
    exists b1, mapM (fun p : amgx_data K * list K => let! val_host := slice (snd p) 0 (length (c_range (a_matrix (fst p)))) in
                       renumber (a_row_map (fst p)) val_host val_host) (combine datas bs) = Ok b1 /\
      map (@length K) b1 = map (@length nat) range /\ forall p, p < length cs -> numbers p (nth p bs []) (nth p b1 []).
  Proof.
    intros bs Hl. assert (Lbs : length bs = length cs) by (apply (f_equal (@length nat)) in Hl; unfold range in Hl; rewrite !map_length in Hl; auto).
    destruct (@mapM_nth (amgx_data K * list K) (list K) (fun p => let! val_host := slice (snd p) 0 (length (c_range (a_matrix (fst p)))) in
                       renumber (a_row_map (fst p)) val_host val_host) (combine datas bs)
      (fun p a out => (forall c, nth_error cs p = Some c -> length out = length (c_range c)) /\ numbers p (snd a) out)) as [b1 [E [L F]]].
    - intros p [d b] Ha. apply nth_error_combine in Ha. destruct Ha as [Hd Hb]. destruct (data_rank _ Hd) as [c [order [halo [Hc [_ HR]]]]]. simpl fst. simpl snd.
      pose proof (@lengths_at bs p b c Hl Hb Hc) as Lb. rewrite slice_all by (rewrite (ar_range HR); auto). cbn [bind].
      destruct (@renumber_spec K order _ (ready_order HR) (a_row_map d) b b (ar_row_map HR) Lb Lb) as [out [E1 [L1 N1]]].
      exists out. split; auto. split; [intros c' Hc'; congruence|].
      intros c' d' order' halo' Hc' Hd' HR' k r Hk. rewrite Hc in Hc'. injection Hc' as <-. rewrite Hd in Hd'. injection Hd' as <-.
      destruct (@renumber_spec K order' _ (ready_order HR') (a_row_map d) b b (ar_row_map HR') Lb Lb) as [out' [E2 [L2 N2]]].
      rewrite E1 in E2. injection E2 as <-. auto.
    - exists b1. split; auto. rewrite combine_length, Hlen, Lbs, Nat.min_id in L.
      assert (Hget : forall p, p < length cs -> exists d b out, nth_error datas p = Some d /\ nth_error bs p = Some b /\ nth_error b1 p = Some out).
      { intros p Hp. destruct (nth_error datas p) as [d|] eqn:E1; [|apply nth_error_None in E1; lia].
        destruct (nth_error bs p) as [b|] eqn:E2; [|apply nth_error_None in E2; lia].
        destruct (nth_error b1 p) as [o|] eqn:E3; [|apply nth_error_None in E3; lia]. exists d, b, o. auto. }
      split.
      + apply lengths_eq; auto. intros p b c Hb Hc. destruct (Hget p) as [d [b' [out [G1 [G2 G3]]]]]; [eapply nth_error_lt; eauto|].
        assert (Ha : nth_error (combine datas bs) p = Some (d, b')) by (apply nth_error_combine; auto). destruct (F p _ b Ha Hb) as [H1 _]. auto.
      + intros p Hp. destruct (Hget p Hp) as [d [b' [out [G1 [G2 G3]]]]].
        assert (Ha : nth_error (combine datas bs) p = Some (d, b')) by (apply nth_error_combine; auto). destruct (F p _ out Ha G3) as [_ H2].
        rewrite (nth_error_nth _ _ _ G2), (nth_error_nth _ _ _ G3). auto.
  Qed.

  (** Numbering back on all ranks, into vectors of the right size. *)
  Lemma back_one : forall p d c (xs dst : list K), nth_error datas p = Some d -> nth_error cs p = Some c -> length xs = length (c_range c) ->
    length dst = length (c_range c) ->
    exists out, number_back (a_row_map d) xs dst = Ok out /\ length out = length (c_range c) /\ numbers p out xs.
  Proof.
    intros p d c xs dst Hd Hc Lx Ld. destruct (@Hready p c d Hc Hd) as [order [halo HR]].
    destruct (@number_back_spec K order _ (ready_order HR) (a_row_map d) xs dst (ar_row_map HR) Lx Ld) as [out [E1 [L1 N1]]].
    exists out. split; auto. split; auto.
    intros c' d' order' halo' Hc' Hd' HR' k r Hk. rewrite Hc in Hc'. injection Hc' as <-. rewrite Hd in Hd'. injection Hd' as <-.
    destruct (@number_back_spec K order' _ (ready_order HR') (a_row_map d) xs dst (ar_row_map HR') Lx Ld) as [out' [E2 [L2 N2]]].
    rewrite E1 in E2. injection E2 as <-. symmetry. auto.
  Qed.

  Lemma solved_lengths : forall bs xs, amgx_solved datas bs xs -> length bs = length cs -> map (@length K) xs = map (@length nat) range.
  Proof.
    intros bs xs [L H] Lb. apply lengths_eq; [lia|]. intros p x c Hx Hc.
    assert (Hp : p < length cs) by (eapply nth_error_lt; eauto).
    destruct (nth_error datas p) as [d|] eqn:E1; [|apply nth_error_None in E1; lia]. destruct (nth_error bs p) as [b|] eqn:E2; [|apply nth_error_None in E2; lia].
    destruct (H p d x b E1 Hx E2) as [H1 _]. destruct (data_rank _ E1) as [c' [order [halo [Hc' [_ HR]]]]]. rewrite (ar_range HR) in H1. congruence.
  Qed.

  Lemma solve_cuda_spec : forall solver (b : vec K) (x0 : list (list K)), length b = n ->
    (forall bs, map (@length K) bs = map (@length nat) range -> amgx_solved datas bs (solver datas bs x0)) ->
    exists b1 x, amgx_solve_cuda solver datas (scatter range b) x0 = Ok (b1, scatter range x) /\ length x = n /\ mulvec B x = b /\
      map (@length K) b1 = map (@length nat) range /\ forall p, p < length cs -> numbers p (nth p (scatter range b) []) (nth p b1 []).
  Proof.
    intros solver b x0 Lb Hsolver. unfold amgx_solve_cuda.
    destruct (@renumber_all (scatter range b) (scatter_lengths _ _)) as [b1 [E1 [L1 N1]]].
    rewrite E1. cbn [bind]. specialize (Hsolver b1 L1).
    assert (Lb1 : length b1 = length cs) by (apply (f_equal (@length nat)) in L1; unfold range in L1; rewrite !map_length in L1; auto).
    pose proof (solved_lengths Hsolver Lb1) as Lx. set (sol := solver datas b1 x0) in *.
    assert (Ls : length sol = length cs) by (apply (f_equal (@length nat)) in Lx; unfold range in Lx; rewrite !map_length in Lx; auto).
    destruct (@mapM_nth (amgx_data K * list K) (list K) (fun p => let! solution_host := slice (snd p) 0 (length (c_range (a_matrix (fst p)))) in
                       number_back (a_row_map (fst p)) solution_host solution_host) (combine datas sol)
      (fun p a out => (forall c, nth_error cs p = Some c -> length out = length (c_range c)) /\ numbers p out (snd a))) as [x1 [E [L F]]].
    { intros p [d s] Ha. apply nth_error_combine in Ha. destruct Ha as [Hd Hs]. destruct (data_rank _ Hd) as [c [order [halo [Hc [_ HR]]]]]. simpl fst. simpl snd.
      pose proof (@lengths_at sol p s c Lx Hs Hc) as Lsp. rewrite slice_all by (rewrite (ar_range HR); auto). cbn [bind].
      destruct (@back_one p d c s s Hd Hc Lsp Lsp) as [out [E2 [L2 N2]]]. exists out. split; auto. split; auto. intros c' Hc'. congruence. }
    rewrite E. cbn [bind]. rewrite combine_length, Hlen, Ls, Nat.min_id in L.
    assert (Hget : forall p, p < length cs -> exists d b out, nth_error datas p = Some d /\ nth_error sol p = Some b /\ nth_error x1 p = Some out).
    { intros p Hp. destruct (nth_error datas p) as [d|] eqn:G1; [|apply nth_error_None in G1; lia].
      destruct (nth_error sol p) as [s|] eqn:G2; [|apply nth_error_None in G2; lia].
      destruct (nth_error x1 p) as [o|] eqn:G3; [|apply nth_error_None in G3; lia]. exists d, s, o. auto. }
    assert (Lx1 : map (@length K) x1 = map (@length nat) range).
    { apply lengths_eq; auto. intros p x c Hx Hc. destruct (Hget p) as [d [b' [out [G1 [G2 G3]]]]]; [eapply nth_error_lt; eauto|].
      assert (Ha : nth_error (combine datas sol) p = Some (d, b')) by (apply nth_error_combine; auto). destruct (F p _ x Ha Hx) as [H1 _]. auto. }
    destruct (@scatter_onto K n range x1 (proj1 Hcs) Lx1) as [x [Lxn Ex]].
    exists b1, x. rewrite Ex. split; auto. split; auto. split; [|auto].
    apply (@solution_back b b1 sol x1 x); auto.
    intros p Hp. destruct (Hget p Hp) as [d [b' [out [G1 [G2 G3]]]]].
    assert (Ha : nth_error (combine datas sol) p = Some (d, b')) by (apply nth_error_combine; auto). destruct (F p _ out Ha G3) as [_ H2].
    rewrite (nth_error_nth _ _ _ G2), (nth_error_nth _ _ _ G3). auto.
  Qed.

  Lemma wr_at_whole : forall (dst l : list K), length l = length dst -> wr_at dst 0 l = Ok l.
  Proof. intros dst l H. pose proof (@wr_at_ok K [] dst l []) as E. rewrite !app_nil_r in E. simpl in E. apply E. auto. Qed.

  Lemma solve_host_spec : forall solver (b : vec K) (x0 : list (list K)), length b = n -> map (@length K) x0 = map (@length nat) range ->
    (forall bs, map (@length K) bs = map (@length nat) range -> amgx_solved datas bs (solver datas bs (map (fun l => repeat f0 (length l)) range))) ->
    exists x, amgx_solve_host solver datas (scatter range b) x0 = Ok (scatter range x) /\ length x = n /\ mulvec B x = b.
  Proof.
    intros solver b x0 Lb Lx0 Hsolver. unfold amgx_solve_host.
    destruct (@renumber_all (scatter range b) (scatter_lengths _ _)) as [b1 [E1 [L1 N1]]].
    assert (E1' : mapM (fun p : amgx_data K * list K => let! val_host := wr_at (repeat f0 (length (c_range (a_matrix (fst p))))) 0 (snd p) in
                       renumber (a_row_map (fst p)) val_host val_host) (combine datas (scatter range b)) = Ok b1).
    { rewrite <- E1. apply mapM_ext_in. intros [d v] Ha. apply In_nth_error in Ha. destruct Ha as [p Ha]. apply nth_error_combine in Ha. destruct Ha as [Hd Hv].
      destruct (data_rank _ Hd) as [c [order [halo [Hc [_ HR]]]]]. simpl fst. simpl snd.
      pose proof (@lengths_at _ p v c (scatter_lengths _ _) Hv Hc) as Lv. rewrite (ar_range HR).
      rewrite slice_all by auto. rewrite wr_at_whole by (rewrite repeat_length; auto). auto. }
    rewrite E1'. cbn [bind]. specialize (Hsolver b1 L1).
    assert (Lb1 : length b1 = length cs) by (apply (f_equal (@length nat)) in L1; unfold range in L1; rewrite !map_length in L1; auto).
    replace (map (fun l => repeat f0 (length l)) (scatter range b)) with (map (fun l : list nat => repeat (@f0 K) (length l)) range)
      by (unfold scatter; rewrite map_map; apply map_ext; intros l; rewrite map_length; auto).
    pose proof (solved_lengths Hsolver Lb1) as Lx. set (sol := solver datas b1 _) in *.
    assert (Ls : length sol = length cs) by (apply (f_equal (@length nat)) in Lx; unfold range in Lx; rewrite !map_length in Lx; auto).
    assert (Ls0 : length x0 = length cs) by (apply (f_equal (@length nat)) in Lx0; unfold range in Lx0; rewrite !map_length in Lx0; auto).
    destruct (@mapM_nth (amgx_data K * list K * list K) (list K) (fun p => let! tmp := slice (snd (fst p)) 0 (length (c_range (a_matrix (fst (fst p))))) in
                       number_back (a_row_map (fst (fst p))) tmp (snd p)) (combine (combine datas sol) x0)
      (fun p a out => (forall c, nth_error cs p = Some c -> length out = length (c_range c)) /\ numbers p out (snd (fst a)))) as [x1 [E [L F]]].
    { intros p [[d s] y] Ha. apply nth_error_combine in Ha. destruct Ha as [Ha Hy]. apply nth_error_combine in Ha. destruct Ha as [Hd Hs].
      destruct (data_rank _ Hd) as [c [order [halo [Hc [_ HR]]]]]. simpl fst. simpl snd.
      pose proof (@lengths_at sol p s c Lx Hs Hc) as Lsp. pose proof (@lengths_at x0 p y c Lx0 Hy Hc) as Ly. rewrite slice_all by (rewrite (ar_range HR); auto). cbn [bind].
      destruct (@back_one p d c s y Hd Hc Lsp Ly) as [out [E2 [L2 N2]]]. exists out. split; auto. split; auto. intros c' Hc'. congruence. }
    rewrite E. rewrite !combine_length, Hlen, Ls, Ls0, !Nat.min_id in L.
    assert (Hget : forall p, p < length cs -> exists d b y out, nth_error (combine (combine datas sol) x0) p = Some (d, b, y) /\ nth_error sol p = Some b /\ nth_error x1 p = Some out).
    { intros p Hp. destruct (nth_error datas p) as [d|] eqn:G1; [|apply nth_error_None in G1; lia].
      destruct (nth_error sol p) as [s|] eqn:G2; [|apply nth_error_None in G2; lia].
      destruct (nth_error x1 p) as [o|] eqn:G3; [|apply nth_error_None in G3; lia]. destruct (nth_error x0 p) as [y|] eqn:G4; [|apply nth_error_None in G4; lia].
      exists d, s, y, o. split; auto. apply nth_error_combine. split; auto. apply nth_error_combine. auto. }
    assert (Lx1 : map (@length K) x1 = map (@length nat) range).
    { apply lengths_eq; auto. intros p x c Hx Hc. destruct (Hget p) as [d [b' [y [out [G1 [G2 G3]]]]]]; [eapply nth_error_lt; eauto|].
      destruct (F p _ x G1 Hx) as [H1 _]. auto. }
    destruct (@scatter_onto K n range x1 (proj1 Hcs) Lx1) as [x [Lxn Ex]].
    exists x. rewrite Ex. split; auto. split; auto.
    apply (@solution_back b b1 sol x1 x); auto.
    intros p Hp. destruct (Hget p Hp) as [d [b' [y [out [G1 [G2 G3]]]]]]. destruct (F p _ out G1 G3) as [_ H2].
    rewrite (nth_error_nth _ _ _ G2), (nth_error_nth _ _ _ G3). auto.
  Qed.
End Solve.
