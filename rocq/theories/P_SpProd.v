(** Proofs about M_SpProd. *)
From Coq Require Import List Arith Lia Bool Field.
From Verif Require Import Base OField Mat M_SpProd S_SpProd.
Import ListNotations.
Set Implicit Arguments.
Open Scope nat_scope.

Lemma mapM_ok : forall A B (f : A -> outcome B) (g : A -> B) l, (forall a, In a l -> f a = Ok (g a)) -> mapM f l = Ok (map g l).
Proof.
  induction l; simpl; intros H; auto. rewrite H by auto. simpl. rewrite IHl by auto. auto.
Qed.

Lemma index_within_none : forall l g, ~ In g l -> index_within l g = None.
Proof.
  induction l; simpl; intros g H; auto. destruct (Nat.eqb_spec a g); [tauto|]. rewrite IHl by tauto. auto.
Qed.
Lemma index_within_some : forall l g, In g l -> exists i, index_within l g = Some i /\ i < length l /\ nth i l 0 = g.
Proof.
  induction l; simpl; intros g H; [tauto|]. destruct (Nat.eqb_spec a g).
  - exists 0. split; auto. split; auto. lia.
  - destruct H as [H|H]; [contradiction|]. destruct (IHl g H) as (i & E & L & N). exists (S i). rewrite E. simpl. split; auto. split; auto. lia.
Qed.

Lemma in_nth_concat : forall A (l : list (list A)) r x, r < length l -> In x (nth r l []) -> In x (concat l).
Proof. intros. apply in_concat. exists (nth r l []). split; auto. apply nth_In; auto. Qed.
Lemma concat_in_nth : forall A (l : list (list A)) x, In x (concat l) -> exists r, r < length l /\ In x (nth r l []).
Proof.
  intros A l x H. apply in_concat in H. destruct H as (y & Hy & Hx). apply In_nth with (d := []) in Hy.
  destruct Hy as (r & Hr & E). exists r. rewrite E. auto.
Qed.
Lemma NoDup_app_inv : forall A (a b : list A), NoDup (a ++ b) -> NoDup a /\ NoDup b /\ forall x, In x a -> ~ In x b.
Proof.
  induction a; simpl; intros b H; [split; [constructor|split; auto]|]. inversion H; subst. destruct (IHa _ H3) as (Ha & Hb & Hd).
  split; [constructor; auto; intros X; apply H2; apply in_or_app; auto|]. split; auto. intros x [->|X]; auto. intros Y. apply H2. apply in_or_app; auto.
Qed.
Lemma NoDup_concat_unique : forall A (l : list (list A)) r s x,
  NoDup (concat l) -> r < length l -> s < length l -> In x (nth r l []) -> In x (nth s l []) -> r = s.
Proof.
  induction l; simpl; intros r s x H Hr Hs Xr Xs; [lia|]. apply NoDup_app_inv in H. destruct H as (Ha & Hb & Hd).
  destruct r, s; auto; simpl in *.
  - exfalso. apply (Hd x); auto. apply in_nth_concat with (r := s); auto. lia.
  - exfalso. apply (Hd x); auto. apply in_nth_concat with (r := r); auto. lia.
  - f_equal. apply IHl with x; auto; lia.
Qed.
Lemma NoDup_concat_nth : forall A (l : list (list A)) r, NoDup (concat l) -> NoDup (nth r l []).
Proof.
  induction l; simpl; intros r H; [destruct r; constructor|]. apply NoDup_app_inv in H. destruct H as (Ha & Hb & _).
  destruct r; auto.
Qed.

Section P.
  Variable K : ofield.
  Add Field KfSp : (f_field K).
  Local Open Scope K_scope.

  (** Values written one after another at distinct places. *)
  Lemma fold_upd_length : forall (es : list (nat * K)) (v : vec K), length (fold_left (fun v (e : nat * K) => upd v (fst e) (snd e)) es v) = length v.
  Proof. induction es; simpl; intros; auto. rewrite IHes, upd_length. auto. Qed.
  Lemma fold_upd_out : forall (es : list (nat * K)) (v : vec K) i, ~ In i (map fst es) ->
    nth i (fold_left (fun v (e : nat * K) => upd v (fst e) (snd e)) es v) 0 = nth i v 0.
  Proof.
    induction es; simpl; intros v i H; auto. rewrite IHes by tauto. apply nth_upd_neq. tauto.
  Qed.
  Lemma fold_upd_in : forall (es : list (nat * K)) (v : vec K) i a, NoDup (map fst es) -> In (i, a) es -> (i < length v)%nat ->
    nth i (fold_left (fun v (e : nat * K) => upd v (fst e) (snd e)) es v) 0 = a.
  Proof.
    induction es as [|[k b] es IH]; simpl; intros v i a H X L; [tauto|]. inversion H; subst. destruct X as [X|X].
    - injection X as E1 E2. subst k b. rewrite fold_upd_out by auto. apply nth_upd_eq. auto.
    - apply IH; auto. rewrite upd_length. auto.
  Qed.

  Variable d : dist_mat K.
  Variable B : mat K.
  Hypothesis H : holds d B.

  Definition gcols (r : nat) (es : list (nat * K)) : list (nat * K) := map (fun e : nat * K => (nth (fst e) (nth r (d_colmap d) []) 0%nat, snd e)) es.

  (** The entries each rank contributes. *)
  Lemma row_entries_spec : forall j r, (j < d_m d)%nat -> (r < length (d_range d))%nat ->
    exists es, row_entries d j r = Ok es /\ NoDup (map fst es) /\ (forall e, In e es -> (fst e < d_n d)%nat) /\
      (~ In j (nth r (d_range d) []) -> es = []) /\
      (In j (nth r (d_range d) []) -> forall k, (k < d_n d)%nat ->
         (forall a, In (k, a) es -> ent B j k = a) /\ (~ In k (map fst es) -> ent B j k = 0)).
  Proof.
    intros j r Hj Hr. unfold row_entries. destruct (in_dec Nat.eq_dec j (nth r (d_range d) [])) as [I|I].
    - destruct (index_within_some _ _ I) as (lj & E & L & N). rewrite E.
      destruct (ho_rows H Hr L) as (entries & X & Hb & Hnd & Hv). unfold rd at 1. rewrite X. simpl.
      rewrite mapM_ok with (g := fun e : nat * K => (nth (fst e) (nth r (d_colmap d) []) 0%nat, snd e)).
      2:{ intros e He. destruct (Hb e He) as [H1 _]. unfold rd. rewrite (nth_error_nth_lt _ 0%nat) by auto. auto. }
      exists (gcols r entries). split; [auto|]. unfold gcols. rewrite map_map. split; [exact Hnd|]. split.
      + intros e He. apply in_map_iff in He. destruct He as (e0 & <- & He). simpl. apply (Hb e0 He).
      + split; [tauto|]. intros _ k Hk. rewrite N in Hv. destruct (Hv k Hk) as [V1 V2]. split.
        * intros a Ha. apply in_map_iff in Ha. destruct Ha as (e0 & E0 & He). injection E0 as E1 E2. rewrite <- E2. apply V1; auto.
        * intros Hn. apply V2. intros e He Hc. apply Hn. apply in_map_iff. exists e. auto.
    - rewrite index_within_none by auto. exists []. split; auto. split; [constructor|]. split; [simpl; tauto|]. split; auto. tauto.
  Qed.

  Lemma ghosted_nth : forall es k, NoDup (map fst es) -> (forall e, In e es -> (fst e < d_n d)%nat) ->
    (forall a, In (k, a) es -> nth k (ghosted_values d es) 0 = a) /\ (~ In k (map fst es) -> nth k (ghosted_values d es) 0 = 0).
  Proof.
    intros es k Hn Hb. unfold ghosted_values. split.
    - intros a Ha. apply fold_upd_in; auto. rewrite vzero_length. apply (Hb _ Ha).
    - intros Hk. rewrite fold_upd_out by auto. apply nth_vzero.
  Qed.

  (** extract_row returns the distributed form of the row. *)
  Lemma extract_row_spec : forall j, (j < d_m d)%nat -> extract_row d j = Ok (scatter (d_domain d) (row B j)).
  Proof.
    intros j Hj.
    assert (X : exists ess, mapM (row_entries d j) (seq 0 (length (d_range d))) = Ok ess /\ length ess = length (d_range d) /\
      forall r, (r < length (d_range d))%nat -> row_entries d j r = Ok (nth r ess [])).
    { set (N := length (d_range d)).
      assert (G : forall r, (r < N)%nat -> exists es, row_entries d j r = Ok es).
      { intros r Hr. destruct (row_entries_spec Hj Hr) as (es & E & _). eauto. }
      exists (map (fun r => match row_entries d j r with Ok es => es | _ => [] end) (seq 0 N)). split; [|split].
      - apply mapM_ok. intros r Hr. apply in_seq in Hr. destruct (G r) as (es & E); [lia|]. rewrite E. auto.
      - rewrite map_length, seq_length. auto.
      - intros r Hr. rewrite nth_indep with (d' := match row_entries d j 0 with Ok es => es | _ => [] end) by (rewrite map_length, seq_length; auto).
        rewrite (map_nth (fun r => match row_entries d j r with Ok es => es | _ => [] end)). rewrite seq_nth by auto. simpl.
        destruct (G r Hr) as (es & E). rewrite E. auto. }
    destruct X as (ess & E & L & X). unfold extract_row. rewrite E. simpl. f_equal.
    unfold compress_add, scatter. rewrite map_length, L.
    apply (@list_ext _ _ _ []); rewrite !map_length; [apply seq_length|]. rewrite seq_length. intros s Hs.
    rewrite nth_indep with (d' := map (fun i => nth i (row B j) 0) []) (l := map _ (d_domain d)) by (rewrite map_length; auto).
    rewrite (map_nth (map (fun i => nth i (row B j) 0))).
    match goal with |- nth s (map ?F _) _ = _ => rewrite nth_indep with (d' := F 0%nat) by (rewrite map_length, seq_length; auto);
      rewrite (map_nth F) end.
    rewrite seq_nth by auto. simpl plus. apply map_ext_in. intros i Hi.
    assert (Hin : (i < d_n d)%nat). { apply (proj2 (ho_domain H)). apply in_nth_concat with (r := s); auto. }
    destruct (ho_range H) as [Rn Ri]. assert (Ij : In j (concat (d_range d))) by (apply Ri; auto).
    destruct (concat_in_nth _ _ Ij) as (r0 & Hr0 & Ir0).
    rewrite nth_row by (rewrite (ho_n H); auto).
    rewrite lsum_seq_sumn. rewrite (sumn_single _ r0); [|auto|].
    - destruct (row_entries_spec Hj Hr0) as (es & Ees & Hnd & Hb & _ & Hv). specialize (X r0 Hr0). rewrite Ees in X. injection X as X.
      destruct (Hv Ir0 i Hin) as [V1 V2].
      assert (G : nth i (nth r0 (map (ghosted_values d) ess) []) 0 = nth i (ghosted_values d es) 0).
      { rewrite nth_indep with (d' := ghosted_values d []) by (rewrite map_length; lia). rewrite map_nth. rewrite X. auto. }
      rewrite G. destruct (ghosted_nth es i Hnd Hb) as [W1 W2].
      destruct (in_dec Nat.eq_dec i (map fst es)) as [I|I].
      + apply in_map_iff in I. destruct I as ([i' a] & Ei & Ia). simpl in Ei. subst i'. rewrite (W1 a Ia), (V1 a Ia).
        destruct (r0 =? s)%nat; auto. replace (existsb _ _) with true; auto. symmetry. apply existsb_exists. exists (i, a). rewrite <- X. split; auto.
        simpl. apply Nat.eqb_refl.
      + rewrite (W2 I), (V2 I). destruct (r0 =? s)%nat; auto. destruct (existsb _ _); auto.
    - intros r Hr Hne. destruct (row_entries_spec Hj Hr) as (es & Ees & _ & _ & Hz & _). specialize (X r Hr). rewrite Ees in X. injection X as X.
      assert (Z : es = []). { apply Hz. intros Y. apply Hne. apply NoDup_concat_unique with (l := d_range d) (x := j); auto. }
      assert (G : nth i (nth r (map (ghosted_values d) ess) []) 0 = 0).
      { rewrite nth_indep with (d' := ghosted_values d []) by (rewrite map_length; lia). rewrite map_nth. rewrite <- X, Z. apply nth_vzero. }
      rewrite G. destruct (r =? s)%nat; auto. destruct (existsb _ _); auto.
  Qed.

  (** The product. *)
  Variable f : vec K -> vec K.
  Variable apply : dist_vec K -> outcome (dist_vec K).
  Variable owned : list (list nat).
  Variable n : nat.
  Variable eps : K.
  Hypothesis Hown : partition n owned.
  Hypothesis Hap : computes apply (d_domain d) owned (d_n d) n f.

  Definition column (j r : nat) : list (nat * nat * K) :=
    concat (map (fun i => if in_dec Nat.eq_dec i (nth r owned [])
                          then if eps <? fabs (nth i (f (row B j)) 0) then [(i, j, nth i (f (row B j)) 0)] else []
                          else []) (seq 0 n)).

  Lemma set_column_spec : forall j r, (r < length owned)%nat ->
    set_column eps n j (nth r owned []) (nth r (scatter owned (f (row B j))) []) = Ok (column j r).
  Proof.
    intros j r Hr. unfold set_column, column.
    rewrite mapM_ok with (g := fun i => if in_dec Nat.eq_dec i (nth r owned [])
                          then if eps <? fabs (nth i (f (row B j)) 0) then [(i, j, nth i (f (row B j)) 0)] else []
                          else []); auto.
    intros i Hi. destruct (in_dec Nat.eq_dec i (nth r owned [])) as [I|I].
    - destruct (index_within_some _ _ I) as (li & E & L & N). rewrite E.
      unfold scatter. rewrite nth_indep with (d' := map (fun i => nth i (f (row B j)) 0) []) (l := map _ owned) by (rewrite map_length; auto).
      rewrite (map_nth (map (fun i => nth i (f (row B j)) 0))).
      unfold rd. rewrite nth_error_map. rewrite (nth_error_nth_lt _ 0%nat) by auto. simpl. rewrite N. auto.
    - rewrite index_within_none by auto. auto.
  Qed.

  Lemma mtmm_spec : exists C, mtmm eps apply owned n d = Ok C /\ length C = length owned /\
    forall r e, In e (nth r C []) <->
      (r < length owned)%nat /\ exists i j, (j < d_m d)%nat /\ In i (nth r owned []) /\ e = (i, j, nth i (f (row B j)) 0) /\ eps < fabs (nth i (f (row B j)) 0).
  Proof.
    unfold mtmm.
    rewrite mapM_ok with (g := fun j => map (column j) (seq 0 (length owned))).
    2:{ intros j Hj. apply in_seq in Hj. rewrite extract_row_spec by lia. simpl.
        destruct (Hap (row B j)) as [Hl Ha]; [rewrite row_length; apply (ho_n H)|]. rewrite Ha. simpl.
        apply mapM_ok. intros r Hr. apply in_seq in Hr. apply set_column_spec. lia. }
    simpl. eexists. split; [reflexivity|]. split; [rewrite map_length, seq_length; auto|].
    intros r e.
    match goal with |- context [nth r (map ?F ?l) []] => set (G := F) end.
    destruct (le_lt_dec (length owned) r) as [Hr|Hr].
    { rewrite nth_overflow by (rewrite map_length, seq_length; auto). simpl. split; [tauto|]. intros [X _]. lia. }
    rewrite nth_indep with (d' := G 0%nat) by (rewrite map_length, seq_length; auto). rewrite (map_nth G), seq_nth by auto. simpl plus.
    unfold G. clear G. rewrite in_concat. setoid_rewrite in_map_iff. split.
    - intros (x & (c & E & Hc) & Hx). apply in_map_iff in Hc. destruct Hc as (j & Ej & Hj). apply in_seq in Hj. subst c.
      rewrite nth_indep with (d' := column j 0) in E by (rewrite map_length, seq_length; auto). rewrite map_nth, seq_nth in E by auto. subst x.
      unfold column in Hx. simpl plus in Hx. apply in_concat in Hx. destruct Hx as (y & Hy & He). apply in_map_iff in Hy. destruct Hy as (i & Ei & Hi).
      split; auto. exists i, j. split; [lia|].
      destruct (in_dec Nat.eq_dec i (nth r owned [])) as [I|I]; [|subst y; destruct He].
      destruct (eps <? fabs (nth i (f (row B j)) 0)) eqn:T; [|subst y; destruct He].
      subst y. simpl in He. destruct He as [He|[]]. split; auto. split; auto. apply fltb_lt. auto.
    - intros (_ & i & j & Hj & I & -> & T). exists (column j r). split.
      + exists (map (column j) (seq 0 (length owned))). split.
        * rewrite nth_indep with (d' := column j 0) by (rewrite map_length, seq_length; auto). rewrite map_nth, seq_nth by auto. auto.
        * apply in_map_iff. exists j. split; auto. apply in_seq. lia.
      + unfold column. apply in_concat. exists [(i, j, nth i (f (row B j)) 0)]. split; [|left; auto]. apply in_map_iff. exists i. split.
        * destruct (in_dec Nat.eq_dec i (nth r owned [])); [|tauto]. apply fltb_lt in T. rewrite T. auto.
        * apply in_seq. simpl. split; [lia|]. apply (proj2 Hown). apply in_nth_concat with (r := r); auto.
  Qed.

  Lemma mtmm_stored : exists C, mtmm eps apply owned n d = Ok C /\ length C = length owned /\
    (forall r i j v, In (i, j, v) (nth r C []) -> In i (nth r owned [])) /\
    forall i j v, stored C i j v <-> (i < n)%nat /\ (j < d_m d)%nat /\ v = nth i (f (row B j)) 0 /\ eps < fabs v.
  Proof.
    destruct mtmm_spec as (C & E & L & S). exists C. split; auto. split; auto. split.
    - intros r i j v X. apply S in X. destruct X as (_ & i' & j' & _ & I & E' & _). injection E' as -> _ _. auto.
    - intros i j v. unfold stored. split.
      + intros X. apply concat_in_nth in X. destruct X as (r & Hr & X). apply S in X. destruct X as (Hr' & i' & j' & Hj & I & E' & T).
        injection E' as -> -> ->. split; auto. apply (proj2 Hown). apply in_nth_concat with (r := r); auto.
      + intros (Hi & Hj & -> & T). apply (proj2 Hown) in Hi. destruct (concat_in_nth _ _ Hi) as (r & Hr & I).
        apply in_nth_concat with (r := r); [lia|]. apply S. split; auto. exists i, j. auto.
  Qed.

  Lemma stored_value : forall C : list (list (nat * nat * K)), (forall i j v w, stored C i j v -> stored C i j w -> v = w) ->
    forall i j, (forall v, stored C i j v -> value_of C i j = v) /\ ((forall v, ~ stored C i j v) -> value_of C i j = 0).
  Proof.
    intros C U i j. unfold value_of. destruct (find _ (concat C)) as [e|] eqn:F.
    - apply find_some in F. destruct F as [F1 F2]. destruct e as [[i' j'] w]. simpl in *. apply andb_true_iff in F2. destruct F2 as [F2 F3].
      apply Nat.eqb_eq in F2, F3. subst i' j'. split.
      + intros v Hv. apply (U i j); auto.
      + intros N. exfalso. apply (N w F1).
    - split; auto. intros v Hv. exfalso. apply (find_none _ _ F) in Hv. simpl in Hv. rewrite !Nat.eqb_refl in Hv. discriminate.
  Qed.
End P.

Section Bounds.
  Variable K : ofield.
  Add Field KfSpB : (f_field K).
  Local Open Scope K_scope.

  Lemma fabs_add : forall x y : K, fabs (x + y) <= fabs x + fabs y.
  Proof.
    intros x y. destruct (proj1 (@fabs_le K x (fabs x)) (fle_refl _)) as [A1 A2]. destruct (proj1 (@fabs_le K y (fabs y)) (fle_refl _)) as [B1 B2].
    apply fabs_le. split.
    - replace (- (fabs x + fabs y)) with (- fabs x + - fabs y) by ring. apply fle_add2; auto.
    - apply fle_add2; auto.
  Qed.
  Lemma fabs_mul_le : forall x y e : K, fabs y <= e -> fabs (x * y) <= fabs x * e.
  Proof.
    intros x y e H. apply fabs_le in H. destruct H as [H1 H2]. unfold fabs at 2. destruct (0 <=? x) eqn:E.
    - apply fleb_le in E. apply fabs_le. split.
      + replace (- (x * e)) with (x * - e) by ring. apply fle_mul_l; auto.
      + apply fle_mul_l; auto.
    - assert (P : 0 <= - x). { apply fle_opp_0. destruct (fle_total 0 x) as [Q|Q]; auto. apply fleb_le in Q. congruence. }
      apply fabs_le. split.
      + replace (- (- x * e)) with (- ((- x) * e)) by ring. replace (x * y) with (- (- x * y)) by ring. apply fle_opp. apply fle_mul_l; auto.
      + replace (x * y) with (- x * - y) by ring. apply fle_mul_l; auto. replace e with (- - e) by ring. apply fle_opp. auto.
  Qed.
  Lemma fabs_sumn : forall n (f g : nat -> K), (forall i, (i < n)%nat -> fabs (f i) <= g i) -> fabs (sumn n f) <= sumn n g.
  Proof.
    induction n; simpl; intros f g H; [rewrite fabs_0; apply fle_refl|].
    eapply fle_trans; [apply fabs_add|]. apply fle_add2; auto.
  Qed.
  (** An entry kept or dropped at the threshold. *)
  Lemma dropped_error : forall eps v w : K, 0 <= eps -> (eps < fabs v -> w = v) -> (fabs v <= eps -> w = 0) -> fabs (w - v) <= eps.
  Proof.
    intros eps v w He H1 H2. destruct (@fle_dec K (fabs v) eps) as [L|L].
    - rewrite H2 by auto. replace (0 - v) with (- v) by ring. rewrite fabs_opp. auto.
    - rewrite H1 by auto. replace (v - v) with (0 : K) by ring. rewrite fabs_0. auto.
  Qed.
End Bounds.
