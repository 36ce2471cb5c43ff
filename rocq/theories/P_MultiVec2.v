(** Copies, inner products, random vectors and programs of multivectors. *)
From Coq Require Import List Arith Lia Bool.
From Verif Require Import Base OField Mat M_SpProd P_SpProd M_Csr P_Csr P_Dev2 M_MultiVec S_MultiVec P_MultiVec.
Import ListNotations.
Set Implicit Arguments.
Open Scope nat_scope.

Lemma mapM_seq_ok : forall B (f : nat -> outcome B) (g : nat -> B) n, (forall i, i < n -> f i = Ok (g i)) -> mapM f (seq 0 n) = Ok (map g (seq 0 n)).
Proof.
  intros B f g n H. assert (Q : forall l, (forall i, In i l -> f i = Ok (g i)) -> mapM f l = Ok (map g l)).
  { induction l as [|a l IH]; intros Hl; simpl; auto. rewrite Hl by (simpl; auto). cbn [bind]. rewrite IH by (intros; apply Hl; simpl; auto). auto. }
  apply Q. intros i Hi. apply in_seq in Hi. apply H. lia.
Qed.
Lemma foldM_rel : forall A S (f : S -> A -> outcome S) (R : S -> S -> Prop) l, (forall s, R s s) -> (forall a b c, R a b -> R b c -> R a c) ->
  (forall s a s', f s a = Ok s' -> R s s') -> forall s s', foldM f s l = Ok s' -> R s s'.
Proof.
  intros A S f R l Hr Ht Hf. induction l as [|a l IH]; intros s s' E; simpl in E; [injection E as <-; auto|]. apply bind_ok in E. destruct E as [s1 [E1 E2]].
  eapply Ht; [eapply Hf; eauto|apply IH; auto].
Qed.

Section P.
  Variable K : ofield.
  Implicit Types (h : list (vec K)).

  Lemma dot_ok : forall debug h m A n, length A = length m -> sized h m n -> sized h A n ->
    mv_dot debug h m A = Ok (map (fun i => dot (at_pos h m i) (at_pos h A i)) (seq 0 (length m))).
  Proof.
    intros debug h m A n La Hm Ha. unfold mv_dot.
    assert (Hs : exists sz, msize h A = Ok sz /\ msize h m = Ok sz).
    { destruct m as [|p m]; [destruct A; [exists 0; auto|discriminate]|]. exists n. split; apply msize_ok; auto; [destruct A; discriminate|discriminate]. }
    destruct Hs as [sz [E1 E2]]. rewrite E1, E2. cbn [bind]. rewrite Nat.eqb_refl, dbg_true, La, Nat.eqb_refl, dbg_true. cbn [bind].
    apply mapM_seq_ok. intros i Hi. rewrite get_ok by (auto; apply Hm). cbn [bind]. rewrite get_ok by (try apply Ha; lia). cbn [bind]. unfold vec_dot.
    rewrite (sized_pos Hm Hi). rewrite (sized_pos (i := i) Ha) by lia. rewrite Nat.eqb_refl. auto.
  Qed.
  Lemma trans_ok : forall debug h alpha A B n, A <> [] -> B <> [] -> sized h A n -> sized h B n ->
    mv_trans_mv debug h alpha A B (length A) (length B)
    = Ok (map (fun i => map (fun j => fmul alpha (dot (at_pos h A i) (at_pos h B j))) (seq 0 (length B))) (seq 0 (length A))).
  Proof.
    intros debug h alpha A B n HA HB Ha Hb. unfold mv_trans_mv. rewrite (msize_ok Ha HA), (msize_ok Hb HB). cbn [bind]. rewrite !Nat.eqb_refl, dbg_true. cbn [bind demand].
    apply mapM_seq_ok. intros i Hi. apply mapM_seq_ok. intros j Hj. rewrite get_ok by (auto; apply Ha). cbn [bind]. rewrite get_ok by (auto; apply Hb). cbn [bind]. unfold vec_dot.
    rewrite (sized_pos Ha Hi), (sized_pos Hb Hj), Nat.eqb_refl. auto.
  Qed.
  Lemma norm_ok : forall root h m, lives h m -> mv_norm root h m = Ok (map (fun i => root (dot (at_pos h m i) (at_pos h m i))) (seq 0 (length m))).
  Proof. intros root h m Hm. unfold mv_norm. apply mapM_seq_ok. intros i Hi. rewrite get_ok by auto. auto. Qed.

  Lemma random_ok : forall draws h m n, NoDup m -> sized h m n ->
    exists h', mv_random draws h m = Ok h' /\ (forall i, i < length m -> at_pos h' m i = map draws (seq (i * n) n)) /\ only_changes h h' m.
  Proof.
    intros draws h m n Hn Hm. unfold mv_random.
    set (body := fun (c : list (vec K) * nat) i => let! w := get (fst c) m i in let! h1 := put (fst c) m i (map draws (seq (snd c) (length w))) in Ok (h1, snd c + length w)).
    assert (Q : forall k, k <= length m -> exists h', foldM body (h, 0) (seq 0 k) = Ok (h', k * n) /\ length h' = length h /\
      (forall i, i < k -> at_pos h' m i = map draws (seq (i * n) n)) /\ forall p, (forall i', i' < k -> nth i' m 0 <> p) -> nth p h' [] = nth p h []).
    { induction k as [|k IH]; intros Hle; [exists h; repeat split; auto; intros; lia|].
      destruct IH as [h1 [E1 [L1 [G1 F1]]]]; [lia|]. rewrite foldM_seq_S, E1. cbn [bind]. unfold body at 1. cbn [fst snd].
      assert (Lm : lives h1 m) by (eapply lives_len; [eauto|apply Hm]). rewrite get_ok by (auto; lia). cbn [bind]. rewrite put_ok by (auto; lia). cbn [bind].
      rewrite (@earlier K h h1 m k) by (auto; lia). rewrite (sized_pos (i := k) Hm) by lia.
      eexists. split; [f_equal; f_equal; simpl; lia|]. split; [rewrite upd_length; auto|]. split.
      - intros i Hi. unfold at_pos. destruct (Nat.eq_dec i k) as [->|Hne].
        + apply nth_upd_eq. apply Lm. apply nth_In. lia.
        + rewrite nth_upd_neq by (apply NoDup_nth_neq; auto; lia). apply G1. lia.
      - intros p Hp. rewrite nth_upd_neq by (apply Hp; lia). apply F1. intros i' Hi'. apply Hp. lia. }
    destruct (Q (length m) (le_n _)) as [h' [E [L [G F]]]]. exists h'. split; [fold body|split; [exact G|split; auto]].
    - transitivity (let! r := foldM body (h, 0) (seq 0 (length m)) in Ok (fst r)); [reflexivity|]. rewrite E. auto.
    - intros p Hp. apply F. intros i' Hi' E'. apply Hp. rewrite <- E'. apply nth_In. auto.
  Qed.

  (** New vectors. *)
  Lemma new_multi_ok : forall h n size h' y, new_multi h n size = (h', y) ->
    NoDup y /\ length y = n /\ length h' = length h + n /\ (forall p, In p y <-> length h <= p < length h + n) /\ (forall p, p < length h -> nth p h' [] = nth p h []) /\
    forall i, i < n -> nth i y 0 = length h + i /\ nth (nth i y 0) h' [] = vzero size.
  Proof.
    intros h n size h' y E. unfold new_multi in E. injection E as <- <-. split; [apply seq_NoDup|]. split; [apply seq_length|].
    split; [rewrite app_length, repeat_length; auto|]. split; [intros p; apply in_seq|]. split; [intros p Hp; apply app_nth1; auto|].
    intros i Hi. rewrite seq_nth by auto. split; auto. rewrite app_nth2 by lia. etransitivity; [apply (nth_indep _ _ (vzero size)); rewrite repeat_length; lia|apply nth_repeat].
  Qed.
  Lemma clone_ok : forall h x n size, sized h x size -> x <> [] -> exists h' y, clone h x n = Ok (h', y) /\ new_multi h n size = (h', y).
  Proof. intros h x n size H Hx. unfold clone. rewrite (msize_ok H Hx). cbn [bind]. destruct (new_multi h n size) as [h' y]. eauto. Qed.
  Lemma copy_ok : forall h x index, lives h x -> (forall j, In j index -> j < length x) ->
    exists h' y, clone_copy h x index = Ok (h', y) /\ length y = length index /\ NoDup y /\ (forall p, In p y -> length h <= p < length h') /\
      (forall i, i < length index -> at_pos h' y i = at_pos h x (nth i index 0)) /\ (forall p, p < length h -> nth p h' [] = nth p h []).
  Proof.
    intros h x index Hx Hi. unfold clone_copy. destruct (new_multi h (length index) 0) as [h1 y] eqn:E. destruct (new_multi_ok E) as [N1 [N2 [N3 [N4 [N5 N6]]]]].
    assert (Ly : lives h1 y) by (intros p Hp; apply N4 in Hp; lia).
    destruct (@write_loop K (fun h i => let! j := rd index i in let! v := get h x j in put h y i v) y (fun i => at_pos h x (nth i index 0)) h1 N1 Ly) as [h2 [R [G [F1 F2]]]].
    - intros i h' Hy L Hf. rewrite N2 in Hy. rewrite (rd_lt index 0 Hy). cbn [bind]. assert (Hj : nth i index 0 < length x) by (apply Hi; apply nth_In; auto).
      rewrite get_ok; [|intros p Hp; rewrite L, N3; specialize (Hx p Hp); lia|auto]. cbn [bind].
      rewrite put_ok; [|eapply lives_len; eauto|lia]. f_equal. f_equal. unfold at_pos.
      assert (Hp : nth (nth i index 0) x 0 < length h) by (apply Hx; apply nth_In; auto).
      rewrite Hf; [apply N5; auto|]. intros i' Hi'. destruct (N6 i') as [-> _]; lia.
    - rewrite N2 in R, G. rewrite R. cbn [bind]. exists h2, y. split; auto. split; auto. split; auto. split; [intros p Hp; rewrite F1, N3; apply N4 in Hp; lia|]. split; auto.
      intros p Hp. rewrite F2; [apply N5; auto|]. intros Q. apply N4 in Q. lia.
  Qed.
  Lemma view_ok : forall x index, (forall j, In j index -> j < length x) -> clone_view x index = Ok (map (fun j => nth j x 0) index).
  Proof.
    intros x index H. unfold clone_view. induction index as [|j l IH]; simpl; auto. rewrite (rd_lt x 0) by (apply H; simpl; auto). cbn [bind].
    rewrite IH by (intros; apply H; simpl; auto). auto.
  Qed.
  Lemma view_inv : forall x index y, clone_view x index = Ok y -> y = map (fun j => nth j x 0) index /\ forall j, In j index -> j < length x.
  Proof.
    intros x index. unfold clone_view. induction index as [|j l IH]; simpl; intros y E; [injection E as <-; split; auto; intros j []|].
    apply bind_ok in E. destruct E as [p [Ep E]]. apply bind_ok in E. destruct E as [r [Er E]]. injection E as <-. destruct (IH r Er) as [-> Hl]. unfold rd in Ep.
    destruct (nth_error x j) eqn:En; [|discriminate]. injection Ep as <-. split.
    - f_equal. symmetry. apply nth_error_nth. auto.
    - intros j' [<-|Hj]; auto. eapply nth_error_lt; eauto.
  Qed.

  (** Operations change nothing but their target. *)
  Lemma changes_refl : forall h x, only_changes h h x.
  Proof. intros h x. split; auto. Qed.
  Lemma changes_trans : forall h1 h2 h3 x, only_changes h1 h2 x -> only_changes h2 h3 x -> @only_changes K h1 h3 x.
  Proof. intros h1 h2 h3 x [A1 A2] [B1 B2]. split; [congruence|]. intros p Hp. rewrite B2, A2; auto. Qed.
  Lemma wr_changes : forall h x p (v : vec K) h', In p x -> wr h p v = Ok h' -> only_changes h h' x.
  Proof.
    intros h x p v h' Hp E. unfold wr in E. destruct (p <? length h); [|discriminate]. injection E as <-. split; [apply upd_length|].
    intros q Hq. apply nth_upd_neq. intros ->. contradiction.
  Qed.
  Lemma put_changes : forall h x i (v : vec K) h', put h x i v = Ok h' -> only_changes h h' x.
  Proof. intros h x i v h' E. unfold put in E. apply bind_ok in E. destruct E as [p [Ep E]]. eapply wr_changes; [|exact E]. unfold rd in Ep. destruct (nth_error x i) eqn:En; [|discriminate]. injection Ep as <-. eapply nth_error_In; eauto. Qed.
  Lemma fold_changes : forall A (body : list (vec K) -> A -> outcome (list (vec K))) l x, (forall h a h', body h a = Ok h' -> only_changes h h' x) ->
    forall h h', foldM body h l = Ok h' -> only_changes h h' x.
  Proof. intros A body l x Hb. apply (@foldM_rel _ _ body (fun h h' => only_changes h h' x)); auto; [intros; apply changes_refl|intros; eapply changes_trans; eauto]. Qed.
  Ltac peel := repeat match goal with E : bind _ _ = Ok _ |- _ => apply bind_ok in E; let a := fresh "v" in let Q := fresh "Q" in destruct E as [a [Q E]] end.

  Lemma step_changes : forall debug draws s o s' m, mstep debug draws s o = Ok s' -> target o = Some m ->
    exists x, nth_error (ms_multis s) m = Some x /\ ms_multis s' = ms_multis s /\ only_changes (ms_store s) (@ms_store K s') x.
  Proof.
    intros debug draws s o s' m E T.
    assert (R : forall k x, rd (ms_multis s) k = Ok x -> nth_error (ms_multis s) k = Some x) by (intros k x Q; unfold rd in Q; destruct (nth_error (ms_multis s) k); [injection Q as ->; auto|discriminate]).
    destruct o; cbn [target] in T; try discriminate; injection T as ->; cbn [mstep] in E; peel; injection E as <-; cbn [ms_store ms_multis];
      (eexists; split; [apply R; eassumption|split; [reflexivity|]]).
    - unfold mv_times_mat_add_mv in *. peel. match goal with E : foldM _ _ _ = Ok _ |- _ => revert E; apply fold_changes end. intros h a0 h' HQ. peel.
      eapply changes_trans; [eapply put_changes; eauto|]. match goal with E : foldM _ _ _ = Ok _ |- _ => revert E; apply fold_changes end. intros h1 a1 h1' Q'. peel. eapply put_changes; eauto.
    - unfold mv_add_mv in *. peel. match goal with E : foldM _ _ _ = Ok _ |- _ => revert E; apply fold_changes end. intros h a0 h' HQ. peel.
      eapply changes_trans; eapply put_changes; eauto.
    - unfold mv_scale in *. match goal with E : foldM _ _ _ = Ok _ |- _ => revert E; apply fold_changes end. intros h a0 h' HQ. peel. eapply put_changes; eauto.
    - unfold mv_scale_each in *. peel. match goal with E : foldM _ _ _ = Ok _ |- _ => revert E; apply fold_changes end. intros h a0 h' HQ. peel. eapply put_changes; eauto.
    - unfold set_block in *. peel. match goal with E : foldM _ _ _ = Ok _ |- _ => revert E; apply fold_changes end. intros h a0 h' HQ. peel. eapply put_changes; eauto.
    - unfold mv_random in *. peel. match goal with E : Ok _ = Ok _ |- _ => injection E as <- end.
      match goal with E : foldM _ _ _ = Ok ?r |- only_changes ?h (fst ?r) ?x => change (only_changes (fst (h, 0)) (fst r) x); revert E; apply (@foldM_rel _ _ _ (fun c c' : list (vec K) * nat => only_changes (fst c) (fst c') x)) end.
      + intros; apply changes_refl.
      + intros; eapply changes_trans; eauto.
      + intros c a0 c' HQ. peel. injection HQ as <-. eapply put_changes; eauto.
    - unfold mv_init in *. match goal with E : foldM _ _ _ = Ok _ |- _ => revert E; apply fold_changes end. intros h a0 h' HQ. peel. eapply put_changes; eauto.
    - unfold op_traits_apply in *. peel. match goal with E : foldM _ _ _ = Ok _ |- _ => revert E; apply fold_changes end. intros h a0 h' HQ. peel. eapply wr_changes; [|eauto].
      match goal with E : rd ?y ?a = Ok ?p |- In ?p ?y => unfold rd in E; destruct (nth_error y a) eqn:En; [injection E as <-; eapply nth_error_In; eauto|discriminate] end.
  Qed.

  (** Well-formed states with families: vectors exist, different families share nothing. *)
  Record grouped (s : mstate K) (fs : list nat) : Prop := {
    gr_len : length fs = length (ms_multis s);
    gr_live : forall k x, nth_error (ms_multis s) k = Some x -> lives (ms_store s) x;
    gr_sep : forall k k' x x', nth_error (ms_multis s) k = Some x -> nth_error (ms_multis s) k' = Some x' -> nth k fs 0 <> nth k' fs 0 -> separate x x';
    gr_small : forall k, k < length fs -> nth k fs 0 < length fs
  }.
  Lemma grouped_start : grouped (mkM [] []) [].
  Proof. split; simpl; auto; try (intros [|k]; discriminate); try (intros [|k] [|k']; discriminate). intros k Hk. lia. Qed.
  Lemma nth_snoc : forall (l : list nat) a k, nth k (l ++ [a]) 0 = if k <? length l then nth k l 0 else if k =? length l then a else 0.
  Proof.
    intros l a k. destruct (k <? length l) eqn:E; [apply Nat.ltb_lt in E; apply app_nth1; auto|]. apply Nat.ltb_ge in E. rewrite app_nth2 by auto.
    destruct (k =? length l) eqn:E2; [apply Nat.eqb_eq in E2; subst; rewrite Nat.sub_diag; auto|]. apply Nat.eqb_neq in E2. destruct (k - length l) as [|[|d]] eqn:Ed; auto; lia.
  Qed.
  Lemma nth_error_snoc_inv : forall A (l : list A) a k x, nth_error (l ++ [a]) k = Some x -> (k < length l /\ nth_error l k = Some x) \/ (k = length l /\ x = a).
  Proof.
    intros A l a k x E. destruct (lt_dec k (length l)) as [H|H]; [left; rewrite nth_error_app1 in E; auto|right].
    assert (k < length (l ++ [a])) by (eapply nth_error_lt; eauto). rewrite app_length in *. simpl in *. assert (k = length l) by lia. subst. rewrite nth_error_app2, Nat.sub_diag in E by lia.
    injection E as <-. auto.
  Qed.
  (** A new multivector with new vectors. *)
  Lemma grouped_new : forall s fs h' y, grouped s fs -> length (ms_store s) <= length h' -> (forall p, In p y -> length (ms_store s) <= p < length h') ->
    grouped (with_multi s (h', y)) (fs ++ [length fs]).
  Proof.
    intros s fs h' y [G1 G2 G3 G4] Hl Hy. unfold with_multi. cbn [fst snd]. split; cbn [ms_multis ms_store].
    - rewrite !app_length. simpl. lia.
    - intros k x Hk p Hp. apply nth_error_snoc_inv in Hk. destruct Hk as [[_ Hk]|[_ ->]]; [specialize (G2 k x Hk p Hp); lia|apply Hy in Hp; lia].
    - intros k k' x x' Hk Hk' Hne p Hp Hp'. apply nth_error_snoc_inv in Hk. apply nth_error_snoc_inv in Hk'. rewrite !nth_snoc, G1 in Hne.
      destruct Hk as [[Lk Hk]|[-> ->]]; destruct Hk' as [[Lk' Hk']|[-> ->]].
      + assert (E1 : k <? length (ms_multis s) = true) by (apply Nat.ltb_lt; auto). assert (E2 : k' <? length (ms_multis s) = true) by (apply Nat.ltb_lt; auto). rewrite E1, E2 in Hne.
        exact (G3 k k' x x' Hk Hk' Hne p Hp Hp').
      + specialize (G2 k x Hk p Hp). apply Hy in Hp'. lia.
      + specialize (G2 k' x' Hk' p Hp'). apply Hy in Hp. lia.
      + congruence.
    - intros k Hk. rewrite app_length in *. simpl in *. rewrite nth_snoc. destruct (k <? length fs) eqn:E; [apply Nat.ltb_lt in E; specialize (G4 k E); lia|]. destruct (k =? length fs); lia.
  Qed.
  (** A view. *)
  Lemma grouped_view : forall s fs m x y, grouped s fs -> nth_error (ms_multis s) m = Some x -> (forall p, In p y -> In p x) ->
    grouped (with_multi s (ms_store s, y)) (fs ++ [nth m fs 0]).
  Proof.
    intros s fs m x y [G1 G2 G3 G4] Hm Hy. unfold with_multi. cbn [fst snd]. assert (Hml : m < length fs) by (rewrite G1; eapply nth_error_lt; eauto). split; cbn [ms_multis ms_store].
    - rewrite !app_length. simpl. lia.
    - intros k x' Hk p Hp. apply nth_error_snoc_inv in Hk. destruct Hk as [[_ Hk]|[_ ->]]; [exact (G2 k x' Hk p Hp)|exact (G2 m x Hm p (Hy p Hp))].
    - intros k k' x1 x2 Hk Hk' Hne p Hp Hp'. apply nth_error_snoc_inv in Hk. apply nth_error_snoc_inv in Hk'. rewrite !nth_snoc, G1 in Hne.
      destruct Hk as [[Lk Hk]|[-> ->]]; destruct Hk' as [[Lk' Hk']|[-> ->]]; rewrite ?Nat.ltb_irrefl, ?Nat.eqb_refl in Hne;
        try (assert (E1 : k <? length (ms_multis s) = true) by (apply Nat.ltb_lt; auto); rewrite E1 in Hne);
        try (assert (E2 : k' <? length (ms_multis s) = true) by (apply Nat.ltb_lt; auto); rewrite E2 in Hne).
      + exact (G3 k k' x1 x2 Hk Hk' Hne p Hp Hp').
      + exact (G3 k m x1 x Hk Hm Hne p Hp (Hy p Hp')).
      + exact (G3 m k' x x2 Hm Hk' Hne p (Hy p Hp) Hp').
      + congruence.
    - intros k Hk. rewrite app_length in *. simpl in *. rewrite nth_snoc. destruct (k <? length fs) eqn:E; [apply Nat.ltb_lt in E; specialize (G4 k E); lia|].
      destruct (k =? length fs); [specialize (G4 m Hml); lia|lia].
  Qed.
  Lemma copy_inv : forall h x index h' y, clone_copy h x index = Ok (h', y) -> length h <= length h' /\ (forall p, In p y -> length h <= p < length h') /\
    forall p, p < length h -> nth p h' [] = @nth (vec K) p h [].
  Proof.
    intros h x index h' y E. unfold clone_copy in E. destruct (new_multi h (length index) 0) as [h1 y1] eqn:En. destruct (new_multi_ok En) as [N1 [N2 [N3 [N4 [N5 N6]]]]].
    apply bind_ok in E. destruct E as [h2 [E1 E]]. injection E as -> ->.
    assert (F : only_changes h1 h' y). { revert E1. apply fold_changes. intros g a g' Q. peel. eapply put_changes; eauto. }
    destruct F as [F1 F2]. split; [lia|]. split; [intros p Hp; apply N4 in Hp; lia|]. intros p Hp. rewrite F2; [apply N5; auto|]. intros Q. apply N4 in Q. lia.
  Qed.

  (** One operation: the families are kept and what is not in the family of the target keeps its value. *)
  Lemma step_grouped : forall debug draws s o s' fs, grouped s fs -> mstep debug draws s o = Ok s' ->
    grouped s' (families fs [o]) /\ (forall k, k < length (ms_multis s) -> nth_error (ms_multis s') k = nth_error (ms_multis s) k) /\
    forall f k, nth k fs 0 = f -> k < length fs -> (forall m, target o = Some m -> nth m fs 0 <> f) -> value s' k = value s k.
  Proof.
    intros debug draws s o s' fs G E.
    assert (Hnew : forall h' y, s' = with_multi s (h', y) -> length (ms_store s) <= length h' -> (forall p, p < length (ms_store s) -> nth p h' [] = nth p (ms_store s) []) ->
      (forall k, k < length (ms_multis s) -> nth_error (ms_multis s') k = nth_error (ms_multis s) k) /\ forall k, k < length fs -> value s' k = value s k).
    { intros h' y -> Hl Hp. unfold with_multi. cbn [fst snd ms_multis]. assert (Q : forall k, k < length (ms_multis s) -> nth_error (ms_multis s ++ [y]) k = nth_error (ms_multis s) k) by (intros; apply nth_error_app1; auto).
      split; auto. intros k Hk. rewrite (gr_len G) in Hk. unfold value. cbn [ms_multis ms_store]. rewrite Q by auto. destruct (nth_error (ms_multis s) k) as [x|] eqn:Ex; auto. cbn. f_equal.
      unfold content. apply map_ext_in. intros p Hin. apply Hp. exact (gr_live G k Ex p Hin). }
    destruct (target o) as [m|] eqn:T.
    - destruct (@step_changes debug draws s o s' m E T) as [x [Hx [Em [F1 F2]]]].
      assert (Ef : families fs [o] = fs) by (destruct o; try discriminate; reflexivity). rewrite Ef. split; [|split].
      + destruct G as [G1 G2 G3 G4]. split; rewrite ?Em; auto. intros k y Hy p Hp. rewrite F1. exact (G2 k y Hy p Hp).
      + intros k Hk. rewrite Em. auto.
      + intros f k Hf Hk Ht. unfold value. rewrite Em. destruct (nth_error (ms_multis s) k) as [y|] eqn:Ey; auto. cbn. f_equal. unfold content. apply map_ext_in. intros p Hp. apply F2.
        apply (gr_sep G k m Ey Hx); auto. rewrite Hf. intros Q. apply (Ht m); auto.
    - destruct o; try discriminate; cbn [mstep] in E; cbn [families].
      + injection E as <-. destruct (new_multi (ms_store s) n size) as [h' y] eqn:En. destruct (new_multi_ok En) as [N1 [N2 [N3 [N4 [N5 N6]]]]].
        destruct (Hnew h' y) as [H1 H2]; auto; [lia|]. split; [apply grouped_new; auto; [lia|intros p Hp; apply N4 in Hp; lia]|]. split; auto.
      + peel. injection E as <-. unfold clone in *. peel. match goal with Q : Ok _ = Ok _ |- _ => injection Q as <- end.
        match goal with |- context [new_multi (ms_store s) ?a ?b] => destruct (new_multi (ms_store s) a b) as [h' y] eqn:En end. destruct (new_multi_ok En) as [N1 [N2 [N3 [N4 [N5 N6]]]]].
        destruct (Hnew h' y) as [H1 H2]; auto; [lia|]. split; [apply grouped_new; auto; [lia|intros p Hp; apply N4 in Hp; lia]|]. split; auto.
      + peel. injection E as <-. match goal with Q : clone_copy _ _ _ = Ok ?r |- _ => destruct r as [h' y]; destruct (@copy_inv _ _ _ _ _ Q) as [C1 [C2 C3]] end.
        destruct (Hnew h' y) as [H1 H2]; auto. split; [apply grouped_new; auto|]. split; auto.
      + peel. injection E as <-. match goal with Q : rd (ms_multis s) ?m = Ok ?x, Q' : clone_view _ _ = Ok ?y |- _ => rename Q into Qx; destruct (view_inv _ _ Q') as [-> Hi] end.
        match goal with |- grouped (with_multi s (_, ?y)) _ /\ _ => destruct (Hnew (ms_store s) y) as [H1 H2]; auto end. split; [|split; auto].
        unfold rd in Qx. destruct (nth_error (ms_multis s) x) as [z|] eqn:Ez; [|discriminate]. injection Qx as <-. eapply grouped_view; eauto.
        intros p Hp. apply in_map_iff in Hp. destruct Hp as [j [<- Hj]]. apply nth_In. auto.
  Qed.
  Lemma families_app : forall os os' fs, families fs (os ++ os') = @families K (families fs os) os'.
  Proof. induction os as [|o os IH]; intros os' fs; auto. destruct o; simpl; apply IH. Qed.
  Lemma families_prefix : forall (o : mop K) fs k, k < length fs -> nth k (families fs [o]) 0 = nth k fs 0 /\ length fs <= length (families fs [o]).
  Proof. intros o fs k Hk. destruct o; simpl; auto; rewrite app_length, app_nth1; simpl; auto; lia. Qed.
  Lemma run_grouped : forall debug draws os s fs s', grouped s fs -> mrun debug draws s os = Ok s' ->
    grouped s' (families fs os) /\ (forall k, k < length (ms_multis s) -> nth_error (ms_multis s') k = nth_error (ms_multis s) k) /\
    forall f k, nth k fs 0 = f -> k < length fs -> leaves f fs os -> value s' k = @value K s k.
  Proof.
    intros debug draws os. induction os as [|o os IH]; intros s fs s' G E; simpl in E; [injection E as <-; simpl; auto|].
    apply bind_ok in E. destruct E as [s1 [E1 E2]]. destruct (step_grouped debug draws o G E1) as [G1 [P1 V1]].
    destruct (IH s1 _ s' G1 E2) as [G2 [P2 V2]]. split; [change (o :: os) with ([o] ++ os); rewrite families_app; auto|]. split.
    - intros k Hk. rewrite P2; auto. apply nth_error_lt with (a := match nth_error (ms_multis s) k with Some x => x | None => [] end). rewrite P1 by auto.
      destruct (nth_error (ms_multis s) k) eqn:En; auto. apply nth_error_None in En. lia.
    - intros f k Hf Hk [L1 L2]. destruct (@families_prefix o fs k Hk) as [F1 F2]. rewrite (V2 f k); [apply (V1 f k); auto|congruence|lia|auto].
  Qed.
End P.
