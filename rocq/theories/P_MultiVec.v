(** Proofs about multivectors. *)
From Coq Require Import List Arith Lia Bool.
From Verif Require Import Base OField Mat M_SpProd P_SpProd M_Csr P_Csr P_Dev2 M_MultiVec S_MultiVec.
Import ListNotations.
Set Implicit Arguments.
Open Scope nat_scope.

Lemma nth_upd_eq : forall A (l : list A) i a d, i < length l -> nth i (upd l i a) d = a.
Proof. intros. apply nth_error_nth. apply nth_error_upd_eq. auto. Qed.
Lemma nth_upd_neq : forall A (l : list A) i j a d, i <> j -> nth j (upd l i a) d = nth j l d.
Proof. intros A l. induction l as [|b l IH]; intros [|i] [|j] a d H; simpl; auto; try lia. Qed.
Lemma upd_upd : forall A (l : list A) i a b, upd (upd l i a) i b = upd l i b.
Proof. intros A l. induction l as [|c l IH]; intros [|i] a b; simpl; auto. f_equal. auto. Qed.
Lemma rd_lt : forall A (l : list A) i d, i < length l -> rd l i = Ok (nth i l d).
Proof. intros A l i d H. unfold rd. rewrite (nth_error_nth_lt l d H). auto. Qed.
Lemma wr_lt : forall A (l : list A) i a, i < length l -> wr l i a = Ok (upd l i a).
Proof. intros A l i a H. unfold wr. apply Nat.ltb_lt in H. rewrite H. auto. Qed.
Lemma foldM_seq_S : forall B (f : B -> nat -> outcome B) n b, foldM f b (seq 0 (S n)) = let! b1 := foldM f b (seq 0 n) in f b1 n.
Proof. intros B f n b. rewrite seq_S, foldM_app. simpl. destruct (foldM f b (seq 0 n)) as [c| | | |]; simpl; auto. destruct (f c n); auto. Qed.
Lemma NoDup_nth_neq : forall (l : list nat) i j, NoDup l -> i < length l -> j < length l -> i <> j -> nth i l 0 <> nth j l 0.
Proof. intros l i j H Hi Hj Hn E. apply Hn. apply (proj1 (NoDup_nth l 0) H i j Hi Hj E). Qed.

Section P.
  Variable K : ofield.
  Implicit Types (h : list (vec K)).
  Add Field KfMulti : (f_field K).

  Lemma get_ok : forall h x i, lives h x -> i < length x -> get h x i = Ok (at_pos h x i).
  Proof. intros h x i H Hi. unfold get. rewrite (rd_lt x 0 Hi). cbn [bind]. apply rd_lt. apply H. apply nth_In. auto. Qed.
  Lemma put_ok : forall h x i v, lives h x -> i < length x -> put h x i v = Ok (upd h (nth i x 0) v).
  Proof. intros h x i v H Hi. unfold put. rewrite (rd_lt x 0 Hi). cbn [bind]. apply wr_lt. apply H. apply nth_In. auto. Qed.
  Lemma lives_len : forall h h' x, length h' = length h -> lives h x -> lives h' x.
  Proof. intros h h' x E H p Hp. rewrite E. auto. Qed.
  Lemma lives_upd : forall h x i v, lives h x -> lives (upd h i v) x.
  Proof. intros. eapply lives_len; [|eauto]. apply upd_length. Qed.

  (** A loop that writes the positions of a multivector in turn. *)
  Lemma write_loop : forall (body : list (vec K) -> nat -> outcome (list (vec K))) (tgt : list nat) (g : nat -> vec K) h,
    NoDup tgt -> lives h tgt ->
    (forall i h', i < length tgt -> length h' = length h -> (forall p, (forall i', i' < i -> nth i' tgt 0 <> p) -> nth p h' [] = nth p h []) ->
      body h' i = Ok (upd h' (nth i tgt 0) (g i))) ->
    exists h', foldM body h (seq 0 (length tgt)) = Ok h' /\ (forall i, i < length tgt -> at_pos h' tgt i = g i) /\ only_changes h h' tgt.
  Proof.
    intros body tgt g h Hn Hl Hb.
    assert (Q : forall n, n <= length tgt -> exists h', foldM body h (seq 0 n) = Ok h' /\ length h' = length h /\
      (forall i, i < n -> nth (nth i tgt 0) h' [] = g i) /\ forall p, (forall i', i' < n -> nth i' tgt 0 <> p) -> nth p h' [] = nth p h []).
    { induction n as [|n IH]; intros Hle; [exists h; repeat split; auto; intros; lia|].
      destruct IH as [h1 [E1 [L1 [G1 F1]]]]; [lia|]. rewrite foldM_seq_S, E1. cbn [bind]. rewrite (Hb n h1) by (auto; lia).
      eexists. split; [reflexivity|]. split; [rewrite upd_length; auto|]. split.
      - intros i Hi. destruct (Nat.eq_dec i n) as [->|Hne].
        + apply nth_upd_eq. rewrite L1. apply Hl. apply nth_In. lia.
        + rewrite nth_upd_neq by (apply NoDup_nth_neq; auto; lia). apply G1. lia.
      - intros p Hp. rewrite nth_upd_neq by (apply Hp; lia). apply F1. intros i' Hi'. apply Hp. lia. }
    destruct (Q (length tgt) (le_n _)) as [h' [E [L [G F]]]]. exists h'. split; auto. split; [exact G|]. split; auto.
    intros p Hp. apply F. intros i' Hi' E'. apply Hp. rewrite <- E'. apply nth_In. auto.
  Qed.

  Lemma msize_ok : forall h x n, sized h x n -> x <> [] -> msize h x = Ok n.
  Proof. intros h [|p x] n [H1 H2] Hx; [congruence|]. cbn [msize]. rewrite (rd_lt h []) by (apply H1; simpl; auto). cbn [bind]. rewrite H2 by (simpl; auto). auto. Qed.
  Lemma sized_pos : forall h x n i, sized h x n -> i < length x -> length (at_pos h x i) = n.
  Proof. intros h x n i [H1 H2] Hi. apply H2. apply nth_In. auto. Qed.
  Lemma dbg_true : forall debug, assert_dbg debug true = Ok tt.
  Proof. intros []; reflexivity. Qed.
  Lemma bind_id : forall A (m : outcome A), (let! a := m in Ok a) = m.
  Proof. intros A []; reflexivity. Qed.

  Lemma earlier : forall h h' m i, NoDup m -> i < length m -> (forall p, (forall i', i' < i -> nth i' m 0 <> p) -> nth p h' [] = nth p h []) -> at_pos h' m i = @at_pos K h m i.
  Proof. intros h h' m i Hn Hi Hf. apply Hf. intros i' Hi'. apply NoDup_nth_neq; auto; lia. Qed.

  Lemma scale_ok : forall h m alpha, NoDup m -> lives h m ->
    exists h', mv_scale h m alpha = Ok h' /\ (forall i, i < length m -> at_pos h' m i = vscale alpha (at_pos h m i)) /\ only_changes h h' m.
  Proof.
    intros h m alpha Hn Hl. unfold mv_scale. apply write_loop; auto.
    intros i h' Hi L Hf. rewrite get_ok by (auto; eapply lives_len; eauto). cbn [bind]. rewrite put_ok by (auto; eapply lives_len; eauto).
    rewrite (earlier h h' Hn Hi Hf). auto.
  Qed.
  Lemma scale_each_ok : forall debug h m alpha, NoDup m -> lives h m -> length alpha = length m ->
    exists h', mv_scale_each debug h m alpha = Ok h' /\ (forall i, i < length m -> at_pos h' m i = vscale (nth i alpha f0) (at_pos h m i)) /\ only_changes h h' m.
  Proof.
    intros debug h m alpha Hn Hl Ha. unfold mv_scale_each. rewrite Ha, Nat.eqb_refl, dbg_true. cbn [bind]. apply write_loop; auto.
    intros i h' Hi L Hf. rewrite (rd_lt alpha f0) by lia. cbn [bind]. rewrite get_ok by (auto; eapply lives_len; eauto). cbn [bind]. rewrite put_ok by (auto; eapply lives_len; eauto).
    rewrite (earlier h h' Hn Hi Hf). auto.
  Qed.
  Lemma init_ok : forall h m alpha, NoDup m -> lives h m ->
    exists h', mv_init h m alpha = Ok h' /\ (forall i, i < length m -> at_pos h' m i = repeat alpha (length (at_pos h m i))) /\ only_changes h h' m.
  Proof.
    intros h m alpha Hn Hl. unfold mv_init. apply write_loop; auto.
    intros i h' Hi L Hf. rewrite get_ok by (auto; eapply lives_len; eauto). cbn [bind]. rewrite put_ok by (auto; eapply lives_len; eauto).
    rewrite (earlier h h' Hn Hi Hf). auto.
  Qed.
  (** Reading position i of A after the earlier positions of m were written. *)
  Lemma read_later : forall h h' A m i, not_overtaken A m -> i < length A -> i <= length m ->
    (forall p, (forall i', i' < i -> nth i' m 0 <> p) -> nth p h' [] = nth p h []) -> at_pos h' A i = @at_pos K h A i.
  Proof. intros h h' A m i Ho Hi Hm Hf. apply Hf. intros i' Hi'. apply Ho; auto. lia. Qed.
  Lemma apply_ok : forall debug h (M : mat K) x y, NoDup y -> nr M = nc M -> length y = length x -> sized h x (nc M) -> sized h y (nr M) ->
    not_overtaken x y -> (forall i, i < length x -> nth i x 0 <> nth i y 0) ->
    exists h', op_traits_apply debug h M x y = Ok h' /\ (forall i, i < length y -> at_pos h' y i = mulvec M (at_pos h x i)) /\ only_changes h h' y.
  Proof.
    intros debug h M x y Hn Hsq Hl Hx Hy Ho Ha. unfold op_traits_apply.
    assert (Hs : exists sx sy, msize h x = Ok sx /\ msize h y = Ok sy /\ sx = sy).
    { destruct x as [|p x]; [destruct y; [exists 0, 0; auto|discriminate]|]. exists (nc M), (nr M). split; [apply msize_ok; auto; discriminate|].
      split; [apply msize_ok; auto; destruct y; discriminate|auto]. }
    destruct Hs as [sx [sy [E1 [E2 <-]]]]. rewrite E1, E2. cbn [bind]. rewrite Nat.eqb_refl, dbg_true, Hl, Nat.eqb_refl, dbg_true. cbn [bind]. rewrite <- Hl. apply write_loop; [auto|apply Hy|].
    intros i h' Hi L Hf. rewrite (rd_lt y 0 Hi), (rd_lt x 0) by lia. cbn [bind]. rewrite (rd_lt h' []) by (rewrite L; apply Hy; apply nth_In; lia). cbn [bind]. rewrite (rd_lt h' []) by (rewrite L; apply Hx; apply nth_In; lia). cbn [bind].
    assert (E3 : at_pos h' x i = at_pos h x i) by (apply (@read_later h h' x y i Ho); auto; lia). assert (E4 := earlier h h' Hn Hi Hf).
    unfold at_pos in E3, E4. rewrite E3, E4. change (nth (nth i y 0) h []) with (at_pos h y i). change (nth (nth i x 0) h []) with (at_pos h x i).
    rewrite (sized_pos Hy Hi). rewrite (sized_pos (i := i) Hx) by lia. rewrite !Nat.eqb_refl. cbn [andb].
    assert (E5 : nth i y 0 =? nth i x 0 = false) by (apply Nat.eqb_neq; intros Q; apply (Ha i); [lia|auto]). rewrite E5. cbn [negb demand bind].
    apply wr_lt. rewrite L. apply Hy. apply nth_In. auto.
  Qed.
  Lemma summed_vec : forall alpha (a : vec K) beta b, length a = length b -> vadd (vscale alpha a) (vscale beta b) = summed alpha a beta b.
  Proof.
    intros alpha a beta b H. unfold summed. apply vec_ext.
    - rewrite vadd_length, !vscale_length, map_length, seq_length. lia.
    - intros e He. rewrite nth_vadd by (rewrite !vscale_length; auto). rewrite !nth_vscale. rewrite vadd_length, !vscale_length in He.
      rewrite (nth_indep (map _ _) f0 (fadd (fmul alpha (nth 0 a f0)) (fmul beta (nth 0 b f0)))) by (rewrite map_length, seq_length; lia).
      rewrite (map_nth (fun e => fadd (fmul alpha (nth e a f0)) (fmul beta (nth e b f0)))), seq_nth by lia. auto.
  Qed.
  Lemma add_ok : forall debug h alpha A beta B m n, NoDup m -> length A = length m -> length B = length m -> sized h A n -> sized h B n -> sized h m n ->
    not_overtaken A m -> not_overtaken B m ->
    exists h', mv_add_mv debug h alpha A beta B m = Ok h' /\
      (forall i, i < length m -> at_pos h' m i = summed alpha (at_pos h A i) beta (if nth i B 0 =? nth i m 0 then at_pos h A i else at_pos h B i)) /\ only_changes h h' m.
  Proof.
    intros debug h alpha A beta B m n Hn La Lb Ha Hb Hm Oa Ob. unfold mv_add_mv.
    assert (Hs : exists sz, msize h A = Ok sz /\ msize h B = Ok sz /\ msize h m = Ok sz).
    { destruct m as [|p m]; [destruct A; [|discriminate]; destruct B; [|discriminate]; exists 0; auto|]. exists n.
      split; [apply msize_ok; auto; destruct A; discriminate|]. split; [apply msize_ok; auto; destruct B; discriminate|apply msize_ok; auto; discriminate]. }
    destruct Hs as [sz [E1 [E2 E3]]]. rewrite E1, E2, E3. cbn [bind]. rewrite La, Lb, !Nat.eqb_refl, !dbg_true. cbn [bind]. apply write_loop; [auto|apply Hm|].
    intros i h' Hi L Hf. assert (Lm : lives h' m) by (eapply lives_len; [eauto|apply Hm]). assert (LA : lives h' A) by (eapply lives_len; [eauto|apply Ha]).
    assert (LB : lives h' B) by (eapply lives_len; [eauto|apply Hb]).
    rewrite get_ok by (auto; lia). cbn [bind]. rewrite put_ok by auto. cbn [bind]. rewrite get_ok by (auto; apply lives_upd; auto). cbn [bind].
    rewrite get_ok by (auto; try apply lives_upd; auto; lia). cbn [bind].
    assert (Ea : at_pos h' A i = at_pos h A i) by (apply (@read_later h h' A m i Oa); auto; lia).
    assert (Eb : at_pos h' B i = at_pos h B i) by (apply (@read_later h h' B m i Ob); auto; lia).
    assert (Hp : nth i m 0 < length h') by (apply Lm; apply nth_In; auto).
    assert (Ew : at_pos (upd h' (nth i m 0) (at_pos h' A i)) m i = at_pos h A i) by (unfold at_pos at 1; rewrite nth_upd_eq; auto).
    assert (Ebb : at_pos (upd h' (nth i m 0) (at_pos h' A i)) B i = if nth i B 0 =? nth i m 0 then at_pos h A i else at_pos h B i).
    { unfold at_pos at 1. destruct (nth i B 0 =? nth i m 0) eqn:E.
      - apply Nat.eqb_eq in E. rewrite E, nth_upd_eq; auto.
      - apply Nat.eqb_neq in E. rewrite nth_upd_neq by auto. exact Eb. }
    rewrite Ew, Ebb. unfold vec_sadd.
    assert (Hlen : length (at_pos h A i) = length (if nth i B 0 =? nth i m 0 then at_pos h A i else at_pos h B i)).
    { destruct (nth i B 0 =? nth i m 0); auto. rewrite (sized_pos (i := i) Ha) by lia. rewrite (sized_pos (i := i) Hb) by lia. auto. }
    rewrite Hlen, Nat.eqb_refl. cbn [demand bind]. rewrite put_ok by (auto; apply lives_upd; auto). rewrite upd_upd, summed_vec; auto.
  Qed.

  (** The inner loop of MvTimesMatAddMv. *)
  Lemma times_inner : forall debug h alpha A (B : mat K) p j (w : vec K) n0 n, p < length h -> ~ In p A -> lives h A -> (forall q, In q A -> length (nth q h []) = n) ->
    nth p h [] = w -> length w = n -> n0 <= length A -> length A <= nr B -> forall m i, nth_error m i = Some p ->
    foldM (fun h k => let! w := get h m i in let! v := get h A k in let! b := (if k <? nr B then Ok (ent B k j) else UB) in
        let! w' := vec_add debug w (fmul alpha b) v in put h m i w') h (seq 0 n0)
    = Ok (upd h p (map (fun e => fadd (nth e w f0) (fmul alpha (sumn n0 (fun k => fmul (ent B k j) (nth e (at_pos h A k) f0))))) (seq 0 n))).
  Proof.
    intros debug h alpha A B p j w n0 n Hp Hnot HA Hsz Hw Hlw Hn0 HB m i Hm. induction n0 as [|k IH].
    - simpl. f_equal. replace (map _ _) with w; [clear - Hw Hp; rewrite <- Hw; revert p Hw Hp; induction h as [|a h IH]; intros [|p] Hw Hp; simpl in *; auto; try lia; f_equal; eapply IH; eauto; lia|].
      apply vec_ext; [rewrite map_length, seq_length; auto|]. intros e He. rewrite (nth_indep (map _ _) f0 (fadd (nth 0 w f0) (fmul alpha f0))) by (rewrite map_length, seq_length; lia).
      rewrite (map_nth (fun e => fadd (nth e w f0) (fmul alpha f0))), seq_nth by lia. simpl. ring.
    - rewrite foldM_seq_S, IH by lia. cbn [bind]. set (w1 := map _ _). assert (L1 : length w1 = n) by (unfold w1; rewrite map_length, seq_length; auto).
      assert (G : get (upd h p w1) m i = Ok w1). { unfold get, rd. rewrite Hm. cbn [bind]. rewrite nth_error_upd_eq; auto. }
      rewrite G. cbn [bind].
      rewrite get_ok by (try apply lives_upd; auto; lia). cbn [bind].
      assert (Ek : at_pos (upd h p w1) A k = at_pos h A k). { unfold at_pos. apply nth_upd_neq. intros E. apply Hnot. rewrite E. apply nth_In. lia. }
      rewrite Ek. assert (HkB : k <? nr B = true) by (apply Nat.ltb_lt; lia). rewrite HkB. cbn [bind]. unfold vec_add.
      assert (Lk : length (at_pos h A k) = n) by (unfold at_pos; apply Hsz; apply nth_In; lia). rewrite L1, Lk, Nat.eqb_refl. cbn [demand bind].
      unfold put, rd. rewrite Hm. cbn [bind]. rewrite wr_lt by (rewrite upd_length; auto). rewrite upd_upd. f_equal. f_equal.
      apply vec_ext; [rewrite vadd_length, vscale_length, map_length, seq_length; lia|]. intros e He. rewrite vadd_length, vscale_length in He.
      rewrite nth_vadd by (rewrite vscale_length; lia). rewrite nth_vscale. unfold w1.
      rewrite (nth_indep (map _ _) f0 (fadd (nth 0 w f0) (fmul alpha (sumn k (fun k => fmul (ent B k j) (nth 0 (at_pos h A k) f0)))))) by (rewrite map_length, seq_length; lia).
      rewrite (map_nth (fun e => fadd (nth e w f0) (fmul alpha (sumn k (fun k => fmul (ent B k j) (nth e (at_pos h A k) f0)))))), seq_nth by lia.
      rewrite (nth_indep (map _ _) f0 (fadd (nth 0 w f0) (fmul alpha (sumn (S k) (fun k => fmul (ent B k j) (nth 0 (at_pos h A k) f0)))))) by (rewrite map_length, seq_length; lia).
      rewrite (map_nth (fun e => fadd (nth e w f0) (fmul alpha (sumn (S k) (fun k => fmul (ent B k j) (nth e (at_pos h A k) f0)))))), seq_nth by lia. simpl. ring.
  Qed.
  Lemma times_ok : forall debug h alpha A (B : mat K) beta m n, NoDup m -> A <> [] -> m <> [] -> nr B = length A -> nc B = length m -> sized h A n -> sized h m n ->
    separate A m ->
    exists h', mv_times_mat_add_mv debug h alpha A B beta m = Ok h' /\
      (forall j, j < length m -> at_pos h' m j = combined alpha (content h A) B beta (at_pos h m j) j) /\ only_changes h h' m.
  Proof.
    intros debug h alpha A B beta m n Hn HA0 Hm0 Hr Hc Ha Hm Hs. unfold mv_times_mat_add_mv. rewrite (msize_ok Ha HA0), (msize_ok Hm Hm0). rewrite (proj2 (Nat.eqb_eq _ _) Hr). rewrite Hc, !Nat.eqb_refl, !dbg_true. cbn [bind].
    rewrite Nat.eqb_refl, dbg_true. cbn [bind]. apply write_loop; [auto|apply Hm|].
    intros j h' Hj L Hf. assert (Lm : lives h' m) by (eapply lives_len; [eauto|apply Hm]). assert (LA : lives h' A) by (eapply lives_len; [eauto|apply Ha]).
    assert (EA : forall q, In q A -> nth q h' [] = nth q h []). { intros q Hq. apply Hf. intros i' Hi' E. apply (Hs q Hq). rewrite <- E. apply nth_In. lia. }
    rewrite get_ok by auto. cbn [bind]. rewrite put_ok by auto. cbn [bind]. rewrite (earlier h h' Hn Hj Hf). set (w := vscale beta (at_pos h m j)).
    assert (Hp : nth j m 0 < length h') by (apply Lm; apply nth_In; auto). assert (HpA : ~ In (nth j m 0) A) by (intros Q; apply (Hs _ Q); apply nth_In; auto).
    assert (EA' : forall q, In q A -> nth q (upd h' (nth j m 0) w) [] = nth q h []). { intros q Hq. rewrite nth_upd_neq; auto. intros E. apply HpA. rewrite E. auto. }
    etransitivity; [apply (@times_inner debug (upd h' (nth j m 0) w) alpha A B (nth j m 0) j w (length A) n)|].
    - rewrite upd_length. auto.
    - auto.
    - apply lives_upd. auto.
    - intros q Hq. rewrite EA' by auto. apply Ha. auto.
    - apply nth_upd_eq. auto.
    - unfold w. rewrite vscale_length. apply (sized_pos Hm Hj).
    - auto.
    - lia.
    - apply nth_error_nth_lt. auto.
    - rewrite upd_upd. f_equal. f_equal. unfold combined. unfold content. rewrite map_length, (sized_pos Hm Hj). apply map_ext_in. intros e He. apply in_seq in He. f_equal.
      + unfold w. apply nth_vscale.
      + f_equal. apply sumn_ext. intros k Hk. f_equal. f_equal. unfold at_pos. rewrite EA' by (apply nth_In; auto).
        symmetry. rewrite (nth_indep _ [] (nth 0 h [])) by (rewrite map_length; auto). apply (map_nth (fun p => nth p h [])).
  Qed.

  Lemma set_block_ok : forall debug h A index m n, length A = length index -> length index <= length m -> (forall j, In j index -> j < length m) -> NoDup m -> NoDup index ->
    A <> [] -> sized h A n -> sized h m n -> not_overtaken A (map (fun j => nth j m 0) index) ->
    exists h', set_block debug h A index m = Ok h' /\ (forall i, i < length index -> at_pos h' m (nth i index 0) = at_pos h A i) /\
      only_changes h h' (map (fun j => nth j m 0) index).
  Proof.
    intros debug h A index m n La Lm Hin Hnm Hni HA Ha Hm Ho. unfold set_block. rewrite La, Nat.eqb_refl, dbg_true. cbn [bind].
    assert (E : length index <=? length m = true) by (apply Nat.leb_le; auto). rewrite E, dbg_true. cbn [bind].
    assert (Hm0 : m <> []). { intros ->. destruct A; [congruence|]. destruct index; simpl in *; [discriminate|lia]. }
    rewrite (msize_ok Ha HA), (msize_ok Hm Hm0). cbn [bind]. rewrite Nat.eqb_refl, dbg_true. cbn [bind].
    assert (Et : forall i, i < length index -> nth i (map (fun j => nth j m 0) index) 0 = nth (nth i index 0) m 0).
    { intros i Hi. rewrite (nth_indep _ 0 (nth 0 m 0)) by (rewrite map_length; auto). apply (map_nth (fun j => nth j m 0)). }
    destruct (@write_loop (fun h i => let! j := rd index i in let! a := get h A i in put h m j a) (map (fun j => nth j m 0) index) (fun i => at_pos h A i) h) as [h' [R [C F]]].
    - apply (proj2 (NoDup_nth _ 0)). rewrite map_length. intros i j Hi Hj. rewrite !Et by auto. intros Q. apply (proj1 (NoDup_nth index 0) Hni i j Hi Hj).
      apply (proj1 (NoDup_nth m 0) Hnm); auto; apply Hin; apply nth_In; auto.
    - intros p Hp. apply in_map_iff in Hp. destruct Hp as [j [<- Hj]]. apply Hm. apply nth_In. auto.
    - rewrite map_length. intros i h' Hi L Hf. rewrite (rd_lt index 0 Hi). cbn [bind].
      assert (LA : lives h' A) by (eapply lives_len; [eauto|apply Ha]). assert (LM : lives h' m) by (eapply lives_len; [eauto|apply Hm]).
      rewrite get_ok by (auto; lia). cbn [bind]. rewrite put_ok by (auto; apply Hin; apply nth_In; auto). rewrite Et by auto. f_equal. f_equal.
      apply (@read_later h h' A (map (fun j => nth j m 0) index) i Ho); auto; try rewrite map_length; lia.
    - rewrite map_length in R, C. exists h'. split; auto. split; auto. intros i Hi. specialize (C i Hi). unfold at_pos in C at 1. rewrite Et in C by auto. exact C.
  Qed.
End P.
