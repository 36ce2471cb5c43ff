(** Proofs about the parameter tree model. *)
From Coq Require Import List Arith ZArith Ascii String Bool Lia.
From Verif Require Import Base M_Ptree S_Ptree.
Import ListNotations.
Open Scope string_scope.

(** ** put *)
Lemma assoc_put_child_eq : forall k f l, assoc k (put_child k f l) =
  Some (f (match assoc k l with Some c => c | None => Node "" [] end)).
Proof.
  induction l as [|[k' c] l IH]; simpl.
  - rewrite String.eqb_refl. auto.
  - destruct (String.eqb k k') eqn:E; simpl; rewrite E; auto.
Qed.

Lemma assoc_put_child_neq : forall k k2 f l, k <> k2 -> assoc k2 (put_child k f l) = assoc k2 l.
Proof.
  induction l as [|[k' c] l IH]; simpl; intros Hne.
  - destruct (String.eqb_spec k2 k); [congruence|auto].
  - destruct (String.eqb_spec k k'); simpl.
    + subst. destruct (String.eqb_spec k2 k'); [congruence|auto].
    + destruct (String.eqb k2 k'); auto.
Qed.

(** After a put, the value at the path is the new one. *)
Lemma find_put_same : forall path v t, exists c, pt_find (pt_put path v t) path = Some c /\ pt_data c = v /\
  pt_children c = match pt_find t path with Some c0 => pt_children c0 | None => [] end.
Proof.
  induction path as [|k path IH]; intros v t; simpl.
  - eexists; split; [reflexivity|split; reflexivity].
  - rewrite assoc_put_child_eq. destruct (assoc k (pt_children t)) eqn:E.
    + apply IH.
    + destruct (IH v (Node "" [])) as (c & H1 & H2 & H3). exists c. split; [auto|split; auto].
      rewrite H3. destruct path; reflexivity.
Qed.

(** [q] is [p] followed by something. *)
Definition is_prefix (q p : list string) : Prop := exists r, p = (q ++ r)%list.

(** Data at any path that is not a prefix of the put path is unchanged, and subtrees off the path are untouched. *)
Lemma find_put_other : forall path q v t, ~ is_prefix q path -> ~ is_prefix path q -> pt_find (pt_put path v t) q = pt_find t q.
Proof.
  induction path as [|k path IH]; intros q v t H1 H2; simpl.
  - exfalso. apply H2. exists q. auto.
  - destruct q as [|k2 q]; simpl.
    + exfalso. apply H1. exists (k :: path). auto.
    + destruct (string_dec k k2) as [->|Hne].
      * rewrite assoc_put_child_eq.
        assert (H3 : ~ is_prefix q path) by (intros (r & ->); apply H1; exists r; auto).
        assert (H4 : ~ is_prefix path q) by (intros (r & ->); apply H2; exists r; auto).
        destruct (assoc k2 (pt_children t)); [apply IH; auto|].
        rewrite IH; auto. destruct q; [exfalso; apply H3; exists path; auto|]. reflexivity.
      * rewrite assoc_put_child_neq; auto.
Qed.

(** Strictly below the put path nothing changes. *)
Lemma find_put_below : forall path q v t, q <> [] -> pt_find (pt_put path v t) (path ++ q)%list = pt_find t (path ++ q)%list.
Proof.
  induction path as [|k path IH]; intros q v t Hq; simpl.
  - destruct q; [congruence|]. reflexivity.
  - rewrite assoc_put_child_eq. destruct (assoc k (pt_children t)); [apply IH; auto|].
    rewrite IH by auto. destruct (path ++ q)%list eqn:E; [|reflexivity].
    apply app_eq_nil in E. tauto.
Qed.

(** On proper prefixes of the path the data stay; missing nodes are created with empty data. *)
Lemma find_put_above : forall q k r v t, exists c, pt_find (pt_put (q ++ k :: r)%list v t) q = Some c /\
  pt_data c = match pt_find t q with Some c0 => pt_data c0 | None => "" end.
Proof.
  induction q as [|k0 q IH]; intros k r v t; simpl.
  - eexists; split; reflexivity.
  - rewrite assoc_put_child_eq. destruct (assoc k0 (pt_children t)); [apply IH|].
    destruct (IH k r v (Node "" [])) as (c & H1 & H2). exists c. split; auto. rewrite H2. destruct q; reflexivity.
Qed.

(** ** Texts *)
Lemma sapp_assoc : forall a b c : string, (a ++ b) ++ c = a ++ (b ++ c).
Proof. induction a; simpl; intros; auto. rewrite IHa. auto. Qed.
Lemma sapp_nil_r : forall a : string, a ++ "" = a.
Proof. induction a; simpl; auto. rewrite IHa. auto. Qed.

Lemma is_ws_spec : forall c, is_ws c = true <-> (nat_of_ascii c = 32 \/ (9 <= nat_of_ascii c /\ nat_of_ascii c <= 13)).
Proof.
  intros c. unfold is_ws. rewrite orb_true_iff, andb_true_iff, Nat.eqb_eq, !Nat.leb_le. tauto.
Qed.
Lemma is_digit_spec : forall c, is_digit c = true <-> (48 <= nat_of_ascii c /\ nat_of_ascii c <= 57).
Proof. intros c. unfold is_digit. rewrite andb_true_iff, !Nat.leb_le. tauto. Qed.

Lemma skip_ws_blank : forall w s, blank w -> skip_ws (w ++ s) = skip_ws s.
Proof.
  induction w; simpl; intros s Hw; auto. destruct Hw as (H1 & H2). apply is_ws_spec in H1. rewrite H1. auto.
Qed.
Lemma skip_ws_decomp : forall s, exists w, blank w /\ s = w ++ skip_ws s.
Proof.
  induction s as [|c s IH]; simpl.
  - exists "". split; [exact I|reflexivity].
  - destruct (is_ws c) eqn:E.
    + destruct IH as (w & H1 & H2). exists (String c w). split; simpl.
      * split; auto. apply is_ws_spec; auto.
      * rewrite <- H2. auto.
    + exists "". split; [exact I|reflexivity].
Qed.
Lemma skip_ws_empty : forall s, skip_ws s = "" <-> blank s.
Proof.
  intros s. split.
  - intros H. destruct (skip_ws_decomp s) as (w & H1 & H2). rewrite H, sapp_nil_r in H2. subst. auto.
  - intros H. rewrite <- (sapp_nil_r s). rewrite skip_ws_blank; auto.
Qed.
Lemma skip_ws_id : forall c s, is_ws c = false -> skip_ws (String c s) = String c s.
Proof. intros c s H. simpl. rewrite H. auto. Qed.

(** A digit string with the accumulated value of the digits read before it. *)
Fixpoint dvalue (s : string) (acc : Z) : Z :=
  match s with EmptyString => acc | String c t => dvalue t (acc * 10 + Z.of_nat (nat_of_ascii c - 48)) end.
Definition all_digits (s : string) : Prop := all_chars (fun c => is_digit c = true) s.
Definition head_not_digit (s : string) : Prop := match s with String c _ => is_digit c = false | EmptyString => True end.

Lemma read_digits_spec : forall s acc z r, read_digits s acc = (z, r) -> exists d, s = d ++ r /\ all_digits d /\ z = dvalue d acc /\ head_not_digit r.
Proof.
  induction s as [|c s IH]; simpl; intros acc z r H.
  - inversion H; subst. exists "". simpl. repeat split; auto.
  - destruct (is_digit c) eqn:E.
    + apply IH in H. destruct H as (d & H1 & H2 & H3 & H4). exists (String c d). subst s. simpl. repeat split; auto.
    + inversion H; subst. exists "". simpl. repeat split; auto.
Qed.
Lemma read_digits_app : forall d r acc, all_digits d -> head_not_digit r -> read_digits (d ++ r) acc = (dvalue d acc, r).
Proof.
  induction d as [|c d IH]; simpl; intros r acc H1 H2.
  - destruct r; simpl in *; auto. rewrite H2. auto.
  - destruct H1 as (H1 & H3). rewrite H1. apply IH; auto.
Qed.
Lemma dvalue_app : forall a b acc, dvalue (a ++ b) acc = dvalue b (dvalue a acc).
Proof. induction a; simpl; auto. Qed.
Lemma all_chars_app : forall p a b, all_chars p (a ++ b) <-> all_chars p a /\ all_chars p b.
Proof. induction a; simpl; intros b; [tauto|]. rewrite IHa. tauto. Qed.

Lemma digits_dvalue : forall s z, digits s z -> all_digits s /\ s <> "" /\ z = dvalue s 0.
Proof.
  induction 1 as [c H1 H2|s z c H IH H1 H2].
  - split; [|split]; simpl; try congruence.
    + split; [|exact I]. apply is_digit_spec; auto.
    + rewrite Nat2Z.inj_sub by lia. lia.
  - destruct IH as (I1 & I2 & I3). split; [|split].
    + apply all_chars_app. split; auto. split; [|exact I]. apply is_digit_spec; auto.
    + destruct s; simpl; congruence.
    + rewrite dvalue_app. rewrite <- I3. cbn [dvalue]. rewrite Nat2Z.inj_sub by lia. lia.
Qed.
Lemma snoc_ind : forall P : string -> Prop, P "" -> (forall s c, P s -> P (s ++ String c "")) -> forall s, P s.
Proof.
  intros P H0 H1 s.
  assert (G : forall n s, String.length s = n -> P s).
  { induction n; intros t Ht.
    - destruct t; simpl in Ht; [auto|discriminate].
    - assert (E : exists u c, t = u ++ String c "").
      { clear -Ht. revert n Ht. induction t as [|c t IH]; intros n Ht; [discriminate|]. destruct t as [|c2 t].
        - exists "", c. auto.
        - destruct (IH (String.length t)) as (u & d & E); auto. exists (String c u), d. simpl. rewrite <- E. auto. }
      destruct E as (u & c & ->). apply H1. apply IHn. clear -Ht.
      assert (L : forall a b, String.length (a ++ b) = String.length a + String.length b) by (induction a; simpl; auto).
      rewrite L in Ht. simpl in Ht. lia. }
  apply (G (String.length s)). auto.
Qed.
Lemma dvalue_digits : forall s, all_digits s -> s <> "" -> digits s (dvalue s 0).
Proof.
  intros s. pattern s. apply snoc_ind.
  - intros _ H. congruence.
  - intros t c IH H _. apply all_chars_app in H. destruct H as (H1 & H2). simpl in H2. destruct H2 as (H2 & _).
    apply is_digit_spec in H2. rewrite dvalue_app. cbn [dvalue]. rewrite Nat2Z.inj_sub by lia.
    destruct (string_dec t "") as [->|Hne].
    + simpl. replace (Z.of_nat (nat_of_ascii c) - Z.of_nat 48)%Z with (Z.of_nat (nat_of_ascii c) - 48)%Z by lia.
      apply dig_one; tauto.
    + replace (dvalue t 0 * 10 + (Z.of_nat (nat_of_ascii c) - Z.of_nat 48))%Z
        with (10 * dvalue t 0 + (Z.of_nat (nat_of_ascii c) - 48))%Z by lia.
      apply dig_snoc; tauto.
Qed.

Lemma read_nat_spec : forall s z r, read_nat s = Some (z, r) <-> exists d, s = d ++ r /\ digits d z /\ head_not_digit r.
Proof.
  intros s z r. split.
  - intros H. destruct s as [|c s]; simpl in H; [discriminate|].
    destruct (is_digit c) eqn:E; [|discriminate]. inversion H as [H1].
    destruct (read_digits_spec (String c s) 0 z r) as (d & D1 & D2 & D3 & D4).
    { simpl. rewrite E. auto. }
    exists d. split; auto. split; auto. rewrite D3. apply dvalue_digits; auto.
    intros ->. simpl in D1. subst r. simpl in D4. congruence.
  - intros (d & -> & D & Hr). apply digits_dvalue in D. destruct D as (D1 & D2 & ->).
    destruct d as [|c d]; [congruence|]. destruct D1 as (D1 & D3). cbn [append read_nat]. rewrite D1.
    f_equal. rewrite <- (read_digits_app (String c d) r 0); [cbn [append read_digits]; rewrite D1; reflexivity|split; auto|auto].
Qed.

Lemma ascii_inj : forall c d, nat_of_ascii c = nat_of_ascii d -> c = d.
Proof. intros c d H. rewrite <- (ascii_nat_embedding c), <- (ascii_nat_embedding d). congruence. Qed.

Lemma blank_head : forall w s, blank w -> head_not_digit s -> head_not_digit (w ++ s).
Proof.
  intros [|c w] s H1 H2; simpl in *; auto. destruct H1 as (H1 & _).
  destruct (is_digit c) eqn:E; auto. apply is_digit_spec in E. lia.
Qed.

Definition sign_split (s : string) : bool * string :=
  match s with
  | String "-" t => (true, t)
  | String "+" t => (false, t)
  | _ => (false, s)
  end.
Lemma sign_split_cases : forall s,
  (exists t, s = String "-" t /\ sign_split s = (true, t)) \/
  (exists t, s = String "+" t /\ sign_split s = (false, t)) \/
  (sign_split s = (false, s) /\ (forall t, s <> String "-" t) /\ (forall t, s <> String "+" t)).
Proof.
  intros s. destruct s as [|c s].
  - right. right. simpl. repeat split; congruence.
  - destruct (Ascii.ascii_dec c "-") as [->|N1].
    + left. exists s. auto.
    + destruct (Ascii.ascii_dec c "+") as [->|N2].
      * right. left. exists s. auto.
      * right. right. repeat split; try congruence.
        destruct c as [[] [] [] [] [] [] [] []]; try reflexivity; congruence.
Qed.

Lemma parse_int_unfold : forall s, parse_int s =
  match read_nat (snd (sign_split (skip_ws s))) with
  | None => None
  | Some (z, rest) =>
      let z := if fst (sign_split (skip_ws s)) then (- z)%Z else z in
      match skip_ws rest with
      | EmptyString => if in_int_range z then Some z else None
      | _ => None
      end
  end.
Proof.
  intros s. unfold parse_int. change (match skip_ws s with
    | String "-" t => (true, t)
    | String "+" t => (false, t)
    | _ => (false, skip_ws s)
    end) with (sign_split (skip_ws s)). destruct (sign_split (skip_ws s)). reflexivity.
Qed.

Lemma digits_head : forall d z s, digits d z -> exists c t, d ++ s = String c t /\ is_digit c = true.
Proof.
  intros d z s D. apply digits_dvalue in D. destruct D as (D1 & D2 & _). destruct d as [|c d]; [congruence|].
  destruct D1 as (D1 & _). exists c, (d ++ s). auto.
Qed.

Lemma digit_not_ws : forall c, is_digit c = true -> is_ws c = false.
Proof.
  intros c H. apply is_digit_spec in H. destruct (is_ws c) eqn:E; auto. apply is_ws_spec in E. lia.
Qed.

(** The converter accepts exactly the integer texts in the range of int. *)
Lemma parse_int_spec : forall s z, parse_int s = Some z <-> (int_text s z /\ (- 2 ^ 31 <= z <= 2 ^ 31 - 1)%Z).
Proof.
  intros s z. rewrite parse_int_unfold. split.
  - intros H. destruct (read_nat _) as [[v rest]|] eqn:E; [|discriminate].
    apply read_nat_spec in E. destruct E as (d & E1 & E2 & E3).
    destruct (skip_ws rest) eqn:Er; [|discriminate]. apply skip_ws_empty in Er.
    cbv zeta in H. set (u := if fst (sign_split (skip_ws s)) then (- v)%Z else v) in *.
    destruct (in_int_range u) eqn:Ei; [|discriminate]. inversion H; subst z. clear H.
    unfold in_int_range in Ei. apply andb_true_iff in Ei. destruct Ei as (Ei1 & Ei2). apply Z.leb_le in Ei1, Ei2.
    split; [|lia]. destruct (skip_ws_decomp s) as (w & W1 & W2).
    destruct (sign_split_cases (skip_ws s)) as [(t & T1 & T2)|[(t & T1 & T2)|(T1 & _)]].
    + unfold u. rewrite T2 in *. simpl in *. rewrite W2, T1, E1. apply (it_minus w d rest v); auto.
    + unfold u. rewrite T2 in *. simpl in *. rewrite W2, T1, E1. apply (it_plus w d rest v); auto.
    + unfold u. rewrite T1 in *. simpl in *. rewrite W2, E1. apply (it_plain w d rest v); auto.
  - intros (H & Hr). assert (Hir : in_int_range z = true).
    { unfold in_int_range. apply andb_true_iff. rewrite !Z.leb_le. lia. }
    assert (F : forall d v w2, digits d v -> blank w2 -> read_nat (d ++ w2) = Some (v, w2)).
    { intros d v w2 D B. apply read_nat_spec. exists d. repeat split; auto.
      rewrite <- (sapp_nil_r w2). apply blank_head; simpl; auto. }
    destruct H as [w1 d w2 v B1 D B2|w1 d w2 v B1 D B2|w1 d w2 v B1 D B2]; rewrite skip_ws_blank by auto.
    + destruct (digits_head d v w2 D) as (c & t & Ed & Ec).
      assert (Hs : sign_split (skip_ws (d ++ w2)) = (false, d ++ w2)).
      { rewrite Ed. rewrite skip_ws_id by (apply digit_not_ws; auto).
        destruct (sign_split_cases (String c t)) as [(u & T1 & T2)|[(u & T1 & T2)|(T1 & _)]]; auto.
        - inversion T1; subst. discriminate.
        - inversion T1; subst. discriminate. }
      rewrite Hs. simpl fst. simpl snd. rewrite (F d v w2); auto. cbv zeta. apply skip_ws_empty in B2. rewrite B2, Hir. auto.
    + change (skip_ws ("+" ++ d ++ w2)) with ("+" ++ d ++ w2). change (sign_split ("+" ++ d ++ w2)) with (false, d ++ w2).
      simpl fst. simpl snd. rewrite (F d v w2); auto. cbv zeta. apply skip_ws_empty in B2. rewrite B2, Hir. auto.
    + change (skip_ws ("-" ++ d ++ w2)) with ("-" ++ d ++ w2). change (sign_split ("-" ++ d ++ w2)) with (true, d ++ w2).
      simpl fst. simpl snd. rewrite (F d v w2); auto. cbv zeta. apply skip_ws_empty in B2. rewrite B2, Hir. auto.
Qed.

Lemma int_text_not_word : forall s b z, bool_word s b -> int_text s z -> False.
Proof.
  intros s b z H. destruct H as [w1 w2 b B1 B2]. intros H.
  assert (E : skip_ws (w1 ++ (if b then "true" else "false") ++ w2) = (if b then "true" else "false") ++ w2).
  { rewrite skip_ws_blank; auto. destruct b; reflexivity. }
  remember (w1 ++ (if b then "true" else "false") ++ w2) as s eqn:Es.
  assert (G : exists c t, skip_ws s = String c t /\ (is_digit c = true \/ c = "+"%char \/ c = "-"%char)).
  { destruct H as [w s' w' z B D B'|w s' w' z B D B'|w s' w' z B D B']; rewrite skip_ws_blank by auto.
    - destruct (digits_head s' z w' D) as (c & t & Ed & Ec). rewrite Ed. exists c, t. rewrite skip_ws_id; auto. apply digit_not_ws; auto.
    - exists "+"%char, (s' ++ w'). auto.
    - exists "-"%char, (s' ++ w'). auto. }
  destruct G as (c & t & G1 & G2). rewrite E in G1. destruct b; inversion G1; subst c; destruct G2 as [G2|[G2|G2]]; discriminate.
Qed.

Lemma sub_all : forall s, substring 0 (String.length s) s = s.
Proof. induction s; simpl; auto. rewrite IHs. auto. Qed.

Lemma sub_0 : forall s, substring 0 0 s = "".
Proof. destruct s; reflexivity. Qed.
Lemma sub_app_l : forall a b, substring 0 (String.length a) (a ++ b) = a.
Proof. induction a; simpl; intros b; [apply sub_0|]. rewrite IHa. auto. Qed.
Lemma sub_app_r : forall a b, substring (String.length a) (String.length b) (a ++ b) = b.
Proof. induction a; simpl; intros b; [apply sub_all|]. apply IHa. Qed.
Lemma slength_app : forall a b, String.length (a ++ b) = String.length a + String.length b.
Proof. induction a; simpl; auto. Qed.

Lemma sub_split : forall n t, t = substring 0 n t ++ substring n (String.length t - n) t.
Proof.
  induction n as [|n IH]; intros t; [rewrite sub_0, Nat.sub_0_r, sub_all; reflexivity|]. destruct t as [|c t]; [reflexivity|].
  cbn [substring String.length Nat.sub append]. rewrite <- IH. reflexivity.
Qed.
Lemma parse_word_spec : forall s b, parse_word s = Some b <-> bool_word s b.
Proof.
  intros s b. split.
  - unfold parse_word. cbv zeta. destruct (skip_ws_decomp s) as (w & W1 & W2). set (t := skip_ws s) in *. clearbody t. subst s. intros H.
    destruct (String.eqb_spec (substring 0 4 t) "true") as [E|_].
    + destruct (skip_ws _) eqn:R; [|discriminate H]. injection H as <-. apply skip_ws_empty in R. rewrite (sub_split 4 t), E. exact (bw w _ true W1 R).
    + destruct (String.eqb_spec (substring 0 5 t) "false") as [E|_]; [|discriminate H]. destruct (skip_ws _) eqn:R; [|discriminate H]. injection H as <-. apply skip_ws_empty in R.
      rewrite (sub_split 5 t), E. exact (bw w _ false W1 R).
  - intros H. unfold parse_word. destruct H as [w1 w2 b B1 B2]. rewrite skip_ws_blank by auto.
    destruct b.
    + change (skip_ws ("true" ++ w2)) with ("true" ++ w2). cbv zeta. change 4 with (String.length "true"). rewrite (sub_app_l "true" w2), String.eqb_refl.
      rewrite (slength_app "true" w2). replace (String.length "true" + String.length w2 - String.length "true") with (String.length w2) by lia.
      rewrite (sub_app_r "true" w2). apply skip_ws_empty in B2. rewrite B2. auto.
    + change (skip_ws ("false" ++ w2)) with ("false" ++ w2). cbv zeta. replace (substring 0 4 ("false" ++ w2)) with "fals" by (cbn; destruct w2; reflexivity).
      change (String.eqb "fals" "true") with false. cbv iota.
      change 5 with (String.length "false"). rewrite (sub_app_l "false" w2), String.eqb_refl.
      rewrite (slength_app "false" w2). replace (String.length "false" + String.length w2 - String.length "false") with (String.length w2) by lia.
      rewrite (sub_app_r "false" w2). apply skip_ws_empty in B2. rewrite B2. auto.
Qed.

Lemma parse_bool_unfold : forall s, parse_bool s =
  match read_nat (snd (sign_split (skip_ws s))) with
  | None => parse_word (snd (sign_split (skip_ws s)))
  | Some (z, rest) =>
      let z := if fst (sign_split (skip_ws s)) then (- z)%Z else z in
      let number (b : bool) := match skip_ws rest with EmptyString => Some b | _ => None end in
      if (z =? 0)%Z then number false else if (z =? 1)%Z then number true else parse_word rest
  end.
Proof.
  intros s. unfold parse_bool. change (match skip_ws s with
    | String "-" t => (true, t)
    | String "+" t => (false, t)
    | _ => (false, skip_ws s)
    end) with (sign_split (skip_ws s)). cbv zeta. destruct (sign_split (skip_ws s)). reflexivity.
Qed.
Lemma number_read : forall u z r, number_start u z -> head_not_digit r ->
  exists v, read_nat (snd (sign_split (skip_ws (u ++ r)))) = Some (v, r) /\ (if fst (sign_split (skip_ws (u ++ r))) then (- v)%Z else v) = z.
Proof.
  intros u z r H Hr. assert (F : forall d v, digits d v -> read_nat (d ++ r) = Some (v, r)) by (intros d v D; apply read_nat_spec; exists d; auto).
  destruct H as [w d v B D|w d v B D|w d v B D]; rewrite !sapp_assoc, skip_ws_blank by auto.
  - exists v. destruct (digits_head d v r D) as (c & t & Ed & Ec).
    assert (Hs : sign_split (skip_ws (d ++ r)) = (false, d ++ r)).
    { rewrite Ed. rewrite skip_ws_id by (apply digit_not_ws; auto).
      destruct (sign_split_cases (String c t)) as [(x & T1 & T2)|[(x & T1 & T2)|(T1 & _)]]; auto; inversion T1; subst; discriminate. }
    rewrite Hs. cbn [fst snd]. auto.
  - exists v. change (sign_split (skip_ws ("+" ++ d ++ r))) with (false, d ++ r). cbn [fst snd]. auto.
  - exists v. change (sign_split (skip_ws ("-" ++ d ++ r))) with (true, d ++ r). cbn [fst snd]. auto.
Qed.
Lemma word_head : forall s b, bool_word s b -> head_not_digit s.
Proof. intros s b [w1 w2 b' B1 B2]. apply blank_head; auto. destruct b'; simpl; reflexivity. Qed.
Lemma word_sign : forall s b, bool_word s b -> sign_split (skip_ws s) = (false, skip_ws s) /\ read_nat (skip_ws s) = None /\ bool_word (skip_ws s) b.
Proof.
  intros s b [w1 w2 b' B1 B2]. rewrite skip_ws_blank by auto. assert (E : skip_ws ((if b' then "true" else "false") ++ w2) = (if b' then "true" else "false") ++ w2) by (destruct b'; reflexivity).
  rewrite E. split; [destruct b'; reflexivity|]. split; [destruct b'; reflexivity|]. apply (bw "" w2 b'); [exact I|exact B2].
Qed.
Lemma int_text_number : forall s z, int_text s z -> exists u w, s = u ++ w /\ number_start u z /\ blank w.
Proof.
  intros s z [w1 d w2 v B D B2|w1 d w2 v B D B2|w1 d w2 v B D B2].
  - exists (w1 ++ d), w2. rewrite sapp_assoc. repeat split; auto. constructor; auto.
  - exists (w1 ++ "+" ++ d), w2. rewrite !sapp_assoc. repeat split; auto. apply ns_plus; auto.
  - exists (w1 ++ "-" ++ d), w2. rewrite !sapp_assoc. repeat split; auto. apply ns_minus; auto.
Qed.
Lemma number_int_text : forall u z w, number_start u z -> blank w -> int_text (u ++ w) z.
Proof. intros u z w [w1 d v B D|w1 d v B D|w1 d v B D] Bw; rewrite !sapp_assoc; [apply it_plain|apply it_plus|apply it_minus]; auto. Qed.
Lemma blank_not_digit : forall w, blank w -> head_not_digit w.
Proof. intros w B. rewrite <- (sapp_nil_r w). apply blank_head; simpl; auto. Qed.

(** The converter accepts exactly the texts of truth values. *)
Lemma parse_bool_spec : forall s b, parse_bool s = Some b <-> bool_text s b.
Proof.
  intros s b. rewrite parse_bool_unfold. split.
  - destruct (skip_ws_decomp s) as (w & W1 & W2). destruct (read_nat _) as [[v rest]|] eqn:E.
    + apply read_nat_spec in E. destruct E as (d & E1 & E2 & E3). cbv zeta.
      assert (N : exists u, s = u ++ rest /\ number_start u (if fst (sign_split (skip_ws s)) then (- v)%Z else v)).
      { destruct (sign_split_cases (skip_ws s)) as [(t & T1 & T2)|[(t & T1 & T2)|(T1 & _)]]; rewrite ?T2, ?T1 in *; cbn [fst snd] in *.
        - exists (w ++ "-" ++ d). split; [rewrite W2, E1, !sapp_assoc; reflexivity|apply ns_minus; auto].
        - exists (w ++ "+" ++ d). split; [rewrite W2, E1, !sapp_assoc; reflexivity|apply ns_plus; auto].
        - exists (w ++ d). split; [rewrite W2, E1, !sapp_assoc; reflexivity|apply ns_plain; auto]. }
      destruct N as (u & -> & N). match type of N with number_start _ ?x => set (z := x) in * end. clearbody z. intros H.
      destruct (Z.eqb_spec z 0) as [->|N0]; [|destruct (Z.eqb_spec z 1) as [->|N1]].
      * destruct (skip_ws rest) eqn:R; [|discriminate H]. injection H as <-. apply bt_zero. apply number_int_text; auto. apply skip_ws_empty. exact R.
      * destruct (skip_ws rest) eqn:R; [|discriminate H]. injection H as <-. apply bt_one. apply number_int_text; auto. apply skip_ws_empty. exact R.
      * apply parse_word_spec in H. eapply bt_number; eauto.
    + intros H. apply parse_word_spec in H. destruct (sign_split_cases (skip_ws s)) as [(t & T1 & T2)|[(t & T1 & T2)|(T1 & _)]]; rewrite ?T2, ?T1 in *; cbn [snd] in *.
      * rewrite W2. apply bt_sign; auto.
      * rewrite W2. apply bt_sign; auto.
      * apply bt_word. rewrite W2. destruct H as [w1 w2 b B1 B2]. rewrite <- sapp_assoc. apply bw; auto. apply all_chars_app. split; auto.
  - intros [s0 H|s0 H|s0 b0 H|w c s0 b0 B C H|u z s0 b0 N N0 N1 H].
    + apply int_text_number in H. destruct H as (u & w & -> & N & B). destruct (number_read u 0 w N (blank_not_digit w B)) as (v & -> & Q). cbv zeta. rewrite Q. apply skip_ws_empty in B. rewrite B. reflexivity.
    + apply int_text_number in H. destruct H as (u & w & -> & N & B). destruct (number_read u 1 w N (blank_not_digit w B)) as (v & -> & Q). cbv zeta. rewrite Q. apply skip_ws_empty in B. rewrite B. reflexivity.
    + destruct (word_sign s0 b0 H) as (-> & Q2 & Q3). cbn [fst snd]. rewrite Q2. apply parse_word_spec. exact Q3.
    + rewrite skip_ws_blank by auto. assert (Q : skip_ws (String c s0) = String c s0 /\ snd (sign_split (String c s0)) = s0) by (destruct C as [->| ->]; split; reflexivity).
      destruct Q as (-> & ->). assert (D := word_head s0 b0 H). destruct (read_nat s0) as [[v rest]|] eqn:E; [|apply parse_word_spec; exact H].
      exfalso. unfold read_nat in E. destruct s0 as [|x s0]; [discriminate E|]. simpl in D. rewrite D in E. discriminate E.
    + destruct (number_read u z s0 N (word_head s0 b0 H)) as (v & -> & Q). cbv zeta. rewrite Q.
      destruct (Z.eqb_spec z 0); [contradiction|]. destruct (Z.eqb_spec z 1); [contradiction|]. apply parse_word_spec. exact H.
Qed.
Lemma parse_bool_word : forall s b, bool_word s b -> parse_bool s = Some b.
Proof. intros s b H. apply parse_bool_spec. apply bt_word. exact H. Qed.

(** Options. *)
Lemma get_bool_option : forall p path d b, bool_option p path d b <-> pt_get parse_bool path d p = b.
Proof.
  intros p path d b. unfold bool_option, pt_get. destruct (pt_find p path) as [c|]; [|split].
  - destruct (parse_bool (pt_data c)) as [b'|] eqn:E; split.
    + intros [(c' & Q & T)|(Q & _)]; [injection Q as <-; apply parse_bool_spec in T; congruence|]. exfalso. apply (Q c b' eq_refl). apply parse_bool_spec. exact E.
    + intros <-. left. exists c. split; auto. apply parse_bool_spec. exact E.
    + intros [(c' & Q & T)|(_ & ->)]; auto. injection Q as <-. apply parse_bool_spec in T. congruence.
    + intros <-. right. split; auto. intros c' b' Q T. injection Q as <-. apply parse_bool_spec in T. congruence.
  - intros [(c & Q & _)|(_ & ->)]; [discriminate Q|reflexivity].
  - intros <-. right. split; auto. intros c b' Q. discriminate Q.
Qed.
Lemma get_int_option : forall p path d z, int_option p path d z <-> pt_get parse_int path d p = z.
Proof.
  intros p path d b. unfold int_option, pt_get. destruct (pt_find p path) as [c|]; [|split].
  - destruct (parse_int (pt_data c)) as [b'|] eqn:E; split.
    + intros [(c' & Q & T)|(Q & _)]; [injection Q as <-; apply parse_int_spec in T; congruence|]. exfalso. apply parse_int_spec in E. apply (Q c b' eq_refl); apply E.
    + intros <-. left. exists c. split; auto. apply parse_int_spec. exact E.
    + intros [(c' & Q & T)|(_ & ->)]; auto. injection Q as <-. apply parse_int_spec in T. congruence.
    + intros <-. right. split; auto. intros c' b' Q T1 T2. injection Q as <-. assert (X := conj T1 T2). apply parse_int_spec in X. congruence.
  - intros [(c & Q & _)|(_ & ->)]; [discriminate Q|reflexivity].
  - intros <-. right. split; auto. intros c b' Q. discriminate Q.
Qed.

(** ** ptree2plist *)
Section Plist.
  Variable accepts_double : string -> bool.

  Lemma expect_app : forall p s, expect p (p ++ s) = Some s.
  Proof. induction p; simpl; intros s; auto. rewrite Ascii.eqb_refl. auto. Qed.

  Lemma plain_head : forall c s, xml_plain (String c s) -> (32 <= nat_of_ascii c /\ nat_of_ascii c <> 34 /\ nat_of_ascii c <> 60 /\ nat_of_ascii c <> 38) /\ xml_plain s.
  Proof. intros c s H. split; [apply (H 0 c); auto|]. intros i d Hi. apply (H (S i)). auto. Qed.

  Lemma read_attr_plain : forall a s, xml_plain a -> read_attr (a ++ dq ++ s) = Some (a, s).
  Proof.
    induction a as [|c a IH]; intros s H; auto. apply plain_head in H. destruct H as ((H1 & H2 & H3 & H4) & H5).
    cbn [append read_attr].
    assert (E1 : Ascii.eqb c (ascii_of_nat 34) = false).
    { apply Ascii.eqb_neq. intros ->. apply H2. reflexivity. }
    assert (E2 : Ascii.eqb c "<" = false).
    { apply Ascii.eqb_neq. intros ->. apply H3. reflexivity. }
    assert (E3 : Ascii.eqb c "&" = false).
    { apply Ascii.eqb_neq. intros ->. apply H4. reflexivity. }
    assert (E4 : (nat_of_ascii c <? 32)%nat = false) by (apply Nat.ltb_ge; auto).
    rewrite E1. unfold xml_safe_char. rewrite E1, E2, E3, E4. simpl negb. cbv iota. rewrite IH; auto.
  Qed.

  Fixpoint plainb (s : string) : bool :=
    match s with EmptyString => true | String c t => xml_safe_char c && plainb t end.
  Lemma plainb_plain : forall s, plainb s = true -> xml_plain s.
  Proof.
    induction s as [|c s IH]; intros H i d Hi; [destruct i; discriminate|].
    cbn [plainb] in H. apply andb_true_iff in H. destruct H as (H1 & H2).
    destruct i as [|i]; [|apply (IH H2 i d Hi)]. cbn [String.get] in Hi. inversion Hi; subst d.
    unfold xml_safe_char in H1. apply negb_true_iff in H1. apply orb_false_iff in H1. destruct H1 as (H1 & H4).
    apply orb_false_iff in H1. destruct H1 as (H1 & H3). apply orb_false_iff in H1. destruct H1 as (H1 & H0).
    apply Nat.ltb_ge in H4. split; auto.
    repeat split; intros E; [apply Ascii.eqb_neq in H1; apply H1|apply Ascii.eqb_neq in H0; apply H0|apply Ascii.eqb_neq in H3; apply H3];
      apply ascii_inj; rewrite E; reflexivity.
  Qed.

  Lemma read_type_text : forall p, read_type (ptype_text p) = Some p.
  Proof. destruct p; reflexivity. Qed.
  Lemma ptype_plain : forall p, xml_plain (ptype_text p).
  Proof.
    intros p. apply plainb_plain. destruct p; reflexivity.
  Qed.

  (** The children part of [emit]. *)
  Fixpoint emit_items (cs : list (string * ptree)) : string :=
    match cs with
    | [] => ""
    | (name, c) :: cs' =>
        match c with
        | Node v [] => emit_param name v (infer_type accepts_double v)
        | Node _ (_ :: _) => "<ParameterList name=" ++ dq ++ name ++ dq ++ ">" ++ nl ++ emit accepts_double c ++ "</ParameterList>" ++ nl
        end ++ emit_items cs'
    end.
  Lemma emit_node : forall d cs, emit accepts_double (Node d cs) = emit_items cs.
  Proof.
    intros d cs. induction cs as [|[name c] cs IH]; [reflexivity|].
    cbn [emit_items]. rewrite <- IH. destruct c as [v [|x l]]; reflexivity.
  Qed.

  (** Nested induction over trees. *)
  Lemma ptree_ind2 : forall P : ptree -> Prop,
    (forall d cs, (forall name c, In (name, c) cs -> P c) -> P (Node d cs)) -> forall t, P t.
  Proof.
    intros P H. fix IH 1. intros [d cs]. apply H. induction cs as [|[n c] cs IHcs]; intros name c' Hin.
    - destruct Hin.
    - destruct Hin as [E|Hin].
      + assert (Hc : P c) by apply IH. clear IH IHcs. inversion E; subst. exact Hc.
      + apply (IHcs name c' Hin).
  Qed.

  (** The list of items of a tree, as a function. *)
  Fixpoint items (t : ptree) : list pitem :=
    match t with
    | Node _ cs =>
        (fix go (cs : list (string * ptree)) : list pitem :=
           match cs with
           | [] => []
           | (name, c) :: cs' =>
               match c with
               | Node v [] => PParam name (infer_type accepts_double v) v
               | Node _ (_ :: _) => PSub name (PList (items c))
               end :: go cs'
           end) cs
    end.
  Lemma items_expected : forall t, expected (infer_type accepts_double) t (PList (items t)).
  Proof.
    apply ptree_ind2. intros d cs H. constructor. induction cs as [|[name c] cs IH]; [constructor|].
    assert (H1 : expected (infer_type accepts_double) c (PList (items c))) by (apply (H name); left; auto).
    specialize (IH (fun n c' Hin => H n c' (or_intror Hin))).
    destruct c as [v [|x l]].
    - apply exp_leaf. auto.
    - apply exp_sub; auto. simpl. congruence.
  Qed.

  Lemma expected_fun : forall ty t l, expected ty t l -> forall l', expected ty t l' -> l = l'.
  Proof.
    intros ty t. pattern t. apply ptree_ind2. intros d cs H l1 E1 l2 E2. inversion E1 as [d1 c1 m1 X1]; subst. inversion E2 as [d2 c2 m2 X2]; subst. f_equal.
    clear E1 E2. revert m1 m2 X1 X2. induction cs as [|[name c] cs IH]; intros l l0 X1 X2.
    - inversion X1; inversion X2; auto.
    - inversion X1; subst; inversion X2; subst; simpl in *; try congruence.
      + f_equal. apply IH; auto. intros n c' Hin. apply (H n). right. auto.
      + f_equal; [f_equal; apply (H name c (or_introl eq_refl)); auto|].
        apply IH; auto. intros n c' Hin. apply (H n). right. auto.
  Qed.

  (** Number of items written, bounding the fuel of the reader. *)
  Fixpoint weight (t : ptree) : nat :=
    match t with
    | Node _ cs =>
        (fix go (cs : list (string * ptree)) : nat := match cs with [] => 1 | (_, c) :: cs' => weight c + go cs' end) cs
    end.
  Fixpoint weights (cs : list (string * ptree)) : nat := match cs with [] => 1 | (_, c) :: cs' => weight c + weights cs' end.
  Lemma weight_node : forall d cs, weight (Node d cs) = weights cs.
  Proof. intros d cs. induction cs as [|[n c] cs IH]; simpl in *; auto. Qed.
  Lemma weights_pos : forall cs, 1 <= weights cs.
  Proof. induction cs as [|[n c] cs IH]; simpl; lia. Qed.

  Lemma expect_param_sub : forall s, expect ("<Parameter name=" ++ dq) ("<ParameterList name=" ++ s) = None.
  Proof. intros. reflexivity. Qed.
  Lemma expect_close : forall s, expect ("<Parameter name=" ++ dq) ("</ParameterList>" ++ s) = None /\ expect ("<ParameterList name=" ++ dq) ("</ParameterList>" ++ s) = None.
  Proof. intros. split; reflexivity. Qed.

  Lemma expect_app2 : forall p q s, expect (p ++ q) (p ++ s) = expect q s.
  Proof. induction p; simpl; intros; auto. rewrite Ascii.eqb_refl. auto. Qed.

  Lemma read_items_emit : forall t, tree_plain t -> forall fuel s, weight t <= fuel ->
    read_items fuel (emit accepts_double t ++ "</ParameterList>" ++ s) = Some (items t, "</ParameterList>" ++ s).
  Proof.
    intros t. pattern t. apply ptree_ind2. clear t. intros d cs H TP. inversion TP as [d' cs' TP' E1]. subst d' cs'. clear TP.
    rewrite emit_node, weight_node.
    induction cs as [|[name c] cs IH]; intros fuel s Hf.
    - simpl in Hf. destruct fuel; [lia|]. reflexivity.
    - simpl weights in Hf. destruct fuel as [|fuel]; [pose proof (weights_pos cs); lia|].
      assert (Hw : 1 <= weight c) by (destruct c; rewrite weight_node; apply weights_pos).
      pose proof (weights_pos cs) as Hwc.
      specialize (IH (fun n c' Hin => H n c' (or_intror Hin)) (fun n c' Hin => TP' n c' (or_intror Hin))).
      destruct (TP' name c (or_introl eq_refl)) as (P1 & P2 & P3).
      pose proof (H name c (or_introl eq_refl) P3) as Hc.
      destruct c as [v [|x l]].
      + simpl in P2. specialize (P2 eq_refl). cbn [emit_items]. unfold emit_param.
        rewrite !sapp_assoc. cbn [read_items]. rewrite expect_app2, expect_app.
        rewrite read_attr_plain by auto. unfold obind at 1.
        rewrite expect_app2, expect_app. unfold obind at 1.
        rewrite read_attr_plain by apply ptype_plain. unfold obind at 1.
        rewrite read_type_text. unfold obind at 1.
        rewrite expect_app2, expect_app. unfold obind at 1.
        rewrite read_attr_plain by auto. unfold obind at 1.
        rewrite expect_app2, expect_app. unfold obind at 1.
        rewrite IH by lia. reflexivity.
      + cbn [emit_items]. set (c := Node v (x :: l)) in *. rewrite !sapp_assoc.
        cbn [read_items]. rewrite expect_param_sub. rewrite expect_app2, expect_app.
        rewrite read_attr_plain by auto. unfold obind at 1.
        rewrite expect_app2, expect_app. unfold obind at 1.
        rewrite Hc by lia. unfold obind at 1.
        rewrite expect_app2, expect_app. unfold obind at 1.
        rewrite IH by lia. reflexivity.
  Qed.

  Lemma weight_emit : forall t, weight t <= S (String.length (emit accepts_double t)).
  Proof.
    intros t. pattern t. apply ptree_ind2. clear t. intros d cs H. rewrite emit_node, weight_node.
    induction cs as [|[name c] cs IH]; [simpl; lia|].
    specialize (IH (fun n c' Hin => H n c' (or_intror Hin))). specialize (H name c (or_introl eq_refl)).
    cbn [weights emit_items]. rewrite slength_app. destruct c as [v [|x l]].
    - unfold emit_param. rewrite slength_app. change (String.length "<Parameter name=") with 16. simpl weight. lia.
    - set (c := Node v (x :: l)) in *. rewrite !slength_app. change (String.length "<ParameterList name=") with 20. lia.
  Qed.

  Lemma plain_anon : xml_plain "ANONYMOUS".
  Proof. apply plainb_plain. reflexivity. Qed.

  Lemma ptree2plist_items : forall t, tree_plain t -> ptree2plist accepts_double t = Ok (PList (items t)).
  Proof.
    intros t TP. unfold ptree2plist. destruct t as [d cs]. destruct cs as [|x cs].
    - reflexivity.
    - change (pt_empty (Node d (x :: cs))) with false. cbv iota.
      set (t := Node d (x :: cs)) in *.
      assert (E : read_document (emit_document accepts_double t) = Some (PList (items t))).
      { unfold read_document. set (n := S (String.length (emit_document accepts_double t))).
        assert (Hn : weight t <= n).
        { unfold n, emit_document. rewrite !slength_app. pose proof (weight_emit t). lia. }
        clearbody n. unfold emit_document.
        rewrite expect_app2, expect_app. unfold obind at 1.
        rewrite (read_attr_plain "ANONYMOUS") by apply plain_anon. unfold obind at 1.
        rewrite expect_app2, expect_app. unfold obind at 1.
        rewrite <- (sapp_nil_r "</ParameterList>") at 1.
        rewrite read_items_emit by auto. reflexivity. }
      rewrite E. auto.
  Qed.

  Lemma ptree2plist_ok : forall t l, tree_plain t -> (ptree2plist accepts_double t = Ok l <-> expected (infer_type accepts_double) t l).
  Proof.
    intros t l TP. rewrite ptree2plist_items by auto. split.
    - intros H. inversion H. apply items_expected.
    - intros H. f_equal. symmetry. eapply expected_fun; eauto. apply items_expected.
  Qed.
End Plist.

(** A leaf whose name contains double quotes is read back as two parameters. *)
Definition injected_tree : ptree :=
  Node "" [("a" ++ dq ++ " type=" ++ dq ++ "int" ++ dq ++ " value=" ++ dq ++ "1" ++ dq ++ "/>" ++ nl ++ "<Parameter name=" ++ dq ++ "b", Node "2" [])].
