(** Property theorems about the texts of options: C106. *)
From Coq Require Import String List Arith ZArith Bool Lia QArith Qcanon.
From Verif Require Import Base OField Mat LinAlg M_Ptree S_Ptree P_Ptree M_Hier S_Hier P_Hier P_HierC M_Host M_CudaHier S_Opt C_Hier.
Import ListNotations.
Set Implicit Arguments.
Open Scope list_scope.
Open Scope nat_scope.

(** C106: which texts are read as a truth value, and as which. *)
Theorem C106_bool_texts : forall s b, parse_bool s = Some b <-> bool_text s b.
Proof. exact parse_bool_spec. Qed.
Print Assumptions C106_bool_texts.
(** C106: the value of an option with a default, for truth values and ints. *)
Theorem C106_options : forall p path,
  (forall d b, pt_get parse_bool path d p = b <-> bool_option p path d b) /\ (forall d z, pt_get parse_int path d p = z <-> int_option p path d z).
Proof. intros p path. split; intros; symmetry; [apply get_bool_option|apply get_int_option]. Qed.
Print Assumptions C106_options.
(** C106: an option without a default that is missing or has an unreadable text is an exception. *)
Theorem C106_required : forall p path,
  (exists z, pt_require parse_int path p = Ok z /\ exists c, pt_find p path = Some c /\ int_text (pt_data c) z /\ (- 2 ^ 31 <= z <= 2 ^ 31 - 1)%Z) \/
  (pt_require parse_int path p = Throw /\ forall c z, pt_find p path = Some c -> int_text (pt_data c) z -> ~ (- 2 ^ 31 <= z <= 2 ^ 31 - 1)%Z).
Proof.
  intros p path. unfold pt_require. destruct (pt_find p path) as [c|]; [|right; split; [reflexivity|discriminate]].
  destruct (parse_int (pt_data c)) as [z|] eqn:E.
  - left. exists z. split; auto. exists c. split; auto. apply parse_int_spec. exact E.
  - right. split; auto. intros c' z Q T1 T2. injection Q as <-. assert (X := conj T1 T2). apply parse_int_spec in X. congruence.
Qed.
Print Assumptions C106_required.

Section Construct.
  Variables (K : ofield) (H : Type).
  (** C106: what a hierarchy that was constructed is like. *)
  Theorem C106_hierarchy : forall (hh : helpers K H) eps te dbg created p h0 h s l, construct hh eps te dbg created (Some p) h0 = (Ok h, s, l) ->
    bool_option p ["is preconditioner"%string] true (h_is_preconditioner h) /\
    int_option p ["max levels"%string] 2%Z (Z.of_nat (length (h_levels h))) /\
    exists z, int_option p ["smoother"; "n_smoothing_steps"]%string 1%Z z /\ Z.of_nat (h_n_smoothing_steps h) = (z mod 2 ^ 32)%Z.
  Proof.
    intros hh eps te dbg created p h0 h s l E. destruct (@C24_levels_hold_helpers_objects K H hh eps te dbg created p h0 h s l E) as (Q1 & Q2 & _).
    destruct (@C24_levels_populated K H hh eps te dbg created p h0 h s l E) as (Q3 & Q4 & _). split; [apply get_bool_option; symmetry; exact Q1|].
    split; [apply get_int_option; rewrite Q4, Z2Nat.id by lia; reflexivity|]. eexists. split; [apply get_int_option; reflexivity|]. rewrite Q2. unfold c_steps.
    apply Z2Nat.id. apply Z.mod_pos_bound. reflexivity.
  Qed.

  Lemma built_other : forall (hh : helpers K H) fast eps p ro a h ls h', pt_get parse_bool ["fast_ap"%string] false p = false ->
    built hh eps p ro a h ls h' -> built (other_fast hh fast) eps p ro a h ls h'.
  Proof.
    intros hh fast eps p ro a h ls h' HF B. induction B as [ro a h s h' E|ro a h sm h1 r h2 ap h3 ac ls h' E1 E2 E3 E4 B IH]; [apply built_last; exact E|].
    eapply built_cons; [exact E1|exact E2| |exact E4|exact IH]. unfold product_from in *. rewrite HF in *. exact E3.
  Qed.
  (** C106: unless "fast_ap" is read as true, fast_multiply_transpose plays no role. *)
  Theorem C106_fast_ap : forall (hh : helpers K H) fast eps te dbg p h0 h s l, bool_option p ["fast_ap"%string] false false ->
    construct hh eps te dbg (Ok tt) (Some p) h0 = (Ok h, s, l) ->
    exists l', construct (other_fast hh fast) eps te dbg (Ok tt) (Some p) h0 = (Ok h, s, l').
  Proof.
    intros hh fast eps te dbg p h0 h s l HF E. apply get_bool_option in HF.
    destruct (@C24_levels_hold_helpers_objects K H hh eps te dbg _ p h0 h s l E) as (Q1 & Q2 & a & h1 & Q3 & B).
    destruct (@C24_levels_populated K H hh eps te dbg _ p h0 h s l E) as (Q4 & Q5 & _).
    assert (HF' : pt_get parse_bool ["fast_ap"%string] false (c_params p) = false).
    { unfold c_params. destruct (c_levels p =? 1)%Z; auto. unfold pt_get in *. rewrite find_put_other; [exact HF| |]; intros (x & X); discriminate X. }
    destruct (@C24_construction_succeeds K H hh eps te dbg p h0 a h1 (h_levels h) (cs_h s) Q4 Q3 Q5 B) as (l1 & E1).
    destruct (@C24_construction_succeeds K H (other_fast hh fast) eps te dbg p h0 a h1 (h_levels h) (cs_h s) Q4 Q3 Q5 (built_other fast HF' B)) as (l2 & E2).
    exists l2. rewrite E2. rewrite E in E1. injection E1 as E1 E3 _. rewrite E1, E3. reflexivity.
  Qed.
End Construct.
Print Assumptions C106_hierarchy.
Print Assumptions C106_fast_ap.

(** C106: on the device the options mean the same; with "fast_ap" read as true there is no hierarchy of two or more levels. *)
Lemma dev_setup_levels : forall (K : ofield) debug L Y z restr p todo ro k (d : device K) ls d', dev_setup debug L Y z restr p todo ro k d = Ok (ls, d') ->
  length ls = S todo /\ (0 < todo -> pt_get parse_bool ["fast_ap"%string] false p = false).
Proof.
  intros K debug L Y z restr p. induction todo as [|todo IH]; intros ro k d ls d' E; cbn [dev_setup] in E; [injection E as <- _; split; [reflexivity|lia]|].
  destruct (build_smoother _ _ _ _ _) as [sm| | | |]; try discriminate E. cbn [bind] in E. destruct (restr _) as [(rm & hs)| | | |]; try discriminate E. cbn [bind] in E.
  destruct (pt_get parse_bool ["fast_ap"%string] false p) eqn:F; [discriminate E|]. split; [|auto].
  do 2 (match type of E with bind ?x _ = _ => destruct x; try discriminate E; cbn [bind] in E end).
  destruct (dev_setup _ _ _ _ _ _ _ _ _ _) as [(ls' & d'')| | | |] eqn:E2; try discriminate E. cbn [bind] in E. injection E as <- _. cbn [length]. f_equal. apply (IH _ _ _ _ _ E2).
Qed.
Theorem C106_device : forall (K : ofield) debug L Y z restr global p (d : device K) h d1, dev_construct debug L Y z restr global p d = Ok (h, d1) ->
  bool_option p ["is preconditioner"%string] true (dh_is_preconditioner h) /\
  int_option p ["max levels"%string] 2%Z (Z.of_nat (length (dh_levels h))) /\
  (exists z, int_option p ["smoother"; "n_smoothing_steps"]%string 1%Z z /\ Z.of_nat (dh_n_smoothing_steps h) = (z mod 2 ^ 32)%Z) /\
  (2 <= length (dh_levels h) -> bool_option p ["fast_ap"%string] false false).
Proof.
  intros K debug L Y z restr global p d h d1 E. unfold dev_construct in E. cbv zeta in E. set (nl := pt_get parse_int ["max levels"%string] 2%Z p) in *.
  destruct (assert_dbg _ _) as [[]| | | |]; try discriminate E. cbn [bind] in E. destruct (Z.ltb_spec nl 0); [discriminate E|]. destruct (Z.eqb_spec nl 0); [discriminate E|].
  destruct (dev_setup _ _ _ _ _ _ _ _ _ _) as [(ls & d')| | | |] eqn:E2; try discriminate E. cbn [bind] in E. injection E as <- _. destruct (dev_setup_levels _ _ _ _ _ _ _ _ _ _ E2) as (L1 & L2).
  cbn [dh_is_preconditioner dh_levels dh_n_smoothing_steps]. split; [apply get_bool_option; reflexivity|]. split; [apply get_int_option; rewrite L1; fold nl; lia|].
  split; [eexists; split; [apply get_int_option; reflexivity|apply Z2Nat.id; apply Z.mod_pos_bound; reflexivity]|]. intros Hl. apply get_bool_option. apply L2. lia.
Qed.
Print Assumptions C106_device.

(** C106: words a user may expect to work do not: with the text "False" the hierarchy is a preconditioner, "yes" does not switch fast_ap on, and "3.0" does not
    ask for three levels; a negative number of smoothing steps becomes a large one. *)
Definition otree (prec fast levels steps : string) : ptree :=
  Node "" [("is preconditioner"%string, Node prec []); ("fast_ap"%string, Node fast []); ("max levels"%string, Node levels []); ("eigensolver"%string, Node "" []); ("agglomeration"%string, Node "" []);
           ("smoother"%string, Node "" [("type"%string, Node "jacobi" []); ("n_smoothing_steps"%string, Node steps [])])].
Theorem C106_words_refuted : exists h s l, construct (other_fast xhh (fun h => (Throw, h))) (q 0) xte false (Ok tt) (Some (otree "False" "yes" "3.0" "2.5")) None = (Ok h, s, l) /\
  h_is_preconditioner h = true /\ length (h_levels h) = 2 /\ h_n_smoothing_steps h = 1.
Proof.
  destruct (construct (other_fast xhh (fun h => (Throw, h))) (q 0) xte false (Ok tt) (Some (otree "False" "yes" "3.0" "2.5")) None) as ((r & s) & l) eqn:E.
  assert (T : match fst (fst (construct (other_fast xhh (fun h => (Throw, h))) (q 0) xte false (Ok tt) (Some (otree "False" "yes" "3.0" "2.5")) None)) with
    Ok h => h_is_preconditioner h && (length (h_levels h) =? 2)%nat && (h_n_smoothing_steps h =? 1)%nat | _ => false end = true) by (vm_compute; reflexivity).
  rewrite E in T. cbn [fst] in T. destruct r as [h| | | |]; try discriminate T. exists h, s, l. split; [reflexivity|].
  apply andb_true_iff in T. destruct T as (T & T3). apply andb_true_iff in T. destruct T as (T1 & T2). apply Nat.eqb_eq in T2, T3. auto.
Qed.
Print Assumptions C106_words_refuted.

(** Texts a user may write. *)
Example C106_texts_example : parse_bool " 0 " = Some false /\ parse_bool "+1" = Some true /\ parse_bool "true " = Some true /\ parse_bool "True" = None /\ parse_bool "yes" = None /\ parse_bool "2" = None /\
  parse_bool "1 true" = None /\ parse_bool "2 true" = Some true /\ parse_bool "-false" = Some false /\ parse_bool "" = None.
Proof. vm_compute. repeat split; reflexivity. Qed.
Example C106_bool_text_example : bool_text " 0 " false /\ bool_text "2 true" true /\ bool_text "-false" false /\ forall b, ~ bool_text "True" b.
Proof. repeat split; try (apply C106_bool_texts; vm_compute; reflexivity). intros b X. apply C106_bool_texts in X. vm_compute in X. discriminate X. Qed.
Example C106_hierarchy_example : exists h s l, xbuild (otree "0" "no" " 2 " "+3") = (Ok h, s, l) /\ h_is_preconditioner h = false /\ length (h_levels h) = 2 /\ h_n_smoothing_steps h = 3 /\
  bool_option (otree "0" "no" " 2 " "+3") ["fast_ap"%string] false false.
Proof.
  destruct (xbuilt (otree "0" "no" " 2 " "+3") (fun h => negb (h_is_preconditioner h) && (length (h_levels h) =? 2)%nat && (h_n_smoothing_steps h =? 3)%nat)) as (h & s & l & E & T); [vm_compute; reflexivity|].
  apply andb_true_iff in T. destruct T as (T & T3). apply andb_true_iff in T. destruct T as (T1 & T2). apply Nat.eqb_eq in T2, T3. apply negb_true_iff in T1.
  exists h, s, l. repeat (split; [assumption|]). apply C106_options. vm_compute. reflexivity.
Qed.
(** The option for the number of steps is an int that becomes an unsigned int: -1 means 2^32 - 1 steps. *)
Example C106_negative_steps : forall (K : ofield) H (hh : helpers K H) eps te dbg created h0 h s l, construct hh eps te dbg created (Some (otree "1" "0" "2" "-1")) h0 = (Ok h, s, l) ->
  Z.of_nat (h_n_smoothing_steps h) = (2 ^ 32 - 1)%Z.
Proof.
  intros K H hh eps te dbg created h0 h s l E. destruct (@C106_hierarchy K H hh eps te dbg created _ h0 h s l E) as (_ & _ & z & O & ->).
  apply C106_options in O. rewrite <- O. vm_compute. reflexivity.
Qed.
Example C106_required_example : pt_require parse_int ["num_cycles"%string] (Node "" [("num_cycles"%string, Node "two" [])]) = Throw /\
  pt_require parse_int ["num_cycles"%string] (Node "" [("num_cycles"%string, Node "2" [])]) = Ok 2%Z.
Proof. split; reflexivity. Qed.
From Verif Require Import M_Csr E_Solve E_CudaOp E_CudaHier C_CudaHier.
Example C106_device_example : exists h d1,
  dev_construct true (dense_libraries QcOF) (exact_library QcOF) ch_z ch_restr ch_global (ch_tree "2" "Jacobi") ch_device = Ok (h, d1) /\ length (dh_levels h) = 2 /\ dh_is_preconditioner h = true.
Proof.
  destruct (C77_two_levels_example true) as (h & d1 & ? & ? & E & _). exists h, d1. split; [exact E|].
  destruct (C106_device _ _ _ _ _ _ _ _ E) as (P & N & _). apply get_bool_option in P. apply get_int_option in N. split; [|rewrite <- P; vm_compute; reflexivity].
  apply Nat2Z.inj. rewrite <- N. vm_compute. reflexivity.
Qed.
