(** Property theorems about parameter conversion (C37). *)
From Coq Require Import List Arith ZArith Ascii String Bool Lia.
From Verif Require Import Base M_Ptree S_Ptree P_Ptree.
Import ListNotations.
Open Scope string_scope.

(** C37: for a tree whose names and leaf values XML can carry without escaping, the conversion succeeds and yields exactly
    the list with the same names, values and nesting. *)
Theorem C37_ptree2plist_correct : forall accepts_double t l, tree_plain t ->
  (ptree2plist accepts_double t = Ok l <-> expected (infer_type accepts_double) t l).
Proof. exact ptree2plist_ok. Qed.
Print Assumptions C37_ptree2plist_correct.

(** C37: the conversion always succeeds on such trees. *)
Theorem C37_ptree2plist_total : forall accepts_double t, tree_plain t -> exists l, ptree2plist accepts_double t = Ok l.
Proof. intros a t H. exists (PList (items a t)). exact (ptree2plist_items a t H). Qed.
Print Assumptions C37_ptree2plist_total.

Example C37_example :
  let t := Node "dropped" [("smoother: type", Node "Chebyshev" []); ("coarse", Node "" [("max size", Node " 50" []); ("verbose", Node "true" []); ("flag", Node "1" [])])] in
  tree_plain t /\
  ptree2plist (fun s => String.eqb s "1.5") t =
    Ok (PList [PParam "smoother: type" TString "Chebyshev";
               PSub "coarse" (PList [PParam "max size" TInt " 50"; PParam "verbose" TBool "true"; PParam "flag" TInt "1"])]).
Proof.
  split; [|vm_compute; reflexivity].
  repeat (constructor; simpl; intros name c [H|H]; [inversion H; subst; clear H; split; [apply plainb_plain; reflexivity|split; [intros H; try discriminate; apply plainb_plain; reflexivity|]]|destruct H as [H|H]; [inversion H; subst; clear H; split; [apply plainb_plain; reflexivity|split; [intros H; try discriminate; apply plainb_plain; reflexivity|]]|try (destruct H as [H|H]; [inversion H; subst; clear H; split; [apply plainb_plain; reflexivity|split; [intros H; try discriminate; apply plainb_plain; reflexivity|]]|]); try contradiction]]).
  all: constructor; simpl; intros ? ? Hin; try contradiction.
  all: destruct Hin as [H|[H|[H|[]]]]; inversion H; subst; (split; [apply plainb_plain; reflexivity|split; [intros H0; try discriminate; apply plainb_plain; reflexivity|constructor; simpl; intros ? ? []]]).
Qed.

(** C37: an unescaped name is not transported: one leaf becomes two parameters. *)
Theorem C37_ptree2plist_escaping_refuted : exists t l, (forall accepts_double, ptree2plist accepts_double t = Ok l) /\
  (forall ty, ~ expected ty t l) /\ List.length (pt_children t) = 1 /\ exists a b, l = PList [a; b].
Proof.
  exists injected_tree, (PList [PParam "a" TInt "1"; PParam "b" TInt "2"]). split; [|split; [|split]].
  - intros a. vm_compute. reflexivity.
  - intros ty H. inversion H as [d cs l H1]; subst. inversion H1; subst.
  - reflexivity.
  - eauto.
Qed.
Print Assumptions C37_ptree2plist_escaping_refuted.

(** C37: the type is int exactly for the decimal integer texts in the range of int. *)
Theorem C37_int_iff : forall accepts_double s,
  infer_type accepts_double s = TInt <-> exists z, int_text s z /\ (- 2 ^ 31 <= z <= 2 ^ 31 - 1)%Z.
Proof.
  intros a s. unfold infer_type. destruct (parse_int s) as [z|] eqn:E.
  - split; auto. intros _. exists z. apply parse_int_spec. auto.
  - split.
    + destruct (a s); [discriminate|]. destruct (parse_bool s); discriminate.
    + intros (z & H). apply parse_int_spec in H. congruence.
Qed.
Print Assumptions C37_int_iff.

(** C37: the words true and false become bool parameters (unless the double converter takes them), the texts 0 and 1 do not. *)
Theorem C37_bool_words : forall accepts_double s b, bool_word s b -> accepts_double s = false ->
  infer_type accepts_double s = TBool /\ parse_bool s = Some b.
Proof.
  intros a s b H Ha. pose proof (parse_bool_word s b H) as P. split; auto. unfold infer_type.
  destruct (parse_int s) as [z|] eqn:E.
  - exfalso. apply parse_int_spec in E. destruct E as (E & _). eapply int_text_not_word; eauto.
  - rewrite Ha, P. auto.
Qed.
Print Assumptions C37_bool_words.

(** C37: the type is bool exactly for the texts of truth values that neither int nor double takes. *)
Theorem C37_bool_iff : forall accepts_double s, infer_type accepts_double s = TBool <->
  (forall z, int_text s z -> ~ (- 2 ^ 31 <= z <= 2 ^ 31 - 1)%Z) /\ accepts_double s = false /\ exists b, bool_text s b.
Proof.
  intros a s. unfold infer_type. destruct (parse_int s) as [z|] eqn:E.
  - split; [discriminate|]. intros (N & _). apply parse_int_spec in E. destruct (N z); apply E.
  - assert (N : forall z, int_text s z -> ~ (- 2 ^ 31 <= z <= 2 ^ 31 - 1)%Z) by (intros z T1 T2; assert (X := conj T1 T2); apply parse_int_spec in X; congruence).
    destruct (a s); [split; [discriminate|intros (_ & X & _); discriminate X]|]. destruct (parse_bool s) as [b|] eqn:B; split; auto; try discriminate.
    + intros _. repeat split; auto. exists b. apply parse_bool_spec. exact B.
    + intros (_ & _ & b & T). apply parse_bool_spec in T. congruence.
Qed.
Print Assumptions C37_bool_iff.

Example C37_types : let d := fun s => String.eqb s "0.5" in
  infer_type d "-12" = TInt /\ infer_type d "2147483648" = TString /\ infer_type d "0.5" = TDouble /\
  infer_type d "false" = TBool /\ infer_type d "0" = TInt /\ infer_type d "" = TString /\ infer_type d "Jacobi" = TString /\ infer_type d "True" = TString.
Proof. vm_compute. repeat split; reflexivity. Qed.
