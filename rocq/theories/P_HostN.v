(** Proofs about choices by name. *)
From Coq Require Import String List Arith Ascii Bool Lia ZArith.
From Verif Require Import Base M_Ptree S_Ptree P_Ptree M_Hier S_Hier M_Host S_Host.
Import ListNotations.
Set Implicit Arguments.
Open Scope nat_scope.

Definition no_upper_char (c : ascii) : Prop := ~ (65 <= nat_of_ascii c <= 90).
Fixpoint no_upper (s : string) : Prop := match s with EmptyString => True | String c t => no_upper_char c /\ no_upper t end.

Lemma lower_char_ci : forall a b, no_upper_char b -> (lower_ascii a = b <-> ci_char a b).
Proof.
  intros a b N. unfold lower_ascii, ci_char. pose proof (nat_ascii_bounded a) as Ba. pose proof (nat_ascii_bounded b) as Bb.
  destruct (Nat.leb_spec 65 (nat_of_ascii a)); destruct (Nat.leb_spec (nat_of_ascii a) 90); cbn [andb]; (split; [intros E|intros [E|(k & Hk & [(E1 & E2)|(E1 & E2)])]]); subst; auto.
  - right. exists (nat_of_ascii a - 65). split; [lia|]. left. split; [|f_equal; lia].
    replace (65 + (nat_of_ascii a - 65)) with (nat_of_ascii a) by lia. symmetry. apply ascii_nat_embedding.
  - exfalso. apply N. lia.
  - rewrite nat_ascii_embedding by lia. f_equal. lia.
  - rewrite nat_ascii_embedding in H0 by lia. lia.
  - rewrite nat_ascii_embedding in H0 by lia. lia.
  - exfalso. apply N. rewrite nat_ascii_embedding by lia. lia.
  - rewrite nat_ascii_embedding in H by lia. lia.
  - exfalso. apply N. rewrite nat_ascii_embedding by lia. lia.
  - lia.
  - lia.
Qed.
Lemma lower_ci : forall s t, no_upper t -> (lower s = t <-> ci_eq s t).
Proof.
  induction s as [|a s IH]; intros [|b t] N; simpl in *; try (split; [discriminate|tauto]); try tauto.
  destruct N as (N1 & N2). rewrite <- (lower_char_ci a N1), <- (IH t N2). split; [intros E; inversion E; auto|intros (-> & ->); auto].
Qed.
Fixpoint no_upperb (s : string) : bool :=
  match s with EmptyString => true | String c t => negb ((65 <=? nat_of_ascii c) && (nat_of_ascii c <=? 90)) && no_upperb t end.
Lemma no_upperb_ok : forall s, no_upperb s = true -> no_upper s.
Proof.
  induction s as [|c s IH]; cbn [no_upperb no_upper]; auto. intros T. apply andb_prop in T. destruct T as (T1 & T2). split; auto. unfold no_upper_char.
  destruct (Nat.leb_spec 65 (nat_of_ascii c)) as [G1|G1]; destruct (Nat.leb_spec (nat_of_ascii c) 90) as [G2|G2]; cbn [andb negb] in T1; try discriminate T1; intros (G3 & G4); lia.
Qed.
Lemma lower_eqb_ci : forall s t, no_upperb t = true -> (String.eqb (lower s) t = true <-> ci_eq s t).
Proof. intros s t N. rewrite String.eqb_eq. apply lower_ci. apply no_upperb_ok. auto. Qed.

(** The chain of comparisons. *)
Fixpoint chain_of {A} (eqb : string -> string -> bool) (table : list (string * A)) (name : string) : outcome A :=
  match table with [] => Throw | (n, k) :: t => if eqb name n then Ok k else chain_of eqb t name end.
Lemma chain_dispatches : forall A (eqb : string -> string -> bool) (eq : string -> string -> Prop) (table : list (string * A)) name,
  (forall n k, In (n, k) table -> (eqb name n = true <-> eq name n)) -> dispatches eq table name (chain_of eqb table name).
Proof.
  intros A eqb eq. induction table as [|(n & k) t IH]; intros name H; simpl.
  - right. split; auto.
  - destruct (eqb name n) eqn:E.
    + left. exists n, k. split; [left; auto|]. split; auto. apply (H n k); [left; auto|auto].
    + destruct (IH name) as [(n' & k' & I & Q & R)|(N & R)]; [intros; apply H with (k := k0); right; auto| |].
      * left. exists n', k'. split; [right; auto|auto].
      * right. split; auto. intros n' k' [I|I]; [|eauto]. inversion I; subst n' k'. intros Q. apply (H n k) in Q; [congruence|left; auto].
Qed.
Lemma get_string_text : forall path d p, get_string path d p = text_at p path d.
Proof. intros. unfold get_string, pt_get, text_at. destruct (pt_find p path); auto. Qed.
Lemma unknown_eqb : forall s t, no_upperb t = true -> ~ ci_eq s t -> String.eqb (lower s) t = false.
Proof. intros s t N H. destruct (String.eqb (lower s) t) eqn:E; auto. exfalso. apply H. apply lower_eqb_ci; auto. Qed.

(** A put below a path that did not exist creates exactly the path and one leaf. *)
Lemma find_put_new : forall q (k : string) v t, pt_find t q = None ->
  pt_find (pt_put (q ++ [k])%list v t) q = Some (Node "" [(k, Node v [])]).
Proof.
  induction q as [|k0 q IH]; intros k v t H; [discriminate H|].
  cbn [app pt_put pt_find pt_children pt_data]. rewrite assoc_put_child_eq. cbn [pt_find] in H. destruct (assoc k0 (pt_children t)) eqn:E; [apply IH; auto|].
  destruct q as [|k1 q]; [reflexivity|]. apply IH. reflexivity.
Qed.
