(** Instances of the external functions for the examples: exact square roots in Qc, a checked table of eigensystems, a sorting function. *)
From Coq Require Import List Arith Lia Bool QArith Qcanon.
From Verif Require Import Base OField Mat LinAlg M_Lanczos S_Lanczos P_Lanczos5.
Import ListNotations.
Set Implicit Arguments.
Open Scope nat_scope.

(** Stands in for std::sqrt (lanczos.templates.hpp:204): the root of a rational that has one. *)
Definition qsqrt (x : QcOF) : option QcOF :=
  let s : QcOF := Q2Qc (Qmake (Z.sqrt (Qnum (this x))) (Pos.sqrt (Qden (this x)))) in
  if (fleb 0%K s && feqb (fmul s s) x)%bool then Some s else None.
Lemma qsqrt_ok : sqrt_ok qsqrt.
Proof.
  intros x s H. unfold qsqrt in H. destruct (_ && _)%bool eqn:E; [|discriminate]. injection H as <-. apply andb_true_iff in E. destruct E as [E1 E2].
  split; [apply fleb_le; exact E1|apply feqb_eq; exact E2].
Qed.

Section T.
  Variable K : ofield.
  Local Open Scope K_scope.
  Definition all_lt (n : nat) (p : nat -> bool) : bool := forallb p (seq 0 n).
  Lemma all_lt_spec : forall n p, all_lt n p = true -> forall i, (i < n)%nat -> p i = true.
  Proof. intros n p H i Hi. unfold all_lt in H. rewrite forallb_forall in H. apply H. apply in_seq. lia. Qed.
  Arguments all_lt_spec : clear implicits.
  Definition veqb (x y : list K) : bool := (length x =? length y)%nat && all_lt (length x) (fun i => nth i x 0 =? nth i y 0).
  Lemma veqb_eq : forall x y, veqb x y = true -> x = y.
  Proof.
    intros x y H. apply andb_true_iff in H. destruct H as [H1 H2]. apply Nat.eqb_eq in H1. apply (@list_ext _ _ _ 0); auto. intros i Hi.
    apply feqb_eq. apply (all_lt_spec _ _ H2). auto.
  Qed.
  (** Decides the contract of LAPACKE_dstev (lanczos.templates.hpp:329-332) for a given answer. *)
  Definition check_eigen (M : mat K) (e v : list K) : bool :=
    let n := nr M in
    (length e =? n)%nat && (length v =? n * n)%nat &&
    all_lt n (fun i => all_lt n (fun j => implb (i <=? j)%nat (nth i e 0 <=? nth j e 0))) &&
    all_lt n (fun i => all_lt n (fun j => dot (chunk n i v) (chunk n j v) =? (if (i =? j)%nat then 1 else 0))) &&
    all_lt n (fun i => veqb (mulvec M (chunk n i v)) (vscale (nth i e 0) (chunk n i v))).
  Lemma check_eigen_ok : forall M e v, check_eigen M e v = true -> eigen_system M e v.
  Proof.
    intros M e v H. unfold check_eigen in H. repeat (apply andb_true_iff in H; destruct H as [H ?H]). apply Nat.eqb_eq in H, H3.
    split; auto. split; auto. split; [|split; [split|]].
    - intros i j Hij Hj. rewrite H in Hj. assert (Q := all_lt_spec _ _ (all_lt_spec _ _ H2 i ltac:(lia)) j Hj). cbv beta in Q. replace (i <=? j)%nat with true in Q by (symmetry; apply Nat.leb_le; auto).
      apply fleb_le. exact Q.
    - apply Forall_forall. intros c Hc. apply in_map_iff in Hc. destruct Hc as (i & <- & Hi). apply in_seq in Hi. eapply chunk_length; eauto. lia.
    - intros i j Hi Hj. rewrite map_length, seq_length in Hi, Hj. rewrite !(nth_map_in (fun i => chunk (nr M) i v) (seq 0 (nr M)) 0%nat []) by (rewrite seq_length; auto).
      rewrite !seq_nth by auto. simpl plus. apply feqb_eq. exact (all_lt_spec _ _ (all_lt_spec _ _ H1 i Hi) j Hj).
    - intros i Hi. apply veqb_eq. exact (all_lt_spec _ _ H0 i Hi).
  Qed.
  (** Stands in for LAPACKE_dstev (lanczos.templates.hpp:329-332): looks the matrix up in a table and checks the entry. *)
  Definition dstev_of (table : list (list K * list K * (list K * list K))) (main sub : list K) : outcome (list K * list K) :=
    match find (fun t => veqb (fst (fst t)) main && veqb (snd (fst t)) sub) table with
    | Some (_, (e, v)) => if check_eigen (tridiag main sub) e v then Ok (e, v) else Fuel
    | None => Fuel
    end.
  Lemma dstev_of_ok : forall table, dstev_ok (dstev_of table).
  Proof.
    intros table main sub e v _ H. unfold dstev_of in H. destruct (find _ table) as [[k [e' v']]|]; [|discriminate].
    destruct (check_eigen _ e' v') eqn:C; [|discriminate]. injection H as <- <-. apply check_eigen_ok. auto.
  Qed.
End T.
Arguments veqb {K} x y.
Arguments check_eigen {K} M e v.
Arguments dstev_of {K} table main sub.

(** The vectors of one length, and the product with a symmetric tridiagonal matrix on them. *)
Lemma full_space : forall (K : ofield) n, subspace n (fun x : vec K => length x = n).
Proof. intros K n. constructor; auto; intros; [rewrite vadd_length; unfold OField.vec in *; lia|rewrite vscale_length; auto]. Qed.
Lemma symmetric_mat : forall (K : ofield) (M : mat K), nr M = nc M -> (forall i j, i < nr M -> j < nr M -> ent M i j = ent M j i) ->
  symmetric_on (fun x : vec K => length x = nr M) (mulvec M).
Proof.
  intros K M Hn Hs. constructor; intros.
  - apply mulvec_length.
  - rewrite (@mulvec_adjoint K M x y) by congruence. f_equal. unfold mulTvec. apply mulvec_meq. split; [|split]; simpl; auto. intros i j Hi Hj. apply Hs; lia.
Qed.
Lemma symmetric_tridiag : forall (K : ofield) (main sub : list K), symmetric_on (fun x : vec K => length x = length main) (mulvec (tridiag main sub)).
Proof.
  intros K main sub. apply (@symmetric_mat K (tridiag main sub)); auto. intros i j Hi Hj. simpl.
  destruct (Nat.eqb_spec i j), (Nat.eqb_spec j i), (Nat.eqb_spec j (S i)), (Nat.eqb_spec i (S j)); subst; auto; try lia.
Qed.

(** Whether a run ends with a result that passes a test. *)
Definition ok_with {A} (o : outcome A) (p : A -> bool) : bool := match o with Ok a => p a | _ => false end.
Lemma ok_with_ex : forall A (o : outcome A) p, ok_with o p = true -> exists a, o = Ok a /\ p a = true.
Proof. intros A [a| | | |] p H; simpl in H; try discriminate. eauto. Qed.
