(** Ordered fields and list vectors over them.  Scalars of the C++ code (double) are modelled in exact arithmetic:
    every numerical theorem holds for any ordered field.  No counterpart in /repo except where a comment says so. *)
From Coq Require Import List Arith Lia Bool Field Setoid QArith Qcanon Qcabs.
From Verif Require Import Base.
Import ListNotations.
Set Implicit Arguments.
Open Scope nat_scope.

Record ofield : Type := mkOF {
  fcar :> Type;
  f0 : fcar;
  f1 : fcar;
  fadd : fcar -> fcar -> fcar;
  fmul : fcar -> fcar -> fcar;
  fsub : fcar -> fcar -> fcar;
  fopp : fcar -> fcar;
  fdiv : fcar -> fcar -> fcar;
  finv : fcar -> fcar;
  fle : fcar -> fcar -> Prop;
  fleb : fcar -> fcar -> bool;
  feqb : fcar -> fcar -> bool;
  f_field : field_theory f0 f1 fadd fmul fsub fopp fdiv finv (@eq fcar);
  fleb_le : forall x y, fleb x y = true <-> fle x y;
  feqb_eq : forall x y, feqb x y = true <-> x = y;
  fle_refl : forall x, fle x x;
  fle_trans : forall x y z, fle x y -> fle y z -> fle x z;
  fle_antisym : forall x y, fle x y -> fle y x -> x = y;
  fle_total : forall x y, fle x y \/ fle y x;
  fle_add : forall x y z, fle x y -> fle (fadd x z) (fadd y z);
  fle_mul : forall x y, fle f0 x -> fle f0 y -> fle f0 (fmul x y)
}.
Arguments f0 {_}.
Arguments f1 {_}.
Arguments fadd {_} _ _.
Arguments fmul {_} _ _.
Arguments fsub {_} _ _.
Arguments fopp {_} _.
Arguments fdiv {_} _ _.
Arguments finv {_} _.
Arguments fle {_} _ _.
Arguments fleb {_} _ _.
Arguments feqb {_} _ _.
Arguments fle_refl {_} _.
Arguments fle_total {_} _ _.

Declare Scope K_scope.
Delimit Scope K_scope with K.
Bind Scope K_scope with fcar.
Notation "0" := f0 : K_scope.
Notation "1" := f1 : K_scope.
Infix "+" := fadd : K_scope.
Infix "*" := fmul : K_scope.
Infix "-" := fsub : K_scope.
Notation "- x" := (fopp x) : K_scope.
Infix "/" := fdiv : K_scope.
Infix "<=" := fle : K_scope.
Infix "<=?" := fleb : K_scope.
Infix "=?" := feqb : K_scope.

(** Strict order. *)
Definition flt {K : ofield} (x y : K) : Prop := ~ (y <= x)%K.
Definition fltb {K : ofield} (x y : K) : bool := negb (y <=? x)%K.
Infix "<" := flt : K_scope.
Infix "<?" := fltb : K_scope.
Definition fabs {K : ofield} (x : K) : K := if (0 <=? x)%K then x else (- x)%K.
Definition fmax {K : ofield} (x y : K) : K := if (x <=? y)%K then y else x.

(** ** The canonical rationals *)
Definition Qc_leb (x y : Qc) : bool := Qle_bool (this x) (this y).
Definition Qc_eqb (x y : Qc) : bool := Qeq_bool (this x) (this y).

Definition QcOF : ofield.
Proof.
  refine (@mkOF Qc 0%Qc 1%Qc Qcplus Qcmult Qcminus Qcopp Qcdiv Qcinv Qcle Qc_leb Qc_eqb Qcft _ _ _ _ _ _ _ _).
  - intros x y. unfold Qc_leb, Qcle. apply Qle_bool_iff.
  - intros x y. unfold Qc_eqb. split.
    + intros H. apply Qeq_bool_iff in H. apply Qc_is_canon. auto.
    + intros ->. apply Qeq_bool_iff. reflexivity.
  - exact Qcle_refl.
  - exact Qcle_trans.
  - exact Qcle_antisym.
  - intros x y. destruct (Qclt_le_dec x y) as [H|H]; [left; apply Qclt_le_weak; auto|right; auto].
  - intros x y z H. apply Qcplus_le_compat; auto. apply Qcle_refl.
  - intros x y Hx Hy. replace 0%Qc with (0 * y)%Qc by ring. apply Qcmult_le_compat_r; auto.
Defined.

(** ** Scalar lemmas *)
Section Scalars.
  Variable K : ofield.
  Add Field Kfield : (f_field K).
  Local Open Scope K_scope.
  Implicit Types x y z : K.

  Lemma f1_neq_0 : (1 : K) <> 0.
  Proof. exact (F_1_neq_0 (f_field K)). Qed.

  Lemma finv_l : forall x, x <> 0 -> finv x * x = 1.
  Proof. exact (Finv_l (f_field K)). Qed.

  Lemma feq_dec : forall x y, {x = y} + {x <> y}.
  Proof.
    intros x y. destruct (feqb x y) eqn:E.
    - left. apply feqb_eq; auto.
    - right. intros ->. assert (feqb y y = true) by (apply feqb_eq; auto). congruence.
  Qed.

  Lemma fle_dec : forall x y, {x <= y} + {~ x <= y}.
  Proof.
    intros x y. destruct (fleb x y) eqn:E.
    - left. apply fleb_le; auto.
    - right. intros H. apply fleb_le in H. congruence.
  Qed.

  Lemma flt_le : forall x y, x < y -> x <= y.
  Proof. intros x y H. destruct (fle_total x y); auto. contradiction. Qed.

  Lemma fltb_lt : forall x y, fltb x y = true <-> x < y.
  Proof.
    intros x y. unfold fltb, flt. rewrite negb_true_iff. rewrite <- fleb_le.
    destruct (fleb y x); split; intros; congruence.
  Qed.

  Lemma fltb_ge : forall x y, fltb x y = false <-> y <= x.
  Proof. intros x y. unfold fltb. rewrite negb_false_iff. apply fleb_le. Qed.

  Lemma fleb_gt : forall x y, fleb x y = false <-> y < x.
  Proof. intros x y. rewrite <- fltb_lt. unfold fltb. rewrite negb_true_iff. tauto. Qed.

  Lemma flt_irrefl : forall x, ~ x < x.
  Proof. intros x H. apply H. apply fle_refl. Qed.

  Lemma flt_neq : forall x y, x < y -> x <> y.
  Proof. intros x y H ->. apply (flt_irrefl H). Qed.

  Lemma fle_lt_trans : forall x y z, x <= y -> y < z -> x < z.
  Proof. intros x y z H1 H2 H3. apply H2. eapply fle_trans; eauto. Qed.

  Lemma flt_le_trans : forall x y z, x < y -> y <= z -> x < z.
  Proof. intros x y z H1 H2 H3. apply H1. eapply fle_trans; eauto. Qed.

  Lemma flt_trans : forall x y z, x < y -> y < z -> x < z.
  Proof. intros x y z H1 H2. apply fle_lt_trans with y; auto using flt_le. Qed.

  Lemma fle_neq_lt : forall x y, x <= y -> x <> y -> x < y.
  Proof. intros x y H1 H2 H3. apply H2. apply fle_antisym; auto. Qed.

  Lemma flt_total : forall x y, x < y \/ x = y \/ y < x.
  Proof.
    intros x y. destruct (feq_dec x y); auto. destruct (fle_total x y) as [H|H].
    - left. apply fle_neq_lt; auto.
    - right. right. apply fle_neq_lt; auto.
  Qed.

  Lemma fle_add2 : forall a b c d : K, a <= b -> c <= d -> a + c <= b + d.
  Proof.
    intros a b c d H1 H2. apply fle_trans with (b + c); [apply fle_add; auto|].
    replace (b + c) with (c + b) by ring. replace (b + d) with (d + b) by ring. apply fle_add; auto.
  Qed.

  Lemma fle_sub_0 : forall x y, x <= y <-> 0 <= y - x.
  Proof.
    intros x y. split; intros H.
    - apply fle_add with (z := - x) in H. replace (x + - x) with (0:K) in H by ring. replace (y - x) with (y + - x) by ring. auto.
    - apply fle_add with (z := x) in H. replace (0 + x) with x in H by ring. replace (y - x + x) with y in H by ring. auto.
  Qed.

  Lemma fle_opp : forall x y, x <= y -> - y <= - x.
  Proof. intros x y H. apply fle_sub_0. replace (- x - - y) with (y - x) by ring. apply (proj1 (fle_sub_0 x y)); auto. Qed.

  Lemma fle_opp_0 : forall x, x <= 0 -> 0 <= - x.
  Proof. intros x H. replace (0:K) with (- (0:K)) by ring. apply fle_opp; auto. Qed.

  Lemma fsquare_nonneg : forall x, 0 <= x * x.
  Proof.
    intros x. destruct (fle_total 0 x).
    - apply fle_mul; auto.
    - replace (x * x) with (- x * - x) by ring. apply fle_mul; apply fle_opp_0; auto.
  Qed.

  Lemma f0_le_1 : (0 : K) <= 1.
  Proof. replace (1 : K) with (1 * 1 : K) by ring. apply fsquare_nonneg. Qed.

  Lemma f0_lt_1 : (0 : K) < 1.
  Proof. apply fle_neq_lt; [apply f0_le_1|]. intros H. apply f1_neq_0. auto. Qed.

  Lemma fmul_eq_0 : forall x y, x * y = 0 -> x = 0 \/ y = 0.
  Proof.
    intros x y H. destruct (feq_dec x 0); auto. right.
    replace y with (finv x * (x * y)) by (field; auto). rewrite H. ring.
  Qed.

  Lemma fmul_neq_0 : forall x y, x <> 0 -> y <> 0 -> x * y <> 0.
  Proof. intros x y Hx Hy H. apply fmul_eq_0 in H. tauto. Qed.

  Lemma fsquare_0 : forall x, x * x = 0 -> x = 0.
  Proof. intros x H. apply fmul_eq_0 in H. tauto. Qed.

  Lemma fmul_pos : forall x y, 0 < x -> 0 < y -> 0 < x * y.
  Proof.
    intros x y Hx Hy. apply fle_neq_lt.
    - apply fle_mul; apply flt_le; auto.
    - intros H. symmetry in H. apply fmul_eq_0 in H. destruct H as [H|H]; subst; [apply (flt_irrefl Hx)|apply (flt_irrefl Hy)].
  Qed.

  Lemma fadd_pos : forall x y, 0 < x -> 0 <= y -> 0 < x + y.
  Proof.
    intros x y Hx Hy H. apply Hx. apply fle_trans with (x + y); auto.
    replace x with (x + 0) at 1 by ring. apply fle_add2; auto. apply fle_refl.
  Qed.

  Lemma fadd_nonneg : forall x y, 0 <= x -> 0 <= y -> 0 <= x + y.
  Proof. intros x y Hx Hy. replace (0:K) with (0 + 0 : K) by ring. apply fle_add2; auto. Qed.

  Lemma fadd_nonneg_eq_0 : forall x y, 0 <= x -> 0 <= y -> x + y = 0 -> x = 0 /\ y = 0.
  Proof.
    intros x y Hx Hy H.
    assert (x = 0). { apply fle_antisym; auto. apply fle_sub_0. replace (0 - x) with y; auto.
      replace (0 - x) with ((x + y) - x) by (rewrite H; ring). ring. }
    split; auto. subst. rewrite <- H. ring.
  Qed.

  Lemma finv_pos : forall x, 0 < x -> 0 < finv x.
  Proof.
    intros x Hx. assert (Hn : x <> 0) by (intros ->; apply (flt_irrefl Hx)).
    apply fle_neq_lt.
    - replace (finv x) with (x * (finv x * finv x)) by (field; auto). apply fle_mul; [apply flt_le; auto|apply fsquare_nonneg].
    - intros H. apply f1_neq_0. rewrite <- (finv_l Hn). rewrite <- H. ring.
  Qed.

  Lemma fle_mul_l : forall a x y, 0 <= a -> x <= y -> a * x <= a * y.
  Proof.
    intros a x y Ha H. apply fle_sub_0. replace (a * y - a * x) with (a * (y - x)) by ring. apply fle_mul; auto. apply (proj1 (fle_sub_0 x y)); auto.
  Qed.

  Lemma flt_sub_0 : forall x y, x < y <-> 0 < y - x.
  Proof.
    intros x y. unfold flt. rewrite (fle_sub_0 y x), (fle_sub_0 (y - x) 0).
    replace (0 - (y - x)) with (x - y) by ring. tauto.
  Qed.

  Lemma fabs_nonneg : forall x, 0 <= fabs x.
  Proof.
    intros x. unfold fabs. destruct (fleb 0 x) eqn:E.
    - apply fleb_le; auto.
    - apply fleb_gt in E. apply fle_opp_0. apply flt_le; auto.
  Qed.

  Lemma fabs_0 : fabs (0:K) = 0.
  Proof. unfold fabs. destruct (fleb 0 0); ring. Qed.

  Lemma fabs_le : forall x y, fabs x <= y <-> (- y <= x /\ x <= y).
  Proof.
    intros x y. unfold fabs. destruct (fleb 0 x) eqn:E.
    - apply fleb_le in E. split; [|tauto]. intros H. split; auto.
      apply fle_trans with 0; auto. replace (0:K) with (- (0:K)) by ring. apply fle_opp. eapply fle_trans; eauto.
    - apply fleb_gt in E. split.
      + intros H. split.
        * replace x with (- - x) by ring. apply fle_opp; auto.
        * apply fle_trans with 0; [apply flt_le; auto|]. eapply fle_trans; [|exact H]. apply fle_opp_0. apply flt_le; auto.
      + intros (H & _). replace y with (- - y) by ring. apply fle_opp; auto.
  Qed.

  Lemma fabs_opp : forall x, fabs (- x) = fabs x.
  Proof.
    intros x. unfold fabs. destruct (fleb 0 x) eqn:E1, (fleb 0 (- x)) eqn:E2; try ring.
    - apply fleb_le in E1, E2. assert (x = 0).
      { apply fle_antisym; auto. replace x with (- - x) by ring. replace (0:K) with (- (0:K)) by ring. apply fle_opp; auto. }
      subst. ring.
    - apply fleb_gt in E1, E2. exfalso. apply E2. apply fle_opp_0. apply flt_le; auto.
  Qed.

  (** *** Numerals (conversions from integers to double; the constants of the code) *)
  Fixpoint fnat (n : nat) : K := match n with O => 0 | S m => fnat m + 1 end.
  Fixpoint fpos (p : positive) : K :=
    match p with xH => 1 | xO p => (1 + 1) * fpos p | xI p => 1 + (1 + 1) * fpos p end.
  Lemma fnat_nonneg : forall n, 0 <= fnat n.
  Proof. induction n; simpl; [apply fle_refl|]. replace (0 : K) with (0 + 0 : K) by ring. apply fle_add2; auto. apply f0_le_1. Qed.
  Lemma fnat_add : forall n m, fnat (n + m) = fnat n + fnat m.
  Proof. induction n; intros; simpl; [ring|]. rewrite IHn. ring. Qed.
  Lemma fnat_le : forall n m, (n <= m)%nat -> fnat n <= fnat m.
  Proof. induction 1; [apply fle_refl|]. simpl. apply fle_trans with (fnat m); auto. replace (fnat m) with (fnat m + 0) at 1 by ring. apply fle_add2; [apply fle_refl|apply f0_le_1]. Qed.
  Lemma fnat_pos : forall n, 0 < fnat (S n).
  Proof. intros. simpl. apply flt_le_trans with 1; [apply f0_lt_1|]. replace (1 : K) with (0 + 1 : K) at 1 by ring. apply fle_add2; [apply fnat_nonneg|apply fle_refl]. Qed.
  Lemma fpos_fnat : forall p, fpos p = fnat (Pos.to_nat p).
  Proof.
    induction p as [p IHp|p IHp|].
    - rewrite Pos2Nat.inj_xI. cbn [fpos fnat Nat.mul]. rewrite Nat.add_0_r, fnat_add, IHp. ring.
    - rewrite Pos2Nat.inj_xO. cbn [fpos fnat Nat.mul]. rewrite Nat.add_0_r, fnat_add, IHp. ring.
    - simpl. ring.
  Qed.
  Lemma fpos_pos : forall p, 0 < fpos p.
  Proof. intros. rewrite fpos_fnat. destruct (Pos2Nat.is_succ p) as [m ->]. apply fnat_pos. Qed.

  (** *** Finite sums *)
  Fixpoint sumn (n : nat) (f : nat -> K) : K :=
    match n with O => 0 | S m => sumn m f + f m end.

  Lemma sumn_ext : forall n f g, (forall i, (i < n)%nat -> f i = g i) -> sumn n f = sumn n g.
  Proof. induction n; simpl; intros f g H; auto. rewrite (IHn f g), H; auto. Qed.

  Lemma sumn_0 : forall n, sumn n (fun _ => 0) = 0.
  Proof. induction n; simpl; auto. rewrite IHn. ring. Qed.

  Lemma sumn_zero : forall n f, (forall i, (i < n)%nat -> f i = 0) -> sumn n f = 0.
  Proof. intros n f H. rewrite (sumn_ext _ (fun _ => 0)); auto. apply sumn_0. Qed.

  Lemma sumn_add : forall n f g, sumn n (fun i => f i + g i) = sumn n f + sumn n g.
  Proof. induction n; simpl; intros f g; [ring|]. rewrite IHn. ring. Qed.

  Lemma sumn_sub : forall n f g, sumn n (fun i => f i - g i) = sumn n f - sumn n g.
  Proof. induction n; simpl; intros f g; [ring|]. rewrite IHn. ring. Qed.

  Lemma sumn_scale : forall n a f, sumn n (fun i => a * f i) = a * sumn n f.
  Proof. induction n; simpl; intros a f; [ring|]. rewrite IHn. ring. Qed.

  Lemma sumn_scale_r : forall n a f, sumn n (fun i => f i * a) = sumn n f * a.
  Proof. induction n; simpl; intros a f; [ring|]. rewrite IHn. ring. Qed.

  Lemma sumn_swap : forall n m f, sumn n (fun i => sumn m (fun j => f i j)) = sumn m (fun j => sumn n (fun i => f i j)).
  Proof.
    induction n; simpl; intros m f.
    - rewrite sumn_0. auto.
    - rewrite IHn. rewrite <- sumn_add. auto.
  Qed.

  Lemma sumn_single : forall n k f, (k < n)%nat -> (forall i, (i < n)%nat -> i <> k -> f i = 0) -> sumn n f = f k.
  Proof.
    induction n; simpl; intros k f Hk H; [lia|].
    destruct (Nat.eq_dec k n) as [->|Hne].
    - rewrite sumn_zero; [ring|]. intros i Hi. apply H; lia.
    - rewrite (IHn k); [|lia|]. 2:{ intros i Hi Hik. apply H; lia. } rewrite (H n) by lia. ring.
  Qed.

  Lemma sumn_plus : forall n m f, sumn (n + m) f = sumn n f + sumn m (fun i => f (n + i)%nat).
  Proof.
    induction m; simpl; intros f.
    - rewrite Nat.add_0_r. ring.
    - rewrite Nat.add_succ_r. simpl. rewrite IHm. ring.
  Qed.

  Lemma sumn_nonneg : forall n f, (forall i, (i < n)%nat -> 0 <= f i) -> 0 <= sumn n f.
  Proof. induction n; simpl; intros f H; [apply fle_refl|]. apply fadd_nonneg; auto. Qed.

  Lemma sumn_nonneg_eq_0 : forall n f, (forall i, (i < n)%nat -> 0 <= f i) -> sumn n f = 0 -> forall i, (i < n)%nat -> f i = 0.
  Proof.
    induction n; simpl; intros f H E i Hi; [lia|].
    assert (E3 : sumn n f = 0 /\ f n = 0); [apply fadd_nonneg_eq_0; auto|destruct E3 as (E1 & E2)].
    - apply sumn_nonneg. auto.
    - destruct (Nat.eq_dec i n) as [->|]; auto. apply IHn; auto. lia.
  Qed.

  Lemma sumn_shift : forall n f, sumn (S n) f = f 0%nat + sumn n (fun i => f (S i)).
  Proof. induction n; intros f; [simpl; ring|]. cbn [sumn] in *. rewrite IHn. ring. Qed.

  (** Sum of a list. *)
  Fixpoint lsum (l : list K) : K := match l with [] => 0 | x :: t => x + lsum t end.

  Lemma lsum_app : forall a b, lsum (a ++ b) = lsum a + lsum b.
  Proof. induction a; simpl; intros b; [ring|]. rewrite IHa. ring. Qed.

  Lemma lsum_sumn : forall l, lsum l = sumn (length l) (fun i => nth i l 0).
  Proof.
    induction l; auto. cbn [lsum length]. rewrite sumn_shift. simpl nth. rewrite IHl. auto.
  Qed.

  Lemma lsum_map_add : forall A (f g : A -> K) l, lsum (map (fun t : A => f t + g t) l) = lsum (map f l) + lsum (map g l).
  Proof. induction l; simpl; [ring|]. rewrite IHl. ring. Qed.

  Lemma lsum_map_scale : forall A (f : A -> K) a l, lsum (map (fun t : A => a * f t) l) = a * lsum (map f l).
  Proof. induction l; simpl; [ring|]. rewrite IHl. ring. Qed.

  Lemma lsum_map_0 : forall A (f : A -> K) l, (forall t, In t l -> f t = 0) -> lsum (map f l) = 0.
  Proof. induction l; simpl; intros H; auto. rewrite IHl, H; auto. ring. Qed.

  Lemma lsum_map_ext : forall A (f g : A -> K) l, (forall t, In t l -> f t = g t) -> lsum (map f l) = lsum (map g l).
  Proof. induction l; simpl; intros H; auto. rewrite IHl, H; auto. Qed.

  Lemma lsum_seq_sumn : forall n f, lsum (map f (seq 0 n)) = sumn n f.
  Proof.
    induction n; intros f; auto. rewrite seq_S, map_app, lsum_app, IHn. simpl. ring.
  Qed.
End Scalars.
Arguments fnat {K} n.
Arguments fpos {K} p.
Arguments sumn {K} n f.
Arguments lsum {K} l.
Arguments sumn_ext {K} n f g _.
Arguments sumn_zero {K} n f _.
Arguments sumn_0 {K} n.
Arguments sumn_add {K} n f g.
Arguments sumn_sub {K} n f g.
Arguments sumn_scale {K} n a f.
Arguments sumn_scale_r {K} n a f.
Arguments sumn_swap {K} n m f.
Arguments sumn_single {K} n k f _ _.
Arguments sumn_plus {K} n m f.
Arguments sumn_nonneg {K} n f _.
Arguments sumn_shift {K} n f.

(** ** Vectors *)
Section Vectors.
  Variable K : ofield.
  Add Field Kfield2 : (f_field K).
  Local Open Scope K_scope.

  Definition vec := list K.

  Fixpoint vmap2 (f : K -> K -> K) (a b : vec) : vec :=
    match a, b with
    | x :: a', y :: b' => f x y :: vmap2 f a' b'
    | _, _ => []
    end.
  Definition vzero (n : nat) : vec := repeat (0 : K) n.
  Definition vadd (a b : vec) : vec := vmap2 fadd a b.
  Definition vsub (a b : vec) : vec := vmap2 fsub a b.
  Definition vscale (s : K) (a : vec) : vec := map (fmul s) a.
  (** y + s x *)
  Definition vaxpy (s : K) (x y : vec) : vec := vadd y (vscale s x).
  Fixpoint dot (a b : vec) : K :=
    match a, b with
    | x :: a', y :: b' => x * y + dot a' b'
    | _, _ => 0
    end.

  Lemma vmap2_length : forall f a b, length (vmap2 f a b) = Nat.min (length a) (length b).
  Proof. induction a; destruct b; simpl; auto. Qed.
  Lemma vadd_length : forall a b, length (vadd a b) = Nat.min (length a) (length b).
  Proof. intros. apply vmap2_length. Qed.
  Lemma vsub_length : forall a b, length (vsub a b) = Nat.min (length a) (length b).
  Proof. intros. apply vmap2_length. Qed.
  Lemma vscale_length : forall s a, length (vscale s a) = length a.
  Proof. intros. apply map_length. Qed.
  Lemma vzero_length : forall n, length (vzero n) = n.
  Proof. intros. apply repeat_length. Qed.
  Lemma vaxpy_length : forall s x y, length (vaxpy s x y) = Nat.min (length y) (length x).
  Proof. intros. unfold vaxpy. rewrite vadd_length, vscale_length. auto. Qed.

  Lemma nth_vmap2 : forall f a b i, length a = length b -> f 0 0 = 0 -> nth i (vmap2 f a b) 0 = f (nth i a 0) (nth i b 0).
  Proof.
    induction a; destruct b; intros i Hl H0; try discriminate; destruct i; simpl; auto.
  Qed.
  Lemma nth_vadd : forall a b i, length a = length b -> nth i (vadd a b) 0 = nth i a 0 + nth i b 0.
  Proof. intros. apply nth_vmap2; auto. ring. Qed.
  Lemma nth_vsub : forall a b i, length a = length b -> nth i (vsub a b) 0 = nth i a 0 - nth i b 0.
  Proof. intros. apply nth_vmap2; auto. ring. Qed.
  Lemma nth_vscale : forall s a i, nth i (vscale s a) 0 = s * nth i a 0.
  Proof.
    intros. unfold vscale. replace (0 : K) with (s * 0) at 1 by ring. apply map_nth.
  Qed.
  Lemma nth_vzero : forall n i, nth i (vzero n) 0 = 0.
  Proof. intros. apply nth_repeat. Qed.
  Lemma nth_vaxpy : forall s x y i, length x = length y -> nth i (vaxpy s x y) 0 = nth i y 0 + s * nth i x 0.
  Proof. intros. unfold vaxpy. rewrite nth_vadd by (rewrite vscale_length; auto). rewrite nth_vscale. auto. Qed.

  Lemma vec_ext : forall (a b : vec), length a = length b -> (forall i, (i < length a)%nat -> nth i a 0 = nth i b 0) -> a = b.
  Proof. intros a b. apply list_ext. Qed.

  Lemma dot_sumn : forall a b n, length a = n -> length b = n -> dot a b = sumn n (fun i => nth i a 0 * nth i b 0).
  Proof.
    induction a; destruct b; intros n Ha Hb; subst; try discriminate; auto.
    cbn [dot length]. rewrite sumn_shift. simpl nth. rewrite (IHa b (length a0)); auto.
  Qed.

  Lemma dot_comm : forall a b, dot a b = dot b a.
  Proof. induction a; destruct b; simpl; auto. rewrite IHa. ring. Qed.
  Lemma dot_add_l : forall a b c, length a = length b -> dot (vadd a b) c = dot a c + dot b c.
  Proof.
    induction a; destruct b; intros c Hl; try discriminate; [destruct c; simpl; ring|].
    destruct c; simpl; [ring|]. unfold vadd in IHa. rewrite IHa by (simpl in Hl; lia). ring.
  Qed.
  Lemma dot_sub_l : forall a b c, length a = length b -> dot (vsub a b) c = dot a c - dot b c.
  Proof.
    induction a; destruct b; intros c Hl; try discriminate; [destruct c; simpl; ring|].
    destruct c; simpl; [ring|]. unfold vsub in IHa. rewrite IHa by (simpl in Hl; lia). ring.
  Qed.
  Lemma dot_scale_l : forall s a c, dot (vscale s a) c = s * dot a c.
  Proof. induction a; destruct c; simpl; try ring. unfold vscale in IHa. rewrite IHa. ring. Qed.
  Lemma dot_add_r : forall a b c, length a = length b -> dot c (vadd a b) = dot c a + dot c b.
  Proof. intros. rewrite !(dot_comm c). apply dot_add_l; auto. Qed.
  Lemma dot_sub_r : forall a b c, length a = length b -> dot c (vsub a b) = dot c a - dot c b.
  Proof. intros. rewrite !(dot_comm c). apply dot_sub_l; auto. Qed.
  Lemma dot_scale_r : forall s a c, dot c (vscale s a) = s * dot c a.
  Proof. intros. rewrite !(dot_comm c). apply dot_scale_l. Qed.
  Lemma dot_zero_l : forall n a, dot (vzero n) a = 0.
  Proof. induction n; destruct a; simpl; auto. unfold vzero in IHn. rewrite IHn. ring. Qed.
  Lemma dot_zero_r : forall n a, dot a (vzero n) = 0.
  Proof. intros. rewrite dot_comm. apply dot_zero_l. Qed.
  Lemma dot_nonneg : forall a, 0 <= dot a a.
  Proof. induction a; simpl; [apply fle_refl|]. apply fadd_nonneg; auto. apply fsquare_nonneg. Qed.
  Lemma dot_self_0 : forall a, dot a a = 0 -> a = vzero (length a).
  Proof.
    induction a; simpl; auto. intros H.
    apply fadd_nonneg_eq_0 in H; [|apply fsquare_nonneg|apply dot_nonneg].
    destruct H as (H1 & H2). apply fsquare_0 in H1. subst. unfold vzero in *. simpl. f_equal. auto.
  Qed.

  (** Vectors of equal length are equal if all their products with a third vector agree. *)
  Fixpoint unit_vec (n i : nat) : vec :=
    match n, i with
    | O, _ => []
    | S m, O => 1 :: vzero m
    | S m, S j => 0 :: unit_vec m j
    end.
  Lemma unit_vec_length : forall n i, length (unit_vec n i) = n.
  Proof. induction n; destruct i; simpl; auto. rewrite vzero_length; auto. Qed.
  Lemma nth_unit_vec : forall n i j, (i < n)%nat -> nth j (unit_vec n i) 0 = if Nat.eqb j i then 1 else 0.
  Proof.
    induction n; intros i j Hi; [lia|]. destruct i, j; simpl; auto.
    - apply nth_vzero.
    - apply IHn. lia.
  Qed.
  Lemma dot_unit : forall n i a, length a = n -> (i < n)%nat -> dot (unit_vec n i) a = nth i a 0.
  Proof.
    intros n i a Hl Hi. rewrite (dot_sumn _ _ (unit_vec_length n i) Hl). rewrite (sumn_single n i); auto.
    - rewrite nth_unit_vec, Nat.eqb_refl by auto. ring.
    - intros j Hj Hne. rewrite nth_unit_vec by auto. destruct (Nat.eqb_spec j i); [contradiction|]. ring.
  Qed.
  Lemma dot_ext : forall a b, length a = length b -> (forall c, length c = length a -> dot c a = dot c b) -> a = b.
  Proof.
    intros a b Hl H. apply vec_ext; auto. intros i Hi.
    specialize (H (unit_vec (length a) i) (unit_vec_length _ _)).
    rewrite (@dot_unit (length a)) in H by auto. rewrite (@dot_unit (length a)) in H by auto. auto.
  Qed.

  (** ** Linear maps between list vectors *)
  Record linear (n m : nat) (f : vec -> vec) : Prop := {
    lin_len : forall x, length x = n -> length (f x) = m;
    lin_add : forall x y, length x = n -> length y = n -> f (vadd x y) = vadd (f x) (f y);
    lin_scale : forall s x, length x = n -> f (vscale s x) = vscale s (f x)
  }.
  (** [g] is the transpose of [f]. *)
  Definition adjoint (n m : nat) (f g : vec -> vec) : Prop :=
    forall x y, length x = n -> length y = m -> dot (f x) y = dot x (g y).
  Definition self_adjoint (n : nat) (f : vec -> vec) : Prop := adjoint n n f f.
End Vectors.

Arguments vec K : clear implicits.
Arguments vzero {K} n.
Arguments vadd {K} a b.
Arguments vsub {K} a b.
Arguments vscale {K} s a.
Arguments vaxpy {K} s x y.
Arguments dot {K} a b.
Arguments unit_vec {K} n i.

(** Length side conditions. *)
#[export] Hint Rewrite vadd_length vsub_length vscale_length vzero_length vaxpy_length unit_vec_length map_length seq_length app_length repeat_length : veclen.
Ltac vlen := autorewrite with veclen; try (intuition (try congruence; lia)).

Section VectorLemmas.
  Variable K : ofield.
  Add Field Kfield3 : (f_field K).
  Local Open Scope K_scope.
  Implicit Types a b c : vec K.

  Ltac vext := apply vec_ext; [vlen|intros; rewrite ?nth_vadd, ?nth_vsub, ?nth_vscale, ?nth_vzero, ?nth_vadd, ?nth_vsub, ?nth_vscale by vlen; try ring].

  Lemma vadd_comm : forall a b, length a = length b -> vadd a b = vadd b a.
  Proof. intros. vext. Qed.
  Lemma vadd_assoc : forall a b c, length a = length b -> length b = length c -> vadd a (vadd b c) = vadd (vadd a b) c.
  Proof. intros. vext. Qed.
  Lemma vadd_zero_r : forall n a, length a = n -> vadd a (vzero n) = a.
  Proof. intros. vext. Qed.
  Lemma vadd_zero_l : forall n a, length a = n -> vadd (vzero n) a = a.
  Proof. intros. vext. Qed.
  Lemma vsub_zero_r : forall n a, length a = n -> vsub a (vzero n) = a.
  Proof. intros. vext. Qed.
  Lemma vsub_self : forall a, vsub a a = vzero (length a).
  Proof. intros. vext. Qed.
  Lemma vsub_as_add : forall a b, length a = length b -> vsub a b = vadd a (vscale (-(1)) b).
  Proof. intros. vext. Qed.
  Lemma vscale_zero : forall s n, vscale s (vzero n : vec K) = vzero n.
  Proof. intros. vext. Qed.
  Lemma vscale_0 : forall a, vscale 0 a = vzero (length a).
  Proof. intros. vext. Qed.
  Lemma vscale_1 : forall a, vscale 1 a = a.
  Proof. intros. vext. Qed.
  Lemma vscale_vscale : forall s t a, vscale s (vscale t a) = vscale (s * t) a.
  Proof. intros. vext. Qed.
  Lemma vscale_add : forall s a b, length a = length b -> vscale s (vadd a b) = vadd (vscale s a) (vscale s b).
  Proof. intros. vext. Qed.
  Lemma vscale_sub : forall s a b, length a = length b -> vscale s (vsub a b) = vsub (vscale s a) (vscale s b).
  Proof. intros. vext. Qed.

  Lemma lin_sub : forall n m f, linear n m f -> forall x y : vec K, length x = n -> length y = n -> f (vsub x y) = vsub (f x) (f y).
  Proof.
    intros n m f H x y Hx Hy. rewrite !vsub_as_add.
    - rewrite (lin_add H) by vlen. rewrite (lin_scale H) by auto. auto.
    - rewrite !(lin_len H); auto.
    - congruence.
  Qed.
  Lemma lin_zero : forall n m (f : vec K -> vec K), linear n m f -> f (vzero n) = vzero m.
  Proof.
    intros n m f H. rewrite <- (vscale_zero 0 n). rewrite (lin_scale H) by vlen. rewrite vscale_0.
    rewrite (lin_len H) by vlen. auto.
  Qed.
  Lemma linear_comp : forall n m p (f g : vec K -> vec K), linear n m f -> linear m p g -> linear n p (fun x => g (f x)).
  Proof.
    intros n m p f g Hf Hg. constructor; intros.
    - rewrite (lin_len Hg); auto. apply (lin_len Hf); auto.
    - rewrite (lin_add Hf), (lin_add Hg); auto; apply (lin_len Hf); auto.
    - rewrite (lin_scale Hf), (lin_scale Hg); auto. apply (lin_len Hf); auto.
  Qed.
  Lemma adjoint_sym : forall n m (f g : vec K -> vec K), adjoint n m f g -> adjoint m n g f.
  Proof. intros n m f g H x y Hx Hy. rewrite dot_comm. rewrite <- H by auto. apply dot_comm. Qed.
  Lemma adjoint_comp : forall n m p (f fT g gT : vec K -> vec K), (forall x, length x = n -> length (f x) = m) ->
    (forall y, length y = p -> length (gT y) = m) ->
    adjoint n m f fT -> adjoint m p g gT -> adjoint n p (fun x => g (f x)) (fun y => fT (gT y)).
  Proof. intros n m p f fT g gT Hf Hg H1 H2 x y Hx Hy. rewrite H2 by auto. apply H1; auto. Qed.
End VectorLemmas.

Ltac vext := apply vec_ext; [vlen|intros; repeat first [rewrite nth_vadd by vlen | rewrite nth_vsub by vlen | rewrite nth_vscale | rewrite nth_vzero | rewrite nth_vaxpy by vlen]].
