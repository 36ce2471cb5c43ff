(** Sizes: helpers whose objects fit give a hierarchy whose cycles run; a restriction of fixed width does not fit a third level. *)
From Coq Require Import String List Arith ZArith Bool Lia.
From Verif Require Import Base OField Mat M_Ptree S_Ptree P_Ptree M_Hier S_Hier P_Hier P_Hier2 P_HierC P_HierE P_HierV.
Import ListNotations.
Set Implicit Arguments.
Open Scope list_scope.
Open Scope nat_scope.

Section D.
  Variable K : ofield.
  Notation vec := (vec K).
  Variable H : Type.
  Variable hh : helpers K H.
  Variable eps : K.

  Lemma fitting_built : forall p J, fitting_helpers hh p J -> forall todo ro (A : mat K) h, nr A = nc A -> J h (nc A) ->
    exists lv rest ds nc0 C h', built hh eps p ro (TriOp A) h (lv :: rest) h' /\ length rest = todo /\ lv_restrictor lv = ro /\
      describes lv rest ds nc0 C /\ top_size ds nc0 = nc A.
  Proof.
    intros p J F. induction todo as [|todo IH]; intros ro A h D HJ.
    - destruct (ft_coarse F A h D HJ) as (s & h' & C & E & B).
      exists (mkLevel (Some (TriOp A)) ro None (Some s)), [], [], (nc A), C, h'.
      split; [constructor; auto|]. do 2 (split; [reflexivity|]). split; [|reflexivity]. eapply describes_coarsest; simpl; eauto.
    - destruct (ft_smoother F A h D HJ) as (s & h1 & f & E1 & B1 & J1).
      destruct (ft_restrictor F h1 (nc A) J1) as (R & h2 & E2 & D2 & FA).
      assert (X : exists AP h3, product_from hh eps p (TriOp A) (TriOp R) h2 (TriOp AP) h3 /\ nr AP = nc A /\ nc AP = nr R /\ J h3 (nr R)).
      { unfold product_from. destruct (pt_get parse_bool ["fast_ap"%string] false p).
        - destruct FA as (AP & h3 & Q1 & Q2 & Q3 & Q4). exists AP, h3. auto.
        - exists (mmul A (mtrans R)), h2. simpl. rewrite D2, Nat.eqb_refl. auto. }
      destruct X as (AP & h3 & P1 & P2 & P3 & J3).
      set (Ac := mmul R AP). assert (DA : nr Ac = nc Ac) by (unfold Ac; simpl; congruence).
      destruct (IH (Some (TriOp R)) Ac h3 DA) as (lv & rest & ds & nc0 & C & h' & B & L & RO & DS & T).
      { unfold Ac. simpl. rewrite P3. auto. }
      exists (mkLevel (Some (TriOp A)) ro (Some s) None), (lv :: rest),
        (mkFine (nc A) (mulvec A) f (mulvec R) (mulTvec R) :: ds), nc0, C, h'.
      split; [|split; [simpl; congruence|split; [reflexivity|split; [|reflexivity]]]].
      + eapply built_cons; eauto. simpl. replace (nc R =? nr AP)%nat with true by (symmetry; apply Nat.eqb_eq; congruence). reflexivity.
      + assert (TR : top_size ds nc0 = nr R) by (rewrite T; unfold Ac; simpl; auto).
        eapply describes_fine; simpl; eauto; rewrite ?TR, <- ?D2.
        * rewrite D2. pose proof (op_acts_tri A) as X. rewrite D in X. exact X.
        * apply op_acts_tri.
        * apply opT_acts_tri.
  Qed.

  Lemma fitting_runs : forall te0 dbg p h0 (A : mat K) h1 J, (0 < c_levels p)%Z -> fitting_helpers hh (c_params p) J ->
    hh_get_global_operator hh h0 = (Ok (TriOp A), h1) -> nr A = nc A -> J h1 (nc A) ->
    exists h s l, construct hh eps te0 dbg (Ok tt) (Some p) h0 = (Ok h, s, l) /\ length (h_levels h) = Z.to_nat (c_levels p) /\
      forall te x b l, usable te (length (h_levels h)) -> open_sections l = [] -> length x = nc A -> length b = nc A ->
        exists y l', hierarchy_vmult te h x b l = (Ok y, l') /\ length y = nc A.
  Proof.
    intros te0 dbg p h0 A h1 J HL F EG D HJ.
    destruct (@fitting_built (c_params p) J F (pred (Z.to_nat (c_levels p))) None A h1 D HJ) as (lv & rest & ds & nc0 & C & h' & B & L & RO & DS & T).
    assert (LL : length (lv :: rest) = Z.to_nat (c_levels p)) by (simpl; lia).
    destruct (@construct_complete K H hh eps te0 dbg p h0 (TriOp A) h1 (lv :: rest) h' HL EG LL B) as (l & E).
    eexists _, _, l. split; [exact E|]. split; [exact LL|].
    intros te x b l0 U O Hx Hb.
    destruct (@vmult_ok K te (mkHierarchy (lv :: rest) (c_prec p) (c_steps p)) lv rest ds nc0 C eq_refl DS U x b l0 O) as (t & l' & N & R & V); try congruence.
    eexists _, l'. split; [exact V|].
    destruct (describes_sized DS) as (Sz & LC & _).
    rewrite cyc_length; auto; try congruence. cbn [h_is_preconditioner]. destruct (c_prec p); [apply vzero_length|congruence].
  Qed.

  (** Helpers that do not know the level return a restriction of the width of the finest level every time: with three levels or more the
      constructor multiplies matrices that do not fit. *)
  Lemma fixed_width_fails : forall te dbg p h0 (A : mat K) h1, (3 <= c_levels p)%Z -> pt_get parse_bool ["fast_ap"%string] false p = false ->
    hh_get_global_operator hh h0 = (Ok (TriOp A), h1) -> nr A = nc A ->
    (forall h, exists R h', hh_build_restrictor hh p h = (Ok (TriOp R), h') /\ nc R = nc A /\ nr R <> nc A) ->
    (forall (M : mat K) h, exists s h', hh_build_smoother hh (TriOp M) p h = (Ok s, h')) ->
    exists s l, construct hh eps te dbg (Ok tt) (Some p) h0 = (UB, s, l).
  Proof.
    intros te dbg p h0 A h1 HL FA EG D HR HS. unfold construct.
    unfold cbind at 1. unfold ctimer at 1. rewrite enter_setup.
    unfold cbind at 1. unfold clift at 1.
    unfold cbind at 1. unfold clift at 1. cbn [deref]. cbv zeta. fold (c_levels p). fold (c_steps p). fold (c_prec p).
    unfold cbind at 1. unfold clift at 1.
    assert (EA : assert_dbg dbg (0 <? c_levels p)%Z = Ok tt).
    { unfold assert_dbg. destruct (Z.ltb_spec 0 (c_levels p)); [|lia]. rewrite andb_false_r. auto. }
    rewrite EA.
    unfold cbind at 1. unfold clift at 1. unfold resize_levels.
    destruct (Z.ltb_spec (c_levels p) 0) as [Hn|Hn]; [lia|].
    unfold cbind at 1. cbn [cs_h cs_params cs_levels].
    unfold cbind at 1. unfold ccall at 1, call at 1. cbn [cs_h cs_levels cs_params]. rewrite EG.
    unfold cbind at 1. unfold cset_level at 1. cbn [cs_h cs_levels cs_params].
    destruct (Z.to_nat (c_levels p)) as [|[|[|todo]]] eqn:EL; try lia. cbn [repeat nth_error upd].
    unfold set_operator at 1. cbn [level0 lv_op lv_restrictor lv_smoother lv_solver].
    change (setup_levels hh eps te (c_prec p) (S (S (S todo))) 0) with
      (cbind (setup_fine hh eps te 0) (fun _ => cbind (setup_fine hh eps te 1) (fun _ => setup_levels hh eps te (c_prec p) (S todo) 2))).
    unfold cbind at 1. unfold cbind at 1.
    pose proof (clean_setup te) as CL.
    rewrite (@setup_fine_eq K H hh eps te _ h1 p 0 _ (mkLevel (Some (TriOp A)) None None None) (TriOp A) level0) by (auto; reflexivity).
    destruct (HS A h1) as (sm & h2 & ES). rewrite ES. cbv zeta.
    destruct (HR h2) as (R & h3 & ER & D1 & D2). rewrite ER. unfold ap_call. rewrite FA. simpl op_multiply_transpose.
    rewrite D1, Nat.eqb_refl. simpl op_multiply. rewrite D1, D, Nat.eqb_refl. cbn [upd].
    unfold cbind at 1.
    unfold set_smoother, set_operator, set_restrictor, level0. cbn [lv_op lv_restrictor lv_smoother lv_solver].
    rewrite (@setup_fine_eq K H hh eps te _ h3 p 1 _ (mkLevel (Some (TriOp (mmul R (mmul A (mtrans R))))) (Some (TriOp R)) None None) (TriOp (mmul R (mmul A (mtrans R)))) level0)
      by (solve [repeat apply clean_sec; auto] || reflexivity).
    destruct (HS (mmul R (mmul A (mtrans R))) h3) as (sm2 & h4 & ES2). rewrite ES2. cbv zeta.
    destruct (HR h4) as (R2 & h5 & ER2 & D3 & D4). rewrite ER2. unfold ap_call. rewrite FA. simpl op_multiply_transpose.
    replace (nr R =? nc R2)%nat with false by (symmetry; apply Nat.eqb_neq; congruence).
    eexists _, _. reflexivity.
  Qed.
End D.
