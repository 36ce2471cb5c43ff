(** Proofs about the handles of the CUDA libraries. *)
From Coq Require Import List Arith Bool Lia Permutation.
From Verif Require Import Base OField M_Eig P_Eig M_Handle S_Handle.
Import ListNotations.
Set Implicit Arguments.
Open Scope list_scope.
Open Scope nat_scope.

Lemma res_eqb_spec : forall a b, res_eqb a b = true <-> a = b.
Proof.
  intros [a i] [b j]. unfold res_eqb. cbn [fst snd]. rewrite andb_true_iff, Nat.eqb_eq. split; [intros (H & ->)|intros E; injection E as -> ->; split; [destruct b; reflexivity|auto]].
  destruct a, b; try discriminate H; reflexivity.
Qed.
Lemma live_spec : forall r l, existsb (res_eqb r) l = true <-> In r l.
Proof. intros r l. rewrite existsb_exists. split; [intros (x & I & E); apply res_eqb_spec in E; congruence|intros I; exists r; split; [exact I|apply res_eqb_spec; reflexivity]]. Qed.

(** The resources of an object, in the order of their creation. *)
Definition opt_res (l : lib) (p : option nat) : list resource := match p with Some k => [(l, k)] | None => [] end.
Definition res_list (h : handles) : list resource := opt_res LCs (h_cs h) ++ opt_res LSp (h_sp h) ++ opt_res LDn (h_dn h).
Definition res_all (objs : list (nat * handles)) : list resource := flat_map (fun o => res_list (snd o)) objs.
Lemma holds_list : forall h r, holds h r <-> In r (res_list h).
Proof.
  intros [dn sp cs] [l k]. unfold holds, res_list. cbn. rewrite !in_app_iff. unfold opt_res. destruct l, dn, sp, cs; cbn; split; intros H;
    repeat match goal with
    | H : _ \/ _ |- _ => destruct H
    | H : False |- _ => destruct H
    | H : Some _ = Some _ |- _ => injection H as ->
    | H : (_, _) = (_, _) |- _ => inversion H; subst; clear H
    | H : None = Some _ |- _ => discriminate H
    end; tauto.
Qed.

Definition inv (alive : list nat) (s : cstate) : Prop :=
  map fst (c_objs s) = alive /\ NoDup alive /\ Permutation (c_live s) (res_all (c_objs s)) /\ Permutation (map snd (c_live s ++ c_gone s)) (seq 0 (c_next s)).

Lemma inv_nodup : forall alive s, inv alive s -> NoDup (c_live s ++ c_gone s).
Proof. intros alive s (_ & _ & _ & P). apply (NoDup_map_inv snd). eapply Permutation_NoDup; [apply Permutation_sym; exact P|apply seq_NoDup]. Qed.

(** What one creation adds. *)
Definition grown (l : lib) (p : option nat) (s s' : cstate) : Prop :=
  c_live s' = opt_res l p ++ c_live s /\ c_gone s' = c_gone s /\ c_used s' = c_used s /\ c_objs s' = c_objs s /\
  (Permutation (map snd (c_live s ++ c_gone s)) (seq 0 (c_next s)) -> Permutation (map snd (c_live s' ++ c_gone s')) (seq 0 (c_next s'))).
Lemma create_spec : forall debug ok l s, (exists p s', create debug ok l s = Ok (p, s') /\ grown l p s s' /\ (ok = true -> p <> None) /\ (debug = true -> ok = true)) \/ (debug = true /\ ok = false /\ create debug ok l s = Abort).
Proof.
  intros debug ok l s. unfold create. destruct ok.
  - left. eexists _, _. split; [reflexivity|]. split; [|split; [intros _; discriminate|auto]]. unfold grown. cbn [c_live c_gone c_used c_objs c_next opt_res app map snd]. repeat (split; [reflexivity|]). intros P.
    rewrite seq_S. cbn [plus]. apply Permutation_sym. eapply Permutation_trans; [apply Permutation_app_comm|]. cbn [app]. apply perm_skip. apply Permutation_sym. exact P.
  - destruct debug; [right; auto|]. left. eexists _, _. split; [reflexivity|]. split; [|split; discriminate]. unfold grown. cbn. repeat (split; [reflexivity|]). auto.
Qed.

Lemma new_spec : forall debug id dn sp cs alive s, inv alive s -> ~ In id alive ->
  (exists s' h, construct_handle debug id dn sp cs s = Ok s' /\ inv (id :: alive) s' /\ c_used s' = c_used s /\ c_objs s' = (id, h) :: c_objs s /\
     (dn = true -> sp = true -> cs = true -> forall l, member l h <> None) /\ (debug = true -> dn = true /\ sp = true /\ cs = true)) \/
  (debug = true /\ ~ (dn = true /\ sp = true /\ cs = true) /\ construct_handle debug id dn sp cs s = Abort).
Proof.
  intros debug id dn sp cs alive s (I1 & I2 & I3 & I4) N. unfold construct_handle.
  destruct (create_spec debug dn LDn s) as [(p1 & s1 & -> & (A1 & A2 & A3 & A4 & A5) & Z1 & Y1)|(-> & -> & ->)]; [|right; split; [reflexivity|split; [intros (W & _); discriminate W|reflexivity]]]. cbn [bind snd fst].
  destruct (create_spec debug sp LSp s1) as [(p2 & s2 & -> & (B1 & B2 & B3 & B4 & B5) & Z2 & Y2)|(-> & -> & ->)]; [|right; split; [reflexivity|split; [intros (_ & W & _); discriminate W|reflexivity]]]. cbn [bind snd fst].
  destruct (create_spec debug cs LCs s2) as [(p3 & s3 & -> & (C1 & C2 & C3 & C4 & C5) & Z3 & Y3)|(-> & -> & ->)]; [|right; split; [reflexivity|split; [intros (_ & _ & W); discriminate W|reflexivity]]]. cbn [bind snd fst].
  left. eexists _, (mkHandles p1 p2 p3). split; [reflexivity|]. split; [|cbn [c_used c_objs]; split; [congruence|split; [rewrite C4, B4, A4; reflexivity|]]].
  - split; [cbn [c_objs map fst]; rewrite C4, B4, A4, I1; reflexivity|]. split; [constructor; auto|]. split.
    + cbn [c_live c_objs]. rewrite C1, B1, A1, C4, B4, A4. unfold res_all. cbn [flat_map snd]. unfold res_list at 1. cbn [h_dn h_sp h_cs]. rewrite <- !app_assoc. repeat apply Permutation_app_head. exact I3.
    + cbn [c_live c_gone c_next]. apply C5, B5, A5. exact I4.
  - split; [intros D1 D2 D3 l; destruct l; cbn [member h_dn h_sp h_cs]; auto|]. intros D. auto.
Qed.

(** What one destruction takes away. *)
Lemma destroy_spec : forall l p s rest, NoDup (c_live s ++ c_gone s) -> Permutation (c_live s) (opt_res l p ++ rest) ->
  exists s', destroy l p s = Ok s' /\ Permutation (c_live s') rest /\ c_used s' = c_used s /\ c_objs s' = c_objs s /\ c_next s' = c_next s /\
    Permutation (c_live s' ++ c_gone s') (c_live s ++ c_gone s).
Proof.
  intros l p s rest ND P. unfold destroy. destruct p as [k|]; [|exists s; cbn in P; repeat (split; [auto|]); apply Permutation_refl].
  cbn [opt_res app] in P. assert (I : In (l, k) (c_live s)) by (eapply Permutation_in; [apply Permutation_sym; exact P|left; reflexivity]).
  rewrite (proj2 (live_spec _ _) I). eexists. split; [reflexivity|]. cbn [c_live c_gone c_used c_objs c_next].
  assert (X : forall L, NoDup L -> In (l, k) L -> Permutation L ((l, k) :: filter (fun r => negb (res_eqb (l, k) r)) L)).
  { clear. induction L as [|r L IH]; intros ND I; [destruct I|]. inversion ND as [|? ? N1 N2]; subst. cbn [filter]. destruct (res_eqb (l, k) r) eqn:E; cbn [negb].
    - apply res_eqb_spec in E. subst r. apply perm_skip. assert (Y : filter (fun r => negb (res_eqb (l, k) r)) L = L).
      { clear - N1. induction L as [|r L IH]; [reflexivity|]. cbn [filter]. destruct (res_eqb (l, k) r) eqn:E; cbn [negb]; [apply res_eqb_spec in E; subst r; exfalso; apply N1; left; auto|].
        f_equal. apply IH. intros I. apply N1. right. auto. }
      rewrite Y. apply Permutation_refl.
    - destruct I as [->|I]; [assert (Z := proj2 (res_eqb_spec (l, k) (l, k)) eq_refl); congruence|]. eapply Permutation_trans; [apply perm_skip; apply IH; auto|]. apply perm_swap. }
  assert (NL : NoDup (c_live s)) by (clear - ND; induction (c_live s) as [|r L IH]; [constructor|]; cbn in ND; inversion ND; subst; constructor; [intros I; apply H1; apply in_or_app; auto|auto]).
  specialize (X _ NL I). split; [eapply Permutation_cons_inv; eapply Permutation_trans; [apply Permutation_sym; exact X|exact P]|].
  repeat (split; [reflexivity|]). eapply Permutation_trans; [apply Permutation_sym, Permutation_middle|]. change ((l, k) :: ?a ++ ?b) with (((l, k) :: a) ++ b). apply Permutation_app_tail. apply Permutation_sym. exact X.
Qed.

Lemma find_in : forall id objs, In id (map fst objs) -> exists h, c_find id objs = Some h /\ In (id, h) objs.
Proof.
  intros id objs. induction objs as [|[i h] r IH]; intros I; [destruct I|]. cbn [c_find]. destruct (Nat.eqb_spec i id) as [->|N]; [exists h; split; [auto|left; auto]|].
  destruct I as [E|I]; [cbn in E; congruence|]. destruct (IH I) as (h' & E & J). exists h'. split; [exact E|right; exact J].
Qed.
Lemma drop_names : forall id objs, map fst (c_drop id objs) = remove Nat.eq_dec id (map fst objs).
Proof.
  intros id objs. unfold c_drop. induction objs as [|[i h] r IH]; [reflexivity|]. cbn [filter map fst remove]. destruct (Nat.eqb_spec i id) as [->|N]; cbn [negb].
  - destruct (Nat.eq_dec id id); [exact IH|congruence].
  - destruct (Nat.eq_dec id i); [congruence|]. cbn [map fst]. f_equal. exact IH.
Qed.
Lemma drop_res : forall id h objs, NoDup (map fst objs) -> c_find id objs = Some h -> Permutation (res_all objs) (res_list h ++ res_all (c_drop id objs)).
Proof.
  intros id h objs. unfold c_drop. induction objs as [|[i h'] r IH]; intros ND E; [discriminate|]. cbn [c_find] in E. cbn [map fst] in ND. inversion ND as [|? ? N1 N2]; subst.
  destruct (Nat.eqb_spec i id) as [->|N]; cbn [filter fst].
  - injection E as ->. rewrite Nat.eqb_refl. cbn [negb]. unfold res_all. cbn [flat_map snd]. apply Permutation_app_head.
    assert (Y : filter (fun o : nat * handles => negb (fst o =? id)) r = r).
    { clear - N1. induction r as [|[i h] r IH]; [reflexivity|]. cbn [filter fst]. destruct (Nat.eqb_spec i id) as [->|N]; [exfalso; apply N1; left; reflexivity|]. cbn [negb]. f_equal. apply IH. intros I. apply N1. right. exact I. }
    rewrite Y. apply Permutation_refl.
  - destruct (Nat.eqb_spec i id) as [Q|_]; [contradiction|]. cbn [negb]. unfold res_all in *. cbn [flat_map snd]. rewrite Permutation_app_swap_app. apply Permutation_app_head. auto.
Qed.

Lemma delete_spec : forall debug id alive s, inv alive s -> In id alive ->
  exists s', cstep debug (CDelete id) s = Ok s' /\ inv (remove Nat.eq_dec id alive) s' /\ c_used s' = c_used s /\ c_objs s' = c_drop id (c_objs s).
Proof.
  intros debug id alive s HI I. assert (ND := inv_nodup HI). destruct HI as (I1 & I2 & I3 & I4). cbn [cstep]. subst alive. destruct (find_in _ _ I) as (h & E & _). rewrite E.
  assert (P := Permutation_trans I3 (@drop_res id h (c_objs s) I2 E)). unfold res_list in P. rewrite <- !app_assoc in P. unfold destruct_handle.
  destruct (@destroy_spec LCs (h_cs h) s _ ND P) as (s1 & -> & P1 & U1 & O1 & X1 & Q1). cbn [bind].
  destruct (@destroy_spec LSp (h_sp h) s1 _ (Permutation_NoDup (Permutation_sym Q1) ND) P1) as (s2 & -> & P2 & U2 & O2 & X2 & Q2). cbn [bind].
  destruct (@destroy_spec LDn (h_dn h) s2 _ (Permutation_NoDup (Permutation_sym (Permutation_trans Q2 Q1)) ND) P2) as (s3 & -> & P3 & U3 & O3 & X3 & Q3). cbn [bind].
  eexists. split; [reflexivity|]. cbn [c_used c_objs]. rewrite O3, O2, O1. split; [|split; [congruence|reflexivity]].
  split; [cbn [c_objs]; apply drop_names|]. split; [rewrite <- drop_names; unfold c_drop|].
  - clear - I2. induction (c_objs s) as [|[i h'] r IH]; [constructor|]. cbn [map fst] in I2. inversion I2 as [|? ? N1 N2]; subst. cbn [filter fst]. destruct (negb (i =? id)); [|auto]. cbn [map fst]. constructor; auto.
    intros J. apply N1. apply in_map_iff in J. destruct J as (x & E & J). apply filter_In in J. apply in_map_iff. exists x. tauto.
  - cbn [c_live c_gone c_next c_objs]. split; [exact P3|]. rewrite X3, X2, X1. eapply Permutation_trans; [apply Permutation_map; eapply Permutation_trans; [exact Q3|eapply Permutation_trans; [exact Q2|exact Q1]]|exact I4].
Qed.

(** All members of all objects are set. *)
Definition full (s : cstate) : Prop := forall id h l, In (id, h) (c_objs s) -> member l h <> None.
Lemma run_spec : forall debug l alive s, scoped alive l -> inv alive s -> (debug = true -> full s) ->
  (exists s', crun debug l s = Ok s' /\ inv (alive_after alive l) s' /\ ((full s /\ all_created l) -> length (c_used s') = calls l + length (c_used s)) /\ (debug = true -> all_created l)) \/
  (debug = true /\ ~ all_created l /\ crun debug l s = Abort).
Proof.
  intros debug l. induction l as [|o l IH]; intros alive s SC HI HF.
  - left. exists s. split; [reflexivity|]. split; [exact HI|]. split; [reflexivity|]. intros _ id dn sp cs [].
  - destruct o as [id dn sp cs|id|id lb|d src]; cbn [scoped] in SC; try destruct SC as (S1 & S2); [| | |destruct SC].
    + cbn [crun cstep alive_after calls]. destruct (@new_spec debug id dn sp cs alive s HI S1) as [(s' & h & -> & I' & U & O & FN & DN)|(-> & N & ->)].
      2: { right. split; [reflexivity|]. split; [intros AC; apply N; apply (AC id dn sp cs); left; reflexivity|reflexivity]. }
      cbn [bind].
      assert (FF : full s -> dn = true /\ sp = true /\ cs = true -> full s').
      { intros HF' (D1 & D2 & D3) i h' lb I. rewrite O in I. destruct I as [Q|I]; [injection Q as <- <-; auto|eapply HF'; exact I]. }
      destruct (IH (id :: alive) s' S2 I') as [(s2 & E & I2 & L2 & C2)|(D & N & E)]; [intros D; apply FF; auto| |].
      * left. exists s2. split; [exact E|]. split; [exact I2|]. split; [intros (F1 & AC); rewrite L2, U; auto; split; [apply FF; auto; apply (AC id dn sp cs); left; reflexivity|]|].
        { intros i a b c Ic. apply (AC i a b c). right. exact Ic. }
        intros D i a b c [Q|Ic]; [injection Q as <- <- <- <-; auto|apply (C2 D i a b c Ic)].
      * right. split; [exact D|]. split; [|exact E]. intros AC. apply N. intros i a b c Ic. apply (AC i a b c). right. exact Ic.
    + cbn [crun alive_after calls]. destruct (@delete_spec debug id alive s HI S1) as (s' & -> & I' & U & O). cbn [bind].
      assert (FF : full s -> full s') by (intros F i h lb I; rewrite O in I; apply filter_In in I; apply (F i h lb); tauto).
      destruct (IH _ s' S2 I') as [(s2 & E & I2 & L2 & C2)|(D & N & E)]; [auto| |].
      * left. exists s2. split; [exact E|]. split; [exact I2|]. split; [intros (F1 & AC); rewrite L2, U; auto; split; [auto|]; intros i a b c Ic; apply (AC i a b c); right; exact Ic|].
        intros D i a b c [Q|Ic]; [discriminate Q|apply (C2 D i a b c Ic)].
      * right. split; [exact D|]. split; [|exact E]. intros AC. apply N. intros i a b c Ic. apply (AC i a b c). right. exact Ic.
    + cbn [crun alive_after calls cstep]. assert (HI' := HI). destruct HI as (I1 & _ & I3 & _). assert (J := S1). rewrite <- I1 in J. destruct (find_in _ _ J) as (h & -> & Ih).
      destruct (member lb h) as [k|] eqn:M.
      * assert (IL : In (lb, k) (c_live s)) by (eapply Permutation_in; [apply Permutation_sym; exact I3|]; unfold res_all; apply in_flat_map; exists (id, h); split; [exact Ih|apply holds_list; exact M]).
        rewrite (proj2 (live_spec _ _) IL). cbn [bind]. match goal with |- context [crun debug l ?t] => destruct (IH alive t S2 HI') as [(s2 & E & I2 & L2 & C2)|(D & N & E)]; [exact HF| |] end.
        -- left. exists s2. split; [exact E|]. split; [exact I2|]. split; [intros (F1 & AC); rewrite L2; [cbn [c_used length]; lia|]; split; [exact F1|]; intros i a b c Ic; apply (AC i a b c); right; exact Ic|].
           intros D i a b c [Q|Ic]; [discriminate Q|apply (C2 D i a b c Ic)].
        -- right. split; [exact D|]. split; [|exact E]. intros AC. apply N. intros i a b c Ic. apply (AC i a b c). right. exact Ic.
      * destruct debug; [exfalso; apply (HF eq_refl id h lb Ih M)|]. cbn [bind]. destruct (IH alive s S2 HI') as [(s2 & E & I2 & L2 & C2)|(D & _)]; [discriminate| |discriminate D].
        left. exists s2. split; [exact E|]. split; [exact I2|]. split; [intros (F1 & _); exfalso; apply (F1 id h lb Ih M)|discriminate].
Qed.

Section PGuess.
  Variable K : ofield.
  Lemma rw_fill_spec : forall (draw : nat -> K) con k i calls rw g, @rw_fill K draw con k i calls rw g =
    if (i <=? g) && (g <? i + k) then nth (g - i) (guess_from draw con k i calls) 0%K else rw g.
  Proof.
    intros draw con. induction k as [|k IH]; intros i calls rw g; cbn [rw_fill guess_from].
    - rewrite Nat.add_0_r. destruct (Nat.leb_spec i g), (Nat.ltb_spec g i); try reflexivity; lia.
    - destruct (con i); rewrite IH; destruct (Nat.leb_spec (S i) g), (Nat.ltb_spec g (S i + k)), (Nat.leb_spec i g), (Nat.ltb_spec g (i + S k)), (Nat.eqb_spec g i);
        cbn [andb]; try lia; try reflexivity; try (subst g; rewrite Nat.sub_diag; reflexivity);
        replace (g - i) with (S (g - S i)) by lia; reflexivity.
  Qed.
End PGuess.
