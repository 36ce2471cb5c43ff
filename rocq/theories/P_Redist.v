(** The same agglomerates on other ranks give the same preconditioner. *)
From Coq Require Import String List Arith ZArith Bool Lia Field Permutation.
From Verif Require Import Base OField Mat LinAlg M_Ptree S_Ptree P_Ptree M_Agglo S_Agglo P_Agglo P_Agglo2 M_WorkStream P_WorkStream M_Restr S_Restr P_Restr P_Restr2
  M_FastAP S_FastAP P_FastAP P_FastAP2 M_Lanczos S_Lanczos M_Eig S_Eig P_Eig M_Hier S_Hier P_Hier P_Hier2 P_HierE P_HierS M_Smoother P_Smoother M_Host P_Host M_HostEnd S_HostEnd P_HostEnd C_Eig C_Restr
  P_Amgx3 S_Rate P_Rate P_Rate2 P_Approx C_Rate M_Par S_Par P_Par P_Par2 P_Par3 P_Par4 C_Host C_Par S_Host P_HostN P_HierC M_ParEnd S_ParEnd P_ParEnd S_Redist.
Import ListNotations.
Set Implicit Arguments.
Open Scope list_scope.
Open Scope nat_scope.

Section PRedist.
  Variable K : ofield.
  Add Field KfieldRedist : (f_field K).
  Local Notation vec := (vec K).

  (** * The coarse correction depends on the span only *)
  Lemma kernel_span : forall (R R' : mat K) w, same_span R R' -> length w = nc R -> mulvec R w = vzero (nr R) -> mulvec R' w = vzero (nr R').
  Proof.
    intros R R' w (E & _ & S2) Lw H. apply (@list_ext K _ _ 0%K); [rewrite mulvec_length, vzero_length; reflexivity|].
    intros i Hi. rewrite mulvec_length in Hi. rewrite <- (@dot_unit K (nr R') i) by (try rewrite mulvec_length; auto).
    assert (Lu : length (unit_vec (K := K) (nr R') i) = nr R') by apply unit_vec_length.
    destruct (S2 _ Lu) as (c & Lc & Ec).
    assert (X : dot (unit_vec (K := K) (nr R') i) (mulvec R' w) = dot (mulTvec R' (unit_vec (nr R') i)) w).
    { symmetry. apply (mulTvec_adjoint R'); [exact Lu|congruence]. }
    rewrite X, <- Ec. assert (Y : dot (mulTvec R c) w = dot c (mulvec R w)) by (apply (mulTvec_adjoint R); auto). rewrite Y, H, dot_zero_r, nth_vzero. reflexivity.
  Qed.
  Lemma two_grid_span : forall (A R R' : mat K) B k b x y, nr A = nc A -> nc R = nc A -> same_span R R' -> length b = nc A ->
    two_grid A R B k b x y -> two_grid A R' B k b x y.
  Proof.
    intros A R R' B k b x y DA DR SP Lb (c & L & E & ->). destruct SP as (E0 & S1 & S2). destruct (S1 c L) as (c' & L' & E').
    exists c'. cbv zeta. split; [exact L'|]. rewrite E'. split; [|reflexivity]. set (u := iter k _ x) in *.
    assert (Lw1 : length (mulvec A (mulTvec R c)) = nc R) by (rewrite mulvec_length; congruence).
    assert (Lw2 : length (vsub b (mulvec A u)) = nc R) by (rewrite vsub_length, mulvec_length; lia).
    assert (Z : mulvec R' (vsub (mulvec A (mulTvec R c)) (vsub b (mulvec A u))) = vzero (nr R')).
    { apply (@kernel_span R R'); [exact (conj E0 (conj S1 S2))|rewrite vsub_length; lia|]. rewrite (lin_sub (mulvec_linear R)) by assumption. rewrite E, vsub_self, mulvec_length. reflexivity. }
    rewrite (lin_sub (mulvec_linear R')) in Z by congruence.
    apply (@list_ext K _ _ 0%K); [rewrite !mulvec_length; reflexivity|]. intros i Hi. rewrite mulvec_length in Hi. apply (f_equal (fun v => nth i v 0%K)) in Z.
    rewrite nth_vzero, nth_vsub in Z by (rewrite !mulvec_length; auto). match type of Z with (?x - ?y)%K = _ => transitivity (x - y + y)%K; [ring|rewrite Z; ring] end.
  Qed.

  (** * Permuted rows *)
  Lemma sum_perm : forall X (f : X -> nat -> K) (l l' : list X), Permutation l l' -> forall c : vec, length c = length l ->
    exists c', Permutation c c' /\ forall g, lsum (map (fun xy => (f (fst xy) g * snd xy)%K) (combine l c)) = lsum (map (fun xy => (f (fst xy) g * snd xy)%K) (combine l' c')).
  Proof.
    intros X f l l' H. induction H as [|x l l' H IH|x y l|l l' l'' H1 IH1 H2 IH2]; intros c L.
    - exists c. split; [apply Permutation_refl|reflexivity].
    - destruct c as [|y c]; [discriminate L|]. destruct (IH c ltac:(cbn in L; lia)) as (c' & P & E). exists (y :: c'). split; [constructor; exact P|]. intros g. cbn [combine map lsum fst snd]. rewrite E. reflexivity.
    - destruct c as [|a [|b c]]; try discriminate L. exists (b :: a :: c). split; [constructor|]. intros g. cbn [combine map lsum fst snd]. ring.
    - destruct (IH1 c L) as (c1 & P1 & E1). destruct (IH2 c1) as (c2 & P2 & E2); [rewrite <- (Permutation_length P1), <- (Permutation_length H1); exact L|].
      exists c2. split; [eapply Permutation_trans; eauto|]. intros g. rewrite E1. apply E2.
  Qed.
  (** The matrix whose rows are the functions of the list. *)
  Definition listed X (f : X -> nat -> K) (l : list X) (R : mat K) : Prop :=
    nr R = length l /\ forall r g, g < nc R -> ent R r g = match nth_error l r with Some x => f x g | None => 0%K end.
  Lemma listed_mulT : forall X (f : X -> nat -> K) l R c g, listed f l R -> length c = nr R -> g < nc R ->
    nth g (mulTvec R c) 0%K = lsum (map (fun xy => (f (fst xy) g * snd xy)%K) (combine l c)).
  Proof.
    intros X f l R c g (E1 & E2) Lc Hg. unfold mulTvec. rewrite nth_mulvec by exact Hg. cbn [mtrans nc ent].
    transitivity (sumn (length l) (fun r => (match nth_error l r with Some x => f x g | None => 0 end * nth r c 0)%K)).
    { rewrite E1. apply sumn_ext. intros r _. rewrite E2 by exact Hg. reflexivity. }
    rewrite E1 in Lc. clear E1 E2 Hg R. revert c Lc. induction l as [|x l IH]; intros [|y c] L; try discriminate L; [reflexivity|].
    cbn [length]. rewrite sumn_shift. cbn [nth_error nth combine map lsum fst snd]. f_equal. apply IH. cbn in L. lia.
  Qed.
  Lemma listed_span : forall X (f : X -> nat -> K) l l' R R', Permutation l l' -> nc R = nc R' -> listed f l R -> listed f l' R' ->
    nr R = nr R' /\ same_span R R' /\ (full_row_rank R -> full_row_rank R').
  Proof.
    intros X f l l' R R' P E H H'.
    assert (V : forall l l' R R' c, Permutation l l' -> nc R = nc R' -> listed f l R -> listed f l' R' -> length c = nr R -> exists c', Permutation c c' /\ length c' = nr R' /\ mulTvec R' c' = mulTvec R c).
    { clear. intros l l' R R' c P E H H' L. destruct (@sum_perm X f l l' P c) as (c' & P' & S); [rewrite L; apply H|]. assert (L' : length c' = nr R') by (rewrite <- (Permutation_length P'), L, (proj1 H), (proj1 H'); apply Permutation_length; exact P).
      exists c'. split; [exact P'|]. split; [exact L'|]. apply (@list_ext K _ _ 0%K); [rewrite !mulTvec_length; auto|]. intros g Hg. rewrite mulTvec_length in Hg.
      rewrite (@listed_mulT X f l' R' c' g H' L' Hg), (@listed_mulT X f l R c g H L) by congruence. symmetry. apply S. }
    split; [rewrite (proj1 H), (proj1 H'); apply Permutation_length; exact P|]. split.
    - split; [exact E|]. split.
      + intros c L. destruct (V l l' R R' c P E H H' L) as (c' & _ & Q). exists c'. exact Q.
      + intros c L. destruct (V l' l R' R c (Permutation_sym P) (eq_sym E) H' H L) as (c' & _ & Q). exists c'. exact Q.
    - intros FR c L Z. destruct (V l' l R' R c (Permutation_sym P) (eq_sym E) H' H L) as (c' & P' & L' & Q). rewrite Z, <- E in Q. specialize (FR c' L' Q).
      apply (@list_ext K _ _ 0%K); [rewrite vzero_length; exact L|]. intros i Hi. rewrite nth_vzero.
      assert (I : In (nth i c 0%K) c') by (apply (Permutation_in _ P'); apply nth_In; exact Hi). rewrite FR in I. apply repeat_spec in I. exact I.
  Qed.

  (** * Runs *)
  Variable parse_unsigned : string -> option Z.
  Variable parse_double : string -> option K.
  Variable lobpcg : (vec -> vec) -> Z -> K -> list vec -> bool * eigensolution K.
  Variable fsqrt : K -> option K.
  Variable dstev : list K -> list K -> outcome (list K * list K).
  Variable tol2 : K.
  Variable rand : nat -> nat -> K.
  Variable std_sort : (nat -> nat -> bool) -> list nat -> list nat.
  Variable lapack : mat K -> K -> K -> outcome (list K * list vec).
  Variable arpack : mat K -> K -> vec -> nat -> outcome (list K * list vec).
  Variables (debug dim3 : bool).
  Variable F : fem K.
  Variable A : mat K.
  Local Notation D := (fun g => ent A g g).
  Local Notation agglomerates := (rank_agglomerates parse_unsigned debug dim3).
  Local Notation problem := (rank_problem parse_double lobpcg fsqrt dstev tol2 rand std_sort lapack arpack debug).
  Local Notation rrun := (rank_run parse_unsigned parse_double lobpcg fsqrt dstev tol2 rand std_sort lapack arpack debug dim3).
  Local Notation run := (par_restrictor_run parse_unsigned parse_double lobpcg fsqrt dstev tol2 rand std_sort lapack arpack debug dim3 (f_ndofs F)).
  Hypothesis Hsym : forall c g h, f_cm F c g h = f_cm F c h g.
  Hypothesis Hlapack : lapack_ok lapack.

  Lemma results_ok : forall eig agg rk l, eigensolver_matrix debug eig = Ok ELapack -> rank_ok debug F D rk -> rank_results agglomerates problem eig agg rk l ->
    (forall c, In c l -> agg_ok c) /\ gd_ok D l (rk_gd rk).
  Proof.
    intros eig agg rk l EL (Hm & Hp & Hev & Hcon & Hgd) (ui & n & BA & F2). set (mq := rk_mesh rk) in *.
    pose proof (@ghosts_zero K parse_unsigned debug dim3 rk agg ui n Hm Hp BA) as GZ. fold mq in GZ.
    assert (V : forall c, In c l -> agg_ok c /\ forall g, In g (ag_map c) -> rk_gd rk g = Some (D g)).
    { intros c Ic. assert (X : exists a, 1 <= a /\ problem rk eig ui a [] = Ok c).
      { clear - F2 Ic. assert (Y : forall a, In a (seq 1 n) -> 1 <= a) by (intros a Ia; apply in_seq in Ia; lia). induction F2 as [|a c0 s l H F2 IH]; [destruct Ic|].
        destruct Ic as [<-|Ic]; [exists a; split; [apply Y; left; reflexivity|exact H]|]. apply IH; auto. intros; apply Y; right; auto. }
      destruct X as (a & Ha & P). unfold rank_problem, local_problem in P. fold mq in P. rewrite own_patch, Hcon in P by auto.
      assert (N : NoDup (agg_cells mq ui a)) by (apply NoDup_filter, seq_NoDup).
      assert (IA : incl (agg_cells mq ui a) (owned_cells mq)).
      { intros k Hk. apply filter_In in Hk. destruct Hk as (H1 & H2). apply andb_prop in H2. apply filter_In. tauto. }
      set (cells := agg_cells mq ui a) in *. destruct (Hev cells N IA) as (Q1 & Q2 & Q3 & Q4 & Q5).
      assert (SY : symmetric_matrix (snd (rk_evaluate rk cells))).
      { split; [red; congruence|]. intros i j Hi Hj. rewrite !Q5 by lia. apply lsum_map_ext. intros k _. apply Hsym. }
      assert (DC : decoupled (snd (rk_evaluate rk cells)) []) by (intros i j []).
      destruct (@C36_lapack K _ _ _ _ _ _ _ _ _ _ _ _ _ _ _ _ _ _ _ Hlapack SY DC EL P) as (L1 & L2 & (O & _) & _ & HE).
      destruct (@C36_result K _ _ _ _ _ _ _ _ _ _ _ _ _ _ _ _ _ _ _ P) as (_ & _ & _ & _ & _ & _ & _ & HD & HM).
      split.
      - split; [rewrite HD, map_length, seq_length, HM; exact Q2|]. intros e Ie. unfold sized_all in O. rewrite Forall_forall in O. rewrite (O e Ie), HM. exact Q2.
      - intros g Ig. rewrite HM in Ig. apply Q4 in Ig. destruct Ig as (k & Ik & Ig). apply in_map_iff in Ik. destruct Ik as (k0 & <- & Ik). apply (Hgd k0); auto. }
    split; [intros c Ic; apply (V c Ic)|]. intros c Ic g Ig. apply (V c Ic). exact Ig.
  Qed.
  Lemma run_results : forall eig agg ranks ds, eigensolver_matrix debug eig = Ok ELapack -> Forall2 (rrun eig agg) ranks ds ->
    exists ls, Forall2 (rank_results agglomerates problem eig agg) ranks ls /\ ds = map (@data_of K) ls.
  Proof.
    intros eig agg ranks ds EL H. induction H as [|rk d ranks ds (ui & n & ns & nb & BA & C) H (ls & I1 & I2)]; [exists []; split; [constructor|reflexivity]|].
    unfold rank_problem in C. eapply (@collected K) in C; [|exact EL]. destruct C as (res & HP & ->). exists (map res (seq 1 n) :: ls). cbn [map]. split; [|congruence]. constructor; [|exact I1].
    exists ui, n. split; [exact BA|]. assert (Y : forall a, In a (seq 1 n) -> 1 <= a <= n) by (intros a Ia; apply in_seq in Ia; lia). revert Y. generalize (seq 1 n) as s.
    induction s as [|a s IH]; intros Y; cbn [map]; constructor; [apply HP; apply Y; left; reflexivity|apply IH; intros; apply Y; right; auto].
  Qed.
  Lemma run_listed : forall ranks p R eig agg, run ranks p R -> pt_find p ["eigensolver"%string] = Some eig -> pt_find p ["agglomeration"%string] = Some agg ->
    eigensolver_matrix debug eig = Ok ELapack -> (forall rk, In rk ranks -> rank_ok debug F D rk) ->
    exists ls, Forall2 (rank_results agglomerates problem eig agg) ranks ls /\ nc R = f_ndofs F /\ listed (r_entry D) (rows_of (concat ls)) R.
  Proof.
    intros ranks p R eig agg (eig' & agg' & ds & ms & P1 & P2 & RR & AS & ->) Q1 Q2 EL HR. rewrite Q1 in P1. injection P1 as <-. rewrite Q2 in P2. injection P2 as <-.
    destruct (@run_results eig agg ranks ds EL RR) as (ls & F2 & ->). exists ls. split; [exact F2|]. split; [reflexivity|].
    assert (V : forall q l, nth_error ls q = Some l -> exists rk, nth_error ranks q = Some rk /\ (forall c, In c l -> agg_ok c) /\ gd_ok D l (rk_gd rk)).
    { clear - F2 HR Hsym Hlapack EL. induction F2 as [|rk l ranks ls H F2 IH]; intros [|q] l' E; try discriminate E; cbn [nth_error] in E |- *.
      - injection E as <-. exists rk. split; [reflexivity|]. exact (@results_ok eig agg rk l EL (HR rk (or_introl eq_refl)) H).
      - apply IH; auto. intros; apply HR; right; auto. }
    destruct (@C11_restriction_rows K debug true (fun q => match nth_error ranks q with Some rk => rk_gd rk | None => fun _ => None end) D ls) as (ms' & E1 & _ & E2).
    - intros l c Il Ic. apply In_nth_error in Il. destruct Il as (q & Hq). destruct (V q l Hq) as (_ & _ & G & _). exact (G c Ic).
    - intros q l Hq. destruct (V q l Hq) as (rk & -> & _ & G). exact G.
    - rewrite AS in E1. injection E1 as <-. split; [|intros r g _; cbn [distributed_matrix ent]; apply E2].
      cbn [distributed_matrix nr]. unfold n_total_rows, rows_per_proc. rewrite map_map. clear. induction ls as [|l ls IH]; [reflexivity|]. cbn [map list_sum concat fold_right] in *.
      unfold rows_of in *. rewrite flat_map_app, app_length. f_equal; [|exact IH]. cbn [data_of da_evecs]. apply (@flat_evecs_length K l).
  Qed.
  Lemma redistributed : forall ranks ranks' p R R', run ranks p R -> run ranks' p R' -> same_agglomerates agglomerates problem p ranks ranks' ->
    (forall eig, pt_find p ["eigensolver"%string] = Some eig -> eigensolver_matrix debug eig = Ok ELapack) ->
    (forall rk, In rk ranks \/ In rk ranks' -> rank_ok debug F D rk) -> nr R = nr R' /\ same_span R R' /\ (full_row_rank R -> full_row_rank R').
  Proof.
    intros ranks ranks' p R R' H H' SA HE HR. assert (H0 := H). destruct H0 as (eig & agg & _ & _ & P1 & P2 & _). specialize (HE eig P1).
    destruct (@run_listed ranks p R eig agg H P1 P2 HE) as (ls & F2 & E1 & L1); [intros; apply HR; auto|]. destruct (@run_listed ranks' p R' eig agg H' P1 P2 HE) as (ls' & F2' & E1' & L1'); [intros; apply HR; auto|].
    apply (@listed_span _ (r_entry D) (rows_of (concat ls)) (rows_of (concat ls'))); auto; [|congruence].
    unfold rows_of. apply Permutation_flat_map. exact (SA eig agg ls ls' P1 P2 F2 F2').
  Qed.
  Lemma rank_order : forall p ranks ranks',
    Permutation ranks ranks' -> same_agglomerates agglomerates problem p ranks ranks'.
  Proof.
    intros p ranks ranks' P eig agg ls ls' _ _. revert ls ls'.
    assert (U : forall rk l l', rank_results agglomerates problem eig agg rk l -> rank_results agglomerates problem eig agg rk l' -> l = l').
    { intros rk l l' (ui & n & BA & H) (ui' & n' & BA' & H'). rewrite BA in BA'. injection BA' as <- <-. clear BA. revert l' H'. induction H as [|a c s l E H IH]; intros l' H'; inversion H' as [|? c' ? l0 E' H0]; subst; [reflexivity|].
      f_equal; [congruence|apply IH; exact H0]. }
    assert (X : forall ls, Forall2 (rank_results agglomerates problem eig agg) ranks ls -> exists ls', Forall2 (rank_results agglomerates problem eig agg) ranks' ls' /\ Permutation ls ls').
    { induction P as [|rk r r' P IH|a b r|r r' r'' P1 IH1 P2 IH2]; intros ls H.
      - inversion H. exists []. split; constructor.
      - inversion H as [|? l ? ls0 H1 H2]; subst. destruct (IH ls0 H2) as (ls' & I1 & I2). exists (l :: ls'). split; constructor; auto.
      - inversion H as [|? l1 ? ls0 H1 H2]; subst. inversion H2 as [|? l2 ? ls1 H3 H4]; subst. exists (l2 :: l1 :: ls1). split; [repeat constructor; auto|constructor].
      - destruct (IH1 ls H) as (ls1 & I1 & I2). destruct (IH2 ls1 I1) as (ls2 & I3 & I4). exists ls2. split; [exact I3|eapply Permutation_trans; eauto]. }
    intros ls ls' H H'. destruct (X ls H) as (ls2 & H2 & Q). assert (ls2 = ls').
    { clear - U H2 H'. revert ls' H'. induction H2 as [|rk l r ls H H2 IH]; intros ls' H'; inversion H' as [|? l' ? ls0 E' H0]; subst; [reflexivity|]. f_equal; [exact (U rk l l' H E')|apply IH; exact H0]. }
    subst ls2. clear - Q. induction Q as [|l a b Q IH|l1 l2 a|a b c Q1 IH1 Q2 IH2]; cbn [concat]; [constructor|apply Permutation_app_head; exact IH| |eapply Permutation_trans; eauto].
    rewrite !app_assoc. apply Permutation_app_tail, Permutation_app_comm.
  Qed.
  Lemma same_cells : forall evaluate constrained p ranks ranks',
    (forall rk, In rk ranks \/ In rk ranks' -> one_evaluator evaluate constrained rk) ->
    (forall eig, pt_find p ["eigensolver"%string] = Some eig -> eigensolver_matrix debug eig = Ok ELapack) ->
    same_patches agglomerates p ranks ranks' -> same_agglomerates agglomerates problem p ranks ranks'.
  Proof.
    intros ev co p ranks ranks' HO HE SP eig agg ls ls' Q1 Q2 H H'. specialize (HE eig Q1).
    set (G := fun cells => compute_local_eigenvectors parse_double lobpcg fsqrt dstev tol2 rand std_sort lapack arpack debug (fun _ => 0%K) eig (n_eigenvectors eig) (eig_tolerance K parse_double eig)
      (snd (ev cells)) (co cells) (fst (ev cells)) []).
    assert (T : forall rks ms, (forall rk, In rk rks -> one_evaluator ev co rk) -> Forall2 (rank_results agglomerates problem eig agg) rks ms ->
      exists ps, Forall2 (rank_patches agglomerates agg) rks ps /\ map G (concat ps) = map (@Ok _) (concat ms)).
    { intros rks ms O X. induction X as [|rk l rks ms (ui & n & B & FF) X IH]; [exists []; split; [constructor|reflexivity]|].
      destruct IH as (ps & P1 & P2); [intros r I; apply O; right; exact I|].
      exists (map (fun a => map (rk_number rk) (filter (fun c => nth c ui 0 =? a) (seq 0 (n_cells (rk_mesh rk))))) (seq 1 n) :: ps). split.
      - constructor; [|exact P1]. exists ui, n. split; [exact B|reflexivity].
      - cbn [concat]. rewrite !map_app, P2. f_equal. clear B. induction FF as [|a c sq l' E FF IH]; [reflexivity|]. cbn [map]. rewrite IH. f_equal. rewrite <- E.
        destruct (O rk (or_introl eq_refl) (filter (fun c => nth c ui 0 =? a) (seq 0 (n_cells (rk_mesh rk))))) as (O1 & O2).
        unfold G, rank_problem, local_problem, patch_by_id. rewrite O1, O2. unfold compute_local_eigenvectors. rewrite HE. reflexivity. }
    destruct (T ranks ls) as (ps & P1 & P2); [auto|exact H|]. destruct (T ranks' ls') as (ps' & P1' & P2'); [auto|exact H'|].
    assert (P := Permutation_map G (SP agg ps ps' Q2 P1 P1')). rewrite P2, P2' in P. clear -P.
    assert (E : forall l : list (agg_result K), flat_map (fun o : outcome (agg_result K) => match o with Ok c => [c] | _ => [] end) (map (@Ok _) l) = l)
      by (induction l as [|x l IH]; cbn; [reflexivity|f_equal; exact IH]).
    rewrite <- (E (concat ls)), <- (E (concat ls')). apply Permutation_flat_map, P.
  Qed.
End PRedist.
