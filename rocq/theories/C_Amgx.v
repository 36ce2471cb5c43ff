(** C47, C48, C49, C51, C68: the AMGX coarse solver (renumbering, solve, handles, communication maps, what happens to the operator). *)
From Coq Require Import List Arith Lia Bool Permutation Sorted Field QArith Qcanon.
From Verif Require Import Base OField Mat M_Perm S_Perm P_Perm M_SpProd S_SpProd M_Csr S_Csr P_SpProd P_Csr P_Csr2 P_Csr3 P_Csr4
  M_Amgx S_Amgx P_Amgx P_Amgx2 P_Amgx3 P_Amgx4 M_AmgxLife S_AmgxLife P_AmgxLife E_Lanczos C_Csr.
Import ListNotations.
Set Implicit Arguments.
Open Scope nat_scope.

(** C47: the new numbering [ids] has every owned row and every column of the rank once, owned rows first (those not sent, then those sent), and the
    arrays hold the same entries in this numbering, by row and with increasing columns. *)
Theorem C47_symmetric_renumbering : forall (K : ofield) debug std_sort sent (c : csr K) rows, std_sort_contract std_sort -> csr_holds c rows ->
  StronglySorted lt (c_range c) -> (forall g, In g (c_col c) -> g < c_n c) -> NoDup sent -> (forall i, In i sent -> i < length rows) ->
  exists halo_map local_map c' rows' halo,
    csr_to_amgx debug std_sort sent c = Ok (halo_map, local_map, c') /\ csr_holds c' rows' /\
    c_m c' = c_m c /\ c_n c' = c_n c /\ c_range c' = c_range c /\ c_domain c' = c_domain c /\
    is_halo (c_range c) (c_col c) halo /\
    let order := row_order (length rows) sent in
    let ids := new_ids (c_range c) order halo in
    Permutation order (seq 0 (length rows)) /\ NoDup ids /\ (forall g, In g ids <-> In g (c_range c) \/ In g (c_col c)) /\
    renumbered_as order ids rows rows' /\
    (forall k r, nth_error order k = Some r -> get local_map r = k) /\
    (forall i g, nth_error (c_range c) i = Some g -> get halo_map g = i) /\
    (forall t g, nth_error halo t = Some g -> get halo_map g = length rows + t).
Proof.
  intros K debug std_sort sent c rows Hs Hc Hr Hcol Hd Hi.
  destruct (@csr_to_amgx_spec K debug std_sort sent c rows Hs Hc Hr Hcol Hd Hi) as [hm [lm [c' [rows' [halo [E [H1 [H2 [H3 [H4 [H5 [H6 [H7 [H8 [H9 [H10 H11]]]]]]]]]]]]]]]].
  exists hm, lm, c', rows', halo. do 7 (split; auto). cbv zeta. split; [apply row_order_perm|]. pose proof (cs_rows Hc) as Hn.
  split; [apply (@new_ids_NoDup _ (length rows) _ _ (c_col c)); auto; [apply sorted_NoDup; auto|apply row_order_perm]|].
  split; [apply (@new_ids_in _ (length rows)); auto; apply row_order_perm|]. auto.
Qed.
Print Assumptions C47_symmetric_renumbering.

(** C51: for a distributed matrix in which a rank needs rows of another one only if the converse holds, the constructor succeeds, every rank hands
    AMGX the data described by [amgx_ready], and the receive list of a rank for a neighbour and the send list of that neighbour for the rank have
    the same length and refer to the same global index position by position. *)
Theorem C51_maps_line_up : forall (K : ofield) debug std_sort (cs : list (csr K)) n, std_sort_contract std_sort -> distributed_rows n cs ->
  (forall p q, needs cs p q -> needs cs q p) ->
  exists datas, amgx_setup debug std_sort cs = Ok datas /\ length datas = length cs /\
    (forall p c d, nth_error cs p = Some c -> nth_error datas p = Some d -> exists order halo, amgx_ready cs p c d order halo) /\
    forall p q cp cq dp dq op hp oq hq k recv,
      nth_error datas p = Some dp -> nth_error datas q = Some dq -> amgx_ready cs p cp dp op hp -> amgx_ready cs q cq dq oq hq ->
      nth_error (a_neighbors dp) k = Some q -> nth_error (a_recv dp) k = Some recv ->
      exists k' send, nth_error (a_neighbors dq) k' = Some p /\ nth_error (a_send dq) k' = Some send /\ length send = length recv /\
        forall t j l, nth_error recv t = Some j -> nth_error send t = Some l ->
          length (c_range cp) <= j /\ l < length (c_range cq) /\
          exists g, nth_error (new_ids (c_range cp) op hp) j = Some g /\ nth_error (new_ids (c_range cq) oq hq) l = Some g.
Proof.
  intros K debug std_sort cs n Hs Hc Hsym. destruct (setup_ready Hc Hsym debug Hs) as [datas [E [L H]]]. exists datas. do 3 (split; auto).
  intros p q cp cq dp dq op hp oq hq k recv _ _ Hp Hq Hk Hr. eapply maps_aligned; eauto.
Qed.
Print Assumptions C51_maps_line_up.

(** If more ranks need rows of rank p ([rr]) than p needs rows of others ([ss]), the constructor reads the receive lists out of bounds. *)
Theorem C51_out_of_bounds_refuted : forall (K : ofield) debug std_sort (cs : list (csr K)) n p ss rr, distributed_rows n cs -> p < length cs ->
  NoDup ss -> (forall q, In q ss <-> needs cs p q) -> NoDup rr -> (forall q, In q rr <-> needs cs q p) -> length ss < length rr ->
  (exists c, nth_error cs p = Some c /\ amgx_rank debug std_sort (map pattern_buffer cs) p c = UB) /\
  forall datas, amgx_setup debug std_sort cs <> Ok datas.
Proof. intros K debug std_sort cs n p ss rr H1 H2 H3 H4 H5 H6 H7. exact (@overrun K cs n debug std_sort p ss rr H1 H2 H3 H4 H5 H6 H7). Qed.
Print Assumptions C51_out_of_bounds_refuted.

(** C48, device vectors: if AMGX solves the distributed systems it is given, x is the solution of the caller's system in the caller's order; the
    caller's b afterwards holds its values in the AMGX order of the rows. *)
Theorem C48_device_vectors : forall (K : ofield) debug std_sort (cs : list (csr K)) n (B : mat K) solver (b : vec K) x0,
  std_sort_contract std_sort -> distributed_rows n cs -> (forall p q, needs cs p q -> needs cs q p) ->
  distributed_as cs (map (@c_range K) cs) B -> nr B = n -> nc B = n -> length b = n ->
  exists datas, amgx_setup debug std_sort cs = Ok datas /\
    ((forall bs, map (@length K) bs = map (@length nat) (map (@c_range K) cs) -> amgx_solved datas bs (solver datas bs x0)) ->
     exists b1 x, amgx_solve_cuda solver datas (scatter (map (@c_range K) cs) b) x0 = Ok (b1, scatter (map (@c_range K) cs) x) /\
       length x = n /\ mulvec B x = b /\ map (@length K) b1 = map (@length nat) (map (@c_range K) cs) /\
       forall p c d order halo, nth_error cs p = Some c -> nth_error datas p = Some d -> amgx_ready cs p c d order halo ->
         forall k r, nth_error order k = Some r -> nth k (nth p b1 []) f0 = nth r (nth p (scatter (map (@c_range K) cs) b) []) f0).
Proof.
  intros K debug std_sort cs n B solver b x0 Hs Hc Hsym HB Hr1 Hr2 Lb. destruct (setup_ready Hc Hsym debug Hs) as [datas [E [L H]]].
  exists datas. split; auto. intros Hsol.
  destruct (@solve_cuda_spec K cs n B datas Hc HB Hr1 Hr2 L H solver b x0 Lb Hsol) as [b1 [x [E1 [E2 [E3 [E4 E5]]]]]].
  exists b1, x. do 4 (split; auto). intros p c d order halo Hp Hd HR k r Hk. eapply (E5 p); eauto. eapply nth_error_lt; eauto.
Qed.
Print Assumptions C48_device_vectors.

(** Host vectors: the same, from the zero initial guess, whatever x holds before; b is not an output. *)
Theorem C48_host_vectors : forall (K : ofield) debug std_sort (cs : list (csr K)) n (B : mat K) solver (b : vec K) x0,
  std_sort_contract std_sort -> distributed_rows n cs -> (forall p q, needs cs p q -> needs cs q p) ->
  distributed_as cs (map (@c_range K) cs) B -> nr B = n -> nc B = n -> length b = n -> map (@length K) x0 = map (@length nat) (map (@c_range K) cs) ->
  exists datas, amgx_setup debug std_sort cs = Ok datas /\
    ((forall bs, map (@length K) bs = map (@length nat) (map (@c_range K) cs) ->
        amgx_solved datas bs (solver datas bs (map (fun l => repeat f0 (length l)) (map (@c_range K) cs)))) ->
     exists x, amgx_solve_host solver datas (scatter (map (@c_range K) cs) b) x0 = Ok (scatter (map (@c_range K) cs) x) /\ length x = n /\ mulvec B x = b).
Proof.
  intros K debug std_sort cs n B solver b x0 Hs Hc Hsym HB Hr1 Hr2 Lb Lx. destruct (setup_ready Hc Hsym debug Hs) as [datas [E [L H]]].
  exists datas. split; auto. intros Hsol. apply (@solve_host_spec K cs n B datas Hc HB Hr1 Hr2 L H solver b x0 Lb Lx Hsol).
Qed.
Print Assumptions C48_host_vectors.

(** On one rank nothing is renumbered: b is as before. *)
Theorem C48_one_rank_keeps_rhs : forall (K : ofield) debug std_sort (c : csr K) n (B : mat K) solver (b : vec K) x0,
  std_sort_contract std_sort -> distributed_rows n [c] -> distributed_as [c] [c_range c] B -> nr B = n -> nc B = n -> length b = n ->
  exists datas, amgx_setup debug std_sort [c] = Ok datas /\
    ((forall bs, map (@length K) bs = [n] -> amgx_solved datas bs (solver datas bs x0)) ->
     exists x, amgx_solve_cuda solver datas [b] x0 = Ok ([b], [x]) /\ length x = n /\ mulvec B x = b).
Proof.
  intros K debug std_sort c n B solver b x0 Hs Hc HB Hr1 Hr2 Lb.
  assert (Hsym : forall p q, needs [c] p q -> needs [c] q p) by (intros p q H; exfalso; eapply one_needs; eauto).
  destruct (setup_ready Hc Hsym debug Hs) as [datas [E [L H]]]. exists datas. split; auto. intros Hsol.
  pose proof (one_range Hc) as Hrg.
  assert (Hsc : forall v : vec K, length v = n -> scatter [c_range c] v = [v]).
  { intros v Lv. unfold scatter. simpl. f_equal. rewrite Hrg. rewrite <- Lv. apply map_nth_all. }
  destruct (@solve_cuda_spec K [c] n B datas Hc HB Hr1 Hr2 L H solver b x0 Lb) as [b1 [x [E1 [E2 [E3 [E4 E5]]]]]].
  { intros bs Hbs. apply Hsol. rewrite Hbs. simpl. rewrite Hrg, seq_length. auto. }
  exists x. simpl map in E1. rewrite !Hsc in E1 by auto. rewrite E1. split; auto. f_equal. f_equal.
  destruct b1 as [|v [|w b1]]; simpl in E4; try discriminate. injection E4 as E4. rewrite Hrg, seq_length in E4. f_equal.
  destruct datas as [|d [|d' datas]]; simpl in L; try discriminate. destruct (H 0 c d eq_refl eq_refl) as [order [halo HR]].
  destruct (one_ready Hc HR) as [Ho _]. apply (@list_ext K _ _ f0); [lia|]. intros i Hi.
  specialize (E5 0 ltac:(simpl; lia) c d order halo eq_refl eq_refl HR i i). simpl map in E5. rewrite Hsc in E5 by auto. simpl in E5. apply E5.
  rewrite Ho. apply (@nth_error_seq n 0 i). lia.
Qed.
Print Assumptions C48_one_rank_keeps_rhs.

(** C68: constructing the solver rewrites the matrix of the operator it is given. On one rank every row keeps its entries, so every product with the
    operator is as before. *)
Theorem C68_one_rank_operator_kept : forall (K : ofield) debug std_sort (c : csr K) n, std_sort_contract std_sort -> distributed_rows n [c] ->
  exists d, amgx_setup debug std_sort [c] = Ok [d] /\
    (forall rows rows', csr_holds c rows -> csr_holds (a_matrix d) rows' -> length rows' = length rows /\
       forall i, i < n -> Permutation (nth i rows' []) (nth i rows []) /\ StronglySorted le (map fst (nth i rows' []))) /\
    forall B, distributed_as [c] [c_range c] B -> distributed_as [a_matrix d] [c_range c] B.
Proof.
  intros K debug std_sort c n Hs Hc.
  assert (Hsym : forall p q, needs [c] p q -> needs [c] q p) by (intros p q H; exfalso; eapply one_needs; eauto).
  destruct (setup_ready Hc Hsym debug Hs) as [datas [E [L H]]]. destruct datas as [|d [|d' datas]]; simpl in L; try discriminate.
  exists d. split; auto. destruct (H 0 c d eq_refl eq_refl) as [order [halo HR]].
  destruct (one_ready Hc HR) as [_ [_ [_ [_ [_ HP]]]]]. split; auto. intros B [B1 [B2 B3]].
  split; [simpl; rewrite (ar_range HR); auto|]. split; auto. intros [|r] c' Hc'; [|destruct r; discriminate]. injection Hc' as <-.
  destruct (B3 0 c eq_refl) as [rows [R1 R2]]. destruct (ar_matrix HR) as [r1 [rows' [_ [R3 _]]]].
  destruct (HP rows rows' R1 R3) as [L1 L2]. exists rows'. split; auto. intros i Hi. rewrite L1 in Hi.
  assert (Hin : i < n). { rewrite (cs_rows R1), (one_range Hc), seq_length in Hi. auto. }
  destruct (R2 i Hi) as [G1 G2]. destruct (L2 i Hin) as [P1 _]. split.
  - intros e He. apply G1. eapply Permutation_in; eauto.
  - intros g Hg. rewrite <- G2 by auto. unfold entry. apply lsum_perm. apply Permutation_map, filter_perm. auto.
Qed.
Print Assumptions C68_one_rank_operator_kept.

(** C49: in every program that constructs and destroys solvers without copying them, every handle is created once, none is destroyed twice or before
    it is created, none is destroyed while an object uses it, and of the handles no object uses any more all are destroyed except the matrices. *)
Theorem C49_handles : forall ops s, no_copies ops -> life no_library ops = Ok s ->
  NoDup (creates (l_calls s)) /\ NoDup (destroys (l_calls s)) /\ destroyed_after_created (l_calls s) /\
  (forall k h, In (CCreate k h) (l_calls s) -> (In (CDestroy k h) (l_calls s) <-> k <> HMatrix /\ ~ in_use s h)) /\
  (forall h, in_use s h -> exists k, In (CCreate k h) (l_calls s) /\ ~ In h (destroys (l_calls s))).
Proof. apply life_spec. Qed.
Print Assumptions C49_handles.

(** A copied solver: both destructors destroy the same handles. *)
Theorem C49_copy_refuted : exists ops s, life no_library ops = Ok s /\ ~ NoDup (destroys (l_calls s)).
Proof.
  exists [LNew true; LCopy 0; LDelete 0; LDelete 1]. eexists. split; [reflexivity|]. intros H. vm_compute in H.
  inversion H as [|? ? Hn _]; subst. apply Hn. simpl. tauto.
Qed.
Print Assumptions C49_copy_refuted.

(** The library is finalised by the first solver that is destroyed, although another one still has its handles. *)
Theorem C49_early_finalize_refuted : exists ops s h, no_copies ops /\ life no_library ops = Ok s /\ hd_error (l_calls s) = Some CFinalize /\ in_use s h.
Proof.
  exists [LNew true; LNew true; LDelete 0]. eexists. exists 6. split; [|split; [reflexivity|split; [reflexivity|]]].
  - intros i H. simpl in H. repeat (destruct H as [H|H]; [discriminate|]). auto.
  - exists 1. eexists. split; [reflexivity|]. simpl. auto.
Qed.
Print Assumptions C49_early_finalize_refuted.

(** ** Examples *)

(** Two AMGX solvers and one of another type, the first and the last destroyed: eleven handles remain, among them matrix 2 of the first. *)
Example C49_example : exists s, life no_library [LNew true; LNew false; LNew true; LDelete 0; LDelete 1] = Ok s /\
  destroys (l_calls s) = [0; 1; 3; 4; 5] /\ ~ In 2 (destroys (l_calls s)) /\ ~ in_use s 2.
Proof.
  eexists. split; [reflexivity|]. set (s := mkLibrary _ _ _).
  assert (Hn : no_copies [LNew true; LNew false; LNew true; LDelete 0; LDelete 1]).
  { intros i H. simpl in H. repeat (destruct H as [H|H]; [discriminate|]). auto. }
  destruct (@C49_handles _ s Hn eq_refl) as [_ [_ [_ [H _]]]].
  split; [reflexivity|]. split.
  - intros Hd. vm_compute in Hd. lia.
  - intros [i [o [Hi Ho]]]. destruct i as [|[|[|i]]]; simpl in Hi; try discriminate; [|destruct i; discriminate].
    injection Hi as <-. simpl in Ho. repeat (destruct Ho as [Ho|Ho]; [discriminate|]). auto.
Qed.

(** Two ranks: rows 0 and 1 on the first, 2 and 3 on the second; row 0 needs column 3, row 3 needs column 0. *)
Definition ex_a0 : csr QcOF := mkCsr [cq 1 1; cq 1 1; cq 2 1] [0; 3; 1] [0; 2; 3] 3 4 4 [0; 1] [0; 1].
Definition ex_a1 : csr QcOF := mkCsr [cq 1 1; cq 1 1; cq (-1) 1] [2; 0; 3] [0; 1; 3] 3 4 4 [2; 3] [2; 3].
Definition ex_amgx := [ex_a0; ex_a1].
Definition ex_r0 : list (list (nat * QcOF)) := [[(0, cq 1 1); (3, cq 1 1)]; [(1, cq 2 1)]].
Definition ex_r1 : list (list (nat * QcOF)) := [[(2, cq 1 1)]; [(0, cq 1 1); (3, cq (-1) 1)]].
Lemma ex_a0_holds : csr_holds ex_a0 ex_r0.
Proof. split; try reflexivity. intros r Hr. destruct r as [|[|[|r]]]; try reflexivity. simpl in Hr. lia. Qed.
Lemma ex_a1_holds : csr_holds ex_a1 ex_r1.
Proof. split; try reflexivity. intros r Hr. destruct r as [|[|[|r]]]; try reflexivity. simpl in Hr. lia. Qed.
Lemma ex_amgx_rows : distributed_rows 4 ex_amgx.
Proof.
  split.
  - split; simpl; [repeat constructor; simpl; lia|intros i; lia].
  - intros c [<-|[<-|[]]]; (split; [reflexivity|]); (split; [reflexivity|]); (split; [repeat constructor; simpl; lia|]);
      (split; [eexists; (apply ex_a0_holds || apply ex_a1_holds)|]); simpl; intros g; lia.
Qed.
Lemma ex_needs : forall p q, needs ex_amgx p q <-> p < 2 /\ q < 2 /\ p <> q.
Proof.
  intros p q. split.
  - intros H. pose proof (needs_lt H) as [H1 H2]. simpl in *. destruct H as [H _]. lia.
  - intros [H1 [H2 H3]]. split; auto. destruct p as [|[|p]]; [| |lia]; destruct q as [|[|q]]; try lia.
    + exists ex_a0, ex_a1, 3. simpl. tauto.
    + exists ex_a1, ex_a0, 0. simpl. tauto.
Qed.
Lemma ex_sym : forall p q, needs ex_amgx p q -> needs ex_amgx q p.
Proof. intros p q. rewrite !ex_needs. lia. Qed.
Definition ex_amgx_mat : mat QcOF := mkMat 4 4 (fun i j => entry (nth i (ex_r0 ++ ex_r1) []) j).
Lemma ex_amgx_as : distributed_as ex_amgx (map (@c_range QcOF) ex_amgx) ex_amgx_mat.
Proof.
  split; [reflexivity|]. split; [simpl; intros i; lia|]. intros r c Hr. destruct r as [|[|r]]; [| |destruct r; discriminate]; injection Hr as <-.
  - exists ex_r0. split; [apply ex_a0_holds|]. intros i Hi. destruct i as [|[|i]]; [| |simpl in Hi; lia]; (split; [|reflexivity]);
      intros e He; cbn [nth ex_r0 In] in He; repeat (destruct He as [<-|He]; [cbn [fst nc ex_amgx_mat]; lia|]); contradiction.
  - exists ex_r1. split; [apply ex_a1_holds|]. intros i Hi. destruct i as [|[|i]]; [| |simpl in Hi; lia]; (split; [|reflexivity]);
      intros e He; cbn [nth ex_r1 In] in He; repeat (destruct He as [<-|He]; [cbn [fst nc ex_amgx_mat]; lia|]); contradiction.
Qed.

(** C47 for rank 0 with row 0 sent: row 1 becomes row 0, row 0 becomes row 1, column 3 becomes column 2. *)
Example C47_example : exists hm lm c', csr_to_amgx true (@insertion_sort nat) [0] ex_a0 = Ok (hm, lm, c') /\
  c_col c' = [0; 1; 2] /\ c_ptr c' = [0; 1; 3] /\ c_val c' = [cq 2 1; cq 1 1; cq 1 1] /\ get lm 0 = 1 /\ get hm 3 = 2.
Proof.
  destruct (@C47_symmetric_renumbering QcOF true (@insertion_sort nat) [0] ex_a0 ex_r0 (@insertion_sort_contract nat) ex_a0_holds)
    as [hm [lm [c' [rows' [halo [E H]]]]]].
  - repeat constructor; simpl; lia.
  - simpl. intros g; lia.
  - repeat constructor; simpl; tauto.
  - simpl. intros i; lia.
  - exists hm, lm, c'. split; auto.
    assert (G : forall T (f : umap * umap * csr QcOF -> T) d, f (hm, lm, c') = of_run f (csr_to_amgx true (@insertion_sort nat) [0] ex_a0) d)
      by (intros; rewrite E; reflexivity).
    split; [transitivity (of_run (fun r => c_col (snd r)) (csr_to_amgx true (@insertion_sort nat) [0] ex_a0) []); [rewrite E|vm_compute]; reflexivity|].
    split; [transitivity (of_run (fun r => c_ptr (snd r)) (csr_to_amgx true (@insertion_sort nat) [0] ex_a0) []); [rewrite E|vm_compute]; reflexivity|].
    split; [transitivity (of_run (fun r => c_val (snd r)) (csr_to_amgx true (@insertion_sort nat) [0] ex_a0) []); [rewrite E|vm_compute]; reflexivity|].
    split; [transitivity (of_run (fun r => get (snd (fst r)) 0) (csr_to_amgx true (@insertion_sort nat) [0] ex_a0) 0); [rewrite E|vm_compute]; reflexivity|].
    transitivity (of_run (fun r => get (fst (fst r)) 3) (csr_to_amgx true (@insertion_sort nat) [0] ex_a0) 0); [rewrite E|vm_compute]; reflexivity.
Qed.
(** The setup of both ranks. *)
Definition ex_datas : list (amgx_data QcOF) := of_run (fun x => x) (amgx_setup true (@insertion_sort nat) ex_amgx) [].
Lemma ex_setup : amgx_setup true (@insertion_sort nat) ex_amgx = Ok ex_datas.
Proof. vm_compute. reflexivity. Qed.
(** Rank 0 sends its new row 1 to rank 1 and receives new column 2; rank 1 sends its row 1 and receives column 2. *)
Example C51_example : exists d0 d1, ex_datas = [d0; d1] /\ a_neighbors d0 = [1] /\ a_send d0 = [[1]] /\ a_recv d0 = [[2]] /\
  a_neighbors d1 = [0] /\ a_send d1 = [[1]] /\ a_recv d1 = [[2]] /\
  exists k' send, nth_error (a_neighbors d1) k' = Some 0 /\ nth_error (a_send d1) k' = Some send /\ length send = 1.
Proof.
  exists (nth 0 ex_datas (mkAmgx [] [] [] [] ex_a0)), (nth 1 ex_datas (mkAmgx [] [] [] [] ex_a0)).
  do 7 (split; [vm_compute; reflexivity|]).
  destruct (@C51_maps_line_up QcOF true (@insertion_sort nat) ex_amgx 4 (@insertion_sort_contract nat) ex_amgx_rows ex_sym) as [datas [E [L [H1 H2]]]].
  rewrite ex_setup in E. injection E as <-.
  destruct (H1 0 ex_a0 (nth 0 ex_datas (mkAmgx [] [] [] [] ex_a0)) eq_refl eq_refl) as [o0 [h0 R0]].
  destruct (H1 1 ex_a1 (nth 1 ex_datas (mkAmgx [] [] [] [] ex_a0)) eq_refl eq_refl) as [o1 [h1 R1]].
  destruct (H2 0 1 ex_a0 ex_a1 _ _ o0 h0 o1 h1 0 [2] eq_refl eq_refl R0 R1 eq_refl eq_refl) as [k' [send [A1 [A2 [A3 _]]]]]. eauto.
Qed.

(** Rank 1 has a column of rank 0, rank 0 has none of rank 1. *)
Definition ex_b0 : csr QcOF := mkCsr [cq 2 1] [0] [0; 1] 1 2 2 [0] [0].
Definition ex_b1 : csr QcOF := mkCsr [cq 1 1; cq 3 1] [0; 1] [0; 2] 2 2 2 [1] [1].
Lemma ex_b0_holds : csr_holds ex_b0 [[(0, cq 2 1)]].
Proof. split; try reflexivity. intros r Hr. destruct r as [|[|r]]; try reflexivity. simpl in Hr. lia. Qed.
Lemma ex_b1_holds : csr_holds ex_b1 [[(0, cq 1 1); (1, cq 3 1)]].
Proof. split; try reflexivity. intros r Hr. destruct r as [|[|r]]; try reflexivity. simpl in Hr. lia. Qed.
Example C51_out_of_bounds_example : amgx_setup true (@insertion_sort nat) [ex_b0; ex_b1] = UB /\
  exists c, nth_error [ex_b0; ex_b1] 0 = Some c /\ amgx_rank true (@insertion_sort nat) (map pattern_buffer [ex_b0; ex_b1]) 0 c = UB.
Proof.
  split; [vm_compute; reflexivity|].
  assert (H10 : needs [ex_b0; ex_b1] 1 0) by (split; [lia|]; exists ex_b1, ex_b0, 0; simpl; tauto).
  assert (H01 : forall q, ~ needs [ex_b0; ex_b1] 0 q).
  { intros q H. pose proof (needs_lt H) as [_ H2]. destruct H as [Hne [cp [cq [g [E1 [E2 [H3 H4]]]]]]]. destruct q as [|[|q]]; simpl in H2; try lia.
    injection E1 as <-. injection E2 as <-. simpl in H3, H4. lia. }
  refine (proj1 (@C51_out_of_bounds_refuted QcOF true (@insertion_sort nat) [ex_b0; ex_b1] 2 0 [] [1] _ _ _ _ _ _ _)); try (simpl; lia).
  - split.
    + split; simpl; [repeat constructor; simpl; lia|intros i; lia].
    + intros c [<-|[<-|[]]]; (split; [reflexivity|]); (split; [reflexivity|]); (split; [repeat constructor; simpl; lia|]);
        (split; [eexists; (apply ex_b0_holds || apply ex_b1_holds)|]); simpl; intros g; lia.
  - constructor.
  - intros q. split; [intros []|]. intros H. exfalso. eapply H01; eauto.
  - repeat constructor. simpl; tauto.
  - intros q. split; [intros [<-|[]]; auto|]. intros H. pose proof (needs_lt H) as [H2 _]. destruct H as [Hne _]. simpl in *. lia.
Qed.

(** Three ranks with one row each, rank 0 needs rank 1, rank 1 needs rank 2, rank 2 needs rank 0: the constructor succeeds, but rank 0 is told to
    receive from rank 2, and rank 2 does not know rank 0. *)
Definition ex_cyc (i j : nat) : csr QcOF := mkCsr [cq 2 1; cq 1 1] [i; j] [0; 2] 2 3 3 [i] [i].
Theorem C51_misaligned_refuted : exists (K : ofield) std_sort (cs : list (csr K)) n datas p q dp dq, std_sort_contract std_sort /\ distributed_rows n cs /\
  amgx_setup true std_sort cs = Ok datas /\ nth_error datas p = Some dp /\ nth_error datas q = Some dq /\ In q (a_neighbors dp) /\ ~ In p (a_neighbors dq).
Proof.
  exists QcOF, (@insertion_sort nat), [ex_cyc 0 1; ex_cyc 1 2; ex_cyc 2 0], 3.
  exists (of_run (fun x => x) (amgx_setup true (@insertion_sort nat) [ex_cyc 0 1; ex_cyc 1 2; ex_cyc 2 0]) []).
  exists 0, 2, (of_run (fun x => nth 0 x (mkAmgx [] [] [] [] (ex_cyc 0 0))) (amgx_setup true (@insertion_sort nat) [ex_cyc 0 1; ex_cyc 1 2; ex_cyc 2 0]) (mkAmgx [] [] [] [] (ex_cyc 0 0))).
  exists (of_run (fun x => nth 2 x (mkAmgx [] [] [] [] (ex_cyc 0 0))) (amgx_setup true (@insertion_sort nat) [ex_cyc 0 1; ex_cyc 1 2; ex_cyc 2 0]) (mkAmgx [] [] [] [] (ex_cyc 0 0))).
  split; [apply insertion_sort_contract|]. split; [|split; [vm_compute; reflexivity|split; [vm_compute; reflexivity|split; [vm_compute; reflexivity|]]]].
  - split.
    + split; simpl; [repeat constructor; simpl; lia|intros i; lia].
    + intros c Hc. assert (exists i j, c = ex_cyc i j /\ i < 3 /\ j < 3) as [i [j [-> [Hi Hj]]]].
      { simpl in Hc. destruct Hc as [<-|[<-|[<-|[]]]]; do 2 eexists; (split; [reflexivity|lia]). }
      split; [reflexivity|]. split; [reflexivity|]. split; [repeat constructor|]. split; [|simpl; intros g; lia].
      exists [[(i, cq 2 1); (j, cq 1 1)]]. split; try reflexivity. intros r Hr. destruct r as [|[|r]]; try reflexivity. simpl in Hr. lia.
  - split; vm_compute; [auto|]. intros [H|[]]. discriminate.
Qed.
Print Assumptions C51_misaligned_refuted.

(** A solver for the two-rank system: from right-hand sides [[b1; b0]; [b2; b3]] (AMGX order). *)
Definition ex_solver (ds : list (amgx_data QcOF)) (bs xs : list (list QcOF)) : list (list QcOF) :=
  let v p i := nth i (nth p bs []) f0 in
  [[fdiv (v 0 0) (cq 2 1); fdiv (fadd (v 0 1) (v 1 1)) (cq 2 1)]; [v 1 0; fdiv (fsub (v 0 1) (v 1 1)) (cq 2 1)]].
Section Solver.
  Let two : Qc := cq 2 1.
  Lemma two_nz : two <> 0%Qc.
  Proof. intros H. apply (f_equal (fun q : Qc => this q)) in H. vm_compute in H. discriminate. Qed.
  Lemma two_eq : two = (1 + 1)%Qc.
  Proof. apply Qc_is_canon. vm_compute. reflexivity. Qed.
  Lemma ex_eq0 : forall a : QcOF, fmul (cq 2 1) (fdiv a (cq 2 1)) = a.
  Proof. intros a. change (two * (a / two) = a)%Qc. field. apply two_nz. Qed.
  Lemma ex_eq1 : forall a b : QcOF, fadd (fdiv (fadd a b) (cq 2 1)) (fdiv (fsub a b) (cq 2 1)) = a.
  Proof. intros a b. change ((a + b) / two + (a - b) / two = a)%Qc. pose proof two_nz. rewrite two_eq in *. field. auto. Qed.
  Lemma ex_eq2 : forall a b : QcOF, fadd (fmul (cq (-1) 1) (fdiv (fsub a b) (cq 2 1))) (fdiv (fadd a b) (cq 2 1)) = b.
  Proof.
    intros a b. change (fmul (cq (-1) 1) (fdiv (fsub a b) (cq 2 1))) with ((- (1))%Qc * ((a - b) / two))%Qc.
    change ((- (1)) * ((a - b) / two) + (a + b) / two = b)%Qc. pose proof two_nz. rewrite two_eq in *. field. auto.
  Qed.
End Solver.
Lemma mul_one : forall a : QcOF, fmul (cq 1 1) a = a.
Proof. intros a. change (1 * a = a)%Qc. ring. Qed.
Lemma ex_d0_holds : csr_holds (a_matrix (nth 0 ex_datas (mkAmgx [] [] [] [] ex_a0))) [[(0, cq 2 1)]; [(1, cq 1 1); (2, cq 1 1)]].
Proof. split; try (vm_compute; reflexivity). intros r Hr. destruct r as [|[|[|r]]]; try (vm_compute; reflexivity). cbn [length] in Hr. lia. Qed.
Lemma ex_d1_holds : csr_holds (a_matrix (nth 1 ex_datas (mkAmgx [] [] [] [] ex_a0))) [[(0, cq 1 1)]; [(1, cq (-1) 1); (2, cq 1 1)]].
Proof. split; try (vm_compute; reflexivity). intros r Hr. destruct r as [|[|[|r]]]; try (vm_compute; reflexivity). cbn [length] in Hr. lia. Qed.
Lemma ex_solver_ok : forall bs x0, map (@length QcOF) bs = [2; 2] -> amgx_solved ex_datas bs (ex_solver ex_datas bs x0).
Proof.
  intros bs x0 Hbs. destruct bs as [|[|b1 [|b0 [|? ?]]] [|[|b2 [|b3 [|? ?]]] [|? ?]]]; try discriminate Hbs. clear Hbs.
  unfold ex_solver. cbn [nth].
  set (x1 := fdiv b1 _). set (xa := fdiv (fadd b0 b3) _). set (xb := fdiv (fsub b0 b3) _).
  split; [vm_compute; reflexivity|]. intros p dp x b Hd Hx Hb.
  destruct p as [|[|p]]; [| |destruct p; discriminate Hx].
  - assert (dp = nth 0 ex_datas (mkAmgx [] [] [] [] ex_a0)) as -> by (symmetry; apply nth_error_nth; auto). injection Hx as <-. injection Hb as <-.
    split; [vm_compute; reflexivity|]. intros rows Hr. rewrite (csr_rows_unique Hr ex_d0_holds). clear rows Hr.
    exists (fun j => nth j [x1; xa; xb] f0). split.
    + intros row e Hrow He. exists (nth 0 ex_datas (mkAmgx [] [] [] [] ex_a0)). split; auto.
      assert (L : length (c_range (a_matrix (nth 0 ex_datas (mkAmgx [] [] [] [] ex_a0)))) = 2) by (vm_compute; reflexivity). rewrite L.
      destruct Hrow as [<-|[<-|[]]]; cbn [In] in He.
      * destruct He as [<-|[]]. left. cbn [fst nth]. split; [lia|]. exists [x1; xa]. auto.
      * destruct He as [<-|[<-|[]]]; cbn [fst nth].
        -- left. split; [lia|]. exists [x1; xa]. auto.
        -- right. split; [lia|]. exists 0, 0, 1, (nth 1 ex_datas (mkAmgx [] [] [] [] ex_a0)), 0, 1, [b2; xb], [2], [1].
           repeat (split; [reflexivity|]). reflexivity.
    + intros i Hi. destruct i as [|[|i]]; [| |cbn [length] in Hi; lia]; cbn [nth map fst snd lsum fold_right].
      * unfold x1; rewrite ex_eq0. change (b1 + 0 = b1)%Qc. ring.
      * rewrite !mul_one. transitivity (fadd xa xb); [change (xa + (xb + 0) = xa + xb)%Qc; ring|]. apply ex_eq1.
  - assert (dp = nth 1 ex_datas (mkAmgx [] [] [] [] ex_a0)) as -> by (symmetry; apply nth_error_nth; auto). injection Hx as <-. injection Hb as <-.
    split; [vm_compute; reflexivity|]. intros rows Hr. rewrite (csr_rows_unique Hr ex_d1_holds). clear rows Hr.
    exists (fun j => nth j [b2; xb; xa] f0). split.
    + intros row e Hrow He. exists (nth 1 ex_datas (mkAmgx [] [] [] [] ex_a0)). split; auto.
      assert (L : length (c_range (a_matrix (nth 1 ex_datas (mkAmgx [] [] [] [] ex_a0)))) = 2) by (vm_compute; reflexivity). rewrite L.
      destruct Hrow as [<-|[<-|[]]]; cbn [In] in He.
      * destruct He as [<-|[]]. left. cbn [fst nth]. split; [lia|]. exists [b2; xb]. auto.
      * destruct He as [<-|[<-|[]]]; cbn [fst nth].
        -- left. split; [lia|]. exists [b2; xb]. auto.
        -- right. split; [lia|]. exists 0, 0, 0, (nth 0 ex_datas (mkAmgx [] [] [] [] ex_a0)), 0, 1, [x1; xa], [2], [1].
           repeat (split; [reflexivity|]). reflexivity.
    + intros i Hi. destruct i as [|[|i]]; [| |cbn [length] in Hi; lia]; cbn [nth map fst snd lsum fold_right].
      * rewrite mul_one. change (b2 + 0 = b2)%Qc. ring.
      * rewrite mul_one. transitivity (fadd (fmul (cq (-1) 1) xb) xa); [|apply ex_eq2].
        generalize (fmul (cq (-1) 1) xb). intros y. change (y + (xa + 0) = y + xa)%Qc. ring.
Qed.

(** C48 on the two ranks: the right-hand side (3, 4, 5, 1) has the solution (2, 2, 5, 1). *)
Definition ex_rhs : vec QcOF := [cq 3 1; cq 4 1; cq 5 1; cq 1 1].
Example C48_device_example : exists b1 x, amgx_solve_cuda ex_solver ex_datas (scatter [[0; 1]; [2; 3]] ex_rhs) [] = Ok (b1, scatter [[0; 1]; [2; 3]] x) /\
  mulvec ex_amgx_mat x = ex_rhs /\ b1 = [[cq 4 1; cq 3 1]; [cq 5 1; cq 1 1]] /\ scatter [[0; 1]; [2; 3]] x = [[cq 2 1; cq 2 1]; [cq 5 1; cq 1 1]].
Proof.
  destruct (@C48_device_vectors QcOF true (@insertion_sort nat) ex_amgx 4 ex_amgx_mat ex_solver ex_rhs [] (@insertion_sort_contract nat) ex_amgx_rows ex_sym
    ex_amgx_as eq_refl eq_refl eq_refl) as [datas [E H]].
  rewrite ex_setup in E. injection E as <-. destruct H as [b1 [x [E [L [S _]]]]]; [intros bs Hbs; apply ex_solver_ok; exact Hbs|].
  exists b1, x. split; [exact E|]. split; [exact S|].
  split.
  - transitivity (of_run fst (amgx_solve_cuda ex_solver ex_datas (scatter [[0; 1]; [2; 3]] ex_rhs) []) []); [|vm_compute; reflexivity].
    change (scatter (map (@c_range QcOF) ex_amgx) ex_rhs) with (scatter [[0; 1]; [2; 3]] ex_rhs) in E. rewrite E. reflexivity.
  - transitivity (of_run snd (amgx_solve_cuda ex_solver ex_datas (scatter [[0; 1]; [2; 3]] ex_rhs) []) []).
    + change (scatter (map (@c_range QcOF) ex_amgx) ex_rhs) with (scatter [[0; 1]; [2; 3]] ex_rhs) in E. rewrite E. reflexivity.
    + clear. set (r := of_run _ _ _). assert (E : r = [nth 0 r []; nth 1 r []]) by (vm_compute; reflexivity). rewrite E.
      f_equal; [|f_equal]; apply veqb_eq; vm_compute; reflexivity.
Qed.
Example C48_host_example : exists x, amgx_solve_host ex_solver ex_datas (scatter [[0; 1]; [2; 3]] ex_rhs) [[cq 7 1; cq 7 1]; [cq 7 1; cq 7 1]] = Ok (scatter [[0; 1]; [2; 3]] x) /\
  mulvec ex_amgx_mat x = ex_rhs.
Proof.
  destruct (@C48_host_vectors QcOF true (@insertion_sort nat) ex_amgx 4 ex_amgx_mat ex_solver ex_rhs [[cq 7 1; cq 7 1]; [cq 7 1; cq 7 1]]
    (@insertion_sort_contract nat) ex_amgx_rows ex_sym ex_amgx_as eq_refl eq_refl eq_refl eq_refl) as [datas [E H]].
  rewrite ex_setup in E. injection E as <-. destruct H as [x [E [L S]]]; [intros bs Hbs; apply ex_solver_ok; exact Hbs|]. eauto.
Qed.

(** The caller's constant right-hand side is changed. *)
Theorem C48_rhs_changed_refuted : exists (K : ofield) std_sort (cs : list (csr K)) n (B : mat K) datas solver (b : vec K) b1 x1,
  std_sort_contract std_sort /\ distributed_rows n cs /\ (forall p q, needs cs p q -> needs cs q p) /\ distributed_as cs (map (@c_range K) cs) B /\
  amgx_setup true std_sort cs = Ok datas /\
  (forall bs, map (@length K) bs = map (@length nat) (map (@c_range K) cs) -> amgx_solved datas bs (solver datas bs [])) /\
  amgx_solve_cuda solver datas (scatter (map (@c_range K) cs) b) [] = Ok (b1, x1) /\ b1 <> scatter (map (@c_range K) cs) b.
Proof.
  exists QcOF, (@insertion_sort nat), ex_amgx, 4, ex_amgx_mat, ex_datas, ex_solver, ex_rhs, [[cq 4 1; cq 3 1]; [cq 5 1; cq 1 1]].
  exists (of_run snd (amgx_solve_cuda ex_solver ex_datas (scatter [[0; 1]; [2; 3]] ex_rhs) []) []).
  split; [apply insertion_sort_contract|]. split; [apply ex_amgx_rows|]. split; [apply ex_sym|]. split; [apply ex_amgx_as|]. split; [apply ex_setup|].
  split; [intros bs Hbs; apply ex_solver_ok; exact Hbs|]. split; [vm_compute; reflexivity|].
  intros E. apply (f_equal (fun v : list (list QcOF) => veqb (nth 0 v []) [cq 4 1; cq 3 1])) in E. vm_compute in E. discriminate.
Qed.
Print Assumptions C48_rhs_changed_refuted.

(** One rank. *)
Lemma ex_one_rows_ok : distributed_rows 2 [ex_one].
Proof.
  split.
  - split; simpl; [repeat constructor; simpl; lia|intros i; lia].
  - intros c [<-|[]]. split; [reflexivity|]. split; [reflexivity|]. split; [repeat constructor; simpl; lia|]. split; [eexists; apply ex_one_holds|]. simpl. intros g; lia.
Qed.
Lemma ex_one_as : distributed_as [ex_one] [c_range ex_one] ex_one_mat.
Proof.
  split; [reflexivity|]. split; [simpl; intros i; lia|]. intros r c Hr. destruct r as [|r]; [|destruct r; discriminate]. injection Hr as <-.
  exists ex_one_rows. split; [apply ex_one_holds|]. intros i Hi. destruct i as [|[|i]]; [| |simpl in Hi; lia]; (split; [|reflexivity]);
    intros e He; cbn [nth ex_one_rows In] in He; repeat (destruct He as [<-|He]; [cbn [fst nc ex_one_mat]; lia|]); contradiction.
Qed.
Example C68_one_rank_example : exists d, amgx_setup true (@insertion_sort nat) [ex_one] = Ok [d] /\ distributed_as [a_matrix d] [[0; 1]] ex_one_mat.
Proof.
  destruct (@C68_one_rank_operator_kept QcOF true (@insertion_sort nat) ex_one 2 (@insertion_sort_contract nat) ex_one_rows_ok) as [d [E [_ H]]].
  exists d. split; auto. apply H. apply ex_one_as.
Qed.
(** On several ranks the operator computes something else after the solver has been constructed. *)
Theorem C68_several_ranks_refuted : exists (K : ofield) std_sort (cs : list (csr K)) n (B : mat K) datas env (x : vec K) dst y,
  std_sort_contract std_sort /\ distributed_rows n cs /\ (forall p q, needs cs p q -> needs cs q p) /\ distributed_as cs (map (@c_range K) cs) B /\
  any_environment n env /\ amgx_setup true std_sort cs = Ok datas /\
  vmult_all cs env (map (@c_range K) cs) n (scatter (map (@c_range K) cs) x) dst = Ok (scatter (map (@c_range K) cs) (mulvec B x)) /\
  vmult_all (map (fun d => a_matrix d) datas) env (map (@c_range K) cs) n (scatter (map (@c_range K) cs) x) dst = Ok y /\
  y <> scatter (map (@c_range K) cs) (mulvec B x).
Proof.
  exists QcOF, (@insertion_sort nat), ex_amgx, 4, ex_amgx_mat, ex_datas, (ex_env 4), [cq 1 1; cq 0 1; cq 0 1; cq 0 1], [[cq 0 1; cq 0 1]; [cq 0 1; cq 0 1]].
  exists (of_run (fun y => y) (vmult_all (map (fun d => a_matrix d) ex_datas) (ex_env 4) [[0; 1]; [2; 3]] 4
    (scatter [[0; 1]; [2; 3]] [cq 1 1; cq 0 1; cq 0 1; cq 0 1]) [[cq 0 1; cq 0 1]; [cq 0 1; cq 0 1]]) []).
  split; [apply insertion_sort_contract|]. split; [apply ex_amgx_rows|]. split; [apply ex_sym|]. split; [apply ex_amgx_as|].
  split; [apply ex_env_ok|]. split; [apply ex_setup|].
  split; [apply C46_distributed_product; try reflexivity; [apply ex_amgx_as|apply ex_amgx_rows|apply ex_env_ok]|].
  split; [vm_compute; reflexivity|].
  intros E. apply (f_equal (fun v : list (list QcOF) => veqb (nth 0 v []) [cq 2 1; cq 0 1])) in E. vm_compute in E. discriminate.
Qed.
Print Assumptions C68_several_ranks_refuted.

Definition ex_one_datas : list (amgx_data QcOF) := of_run (fun x => x) (amgx_setup true (@insertion_sort nat) [ex_one]) [].
Lemma ex_one_setup : amgx_setup true (@insertion_sort nat) [ex_one] = Ok ex_one_datas.
Proof. vm_compute. reflexivity. Qed.
Lemma ex_one_data_holds : csr_holds (a_matrix (nth 0 ex_one_datas (mkAmgx [] [] [] [] ex_a0))) ex_one_rows.
Proof. split; try (vm_compute; reflexivity). intros r Hr. destruct r as [|[|[|r]]]; try (vm_compute; reflexivity). cbn [length ex_one_rows] in Hr. lia. Qed.
(** The inverse of ((2, -1), (1, 4)). *)
Definition ex_one_solver (ds : list (amgx_data QcOF)) (bs xs : list (list QcOF)) : list (list QcOF) :=
  let v i := nth i (nth 0 bs []) f0 in
  [[fadd (fmul (cq 4 9) (v 0)) (fmul (cq 1 9) (v 1)); fsub (fmul (cq 2 9) (v 1)) (fmul (cq 1 9) (v 0))]].
Lemma ex_one_solver_ok : forall bs x0, map (@length QcOF) bs = [2] -> amgx_solved ex_one_datas bs (ex_one_solver ex_one_datas bs x0).
Proof.
  intros bs x0 Hbs. destruct bs as [|[|b0 [|b1 [|? ?]]] [|? ?]]; try discriminate Hbs. clear Hbs.
  unfold ex_one_solver. cbn [nth]. set (xa := fadd _ _). set (xb := fsub _ _).
  split; [vm_compute; reflexivity|]. intros p dp x b Hd Hx Hb. destruct p as [|p]; [|destruct p; discriminate Hx].
  assert (dp = nth 0 ex_one_datas (mkAmgx [] [] [] [] ex_a0)) as -> by (symmetry; apply nth_error_nth; auto). injection Hx as <-. injection Hb as <-.
  split; [vm_compute; reflexivity|]. intros rows Hr. rewrite (csr_rows_unique Hr ex_one_data_holds). clear rows Hr.
  exists (fun j => nth j [xa; xb] f0). split.
  - intros row e Hrow He. exists (nth 0 ex_one_datas (mkAmgx [] [] [] [] ex_a0)). split; auto.
    assert (L : length (c_range (a_matrix (nth 0 ex_one_datas (mkAmgx [] [] [] [] ex_a0)))) = 2) by (vm_compute; reflexivity). rewrite L.
    left. unfold ex_one_rows in Hrow. destruct Hrow as [<-|[<-|[]]]; cbn [In] in He; destruct He as [<-|[<-|[]]]; cbn [fst nth]; (split; [lia|]); exists [xa; xb]; auto.
  - assert (N1 : cq (-1) 1 = fopp (cq 1 1)) by (apply Qc_is_canon; vm_compute; reflexivity).
    assert (N2 : cq 2 1 = fadd (cq 1 1) (cq 1 1)) by (apply Qc_is_canon; vm_compute; reflexivity).
    assert (N4 : cq 4 1 = fadd (cq 2 1) (cq 2 1)) by (apply Qc_is_canon; vm_compute; reflexivity).
    assert (M2 : cq 2 9 = fadd (cq 1 9) (cq 1 9)) by (apply Qc_is_canon; vm_compute; reflexivity).
    assert (M4 : cq 4 9 = fadd (cq 2 9) (cq 2 9)) by (apply Qc_is_canon; vm_compute; reflexivity).
    assert (M9 : fadd (cq 4 9) (fadd (cq 4 9) (cq 1 9)) = f1) by (apply Qc_is_canon; vm_compute; reflexivity).
    intros i Hi. destruct i as [|[|i]]; [| |cbn [length ex_one_rows] in Hi; lia]; unfold ex_one_rows; cbn [nth map fst snd lsum fold_right]; unfold xa, xb.
    + transitivity (fmul (fadd (cq 4 9) (fadd (cq 4 9) (cq 1 9))) b0); [|rewrite M9; apply mul_one].
      rewrite N1, N2, M4, M2. generalize (cq 1 9). intros z. change (cq 1 1 : Qc) with 1%Qc.
      change ((1 + 1) * ((z + z + (z + z)) * b0 + z * b1) + ((- (1)) * ((z + z) * b1 - z * b0) + 0) = (z + z + (z + z) + (z + z + (z + z) + z)) * b0)%Qc. ring.
    + transitivity (fmul (fadd (cq 4 9) (fadd (cq 4 9) (cq 1 9))) b1); [|rewrite M9; apply mul_one].
      rewrite N4, N2, M4, M2. generalize (cq 1 9). intros z. change (cq 1 1 : Qc) with 1%Qc.
      change (1 * ((z + z + (z + z)) * b0 + z * b1) + ((1 + 1 + (1 + 1)) * ((z + z) * b1 - z * b0) + 0) = (z + z + (z + z) + (z + z + (z + z) + z)) * b1)%Qc. ring.
Qed.
Example C48_one_rank_example : exists x, amgx_solve_cuda ex_one_solver ex_one_datas [[cq 1 1; cq 2 1]] [[cq 5 1; cq 5 1]] = Ok ([[cq 1 1; cq 2 1]], [x]) /\
  mulvec ex_one_mat x = [cq 1 1; cq 2 1].
Proof.
  destruct (@C48_one_rank_keeps_rhs QcOF true (@insertion_sort nat) ex_one 2 ex_one_mat ex_one_solver [cq 1 1; cq 2 1] [[cq 5 1; cq 5 1]]
    (@insertion_sort_contract nat) ex_one_rows_ok ex_one_as eq_refl eq_refl eq_refl) as [datas [E H]].
  rewrite ex_one_setup in E. injection E as <-. destruct H as [x [E [L S]]]; [intros bs Hbs; apply ex_one_solver_ok; exact Hbs|]. exists x. split; [exact E|exact S].
Qed.
