(** C41, C69, C70: CUDA matrix operators over all histories of applications, transpositions and products. *)
From Coq Require Import List Arith Lia Bool Sorted ZArith QArith Qcanon.
From Verif Require Import Base OField Mat M_SpProd S_SpProd P_SpProd M_Csr S_Csr P_Csr P_Csr3 C_Csr M_CudaOp S_CudaOp P_CudaOp E_CudaOp E_Lanczos.
Import ListNotations.
Set Implicit Arguments.
Open Scope nat_scope.

Section C.
  Variable K : ofield.
  Implicit Types (L : libraries K) (B : mat K).

  Lemma ask_effect : forall (ms : list (meaning K)) k B range domain cached q, nth_error ms k = Some (mkMeaning B range domain cached true) ->
    (cached = false -> q_trans q = true -> no_zero_rank domain (mtrans B)) -> request_ok B range domain q ->
    exists cached', call_effect ms (asking k B q) (upd ms k (mkMeaning B range domain cached' true)) (answer B range domain q) /\ (cached = true -> cached' = true).
  Proof.
    intros ms k B range domain cached [trans env owned x y] Hk Hz [H1 [H2 [H3 H4]]]. unfold asking, answer. cbn [q_trans q_env q_owned q_x q_y] in *. destruct trans; cbn [asked] in *.
    - exists true. split; auto. eapply MApplyTranspose; eauto.
    - exists cached. split; auto. rewrite (upd_self _ _ Hk). eapply MApply; eauto.
  Qed.

  (** Any sequence of applications of an operator for A, in either mode, on any number of ranks and in both build modes: each returns A x or A^T x. *)
  Theorem C41_applications : forall debug L s ms k B range domain cached qs, libraries_ok L -> state_means s ms ->
    nth_error ms k = Some (mkMeaning B range domain cached true) -> no_zero_rank domain (mtrans B) ->
    (forall q, In q qs -> request_ok B range domain q) ->
    exists s', call_run debug L s (map (asking k B) qs) = Ok (s', map (answer B range domain) qs).
  Proof.
    intros debug L s ms k B range domain cached qs HL Hs Hk Hz Hq.
    assert (E : exists ms', calls_effect ms (map (asking k B) qs) ms' (map (answer B range domain) qs)).
    { clear Hs. revert ms cached Hk. induction qs as [|q qs IH]; intros ms cached Hk; [exists ms; constructor|].
      destruct (@ask_effect ms k B range domain cached q Hk) as [c' [E _]]; auto; [apply Hq; simpl; auto|].
      destruct (IH (fun q' Hin => Hq q' (or_intror Hin)) (upd ms k (mkMeaning B range domain c' true)) c') as [ms' E'].
      - apply nth_error_upd_eq. eapply nth_error_lt; eauto.
      - exists ms'. simpl. econstructor; eauto. }
    destruct E as [ms' E]. destruct (@call_run_ok K debug L ms _ ms' _ HL E s Hs) as [s' [R _]]. eauto.
  Qed.

  (** The first transpose() of an operator: the new operator is A^T, the old one stays A. *)
  Theorem C41_first_transpose : forall debug L s ms k B range domain qs qs', libraries_ok L -> state_means s ms ->
    nth_error ms k = Some (mkMeaning B range domain false true) -> no_zero_rank domain (mtrans B) -> no_zero_rank range B ->
    (forall q, In q qs -> request_ok (mtrans B) domain range q) -> (forall q, In q qs' -> request_ok B range domain q) ->
    exists s' s'', call_run debug L s (CTranspose k :: map (asking (length ms) (mtrans B)) qs) = Ok (s', [] :: map (answer (mtrans B) domain range) qs) /\
      call_run debug L s (CTranspose k :: map (asking k B) qs') = Ok (s'', [] :: map (answer B range domain) qs').
  Proof.
    intros debug L s ms k B range domain qs qs' HL Hs Hk Hz Hz' Hq Hq'.
    destruct (@call_step_ok K debug L s ms (CTranspose k) _ [] HL Hs (@MTransposeFirst K ms k B range domain true Hk Hz)) as [s1 [E1 S1]].
    destruct (@C41_applications debug L s1 _ (length ms) (mtrans B) domain range false qs HL S1) as [s' E]; auto.
    - rewrite nth_error_app2; rewrite upd_length; auto. rewrite Nat.sub_diag. auto.
    - destruct (@C41_applications debug L s1 _ k B range domain true qs' HL S1) as [s'' E']; auto.
      + pose proof (nth_error_lt _ _ Hk). rewrite nth_error_app1 by (rewrite upd_length; auto). apply nth_error_upd_eq. auto.
      + exists s', s''. cbn [call_run]. rewrite E1. cbn [bind]. rewrite E, E'. auto.
  Qed.

  (** transpose() of an operator that has cached its transpose (by transpose() or by a transposed application): the new operator is A, the old one has
      become A^T. *)
  Theorem C41_cached_transpose : forall debug L s ms k B range domain qs qs', libraries_ok L -> state_means s ms ->
    nth_error ms k = Some (mkMeaning B range domain true true) -> no_zero_rank domain (mtrans B) -> no_zero_rank range B ->
    (forall q, In q qs -> request_ok B range domain q) -> (forall q, In q qs' -> request_ok (mtrans B) domain range q) ->
    exists s' s'', call_run debug L s (CTranspose k :: map (asking (length ms) B) qs) = Ok (s', [] :: map (answer B range domain) qs) /\
      call_run debug L s (CTranspose k :: map (asking k (mtrans B)) qs') = Ok (s'', [] :: map (answer (mtrans B) domain range) qs').
  Proof.
    intros debug L s ms k B range domain qs qs' HL Hs Hk Hz Hz' Hq Hq'.
    destruct (@call_step_ok K debug L s ms (CTranspose k) _ [] HL Hs (@MTransposeAgain K ms k B range domain true Hk)) as [s1 [E1 S1]].
    destruct (@C41_applications debug L s1 _ (length ms) B range domain false qs HL S1) as [s' E]; auto.
    - rewrite nth_error_app2; rewrite upd_length; auto. rewrite Nat.sub_diag. auto.
    - destruct (@C41_applications debug L s1 _ k (mtrans B) domain range true qs' HL S1) as [s'' E']; auto.
      + pose proof (nth_error_lt _ _ Hk). rewrite nth_error_app1 by (rewrite upd_length; auto). apply nth_error_upd_eq. auto.
      + exists s', s''. cbn [call_run]. rewrite E1. cbn [bind]. rewrite E, E'. auto.
  Qed.

  (** Any program of applications, transpositions and products. *)
  Theorem C41_history : forall debug L ms cs ms' ys, libraries_ok L -> calls_effect ms cs ms' ys -> forall s, state_means s ms ->
    exists s', call_run debug L s cs = Ok (s', ys) /\ state_means s' ms'.
  Proof. exact (@call_run_ok K). Qed.

  (** multiply() gives an operator for A B, on one rank and on several. *)
  Theorem C69_multiply : forall debug L s ms a b A B range inner domain ca cb rb qs, libraries_ok L -> state_means s ms ->
    nth_error ms a = Some (mkMeaning A range inner ca true) -> nth_error ms b = Some (mkMeaning B inner domain cb rb) -> nc A = nr B ->
    (length range = 1 -> rb = true) -> no_zero_rank range (mmul A B) -> no_zero_rank domain (mtrans (mmul A B)) ->
    (forall q, In q qs -> request_ok (mmul A B) range domain q) ->
    exists s', call_run debug L s (CMultiply a b :: map (asking (length ms) (mmul A B)) qs) = Ok (s', [] :: map (answer (mmul A B) range domain) qs).
  Proof.
    intros debug L s ms a b A B range inner domain ca cb rb qs HL Hs Ha Hb Hn H1 Hz Hz' Hq.
    destruct (@call_step_ok K debug L s ms (CMultiply a b) _ [] HL Hs (@MMultiply K ms a b A B range inner domain ca cb true rb Ha Hb Hn (fun Q => conj eq_refl (H1 Q)) (fun _ => Hz))) as [s1 [E1 S1]].
    destruct (@C41_applications debug L s1 _ (length ms) (mmul A B) range domain false qs HL S1) as [s' E]; auto.
    - rewrite nth_error_app2, Nat.sub_diag; auto.
    - exists s'. cbn [call_run]. rewrite E1. cbn [bind]. rewrite E. auto.
  Qed.
  (** So applying it is applying B, then A. *)
  Theorem C69_multiply_value : forall A B range domain q, nc A = nr B -> q_trans q = false ->
    answer (mmul A B) range domain q = scatter range (mulvec A (mulvec B (q_x q))).
  Proof. intros A B range domain q Hn Hq. unfold answer, asked. rewrite Hq, mulvec_mmul; auto. Qed.
  (** multiply_transpose() on one rank gives an operator for A B^T. *)
  Theorem C69_multiply_transpose : forall debug L s ms a b A B rows cols rows' ca cb rb qs, libraries_ok L -> state_means s ms ->
    nth_error ms a = Some (mkMeaning A rows cols ca true) -> nth_error ms b = Some (mkMeaning B rows' cols cb rb) -> nc A = nc B -> length rows = 1 ->
    no_zero_rank cols (mtrans B) -> no_zero_rank rows' (mtrans (mmul A (mtrans B))) ->
    (forall q, In q qs -> request_ok (mmul A (mtrans B)) rows rows' q) ->
    exists s', call_run debug L s (CMultiplyTranspose a b :: map (asking (length ms) (mmul A (mtrans B))) qs) = Ok (s', [] :: map (answer (mmul A (mtrans B)) rows rows') qs).
  Proof.
    intros debug L s ms a b A B rows cols rows' ca cb rb qs HL Hs Ha Hb Hn H1 Hz Hz' Hq.
    destruct (@call_step_ok K debug L s ms (CMultiplyTranspose a b) _ [] HL Hs (@MMultiplyTranspose K ms a b A B rows cols rows' ca cb true rb Ha Hb Hn (fun _ => conj eq_refl Hz) (fun Q => False_ind _ (Q H1)))) as [s1 [E1 S1]].
    rewrite H1, Nat.eqb_refl in S1.
    destruct (@C41_applications debug L s1 _ (length ms) (mmul A (mtrans B)) rows rows' false qs HL S1) as [s' E]; auto.
    - rewrite nth_error_app2, Nat.sub_diag; auto.
    - exists s'. cbn [call_run]. rewrite E1. cbn [bind]. rewrite E. auto.
  Qed.
  (** On several ranks its result cannot be applied: debug builds abort, release builds leave the destination as it was. *)
  Theorem C69_multiply_transpose_not_ready : forall L s ms a b A B rows rows' ca cb ra rb env owned size x y, libraries_ok L -> state_means s ms ->
    nth_error ms a = Some (mkMeaning A rows rows ca ra) -> nth_error ms b = Some (mkMeaning B rows' rows cb rb) -> nc A = nc B -> length rows <> 1 ->
    no_zero_rank rows (mmul A (mtrans B)) ->
    call_run true L s [CMultiplyTranspose a b; CApply (length ms) false env owned size x y] = Abort /\
    exists s', call_run false L s [CMultiplyTranspose a b; CApply (length ms) false env owned size x y] = Ok (s', [[]; y]).
  Proof.
    intros L s ms a b A B rows rows' ca cb ra rb env owned size x y HL Hs Ha Hb Hn H1 Hz.
    assert (Q : forall dbg, exists s1, call_step dbg L s (CMultiplyTranspose a b) = Ok (s1, []) /\
      call_step dbg L s1 (CApply (length ms) false env owned size x y) = if dbg then Abort else Ok (s1, y)).
    { intros dbg. destruct (@call_step_ok K dbg L s ms (CMultiplyTranspose a b) _ [] HL Hs (@MMultiplyTranspose K ms a b A B rows rows rows' ca cb ra rb Ha Hb Hn (fun Q => False_ind _ (H1 Q)) (fun _ => conj eq_refl Hz))) as [s1 [E1 S1]].
      exists s1. split; auto. destruct (length rows =? 1) eqn:El; [apply Nat.eqb_eq in El; contradiction|].
      destruct (@Forall2_back _ _ _ _ _ S1 (length ms) (mkMeaning (mmul A (mtrans B)) rows rows' false false)) as [o [Ho [[m [Hm [_ [Hh _]]]] _]]].
      { rewrite nth_error_app2, Nat.sub_diag; auto. }
      cbn [a_ready] in Hh. cbn [call_step]. unfold op_apply. rewrite (rd_ok _ _ Ho). cbn [bind].
      replace (match o_trans o with Some _ => Ok s1 | None => Ok s1 end) with (Ok s1) by (destruct (o_trans o); auto). cbn [bind].
      rewrite (rd_ok _ _ Ho). cbn [bind]. rewrite (rd_ok _ _ Hm). cbn [bind]. unfold shared_vmult. rewrite Hh. cbn [andb]. destruct dbg; auto. }
    split.
    - destruct (Q true) as [s1 [E1 E2]]. cbn [call_run]. rewrite E1. cbn [bind]. rewrite E2. auto.
    - destruct (Q false) as [s1 [E1 E2]]. cbn [call_run]. rewrite E1. cbn [bind]. rewrite E2. cbn [bind]. eauto.
  Qed.

  (** The coarse matrix of the hierarchy: AP = A multiply_transpose R, then R multiply AP, is an operator for R A R^T that can be applied, on one rank
      and on several. *)
  Theorem C70_galerkin : forall debug L s ms a r A R fine coarse ca cr qs, libraries_ok L -> state_means s ms ->
    nth_error ms a = Some (mkMeaning A fine fine ca true) -> nth_error ms r = Some (mkMeaning R coarse fine cr true) ->
    nr A = nc A -> nc A = nc R -> length coarse = length fine ->
    no_zero_rank fine (mtrans R) -> no_zero_rank fine (mmul A (mtrans R)) ->
    no_zero_rank coarse (mmul R (mmul A (mtrans R))) -> no_zero_rank coarse (mtrans (mmul R (mmul A (mtrans R)))) ->
    (forall q, In q qs -> request_ok (mmul R (mmul A (mtrans R))) coarse coarse q) ->
    exists s', call_run debug L s (CMultiplyTranspose a r :: CMultiply r (length ms) :: map (asking (S (length ms)) (mmul R (mmul A (mtrans R)))) qs)
      = Ok (s', [] :: [] :: map (answer (mmul R (mmul A (mtrans R))) coarse coarse) qs).
  Proof.
    intros debug L s ms a r A R fine coarse ca cr qs HL Hs Ha Hr Hsq Hn Hlen Z1 Z2 Z3 Z4 Hq.
    assert (E1 := @MMultiplyTranspose K ms a r A R fine fine coarse ca cr true true Ha Hr Hn (fun _ => conj eq_refl Z1) (fun _ => conj eq_refl Z2)).
    destruct (@call_step_ok K debug L s ms _ _ _ HL Hs E1) as [s1 [R1 S1]].
    destruct (@C69_multiply debug L s1 (ms ++ [mkMeaning (mmul A (mtrans R)) fine coarse false (length fine =? 1)]) r (length ms) R (mmul A (mtrans R)) coarse fine coarse cr false (length fine =? 1) qs) as [s' E]; auto.
    - rewrite nth_error_app1; auto. eapply nth_error_lt; eauto.
    - rewrite nth_error_app2, Nat.sub_diag; auto.
    - cbn. congruence.
    - intros Q. apply Nat.eqb_eq. congruence.
    - exists s'. rewrite app_length, Nat.add_1_r in E. cbn [call_run] in *. rewrite R1. cbn [bind].
      destruct (call_step debug L s1 (CMultiply r (length ms))) as [[s2 y2]| | | |]; cbn [bind] in *; try discriminate.
      destruct (call_run debug L s2 (map (asking (S (length ms)) (mmul R (mmul A (mtrans R)))) qs)) as [[s3 y3]| | | |]; cbn [bind] in *; try discriminate.
      injection E as <- -> ->. auto.
  Qed.
  (** So applying it in normal mode is R A R^T. *)
  Theorem C70_galerkin_value : forall (A R : mat K) coarse q, nr A = nc A -> nc A = nc R -> q_trans q = false ->
    answer (mmul R (mmul A (mtrans R))) coarse coarse q = scatter coarse (mulvec R (mulvec A (mulTvec R (q_x q)))).
  Proof. intros A R coarse q Hs Hn Hq. unfold answer, asked. rewrite Hq, !mulvec_mmul; auto. cbn. congruence. Qed.
End C.
Print Assumptions C41_applications.
Print Assumptions C41_first_transpose.
Print Assumptions C41_cached_transpose.
Print Assumptions C41_history.
Print Assumptions C69_multiply.
Print Assumptions C69_multiply_value.
Print Assumptions C69_multiply_transpose.
Print Assumptions C69_multiply_transpose_not_ready.
Print Assumptions C70_galerkin.
Print Assumptions C70_galerkin_value.

(** The operator itself changes when transpose() is called twice: the second call makes it A^T. *)
Definition fine := [[0; 1]; [2]].
Definition coarse := [[1]; [0]].
Definition ex_A : mat QcOF := mkMat 3 3 (fun i j => cq (Z.of_nat (i * 3 + j + 1)) 1).
Definition ex_R : mat QcOF := mkMat 2 3 (fun i j => cq (Z.of_nat (i * i + j + 1)) 1).
Definition ex_state : cuda_state QcOF :=
  mkCuda [mkShared (device_of fine fine ex_A) true true; mkShared (device_of coarse fine ex_R) true true] [mkOperator 0 None; mkOperator 1 None].
Definition ex_meaning := [mkMeaning ex_A fine fine false true; mkMeaning ex_R coarse fine false true].
Lemma fine_ok : distribution 3 fine.
Proof. split; [split; simpl; [repeat constructor; simpl; lia|intros i; lia]|]. intros p [<-|[<-|[]]]; repeat constructor. Qed.
Lemma coarse_ok : distribution 2 coarse.
Proof. split; [split; simpl; [repeat constructor; simpl; lia|intros i; lia]|]. intros p [<-|[<-|[]]]; repeat constructor. Qed.
Lemma ex_state_means : state_means ex_state ex_meaning.
Proof.
  repeat constructor; cbn [o_trans a_cached a_mat a_range a_domain a_ready]; auto.
  - eexists. split; [reflexivity|]. cbn [m_parts m_handle m_descr]. split; [|auto]. apply device_of_ok; auto; [discriminate|apply fine_ok|apply fine_ok].
  - eexists. split; [reflexivity|]. cbn [m_parts m_handle m_descr]. split; [|auto]. apply device_of_ok; auto; [discriminate|apply coarse_ok|apply fine_ok].
Qed.
Definition no_zero_rankb (range : list (list nat)) (B : mat QcOF) : bool :=
  forallb (fun p => existsb (fun i => existsb (fun j => negb (feqb (ent B i j) f0)) (seq 0 (nc B))) p) range.
Lemma no_zero_rankb_ok : forall range B, no_zero_rankb range B = true -> no_zero_rank range B.
Proof.
  intros range B H p Hp. unfold no_zero_rankb in H. rewrite forallb_forall in H. specialize (H p Hp). apply existsb_exists in H. destruct H as [i [Hi H]].
  apply existsb_exists in H. destruct H as [j [Hj H]]. apply in_seq in Hj. exists i, j. split; auto. split; [lia|]. intros E. rewrite E in H.
  assert (Q : feqb (@f0 QcOF) f0 = true) by (vm_compute; reflexivity). rewrite Q in H. discriminate.
Qed.
Definition ex_x : vec QcOF := [cq 1 1; cq 0 1; cq 2 1].
Definition ex_request (trans : bool) : request QcOF := mkRequest trans (ex_env 3) [[2]; [0; 1]] ex_x [[cq 9 1; cq 9 1]; [cq 9 1]].
Lemma ex_request_ok : forall trans, request_ok ex_A fine fine (ex_request trans).
Proof.
  intros trans. split; [destruct trans; reflexivity|]. split; [|split; [destruct trans; apply ex_env_ok|destruct trans; reflexivity]].
  destruct trans; (split; simpl; [repeat constructor; simpl; lia|intros i; lia]).
Qed.
Theorem C41_second_transpose_refuted : exists s' y, call_run true (dense_libraries QcOF) ex_state
    [CTranspose 0; CTranspose 0; asking 0 ex_A (ex_request false)] = Ok (s', [[]; []; y]) /\
  y = answer ex_A fine fine (ex_request true) /\ y <> answer ex_A fine fine (ex_request false).
Proof.
  assert (Z : no_zero_rank fine (mtrans ex_A)) by (apply no_zero_rankb_ok; vm_compute; reflexivity).
  destruct (@call_run_ok QcOF true (dense_libraries QcOF) ex_meaning [CTranspose 0; CTranspose 0; asking 0 ex_A (ex_request false)]
    [mkMeaning (mtrans ex_A) fine fine true true; mkMeaning ex_R coarse fine false true; mkMeaning (mtrans ex_A) fine fine false true; mkMeaning ex_A fine fine false true]
    [[]; []; answer ex_A fine fine (ex_request true)] (dense_libraries_ok QcOF)) with (s := ex_state) as [s' [E _]].
  - econstructor; [eapply MTransposeFirst; [reflexivity|exact Z]|]. econstructor; [eapply MTransposeAgain; reflexivity|].
    econstructor; [|constructor]. destruct (ex_request_ok false) as [Q1 [Q2 [Q3 Q4]]]. exact (@MApply QcOF [mkMeaning (mtrans ex_A) fine fine true true; mkMeaning ex_R coarse fine false true; mkMeaning (mtrans ex_A) fine fine false true; mkMeaning ex_A fine fine false true] 0 (mtrans ex_A) fine fine true (ex_env 3) [[2]; [0; 1]] ex_x _ eq_refl Q1 Q2 Q3 Q4).
  - apply ex_state_means.
  - exists s', (answer ex_A fine fine (ex_request true)). split; [exact E|]. split; [auto|]. intros Q. vm_compute in Q. discriminate.
Qed.
Print Assumptions C41_second_transpose_refuted.

Example C41_example : exists s', call_run true (dense_libraries QcOF) ex_state (map (asking 0 ex_A) [ex_request true; ex_request false; ex_request true])
  = Ok (s', [[[cq 15 1; cq 18 1]; [cq 21 1]]; [[cq 7 1; cq 16 1]; [cq 25 1]]; [[cq 15 1; cq 18 1]; [cq 21 1]]]).
Proof.
  destruct (@C41_applications QcOF true (dense_libraries QcOF) ex_state ex_meaning 0 ex_A fine fine false [ex_request true; ex_request false; ex_request true]) as [s' E].
  - apply dense_libraries_ok.
  - apply ex_state_means.
  - reflexivity.
  - apply no_zero_rankb_ok. vm_compute. reflexivity.
  - intros q Hq. simpl in Hq. destruct Hq as [<-|[<-|[<-|[]]]]; apply ex_request_ok.
  - exists s'. rewrite E. f_equal; f_equal; vm_compute; reflexivity.
Qed.
Example C41_first_transpose_example : exists s', call_run true (dense_libraries QcOF) ex_state (CTranspose 0 :: map (asking 2 (mtrans ex_A)) [ex_request false])
  = Ok (s', [[]; [[cq 15 1; cq 18 1]; [cq 21 1]]]).
Proof.
  destruct (@C41_first_transpose QcOF true (dense_libraries QcOF) ex_state ex_meaning 0 ex_A fine fine [ex_request false] []) as [s' [_ [E _]]].
  - apply dense_libraries_ok.
  - apply ex_state_means.
  - reflexivity.
  - apply no_zero_rankb_ok. vm_compute. reflexivity.
  - apply no_zero_rankb_ok. vm_compute. reflexivity.
  - intros q [<-|[]]. apply (ex_request_ok true).
  - intros q [].
  - exists s'. change (length ex_meaning) with 2 in E. rewrite E. f_equal; f_equal; vm_compute; reflexivity.
Qed.
(** An operator that has been applied in transposed mode has cached its transpose. *)
Lemma ex_cached : exists s1, call_step true (dense_libraries QcOF) ex_state (asking 0 ex_A (ex_request true)) = Ok (s1, answer ex_A fine fine (ex_request true)) /\
  state_means s1 [mkMeaning ex_A fine fine true true; mkMeaning ex_R coarse fine false true].
Proof.
  destruct (ex_request_ok true) as [Q1 [Q2 [Q3 Q4]]].
  apply (@call_step_ok QcOF true (dense_libraries QcOF) ex_state ex_meaning _ [mkMeaning ex_A fine fine true true; mkMeaning ex_R coarse fine false true] _ (dense_libraries_ok QcOF) ex_state_means).
  refine (@MApplyTranspose QcOF ex_meaning 0 ex_A fine fine false _ _ _ _ eq_refl _ Q1 Q2 Q3 Q4). intros _. apply no_zero_rankb_ok. vm_compute. reflexivity.
Qed.
Example C41_cached_transpose_example : exists s1 s', call_step true (dense_libraries QcOF) ex_state (asking 0 ex_A (ex_request true)) = Ok (s1, answer ex_A fine fine (ex_request true)) /\
  call_run true (dense_libraries QcOF) s1 (CTranspose 0 :: map (asking 0 (mtrans ex_A)) [ex_request false]) = Ok (s', [[]; [[cq 15 1; cq 18 1]; [cq 21 1]]]).
Proof.
  destruct ex_cached as [s1 [E1 S1]]. exists s1.
  destruct (@C41_cached_transpose QcOF true (dense_libraries QcOF) s1 _ 0 ex_A fine fine [] [ex_request false] (dense_libraries_ok QcOF) S1) as [_ [s' [_ E]]].
  - reflexivity.
  - apply no_zero_rankb_ok. vm_compute. reflexivity.
  - apply no_zero_rankb_ok. vm_compute. reflexivity.
  - intros q [].
  - intros q [<-|[]]. apply (ex_request_ok true).
  - exists s'. split; [exact E1|]. rewrite E. f_equal; f_equal; vm_compute; reflexivity.
Qed.
Example C41_history_example : exists s' ms' ys, call_run false (dense_libraries QcOF) ex_state [CTranspose 1; CMultiply 1 2; CTranspose 1; asking 0 ex_A (ex_request true)] = Ok (s', ys) /\
  state_means s' ms' /\ map (fun m => (nr (a_mat m), nc (a_mat m))) ms' = [(3, 3); (3, 2); (3, 2); (2, 2); (2, 3)] /\ ys = [[]; []; []; [[cq 15 1; cq 18 1]; [cq 21 1]]].
Proof.
  destruct (ex_request_ok true) as [Q1 [Q2 [Q3 Q4]]].
  edestruct (@C41_history QcOF false (dense_libraries QcOF) ex_meaning [CTranspose 1; CMultiply 1 2; CTranspose 1; asking 0 ex_A (ex_request true)]) with (s := ex_state) as [s' [E S']];
    [apply dense_libraries_ok| |apply ex_state_means|].
  - econstructor; [eapply MTransposeFirst; [reflexivity|apply no_zero_rankb_ok; vm_compute; reflexivity]|].
    econstructor; [eapply MMultiply; [reflexivity|reflexivity|reflexivity|auto|intros _; apply no_zero_rankb_ok; vm_compute; reflexivity]|].
    econstructor; [eapply MTransposeAgain; reflexivity|].
    econstructor; [|constructor]. eapply (@MApplyTranspose QcOF _ 0 ex_A fine fine false (ex_env 3) [[2]; [0; 1]] ex_x); [reflexivity| |exact Q1|exact Q2|exact Q3|exact Q4]. intros _. apply no_zero_rankb_ok. vm_compute. reflexivity.
  - eexists. eexists. eexists. split; [exact E|]. split; [exact S'|]. split; [reflexivity|]. vm_compute. reflexivity.
Qed.

(** C69: R A on two ranks, applied. *)
Definition ex_q (n : nat) (owned : list (list nat)) (x : vec QcOF) (y : list (list QcOF)) : request QcOF := mkRequest false (ex_env n) owned x y.
Example C69_example : exists s', call_run true (dense_libraries QcOF) ex_state (CMultiply 1 0 :: map (asking 2 (mmul ex_R ex_A)) [ex_q 3 [[]; [0; 1; 2]] ex_x [[cq 9 1]; [cq 9 1]]])
  = Ok (s', [[]; [[cq 162 1]; [cq 114 1]]]).
Proof.
  destruct (@C69_multiply QcOF true (dense_libraries QcOF) ex_state ex_meaning 1 0 ex_R ex_A coarse fine fine false false true
    [ex_q 3 [[]; [0; 1; 2]] ex_x [[cq 9 1]; [cq 9 1]]] (dense_libraries_ok QcOF) ex_state_means) as [s' E]; auto.
  - apply no_zero_rankb_ok. vm_compute. reflexivity.
  - apply no_zero_rankb_ok. vm_compute. reflexivity.
  - intros q [<-|[]]. split; [reflexivity|]. split; [split; simpl; [repeat constructor; simpl; lia|intros i; lia]|]. split; [apply ex_env_ok|reflexivity].
  - exists s'. change (length ex_meaning) with 2 in E. rewrite E. f_equal; f_equal; vm_compute; reflexivity.
Qed.
Example C69_value_example : answer (mmul ex_R ex_A) coarse fine (ex_q 3 fine ex_x []) = scatter coarse (mulvec ex_R (mulvec ex_A ex_x)).
Proof. apply C69_multiply_value; reflexivity. Qed.
(** The same matrices on one rank. *)
Definition ex_state1 : cuda_state QcOF :=
  mkCuda [mkShared (device_of [[0; 1; 2]] [[0; 1; 2]] ex_A) true true; mkShared (device_of [[0; 1]] [[0; 1; 2]] ex_R) true true] [mkOperator 0 None; mkOperator 1 None].
Definition ex_meaning1 := [mkMeaning ex_A [[0; 1; 2]] [[0; 1; 2]] false true; mkMeaning ex_R [[0; 1]] [[0; 1; 2]] false true].
Lemma whole_ok : distribution 3 [[0; 1; 2]] /\ distribution 2 [[0; 1]].
Proof. split; (split; [split; simpl; [repeat constructor; simpl; lia|intros i; lia]|intros p [<-|[]]; repeat constructor]). Qed.
Lemma ex_state1_means : state_means ex_state1 ex_meaning1.
Proof.
  repeat constructor; cbn [o_trans a_cached a_mat a_range a_domain a_ready]; auto.
  - eexists. split; [reflexivity|]. cbn [m_parts m_handle m_descr]. split; [|auto]. apply device_of_ok; auto; [discriminate|apply whole_ok|apply whole_ok].
  - eexists. split; [reflexivity|]. cbn [m_parts m_handle m_descr]. split; [|auto]. apply device_of_ok; auto; [discriminate|apply whole_ok|apply whole_ok].
Qed.
Definition ex_z : vec QcOF := [cq 1 1; cq (-1) 1].
Example C69_transpose_example : exists s', call_run true (dense_libraries QcOF) ex_state1
    (CMultiplyTranspose 0 1 :: map (asking 2 (mmul ex_A (mtrans ex_R))) [ex_q 2 [[0; 1]] ex_z [[cq 9 1; cq 9 1; cq 9 1]]])
  = Ok (s', [[]; [[cq (-6) 1; cq (-15) 1; cq (-24) 1]]]).
Proof.
  destruct (@C69_multiply_transpose QcOF true (dense_libraries QcOF) ex_state1 ex_meaning1 0 1 ex_A ex_R [[0; 1; 2]] [[0; 1; 2]] [[0; 1]] false false true
    [ex_q 2 [[0; 1]] ex_z [[cq 9 1; cq 9 1; cq 9 1]]] (dense_libraries_ok QcOF) ex_state1_means) as [s' E]; auto.
  - apply no_zero_rankb_ok. vm_compute. reflexivity.
  - apply no_zero_rankb_ok. vm_compute. reflexivity.
  - intros q [<-|[]]. split; [reflexivity|]. split; [apply whole_ok|]. split; [apply ex_env_ok|reflexivity].
  - exists s'. change (length ex_meaning1) with 2 in E. rewrite E. f_equal; f_equal; vm_compute; reflexivity.
Qed.
(** On two ranks the product exists but cannot be applied: the claim that multiply_transpose gives an operator fails. *)
Theorem C69_multiply_transpose_refuted : exists s', call_run false (dense_libraries QcOF) ex_state
    [CMultiplyTranspose 0 1; asking 2 (mmul ex_A (mtrans ex_R)) (ex_q 2 [[0]; [1]] ex_z [[cq 9 1; cq 9 1]; [cq 9 1]])] = Ok (s', [[]; [[cq 9 1; cq 9 1]; [cq 9 1]]]) /\
  answer (mmul ex_A (mtrans ex_R)) fine coarse (ex_q 2 [[0]; [1]] ex_z [[cq 9 1; cq 9 1]; [cq 9 1]]) <> [[cq 9 1; cq 9 1]; [cq 9 1]].
Proof.
  destruct (@C69_multiply_transpose_not_ready QcOF (dense_libraries QcOF) ex_state ex_meaning 0 1 ex_A ex_R fine coarse false false true true
    (ex_env 2) [[0]; [1]] 2 (scatter [[0]; [1]] ex_z) [[cq 9 1; cq 9 1]; [cq 9 1]] (dense_libraries_ok QcOF) ex_state_means) as [_ [s' E]]; auto.
  - discriminate.
  - apply no_zero_rankb_ok. vm_compute. reflexivity.
  - exists s'. split; [exact E|]. intros Q. vm_compute in Q. discriminate.
Qed.
Print Assumptions C69_multiply_transpose_refuted.
(** C70: the coarse matrix on two ranks. *)
Example C70_example : exists s', call_run true (dense_libraries QcOF) ex_state
    (CMultiplyTranspose 0 1 :: CMultiply 1 2 :: map (asking 3 (mmul ex_R (mmul ex_A (mtrans ex_R)))) [ex_q 2 [[0]; [1]] ex_z [[cq 9 1]; [cq 9 1]]])
  = Ok (s', [[]; []; [[cq (-153) 1]; [cq (-108) 1]]]).
Proof.
  destruct (@C70_galerkin QcOF true (dense_libraries QcOF) ex_state ex_meaning 0 1 ex_A ex_R fine coarse false false
    [ex_q 2 [[0]; [1]] ex_z [[cq 9 1]; [cq 9 1]]] (dense_libraries_ok QcOF) ex_state_means) as [s' E]; auto; try (apply no_zero_rankb_ok; vm_compute; reflexivity).
  - intros q [<-|[]]. split; [reflexivity|]. split; [split; simpl; [repeat constructor; simpl; lia|intros i; lia]|]. split; [apply ex_env_ok|reflexivity].
  - exists s'. change (length ex_meaning) with 2 in E. rewrite E. f_equal; f_equal; vm_compute; reflexivity.
Qed.
Example C70_value_example : answer (mmul ex_R (mmul ex_A (mtrans ex_R))) coarse coarse (ex_q 2 coarse ex_z []) = scatter coarse (mulvec ex_R (mulvec ex_A (mulTvec ex_R ex_z))).
Proof. apply C70_galerkin_value; reflexivity. Qed.
