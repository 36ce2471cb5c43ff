(** Proofs about schedules with one worker, scratch data that never change, and solvers that agree where they are called. *)
From Coq Require Import String List Arith ZArith Bool Lia.
From Verif Require Import Base OField Mat LinAlg M_Ptree P_Ptree M_WorkStream P_WorkStream M_Restr S_Restr P_Restr P_Restr2 S_Reuse.
Import ListNotations.
Set Implicit Arguments.
Open Scope list_scope.
Open Scope nat_scope.

Section WS.
  Variables (I SC C O : Type).
  Variable copier : C -> O -> outcome O.

  (** Workers that agree on the scratch data that occur give the same runs. *)
  Lemma ws_run_ext : forall (worker worker' : I -> SC -> C -> outcome (SC * C)) (Q : SC -> Prop) items ns nb sc c o o',
    Q sc -> (forall it s d s' d', In it items -> Q s -> worker it s d = Ok (s', d') -> Q s' /\ worker' it s d = Ok (s', d')) ->
    ws_run worker copier items ns nb sc c o o' -> ws_run worker' copier items ns nb sc c o o'.
  Proof.
    intros worker worker' Q items ns nb sc c o o' Hq H (st & R & N & E). exists st. split; [|auto].
    assert (Q0 : forall k s, nth_error (ws_scratch (ws_init ns nb sc c o)) k = Some s -> Q s).
    { intros k s Hk. apply nth_error_In in Hk. apply repeat_spec in Hk. subst. auto. }
    clear N E Hq. induction R as [st|a b d S R IH]; [constructor|].
    assert (X : ws_step worker' copier items a b /\ forall k s, nth_error (ws_scratch b) k = Some s -> Q s).
    { inversion S; subst.
      - destruct (H it sc0 c0 sc' c') as (H5 & H6); auto; [eapply nth_error_In; eauto|eapply Q0; eauto|]. split; [eapply step_work; eauto|].
        intros k s' Hk. cbn [ws_scratch] in Hk. rewrite nth_error_upd in Hk. destruct (_ && _)%bool; [injection Hk as <-; auto|eapply Q0; eauto].
      - split; [eapply step_copy; eauto|exact Q0]. }
    destruct X as (X1 & X2). eapply steps_trans; [exact X1|apply IH; exact X2].
  Qed.

  (** One scratch and one copy-data object: the items are worked on in order. *)
  Lemma ws_run_one : forall (worker : I -> SC -> C -> outcome (SC * C)) items sc c o o',
    ws_run worker copier items 1 1 sc c o o' -> ws_seq worker copier items sc c o = Ok o'.
  Proof.
    intros worker items sc0 c0 o0 o' (st & R & N & E).
    set (inv := fun st : ws SC C O =>
      (exists sc c, ws_scratch st = [sc] /\ ws_bufs st = [(c, None)] /\ (forall i, i < ws_next st -> In i (ws_started st)) /\ ws_next st <= length items /\
        ws_seq worker copier items sc0 c0 o0 = ws_seq worker copier (skipn (ws_next st) items) sc c (ws_out st)) \/
      (exists sc c, ws_scratch st = [sc] /\ ws_bufs st = [(c, Some (ws_next st))] /\ (forall i, i <= ws_next st -> In i (ws_started st)) /\ ws_next st < length items /\
        ws_seq worker copier items sc0 c0 o0 = (let! o := copier c (ws_out st) in ws_seq worker copier (skipn (S (ws_next st)) items) sc c o)) \/
      (exists c i, ws_bufs st = [(c, Some i)] /\ i <> ws_next st /\ ws_next st < length items)).
    assert (I0 : inv (ws_init 1 1 sc0 c0 o0)).
    { left. exists sc0, c0. cbn [ws_init ws_scratch ws_bufs ws_next ws_started ws_out repeat skipn]. repeat split; try reflexivity; lia. }
    assert (IS : inv st).
    { clear N E. induction R as [st|a b d ST R IH]; [exact I0|]. apply IH. clear IH R.
      destruct I0 as [(sc & c & Es & Eb & Hi & Hn & Eq)|[(sc & c & Es & Eb & Hi & Hn & Eq)|(c & i & Eb & Hi & Hn)]].
      - inversion ST; subst.
        + match goal with X : nth_error (ws_scratch a) _ = Some _ |- _ => rewrite Es in X; rename X into Xs end.
          match goal with X : nth_error (ws_bufs a) _ = Some _ |- _ => rewrite Eb in X; rename X into Xb end.
          match goal with X : worker _ _ _ = Ok _ |- _ => rename X into Xw end.
          match goal with X : nth_error items i = Some it |- _ => rename X into Xi end.
          match goal with X : ~ In i _ |- _ => rename X into Xn end.
          destruct s as [|s]; [|destruct s; discriminate]. injection Xs as <-. destruct b0 as [|b0]; [|destruct b0; discriminate]. injection Xb as <-.
          assert (Li : i < length items) by (apply nth_error_Some; congruence).
          assert (Gi : ~ i < ws_next a) by (intros X; apply Xn; auto).
          destruct (Nat.eq_dec i (ws_next a)) as [->|D].
          * right; left. exists sc', c'. cbn [ws_scratch ws_bufs ws_next ws_started ws_out]. rewrite Es, Eb. cbn [upd].
            split; [reflexivity|]. split; [reflexivity|]. split; [intros j Hj; destruct (Nat.eq_dec j (ws_next a)) as [->|]; [left; auto|right; apply Hi; lia]|]. split; [lia|].
            rewrite Eq. assert (SK : skipn (ws_next a) items = it :: skipn (S (ws_next a)) items).
            { clear - Xi. revert Xi. generalize (ws_next a) as k. induction items as [|x l IH]; intros [|k] H; try discriminate; cbn [skipn]; [injection H as ->; reflexivity|]. apply IH. exact H. }
            rewrite SK. cbn [ws_seq]. rewrite Xw. reflexivity.
          * right; right. exists c', i. cbn [ws_bufs ws_next]. rewrite Eb. cbn [upd]. split; [reflexivity|]. split; [exact D|lia].
        + match goal with X : nth_error (ws_bufs a) _ = Some _ |- _ => rewrite Eb in X; rename X into Xb end. destruct b0 as [|b0]; [discriminate|destruct b0; discriminate].
      - inversion ST; subst.
        + match goal with X : nth_error (ws_bufs a) _ = Some _ |- _ => rewrite Eb in X; rename X into Xb end. destruct b0 as [|b0]; [discriminate|destruct b0; discriminate].
        + match goal with X : nth_error (ws_bufs a) _ = Some _ |- _ => rewrite Eb in X; rename X into Xb end.
          match goal with X : copier _ _ = Ok _ |- _ => rename X into Xc end.
          destruct b0 as [|b0]; [|destruct b0; discriminate]. injection Xb as <-.
          left. exists sc, c. cbn [ws_scratch ws_bufs ws_next ws_started ws_out]. rewrite Es, Eb. cbn [upd].
          split; [reflexivity|]. split; [reflexivity|]. split; [intros j Hj; apply Hi; lia|]. split; [lia|]. rewrite Eq, Xc. reflexivity.
      - inversion ST; subst.
        + match goal with X : nth_error (ws_bufs a) _ = Some _ |- _ => rewrite Eb in X; rename X into Xb end. destruct b0 as [|b0]; [discriminate|destruct b0; discriminate].
        + match goal with X : nth_error (ws_bufs a) _ = Some _ |- _ => rewrite Eb in X; rename X into Xb end. destruct b0 as [|b0]; [injection Xb as -> Q; congruence|destruct b0; discriminate]. }
    destruct IS as [(sc & c & _ & _ & _ & _ & Eq)|[(sc & c & _ & _ & _ & X & _)|(c & i & _ & _ & X)]]; [|lia|lia].
    rewrite Eq, N, skipn_all, <- E. reflexivity.
  Qed.
End WS.

Lemma Forall2_len : forall A B (R : A -> B -> Prop) l l', Forall2 R l l' -> length l = length l'.
Proof. intros A B R l l' H. induction H; cbn; auto. Qed.

Section PReuse.
  Variable K : ofield.
  Local Notation vec := (vec K).
  Local Notation agg_result := (agg_result K).
  Variable solve : nat -> list vec -> outcome agg_result.

  Lemma collect_ext : forall (solve' : nat -> list vec -> outcome agg_result) keep n ns nb d, (forall id sc, 1 <= id <= n -> solve id sc = solve' id sc) ->
    collect solve keep n ns nb d -> collect solve' keep n ns nb d.
  Proof.
    intros solve' keep n ns nb d H. unfold collect. apply ws_run_ext with (Q := fun _ => True); auto.
    intros it s c s' c' Hi _ E. split; auto. unfold local_worker in *. rewrite <- H; auto. unfold agglomerate_ids in Hi. apply in_seq in Hi. lia.
  Qed.

  Lemma collect_separate : forall n ns nb d, collect solve false n ns nb d -> exists cs, length cs = n /\ separate solve cs /\ d = data_of cs.
  Proof.
    intros n ns nb d C. unfold collect in C.
    apply ws_run_ext with (Q := fun sc => sc = []) (worker' := local_worker (fun id _ => solve id []) false) in C; auto.
    - apply ws_run_rel with (R := fun a c => solve a [] = Ok c) (P := fun _ => True) in C; auto.
      + destruct C as (cs & F2 & E). change (@data_empty K) with (data_of ([] : list agg_result)) in E. rewrite copy_all_data in E. cbn [app] in E. injection E as <-.
        unfold agglomerate_ids in F2. exists cs. split; [rewrite <- (Forall2_len F2); apply seq_length|]. split; [|reflexivity].
        intros a c Ha. assert (G : forall l ds k, Forall2 (fun a c => solve a [] = Ok c) l ds -> forall c, nth_error ds k = Some c -> exists x, nth_error l k = Some x /\ solve x [] = Ok c).
        { clear. intros l ds k F2. revert k. induction F2 as [|x y l ds H1 H2 IH]; intros [|k] c Hc; try discriminate; [injection Hc as <-; exists x; auto|]. apply IH. exact Hc. }
        destruct (G _ _ _ F2 _ Ha) as (x & Hx & Ex). assert (a < length (seq 1 n)) by (apply nth_error_Some; congruence). rewrite seq_length in H.
        apply nth_error_nth with (d := 0) in Hx. rewrite seq_nth in Hx by lia. subst x. exact Ex.
      + intros it sc c sc' c' _ _ H. split; auto. unfold local_worker in H. destruct (solve it []) as [r| | | |] eqn:E; cbn [bind] in H; try discriminate. injection H as _ <-. exact eq_refl.
    - intros it s c s' c' _ -> H. unfold local_worker in *. split; [|exact H]. destruct (solve it []) as [r| | | |]; cbn [bind] in H; try discriminate. injection H as <- _. reflexivity.
  Qed.

  Lemma seq_chained : forall n k sc c pre d, ws_seq (local_worker solve true) (fun c o => Ok (copy_local_to_global c o)) (seq (S k) n) sc c (data_of pre) = Ok d ->
    length pre = k -> exists cs, length cs = n /\ d = data_of (pre ++ cs) /\
      forall a c, nth_error cs a = Some c -> solve (S (k + a)) (match a with 0 => sc | S b => match nth_error cs b with Some c' => ag_evecs c' | None => [] end end) = Ok c.
  Proof.
    induction n as [|n IH]; intros k sc c pre d H L; cbn [seq ws_seq] in H.
    - injection H as <-. exists []. rewrite app_nil_r. split; [reflexivity|]. split; [reflexivity|]. intros [|a] x; discriminate.
    - unfold local_worker at 1 in H. destruct (solve (S k) sc) as [r| | | |] eqn:E; cbn [bind] in H; try discriminate.
      rewrite <- data_of_snoc in H. apply IH in H; [|rewrite app_length; cbn; lia]. destruct H as (cs & L' & -> & G).
      exists (r :: cs). split; [cbn; lia|]. split; [rewrite <- app_assoc; reflexivity|].
      intros [|a] x Hx; [injection Hx as <-; rewrite Nat.add_0_r; exact E|]. cbn [nth_error] in Hx. specialize (G a x Hx).
      replace (k + S a) with (S k + a) by lia. destruct a as [|b]; exact G.
  Qed.

  Lemma collect_chained : forall n d, collect solve true n 1 1 d -> exists cs, length cs = n /\ chained solve cs /\ d = data_of cs.
  Proof.
    intros n d C. unfold collect in C. apply ws_run_one in C. unfold agglomerate_ids in C. change (@data_empty K) with (data_of ([] : list agg_result)) in C.
    apply seq_chained in C; [|reflexivity]. destruct C as (cs & L & -> & G). exists cs. split; [exact L|]. split; [|reflexivity].
    intros a c Ha. exact (G a c Ha).
  Qed.
End PReuse.

(** Options. *)
Lemma asked_get : forall A (parse : string -> option A) path d p a, asked parse path d p a -> pt_get parse path d p = a.
Proof.
  intros A parse path d p a H. unfold asked in H. unfold pt_get. destruct (pt_find p path) as [c|]; [|auto].
  destruct H as [-> | (-> & ->)]; reflexivity.
Qed.
Lemma get_asked : forall A (parse : string -> option A) path d p, asked parse path d p (pt_get parse path d p).
Proof.
  intros A parse path d p. unfold asked, pt_get. destruct (pt_find p path) as [c|]; [|auto]. destruct (parse (pt_data c)); auto.
Qed.
