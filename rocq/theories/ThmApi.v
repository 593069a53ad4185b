(** * ThmApi: proofs of the properties of the calls of thread.h. *)
From Verif Require Import Types Core State Ops Code Machine Base Spec SpecApi SpecWait Rules Events InvCtx InvQueue InvStack InvRefs InvEvents
  Calls Contract ContractLib Replay CallLoc InvRun ApiReg ApiWait ApiIdle ThmRegistry.

Lemma each_return_imp : forall (P Q : tid -> call -> list event -> res -> Prop) s, reachable s ->
  each_return P (trace s) ->
  (forall s1 t cl cs r, reachable s1 -> (exists tr2, trace s = trace s1 ++ tr2) -> open_calls t (trace s1) = cl :: cs -> P t cl (trace s1) r -> Q t cl (trace s1) r) ->
  each_return Q (trace s).
Proof.
  intros P Q s R H I tr1 e tr2 E. specialize (H tr1 e tr2 E). destruct e; auto.
  destruct H as (cl & cs & O & A & H). destruct (prefix_reachable s R tr1 _ E) as (s1 & R1 & <-).
  exists cl, cs. split; auto. split; auto. eapply I; eauto.
Qed.
Lemma each_return_and : forall (P Q : tid -> call -> list event -> res -> Prop) tr,
  each_return P tr -> each_return Q tr -> each_return (fun t cl tr r => P t cl tr r /\ Q t cl tr r) tr.
Proof.
  intros P Q tr H G tr1 e tr2 E. specialize (H tr1 e tr2 E). specialize (G tr1 e tr2 E). destruct e; auto.
  destruct H as (cl & cs & O & A & H). destruct G as (cl' & cs' & O' & A' & G). rewrite O in O'. injection O' as <- <-. eauto 6.
Qed.
(** A moment of a call is a history. *)
Lemma moment_reach : forall s1 cl m, reachable s1 -> moment cl (trace s1) m -> exists s2, reachable s2 /\ trace s2 = m.
Proof. intros s1 cl m R (a & b & _ & E). eapply prefix_reachable; eauto. Qed.

(** C17 *)
Theorem idle_contracts : forall s, reachable s -> each_return idle_contract (trace s).
Proof.
  intros s R. eapply each_return_imp; [exact R|apply each_return_and; [exact (idle_waits s R)|exact (reg_contracts s R)]|].
  intros s1 t cl cs r R1 _ Op [H G] U.
  destruct (cl_api cl) eqn:Ec; try exact I; try (specialize (H eq_refl U); rewrite Ec in H; exact H);
    specialize (G eq_refl); unfold reg_contract in G; rewrite Ec in G; destruct G as [A (m & cs' & M & Om & Q)];
    destruct (moment_reach _ _ _ R1 M) as (s2 & R2 & E2); subst m;
    pose proof (noacts_loc _ _ _ _ R2 Om A U) as L; rewrite (rd_loc _ R2) in L; cbn in Q.
  - split; auto. unfold my_id in Q. now rewrite L in Q.
  - split; auto. now rewrite L in Q.
  - split; auto. now rewrite L in Q.
  - split; auto. destruct Q as (b & -> & Q). unfold exit_seen in Q. rewrite L in Q. destruct b; auto. exfalso. assert (false = true) by (now apply Q). discriminate.
Qed.

(** C03 *)
Theorem get_all_exact : forall s, reachable s ->
  each_return (fun t cl tr r => cl_api cl = AGetAll -> cl_acts cl = [] /\ exists m l, moment cl tr m /\ r = RIds l /\ NoDup l /\
    forall i, In i l <-> In i (created_ids m) /\ ~ exists u, In (EvUnreg u i) m) (trace s).
Proof.
  intros s R. eapply each_return_imp; [exact R|exact (reg_contracts s R)|].
  intros s1 t cl cs r R1 _ Op G Ec. specialize (G ltac:(rewrite Ec; reflexivity)). unfold reg_contract in G. rewrite Ec in G.
  destruct G as [A (m & cs' & M & Om & Q)]. split; auto. cbn in Q. subst r.
  destruct (moment_reach _ _ _ R1 M) as (s2 & R2 & E2). subst m.
  exists (trace s2), (reg_ids (trace s2)). split; auto. split; auto. split; [apply registered_fun; auto|]. now apply registered_spec.
Qed.

(** C04, C11, C15 *)
Lemma reg_api : forall (P : tid -> call -> list event -> res -> Prop) s, reachable s ->
  (forall t cl tr r, (reg_sel (cl_api cl) = true -> reg_contract t cl tr r) -> P t cl tr r) -> each_return P (trace s).
Proof.
  intros P s R H. eapply each_return_imp; [exact R|exact (reg_contracts s R)|]. cbn beta. intros. apply H. auto.
Qed.
Theorem invoke_truthful : forall s, reachable s ->
  each_return (fun t cl tr r => match cl_api cl with AInvoke i u caps => invoke_spec t i (TUser u caps) cl tr r | _ => True end) (trace s).
Proof.
  intros s R. apply reg_api; auto. intros t cl tr r H. unfold reg_contract in H. destruct (cl_api cl); auto; now apply H.
Qed.
Theorem dispatch_sync : forall s, reachable s ->
  each_return (fun t cl tr r => match cl_api cl with ADispatch i u caps => dispatch_spec t i u caps cl tr r | _ => True end) (trace s).
Proof.
  intros s R. apply reg_api; auto. intros t cl tr r H. unfold reg_contract in H. destruct (cl_api cl); auto; now apply H.
Qed.
Theorem init_nests : forall s, reachable s ->
  each_return (fun t cl tr r => match cl_api cl with
    | AInit => init_spec t cl tr r
    | AShutdown d => shutdown_spec t d cl tr r
    | _ => True end) (trace s).
Proof.
  intros s R. apply reg_api; auto. intros t cl tr r H. unfold reg_contract in H. destruct (cl_api cl); auto; now apply H.
Qed.
Theorem exit_told : forall s, reachable s ->
  each_return (fun t cl tr r => match cl_api cl with ANotifyExit i => nexit_spec t i cl tr r | _ => True end) (trace s).
Proof.
  intros s R. apply reg_api; auto. intros t cl tr r H. unfold reg_contract in H. destruct (cl_api cl); auto; now apply H.
Qed.

(** C09 *)
Theorem pending_sane : forall s, reachable s -> forall i,
  completed i (trace s) + aborted i (trace s) <= length (started i (trace s)) <= length (accepted i (trace s)).
Proof.
  intros s R i. split; [now apply ended_started|]. destruct (fifo s R i) as [r ->]. rewrite app_length. lia.
Qed.
Theorem count_exact : forall s, reachable s ->
  each_return (fun t cl tr r => forall i, cl_api cl = ACount i ->
    exists n, r = RInt (Z.of_nat n) /\
      ((n = 0 /\ (i = invalid_id \/ sometime cl tr (unknown i))) \/
       sometime cl tr (fun m => completed i m <= length (accepted i m) /\ n = length (accepted i m) - completed i m))) (trace s).
Proof.
  intros s R. eapply each_return_imp; [exact R|exact (reg_contracts s R)|].
  intros s1 t cl cs r R1 _ Op G i Ec. specialize (G ltac:(rewrite Ec; reflexivity)). unfold reg_contract in G. rewrite Ec in G.
  destruct G as (z & -> & [(-> & A & L)|(_ & m & M & ->)]).
  - exists 0. auto.
  - destruct (moment_reach _ _ _ R1 M) as (s2 & R2 & E2). pose proof (pending_sane s2 R2 i) as S. rewrite E2 in S.
    exists (length (accepted i m) - completed i m). split; [f_equal; unfold pending_of; lia|]. right. exists m. split; auto. lia.
Qed.

(** C12, C16 *)
Lemma wait_api : forall (P : tid -> call -> list event -> res -> Prop) s, reachable s ->
  (forall t cl tr r, (wait_sel (cl_api cl) = true -> wait_contract t cl tr r) -> P t cl tr r) -> each_return P (trace s).
Proof.
  intros P s R H. eapply each_return_imp; [exact R|exact (wait_contracts s R)|]. cbn beta. intros. apply H. auto.
Qed.
Theorem wait_one : forall s, reachable s ->
  each_return (fun t cl tr r => match cl_api cl with
    | AWait => wait_spec t None cl tr r
    | AWaitFor d => wait_spec t (Some d) cl tr r
    | AWaitUntil z => exists m, moment cl tr m /\ wait_spec t (Some (z - clock m)%Z) cl tr r
    | _ => True end) (trace s).
Proof.
  intros s R. apply wait_api; auto. intros t cl tr r H. unfold wait_contract in H. destruct (cl_api cl); auto; now apply H.
Qed.
Theorem process_all : forall s, reachable s ->
  each_return (fun t cl tr r => match cl_api cl with
    | AProcess => process_spec t None cl tr r
    | AProcessFor d => process_spec t (Some d) cl tr r
    | _ => True end) (trace s).
Proof.
  intros s R. apply wait_api; auto. intros t cl tr r H. unfold wait_contract in H. destruct (cl_api cl); auto; now apply H.
Qed.
Theorem sleep_full : forall s, reachable s ->
  each_return (fun t cl tr r => match cl_api cl with
    | ASleepFor d => sleep_spec t (clock (cl_pre cl) + d) cl tr r
    | ASleepUntil z => sleep_spec t z cl tr r
    | _ => True end) (trace s).
Proof.
  intros s R. apply wait_api; auto. intros t cl tr r H. unfold wait_contract in H. destruct (cl_api cl); auto; now apply H.
Qed.

(** C13 *)
Lemma exit_app : forall i a b, exit_requested i a -> exit_requested i (a ++ b).
Proof. intros i a b [t H]. exists t. apply in_or_app. now left. Qed.
Theorem exit_sticky : forall s, reachable s ->
  each_return (fun t cl tr r => cl_api cl = AExitQ -> forall i, attached t (cl_pre cl) = Some i ->
    (exit_requested i (cl_pre cl) -> r = RBool true) /\
    (r = RBool true -> sometime cl tr (fun m => attached t m = None \/ exit_requested i m))) (trace s).
Proof.
  intros s R. eapply each_return_imp; [exact R|exact (reg_contracts s R)|].
  intros s1 t cl cs r R1 _ Op G Ec i At. specialize (G ltac:(rewrite Ec; reflexivity)). unfold reg_contract in G. rewrite Ec in G.
  destruct G as [A (m & cs' & M & Om & Q)]. cbn in Q. destruct Q as (b & -> & Q).
  destruct (moment_reach _ _ _ R1 M) as (s2 & R2 & E2). subst m.
  pose proof (noacts_same _ _ _ _ R2 Om A) as L. rewrite (rd_loc _ R2), At in L. unfold exit_seen in Q. split.
  - intros X. destruct b; auto. assert (false = true); [|discriminate]. apply Q. destruct L as [->| ->]; auto.
    destruct M as (a & c & -> & _). now apply exit_app.
  - intros X. exists (trace s2). split; auto. injection X as ->. destruct L as [L|L]; auto. right. rewrite L in Q. now apply Q.
Qed.
(** The worker loop leaves when exit was requested. *)
Theorem loop_leaves : forall s t inp s' r, reachable s -> stk s t = FLoop :: r ->
  (forall i, attached t (trace s) = Some i -> exit_requested i (trace s)) -> step s (LStep t inp) = Some s' -> ubs s' = None -> stk s' t = r.
Proof.
  intros s t inp s' r R E X S U. unfold step in S. destruct (ubs s); [discriminate S|]. rewrite E in S. cbn [focus code] in S.
  unfold exec in S. destruct (atom (hp s) t OExit inp) as [|u|h b] eqn:A; [discriminate S| |].
  - injection S as <-. discriminate U.
  - injection S as <-. cbn [stk set_next]. rewrite upd_same. cbn [atom] in A. op_unfold A. rewrite (rd_loc _ R) in A.
    destruct (attached t (trace s)) as [i|].
    + brki A; try discriminate A. injection A as <- <-. specialize (X i eq_refl). apply (rd_exit _ R) in X. now rewrite X.
    + injection A as <- <-. reflexivity.
Qed.
