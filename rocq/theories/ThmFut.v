(** * ThmFut: waiting for futures, in the words of the properties. *)
From Verif Require Import Types Core State Ops Code Machine Base Spec SpecApi SpecWait SpecFut Contract ContractLib ApiFut.
From Verif Require ThmSync.

Theorem fut_waits : forall s, reachable s ->
  each_return (fun t cl tr r => match cl_api cl with
    | AFWait h => fwait_spec t h cl tr r
    | AFWaitFor h d => fwaitfor_spec t h d cl tr r
    | AFGet h => fget_spec t h cl tr r
    | _ => True end) (trace s).
Proof.
  intros s R. eapply ThmSync.each_mono; [|apply fwait_calls; exact R]. unfold fwait_contract, fwait_sel.
  intros t cl x r H. destruct (cl_api cl); auto.
Qed.
Theorem job_waits : forall s, reachable s ->
  each_return (fun t cl tr r => match cl_api cl with
    | APWait o j => jwait_spec t o j cl tr r
    | APWaitAll o => jwaitall_spec t o cl tr r
    | _ => True end) (trace s).
Proof.
  intros s R. eapply ThmSync.each_mono; [|apply fwait_calls; exact R]. unfold fwait_contract, fwait_sel.
  intros t cl x r H. destruct (cl_api cl); auto.
Qed.
(** The statuses. *)
Theorem wait_returns : forall s, reachable s ->
  each_return (fun t cl tr r => forall h,
    (cl_api cl = AFWait h -> r = RUnit -> exists p, refers h p cl tr /\ (is_ready p tr \/ sometime cl tr (exit_seen t))) /\
    (forall d, cl_api cl = AFWaitFor h d ->
      (r = RFs FsReady -> exists p, refers h p cl tr /\ is_ready p tr) /\
      (r = RFs FsDeferred -> sometime cl tr (exit_seen t)) /\
      (r = RFs FsTimeout -> sometime cl tr (fun x => clock (cl_pre cl) + d < clock x + 1000)%Z))) (trace s).
Proof.
  intros s R. eapply ThmSync.each_mono; [|apply fut_waits; exact R]. intros t cl x r H h. cbv beta in H. split.
  - intros E ->. rewrite E in H. destruct H as [(N & _)|(p & A & B & [(_ & _ & C)|(e & c & k & l & N & _)])]; try discriminate N. now exists p.
  - intros d E. rewrite E in H.
    split; [|split]; intros ->; (destruct H as [(N & _)|(p & A & B & [(f & C1 & _ & C2)|(e & c & k & l & N & _)])]; try discriminate N);
      injection C1 as <-; cbn [status_spec] in C2; auto. now exists p.
Qed.
(** get *)
Theorem get_returns : forall s, reachable s ->
  each_return (fun t cl tr r => forall h, cl_api cl = AFGet h ->
    match r with
    | RVal v => exists p, refers h p cl tr /\ does cl tr (EvGot t p r) (fun m =>
        match outcome_of p m with
        | Some (OVal w) => v = if void_state p m then VUnit else w
        | Some (OExn _) => False
        | None => void_state p m = true /\ v = VUnit /\ sometime cl tr (exit_seen t)
        end)
    | RExn e => invalid h cl tr r \/ threw t cl r \/ exists p, refers h p cl tr /\ does cl tr (EvGot t p r) (fun m =>
        match outcome_of p m with
        | Some (OVal _) => False
        | Some (OExn x) => e = x
        | None => void_state p m = false /\ e = XBroken /\ sometime cl tr (exit_seen t)
        end)
    | _ => False
    end) (trace s).
Proof.
  intros s R. eapply ThmSync.each_mono; [|apply fut_waits; exact R]. intros t cl x r H h E. cbv beta in H. rewrite E in H.
  destruct H as [Iv|(p & Rf & _ & [(_ & _ & I & m & Hm & W & D)|Th])].
  - assert (Er : r = RExn XNoState) by apply Iv. subst r. now left.
  - assert (W' : outcome_of p m = None -> sometime cl x (exit_seen t)).
    { intros N. destruct W as [W|W]; [contradiction|]. destruct Hm as (a & b & _ & ->). now apply st_tr. }
    unfold delivers in D. destruct (outcome_of p m) as [[w|e]|] eqn:Eo; [| |destruct (void_state p m) eqn:Ev]; subst r.
    + exists p. split; auto. split; auto. exists m. rewrite Eo. auto.
    + right. right. exists p. split; auto. split; auto. exists m. rewrite Eo. auto.
    + exists p. split; auto. split; auto. exists m. rewrite Eo. auto.
    + right. right. exists p. split; auto. split; auto. exists m. rewrite Eo. auto.
  - pose proof Th as (e & c & k & l & Er & Sc). subst r. right. now left.
Qed.
