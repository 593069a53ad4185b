(** * Properties of the calls of thread.h (C03, C04, C09-C13, C15-C17). *)
From Verif Require Import Types Core State Ops Code Machine Scenario Spec SpecApi SpecWait.
From Verif Require ThmApi InvDrift.

(** Main is id 1, the worker on native thread 5 is id 2. *)
Definition sc_two : list cmd := [Call 0 AInit; Lb (LCall 0 (AThread 0 BLoop)); Rn 0 5 20; Rn 5 0 20].
Ltac shows := eexists; split; [vm_compute; reflexivity|]; vm_compute; intuition.

(** C03: the list is exact at some moment of the call. *)
Theorem C03_get_all_exact : forall s, reachable s ->
  each_return (fun t cl tr r => cl_api cl = AGetAll ->
    cl_acts cl = [] /\ exists m l, moment cl tr m /\ r = RIds l /\ NoDup l /\
    forall i, In i l <-> In i (created_ids m) /\ ~ exists u, In (EvUnreg u i) m) (trace s).
Proof. exact ThmApi.get_all_exact. Qed.
Print Assumptions C03_get_all_exact.
Example C03_example : exists s, play st0 (sc_two ++ [Call 0 AGetAll; Call 0 AUnregThis; Call 0 AGetAll]) = Some s /\
  In (EvRet 0 AGetAll (RIds [2; 1])) (trace s) /\ In (EvRet 0 AGetAll (RIds [2])) (trace s).
Proof. shows. Qed.

(** C04 *)
Theorem C04_invoke_truthful : forall s, reachable s ->
  each_return (fun t cl tr r => match cl_api cl with AInvoke i u caps => invoke_spec t i (TUser u caps) cl tr r | _ => True end) (trace s).
Proof. exact ThmApi.invoke_truthful. Qed.
Print Assumptions C04_invoke_truthful.
Example C04_example : exists s, play st0 (sc_two ++ [Call 0 (AInvoke 2 10 []); Call 0 (AInvoke 3 11 []); Call 0 (AInvoke 0 12 [])]) = Some s /\
  In (EvRet 0 (AInvoke 2 10 []) (RBool true)) (trace s) /\ In (EvRet 0 (AInvoke 3 11 []) (RBool false)) (trace s) /\
  In (EvRet 0 (AInvoke 0 12 []) (RBool false)) (trace s) /\ accepted 2 (trace s) = [TUser 10 []].
Proof. shows. Qed.

(** C09 *)
Theorem C09_count_exact : forall s, reachable s ->
  each_return (fun t cl tr r => forall i, cl_api cl = ACount i ->
    exists n, r = RInt (Z.of_nat n) /\
      ((n = 0 /\ (i = invalid_id \/ sometime cl tr (unknown i))) \/
       sometime cl tr (fun m => completed i m <= length (accepted i m) /\ n = length (accepted i m) - completed i m))) (trace s).
Proof. exact ThmApi.count_exact. Qed.
Print Assumptions C09_count_exact.
Theorem C09_never_negative : forall s, reachable s -> forall i,
  completed i (trace s) + aborted i (trace s) <= length (started i (trace s)) <= length (accepted i (trace s)).
Proof. exact ThmApi.pending_sane. Qed.
Print Assumptions C09_never_negative.
(** Three tasks for main; the first runs and asks, then the others are run. *)
Example C09_example : exists s, play st0 [Call 0 AInit; Call 0 (AInvoke 1 10 []); Call 0 (AInvoke 1 11 []); Call 0 (AInvoke 1 12 []); Call 0 (ACount 1);
    Call 0 AWait; Call 0 (ACount 1); Lb (LRet 0 VUnit); Rn 0 0 9; Call 0 (ACount 1)] = Some s /\
  filter (fun e => match e with EvRet _ (ACount _) _ => true | _ => false end) (trace s) =
  [EvRet 0 (ACount 1) (RInt 3); EvRet 0 (ACount 1) (RInt 3); EvRet 0 (ACount 1) (RInt 2)].
Proof. shows. Qed.

(** C10 does not hold: main runs one task, the task throws, main catches the
    exception; nothing is left, yet the count is 1. *)
Theorem C10_count_after_exception_refuted :
  exists s, reachable s /\ exists tr, trace s = tr ++ [EvCall 0 (ACount 1); EvRet 0 (ACount 1) (RInt 1)] /\
    length (accepted 1 tr) = 1 /\ length (started 1 tr) = 1 /\ aborted 1 tr = 1.
Proof.
  apply (witness_of (fun s => firstn (length (trace s) - 2) (trace s))
    [Call 0 AInit; Call 0 (AInvoke 1 10 []); Call 0 AProcess; Lb (LThrow 0 (XUser 1)); Rn 0 0 20; Call 0 (ACount 1)]).
  vm_compute. auto.
Qed.
Print Assumptions C10_count_after_exception_refuted.
(** The count is too large by exactly the number of tasks that ended with an exception:
    in a state in which no thread is inside process_one of [i] it is the number of tasks
    not yet started plus that number. *)
Theorem C10_drift : forall i s, reachable s -> (forall t, ~ In (FPoEnd i) (stk s t)) ->
  pending_of i (trace s) = (Z.of_nat (length (accepted i (trace s)) - length (started i (trace s))) + Z.of_nat (aborted i (trace s)))%Z.
Proof. exact InvDrift.count_drift. Qed.
Print Assumptions C10_drift.
(** Two tasks throw, one completes, one is left. *)
Example C10_drift_example : exists s, reachable s /\ (forall t, ~ In (FPoEnd 1) (stk s t)) /\ pending_of 1 (trace s) = 3%Z /\ aborted 1 (trace s) = 2 /\
  length (accepted 1 (trace s)) = 4 /\ length (started 1 (trace s)) = 3.
Proof.
  destruct (play st0 [Call 0 AInit; Call 0 (AInvoke 1 10 []); Call 0 (AInvoke 1 11 []); Call 0 (AInvoke 1 12 []); Call 0 AProcess; Lb (LThrow 0 (XUser 1)); Rn 0 0 20;
    Call 0 AProcess; Lb (LRet 0 VUnit); Rn 0 0 20; Lb (LThrow 0 (XUser 1)); Rn 0 0 20; Call 0 (AInvoke 1 13 [])]) as [s|] eqn:E; [|vm_compute in E; discriminate E].
  exists s. split; [eapply play_reachable; exact E|]. vm_compute in E. injection E as <-.
  split; [|repeat split; vm_compute; reflexivity]. intros t H. destruct t; cbn in H; intuition discriminate.
Qed.

(** C11 *)
Theorem C11_dispatch : forall s, reachable s ->
  each_return (fun t cl tr r => match cl_api cl with ADispatch i u caps => dispatch_spec t i u caps cl tr r | _ => True end) (trace s).
Proof. exact ThmApi.dispatch_sync. Qed.
Print Assumptions C11_dispatch.
Example C11_example : exists s, play st0 (sc_two ++ [Call 0 (ADispatch 1 10 []); Lb (LRet 0 VUnit); Rn 0 0 9; Call 0 (ADispatch 2 11 [])]) = Some s /\
  In (EvUserEnd 0 10 None (RVal VUnit)) (trace s) /\ accepted 1 (trace s) = [] /\ accepted 2 (trace s) = [TUser 11 []] /\
  In (EvRet 0 (ADispatch 1 10 []) (RBool true)) (trace s) /\ In (EvRet 0 (ADispatch 2 11 []) (RBool true)) (trace s).
Proof. shows. Qed.

(** C12: together with C12_sleeps_only_when_idle and C05_start_oldest *)
Theorem C12_wait : forall s, reachable s ->
  each_return (fun t cl tr r => match cl_api cl with
    | AWait => wait_spec t None cl tr r
    | AWaitFor d => wait_spec t (Some d) cl tr r
    | AWaitUntil z => exists m, moment cl tr m /\ wait_spec t (Some (z - clock m)%Z) cl tr r
    | _ => True end) (trace s).
Proof. exact ThmApi.wait_one. Qed.
Print Assumptions C12_wait.
Theorem C12_process : forall s, reachable s ->
  each_return (fun t cl tr r => match cl_api cl with
    | AProcess => process_spec t None cl tr r
    | AProcessFor d => process_spec t (Some d) cl tr r
    | _ => True end) (trace s).
Proof. exact ThmApi.process_all. Qed.
Print Assumptions C12_process.
(** Main waits with a limit of 5000: it times out; with two tasks wait runs one,
    process the other. *)
Example C12_wait_example : exists s, play st0 [Call 0 AInit; Call 0 (AWaitFor 5000); Lb (LTick 6000); Rn 0 0 9;
    Call 0 (AInvoke 1 10 []); Call 0 (AInvoke 1 11 []); Call 0 AWait; Lb (LRet 0 VUnit); Rn 0 0 9; Call 0 AProcess; Lb (LRet 0 VUnit); Rn 0 0 9] = Some s /\
  In (EvRet 0 (AWaitFor 5000) (RCv true)) (trace s) /\ In (EvRet 0 AWait RUnit) (trace s) /\ In (EvRet 0 AProcess RUnit) (trace s) /\
  started 1 (trace s) = [TUser 10 []; TUser 11 []].
Proof. shows. Qed.

(** C13 *)
Theorem C13_exit_sticky : forall s, reachable s ->
  each_return (fun t cl tr r => cl_api cl = AExitQ -> forall i, attached t (cl_pre cl) = Some i ->
    (exit_requested i (cl_pre cl) -> r = RBool true) /\
    (r = RBool true -> sometime cl tr (fun m => attached t m = None \/ exit_requested i m))) (trace s).
Proof. exact ThmApi.exit_sticky. Qed.
Print Assumptions C13_exit_sticky.
Theorem C13_notify_for_exit : forall s, reachable s ->
  each_return (fun t cl tr r => match cl_api cl with ANotifyExit i => nexit_spec t i cl tr r | _ => True end) (trace s).
Proof. exact ThmApi.exit_told. Qed.
Print Assumptions C13_notify_for_exit.
(** The loop of make_thread: its test pops the loop instead of starting a wait. *)
Theorem C13_loop_leaves : forall s t inp s' r, reachable s -> stk s t = FLoop :: r ->
  (forall i, attached t (trace s) = Some i -> exit_requested i (trace s)) ->
  step s (LStep t inp) = Some s' -> ubs s' = None -> stk s' t = r.
Proof. exact ThmApi.loop_leaves. Qed.
Print Assumptions C13_loop_leaves.
Example C13_example : exists s s', play st0 (sc_two ++ [Call 0 AExitQ; Call 0 (ANotifyExit 1); Call 0 AExitQ; Call 0 (ANotifyExit 2); Rn 5 0 1]) = Some s /\
  In (EvRet 0 AExitQ (RBool false)) (trace s) /\ In (EvRet 0 AExitQ (RBool true)) (trace s) /\
  attached 5 (trace s) = Some 2 /\ stk s 5 = FLoop :: tl (stk s 5) /\ step s (LStep 5 0) = Some s' /\ ubs s' = None.
Proof. do 2 eexists. split; [vm_compute; reflexivity|]. vm_compute. intuition. Qed.

(** C15 *)
Theorem C15_init_shutdown : forall s, reachable s ->
  each_return (fun t cl tr r => match cl_api cl with
    | AInit => init_spec t cl tr r
    | AShutdown d => shutdown_spec t d cl tr r
    | _ => True end) (trace s).
Proof. exact ThmApi.init_nests. Qed.
Print Assumptions C15_init_shutdown.
(** An unmatched shutdown, a nested pair, and a last shutdown that finds the worker
    still registered. *)
Example C15_example : exists s, play st0 ([Call 0 (AShutdown 7)] ++ sc_two ++ [Call 0 AInit; Call 0 (AShutdown 7); Lb (LCall 0 (AShutdown 7)); Rn 0 0 20; Lb (LTick 9); Rn 0 0 20]) = Some s /\
  filter (fun e => match e with EvRet _ (AShutdown _) _ => true | _ => false end) (trace s) =
  [EvRet 0 (AShutdown 7) (RInt (-1)); EvRet 0 (AShutdown 7) (RInt (-1)); EvRet 0 (AShutdown 7) (RInt 1)] /\
  exit_requested 2 (trace s) /\ reg_ids (trace s) = [2].
Proof.
  eexists. split; [vm_compute; reflexivity|]. split; [vm_compute; reflexivity|]. split; [exists 0|]; vm_compute; intuition.
Qed.

(** C16 *)
Theorem C16_sleep : forall s, reachable s ->
  each_return (fun t cl tr r => match cl_api cl with
    | ASleepFor d => sleep_spec t (clock (cl_pre cl) + d) cl tr r
    | ASleepUntil z => sleep_spec t z cl tr r
    | _ => True end) (trace s).
Proof. exact ThmApi.sleep_full. Qed.
Print Assumptions C16_sleep.
(** A task arrives in the middle of the sleep. *)
Example C16_example : exists s,
  play st0 [Call 0 AInit; Call 0 (AInvoke 1 10 []); Call 0 (ASleepFor 5000); Lb (LTick 3000); Lb (LRet 0 VUnit); Rn 0 0 20; Lb (LTick 2000); Rn 0 0 20] = Some s /\
  In (EvRet 0 (ASleepFor 5000) RUnit) (trace s) /\ started 1 (trace s) = [TUser 10 []] /\ clock (trace s) = 5000%Z.
Proof. shows. Qed.

(** C17 *)
Theorem C17_unattached : forall s, reachable s -> each_return idle_contract (trace s).
Proof. exact ThmApi.idle_contracts. Qed.
Print Assumptions C17_unattached.
Example C17_example : exists s, play st0 [Call 0 AWait; Call 0 (AWaitFor 9); Call 0 AProcess; Call 0 (ASleepFor 9); Call 0 AMyId; Call 0 AExitQ; Call 0 AIsReg; Call 0 ADepth] = Some s /\
  filter (fun e => match e with EvRet _ _ _ => true | _ => false end) (trace s) =
  [EvRet 0 AWait RUnit; EvRet 0 (AWaitFor 9) (RCv false); EvRet 0 AProcess RUnit; EvRet 0 (ASleepFor 9) RUnit;
   EvRet 0 AMyId (RId invalid_id); EvRet 0 AExitQ (RBool true); EvRet 0 AIsReg (RBool false); EvRet 0 ADepth (RInt 0)].
Proof. shows. Qed.
