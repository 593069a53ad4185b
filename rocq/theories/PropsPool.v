(** * Properties of thread_pool.h (C44-C54). *)
From Verif Require Import Types Core State Ops Code Machine Scenario Spec SpecApi SpecWait SpecState SpecFut SpecObj SpecPool SpecPack SpecPoolApi SpecLock SpecCheck.
From Verif Require ThmObj ThmFut ThmCalls ThmPool ThmJob OwnJob ThmCheck InvBuild ApiKill.

Ltac refutes := vm_compute; repeat (split || eexists); repeat first [left; reflexivity | right].
(** A pool with one worker of level normal: native thread 5, id 2. *)
Definition sc_pool : list cmd := [Call 0 AInit; Lb (LCall 0 (APool 0 [(0,1)])); Rn 0 5 40; Rn 5 0 40].

(** Two jobs; the second is raised above the first, stopped, a third is added;
    the worker takes the third (more urgent than the first), then the first. *)
Definition sc44 : list cmd := sc_pool ++
  [Call 0 (APSched 0 (mkGroup 0 2) true 10 []); Call 0 (APSched 0 (mkGroup 0 1) true 11 []); Call 0 (APChange 0 2 (mkGroup 0 9));
   Call 0 (APStop 0 2); Call 0 (APSched 0 (mkGroup 1 0) true 12 []); Rn 5 0 60; Lb (LRet 5 VUnit); Rn 5 0 200; Lb (LRet 5 VUnit); Rn 5 0 200].
Definition job_ev (e : event) : bool :=
  match e with EvJobAdd _ _ _ _ _ _ | EvJobRegroup _ _ _ _ | EvJobTake _ _ _ _ _ | EvJobSkip _ _ _ _ | EvJobErase _ _ _ => true | _ => false end.
Example C44_example : exists s, play st0 sc44 = Some s /\ filter job_ev (trace s) =
  [EvJobAdd 0 0 1 (mkGroup 0 2) 0 1; EvJobAdd 0 0 2 (mkGroup 0 1) 2 3; EvJobRegroup 0 0 2 (mkGroup 0 9); EvJobErase 0 0 [2];
   EvJobAdd 0 0 3 (mkGroup 1 0) 4 5; EvJobTake 5 0 3 0 (mkGroup 1 0); EvJobErase 5 0 [3]; EvJobSkip 5 0 0 (Some (2, mkGroup 0 9));
   EvJobTake 5 0 1 0 (mkGroup 0 2); EvJobErase 5 0 [1]; EvJobSkip 5 0 0 (Some (2, mkGroup 0 1))].
Proof. eexists. split; vm_compute; reflexivity. Qed.

(** C44: a new job gets an id that no job of the pool had before, and not 0. *)
Theorem C44_ids_unique : forall s, reachable s -> at_each (fun tr e => match e with
  | EvJobAdd _ pl j _ _ _ => j <> 0 /\ ~ added pl j tr | _ => True end) (trace s).
Proof. exact ThmPool.ids_unique. Qed.
Print Assumptions C44_ids_unique.
(** schedule returns the id of the job it added; stop, change_priority and the
    others do what SpecPoolApi says. *)
Theorem C44_pool_calls : forall s, reachable s -> each_return pool_contract (trace s).
Proof. exact ThmJob.pool_contracts. Qed.
Print Assumptions C44_pool_calls.
Example C44_returns : exists s, play st0 sc44 = Some s /\
  flat_map (fun e => match e with EvRet _ (APSched _ _ _ _ _ as c) r | EvRet _ (APStop _ _ as c) r | EvRet _ (APChange _ _ _ as c) r => [(c, r)] | _ => [] end) (trace s) =
  [(APSched 0 (mkGroup 0 2) true 10 [], RJob 0 1 (Some 0)); (APSched 0 (mkGroup 0 1) true 11 [], RJob 1 2 (Some 0));
   (APChange 0 2 (mkGroup 0 9), RUnit); (APStop 0 2, RUnit); (APSched 0 (mkGroup 1 0) true 12 [], RJob 2 3 (Some 0))].
Proof. eexists. split; vm_compute; reflexivity. Qed.

(** C45: a job is taken at most once. *)
Theorem C45_taken_once : forall s, reachable s -> at_each (fun tr e => match e with
  | EvJobTake _ pl j _ _ => added pl j tr /\ ~ taken pl j tr | _ => True end) (trace s).
Proof. exact ThmPool.taken_once. Qed.
Print Assumptions C45_taken_once.
(** Its function is begun only by the thread that took it, after it did. *)
Theorem C45_run_by_taker : forall s, reachable s -> forall pl j t0 g p q, In (EvJobAdd t0 pl j g p q) (trace s) ->
  forall tr1 t u a tr2, trace s = tr1 ++ EvUser t u a (Some p) :: tr2 -> exists lv g', In (EvJobTake t pl j lv g') tr1.
Proof. exact OwnJob.job_run. Qed.
Print Assumptions C45_run_by_taker.
(** The worker begins functions 12 and 10 of jobs 3 and 1. *)
Example C45_example : exists s, play st0 sc44 = Some s /\
  filter (fun e => match e with EvJobTake _ _ _ _ _ | EvUser _ _ _ (Some _) => true | _ => false end) (trace s) =
  [EvJobTake 5 0 3 0 (mkGroup 1 0); EvUser 5 12 None (Some 4); EvJobTake 5 0 1 0 (mkGroup 0 2); EvUser 5 10 None (Some 0)].
Proof. eexists. split; vm_compute; reflexivity. Qed.

(** C46: a job that was removed from the table is not taken afterwards. *)
Theorem C46_removed_never_taken : forall s pl j t js e a b, reachable s -> trace s = a ++ e :: b ->
  (e = EvJobErase t pl js \/ e = EvJobClear t pl js) -> In j js -> ~ taken pl j b.
Proof. exact ThmPool.removed_never_taken. Qed.
Print Assumptions C46_removed_never_taken.
(** If it was not taken before either, its function never begins, and if its future
    becomes ready then with broken_promise.  That it does become ready before stop
    returns is part of C44_pool_calls. *)
Theorem C46_removed_result : forall s pl j t js e a b t0 g p q, reachable s -> trace s = a ++ e :: b ->
  (e = EvJobErase t pl js \/ e = EvJobClear t pl js) -> In j js -> ~ taken pl j a -> In (EvJobAdd t0 pl j g p q) (trace s) ->
  ~ begun p (trace s) /\ forall t' o, In (EvReady t' p o) (trace s) -> o = OExn XBroken.
Proof. exact ThmJob.removed_result. Qed.
Print Assumptions C46_removed_result.
(** Job 2 is stopped: its states 2 and 3 become ready; stop of job 1, which was taken, does nothing. *)
Definition sc46 : list cmd := firstn 8 sc44 ++ [Rn 5 0 60; Call 0 (APStop 0 1)].
Example C46_example : exists s, play st0 sc46 = Some s /\
  filter (fun e => match e with EvJobErase _ _ _ | EvReady _ _ _ | EvJobTake _ _ _ _ _ | EvUser _ _ _ (Some _) | EvRet _ (APStop _ _) _ => true | _ => false end) (trace s) =
  [EvJobErase 0 0 [2]; EvReady 0 2 (OExn XBroken); EvReady 0 3 (OExn XBroken); EvRet 0 (APStop 0 2) RUnit;
   EvJobTake 5 0 1 0 (mkGroup 0 2); EvUser 5 10 None (Some 0); EvRet 0 (APStop 0 1) RUnit].
Proof. eexists. split; vm_compute; reflexivity. Qed.

(** C47: while a job waits, each worker of a category at most that of the job, which
    is registered and was not asked to exit, has a check of the queue to come. *)
Theorem C47_check_due : forall s pl j g lv n i, reachable s -> waiting_job pl j (trace s) -> group_of pl j (trace s) = Some g -> lv <= g_level g ->
  In (lv, (n, i)) (workers_of pl (trace s)) -> In i (reg_ids (trace s)) -> ~ exit_requested i (trace s) -> check_due pl lv n i s.
Proof. exact ThmCheck.job_check. Qed.
Print Assumptions C47_check_due.
(** If no thread is inside the pool's lock, the check is queued for the worker or it is at it. *)
Theorem C47_check_queued : forall s pl j g lv n i, reachable s -> waiting_job pl j (trace s) -> group_of pl j (trace s) = Some g -> lv <= g_level g ->
  In (lv, (n, i)) (workers_of pl (trace s)) -> In i (reg_ids (trace s)) -> ~ exit_requested i (trace s) -> lock_holder (LPool pl) (trace s) = None ->
  In (TCheck pl lv) (queued i (trace s)) \/ (attached n (trace s) = Some i /\ exists f r, stk s n = f :: r /\ checking pl lv f = true).
Proof. exact ThmCheck.job_check_free. Qed.
Print Assumptions C47_check_queued.
(** If the worker sleeps then, it can go on at once with what is first in its queue, the
    check or a closure before it. *)
Theorem C47_not_asleep : forall s pl j g lv n i, reachable s -> ubs s = None -> waiting_job pl j (trace s) -> group_of pl j (trace s) = Some g -> lv <= g_level g ->
  In (lv, (n, i)) (workers_of pl (trace s)) -> In i (reg_ids (trace s)) -> ~ exit_requested i (trace s) -> lock_holder (LPool pl) (trace s) = None -> asleep s n i ->
  In (TCheck pl lv) (queued i (trace s)) /\
  exists s' k r, step s (LStep n 0) = Some s' /\ ubs s' = None /\ queued i (trace s) = k :: r /\ trace s' = trace s ++ [EvStart n i k].
Proof. exact ThmCheck.sleeping_worker. Qed.
Print Assumptions C47_not_asleep.
(** Workers are put into a pool before its constructor ends, so before any job. *)
Theorem C47_workers_first : forall s, reachable s -> at_each (fun tr e => match e with
  | EvWorker _ pl _ _ _ => ~ (exists t o, In (EvPoolNew t o pl) tr) /\ entries_of pl tr = [] | _ => True end) (trace s).
Proof. exact InvBuild.worker_first. Qed.
Print Assumptions C47_workers_first.
(** A job was scheduled, the worker (thread 5, id 2) sleeps: the check is queued. *)
Definition sc47 : list cmd := sc_pool ++ [Call 0 (APSched 0 (mkGroup 0 2) true 10 [])].
Example C47_example : exists s, play st0 sc47 = Some s /\ ubs s = None /\
  jobs_of 0 (trace s) = [1] /\ existsb (fun e => match e with EvJobTake _ _ _ _ _ => true | _ => false end) (trace s) = false /\
  group_of 0 1 (trace s) = Some (mkGroup 0 2) /\ workers_of 0 (trace s) = [(0, (5, 2))] /\ In 2 (reg_ids (trace s)) /\
  existsb (fun e => match e with EvExitSet _ _ => true | _ => false end) (trace s) = false /\
  lock_holder (LPool 0) (trace s) = None /\ queued 2 (trace s) = [TCheck 0 0] /\ match stk s 5 with FSleep 2 _ _ :: _ => True | _ => False end.
Proof. eexists. split; [vm_compute; reflexivity|]. vm_compute. repeat split. repeat first [left; reflexivity | right]. Qed.

(** C48: a check of a worker of level lv looks at an entry of the highest category
    >= lv and in it of the highest priority; it takes the job unless the job is gone or
    now of a category below lv; it finds no entry only if there is none for it. *)
Theorem C48_urgent_first : forall s, reachable s -> at_each (fun tr e => match e with
  | EvJobTake _ pl j lv g =>
      waiting_job pl j tr /\ most_urgent lv j g (entries_of pl tr) /\ exists g', group_of pl j tr = Some g' /\ lv <= g_level g'
  | EvJobSkip _ pl lv (Some (j, g)) =>
      most_urgent lv j g (entries_of pl tr) /\ (~ waiting_job pl j tr \/ exists g', group_of pl j tr = Some g' /\ g_level g' < lv)
  | EvJobSkip _ pl lv None => forall j g, In (j, g) (entries_of pl tr) -> g_level g < lv
  | _ => True end) (trace s).
Proof. exact ThmPool.urgent_first. Qed.
Print Assumptions C48_urgent_first.

(** C49, the part that holds: a waiting job is queued in the group it was last given. *)
Theorem C49_waiting_queued : forall s pl j, reachable s -> waiting_job pl j (trace s) ->
  exists g, group_of pl j (trace s) = Some g /\ In (j, g) (entries_of pl (trace s)).
Proof. exact ThmPool.waiting_queued. Qed.
Print Assumptions C49_waiting_queued.
(** Job 2 was raised and is queued in both groups. *)
Example C49_example : exists s, play st0 (firstn 7 sc44) = Some s /\
  jobs_of 0 (trace s) = [1; 2] /\ existsb (fun e => match e with EvJobTake _ _ _ _ _ => true | _ => false end) (trace s) = false /\
  group_of 0 2 (trace s) = Some (mkGroup 0 9) /\
  entries_of 0 (trace s) = [(1, mkGroup 0 2); (2, mkGroup 0 1); (2, mkGroup 0 9)].
Proof. eexists. split; [vm_compute; reflexivity|]. vm_compute. repeat split. Qed.

(** C49 does not hold for lowering: job 1 is lowered from priority 9 to 1, below
    job 2 of priority 5; the worker still takes job 1 first. *)
Definition sc49 : list cmd := sc_pool ++
  [Call 0 (APSched 0 (mkGroup 0 9) true 10 []); Call 0 (APSched 0 (mkGroup 0 5) true 11 []);
   Call 0 (APChange 0 1 (mkGroup 0 1)); Rn 5 0 40].
Theorem C49_lowering_refuted :
  exists s, reachable s /\
    filter (fun e => match e with EvJobAdd _ _ _ _ _ _ | EvJobRegroup _ _ _ _ | EvJobTake _ _ _ _ _ => true | _ => false end) (trace s) =
    [EvJobAdd 0 0 1 (mkGroup 0 9) 0 1; EvJobAdd 0 0 2 (mkGroup 0 5) 2 3; EvJobRegroup 0 0 1 (mkGroup 0 1); EvJobTake 5 0 1 0 (mkGroup 0 9)] /\
    jobs_of 0 (trace s) = [1; 2].
Proof. apply (witness sc49). refutes. Qed.
Print Assumptions C49_lowering_refuted.

(** C50: what wait and wait_all do: they wait for the futures of the jobs in the table. *)
Theorem C50_job_waits : forall s, reachable s ->
  each_return (fun t cl tr r => match cl_api cl with
    | APWait o j => jwait_spec t o j cl tr r
    | APWaitAll o => jwaitall_spec t o cl tr r
    | _ => True end) (trace s).
Proof. exact ThmFut.job_waits. Qed.
Print Assumptions C50_job_waits.
(** Main waits for job 1 and later for both; the worker runs them. *)
Definition sc50w : list cmd := sc_pool ++
  [Call 0 (APSched 0 (mkGroup 0 5) true 10 []); Call 0 (APSched 0 (mkGroup 0 0) true 11 []); Call 0 (APWait 0 1); Rn 5 0 40; Lb (LRet 5 VUnit);
   Rn 5 0 200; Rn 0 0 40; Call 0 (APWaitAll 0); Lb (LRet 5 VUnit); Rn 5 0 200; Rn 0 0 40; Call 0 (APWait 0 1)].
Example C50_example : exists s, play st0 sc50w = Some s /\
  filter (fun e => match e with EvRet _ (APWait _ _) _ | EvRet _ (APWaitAll _) _ | EvJobEnd _ _ _ => true | _ => false end) (trace s) =
  [EvJobEnd 5 0 1; EvRet 0 (APWait 0 1) RUnit; EvJobEnd 5 0 2; EvRet 0 (APWaitAll 0) RUnit; EvRet 0 (APWait 0 1) RUnit].
Proof. eexists. split; vm_compute; reflexivity. Qed.
(** C50 does not hold after stop_all: wait returns, the job is still running. *)
Definition sc50 : list cmd := sc_pool ++
  [Call 0 (APSched 0 (mkGroup 0 0) true 10 []); Rn 5 0 40; Call 0 (APStopAll 0); Call 0 (APWait 0 1)].
Theorem C50_wait_after_stop_all_refuted :
  exists s, reachable s /\ exists tr, trace s = tr ++ [EvCall 0 (APWait 0 1); EvRet 0 (APWait 0 1) RUnit] /\
    In (EvRet 0 (APSched 0 (mkGroup 0 0) true 10 []) (RJob 0 1 (Some 0))) tr /\
    In (EvJobTake 5 0 1 0 (mkGroup 0 0)) tr /\ In (EvUser 5 10 None (Some 0)) tr /\
    filter (fun e => match e with EvUserEnd _ _ _ _ | EvJobEnd _ _ _ | EvExitSet _ _ => true | _ => false end) tr = [].
Proof. apply (witness_of (fun s => firstn (length (trace s) - 2) (trace s)) sc50). refutes. Qed.
Print Assumptions C50_wait_after_stop_all_refuted.

(** C51 does not hold: the job calls schedule, the pool locks its mutex twice. *)
Definition sc51 : list cmd := sc_pool ++
  [Call 0 (APSched 0 (mkGroup 0 0) true 10 []); Rn 5 0 40; Call 5 (APSched 0 (mkGroup 0 0) true 11 [])].
Theorem C51_schedule_from_job_refuted :
  exists s, reachable s /\ ubs s = Some (UbRelock (LPool 0)) /\
    map cl_api (open_calls 5 (trace s)) = [APSched 0 (mkGroup 0 0) true 11 []] /\ In (EvUser 5 10 None (Some 0)) (trace s).
Proof. apply (witness sc51). refutes. Qed.
Print Assumptions C51_schedule_from_job_refuted.

(** C52: the destructor drops and settles the jobs that wait and returns after every
    worker was asked to exit and has ended; so does the assignment of another pool. *)
Theorem C52_destructor : forall s, reachable s -> each_return kill_contract (trace s).
Proof. exact ApiKill.kill_calls. Qed.
Print Assumptions C52_destructor.
(** The worker runs the first of two jobs while main destroys the pool. *)
Definition sc52 : list cmd := sc_pool ++
  [Call 0 (APSched 0 (mkGroup 0 5) true 10 []); Call 0 (APSched 0 (mkGroup 0 0) true 11 []); Rn 5 0 40; Call 0 (APDestroy 0); Rn 0 0 60;
   Lb (LRet 5 VUnit); Rn 5 0 300; Rn 0 0 60].
Example C52_example : exists s, play st0 sc52 = Some s /\ pool_of 0 (trace s) = None /\
  filter (fun e => match e with EvRet _ (APDestroy _) _ | EvPoolKill _ _ | EvJobTake _ _ _ _ _ | EvJobEnd _ _ _ | EvJobClear _ _ _ | EvWorkersOut _ _ | EvThreadEnd _ => true | _ => false end) (trace s) =
  [EvJobTake 5 0 1 0 (mkGroup 0 5); EvPoolKill 0 0; EvJobClear 0 0 [1; 2]; EvWorkersOut 0 0; EvJobEnd 5 0 1; EvThreadEnd 5; EvRet 0 (APDestroy 0) RUnit].
Proof. eexists. split; [vm_compute; reflexivity|]. split; vm_compute; reflexivity. Qed.

(** C53 does not hold if the pool object was moved: stop through the handle made
    by schedule dereferences the moved-from pool. *)
Definition sc53 : list cmd := sc_pool ++
  [Call 0 (APSched 0 (mkGroup 0 0) true 10 []); Call 0 (APMove 1 0); Call 0 (AJStop (Some 0) 0 1)].
Theorem C53_moved_pool_refuted :
  exists s, reachable s /\ ubs s = Some (UbNullPool 0) /\
    In (EvRet 0 (APSched 0 (mkGroup 0 0) true 10 []) (RJob 0 1 (Some 0))) (trace s) /\
    map cl_api (open_calls 0 (trace s)) = [AJStop (Some 0) 0 1] /\ pool_of 1 (trace s) = Some 0.
Proof. apply (witness sc53). refutes. Qed.
Print Assumptions C53_moved_pool_refuted.

(** C54: the count is the number of jobs in the table: added and not yet erased *)
Theorem C54_jobs_count : forall s, reachable s ->
  each_return (fun t cl tr r => forall o, cl_api cl = APCount o ->
    cl_acts cl = [] /\ exists pl, sometime cl tr (fun m => pool_of o m = Some pl) /\
      at_end t cl tr (fun m => r = RInt (Z.of_nat (length (jobs_of pl m))))) (trace s).
Proof. exact ThmCalls.jobs_count. Qed.
Print Assumptions C54_jobs_count.
Definition sc54 : list cmd := sc_pool ++
  [Call 0 (APSched 0 (mkGroup 0 5) true 10 []); Call 0 (APSched 0 (mkGroup 0 0) true 11 []); Call 0 (APSched 0 (mkGroup 0 0) true 12 []);
   Call 0 (APCount 0); Rn 5 0 40; Lb (LRet 5 VUnit); Rn 5 0 200; Call 0 (APCount 0); Call 0 (APStop 0 3); Call 0 (APCount 0); Call 0 (APStopAll 0); Call 0 (APCount 0)].
Example C54_example : exists s, play st0 sc54 = Some s /\
  flat_map (fun e => match e with EvRet _ (APCount _) r => [r] | _ => [] end) (trace s) = [RInt 3; RInt 2; RInt 1; RInt 0].
Proof. eexists. split; vm_compute; reflexivity. Qed.
