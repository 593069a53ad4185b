(** * When the functions of the jobs are over (C68). *)
From Verif Require Import Types Core State Ops Code Machine Scenario Spec SpecApi SpecPool SpecPack SpecPoolApi SpecFut SpecJobWait.
From Verif Require PropsPool ThmJobWait.

Definition run_ev (e : event) : bool :=
  match e with EvUser _ _ _ _ | EvUserEnd _ _ _ _ | EvReady _ _ _ | EvJobEnd _ _ _ | EvJobErase _ _ _ | EvJobClear _ _ _ | EvRet _ (APWait _ _) _ | EvRet _ (APWaitAll _) _ => true | _ => false end.

(** C68: when the pool future [q] of a job becomes ready, the function of the job has
    finished or never begins. *)
Theorem C68_ready : forall s tr1 t q o tr2 t1 pl j g p, reachable s -> trace s = tr1 ++ EvReady t q o :: tr2 ->
  In (EvJobAdd t1 pl j g p q) tr1 -> over p tr1 (trace s).
Proof. exact ThmJobWait.ready_job. Qed.
Print Assumptions C68_ready.
(** So it has when the job is removed from the table by the worker or by stop. *)
Theorem C68_removed : forall s tr1 t pl js tr2 t1 j g p q, reachable s -> trace s = tr1 ++ EvJobErase t pl js :: tr2 -> In j js ->
  In (EvJobAdd t1 pl j g p q) (trace s) -> over p tr1 (trace s).
Proof. exact ThmJobWait.erased_job. Qed.
Print Assumptions C68_removed.
(** So have the functions of all jobs that wait or wait_all waited for. *)
Theorem C68_wait : forall s, reachable s -> each_return (fun t cl tr r => after_wait t cl tr (trace s) r) (trace s).
Proof. exact ThmJobWait.wait_jobs. Qed.
Print Assumptions C68_wait.
(** Main waits for job 1 and then for both; the worker runs them, the second throws. *)
Definition sc68 : list cmd := PropsPool.sc_pool ++
  [Call 0 (APSched 0 (mkGroup 0 5) true 10 []); Call 0 (APSched 0 (mkGroup 0 0) true 11 []); Call 0 (APWait 0 1); Rn 5 0 40; Lb (LRet 5 VUnit);
   Rn 5 0 200; Rn 0 0 40; Call 0 (APWaitAll 0); Lb (LThrow 5 (XUser 7)); Rn 5 0 200; Rn 0 0 40].
Example C68_example : exists s, play st0 sc68 = Some s /\ In (EvJobAdd 0 0 1 (mkGroup 0 5) 0 1) (trace s) /\ In (EvJobAdd 0 0 2 (mkGroup 0 0) 2 3) (trace s) /\
  filter run_ev (trace s) =
  [EvUser 5 10 None (Some 0); EvUserEnd 5 10 (Some 0) (RVal VUnit); EvReady 5 0 (OVal VUnit); EvReady 5 1 (OVal VUnit);
   EvJobEnd 5 0 1; EvJobErase 5 0 [1]; EvUser 5 11 None (Some 2); EvRet 0 (APWait 0 1) RUnit; EvUserEnd 5 11 (Some 2) (RExn (XUser 7));
   EvReady 5 2 (OExn (XUser 7)); EvReady 5 3 (OVal VUnit); EvJobEnd 5 0 2; EvJobErase 5 0 [2]; EvRet 0 (APWaitAll 0) RUnit].
Proof. eexists. split; [vm_compute; reflexivity|]. vm_compute. repeat split; auto 60. Qed.
(** stop_all removes a job while it runs (the case [cleared_running] of C68_wait): wait returns, the function runs on. *)
Example C68_cleared : exists s, play st0 PropsPool.sc50 = Some s /\
  filter (fun e => match e with EvJobTake _ _ _ _ _ => true | _ => run_ev e end) (trace s) =
  [EvJobTake 5 0 1 0 (mkGroup 0 0); EvUser 5 10 None (Some 0); EvJobClear 0 0 [1]; EvRet 0 (APWait 0 1) RUnit].
Proof. eexists. split; vm_compute; reflexivity. Qed.
