(** * Why nothing moves (C84). *)
From Verif Require Import Types Core State Ops Code Machine Scenario Spec SpecKind SpecOwn SpecPool SpecPack SpecState SpecCheck SpecRest SpecStall PropsRest.
From Verif Require InvStall.

(** C84: no thread is busy inside the library and a worker of a pool sleeps for good.  A job of the pool
    without result then waits in the pool, and its category is too low for this worker. *)
Theorem C84_job : forall s a pl j g p q g' lv n i, reachable s -> ubs s = None -> at_rest s -> In (EvJobAdd a pl j g p q) (trace s) -> ~ is_ready q (trace s) ->
  group_of pl j (trace s) = Some g' -> In (lv, (n, i)) (workers_of pl (trace s)) -> stalled s n i -> waiting_job pl j (trace s) /\ g_level g' < lv.
Proof. exact InvStall.stall_job. Qed.
Print Assumptions C84_job.
(** As long as no thread is busy, a worker that may take a waiting job has a check of the pool in its queue. *)
Theorem C84_check : forall s pl j g lv n i, reachable s -> at_rest s -> waiting_job pl j (trace s) -> group_of pl j (trace s) = Some g -> lv <= g_level g ->
  In (lv, (n, i)) (workers_of pl (trace s)) -> In i (reg_ids (trace s)) -> ~ exit_requested i (trace s) -> In (TCheck pl lv) (queued i (trace s)).
Proof. exact InvStall.rest_check. Qed.
Print Assumptions C84_check.
(** A thread that sleeps for good has nothing in its queue and was not asked to exit. *)
Theorem C84_idle : forall s t i, reachable s -> ubs s = None -> stalled s t i -> ctx_pending (h_ctxs (hp s) i) = [] /\ ~ exit_requested i (trace s).
Proof. exact InvStall.stalled_idle. Qed.
Print Assumptions C84_idle.
(** A function without result is attached to a future that is not ready, or in the table of a pool, or in the
    queue of a context in which no thread sleeps for good. *)
Theorem C84_function : forall s p u, reachable s -> ubs s = None -> at_rest s -> purpose_is (trace s) p (PuFun u) ->
  is_ready p (trace s) \/
  (exists i k, alive (hp s) i = true /\ In k (ctx_pending (h_ctxs (hp s) i)) /\ has p k = true /\ forall t, ~ stalled s t i) \/
  (exists r cb, ~ is_ready r (trace s) /\ In cb (fs_cbs (h_fsts (hp s) r)) /\ has_cb p cb = true) \/
  (exists pl j b, In (j, b) (pl_jobs (h_pools (hp s) pl)) /\ has p (jb_callable b) = true).
Proof. exact InvStall.stall_fun. Qed.
Print Assumptions C84_function.

(** The worker takes jobs of category 1 and above; main waits for job 1, of category 0.  Both sleep. *)
Example C84_example : exists s, play st0 (sc82 ++ [Call 0 (APWait 0 1)]) = Some s /\ ubs s = None /\ at_rest s /\ stalled s 5 2 /\ stalled s 0 1 /\
  In (EvJobAdd 0 0 1 (mkGroup 0 5) 0 1) (trace s) /\ outcome_of 1 (trace s) = None /\ group_of 0 1 (trace s) = Some (mkGroup 0 5) /\
  workers_of 0 (trace s) = [(1, (5, 2))].
Proof.
  eexists. split; [vm_compute; reflexivity|]. split; [reflexivity|]. split.
  { intros t f. destruct t as [|[|[|[|[|[|t]]]]]]; vm_compute; intros J; repeat destruct J as [<-|J]; try reflexivity; destruct J. }
  split. { split; [do 3 eexists; vm_compute; reflexivity|]. split; [vm_compute; auto|vm_compute; reflexivity]. }
  split. { split; [do 3 eexists; vm_compute; reflexivity|]. split; [vm_compute; auto|vm_compute; reflexivity]. }
  split. { vm_compute. repeat (try (now left); right). }
  repeat split; vm_compute; reflexivity.
Qed.
(** Main has scheduled a job and the worker has not woken up yet: the check is in its queue. *)
Definition sc84 : list cmd :=
  [Call 0 AInit; Lb (LCall 0 (APool 0 [(1,1)])); Rn 0 5 40; Rn 5 0 40; Call 0 (APSched 0 (mkGroup 1 0) true 11 [])].
Example C84_example_check : exists s, play st0 sc84 = Some s /\ at_rest s /\ jobs_of 0 (trace s) = [1] /\ group_of 0 1 (trace s) = Some (mkGroup 1 0) /\
  workers_of 0 (trace s) = [(1, (5, 2))] /\ existsb (Nat.eqb 2) (reg_ids (trace s)) = true /\ queued 2 (trace s) = [TCheck 0 1].
Proof.
  eexists. split; [vm_compute; reflexivity|]. split; [|repeat split; vm_compute; reflexivity].
  intros t f. destruct t as [|[|[|[|[|[|t]]]]]]; vm_compute; intros J; repeat destruct J as [<-|J]; try reflexivity; destruct J.
Qed.
