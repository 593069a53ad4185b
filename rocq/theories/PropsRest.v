(** * No job is lost (C82). *)
From Verif Require Import Types Core State Ops Code Machine Scenario Spec SpecKind SpecOwn SpecPool SpecPack SpecRest.
From Verif Require InvRest.

(** C82: when no thread is busy inside the library (calls that wait do not count), every job that was ever scheduled waits in its pool, or
    its future and the one that wait looks at are ready. *)
Theorem C82_jobs : forall s, reachable s -> at_rest s -> forall a pl j g p q, In (EvJobAdd a pl j g p q) (trace s) ->
  waiting_job pl j (trace s) \/ (is_ready p (trace s) /\ is_ready q (trace s)).
Proof. exact InvRest.no_job_lost. Qed.
Print Assumptions C82_jobs.
(** Every function given to async, then or schedule has its result then, or its closure is in the queue of a
    context that exists, attached to a future, or in the table of a pool. *)
Theorem C82_functions : forall s p u, reachable s -> at_rest s -> purpose_is (trace s) p (PuFun u) ->
  is_ready p (trace s) \/
  (exists i k, alive (hp s) i = true /\ In k (ctx_pending (h_ctxs (hp s) i)) /\ has p k = true) \/
  (exists r cb, In cb (fs_cbs (h_fsts (hp s) r)) /\ has_cb p cb = true) \/
  (exists pl j b, In (j, b) (pl_jobs (h_pools (hp s) pl)) /\ has p (jb_callable b) = true).
Proof. exact InvRest.rest_where. Qed.
Print Assumptions C82_functions.

(** The only worker takes jobs of category 1 and above.  It runs job 2; job 3 is stopped; job 1 has to wait.
    A continuation attached to the future of job 1 waits with it. *)
Definition sc82 : list cmd :=
  [Call 0 AInit; Lb (LCall 0 (APool 0 [(1,1)])); Rn 0 5 40; Rn 5 0 40;
   Call 0 (APSched 0 (mkGroup 0 5) true 10 []); Call 0 (APSched 0 (mkGroup 1 0) true 11 []); Call 0 (APSched 0 (mkGroup 0 0) true 12 []);
   Call 0 (APStop 0 3); Call 0 (AFThen 0 1 LOther false 13 []); Rn 5 0 60; Lb (LRet 5 (VNat 4)); Rn 5 0 300].
Example C82_example : exists s, play st0 sc82 = Some s /\ at_rest s /\
  filter (fun e => match e with EvJobAdd _ _ _ _ _ _ => true | _ => false end) (trace s) =
    [EvJobAdd 0 0 1 (mkGroup 0 5) 0 1; EvJobAdd 0 0 2 (mkGroup 1 0) 2 3; EvJobAdd 0 0 3 (mkGroup 0 0) 4 5] /\
  jobs_of 0 (trace s) = [1] /\
  map (fun q => outcome_of q (trace s)) [0; 1; 2; 3; 4; 5; 6] =
    [None; None; Some (OVal (VNat 4)); Some (OVal VUnit); Some (OExn XBroken); Some (OExn XBroken); None] /\
  existsb (has_cb 6) (fs_cbs (h_fsts (hp s) 0)) = true.
Proof.
  eexists. split; [vm_compute; reflexivity|]. split; [|repeat split; vm_compute; reflexivity].
  intros t f. destruct t as [|[|[|[|[|[|t]]]]]]; vm_compute; intros J; repeat destruct J as [<-|J]; try reflexivity; destruct J.
Qed.
(** The same while main waits for job 1 with wait: nothing moves any more. *)
Example C82_example_wait : exists s, play st0 (sc82 ++ [Call 0 (APWait 0 1)]) = Some s /\ at_rest s /\
  map cl_api (open_calls 0 (trace s)) = [APWait 0 1] /\ step s (LStep 0 0) = None /\ step s (LStep 5 0) = None /\ jobs_of 0 (trace s) = [1].
Proof.
  eexists. split; [vm_compute; reflexivity|]. split; [|repeat split; vm_compute; reflexivity].
  intros t f. destruct t as [|[|[|[|[|[|t]]]]]]; vm_compute; intros J; repeat destruct J as [<-|J]; try reflexivity; destruct J.
Qed.
