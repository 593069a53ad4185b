(** * A job that a worker took has its result when the worker is back in its loop (C81). *)
From Verif Require Import Types Core State Ops Code Machine Scenario Spec SpecPool SpecWhere SpecStarted SpecWork SpecTook PropsPool.
From Verif Require InvTook InvTookWait.

(** C81: a job that was taken has its result, or the thread that took it is at work on it. *)
Theorem C81_taken : forall s, reachable s -> forall t pl j lv g', In (EvJobTake t pl j lv g') (trace s) ->
  forall a g p q, In (EvJobAdd a pl j g p q) (trace s) -> is_ready p (trace s) \/ exists f, In f (stk s t) /\ at_work p q f.
Proof. exact InvTook.took_result. Qed.
Print Assumptions C81_taken.
(** When the thread is back in its loop, the result is there. *)
Theorem C81_back : forall s t pl j lv g' a g p q, reachable s -> In (EvJobTake t pl j lv g') (trace s) -> In (EvJobAdd a pl j g p q) (trace s) ->
  at_home s t = true -> is_ready p (trace s).
Proof. exact InvTook.took_home. Qed.
Print Assumptions C81_back.
(** A thread that has come to its end leaves no job behind that it took. *)
Theorem C81_end : forall s t pl j lv g' a g p q, reachable s -> In (EvJobTake t pl j lv g') (trace s) -> In (EvJobAdd a pl j g p q) (trace s) ->
  stk s t = [] -> is_ready p (trace s).
Proof. exact InvTook.took_end. Qed.
Print Assumptions C81_end.

(** So is the state that wait looks at. *)
Theorem C81_wait : forall s t pl j lv g' a g p q, reachable s -> In (EvJobTake t pl j lv g') (trace s) -> In (EvJobAdd a pl j g p q) (trace s) ->
  at_home s t = true \/ stk s t = [] -> is_ready q (trace s).
Proof. exact InvTookWait.answer_home. Qed.
Print Assumptions C81_wait.

(** The worker runs two jobs, the second throws; then it is back in its loop. *)
Definition sc81 (last : list cmd) : list cmd := sc_pool ++
  [Call 0 (APSched 0 (mkGroup 0 5) true 10 []); Call 0 (APSched 0 (mkGroup 0 0) true 11 []); Rn 5 0 40] ++ last.
Definition jobs81 (s : st) : list event := filter (fun e => match e with EvJobAdd _ _ _ _ _ _ | EvJobTake _ _ _ _ _ => true | _ => false end) (trace s).
Example C81_example_back : exists s, play st0 (sc81 [Lb (LRet 5 (VNat 4)); Rn 5 0 200; Lb (LThrow 5 (XUser 3)); Rn 5 0 200]) = Some s /\ at_home s 5 = true /\
  jobs81 s = [EvJobAdd 0 0 1 (mkGroup 0 5) 0 1; EvJobAdd 0 0 2 (mkGroup 0 0) 2 3; EvJobTake 5 0 1 0 (mkGroup 0 5); EvJobTake 5 0 2 0 (mkGroup 0 0)] /\
  outcome_of 0 (trace s) = Some (OVal (VNat 4)) /\ outcome_of 2 (trace s) = Some (OExn (XUser 3)) /\
  outcome_of 1 (trace s) = Some (OVal VUnit) /\ outcome_of 3 (trace s) = Some (OVal VUnit).
Proof. eexists. split; [vm_compute; reflexivity|]. repeat split; vm_compute; reflexivity. Qed.
(** Between: the worker is inside the function of the first job. *)
Example C81_example_taken : exists s, play st0 (sc81 []) = Some s /\ at_home s 5 = false /\ outcome_of 0 (trace s) = None /\ outcome_of 1 (trace s) = None /\
  jobs81 s = [EvJobAdd 0 0 1 (mkGroup 0 5) 0 1; EvJobAdd 0 0 2 (mkGroup 0 0) 2 3; EvJobTake 5 0 1 0 (mkGroup 0 5)] /\ In (FPackGuard 0) (stk s 5).
Proof. eexists. split; [vm_compute; reflexivity|]. repeat split; vm_compute; auto 9. Qed.
(** Main destroys the pool while the worker runs the first job; the worker finishes it and ends. *)
Example C81_example_end : exists s, play st0 (sc81 [Call 0 (APDestroy 0); Rn 0 0 60; Lb (LRet 5 (VNat 4)); Rn 5 0 300]) = Some s /\ stk s 5 = [] /\
  jobs81 s = [EvJobAdd 0 0 1 (mkGroup 0 5) 0 1; EvJobAdd 0 0 2 (mkGroup 0 0) 2 3; EvJobTake 5 0 1 0 (mkGroup 0 5)] /\ outcome_of 0 (trace s) = Some (OVal (VNat 4)) /\ outcome_of 1 (trace s) = Some (OVal VUnit).
Proof. eexists. split; [vm_compute; reflexivity|]. repeat split; vm_compute; reflexivity. Qed.
