(** * No combinator is lost (C83). *)
From Verif Require Import Types Core State Ops Code Machine Scenario Spec SpecWhen SpecBegun SpecRest SpecRestWhen.
From Verif Require InvRestWhen.

(** C83: when no thread is busy inside the library, the future made by when_all or when_any is ready, or a
    closure that refers to the combinator waits in the queue of a context that exists, or the continuation of
    an input is still attached to it and this input is not ready. *)
Theorem C83_where : forall s all w p ins, reachable s -> at_rest s -> combines (trace s) all w p ins ->
  is_ready p (trace s) \/
  (exists c k, alive (hp s) c = true /\ In k (ctx_pending (h_ctxs (hp s) c)) /\ refers w k = true) \/
  (exists i r cb, nth_error ins i = Some r /\ ~ is_ready r (trace s) /\ In cb (fs_cbs (h_fsts (hp s) r)) /\ hook_closure all w i (cb_task cb)).
Proof. exact InvRestWhen.rest_when. Qed.
Print Assumptions C83_where.
(** So the future of a when_all is ready when the inputs are and no closure waits in a queue. *)
Theorem C83_all : forall s w p ins, reachable s -> at_rest s -> queues_empty s -> combines (trace s) true w p ins -> (forall r, In r ins -> is_ready r (trace s)) -> is_ready p (trace s).
Proof. exact InvRestWhen.rest_all. Qed.
Print Assumptions C83_all.

(** Main combines the futures of two promises and sets the first; later the second. *)
Definition sc83 (last : list cmd) : list cmd :=
  [Call 0 AInit; Call 0 (APromise false); Call 0 (APGetFuture 0); Call 0 (APromise false); Call 0 (APGetFuture 1);
   Call 0 (AWhenAll [0; 1]); Call 0 (APSet 0 (VNat 3))] ++ last.
Definition whens83 (s : st) : list event := filter (fun e => match e with EvWhen _ _ _ _ _ => true | _ => false end) (trace s).
Example C83_example : exists s, play st0 (sc83 []) = Some s /\ at_rest s /\ whens83 s = [EvWhen 0 true 0 2 [0; 1]] /\ outcome_of 2 (trace s) = None /\
  map cb_task (fs_cbs (h_fsts (hp s) 1)) = [TPack 4 (BAll 0 1 1)].
Proof.
  eexists. split; [vm_compute; reflexivity|]. split; [|repeat split; vm_compute; reflexivity].
  intros t f. destruct t; vm_compute; intros J; repeat destruct J as [<-|J]; try reflexivity; destruct J.
Qed.
Example C83_example_all : exists s, play st0 (sc83 [Call 0 (APSet 1 (VNat 4))]) = Some s /\ at_rest s /\ queues_empty s /\ whens83 s = [EvWhen 0 true 0 2 [0; 1]] /\
  outcome_of 2 (trace s) = Some (OVal (VFuts [Some 0; Some 1])).
Proof.
  eexists. split; [vm_compute; reflexivity|]. split; [|split; [|repeat split; vm_compute; reflexivity]].
  - intros t f. destruct t; vm_compute; intros J; repeat destruct J as [<-|J]; try reflexivity; destruct J.
  - intros c. destruct c as [|[|c]]; vm_compute; auto; discriminate.
Qed.
