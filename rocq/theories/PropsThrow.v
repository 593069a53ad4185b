(** * Which exceptions leave a call (C61). *)
From Verif Require Import Types Core State Ops Code Machine Scenario Spec SpecApi SpecThrow.
From Verif Require ApiThrow.

(** C61 *)
Theorem C61_explained : forall s, reachable s -> each_return (fun t cl tr r => explained t cl r) (trace s).
Proof. exact ApiThrow.throw_explained. Qed.
Print Assumptions C61_explained.
(** An exception of a task passes through process and through get of an unready
    future; get of a failed future throws the error stored; a second get_future, an
    unlock without a lock and the use of a future already used report errors of the
    library. *)
Definition sc61 : list cmd :=
  [Call 0 AInit; Call 0 (AInvoke 1 10 []); Call 0 AProcess; Lb (LThrow 0 (XUser 1)); Rn 0 0 20;
   Call 0 (APromise false); Call 0 (APGetFuture 0); Call 0 (AInvoke 1 11 []); Call 0 (AFGet 0); Lb (LThrow 0 (XUser 2)); Rn 0 0 20;
   Call 0 (APGetFuture 0); Call 0 (APSetExn 0 3); Call 0 (AFGet 0); Call 0 (AFGet 0);
   Call 0 (AMUnlock 0)].
Example C61_example : exists s, play st0 sc61 = Some s /\
  filter (fun e => match e with EvRet _ _ (RExn _) => true | _ => false end) (trace s) =
  [EvRet 0 AProcess (RExn (XUser 1)); EvRet 0 (AFGet 0) (RExn (XUser 2)); EvRet 0 (APGetFuture 0) (RExn XRetrieved);
   EvRet 0 (AFGet 0) (RExn (XUser 3)); EvRet 0 (AFGet 0) (RExn XNoState); EvRet 0 (AMUnlock 0) (RExn XNoLock)].
Proof. eexists. split; [vm_compute; reflexivity|]. vm_compute. reflexivity. Qed.
