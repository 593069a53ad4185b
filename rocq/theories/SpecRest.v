(** * SpecRest: no thread is busy inside the library. *)
From Verif Require Import Types Core State Ops Code Machine Spec.

(** A thread function of the user, the loop of a worker between two tasks, or a call that waits: for a time, for
    a thread, at a semaphore, for a future, for a mutex, or for the jobs or the workers of a pool. *)
Definition resting (f : frame) : bool :=
  match f with
  | FUser _ UPlain | FEnd | FClearLoc | FRel _ | FUnreg1 _ | FUnreg | FLoop | FSetLoc _ | FRegSelf => true
  | FApi _ | FRes _ => true
  | FSleep _ _ _ | FWait1 _ _ _ | FWait _ _ | FWaitFor _ _ | FWaitUntil _ | FSleepUntil _ | FSleepFor _ | FSl _ _ | FSlNow _ => true
  | FJoin _ | FThJoin _ | FThJoin1 _ | FShut _ | FShut1 _ | FShut2 _ | FShut3 _ _ | FShut4 _ => true
  | FSem _ _ _ _ | FSemId _ _ _ _ | FSemAdd _ _ _ _ _ | FSemTok _ _ _ _ _ _ _ | FSemExit _ _ _ _ _ _ _ | FSemGo _ _ _ _ _ _
  | FSemRe _ _ _ _ _ _ _ | FSemNow _ _ _ _ _ _ _ | FSemRem _ _ _ _ _ => true
  | FSt _ _ _ | FStW1 _ _ _ | FStW2 _ _ _ | FStEnd _ _ _ | FWaitList _ | FGet _ | FGet2 _ | FGet3 _ _ | FHWait _ _ => true
  | FULock _ | FMLock _ | FMTas _ _ | FMOwnQ _ _ | FMOwn _ _ => true
  | FPWait _ _ | FPWaitAll _ | FPJoin _ | FJoinL _ => true
  | _ => false
  end.
Definition at_rest (s : st) : Prop := forall t f, In f (stk s t) -> resting f = true.
