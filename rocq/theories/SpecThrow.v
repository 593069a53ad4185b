(** * SpecThrow: which exceptions leave a call of the library.
    Only histories occur here. *)
From Coq Require Import List. Import ListNotations.
From Verif Require Import Types Spec SpecApi.

(** The calls that process tasks of the calling thread or run the given function in place. *)
Definition runs_tasks (c : api) : bool :=
  match c with
  | ADispatch _ _ _ | AProcess | AProcessFor _ | AWait | AWaitFor _ | AWaitUntil _ | ASleepFor _ | ASleepUntil _
  | ACvWait _ _ | ACvWaitFor _ _ _ | AMLock _ | AFWait _ | AFWaitFor _ _ | AFGet _ | APWait _ _ | APWaitAll _ => true
  | _ => false
  end.
(** The errors the library itself reports. *)
Definition lib_error (t : tid) (cl : call) (e : exn) : Prop :=
  match cl_api cl with
  | AThJoin _ | AThDetach _ => e = XNotJoinable
  | AMLock _ => e = XDeadlock
  | AMUnlock _ => e = XNoLock
  | APSet _ _ | APSetExn _ _ | APAbandon _ => e = XNoState \/ e = XSatisfied
  | APGetFuture _ => e = XNoState \/ e = XRetrieved
  | AFReady _ | AFHasError _ | AFWait _ | AFWaitFor _ _ | AFThen _ _ _ _ _ _ | AFThenNew _ _ _ _ _ => e = XNoState
  | AFGet _ => e = XNoState \/ exists p, In (EvGot t p (RExn e)) (cl_acts cl)
  | _ => False
  end.
(** An exception that leaves a call was thrown by a function given to invoke or
    dispatch that ran in the call, or is an error of the library. *)
Definition explained (t : tid) (cl : call) (r : res) : Prop :=
  forall e, r = RExn e ->
    (runs_tasks (cl_api cl) = true /\ exists u, In (EvUserEnd t u None (RExn e)) (cl_acts cl)) \/ lib_error t cl e.
