(** * SpecMutex: what the calls on mutexes do and return.
    Like SpecApi: only histories occur here. *)
From Verif Require Import Types Spec SpecApi SpecWait SpecSync.

Definition mx_call (m : nat) (c : api) : bool :=
  match c with AMLock x | AMTry x | AMUnlock x => x =? m | _ => false end.
(** The thread holds mutex [m] or is inside a call on it. *)
Definition engaged (m : nat) (t : tid) (tr : list event) : Prop :=
  mx_holder m tr = Some t \/ exists cl, In cl (open_calls t tr) /\ mx_call m (cl_api cl) = true.
(** The threads that use [m] are registered, and stay so, under the same id, while
    they are engaged. *)
Definition steady (m : nat) (tr : list event) : Prop :=
  forall a b t, tr = a ++ b -> engaged m t a ->
    attached t a <> None /\ forall e b', b = e :: b' -> attached t (a ++ [e]) = attached t a.

Definition on_mx (m : nat) (e : event) : bool :=
  match e with EvMxAcq _ x | EvMxRel _ x => x =? m | _ => false end.

(** lock: gets the mutex as its last action, or fails because the thread holds it
    (at once if it held it before the call, otherwise a task processed while waiting
    has got it), or an exception of such a task passes through. *)
Definition mlock_spec (t : tid) (m : nat) (cl : call) (tr : list event) (r : res) : Prop :=
  (r = RUnit /\ mx_holder m tr = Some t /\ mx_holder m (cl_pre cl) <> Some t /\
     exists l, cl_acts cl = l ++ [EvMxAcq t m] /\ forall e, In e l -> on_mx m e = false) \/
  (r = RExn XDeadlock /\ mx_holder m tr = Some t /\ (forall e, In e (cl_acts cl) -> on_mx m e = false) /\
     (mx_holder m (cl_pre cl) = Some t -> cl_acts cl = [])) \/
  (exists e c k l, r = RExn e /\ mx_holder m (cl_pre cl) <> Some t /\
     scheds cl = l ++ [EvStart t c k; EvAbort t c] /\ forall e, In e (cl_acts cl) -> on_mx m e = false).
(** try_lock: gets the mutex, or finds it taken. *)
Definition mtry_spec (t : tid) (m : nat) (cl : call) (tr : list event) (r : res) : Prop :=
  (r = RBool true /\ cl_acts cl = [EvMxAcq t m] /\ (steady m tr -> mx_holder m tr = Some t)) \/
  (r = RBool false /\ cl_acts cl = [] /\ sometime cl tr (fun x => mx_holder m x <> None)).
(** unlock: the holder gives the mutex back and notifies all waiters, anybody else fails. *)
Definition munlock_spec (t : tid) (m : nat) (cl : call) (tr : list event) (r : res) : Prop :=
  (r = RUnit /\ mx_holder m (cl_pre cl) = Some t /\ exists ws,
     begins cl [EvMxRel t m; EvNotify t (SMx m) true ws] /\
     does cl tr (EvNotify t (SMx m) true ws) (fun x => ws = waiters (SMx m) x) /\
     forall w, In w ws -> roused t cl tr w) \/
  (r = RExn XNoLock /\ mx_holder m (cl_pre cl) <> Some t /\ cl_acts cl = []).

Definition mutex_contract (t : tid) (cl : call) (tr : list event) (r : res) : Prop :=
  match cl_api cl with
  | AMLock m => steady m tr -> mlock_spec t m cl tr r
  | AMTry m => mtry_spec t m cl tr r
  | AMUnlock m => steady m tr -> munlock_spec t m cl tr r
  | _ => True
  end.

(** The thread is between a successful lock or try_lock and its next call of unlock. *)
Definition owns (m : nat) (t : tid) (tr : list event) : bool :=
  latest (fun e => match e with
    | EvRet u (AMLock x) RUnit | EvRet u (AMTry x) (RBool true) => if (u =? t) && (x =? m) then Some true else None
    | EvCall u (AMUnlock x) => if (u =? t) && (x =? m) then Some false else None
    | _ => None end) false tr.
