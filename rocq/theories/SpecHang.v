(** * SpecHang: threads that hang in a wait for a future. *)
From Verif Require Import Types Core State Ops Code Machine Spec SpecState SpecStall.

(** [t] sleeps in the context [i] in a wait for the future state [p], as a waiter with the token [tk], and cannot go on. *)
Definition hangs_in (s : st) (t : tid) (i : id) (p : sid) (tk : nat) : Prop :=
  stalled s t i /\ exists dl l e d g r, stk s t = FSleep i dl (WSem (SSt p) l i tk e (KState p d g)) :: r.
(** After [t] registered as waiter of [p], the id [i] was taken off the list of waiters: by another wait for [p]
    inside a task that [t] ran meanwhile (C74). *)
Definition struck_off (t : tid) (i : id) (p : sid) (tk : nat) (tr : list event) : Prop :=
  exists a b f u, tr = a ++ EvWaiter t (SSt p) i tk f :: b /\ In (EvUnwaiter u (SSt p) i) b.
(** No thread is about to wake up waiters or to queue a task. *)
Definition waking (f : frame) : bool :=
  match f with FNotify _ _ | FNotifyL _ | FDisp _ _ _ | FInvoke _ _ _ | FPush _ _ _ => true | _ => false end.
Definition nobody_wakes (s : st) : Prop := forall t f, In f (stk s t) -> waking f = false.
