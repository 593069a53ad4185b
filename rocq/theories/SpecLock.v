(** * SpecLock: what a thread does while it holds the lock of a shared state.
    Only histories occur here. *)
From Verif Require Import Types Spec.

(** The events since the lock was last taken. *)
Definition since (l : lockid) (tr : list event) : list event :=
  fold_left (fun a e => match e with EvLock _ k => if lock_eqb k l then [] else a ++ [e] | _ => a ++ [e] end) tr [].
(** What set_value, set_exception, wait and wait_for do under the lock: they set the
    outcome, register and remove the waiter and notify the waiters. *)
Definition guard_event (p : sid) (e : event) : Prop :=
  match e with
  | EvReady _ q _ | EvNotify _ (SSt q) _ _ | EvWaiter _ (SSt q) _ _ _ | EvUnwaiter _ (SSt q) _ | EvUnlock _ (LState q) => q = p
  | EvInterrupt _ _ | EvAccept _ _ TNop | EvDrop _ TNop => True
  | _ => False
  end.
(** A thread context with remaining tasks went away, and [t] destroyed one of them,
    while it holds the lock. *)
Definition swept (t : tid) (p : sid) (tr : list event) : Prop :=
  exists k i ks, In (EvDrop t k) (since (LState p) tr) /\ k <> TNop /\ In (EvCtxGone i ks) (since (LState p) tr) /\ In k ks.
