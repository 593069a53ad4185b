(** * SpecSync: what the calls on condition variables and mutexes do and return.
    Like SpecApi: only histories occur here. *)
From Verif Require Import Types Spec SpecApi SpecWait.

(** The user lock [m] along the actions of a thread that holds it at first.
    [None]: the thread unlocks or locks it twice, uses another user lock, or sleeps,
    starts or ends a task while it holds it. *)
Definition lock_step (t : tid) (m : nat) (x : option bool) (e : event) : option bool :=
  match x with
  | None => None
  | Some held =>
      match e with
      | EvUnlock t' (LUser m') => if (t' =? t) && (m' =? m) && held then Some false else None
      | EvLock t' (LUser m') => if (t' =? t) && (m' =? m) && negb held then Some true else None
      | _ => if sched e && held then None else Some held
      end
  end.
Definition lock_path (t : tid) (m : nat) (l : list event) : option bool := fold_left (lock_step t m) l (Some true).

Definition waiting (e : event) : bool := match e with EvWaiter _ _ _ _ _ | EvUnwaiter _ _ _ => true | _ => false end.

(** wait ([lim] = None) and wait_for on condition variable [c] with lock [m]: the
    thread registers as a waiter with token [tk], and comes back with the lock held
    when the token is interrupted, exit is requested, or time is up (one microsecond
    early at most); the first of the actions is the registration, the last one its end. *)
Definition cv_spec (t : tid) (c m : nat) (lim : option Z) (cl : call) (tr : list event) (r : res) : Prop :=
  exists i tk f l,
    sometime cl tr (fun x => my_id t x = i) /\
    (forall e, In e l -> waiting e = false) /\
    ((exists late, r = wait_res lim late /\
        cl_acts cl = EvWaiter t (SCv c) i tk f :: l ++ [EvUnwaiter t (SCv c) i] /\
        lock_path t m l = Some true /\
        (lock_holder (LUser m) (cl_pre cl) = Some t -> lock_holder (LUser m) tr = Some t) /\
        (if late then exists d, lim = Some d /\ sometime cl tr (fun x => clock (cl_pre cl) + d < clock x + 1000)%Z
         else sometime cl tr (interrupted tk) \/ sometime cl tr (exit_seen t))) \/
     (exists e c' k l', r = RExn e /\ cl_acts cl = EvWaiter t (SCv c) i tk f :: l /\
        lock_path t m l = Some false /\ scheds cl = l' ++ [EvStart t c' k; EvAbort t c'])).

(** notify_one and notify_all on condition variable [c]: every waiter taken off the
    list gets its token interrupted and, unless its id is invalid, is roused by an empty task. *)
Definition roused (t : tid) (cl : call) (tr : list event) (w : id * nat) : Prop :=
  fst w <> invalid_id ->
  In (EvInterrupt t (snd w)) (cl_acts cl) /\
  (In (EvAccept t (fst w) TNop) (cl_acts cl) \/ sometime cl tr (unknown (fst w)) \/ sometime cl tr (fun m => my_id t m = fst w)).
Definition notify_spec (t : tid) (c : nat) (all : bool) (cl : call) (tr : list event) (r : res) : Prop :=
  r = RUnit /\ exists ws,
    begins cl [EvNotify t (SCv c) all ws] /\
    does cl tr (EvNotify t (SCv c) all ws) (fun m => ws = if all then waiters (SCv c) m else firstn 1 (waiters (SCv c) m)) /\
    forall w, In w ws -> roused t cl tr w.

Definition sync_contract (t : tid) (cl : call) (tr : list event) (r : res) : Prop :=
  match cl_api cl with
  | ACvWait c m => cv_spec t c m None cl tr r
  | ACvWaitFor c m d => cv_spec t c m (Some d) cl tr r
  | ACvNotifyOne c => notify_spec t c false cl tr r
  | ACvNotifyAll c => notify_spec t c true cl tr r
  | AULock m => r = RUnit /\ cl_acts cl = [EvLock t (LUser m)] /\ lock_holder (LUser m) tr = Some t
  | AUUnlock m => r = RUnit /\ cl_acts cl = [EvUnlock t (LUser m)] /\ sometime cl tr (fun x => lock_holder (LUser m) x = Some t)
  | _ => True
  end.
