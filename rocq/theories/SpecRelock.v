(** * SpecRelock: what a thread has done before it locks a mutex that it holds. *)
From Verif Require Import Types Core State Ops Code Machine Spec SpecApi SpecLock SpecPool SpecUb.

(** The calls that lock a mutex of the user. *)
Definition locks_user (m : nat) (c : api) : Prop := match c with AULock m' | ACvWait _ m' | ACvWaitFor _ m' _ => m' = m | _ => False end.
(** A function given to the library, as opposed to the tasks the library makes for itself. *)
Definition closure (k : task) : Prop := match k with TUser _ _ | TPack _ _ => True | _ => False end.
(** Since it took the lock, [t] has destroyed such a function. *)
Definition destroyed_since (t : tid) (l : lockid) (tr : list event) : Prop := exists k, In (EvDrop t k) (since l tr) /\ closure k.
(** Since it took the lock, [t] has launched a continuation. *)
Definition launched_since (t : tid) (l : lockid) (tr : list event) : Prop := exists p cb, In (EvFire t p cb) (since l tr).
(** [t] is a worker of the pool. *)
Definition pool_worker (t : tid) (pl : nat) (tr : list event) : Prop := exists u lv i, In (EvWorker u pl lv t i) tr.
Definition relock_cause (t : tid) (l : lockid) (tr : list event) : Prop :=
  lock_holder l tr = Some t /\
  match l with
  | LUser m => exists cl, inside t cl tr /\ locks_user m (cl_api cl)
  | LState p => swept t p tr
  | LWhen w => launched_since t (LWhen w) tr \/ destroyed_since t (LWhen w) tr
  | LPool pl => pool_worker t pl tr \/ destroyed_since t (LPool pl) tr
  end.
