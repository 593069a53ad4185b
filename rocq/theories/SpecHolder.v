(** * SpecHolder: when the holder of an internal mutex may be held up. *)
From Verif Require Import Types Core State Ops Code Machine Spec SpecLock SpecRelock.

(** What [t] has done since it took the mutex [l] of the library that can make it wait:
    it destroyed a function given to the library or launched a continuation. *)
Definition detour (t : tid) (l : lockid) (tr : list event) : Prop :=
  match l with
  | LUser _ => True
  | LState p => swept t p tr
  | LWhen w => launched_since t (LWhen w) tr \/ destroyed_since t (LWhen w) tr
  | LPool pl => destroyed_since t (LPool pl) tr
  end.
Definition moves (s : st) (t : tid) : Prop := exists s', step s (LStep t 0) = Some s'.
(** [t] waits for a thread that sets the outcome of a state. *)
Definition behind (s : st) (t u : tid) : Prop :=
  exists p, lock_holder (LState p) (trace s) = Some u /\ u <> t /\ (swept u p (trace s) \/ moves s u).
Definition of_library (l : lockid) : bool := match l with LUser _ => false | _ => true end.
