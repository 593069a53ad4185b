(** * SpecStuck: what a thread may legitimately wait for. *)
From Verif Require Import Types Core State Ops Code Machine Spec SpecObj.

(** Some step of [t] is possible: its user code may act, or its next atomic operation can run
    (for some choice of the scheduler). *)
Definition can_move (s : st) (t : tid) : Prop :=
  (exists c s', step s (LCall t c) = Some s') \/ (exists inp s', step s (LStep t inp) = Some s').

Inductive reason :=
| ROwn (l : lockid)                    (* another thread holds the mutex [l] *)
| RWake (i : id) (dl : option Z)       (* context [i] has no task and no exit request, and the deadline is ahead *)
| RJoin (n : tid)                      (* native thread [n] is running *)
| RClean (dl : Z).                     (* shutdown waits for the other contexts, and the deadline is ahead *)

(** The history no longer gives thread [t] this reason to wait. *)
Definition lapsed (t : tid) (r : reason) (tr : list event) : Prop :=
  match r with
  | ROwn l => forall u, lock_holder l tr = Some u -> u = t
  | RWake i dl => accepted i tr <> started i tr \/ exit_requested i tr \/ exists d, dl = Some d /\ (d <= clock tr)%Z
  | RJoin n => ended n tr
  | RClean dl => reg_ids tr = [] \/ (dl <= clock tr)%Z
  end.

(** [t] waits for [r]: it has that reason now, and in every situation where [t] is at the same
    point of its execution and the reason is gone, [t] can move. *)
Definition waits_for (s : st) (t : tid) (r : reason) : Prop :=
  ~ lapsed t r (trace s) /\
  forall s', reachable s' -> ubs s' = None -> stk s' t = stk s t -> lapsed t r (trace s') -> can_move s' t.
