(** * SpecWork: the loop of a worker thread. *)
From Verif Require Import Types Core State Ops Code Machine Spec.

(** A thread made by make_thread, or the detached thread of async and then, is between two
    tasks: it is not running a task and not destroying one.  The number tells how far it
    is from its end. *)
Definition home (fs : list frame) : option nat :=
  match fs with
  | [FEnd] => Some 1
  | [FClearLoc; FEnd] => Some 2
  | [FRel _; FClearLoc; FEnd] => Some 3
  | [FUnreg1 _; FEnd] => Some 4
  | [FUnreg; FEnd] => Some 5
  | [FLoop; FUnreg; FEnd] => Some 6
  | [FSleep _ _ WLoop; FUnreg; FEnd] | [FSleep _ _ WOnce; FUnreg; FEnd] => Some 7
  | [FWait1 _ _ WLoop; FUnreg; FEnd] | [FWait1 _ _ WOnce; FUnreg; FEnd] => Some 8
  | [FWait _ WLoop; FUnreg; FEnd] | [FWait _ WOnce; FUnreg; FEnd] => Some 9
  | [FRel _; FLoop; FUnreg; FEnd] | [FRel _; FWait _ WOnce; FUnreg; FEnd] => Some 10
  | [FSetLoc _; FLoop; FUnreg; FEnd] | [FSetLoc _; FWait _ WOnce; FUnreg; FEnd] => Some 11
  | [FRegSelf; FLoop; FUnreg; FEnd] | [FRegSelf; FWait _ WOnce; FUnreg; FEnd] => Some 12
  | _ => None
  end.
Definition at_home (s : st) (t : tid) : bool := match home (stk s t) with Some _ => true | None => false end.

(** The context the thread is attached to, if any, was asked to exit. *)
Definition asked (t : tid) (s : st) : Prop := forall i, attached t (trace s) = Some i -> exit_requested i (trace s).
(** [P] holds in every state of the execution. *)
Fixpoint all_along (P : st -> Prop) (s : st) (ls : list label) : Prop :=
  P s /\ match ls with
         | [] => True
         | l :: r => match step s l with Some s1 => all_along P s1 r | None => True end
         end.
Definition mine (t : tid) (l : label) : bool :=
  match l with LStep u _ | LCall u _ | LRet u _ | LThrow u _ => u =? t | LTick _ => false end.
(** Steps of [t], and those it takes between tasks. *)
Definition own_steps (t : tid) (ls : list label) : nat := length (filter (mine t) ls).
Fixpoint home_steps (t : tid) (s : st) (ls : list label) : nat :=
  match ls with
  | [] => 0
  | l :: r => (if mine t l && at_home s t then 1 else 0) + match step s l with Some s1 => home_steps t s1 r | None => 0 end
  end.
(** [e] happened between [s] and [s']. *)
Definition since (s s' : st) (e : event) : Prop := exists a b, trace s' = trace s ++ a ++ e :: b.
(** [t] started no task and destroyed no closure between [s] and [s']. *)
Definition idle_since (t : tid) (s s' : st) : Prop :=
  (forall i k, ~ since s s' (EvStart t i k)) /\ (forall k, ~ since s s' (EvDrop t k)).
