(** * SpecLive: when a destroyed thread context may be touched. *)
From Verif Require Import Types Core State Ops Code Machine Spec.

(** Tasks of [i] that thread [t] has started and not ended. *)
Definition running_tasks (t : tid) (i : id) (tr : list event) : Z :=
  fold_left (fun n e => match e with
    | EvStart u j _ => if (u =? t) && (j =? i) then (n + 1)%Z else n
    | EvDone u j | EvAbort u j => if (u =? t) && (j =? i) then (n - 1)%Z else n
    | _ => n end) tr 0%Z.
(** [t] has removed its own registration [i] while it ran a task of [i]. *)
Definition left_in_task (t : tid) (i : id) (tr : list event) : Prop :=
  exists a b, tr = a ++ EvUnreg t i :: b /\ (0 < running_tasks t i a)%Z.
(** [t] is inside unregister_this_thread: the registration is gone, the thread
    still points to its context. *)
Definition leaving (t : tid) (i : id) (tr : list event) : Prop :=
  attached t tr = Some i /\ In (EvUnreg t i) tr.
(** The next operation of the thread reads or writes the destroyed context of [i]. *)
Definition touches_dead (s : st) (t : tid) (i : id) : Prop :=
  exists inp s', step s (LStep t inp) = Some s' /\ ubs s' = Some (UbDeadContext i).
