(** * SpecServe: how soon a worker starts the tasks it was given. *)
From Verif Require Import Types Core State Ops Code Machine Spec SpecWork.

(** A thread made by make_thread is in its loop, between two tasks. *)
Definition looping (fs : list frame) : bool :=
  match fs with
  | [FRel _; FLoop; FUnreg; FEnd] | [FLoop; FUnreg; FEnd] | [FWait _ WLoop; FUnreg; FEnd]
  | [FWait1 _ _ WLoop; FUnreg; FEnd] | [FSleep _ _ WLoop; FUnreg; FEnd] => true
  | _ => false
  end.
(** [t] is attached to [i], and [i] was not asked to exit. *)
Definition serving (t : tid) (i : id) (s : st) : Prop := attached t (trace s) = Some i /\ ~ exit_requested i (trace s).
(** The number of tasks that wait to be started. *)
Definition waiting (i : id) (tr : list event) : nat := length (accepted i tr) - length (started i tr).
