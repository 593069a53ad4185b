(** * SpecCause: the cause of every undefined behaviour. *)
From Verif Require Import Types Core State Ops Code Machine Spec SpecApi SpecLive SpecUb SpecTerm SpecLock SpecRelock.

Definition cause (t : tid) (u : ub) (tr : list event) : Prop :=
  match u with
  | UbRelock l => relock_cause t l tr
  | UbTerminate => task_threw t tr \/ late_set t tr \/ lost_thread t tr
  | UbDeadContext i => left_in_task t i tr \/ leaving t i tr
  | UbUnlock _ | UbNullContext | UbNullState | UbNullPool _ | UbPrecondition => misuse t u tr
  end.
