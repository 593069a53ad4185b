(** * SpecState: situations of a thread, read off the machine state. *)
From Verif Require Import Types Core State Ops Code Machine.

(** [t] is blocked on the wakeup_event of context [i], inside this_thread::wait,
    wait_for or any blocking call built on them. *)
Definition asleep (s : st) (t : tid) (i : id) : Prop := exists dl k r, stk s t = FSleep i dl k :: r.

(** [t] cannot move, whatever the scheduler chooses (no spurious wakeup counted). *)
Definition stuck (s : st) (t : tid) : Prop := step s (LStep t 0) = None.
