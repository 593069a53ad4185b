(** * SpecReadySeen: a thread that waits for a future and the thread that completes it. *)
From Verif Require Import Types Core State Ops Code Machine Spec SpecApi SpecUb SpecLost.

(** A thread has completed [p] and has not finished waking up the waiters: it is
    about to collect them, or it has collected [w] and not interrupted it. *)
Definition alerting (p : sid) (w : id * nat) (s : st) : Prop :=
  (exists u r, stk s u = FNotify (SSt p) true :: r) \/ exists u ws, In (FNotifyL ws) (stk s u) /\ In w ws.
