(** * SpecTook: a job on its way from the queue of a pool to its result. *)
From Verif Require Import Types Core State Ops Code Machine Spec SpecWhere SpecStarted.

(** The closure of a job (thread_pool.h:218, thread_pool.cpp:83): it calls the packaged function, whose state
    is [p], and then makes the state [q] ready that wait looks at. *)
Definition job_task (p q : sid) (k : task) : Prop := exists u caps, k = TPack q (BTask (TPack p (BUser u caps))).
(** The thread is about to call the closure, is inside its function, or is storing the outcome. *)
Definition at_work (p q : sid) (f : frame) : Prop := busy_with p f \/ exists k, f = FRun k /\ job_task p q k.
