(** * SpecHangMx: threads that hang at a mutex or a condition variable of the library. *)
From Verif Require Import Types Core State Ops Code Machine Spec SpecState SpecMutex SpecLost SpecStall.

(** [t] sleeps in the context [i] as a waiter of the semaphore [sm], with the token [tk], and cannot go on.  A tpp::mutex
    and a condition variable contain such a semaphore. *)
Definition hangs_at (s : st) (t : tid) (i : id) (sm : semid) (tk : nat) : Prop :=
  stalled s t i /\ exists dl l e k r, stk s t = FSleep i dl (WSem sm l i tk e k) :: r.
(** In [b] the id [i] was taken off the list of waiters. *)
Definition struck_out (i : id) (sm : semid) (b : list event) : Prop := exists u, In (EvUnwaiter u sm i) b.
(** [t] found mutex [m] taken, [m] was released before [t] registered at the end of [a], and nobody has used [m] in [b], since then. *)
Definition missed (t : tid) (m : nat) (a b : list event) : Prop :=
  (forall e, In e b -> on_mx m e = false) /\ exists a1 a2 u, found_taken t m a a1 a2 /\ In (EvMxRel u m) a2.
(** In [b] nobody notified all waiters of [sm], and no notification reached the waiter [w]. *)
Definition unnotified (sm : semid) (w : id * nat) (b : list event) : Prop :=
  forall u all ws, In (EvNotify u sm all ws) b -> all = false /\ ~ In w ws.
