(** * SpecLost: how an unlock of a tpp::mutex can miss a waiter. *)
From Verif Require Import Types Core State Ops Code Machine Spec SpecApi SpecUb.

(** [t] found mutex [m] taken and has done nothing since: in the history [a], the
    part [a2] contains no event of [t]. *)
Definition found_taken (t : tid) (m : nat) (a a1 a2 : list event) : Prop :=
  a = a1 ++ a2 /\ mx_holder m a1 <> None /\ forall e, In e a2 -> by_thread t e = false.
(** [t] is inside lock and has found the mutex taken. *)
Definition gave_up (t : tid) (m : nat) (a : list event) : Prop :=
  (exists cl, inside t cl a /\ cl_api cl = AMLock m) /\ exists a1 a2, found_taken t m a a1 a2.
(** A thread has released [m] and has not finished rousing up the waiters: it is
    about to collect them, or it has collected [w] and not interrupted it. *)
Definition rousing (m : nat) (w : id * nat) (s : st) : Prop :=
  (exists u r, stk s u = FNotify (SMx m) true :: r) \/ exists u ws, In (FNotifyL ws) (stk s u) /\ In w ws.
(** The registration [w] at semaphore [sm] made at the end of [a] is still waiting: it
    was neither taken back nor interrupted in [b]. *)
Definition still_waiting (sm : semid) (w : id * nat) (tr b : list event) : Prop :=
  fst w <> invalid_id /\ (forall u, ~ In (EvUnwaiter u sm (fst w)) b) /\ ~ interrupted (snd w) tr.
