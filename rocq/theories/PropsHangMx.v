(** * Why a thread does not come back from a mutex or a condition variable (C87). *)
From Verif Require Import Types Core State Ops Code Machine Scenario Spec SpecState SpecMutex SpecLost SpecStall SpecHang SpecHangMx.
From Verif Require InvHangMx PropsMutex PropsCv.

(** C87: no thread is about to wake up others, and a thread sleeps in lock of a tpp::mutex and cannot go on.  Then the mutex is
    taken, or its registration was removed by a lock inside this lock, or the mutex was released between its attempt and
    its registration and nobody has used it since (the defect of C27). *)
Theorem C87_mutex : forall s t i m tk, reachable s -> ubs s = None -> nobody_wakes s -> hangs_at s t i (SMx m) tk ->
  mx_holder m (trace s) <> None \/
  exists a b f, trace s = a ++ EvWaiter t (SMx m) i tk f :: b /\ (struck_out i (SMx m) b \/ missed t m a b).
Proof. exact InvHangMx.hang_mutex. Qed.
Print Assumptions C87_mutex.
(** A thread that sleeps at a condition variable and cannot go on is registered, and since it registered nobody has notified
    all and no notification was for it; or its registration was removed by a wait inside this wait (the defect of C21). *)
Theorem C87_notified : forall s t i sm tk, reachable s -> ubs s = None -> nobody_wakes s -> hangs_at s t i sm tk ->
  exists a b f, trace s = a ++ EvWaiter t sm i tk f :: b /\
  (struck_out i sm b \/ (In (i, tk) (waiters sm (trace s)) /\ unnotified sm (i, tk) b)).
Proof. exact InvHangMx.hang_sem. Qed.
Print Assumptions C87_notified.

(** The execution of C27: the worker sleeps although the mutex is free. *)
Example C87_example : exists s, play st0 PropsMutex.sc27 = Some s /\ ubs s = None /\ nobody_wakes s /\ hangs_at s 5 2 (SMx 0) 0 /\ mx_holder 0 (trace s) = None.
Proof.
  eexists. split; [vm_compute; reflexivity|]. split; [reflexivity|]. split.
  { intros t f. destruct t as [|[|[|[|[|[|t]]]]]]; vm_compute; intros J; repeat destruct J as [<-|J]; try reflexivity; destruct J. }
  split; [|vm_compute; reflexivity].
  split; [split; [do 3 eexists; vm_compute; reflexivity|split; [vm_compute; auto|vm_compute; reflexivity]]|]. do 5 eexists. vm_compute. reflexivity.
Qed.
(** Main waits at a condition variable that nobody notifies. *)
Example C87_example_cv : exists s, play st0 [Call 0 AInit; Call 0 (AULock 0); Call 0 (ACvWait 0 0)] = Some s /\ ubs s = None /\ nobody_wakes s /\
  hangs_at s 0 1 (SCv 0) 0 /\ waiters (SCv 0) (trace s) = [(1, 0)].
Proof.
  eexists. split; [vm_compute; reflexivity|]. split; [reflexivity|]. split.
  { intros t f. destruct t; vm_compute; intros J; repeat destruct J as [<-|J]; try reflexivity; destruct J. }
  split; [|vm_compute; reflexivity].
  split; [split; [do 3 eexists; vm_compute; reflexivity|split; [vm_compute; auto|vm_compute; reflexivity]]|]. do 5 eexists. vm_compute. reflexivity.
Qed.
(** The execution of C21: the outer wait is not registered any more. *)
Example C87_example_struck : exists s, play st0 PropsCv.sc21 = Some s /\ ubs s = None /\ nobody_wakes s /\ hangs_at s 0 1 (SCv 0) 0 /\ waiters (SCv 0) (trace s) = [].
Proof.
  eexists. split; [vm_compute; reflexivity|]. split; [reflexivity|]. split.
  { intros t f. destruct t; vm_compute; intros J; repeat destruct J as [<-|J]; try reflexivity; destruct J. }
  split; [|vm_compute; reflexivity].
  split; [split; [do 3 eexists; vm_compute; reflexivity|split; [vm_compute; auto|vm_compute; reflexivity]]|]. do 5 eexists. vm_compute. reflexivity.
Qed.
