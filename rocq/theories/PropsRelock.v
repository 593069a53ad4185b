(** * Why a thread locks a mutex that it holds (C64). *)
From Verif Require Import Types Core State Ops Code Machine Scenario Spec SpecApi SpecUb SpecLock SpecRelock.
From Verif Require InvUb InvRelock PropsLock PropsWhen PropsPool.

(** C64 *)
Theorem C64_relock : forall s t l, reachable s -> goes_wrong s t (UbRelock l) -> relock_cause t l (trace s).
Proof. exact InvRelock.relock_holds. Qed.
Print Assumptions C64_relock.

(** Every undefined behaviour is reached by such a step. *)
Theorem C64_wrong_state : forall s u, reachable s -> ubs s = Some u -> exists t s0, reachable s0 /\ goes_wrong s0 t u /\ trace s = trace s0.
Proof. exact InvUb.wrong_state. Qed.
Print Assumptions C64_wrong_state.

(** The four kinds do occur: the user locks a mutex twice; the scenarios of C39, C42
    and C51 lock the mutex of a state, of a combinator and of a pool twice. *)
Definition next_ub (t : tid) (s : st) : option ub := match step s (LStep t 0) with Some s' => ubs s' | None => None end.
Lemma next_wrong : forall s t u, next_ub t s = Some u -> goes_wrong s t u.
Proof. intros s t u H. unfold next_ub in H. destruct (step s (LStep t 0)) as [s'|] eqn:E; [|discriminate H]. exists 0, s'. auto. Qed.
Definition sc64 : list cmd := [Call 0 AInit; Call 0 (AULock 3); Lb (LCall 0 (AULock 3))].
Example C64_example :
  (exists s, reachable s /\ goes_wrong s 0 (UbRelock (LUser 3))) /\ (exists s t, reachable s /\ goes_wrong s t (UbRelock (LState 0))) /\
  (exists s t, reachable s /\ goes_wrong s t (UbRelock (LWhen 0))) /\ (exists s t, reachable s /\ goes_wrong s t (UbRelock (LPool 0))).
Proof.
  assert (W : forall u, (exists s, reachable s /\ ubs s = Some u) -> exists s t, reachable s /\ goes_wrong s t u).
  { intros u (s & R & U). destruct (InvUb.wrong_state s u R U) as (t & s0 & R0 & G & _). eauto. }
  repeat split.
  - destruct (witness sc64 (fun s => next_ub 0 s = Some (UbRelock (LUser 3)))) as (s & R & X); [vm_compute; reflexivity|exists s; split; auto using next_wrong].
  - apply W. destruct PropsLock.C39_swept_refuted as (s & R & U & _). eauto.
  - apply W. destruct PropsWhen.C42_blocking_continuation_refuted as (s & R & U & _). eauto.
  - apply W. destruct PropsPool.C51_schedule_from_job_refuted as (s & R & U & _). eauto.
Qed.
