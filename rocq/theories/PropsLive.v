(** * Memory safety of thread contexts (C56, C59). *)
From Verif Require Import Types Core State Ops Code Machine Scenario Spec SpecLive.
From Verif Require InvLive.

(** A destroyed context is only ever touched by the thread it belonged to, after
    that thread unregistered itself from inside one of its own tasks, or while it
    is still inside unregister_this_thread (whose last act is to destroy the
    tasks left in the queue).  No race between threads leads to such an access. *)
Theorem C59_only_the_owner : forall s t i, reachable s -> touches_dead s t i ->
  left_in_task t i (trace s) \/ leaving t i (trace s).
Proof. exact InvLive.dead_touch. Qed.
Print Assumptions C59_only_the_owner.

(** The second case does happen, so the claim is false: a thread that never ran a
    task unregisters itself; an asynchronous call is still in its queue; its
    destruction breaks the promise, the continuation is launched, and launching
    asks for the id of the current thread, whose context is gone. *)
Definition sc56 : list cmd :=
  [Call 0 AInit; Call 0 (AAsync 1 LAsync true 7 []); Call 0 (AFThen 0 1 LOther true 8 []); Lb (LCall 0 AUnregThis)].
Definition dead_next (s : st) : option ub := match step s (LStep 0 0) with Some s' => ubs s' | None => None end.
Lemma dead_touches : forall s i, dead_next s = Some (UbDeadContext i) -> touches_dead s 0 i.
Proof. intros s i H. unfold dead_next in H. destruct (step s (LStep 0 0)) as [s'|] eqn:E; [|discriminate H]. exists 0, s'. auto. Qed.
Theorem C56_refuted : exists s, reachable s /\
  (forall t i k, ~ In (EvStart t i k) (trace s)) /\ touches_dead s 0 1 /\ leaving 0 1 (trace s).
Proof.
  destruct (witness (sc56 ++ [Rn 0 0 15]) (fun s =>
     forallb (fun e => match e with EvStart _ _ _ => false | _ => true end) (trace s) = true /\
     dead_next s = Some (UbDeadContext 1) /\ attached 0 (trace s) = Some 1 /\
     existsb (fun e => match e with EvUnreg 0 1 => true | _ => false end) (trace s) = true)) as (s & R & X1 & X2 & X3 & X4).
  { vm_compute. repeat split. } exists s. split; [exact R|]. split; [|split; [|split; [exact X3|]]].
  - intros t i k Hin. rewrite forallb_forall in X1. discriminate (X1 _ Hin).
  - now apply dead_touches.
  - apply existsb_exists in X4 as (e & Hin & X4). destruct e; try discriminate X4. destruct t as [|t]; [|discriminate X4].
    destruct i as [|[|i]]; try discriminate X4. exact Hin.
Qed.
Print Assumptions C56_refuted.
(** The first case: the thread unregisters itself inside the task it processes;
    the end of the task decrements a counter of the destroyed context. *)
Definition sc56b : list cmd :=
  [Call 0 AInit; Call 0 (AInvoke 1 7 []); Call 0 AProcess; Call 0 AUnregThis; Lb (LRet 0 VUnit); Rn 0 0 3].
Example C59_example : exists s, reachable s /\ touches_dead s 0 1 /\ left_in_task 0 1 (trace s) /\ ~ leaving 0 1 (trace s).
Proof.
  destruct (witness sc56b (fun s => dead_next s = Some (UbDeadContext 1) /\
     nth_error (trace s) 13 = Some (EvUnreg 0 1) /\ Z.ltb 0 (running_tasks 0 1 (firstn 13 (trace s))) = true /\ attached 0 (trace s) = None)) as (s & R & X1 & X2 & X3 & X4).
  { vm_compute. repeat split. } exists s. split; [exact R|]. split; [|split].
  - now apply dead_touches.
  - apply Z.ltb_lt in X3. exists (firstn 13 (trace s)), (skipn 14 (trace s)). split; auto.
    rewrite <- (firstn_skipn 13 (trace s)) at 1. f_equal.
    clear -X2. revert X2. generalize (trace s), 13. intros l n. revert l. induction n; destruct l; cbn; try discriminate; [congruence|apply IHn].
  - intros [Y _]. congruence.
Qed.
