(** * What precedes undefined behaviour (C62). *)
From Verif Require Import Types Core State Ops Code Machine Scenario Spec SpecApi SpecUb.
From Verif Require InvUb.

(** C62 *)
Theorem C62_misuse : forall s t u, reachable s -> goes_wrong s t u -> misuse t u (trace s).
Proof. exact InvUb.misuse_holds. Qed.
Print Assumptions C62_misuse.

(** The five kinds do occur: the release of a mutex that is not held, a get whose
    future is consumed by a task run while it waits, a call on an object without a
    pool, when_all of the same unique future twice, and set_thread_config of the
    invalid id on a thread that is not registered. *)
Definition next_ub (s : st) : option ub := match step s (LStep 0 0) with Some s' => ubs s' | None => None end.
Lemma next_wrong : forall s u, next_ub s = Some u -> goes_wrong s 0 u.
Proof. intros s u H. unfold next_ub in H. destruct (step s (LStep 0 0)) as [s'|] eqn:E; [|discriminate H]. exists 0, s'. auto. Qed.
Definition sc62a : list cmd := [Call 0 AInit; Lb (LCall 0 (AUUnlock 3))].
Definition sc62b : list cmd :=
  [Call 0 AInit; Call 0 (APromise false); Call 0 (APGetFuture 0); Call 0 (AInvoke 1 11 []); Call 0 (AFGet 0);
   Call 0 (AFThen 0 1 LOther true 8 []); Call 0 (APSet 0 (VNat 5)); Lb (LRet 0 VUnit); Rn 0 0 20; Lb (LRet 0 VUnit)].
Definition sc62c : list cmd := [Call 0 AInit; Lb (LCall 0 (APStopAll 5))].
Definition sc62d : list cmd :=
  [Call 0 AInit; Call 0 (APromise false); Call 0 (APGetFuture 0); Lb (LCall 0 (AWhenAll [0; 0]))].
Definition sc62e : list cmd := [Lb (LCall 0 (ASetConfig invalid_id))].
Example C62_example :
  (exists s, reachable s /\ goes_wrong s 0 (UbUnlock (LUser 3))) /\ (exists s, reachable s /\ goes_wrong s 0 UbNullState) /\
  (exists s, reachable s /\ goes_wrong s 0 (UbNullPool 5)) /\ (exists s, reachable s /\ goes_wrong s 0 UbPrecondition) /\
  (exists s, reachable s /\ goes_wrong s 0 UbNullContext).
Proof.
  repeat split.
  - destruct (witness sc62a (fun s => next_ub s = Some (UbUnlock (LUser 3)))) as (s & R & X); [vm_compute; reflexivity|eauto using next_wrong].
  - destruct (witness (sc62b ++ [Rn 0 0 10]) (fun s => next_ub s = Some UbNullState)) as (s & R & X); [vm_compute; reflexivity|eauto using next_wrong].
  - destruct (witness (sc62c ++ [Rn 0 0 1]) (fun s => next_ub s = Some (UbNullPool 5))) as (s & R & X); [vm_compute; reflexivity|eauto using next_wrong].
  - destruct (witness (sc62d ++ [Rn 0 0 7]) (fun s => next_ub s = Some UbPrecondition)) as (s & R & X); [vm_compute; reflexivity|eauto using next_wrong].
  - destruct (witness (sc62e ++ [Rn 0 0 1]) (fun s => next_ub s = Some UbNullContext)) as (s & R & X); [vm_compute; reflexivity|eauto using next_wrong].
Qed.
