(** * What precedes std::terminate (C63). *)
From Verif Require Import Types Core State Ops Code Machine Scenario Spec SpecApi SpecUb SpecTerm.
From Verif Require InvTerm.

(** C63 *)
Theorem C63_terminate : forall s t, reachable s -> terminates s t ->
  task_threw t (trace s) \/ late_set t (trace s) \/ lost_thread t (trace s).
Proof. exact InvTerm.terminate_cause. Qed.
Print Assumptions C63_terminate.

(** The three reasons do occur: a function invoked on a worker throws; a promise is
    destroyed while another thread satisfies it; a thread object is destroyed while
    another thread joins it. *)
Definition next_ub (t : tid) (s : st) : option ub := match step s (LStep t 0) with Some s' => ubs s' | None => None end.
Lemma next_wrong : forall s t, next_ub t s = Some UbTerminate -> terminates s t.
Proof. intros s t H. unfold next_ub in H. destruct (step s (LStep t 0)) as [s'|] eqn:E; [|discriminate H]. exists 0, s'. auto. Qed.
Definition sc_two : list cmd := [Call 0 AInit; Lb (LCall 0 (AThread 0 BLoop)); Rn 0 5 20; Rn 5 0 20].
Definition sc63a : list cmd := sc_two ++ [Call 0 (AInvoke 2 11 []); Rn 5 0 30; Lb (LThrow 5 (XUser 7)); Rn 5 0 6].
Definition sc63b : list cmd :=
  sc_two ++ [Call 0 (APromise false); Call 0 (AInvoke 2 11 []); Rn 5 0 30; Lb (LCall 5 (APSet 0 (VNat 3))); Rn 5 0 1; Lb (LCall 0 (APDtor 0)); Rn 0 0 2; Rn 5 0 20; Rn 0 0 3].
Definition sc63c : list cmd :=
  sc_two ++ [Lb (LCall 0 (AThread 1 BLoop)); Rn 0 6 20; Rn 6 0 20; Call 0 (AInvoke 2 11 []); Rn 5 0 30; Lb (LCall 5 (AThJoin 1)); Rn 5 0 20;
             Lb (LCall 0 (AThDtor 1)); Rn 0 0 1; Rn 6 0 40; Rn 5 0 20; Rn 0 0 3].
Example C63_example :
  (exists s, reachable s /\ terminates s 5 /\ In (EvUserEnd 5 11 None (RExn (XUser 7))) (trace s)) /\
  (exists s, reachable s /\ terminates s 0 /\ In (EvReady 5 0 (OVal (VNat 3))) (trace s)) /\
  (exists s, reachable s /\ terminates s 0 /\ In (EvThObj 5 1 None 3) (trace s)).
Proof.
  repeat split.
  - destruct (witness sc63a (fun s => next_ub 5 s = Some UbTerminate /\ In (EvUserEnd 5 11 None (RExn (XUser 7))) (trace s))) as (s & R & X & Y); [vm_compute; intuition|exists s; repeat split; auto using next_wrong].
  - destruct (witness sc63b (fun s => next_ub 0 s = Some UbTerminate /\ In (EvReady 5 0 (OVal (VNat 3))) (trace s))) as (s & R & X & Y); [vm_compute; intuition|exists s; repeat split; auto using next_wrong].
  - destruct (witness sc63c (fun s => next_ub 0 s = Some UbTerminate /\ In (EvThObj 5 1 None 3) (trace s))) as (s & R & X & Y); [vm_compute; intuition|exists s; repeat split; auto using next_wrong].
Qed.
