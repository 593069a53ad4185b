(** * No thread is stuck (C58). *)
From Verif Require Import Types Core State Ops Code Machine Scenario Spec SpecStuck.
From Verif Require ThmStuck.

(** C58: a thread that has not ended either can move, or it waits for a mutex that another thread
    holds, for its own context, for another thread to end, or in shutdown; and it can move as soon
    as this reason has gone, whatever else has happened. *)
Theorem C58_never_stuck : forall s t, reachable s -> ubs s = None -> stk s t <> [] ->
  can_move s t \/ exists r, waits_for s t r.
Proof. exact ThmStuck.never_stuck. Qed.
Print Assumptions C58_never_stuck.

(** A worker without tasks sleeps; later main joins it and has to wait for it to end. *)
Definition sc_sleep : list cmd := [Call 0 AInit; Lb (LCall 0 (AThread 0 BLoop)); Rn 0 5 20; Rn 5 0 20].
Example C58_example_sleep : exists s, play st0 sc_sleep = Some s /\ ubs s = None /\
  stk s 5 <> [] /\ ~ can_move s 5 /\ ~ lapsed 5 (RWake 2 None) (trace s).
Proof.
  eexists. split; [vm_compute; reflexivity|]. split; [reflexivity|].
  split; [discriminate|]. split. { intros [(c & s' & X)|(inp & s' & X)]; [|destruct inp]; vm_compute in X; discriminate X. }
  intros [X|[[t X]|(d & X & _)]]; vm_compute in X; [now elim X| |discriminate X]. intuition discriminate.
Qed.
Example C58_example_join : exists s, play st0 (sc_sleep ++ [Lb (LCall 0 (AThJoin 0)); Rn 0 0 20]) = Some s /\ ubs s = None /\
  stk s 0 <> [] /\ ~ can_move s 0 /\ ~ lapsed 0 (RJoin 5) (trace s) /\ can_move s 5.
Proof.
  eexists. split; [vm_compute; reflexivity|]. split; [reflexivity|].
  split; [discriminate|]. split. { intros [(c & s' & X)|(inp & s' & X)]; vm_compute in X; discriminate X. }
  split; [vm_compute; discriminate|]. right. exists 0. eexists. vm_compute. reflexivity.
Qed.
