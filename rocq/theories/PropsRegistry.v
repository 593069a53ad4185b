(** * Properties of the registry and the task queues (C01, C02, C03, C05, C06, C12, C13). *)
From Verif Require Import Types Core State Ops Code Machine Scenario Spec.
From Verif Require ThmRegistry.

(** Used by the examples: main registers, leaves, registers again; two workers. *)
Definition sc_reg : list cmd :=
  [Call 0 AInit; Call 0 AUnregThis; Call 0 ARegThis; Call 0 ARegThis;
   Lb (LCall 0 (AStdThread 7)); Rn 0 3 10; Rn 3 0 10; Call 3 ARegThis; Call 0 (ARegThread 3)].

(** C01 *)
Theorem C01_ids_never_reused : forall s, reachable s ->
  NoDup (created_ids (trace s)) /\ ~ In invalid_id (created_ids (trace s)).
Proof. exact ThmRegistry.ids_unique. Qed.
Print Assumptions C01_ids_never_reused.
Example C01_example : exists s, play st0 sc_reg = Some s /\ created_ids (trace s) = [1; 2; 3].
Proof. eexists. split; vm_compute; reflexivity. Qed.

(** C02 *)
Theorem C02_registration_idempotent : forall s, reachable s ->
  at_each (fun tr e => match e with
    | EvReg _ n i fresh => forall j, In (n, j) (registered tr) -> i = j /\ fresh = false
    | _ => True end) (trace s).
Proof. exact ThmRegistry.reg_idempotent. Qed.
Print Assumptions C02_registration_idempotent.

Theorem C02_one_id_per_thread : forall s, reachable s ->
  NoDup (reg_ids (trace s)) /\
  (forall n m i, In (n, i) (registered (trace s)) -> In (m, i) (registered (trace s)) -> n = m) /\
  (forall n i j, In (n, i) (registered (trace s)) -> In (n, j) (registered (trace s)) -> i = j).
Proof. exact ThmRegistry.registered_fun. Qed.
Print Assumptions C02_one_id_per_thread.
Example C02_example : exists s, play st0 sc_reg = Some s /\
  registered (trace s) = [(3, 3); (0, 2)] /\ In (EvReg 0 3 3 false) (trace s) /\ In (EvReg 0 0 2 false) (trace s).
Proof. eexists. split; [vm_compute; reflexivity|]. vm_compute. intuition. Qed.

(** C03: what [registered] means (the result of the call is C03_get_all in PropsThread.v) *)
Theorem C03_registered_meaning : forall s, reachable s -> forall i,
  In i (reg_ids (trace s)) <->
  In i (created_ids (trace s)) /\ ~ exists t, In (EvUnreg t i) (trace s).
Proof. exact ThmRegistry.registered_spec. Qed.
Print Assumptions C03_registered_meaning.

(** C05, C06.  Main (id 1) gives its worker (id 2) three tasks; it has started one. *)
Definition sc_queue : list cmd :=
  [Call 0 AInit; Lb (LCall 0 (AThread 0 BLoop)); Rn 0 5 20; Rn 5 0 20;
   Call 0 (AInvoke 2 10 []); Call 0 (AInvoke 2 11 []); Call 0 (AInvoke 2 12 []); Rn 5 0 20].

Theorem C05_fifo : forall s, reachable s -> forall i,
  exists r, accepted i (trace s) = started i (trace s) ++ r.
Proof. exact ThmRegistry.fifo. Qed.
Print Assumptions C05_fifo.
Theorem C05_start_oldest : forall s, reachable s ->
  at_each (fun tr e => match e with
    | EvStart t i k => attached t tr = Some i /\ exists r, accepted i tr = started i tr ++ k :: r
    | _ => True end) (trace s).
Proof. exact ThmRegistry.start_next. Qed.
Print Assumptions C05_start_oldest.
Example C05_example : exists s, play st0 sc_queue = Some s /\
  accepted 2 (trace s) = [TUser 10 []; TUser 11 []; TUser 12 []] /\ started 2 (trace s) = [TUser 10 []].
Proof. eexists. split; vm_compute; auto. Qed.

Theorem C06_tasks_conserved : forall s, reachable s -> forall i,
  accepted i (trace s) = started i (trace s) ++ ctx_pending (h_ctxs (hp s) i).
Proof. exact ThmRegistry.tasks_conserved. Qed.
Print Assumptions C06_tasks_conserved.
Theorem C06_dropped_exactly : forall s, reachable s ->
  at_each (fun tr e => match e with
    | EvCtxGone i ts => accepted i tr = started i tr ++ ts /\ ~ In i (reg_ids tr)
    | _ => True end) (trace s).
Proof. exact ThmRegistry.dropped_exact. Qed.
Print Assumptions C06_dropped_exactly.
Example C06_example : exists s, play st0 (sc_queue ++
    [Call 5 AUnregThis; Rn 5 0 10; Rn 5 0 20]) = Some s /\
  In (EvCtxGone 2 [TUser 11 []; TUser 12 []]) (trace s).
Proof. eexists. split; [vm_compute; reflexivity|]. vm_compute. intuition. Qed.

(** C12: blocking *)
Theorem C12_sleeps_only_when_idle : forall s, reachable s ->
  at_each (fun tr e => match e with
    | EvSleep t i => attached t tr = Some i /\ accepted i tr = started i tr /\ ~ exit_requested i tr
    | _ => True end) (trace s).
Proof. exact ThmRegistry.sleep_idle. Qed.
Print Assumptions C12_sleeps_only_when_idle.
Example C12_example : exists s, play st0 sc_queue = Some s /\ In (EvSleep 5 2) (trace s).
Proof. eexists. split; [vm_compute; reflexivity|]. vm_compute. intuition. Qed.
