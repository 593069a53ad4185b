(** * InvDrift: what the count of pending tasks is after exceptions. *)
From Verif Require Import Types Core State Ops Code Machine Base Spec SpecApi Rules Events InvCtx InvQueue InvStack Calls Contract Count InvRun ThmApi.

(** While no task of [i] runs, every task that was started has completed or was aborted. *)
Theorem ended_all : forall i s, reachable s -> (forall t, ~ In (FPoEnd i) (stk s t)) ->
  length (started i (trace s)) = completed i (trace s) + aborted i (trace s).
Proof.
  intros i s R N. pose proof (drun_sum i (trace s)) as D.
  rewrite (balance_total (drun i) (trace s)) with (l := nodup Nat.eq_dec (actors (trace s))) in D.
  - assert (Z0 : forall l, sumf (fun t => balance (drun i) t (trace s)) l = 0%Z); [|rewrite Z0 in D; lia].
    induction l as [|t l IH]; [reflexivity|]. cbn [sumf]. rewrite IH, <- run_reachable by auto. specialize (N t).
    induction (stk s t) as [|f fs IHf]; [reflexivity|]. cbn [sumf]. rewrite Z.add_0_r in *. rewrite IHf by (intros I; apply N; now right).
    destruct f; cbn [wrun]; auto. destruct (Nat.eqb_spec c i); [|auto]. subst. destruct N. now left.
  - intros e. destruct e; cbn; auto; discriminate.
  - apply NoDup_nodup.
  - intros x. now rewrite nodup_In.
Qed.
(** So the count is too large by the number of tasks that threw. *)
Theorem count_drift : forall i s, reachable s -> (forall t, ~ In (FPoEnd i) (stk s t)) ->
  pending_of i (trace s) = (Z.of_nat (length (accepted i (trace s)) - length (started i (trace s))) + Z.of_nat (aborted i (trace s)))%Z.
Proof.
  intros i s R N. pose proof (ended_all i s R N) as E. pose proof (pending_sane s R i) as [_ L]. unfold pending_of. lia.
Qed.
