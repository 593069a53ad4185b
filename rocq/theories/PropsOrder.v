(** * The order in which jobs are taken (C70). *)
From Coq Require Import Lia.
From Verif Require Import Types Core State Ops Code Machine Scenario Spec SpecPool SpecOrder.
From Verif Require PropsPool ThmOrder.

(** C70: a worker takes a job for a group the job was given, which is at least as urgent
    as the present group of every job that waits and that the worker may take. *)
Theorem C70_order : forall s, reachable s -> at_each (fun tr e => match e with
  | EvJobTake _ pl j lv g => given pl j g tr /\
      forall j' g', waiting_job pl j' tr -> group_of pl j' tr = Some g' -> lv <= g_level g' -> at_least g g'
  | _ => True end) (trace s).
Proof. exact ThmOrder.order. Qed.
Print Assumptions C70_order.
(** So a job that was never lowered is not taken before a more urgent one. *)
Theorem C70_raised : forall s, reachable s -> at_each (fun tr e => match e with
  | EvJobTake _ pl j lv _ => never_lowered pl j tr -> exists g, group_of pl j tr = Some g /\
      forall j' g', waiting_job pl j' tr -> group_of pl j' tr = Some g' -> lv <= g_level g' -> at_least g g'
  | _ => True end) (trace s).
Proof. exact ThmOrder.raised_order. Qed.
Print Assumptions C70_raised.
(** Job 2 is raised above job 1 and taken first; job 1 waits at that moment. *)
Definition sc70 : list cmd := PropsPool.sc_pool ++
  [Call 0 (APSched 0 (mkGroup 0 2) true 10 []); Call 0 (APSched 0 (mkGroup 0 1) true 11 []); Call 0 (APChange 0 2 (mkGroup 0 9)); Rn 5 0 60].
Fixpoint before_take (tr : list event) : list event :=
  match tr with
  | [] => []
  | EvJobTake _ _ _ _ _ :: _ => []
  | e :: r => e :: before_take r
  end.
Example C70_example : exists s, play st0 sc70 = Some s /\
  nth_error (trace s) (length (before_take (trace s))) = Some (EvJobTake 5 0 2 0 (mkGroup 0 9)) /\
  never_lowered 0 2 (before_take (trace s)) /\ waiting_job 0 1 (before_take (trace s)) /\
  group_of 0 1 (before_take (trace s)) = Some (mkGroup 0 2) /\ group_of 0 2 (before_take (trace s)) = Some (mkGroup 0 9).
Proof.
  destruct (play st0 sc70) as [s|] eqn:E; [|vm_compute in E; discriminate E]. exists s. split; auto.
  vm_compute in E. injection E as <-. split; [vm_compute; reflexivity|]. split; [|split; [split; [vm_compute; auto|]|split; vm_compute; reflexivity]].
  - intros g g1 G H. vm_compute in G. injection G as <-. destruct H as [(t & p & q & H)|(t & H)]; vm_compute in H;
      repeat (destruct H as [H|H]; [try discriminate H|]); try contradiction; injection H; intros; subst; right; cbn; lia.
  - intros (t & lv & g & H). vm_compute in H. repeat (destruct H as [H|H]; [discriminate H|]). contradiction.
Qed.
