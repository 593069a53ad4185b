(** * The cause of a future without result (C85). *)
From Verif Require Import Types Core State Ops Code Machine Scenario Spec SpecKind SpecOwn SpecPool SpecWhen SpecBegun SpecRest SpecRestWhen SpecState SpecStall SpecRoot PropsRest.
From Verif Require InvRoot.

(** C85: when no thread is busy inside the library, every future without result depends, through a chain of
    attached continuations and combinators, on a promise of the user that has not been set, on a job that waits
    in its pool, or on a closure in the queue of a context. *)
Theorem C85_root : forall s p x, reachable s -> at_rest s -> purpose_is (trace s) p x -> ~ is_ready p (trace s) ->
  exists r, hangs s p r /\ ~ is_ready r (trace s) /\ (of_promise s r \/ (exists pl j, of_job s r pl j) \/ exists c, in_queue s r c).
Proof. exact InvRoot.root. Qed.
Print Assumptions C85_root.
(** If every context sleeps for good, it depends on a promise of the user or on a job whose category is too low
    for the sleeping workers of its pool. *)
Theorem C85_stalled : forall s p x, reachable s -> ubs s = None -> at_rest s -> all_stalled s -> purpose_is (trace s) p x -> ~ is_ready p (trace s) ->
  exists r, hangs s p r /\ ~ is_ready r (trace s) /\ (of_promise s r \/ exists pl j, of_job s r pl j /\
    forall g lv n i, group_of pl j (trace s) = Some g -> In (lv, (n, i)) (workers_of pl (trace s)) -> stalled s n i -> g_level g < lv).
Proof. exact InvRoot.root_stalled. Qed.
Print Assumptions C85_stalled.
(** The chain leads to older states, so there is no cycle. *)
Theorem C85_older : forall s p r, reachable s -> hangs_on s p r -> r < p.
Proof. exact InvRoot.hangs_older. Qed.
Print Assumptions C85_older.

(** Main makes a when_all (state 7) of the continuation (state 6) of job 1 (state 0), and waits for the job, which
    no worker may take. *)
Example C85_example : exists s, play st0 (sc82 ++ [Call 0 (AWhenAll [3]); Call 0 (APWait 0 1)]) = Some s /\ ubs s = None /\ at_rest s /\ all_stalled s /\
  purpose_is (trace s) 7 (PuWhen 0) /\ ~ is_ready 7 (trace s) /\ hangs_on s 7 6 /\ hangs_on s 6 0 /\ of_job s 0 0 1 /\ g_level (mkGroup 0 5) < 1 /\
  group_of 0 1 (trace s) = Some (mkGroup 0 5) /\ workers_of 0 (trace s) = [(1, (5, 2))].
Proof.
  eexists. split; [vm_compute; reflexivity|]. split; [reflexivity|]. split.
  { intros t f. destruct t as [|[|[|[|[|[|t]]]]]]; vm_compute; intros J; repeat destruct J as [<-|J]; try reflexivity; destruct J. }
  split.
  { intros c Al. destruct c as [|[|[|c]]]; vm_compute in Al; try discriminate Al; clear Al.
    - exists 0. split; [do 3 eexists; vm_compute; reflexivity|]. split; [vm_compute; auto|vm_compute; reflexivity].
    - exists 5. split; [do 3 eexists; vm_compute; reflexivity|]. split; [vm_compute; auto|vm_compute; reflexivity]. }
  split. { right. exists 0, true, 0, [6]. split; [|reflexivity]. vm_compute. repeat first [left; reflexivity | right]. }
  split. { vm_compute. congruence. }
  split.
  { split; [vm_compute; congruence|]. exists (mkCb 1 LOther (TPack 8 (BAll 0 0 6))). split; [vm_compute; left; reflexivity|].
    right. exists true, 0, [6], 0. split; [|split; [reflexivity|]].
    - exists 0. vm_compute. repeat first [left; reflexivity | right].
    - exists 8, 6. reflexivity. }
  split. { split; [vm_compute; congruence|]. exists (mkCb 1 LOther (TPack 6 (BThen 0 false 13 []))). split; [vm_compute; left; reflexivity|left; reflexivity]. }
  split.
  { split; [split|].
    - vm_compute. left. reflexivity.
    - intros H. unfold taken in H. repeat match goal with H : exists _, _ |- _ => destruct H as [? H] end. vm_compute in H.
      repeat (destruct H as [H|H]; [discriminate H|]). exact H.
    - exists 0, (mkGroup 0 5), 0, 1. split; [|left; reflexivity]. vm_compute. repeat first [left; reflexivity | right]. }
  split. { cbn. lia. }
  split; vm_compute; reflexivity.
Qed.
