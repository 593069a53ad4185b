(** * Why a wait for a future does not return (C86). *)
From Verif Require Import Types Core State Ops Code Machine Scenario Spec SpecKind SpecOwn SpecPool SpecWhen SpecBegun SpecRest SpecRestWhen SpecState SpecStall SpecRoot SpecHang PropsRest PropsReadySeen.
From Verif Require InvHang.

(** C86: no thread is about to wake up others, and a thread sleeps in a wait for a future and cannot go on.  Then its
    registration was removed by a wait inside this wait (C74), or the future has no result. *)
Theorem C86_unready : forall s t i p tk, reachable s -> ubs s = None -> nobody_wakes s -> hangs_in s t i p tk ->
  struck_off t i p tk (trace s) \/ ~ is_ready p (trace s).
Proof. exact InvHang.hang_unready. Qed.
Print Assumptions C86_unready.
(** In the second case, when no thread is busy inside the library, it depends on a promise of the user, a job that waits
    or a closure in a queue. *)
Theorem C86_cause : forall s t i p tk, reachable s -> ubs s = None -> at_rest s -> hangs_in s t i p tk ->
  struck_off t i p tk (trace s) \/
  exists r, hangs s p r /\ ~ is_ready r (trace s) /\ (of_promise s r \/ (exists pl j, of_job s r pl j) \/ exists c, in_queue s r c).
Proof. exact InvHang.hang_cause. Qed.
Print Assumptions C86_cause.
(** If every context sleeps for good: on a promise of the user, or on a job with a category too low for the sleeping workers. *)
Theorem C86_stalled : forall s t i p tk, reachable s -> ubs s = None -> at_rest s -> all_stalled s -> hangs_in s t i p tk ->
  struck_off t i p tk (trace s) \/
  exists r, hangs s p r /\ ~ is_ready r (trace s) /\ (of_promise s r \/ exists pl j, of_job s r pl j /\
    forall g lv n c, group_of pl j (trace s) = Some g -> In (lv, (n, c)) (workers_of pl (trace s)) -> stalled s n c -> g_level g < lv).
Proof. exact InvHang.hang_stalled. Qed.
Print Assumptions C86_stalled.

(** Main waits for a when_all (state 7) of the continuation (6) of a job (0) that no worker may take. *)
Example C86_example : exists s, play st0 (sc82 ++ [Call 0 (AWhenAll [3]); Call 0 (AFWait 4)]) = Some s /\ ubs s = None /\ at_rest s /\ all_stalled s /\
  hangs_in s 0 1 7 0 /\ ~ is_ready 7 (trace s) /\ map fs_cbs [h_fsts (hp s) 6; h_fsts (hp s) 0] =
    [[mkCb 1 LOther (TPack 8 (BAll 0 0 6))]; [mkCb 1 LOther (TPack 6 (BThen 0 false 13 []))]] /\ jobs_of 0 (trace s) = [1].
Proof.
  eexists. split; [vm_compute; reflexivity|]. split; [reflexivity|]. split.
  { intros t f. destruct t as [|[|[|[|[|[|t]]]]]]; vm_compute; intros J; repeat destruct J as [<-|J]; try reflexivity; destruct J. }
  split.
  { intros c Al. destruct c as [|[|[|c]]]; vm_compute in Al; try discriminate Al; clear Al.
    - exists 0. split; [do 3 eexists; vm_compute; reflexivity|]. split; [vm_compute; auto|vm_compute; reflexivity].
    - exists 5. split; [do 3 eexists; vm_compute; reflexivity|]. split; [vm_compute; auto|vm_compute; reflexivity]. }
  split.
  { split; [split; [do 3 eexists; vm_compute; reflexivity|split; [vm_compute; auto|vm_compute; reflexivity]]|]. do 6 eexists. vm_compute. reflexivity. }
  split; [vm_compute; congruence|]. split; vm_compute; reflexivity.
Qed.
(** The execution of C74: main hangs although the future is ready, since a wait inside its wait removed it from the list. *)
Example C86_example_struck : exists s, play st0 (sc74 ++ [Lb (LRet 5 VUnit); Rn 5 0 20]) = Some s /\ ubs s = None /\ at_rest s /\ hangs_in s 0 1 0 0 /\
  struck_off 0 1 0 0 (trace s) /\ outcome_of 0 (trace s) = Some (OVal (VNat 7)).
Proof.
  eexists. split; [vm_compute; reflexivity|]. split; [reflexivity|]. split.
  { intros t f. destruct t as [|[|[|[|[|[|t]]]]]]; vm_compute; intros J; repeat destruct J as [<-|J]; try reflexivity; destruct J. }
  split.
  { split; [split; [do 3 eexists; vm_compute; reflexivity|split; [vm_compute; auto|vm_compute; reflexivity]]|]. do 6 eexists. vm_compute. reflexivity. }
  split; [|vm_compute; reflexivity].
  match goal with |- struck_off _ _ _ _ ?tr => exists (firstn 32 tr), (skipn 33 tr), true, 0 end.
  split; [vm_compute; reflexivity|]. vm_compute. repeat first [left; reflexivity | right].
Qed.
