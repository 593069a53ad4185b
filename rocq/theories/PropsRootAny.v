(** * The cause of a future without result, at any moment (C88). *)
From Verif Require Import Types Core State Ops Code Machine Scenario Spec SpecKind SpecOwn SpecPool SpecState SpecStall SpecRoot SpecRootAny SpecHang.
From Verif Require InvRootAny InvRootProm PropsOwn.

(** C88: at any moment, every future without result depends, through a chain of attached continuations and
    combinators, on a promise of the user, on a closure in the table of a pool or in the queue of a context, or on a
    call in progress on some thread, which holds the closure (for instance since it runs it), sets the result, or
    works on the combinator. *)
Theorem C88_root : forall s p x, reachable s -> purpose_is (trace s) p x -> ~ is_ready p (trace s) ->
  exists r, hangs s p r /\ ~ is_ready r (trace s) /\
    (of_promise s r \/ (exists pl j, in_table s r pl j) \/ (exists c, in_queue s r c) \/ exists t, carried s r t).
Proof. exact InvRootAny.root. Qed.
Print Assumptions C88_root.
(** So this is why a thread hangs in a wait for a future, also while other threads are inside functions of the user. *)
Theorem C88_hang : forall s t i p tk, reachable s -> ubs s = None -> nobody_wakes s -> hangs_in s t i p tk ->
  struck_off t i p tk (trace s) \/
  exists r, hangs s p r /\ ~ is_ready r (trace s) /\
    (of_promise s r \/ (exists pl j, in_table s r pl j) \/ (exists c, in_queue s r c) \/ exists u, carried s r u).
Proof. exact InvRootAny.hang_any. Qed.
Print Assumptions C88_hang.
(** A promise of the user without result is still referred to by a promise object, or by a call in progress, or its
    promise object was assigned another promise (the defect of C36). *)
Theorem C88_promise : forall s p, reachable s -> of_promise s p -> ~ is_ready p (trace s) ->
  (exists pr, prom_of pr (trace s) = Some p) \/ overwritten p (trace s) \/ exists t, carried s p t.
Proof. exact InvRootProm.promise_held. Qed.
Print Assumptions C88_promise.

(** Main waits for a continuation (state 2) of job 1 (state 0).  The worker is inside this job and waits for job 2
    (state 3), which is of a category that the worker does not take. *)
Definition sc88 : list cmd :=
  [Call 0 AInit; Lb (LCall 0 (APool 0 [(1,1)])); Rn 0 5 40; Rn 5 0 40; Call 0 (APSched 0 (mkGroup 1 0) true 11 []); Call 0 (AFThen 0 1 LOther false 13 []); Rn 5 0 60;
   Call 5 (APSched 0 (mkGroup 0 0) true 12 []); Call 5 (AFWait 2); Call 0 (AFWait 1)].
Example C88_example : exists s, play st0 sc88 = Some s /\ ubs s = None /\ nobody_wakes s /\ hangs_in s 0 1 2 1 /\ hangs_in s 5 2 3 0 /\
  map (fun q => outcome_of q (trace s)) [0; 1; 2; 3; 4] = [None; None; None; None; None] /\ hangs_on s 2 0 /\ carried s 0 5 /\ in_table s 3 0 2.
Proof.
  eexists. split; [vm_compute; reflexivity|]. split; [reflexivity|]. split.
  { intros t f. destruct t as [|[|[|[|[|[|t]]]]]]; vm_compute; intros J; repeat destruct J as [<-|J]; try reflexivity; destruct J. }
  split.
  { split; [split; [do 3 eexists; vm_compute; reflexivity|split; [vm_compute; auto|vm_compute; reflexivity]]|]. do 6 eexists. vm_compute. reflexivity. }
  split.
  { split; [split; [do 3 eexists; vm_compute; reflexivity|split; [vm_compute; auto|vm_compute; reflexivity]]|]. do 6 eexists. vm_compute. reflexivity. }
  split; [vm_compute; reflexivity|]. split.
  { split; [vm_compute; congruence|]. exists (mkCb 1 LOther (TPack 2 (BThen 0 false 13 []))). split; [vm_compute; left; reflexivity|left; reflexivity]. }
  split.
  - exists (FCheckEnd 0 1 (TPack 1 (BTask (TPack 0 (BUser 11 []))))). split; [vm_compute; repeat first [left; reflexivity | right]|left; reflexivity].
  - exists (mkJob (mkGroup 0 0) (TPack 4 (BTask (TPack 3 (BUser 12 [])))) 4). split; [vm_compute; right; left; reflexivity|reflexivity].
Qed.
(** The execution of C35: promise object 0 referred to state 2 and refers to state 3 now. *)
Example C88_example_promise : exists s, play st0 PropsOwn.sc35 = Some s /\ of_promise s 2 /\ of_promise s 3 /\
  map (fun q => outcome_of q (trace s)) [2; 3] = [None; None] /\ map (fun pr => prom_of pr (trace s)) [0; 1] = [Some 3; None].
Proof.
  eexists. split; [vm_compute; reflexivity|]. split; [|split; [|split; vm_compute; reflexivity]].
  all: left; exists 0, false; vm_compute; repeat first [left; reflexivity | right].
Qed.
