(** * Job handles and the pools they were made by (C67). *)
From Verif Require Import Types Core State Ops Code Machine Scenario Spec SpecApi SpecUb SpecHandle.
From Verif Require SpecPoolApi InvHandle PropsPool PropsMutex.

(** C67: a call through a handle that outlived its pool does nothing, provided that the
    pool object was never moved; *)
Theorem C67_outlived : forall s, reachable s ->
  each_return (fun t cl tr r => forall x o j, by_handle (cl_api cl) = Some (Some x, o, j) -> outlived o x j (cl_pre cl) -> stays_put o tr ->
    cl_acts cl = [] /\ r = RUnit) (trace s).
Proof. exact InvHandle.handle_idle. Qed.
Print Assumptions C67_outlived.
(** a call through a handle whose pool is there during the whole call works on that pool; *)
Theorem C67_works : forall s, reachable s ->
  each_return (fun t cl tr r => forall x o j, by_handle (cl_api cl) = Some (Some x, o, j) -> (forall m, moment cl tr m -> sent_of o m = Some x) ->
    r = RUnit /\ SpecPoolApi.on_pool o cl tr (fun pl =>
      match cl_api cl with AJChange _ _ j g => SpecPoolApi.change_spec t pl j g cl tr | _ => SpecPoolApi.stop_spec t pl j cl tr end)) (trace s).
Proof. exact InvHandle.handle_busy. Qed.
Print Assumptions C67_works.
(** in between, it dereferences a null pointer only if the pool is destroyed during the call. *)
Theorem C67_race : forall s t cl o x j o', reachable s -> inside t cl (trace s) -> by_handle (cl_api cl) = Some (Some x, o, j) ->
  issued o x j (cl_pre cl) -> stays_put o (trace s) -> goes_wrong s t (UbNullPool o') ->
  o' = o /\ exists l u, trace s = cl_pre cl ++ l /\ In (EvPoolKill u o) l.
Proof. exact InvHandle.handle_null. Qed.
Print Assumptions C67_race.

(** A job is stopped through its handle; the pool is destroyed; the handle is used once more. *)
Definition sc67 : list cmd := PropsPool.sc_pool ++ [Call 0 (APSched 0 (mkGroup 0 5) true 10 []); Lb (LCall 0 (AJStop (Some 0) 0 1)); Rn 0 0 40].
Definition sc67b : list cmd := sc67 ++ [Lb (LCall 0 (APDestroy 0)); Rn 0 0 40; Rn 5 0 300; Rn 0 0 60; Call 0 (AJStop (Some 0) 0 1)].
Ltac split_at tr n := first [exists (firstn n tr), 0, (skipn (S n) tr); split; [vm_compute; reflexivity|] | split_at tr (S n)].
Example C67_outlived_example : exists s cl, reachable s /\ inside 0 cl (removelast (trace s)) /\ by_handle (cl_api cl) = Some (Some 0, 0, 1) /\
  outlived 0 0 1 (cl_pre cl) /\ stays_put 0 (trace s) /\
  filter (fun e => match e with EvJobErase _ _ _ | EvPoolKill _ _ | EvRet _ (AJStop _ _ _) _ => true | _ => false end) (trace s) =
  [EvJobErase 0 0 [1]; EvRet 0 (AJStop (Some 0) 0 1) RUnit; EvPoolKill 0 0; EvRet 0 (AJStop (Some 0) 0 1) RUnit].
Proof.
  destruct (play st0 sc67b) as [s|] eqn:E; [|vm_compute in E; discriminate E].
  exists s, (List.hd (mkCall AInit [] []) (open_calls 0 (removelast (trace s)))). split; [now apply (play_reachable sc67b)|].
  vm_compute in E. injection E as <-. split; [exists []; vm_compute; reflexivity|]. split; [reflexivity|]. split; [|split; [|vm_compute; reflexivity]].
  - match goal with |- outlived _ _ _ ?tr => split_at tr 0 end. do 6 eexists. vm_compute. tauto.
  - intros t d r H. vm_compute in H. intuition discriminate.
Qed.
Example C67_works_example : exists s cl, reachable s /\ inside 0 cl (removelast (trace s)) /\ by_handle (cl_api cl) = Some (Some 0, 0, 1) /\
  (forall m, moment cl (removelast (trace s)) m -> sent_of 0 m = Some 0) /\ In (EvJobErase 0 0 [1]) (cl_acts cl).
Proof.
  destruct (play st0 sc67) as [s|] eqn:E; [|vm_compute in E; discriminate E].
  exists s, (List.hd (mkCall AInit [] []) (open_calls 0 (removelast (trace s)))). split; [now apply (play_reachable sc67)|].
  vm_compute in E. injection E as <-. split; [exists []; vm_compute; reflexivity|]. split; [reflexivity|]. split; [|vm_compute; tauto].
  intros m (a & b & -> & H). rewrite <- app_assoc in H. remember (a ++ b) as l eqn:El. vm_compute in H. repeat (injection H as H). subst l. clear - H.
  repeat (destruct a as [|e a]; [vm_compute; reflexivity|cbn [app] in H; injection H as <- H]).
  symmetry in H. apply app_eq_nil in H as [-> _]. vm_compute. reflexivity.
Qed.
(** The pool is destroyed while another thread stops a job through its handle, after that
    thread has seen that the pool is there. *)
Definition sc67r : list cmd := PropsMutex.sc_two ++
  [Lb (LCall 0 (APool 0 [(0,1)])); Rn 0 6 40; Rn 6 0 40; Call 0 (APSched 0 (mkGroup 0 5) true 10 []); Call 0 (AInvoke 2 11 []); Rn 5 0 20;
   Lb (LCall 5 (AJStop (Some 0) 0 1)); Rn 5 0 1; Lb (LCall 0 (APDestroy 0)); Rn 0 0 1; Rn 5 0 1].
Example C67_race_example : exists s cl, reachable s /\ inside 5 cl (trace s) /\ by_handle (cl_api cl) = Some (Some 0, 0, 1) /\
  issued 0 0 1 (cl_pre cl) /\ stays_put 0 (trace s) /\ goes_wrong s 5 (UbNullPool 0).
Proof.
  destruct (play st0 sc67r) as [s|] eqn:E; [|vm_compute in E; discriminate E].
  exists s, (List.hd (mkCall AInit [] []) (open_calls 5 (trace s))). split; [now apply (play_reachable sc67r)|].
  vm_compute in E. injection E as <-. split; [eexists; vm_compute; reflexivity|]. split; [reflexivity|]. split; [do 6 eexists; vm_compute; tauto|]. split.
  - intros t d r H. vm_compute in H. intuition discriminate.
  - exists 0. eexists. split; vm_compute; reflexivity.
Qed.
