(** * Worker threads end when asked to (C14). *)
From Verif Require Import Types Core State Ops Code Machine Scenario Spec SpecApi SpecWork.
From Verif Require InvWork PropsApi.

(** A worker between two tasks whose context was asked to exit: whatever it and the other
    threads do next, it takes fewer than [k] (at most 12) further steps between tasks unless
    its thread ends; between tasks it can always take a step; and if it starts and destroys
    no task meanwhile, these are all the steps it takes. *)
Theorem C14_worker_ends : forall s t k ls s', reachable s -> home (stk s t) = Some k ->
  all_along (asked t) s ls -> run s ls = Some s' -> ubs s' = None ->
  since s s' (EvThreadEnd t) \/
  home_steps t s ls < k /\
  (at_home s' t = true -> exists s2, step s' (LStep t 0) = Some s2) /\
  (idle_since t s s' -> own_steps t ls < k).
Proof. exact InvWork.worker_ends. Qed.
Print Assumptions C14_worker_ends.
(** The request lasts: unless the worker attaches itself to a new context. *)
Theorem C14_asked_stays : forall ls s t s', asked t s -> run s ls = Some s' ->
  (forall j, ~ since s s' (EvLoc t (Some j))) -> all_along (asked t) s ls.
Proof. exact InvWork.asked_stays. Qed.
Print Assumptions C14_asked_stays.

(** Thread 5 sleeps in its loop; the main thread asks it to exit; seven steps later it has ended. *)
Definition sc_exit : list cmd := PropsApi.sc_two ++ [Call 0 (ANotifyExit 2)].
Example C14_example : exists s, reachable s /\ home (stk s 5) = Some 7 /\ asked 5 s /\ attached 5 (trace s) = Some 2 /\
  exists s6 s7, run s (repeat (LStep 5 0) 6) = Some s6 /\ home_steps 5 s (repeat (LStep 5 0) 6) = 6 /\ at_home s6 5 = true /\
    run s (repeat (LStep 5 0) 7) = Some s7 /\ trace s7 = trace s6 ++ [EvThreadEnd 5].
Proof.
  destruct (witness sc_exit (fun s => home (stk s 5) = Some 7 /\ attached 5 (trace s) = Some 2 /\
     existsb (fun e => match e with EvExitSet _ 2 => true | _ => false end) (trace s) = true /\
     exists s6 s7, run s (repeat (LStep 5 0) 6) = Some s6 /\ home_steps 5 s (repeat (LStep 5 0) 6) = 6 /\ at_home s6 5 = true /\
       run s (repeat (LStep 5 0) 7) = Some s7 /\ trace s7 = trace s6 ++ [EvThreadEnd 5])) as (s & R & X1 & X2 & X3 & X4).
  { vm_compute. repeat split. do 2 eexists. repeat split. }
  exists s. repeat (split; [assumption|]). split; [|split; assumption].
  intros i E. rewrite X2 in E. injection E as <-. apply existsb_exists in X3 as (e & Hin & X3).
  destruct e; try discriminate X3. exists t. now destruct i as [|[|[|i]]].
Qed.
