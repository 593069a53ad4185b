(** * Workers start the tasks they were given (C72). *)
From Verif Require Import Types Core State Ops Code Machine Scenario Spec SpecWork SpecServe.
From Verif Require InvServe.

(** C72: a worker in its loop that stays attached to its context and is not asked to exit.
    Whatever it and the other threads do, either all tasks that were accepted before have been
    started, in this order, or the worker has taken at most three steps between tasks for
    each of them, and it can take a step whenever it is between two tasks. *)
Theorem C72_serves : forall s t i ls s', reachable s -> looping (stk s t) = true -> all_along (serving t i) s ls ->
  run s ls = Some s' -> ubs s' = None ->
  (exists r, started i (trace s') = accepted i (trace s) ++ r) \/
  home_steps t s ls <= 3 * waiting i (trace s) /\ (at_home s' t = true -> exists s2, step s' (LStep t 0) = Some s2).
Proof. exact InvServe.worker_serves. Qed.
Print Assumptions C72_serves.
(** It is enough that the worker serves the context at the end and has not attached itself anew. *)
Theorem C72_throughout : forall ls s t i s', serving t i s' -> run s ls = Some s' ->
  (forall j, ~ since s s' (EvLoc t (Some j))) -> all_along (serving t i) s ls.
Proof. exact InvServe.serving_throughout. Qed.
Print Assumptions C72_throughout.

(** Three tasks wait for thread 5, which sleeps.  After twenty steps, six of them between
    tasks, it has started two tasks; with the next step it starts the third. *)
Definition sc72 : list cmd :=
  [Call 0 AInit; Lb (LCall 0 (AThread 0 BLoop)); Rn 0 5 20; Rn 5 0 20;
   Call 0 (AInvoke 2 10 []); Call 0 (AInvoke 2 11 []); Call 0 (AInvoke 2 12 [])].
Definition ls72 : list label := repeat (LStep 5 0) 3 ++ LRet 5 VUnit :: repeat (LStep 5 0) 9 ++ LRet 5 VUnit :: repeat (LStep 5 0) 6.
Definition calm72 (s s' : st) : bool :=
  match attached 5 (trace s') with Some 2 => true | _ => false end &&
  forallb (fun e => match e with EvExitSet _ _ => false | _ => true end) (trace s') &&
  forallb (fun e => match e with EvLoc 5 _ => false | _ => true end) (skipn (length (trace s)) (trace s')).
Lemma calm72_ok : forall s s', run s ls72 = Some s' -> calm72 s s' = true -> all_along (serving 5 2) s ls72.
Proof.
  intros s s' Rn C. apply andb_prop in C as [C C3]. apply andb_prop in C as [C1 C2]. rewrite forallb_forall in C2, C3.
  apply (C72_throughout ls72 s 5 2 s'); auto.
  - split; [destruct (attached 5 (trace s')) as [[|[|[|]]]|]; congruence|]. intros (u & X). apply C2 in X. discriminate X.
  - intros j (a & b & X). apply (f_equal (skipn (length (trace s)))) in X. rewrite skipn_app, skipn_all, Nat.sub_diag in X. cbn [skipn app] in X.
    assert (Y : In (EvLoc 5 (Some j)) (skipn (length (trace s)) (trace s'))) by (rewrite X; apply in_or_app; right; now left).
    apply C3 in Y. discriminate Y.
Qed.
Definition check72 (s : st) : bool :=
  looping (stk s 5) && (waiting 2 (trace s) =? 3) && (home_steps 5 s ls72 =? 6) &&
  match run s ls72 with
  | Some s' => calm72 s s' && at_home s' 5 && (waiting 2 (trace s') =? 1) && match ubs s' with None => true | _ => false end &&
      match step s' (LStep 5 0) with Some s2 => (length (started 2 (trace s2)) =? 3) | None => false end
  | None => false
  end.
Example C72_example : exists s s' s2, reachable s /\ looping (stk s 5) = true /\ waiting 2 (trace s) = 3 /\
  run s ls72 = Some s' /\ ubs s' = None /\ all_along (serving 5 2) s ls72 /\ at_home s' 5 = true /\
  home_steps 5 s ls72 = 6 /\ waiting 2 (trace s') = 1 /\ step s' (LStep 5 0) = Some s2 /\ length (started 2 (trace s2)) = 3.
Proof.
  destruct (witness sc72 (fun s => check72 s = true)) as (s & R & X); [vm_compute; reflexivity|]. unfold check72 in X.
  apply andb_prop in X as [X1 X4]. apply andb_prop in X1 as [X1 X3]. apply andb_prop in X1 as [X1 X2].
  destruct (run s ls72) as [s'|] eqn:Rn; [|discriminate X4].
  apply andb_prop in X4 as [X4 X8]. apply andb_prop in X4 as [X4 X7]. apply andb_prop in X4 as [X4 X6]. apply andb_prop in X4 as [X4 X5].
  destruct (step s' (LStep 5 0)) as [s2|] eqn:St; [|discriminate X8]. destruct (ubs s') eqn:U; [discriminate X7|].
  apply Nat.eqb_eq in X2, X3, X6, X8.
  exists s, s', s2. pose proof (calm72_ok _ _ Rn X4). tauto.
Qed.
